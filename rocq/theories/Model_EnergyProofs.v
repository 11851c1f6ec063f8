(** Model of derived.py 662-998: the worked derivations of bounds on A*(sigma), and
    of the type check in zero_density_energy_estimate.py 193-196.

    A set of hypotheses is given by the list of its members in the order of
    iteration, for which [iteration] stands; [literature] is the set of that name.
    What is printed is left out. *)
From Verif Require Import Base Model_Text Model_Reference LinAlg Model_Polytope Model_Region Model_ExponentPair Model_LargeValues
  Model_AdditiveEnergy Model_RationalFunction Spec_RationalFunction Model_ZeroDensity Model_DensityEstimate Model_DensityDerivation Model_DensityEnergy
  Model_EnergyDerivation.
From Coq Require Import Reals Qreals.
Open Scope list_scope.
Local Open Scope Q_scope.

(** hypotheses.py 197-212 with [keywords], and with [hypothesis_type] *)
Definition e_keyword_match (keywords : str) (h : enode) : bool :=
  forallb (fun k => Model_Text.contains (strip k) (e_name h)) (Model_Text.split [","%char] keywords).
Definition e_find (literature : list enode) (keywords : string) : option enode :=
  find (e_keyword_match (s_of keywords)) literature.
Definition e_find_zlv (literature : list enode) : option enode := find e_is_zlv literature.
(** [add_hypothesis(None)]: the type of None is asked for when the members of the set
    are listed. *)
Definition e_found (o : option enode) : res enode := match o with Some h => Ret h | None => Raise AttributeError end.

Section Ext.
Variable E : ext.
Variable order : nat -> list nat -> list nat.
Variable adjacency : mat -> list (list nat).
Variable solve : rfun -> rfun -> list R.
Variable rf_str : rfun -> str.
Variable iteration : list enode -> list enode.
Variable literature : list enode.

(** The members that the derivations add one after the other. *)
Definition with_powers (ks : list Q) (members : list enode) : list enode :=
  iteration (map get_raise_to_power_hypothesis ks ++ members).
(** [hypotheses.add_hypotheses(ad.lv_to_lver(hypotheses, zeta))] *)
Definition add_lvers (hs : list enode) (zeta : bool) : res (list enode) :=
  let! new := lv_to_lver hs zeta in Ret (iteration (hs ++ new)).
(** The searches by [keywords], in order *)
Definition find_all (keywords : list string) : res (list enode) := mapM (fun k => e_found (e_find literature k)) keywords.
(** What the derivations 3 to 10 have in common *)
Definition energy_derivation (ks : list Q) (members : res (list enode)) (m c a b : Q) : res (list anode) :=
  let! members := members in
  let! hs := add_lvers (with_powers ks members) false in
  let! hs := add_lvers hs true in
  lver_to_energy_bound E order adjacency solve rf_str hs m c a b.

(** Lines 814-833 *)
Definition prove_zero_density_energy_2 : res (list anode) :=
  let! l2 := large_value_estimate_L2 E in
  let! found := find_all ["Guth--Maynard large value estimate"; "Heath-Brown large value energy region 2a"]%string in
  let! hs := add_lvers (with_powers [2; 3; 4] (EBase l2 :: found)) false in
  lver_to_energy_bound E order adjacency solve rf_str hs 0 2 (7#10) (3#4).
(** Lines 835-856 *)
Definition prove_zero_density_energy_3 : res (list anode) :=
  energy_derivation [2; 3; 4]
    (let! h := find_all ["Huxley large value estimate"]%string in let! z := e_found (e_find_zlv literature) in
     let! g := find_all ["Guth--Maynard large value estimate"; "Heath-Brown large value energy region 2a"]%string in Ret (h ++ z :: g))
    8 (-(4)) (3#4) (4#5).
(** Lines 858-874 *)
Definition prove_zero_density_energy_4 : res (list anode) :=
  energy_derivation [2; 3]
    (find_all ["Guth--Maynard large value estimate"; "Jutila large value estimate with k = 10"; "Heath-Brown large value energy region 2a"]%string)
    0 2 (664#877) (31#40).
(** Lines 876-891 *)
Definition prove_zero_density_energy_5 : res (list anode) :=
  energy_derivation [2; 3] (find_all ["Jutila large value estimate with k = 6"; "Heath-Brown large value energy region 2a"]%string) 0 2 (42#55) (79#103).
(** Lines 893-908 *)
Definition prove_zero_density_energy_6 : res (list anode) :=
  energy_derivation [2; 3] (find_all ["Jutila large value estimate with k = 5"; "Heath-Brown large value energy region 2a"]%string) 0 2 (79#103) (84#109).
(** Lines 910-927 *)
Definition prove_zero_density_energy_7 : res (list anode) :=
  energy_derivation [2; 3; 4; 5]
    (let! h := find_all ["Bourgain optimized large value estimate"; "Jutila large value estimate with k = 5"]%string in let! z := e_found (e_find_zlv literature) in
     let! g := find_all ["Heath-Brown large value energy region 2a"]%string in Ret (h ++ z :: g))
    8 (-(4)) (84#109) (5#6).
(** Lines 929-945 *)
Definition prove_zero_density_energy_8 : res (list anode) :=
  energy_derivation [2; 3]
    (find_all ["Guth--Maynard large value estimate"; "Jutila large value estimate with k = 13"; "Heath-Brown large value energy region 2a"]%string)
    0 2 (37#49) (443#586).
(** Lines 947-966 *)
Definition prove_zero_density_energy_9 : res (list anode) :=
  energy_derivation [2; 3]
    (let! h := find_all ["Guth--Maynard large value estimate"; "Jutila large value estimate with k = 12"]%string in let! z := e_found (e_find_zlv literature) in
     let! g := find_all ["Heath-Brown large value energy region 2a"]%string in Ret (h ++ z :: g))
    0 2 (443#586) (373#493).
(** Lines 968-984 *)
Definition prove_zero_density_energy_10 : res (list anode) :=
  energy_derivation [2; 3]
    (find_all ["Guth--Maynard large value estimate"; "Jutila large value estimate with k = 11"; "Heath-Brown large value energy region 2a"]%string)
    0 2 (373#493) (103#136).

(** zero_density_energy_estimate.py 193-196: the first argument of
    [lver_to_energy_bound] has to be a set of hypotheses and the second an Affine. *)
Inductive pyarg : Type := ArgSet (hs : list enode) | ArgAffine (m c a b : Q) | ArgHyp (h : option enode) | ArgInterval (a b : Q) | ArgBool (b : bool).
Definition lver_to_energy_bound_any (x y debug : pyarg) : res (list anode) :=
  match x, y with
  | ArgSet hs, ArgAffine m c a b => lver_to_energy_bound E order adjacency solve rf_str hs m c a b
  | _, _ => Raise ValueError
  end.

(** Lines 662-745, [prove_heath_brown_energy_estimate]: what is returned by the first
    call is not used; [tau0] gives the two domains as in [lver_to_energy_bound]. *)
Definition star_call (hs hsz : list enode) (m c a b : Q) (interval : pyarg) : res (list anode) :=
  let! d1 := lver_domain E m c a b in
  let! s1 := compute_LV_star E order hs (RPoly (plain d1)) false in
  let! d2 := lver_zeta_domain E m c a b in
  let! s2 := compute_LV_star E order hsz (RPoly (plain d2)) true in
  lver_to_energy_bound_any (ArgHyp s1) (ArgHyp s2) interval.
Definition prove_heath_brown_energy_estimate : res (list anode) :=
  let! l2 := large_value_estimate_L2 E in
  let! g := find_all ["Heath-Brown large value energy region 2b"]%string in
  let! hs := add_lvers (with_powers [2; 3; 4] (EBase l2 :: g)) false in
  let! _ := star_call hs hs 0 2 (1#2) (3#4) (ArgInterval (1#2) (3#4)) in
  let! h := find_all ["Huxley large value estimate"]%string in let! z := e_found (e_find_zlv literature) in
  let! g := find_all ["Heath-Brown large value energy region 2a"]%string in
  let! hs := add_lvers (with_powers [2; 3; 4] (h ++ z :: g)) false in
  let! hs := add_lvers hs true in
  star_call hs hs 4 (-(1)) (3#4) (25#28) (ArgInterval (3#4) (25#28)).
(** Lines 747-812, [prove_improved_heath_brown_energy_estimate]; the domain is a
    disjoint union of one polytope. *)
Definition prove_improved_heath_brown_energy_estimate : res (list anode) :=
  let! h := find_all ["Huxley large value estimate"; "Heath-Brown large value energy region 2a"]%string in
  let! hs := add_lvers (with_powers [2; 3; 4] h) false in
  let! d1 := lver_domain E 8 (-(4)) (3#4) (4#5) in
  let! s1 := compute_LV_star E order hs (RDisj [RPoly (plain d1)]) false in
  let! h := find_all ["Huxley large value estimate"]%string in let! z := e_found (e_find_zlv literature) in
  let! g := find_all ["Heath-Brown large value energy region 2a"]%string in
  let! hs := add_lvers (with_powers [2] (h ++ z :: g)) false in
  let! hs := add_lvers hs true in
  let! d2 := lver_zeta_domain E 8 (-(4)) (3#4) (4#5) in
  let! s2 := compute_LV_star E order hs (RDisj [RPoly (plain d2)]) true in
  lver_to_energy_bound_any (ArgHyp s1) (ArgHyp s2) (ArgInterval (1#2) 1).
(** Lines 986-998 *)
Definition prove_all_zero_density_energy_estimates : res Datatypes.unit :=
  let! _ := prove_heath_brown_energy_estimate in
  let! _ := prove_improved_heath_brown_energy_estimate in
  let! _ := prove_zero_density_energy_2 in
  let! _ := prove_zero_density_energy_3 in
  let! _ := prove_zero_density_energy_4 in
  let! _ := prove_zero_density_energy_5 in
  let! _ := prove_zero_density_energy_6 in
  let! _ := prove_zero_density_energy_7 in
  let! _ := prove_zero_density_energy_8 in
  let! _ := prove_zero_density_energy_9 in
  let! _ := prove_zero_density_energy_10 in Ret tt.
End Ext.
