(** Model of blueprint/src/python/zero_density_estimate.py 389-528: the zero
    density estimates that follow from large value energy regions, and the second
    route from large value estimates.

    A set of hypotheses is given by the list of its members in the order of
    iteration; [iteration] is the order after members have been added.  The range
    of sigma is [Interval(a, b)] with rational ends.  The texts of the proofs are
    shortened: they repeat numbers of dependencies and tau0. *)
From Verif Require Import Base Model_Text Model_Reference LinAlg Model_Polytope Model_Region Model_ExponentPair Model_LargeValues Model_ZetaLargeValues
  Model_AdditiveEnergy Model_LargeValueRegion Model_RationalFunction Spec_RationalFunction Model_ZeroDensity Model_DensityEstimate Model_DensityDerivation Model_EnergyDerivation.
From Coq Require Import Reals Qreals.
Open Scope list_scope.
Local Open Scope Q_scope.

Section Ext.
Variable E : ext.
Variable order : nat -> list nat -> list nat.
Variable adjacency : mat -> list (list nat).
Variable solve : rfun -> rfun -> list R.
Variable rf_str : rfun -> str.
Variable iteration : list lnode -> list lnode.

(** Lines 484-489: the type of the hypothesis, if there is one. *)
Definition is_lver (h : enode) : bool := match e_data h with DLVER _ => true | _ => false end.
Definition is_zlver (h : enode) : bool := match e_data h with DZLVER _ => true | _ => false end.
Definition wrong_type (check : enode -> bool) (h : option enode) : bool :=
  match h with None => false | Some h => negb (check h) end.

(** Lines 497-504 and 506-513: the functions and the dependencies that one region
    adds.  The projection of an empty region is None, which has no [simplify]
    (lines 500, 509). *)
Definition density_functions (h : option enode) (interval : ivl R) : res (list (piece R) * list enode) :=
  match h with
  | None => Ret ([], [])
  | Some h =>
      let! r := e_region h in
      let! proj := rproject E [0; 1; 2]%nat r in
      match proj with
      | None => Raise AttributeError
      | Some proj =>
          let! (_, proj) := simplify E order proj in
          let! polys := energy_polytopes proj in
          let! sup := compute_sup_rho_on_tau E adjacency solve polys interval in
          Ret (sup, e_deps h)
      end
  end.

(** Lines 467-528, [lver_to_zd]; lines 518-519 print the bounds. *)
Definition lver_to_zd (lver zlver : option enode) (a b : Q) : res (list znode) :=
  if wrong_type is_lver lver then Raise ValueError
  else if wrong_type is_zlver zlver then Raise ValueError
  else
    let interval := real_interval (a, b) in
    let! (fns1, deps1) := density_functions lver interval in
    let! (fns2, deps2) := density_functions zlver interval in
    let bounds := map fst (fns1 ++ fns2) in
    let! sup := rf_max R Rltb Reqb Rmid rf_atR solve bounds interval true in
    mapM (fun s => derived_zero_density_estimate (from_rational_func rf_str (fst (fst s)) (snd (fst s)))
        (s_of "Follows from combining large value energy regions and zeta large value energy regions")
        (map ZBase (deps1 ++ deps2))) sup.

(** Lines 417-422 and 428-431: the first domain, tau0 = m sigma + c. *)
Definition zd2_domain (m c a b : Q) : res polytope :=
  Polytope E [[-(2#3) * c; -(2#3) * m; 1; 0]; [c; m; -(1); 0];
    [-a; 1; 0; 0]; [b; -(1); 0; 0]; [0; 0; 0; 1]; [LV_DEFAULT_UPPER_BOUND; 0; 0; -(1)]] false false.
(** Lines 442-445: the second domain. *)
Definition zd2_zeta_domain (m c : Q) : res polytope :=
  Polytope E [[-(2); 0; 1; 0]; [(4#3) * c; (4#3) * m; 1; 0]] false false.

(** Lines 389-465, [lv_zlv_to_zd2]: the result, and the set afterwards. *)
Definition lv_zlv_to_zd2 (hs : list lnode) (m c a b : Q) : res (list znode * list lnode) :=
  let interval := real_interval (a, b) in
  let! d1 := zd2_domain m c a b in
  let! lvr := compute_large_value_region E order hs (RPoly (plain d1)) false in
  let! sup1 := region_sup E adjacency solve lvr interval in
  let! hs' := add_zeta_estimates E iteration hs in
  let! d2 := zd2_zeta_domain m c in
  let! zlvr := compute_large_value_region E order hs' (RPoly (plain d2)) true in
  let! sup2 := region_sup E adjacency solve zlvr interval in
  let! l := pack_bounds solve rf_str sup1 sup2 interval lvr zlvr in
  Ret (l, hs').
End Ext.
