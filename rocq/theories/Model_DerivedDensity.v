(** Model of derived.py 277-363 and of the worked proofs of zero density estimates
    that use large value estimates only (365-369, 411-419, 532-542), with
    hypotheses.py 197-212.

    The parameter [method] and the parameter [tau0], whose type depends on it, are
    given together.  A set of hypotheses is given by the list of its members in the
    order of iteration, for which [iteration] stands.  What is printed and plotted is
    left out. *)
From Verif Require Import Base Model_Text Model_Reference LinAlg Model_Polytope Model_Region Model_ExponentPair Model_LargeValues Model_ZetaLargeValues
  Model_LargeValueRegion Model_RationalFunction Spec_RationalFunction Model_ZeroDensity Model_DensityEstimate Model_DensityDerivation Model_DensityRoutes.
From Coq Require Import Reals.
Open Scope list_scope.
Local Open Scope Q_scope.

Inductive zd_method : Type :=
| Method1 (tau0 : Q)          (* [method = 1], [tau0] a number *)
| Method2 (m c : Q)           (* [method = 2], [tau0 = Affine(m, c, ...)] *)
| MethodOther (n : Z).

Section Ext.
Variable E : ext.
Variable order : nat -> list nat -> list nat.
Variable adjacency : mat -> list (list nat).
Variable solve : rfun -> rfun -> list R.
Variable rf_str : rfun -> str.
Variable iteration : list lnode -> list lnode.

(** Lines 325-332: the set of hypotheses. *)
Definition power_transforms (m : zd_method) : list lnode :=
  match m with Method1 _ => map raise_to_power_hypothesis [2; 3; 4; 5] | _ => [] end.
Definition density_hypotheses (additional : list lnode) (m : zd_method) : res (list lnode) :=
  let! l2 := large_value_estimate_L2 E in
  Ret (iteration (l2 :: power_transforms m ++ additional)).

(** Lines 277-363, [prove_zero_density] on [Interval(a, b)]. *)
Definition prove_zero_density (additional : list lnode) (a b : Q) (m : zd_method) : res (list znode) :=
  let! hs := density_hypotheses additional m in
  match m with
  | Method1 tau0 => let! r := lv_zlv_to_zd E order adjacency solve rf_str iteration hs a b tau0 in Ret (fst r)
  | Method2 p q => let! r := lv_zlv_to_zd2 E order adjacency solve rf_str iteration hs p q a b in Ret (fst r)
  | MethodOther _ => Raise NotImplementedError
  end.

(** hypotheses.py 197-212 with [hypothesis_type] and [keywords] *)
Definition keyword_match (keywords : str) (h : lnode) : bool :=
  forallb (fun k => Model_Text.contains (strip k) (l_name h)) (Model_Text.split [","%char] keywords).
Definition find_keywords (literature : list lnode) (typ : lnode -> bool) (keywords : str) : option lnode :=
  find (fun h => typ h && keyword_match keywords h) literature.
(** The set with [None] as a member: its type is asked for. *)
Definition found (o : option lnode) : res (list lnode) :=
  match o with Some h => Ret [h] | None => Raise AttributeError end.

(** Lines 365-369 *)
Definition prove_zero_density_ingham_1940 : res (list znode) := prove_zero_density [] (1#2) (3#4) (Method1 3).
(** Lines 411-419 *)
Definition prove_zero_density_jutila_1977 (literature : list lnode) : res (list znode) :=
  let! new := found (find_keywords literature (fun _ => true) (s_of "Jutila large value estimate, k = 3")) in
  prove_zero_density new (11#14) 1 (Method1 3).
(** Lines 532-542 *)
Definition prove_zero_density_guth_maynard_2024 (literature : list lnode) : res (list znode) :=
  let! new := found (find_keywords literature is_lv (s_of "Guth, Maynard")) in
  prove_zero_density new (7#10) (9#10) (Method1 3).
End Ext.
