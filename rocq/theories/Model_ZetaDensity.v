(** Model of the worked proofs of zero density estimates that use a zeta large value
    estimate: derived.py 437-449 and 467-483. *)
From Verif Require Import Base Model_Text Model_Reference LinAlg Model_Polytope Model_Region Model_ExponentPair Model_LargeValues Model_ZetaLargeValues
  Model_LargeValueRegion Model_RationalFunction Spec_RationalFunction Model_ZeroDensity Model_DensityEstimate Model_DensityDerivation Model_DerivedDensity.
From Coq Require Import Reals.
Open Scope list_scope.
Local Open Scope Q_scope.

Section Ext.
Variable E : ext.
Variable order : nat -> list nat -> list nat.
Variable adjacency : mat -> list (list nat).
Variable solve : rfun -> rfun -> list R.
Variable rf_str : rfun -> str.
Variable iteration : list lnode -> list lnode.

(** A list of results of searches as additional hypotheses; see [found]. *)
Definition all_found (os : list (option lnode)) : res (list lnode) :=
  let! ls := mapM found os in Ret (concat ls).

Definition jutila_3 (literature : list lnode) : option lnode := find_keywords literature (fun _ => true) (s_of "Jutila large value estimate, k = 3").
Definition heath_brown_lv (literature : list lnode) : option lnode := find_keywords literature (fun _ => true) (s_of "Heath-Brown large value estimate").
Definition heath_brown_zlv (literature : list lnode) : option lnode := find_keywords literature is_zlv (s_of "Heath-Brown").

(** Lines 437-449 *)
Definition prove_zero_density_heathbrown_1979a (literature : list lnode) : res (list znode) :=
  let! new := all_found [jutila_3 literature; heath_brown_zlv literature] in
  prove_zero_density E order adjacency solve rf_str iteration new (11#14) 1 (Method1 3).
(** Lines 467-483 *)
Definition prove_zero_density_heathbrown_1979b (literature : list lnode) : res (list (list znode)) :=
  let! new := all_found [jutila_3 literature; heath_brown_lv literature; heath_brown_zlv literature] in
  let! z1 := prove_zero_density E order adjacency solve rf_str iteration new (20#23) (25#28) (Method1 3) in
  let! z2 := prove_zero_density E order adjacency solve rf_str iteration new (25#28) 1 (Method1 3) in
  Ret [z1; z2].
End Ext.
