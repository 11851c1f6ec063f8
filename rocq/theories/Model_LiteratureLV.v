(** Model of literature.py 713-848: the large value estimates and the zeta large value
    estimate from the literature.

    [get] stands for [rm.get], the lookup of a reference by its label; the functions
    return the hypotheses that they add to the set [literature]. *)
From Verif Require Import Base Model_Text Model_Reference LinAlg Model_Polytope Model_Region Model_ExponentPair Model_Format Model_LargeValues Model_ZetaLargeValues.
Open Scope list_scope.

Section Ext.
Variable E : ext.
Variable get : str -> reference.

(** Lines 717-720 *)
Definition add_huxley_large_values_estimate : res lnode :=
  literature_bound_LV_max E [[2; -(2); 0]; [4; -(6); 1]] (get (s_of "Huxley")) [].

(** Lines 723-728 *)
Definition add_heath_brown_large_values_estimate : res lnode :=
  literature_bound_LV_max E [[2; -(2); 0]; [10; -(13); 1]] (get (s_of "heathbrown_zero_1979")) [].

(** Lines 732-740; the loop runs over [range(1, K)]. *)
Definition jutila_bounds (k : Z) : list (list Q) :=
  [[2; -(2); 0]; [4 - 2 / inject_Z k; -(6 - 2 / inject_Z k); 1]; [6 * inject_Z k; -(8) * inject_Z k; 1]].
Definition jutila_estimate (k : Z) : res lnode :=
  literature_bound_LV_max E (jutila_bounds k) (get (s_of "jutila_zero_density_1977")) (s_of " with k = " ++ z_str k).
Definition range1 (K : Z) : list Z := map Z.of_nat (seq 1 (Z.to_nat (K - 1))).
Definition add_jutila_large_values_estimate (K : Z) : res (list lnode) := mapM jutila_estimate (range1 K).

(** Lines 744-810, the list [polys] *)
Definition bourgain_polys : list (list (list Q)) :=
  [[[16#3; -(20#3); 1#3; -(1)]; [0; 0; 0; 1]; [10; -(14); 1; 0]; [-(1); 0; 1; 0]; [4; 4; -(5); 0]; [-(11); 16; -(1); 0]];
   [[5; -(7); 3#4; -(1)]; [0; 0; 0; 1]; [8; -(8); -(1); 0]; [-(16); 20; 1#3; 0]; [-(6); 10; -(7#6); 0]; [-(4); -(4); 5; 0]];
   [[3; -(5); 1; -(1)]; [0; 0; 0; 1]; [-(8); 8; 1; 0]; [2; -(6); 2; 0]; [-(10); 14; -(2#3); 0]; [6; -(2); -(2); 0]];
   [[0; -(4); 2; -(1)]; [0; 0; 0; 1]; [-(6); 2; 2; 0]; [-(12); 12; 1; 0]; [TAU_UPPER_LIMIT; 0; -(1); 0]; [1; -(1); 0; 0]];
   [[8; -(12); 4#3; 0]; [0; 0; 0; 1]; [-(1#2); 1; 0; 0]; [15; -(21); 1; 0]; [12; -(12); -(1); 0]; [-(3#2); 0; 1; 0]; [6; -(10); 7#6; 0]];
   [[2; -(2); 0; -(1)]; [0; 0; 0; 1]; [1; -(1); 0; 0]; [-(1#2); 1; 0; 0]; [-(10); 14; -(1); 0]; [-(1); 0; 1; 0]; [TAU_UPPER_LIMIT; 0; -(1); 0]; [-(2); 6; -(2); 0]];
   [[9; -(12); 2#3; -(1)]; [0; 0; 0; 1]; [3#2; 0; -(1); 0]; [-(1#2); 1; 0; 0]; [-(1); 0; 1; 0]; [11; -(16); 1; 0]; [16; -(20); -(1#3); 0]]].
(** Lines 744-827 *)
Definition add_bourgain_large_values_estimate : res lnode :=
  let! p0 := rect E [(1#2, 1); (0, 1); (0, LV_DEFAULT_UPPER_BOUND)] in
  let! ps := mapM (fun rows => Polytope E rows false false) bourgain_polys in
  let region := RDisj (map (fun p => RPoly (plain p)) (p0 :: ps)) in
  let ref := get (s_of "bourgain_large_2000") in
  Ret (LNode (author_str ref ++ s_of " optimized large value estimate") (DLV region None) ref []).

(** Lines 830-835 *)
Definition add_guth_maynard_large_values_estimate : res lnode :=
  literature_bound_LV_max E [[2; -(2); 0]; [18#5; -(4); 0]; [12#5; -(4); 1]] (get (s_of "guth-maynard")) [].

(** Lines 845-847 *)
Definition twelfth_moment_estimate : res lnode :=
  literature_bound_ZLV_Max E [[6; -(12); 2]] (get (s_of "heathbrown_twelfth_1978")) [].
End Ext.
