(** Model of literature.py 850-1094: the large value energy regions from the
    literature.

    [get] stands for [rm.get]; the functions return the hypotheses that they add to
    the set [literature].  [default_constraints()] builds a new list at every call, so
    the rows appended to one do not show up in another. *)
From Verif Require Import Base Model_Text Model_Reference LinAlg Model_Polytope Model_Region Model_ExponentPair Model_Format Model_LargeValues Model_AdditiveEnergy Model_LiteratureLV.
Open Scope list_scope.

(** [region.child.append(c)] *)
Definition append_child (r c : region) : res region :=
  match r with
  | RDisj l => Ret (RDisj (l ++ [c]))
  | RUnion l => Ret (RUnion (l ++ [c]))
  | RInter l => Ret (RInter (l ++ [c]))
  | _ => Raise AttributeError
  end.

Section Ext.
Variable E : ext.
Variable get : str -> reference.

(** [region.child.append(Region(Region_Type.POLYTOPE, Polytope(rect)))] *)
Definition append_rect (r : region) (rect : list (list Q)) : res region :=
  let! p := Polytope E rect false false in append_child r (RPoly (plain p)).

(** Lines 853-871 *)
Definition hb_double_rows : list (list Q) := [[2; 0; 0; 1; 0; -(1)]; [1; 0; 0; 2; 0; -(1)]; [1; 0; 1#2; 5#4; 0; -(1)]].
Definition add_lver_heath_brown_1979 : res enode :=
  let! region := from_union_of_halfplanes E hb_double_rows default_constraints in
  Ret (literature_large_value_energy_region region (get (s_of "heathbrown_large_1979")) (s_of " 1")).

(** Lines 874-896 *)
Definition ivic_rows : list (list Q) := [[2; 0; 0; 1; 0; -(1)]; [1; 0; 0; 2; 0; -(1)]].
Definition add_lver_ivic_1985 : res enode :=
  let! region := from_union_of_halfplanes E ivic_rows (default_constraints ++ [[1; 0; -(1); 0; 0; 0]]) in
  let! region := append_rect region (default_constraints ++ [[-(1); 0; 1; 0; 0; 0]]) in
  Ret (literature_large_value_energy_region region (get (s_of "ivic")) []).

(** Lines 899-938 *)
Definition hb_relation_rows : list (list Q) :=
  [[2; -(2); 0; 1#2; -(1#2); 0]; [3#2; -(2); 0; 1; -(1#2); 0]; [3#2; -(2); 1#4; 5#8; -(1#2); 0];
   [3#2; -(2); 0; 5#2; -(1); 0]; [1; -(2); 0; 3; -(1); 0]; [1; -(2); 1#4; 21#8; -(1); 0];
   [3#2; -(2); 1#4; 1; -(5#8); 0]; [1; -(2); 1#4; 3#2; -(5#8); 0]; [1; -(2); 1#2; 9#8; -(5#8); 0]].
Definition add_lver_heath_brown_1979b1 : res enode :=
  let! region := from_union_of_halfplanes E hb_relation_rows default_constraints in
  Ret (literature_large_value_energy_region region (get (s_of "heathbrown_zero_1979")) (s_of " 2a")).

(** Lines 941-965 *)
Definition hb_simple_rows : list (list Q) := [[1; -(2); 0; 3; -(1); 0]; [4; -(4); 0; 1; -(1); 0]; [3#2; -(2); 0; 5#2; -(1); 0]].
Definition add_lver_heath_brown_1979b2 : res enode :=
  let! region := from_union_of_halfplanes E hb_simple_rows (default_constraints ++ [[3#2; 0; -(1); 0; 0; 0]]) in
  let! region := append_rect region (default_constraints ++ [[-(3#2); 0; 1; 0; 0; 0]]) in
  Ret (literature_large_value_energy_region region (get (s_of "heathbrown_zero_1979")) (s_of " 2b")).

(** Lines 968-986 *)
Definition hb_second_rows (k : Z) : list (list Q) :=
  [[2; -(2); 0; -(1); 0; 0];
   [inject_Z (3 * k) / 4; - inject_Z k; 1#4; -(1); 1#4; 0];
   [inject_Z k / 2; - inject_Z k; inject_Z k / 4; -(1); 1#4; 0]].
Definition hb_second_region (k : Z) : res enode :=
  let! region := from_union_of_halfplanes E (hb_second_rows k) default_constraints in
  Ret (literature_large_value_energy_region region (get (s_of "heathbrown_zero_1979")) (s_of " 3 with k = " ++ z_str k)).
Definition add_lver_heath_brown_1979c (K : Z) : res (list enode) := mapM hb_second_region (range1 K).

(** Lines 988-1037 *)
Definition gm_common (k : Z) : list (list Q) :=
  [[2; -(2); 0; -(1); 0; 0];
   [-(7#3); -(2); 0; -(1); 0; 0];
   [5; -(6); 0; -(1); 0; 0];
   [4; -(6); 1; - (inject_Z (k + 1) / inject_Z k); 0; 0];
   [5#3; -(2); 1 / inject_Z (6 * k); -(1#3) - 1 / inject_Z (4 * k); 0; 0]].
Definition gm_first : list (list Q) := [[1; -(2); 2#3; 1#6; -(5#6); 0]].
Definition gm_second : list (list Q) := [[1; -(2); 2#3; -(1#2); 0; 0]; [4#3; -(2); 1#3; -(5#6); 1#6; 0]].
Definition gm_relation_region (k : Z) : res enode :=
  let! reg1 := from_union_of_halfplanes E (gm_common k ++ gm_first) default_constraints in
  let! reg2 := from_union_of_halfplanes E (gm_common k ++ gm_second) default_constraints in
  Ret (literature_large_value_energy_region (RInter [reg1; reg2]) (get (s_of "guth-maynard")) (s_of " 1 with k = " ++ z_str k)).
Definition add_lver_guth_maynard_2024a (K : Z) : res (list enode) := mapM gm_relation_region (range1 K).

(** Lines 1040-1065 *)
Definition gm_simple_rows : list (list Q) := [[1; -(2); 0; 3; -(1); 0]; [2; -(2); 0; 2; -(1); 0]].
Definition add_lver_guth_maynard_2024b : res enode :=
  let! region := from_union_of_halfplanes E gm_simple_rows (default_constraints ++ [[3#2; 0; -(1); 0; 0; 0]]) in
  let! region := append_rect region (default_constraints ++ [[-(3#2); 0; 1; 0; 0; 0]]) in
  Ret (literature_large_value_energy_region region (get (s_of "guth-maynard")) (s_of " 2")).

(** Lines 1067-1094 *)
Definition gm_third_rows : list (list Q) := [[4; -(4); 0; 1; -(1); 0]; [1; -(2); 1#4; 21#8; -(1); 0]; [1; -(2); 0; 3; -(1); 0]].
Definition add_lver_guth_maynard_2024c : res enode :=
  let! region := from_union_of_halfplanes E gm_third_rows (default_constraints ++ [[4#3; 0; -(1); 0; 0; 0]; [-(1); 0; 1; 0; 0; 0]]) in
  let! region := append_rect region (default_constraints ++ [[-(4#3); 0; 1; 0; 0; 0]]) in
  let! region := append_rect region (default_constraints ++ [[1; 0; -(1); 0; 0; 0]]) in
  Ret (literature_large_value_energy_region region (get (s_of "guth-maynard")) (s_of " 3")).
End Ext.
