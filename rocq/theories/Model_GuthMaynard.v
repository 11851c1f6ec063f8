(** Model of the derivations of large value estimates in derived.py 220-272.

    A set of hypotheses is given by the list of its members; [iteration] is the order
    in which the members of a set that the code builds are met.  What is printed is
    returned. *)
From Verif Require Import Base Model_Text Model_Reference LinAlg Model_Polytope Model_Region Model_Format Model_ExponentPair
  Model_LargeValues Model_AdditiveEnergy Model_BourgainOptimum.
Open Scope list_scope.

(** hypotheses.py 197-212, [find_hypothesis] with [keywords] only *)
Definition e_keyword_match (keywords : str) (h : enode) : bool :=
  forallb (fun k => Model_Text.contains (strip k) (e_name h)) (Model_Text.split [","%char] keywords).
Definition e_find (literature : list enode) (keywords : str) : option enode := find (e_keyword_match keywords) literature.
(** hypotheses.py 170-173, [add_hypothesis], takes None as well; the type of a
    member is asked for when the members of a set are listed (189-194). *)
Definition e_found (o : option enode) : res enode :=
  match o with Some h => Ret h | None => Raise AttributeError end.

(** derived.py 240-242 *)
Definition gm_first_keywords : str := s_of "Guth--Maynard large value energy region 1 with k = 2".
Definition gm_second_keywords : str := s_of "Guth--Maynard large value energy region 2".
Definition gm_third_keywords : str := s_of "Guth--Maynard large value energy region 3".

(** [region.child] of a union; the child of a polytope region is no list. *)
Definition child_list (r : region) : res (list region) :=
  match r with
  | RUnion rs | RDisj rs | RInter rs => Ret rs
  | _ => Raise TypeError
  end.
(** [r.child] as a polytope: the other methods of a region's child are not there. *)
Definition child_polytope (r : region) : res polytope :=
  match r with RPoly p => Ret (body p) | _ => Raise AttributeError end.

(** derived.py 234-268, [prove_guth_maynard_large_values_theorem]: the polytope [poly]
    and the text that is printed for it. *)
Section Ext.
Context (E : ext) (order : nat -> list nat -> list nat) (iteration : list enode -> list enode).

Definition gm_tau : Q := 6#5.
Definition gm_names : list str := [s_of "σ"; s_of "τ"; s_of "ρ"].
Definition gm_domain : res polytope := Polytope E [[-(7#10); 1; 0]; [8#10; -(1); 0]] false false.
(** Lines 246-256 *)
Definition gm_slice (hypotheses : list enode) : res region :=
  let! box := rect E [(1#2, 1); (0, TAU_UPPER_LIMIT)] in
  let! lver := compute_best_lver E order hypotheses (RPoly (plain box)) false in
  let! lv := lver_to_lv E order lver in
  let! region := e_region lv in
  rsubstitute [(1%nat, gm_tau)] region.
(** Lines 259-268 *)
Definition gm_simplify (region : region) : res (polytope * str) :=
  let! domain := gm_domain in
  let! rs := child_list region in
  let! polys := mapM (fun r => let! p := child_polytope r in intersect E p domain) rs in
  let! kept := filterM (fun p => let! e := is_empty E p false in Ret (negb e)) polys in
  let! u := try_union E kept in
  match u with
  | None => Raise AttributeError
  | Some poly => let! text := polytope_str poly gm_names in Ret (poly, text)
  end.
Definition prove_guth_maynard_large_values_theorem (literature : list enode) : res (polytope * str) :=
  let! h1 := e_found (e_find literature gm_first_keywords) in
  let! h2 := e_found (e_find literature gm_second_keywords) in
  let! h3 := e_found (e_find literature gm_third_keywords) in
  let! region := gm_slice (iteration [h1; h2; h3]) in
  gm_simplify region.

(** derived.py 220-232, [prove_bourgain_large_values_theorem]: nothing after the first
    call is reached (Prop_BourgainOptimum.optimize_bourgain_refuted); what would follow
    it is not modelled. *)
Definition prove_bourgain_large_values_theorem (rest : region -> res str) : res str :=
  let! lv_hyps := optimize_bourgain_large_value_estimate in rest lv_hyps.

(** derived.py 270-272, [prove_all_large_value_estimates]. *)
Definition prove_all_large_value_estimates (rest : region -> res str) (literature : list enode) : res (polytope * str) :=
  let! _ := prove_bourgain_large_values_theorem rest in
  prove_guth_maynard_large_values_theorem literature.
End Ext.
