(** What the region of large values over a domain should be. *)
From Verif Require Import Base Model_Text Model_Reference LinAlg Model_Polytope Spec_Polytope Model_Region Spec_Region
  Model_ExponentPair Spec_ExponentPair Model_LargeValues Spec_LargeValues.
Open Scope list_scope.

(** The estimates that are combined: large value estimates of the set, their
    transforms, and zeta large value estimates if they are asked for. *)
Definition used_estimate (hs : list lnode) (zeta : bool) (g : lnode) : Prop :=
  (In g hs /\ is_lv g = true) \/
  (exists t k h, In t hs /\ l_data t = DLVTrans k /\ In h hs /\ is_lv h = true /\ raise_to_power k h = Ret g) \/
  (zeta = true /\ In g hs /\ is_zlv g = true).

(** The points of the domain that no estimate excludes. *)
Definition allowed (hs : list lnode) (zeta : bool) (dom : region) (x : point) : Prop :=
  denote dom x /\ forall g r, used_estimate hs zeta g -> region_of g = Ret r -> denote r x.

(** Estimates built from bounded polytopes that are not flat. *)
Definition usable_estimates (hs : list lnode) (zeta : bool) : Prop :=
  forall h r, In h hs -> is_lv h = true \/ (zeta = true /\ is_zlv h = true) -> region_of h = Ret r ->
    disjoint_form r /\ leaves (solid 3) r.
Definition nonzero_powers (hs : list lnode) : Prop := forall t k, In t hs -> l_data t = DLVTrans k -> ~ k == 0.

(** Strictly inside the range in which estimates are recorded. *)
Definition well_in_range (s t u : Q) : Prop :=
  1#2 < s /\ s < 1 /\ 0 < t /\ t < TAU_UPPER_LIMIT /\ 0 < u /\ u < LV_DEFAULT_UPPER_BOUND.

(** Each bound is the first to allow something. *)
Definition each_needed (bounds : list (list Q)) : Prop :=
  forall pre b post, bounds = pre ++ b :: post ->
    exists s t u, well_in_range s t u /\ u < bound_at b s t /\ Forall (fun a => bound_at a s t < u) pre.

(** Large values in the recorded range, of the zeta function if asked for. *)
Definition occurs (W : lworld) (zeta : bool) (s t u : Q) : Prop :=
  in_range s t u /\ if zeta then 2 <= t /\ zlv W s t u else lv W s t u.

(** A world in which LV(s, t) can exceed 2 - 2s for t near 2 and s near 1/2. *)
Definition wide_world (Z : zworld) : lworld :=
  mkLW Z (fun s t r => r <= 2 - 2 * s \/ (s <= 3#5 /\ 19#10 <= t /\ t <= 2 /\ r <= 8#5)) (fun _ _ _ => False).
