(** What the zero density estimates derived from two regions of large values
    should say. *)
From Verif Require Import Base Model_Text Model_Reference LinAlg Model_Polytope Spec_Polytope Model_Region Spec_Region Model_ExponentPair Spec_ExponentPair
  Model_LargeValues Spec_LargeValues Spec_LargeValueRegion Model_AdditiveEnergy Spec_AdditiveEnergy Model_RationalFunction Spec_RationalFunction
  Model_ZeroDensity Spec_ZeroDensity Model_DensityEstimate Spec_DensityEstimate Model_LargeValueRegion Model_DensityDerivation.
From Verif Require Spec_Reference.
From Coq Require Import Reals Qreals.
Open Scope list_scope.
Local Open Scope Q_scope.

(** The two regions that a run computes, and the set in between. *)
Definition run_regions (E : ext) (order : nat -> list nat -> list nat) (iteration : list lnode -> list lnode) (hs : list lnode) (a b tau0 : Q)
    (lvr : lnode) (hs' : list lnode) (zlvr : lnode) : Prop :=
  (exists d, rect E [(a, b); (tau0, 2 * tau0); (0, LV_DEFAULT_UPPER_BOUND)] = Ret d /\
     compute_large_value_region E order hs (RPoly (plain d)) false = Ret lvr) /\
  add_zeta_estimates E iteration hs = Ret hs' /\
  (exists d, rect E [(a, b); (2, tau0); (0, LV_DEFAULT_UPPER_BOUND)] = Ret d /\
     compute_large_value_region E order hs' (RPoly (plain d)) true = Ret zlvr).
Definition dated (h : lnode) : Prop := Spec_Reference.proper_year (r_year (l_ref h)).

(** The polytopes of a computed region. *)
Definition region_pieces (h : lnode) (ps : list lpoly) : Prop := region_of h = Ret (RDisj (map RPoly ps)).
Definition usable_pieces (E : ext) (ps : list lpoly) : Prop :=
  forall p, In p ps -> value_polytope (body p) /\ vertices_in_order E (body p).

(** Every piece with points at [s] goes on to the right of [s]. *)
Definition goes_on (ps : list lpoly) (s : Q) : Prop :=
  forall p x, In p ps -> member (body p) x -> nth 0 x 0 == s -> reaches_past (body p) s.

(** No removable poles in the range. *)
Definition plain_over (l : list (piece R)) (a b : Q) : Prop :=
  forall f i r x, In (f, i, r) l -> (Q2R a <= x < Q2R b)%R -> has_pole f x -> reval (Model_RationalFunction.num f) x <> 0%R.

(** The large values with sigma and tau in a rectangle are in the region. *)
Definition covers (W : lworld) (zeta : bool) (a b t0 t1 : Q) (ps : list lpoly) : Prop :=
  forall s t u, a <= s <= b -> t0 <= t <= t1 -> occurs W zeta s t u ->
    exists p, In p ps /\ member (body p) [s; t; u].

(** A world in which LV(s, t) = t for s <= 3/4: there A(s) (1 - s) = 1. *)
Definition full_lv (s t r : Q) : Prop := r <= t /\ (s <= 3#4 \/ r <= 2 - 2 * s).
Definition full_en (s t r e z : Q) : Prop :=
  full_lv s t r /\ 1#2 <= s /\ s <= 1 /\ 0 <= r /\ e == 2 * r /\ r + 2 <= z /\ z <= 2 * r + 2.
Definition full_world (Z : zworld) : dworld :=
  mkDW (mkEW (mkLW Z full_lv (fun _ _ _ => False)) (fun x => exists s t r e z, x = [s; t; r; e; z] /\ full_en s t r e z) (fun _ => False))
    (fun s v => (0 < v)%R /\ (s <= 3#4 -> (1 <= v * (1 - Q2R s))%R)).
