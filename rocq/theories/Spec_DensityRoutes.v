(** What the zero density estimates derived from large value energy regions should
    say. *)
From Verif Require Import Base Model_Text Model_Reference LinAlg Model_Polytope Spec_Polytope Model_Region Spec_Region Model_ExponentPair Spec_ExponentPair
  Model_LargeValues Spec_LargeValues Model_AdditiveEnergy Spec_AdditiveEnergy Model_RationalFunction Spec_RationalFunction
  Model_ZeroDensity Spec_ZeroDensity Model_DensityEstimate Spec_DensityEstimate Model_LargeValueRegion Model_DensityDerivation Spec_DensityDerivation
  Model_EnergyDerivation Spec_EnergyDerivation Model_DensityRoutes.
From Verif Require Spec_Reference.
From Coq Require Import Reals Qreals.
Open Scope list_scope.
Local Open Scope Q_scope.

(** An optional region, given by its polytopes: tuples with tau > 0 and rho >= 0. *)
Definition source (zeta : bool) (h : option enode) (ps : option (list lpoly)) : Prop :=
  match h, ps with
  | None, None => True
  | Some h, Some ps =>
      e_data h = (if zeta then DZLVER else DLVER) (RDisj (map RPoly ps)) /\ Forall (solid 5) ps /\
      (forall p s t r u z, In p ps -> member (body p) [s; t; r; u; z] -> 0 < t /\ 0 <= r) /\
      Forall (fun g => Spec_Reference.proper_year (r_year (e_ref g))) (e_deps h)
  | _, _ => False
  end.
Definition pieces_of (ps : option (list lpoly)) : list lpoly := match ps with Some ps => ps | None => [] end.
Definition deps_of (h : option enode) : list enode := match h with Some h => e_deps h | None => [] end.

(** Why a region cannot be used: it is empty, or a single polytope. *)
Definition no_points (ps : list lpoly) : Prop := forall p x, In p ps -> ~ member (body p) x.
Definition fails (ps : option (list lpoly)) (e : pyexc) : Prop :=
  exists l, ps = Some l /\ ((no_points l /\ e = AttributeError) \/ (one_nonempty l /\ e = TypeError)).

(** The two domains of the second route. *)
Definition zd2_regions (E : ext) (order : nat -> list nat -> list nat) (iteration : list lnode -> list lnode) (hs : list lnode) (m c a b : Q)
    (lvr : lnode) (hs' : list lnode) (zlvr : lnode) : Prop :=
  (exists d, zd2_domain E m c a b = Ret d /\ compute_large_value_region E order hs (RPoly (plain d)) false = Ret lvr) /\
  add_zeta_estimates E iteration hs = Ret hs' /\
  (exists d, zd2_zeta_domain E m c = Ret d /\ compute_large_value_region E order hs' (RPoly (plain d)) true = Ret zlvr).
