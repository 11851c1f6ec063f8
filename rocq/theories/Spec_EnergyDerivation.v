(** What the bounds on A*(sigma) derived from large value energy regions should
    say. *)
From Verif Require Import Base Model_Text Model_Reference LinAlg Model_Polytope Spec_Polytope Model_Region Spec_Region Model_ExponentPair Spec_ExponentPair
  Model_LargeValues Spec_LargeValues Model_AdditiveEnergy Spec_AdditiveEnergy Model_RationalFunction Spec_RationalFunction
  Model_ZeroDensity Spec_ZeroDensity Model_DensityEstimate Spec_DensityEstimate Model_DensityEnergy Spec_DensityEnergy Model_EnergyDerivation.
From Verif Require Spec_Reference.
From Coq Require Import Reals Qreals.
Open Scope list_scope.
Local Open Scope Q_scope.

(** tau0 = m sigma + c is positive on [a, b], and either below 2 there or above 2
    somewhere. *)
Definition proper_tau0 (m c a b : Q) : Prop :=
  a < b /\ 0 < m * a + c /\ 0 < m * b + c /\
  ((m * a + c < 2 /\ m * b + c < 2) \/ 2 < m * a + c \/ 2 < m * b + c).

(** The pairs (sigma, tau) that a bound on A*(sigma) needs. *)
Definition long_range (m c a b s t : Q) : Prop := a <= s <= b /\ m * s + c <= t <= 2 * (m * s + c).
Definition zeta_range (m c a b s t : Q) : Prop := a <= s <= b /\ 2 <= t <= m * s + c.

(** Hypotheses from which the best regions can be computed. *)
Definition usable_set (hs : list enode) : Prop :=
  usable_lvers hs /\ usable_zlvers hs /\ nonzero_lver_powers hs /\
  Forall (fun h => Spec_Reference.proper_year (r_year (e_ref h))) hs.

(** The tuples that the hypotheses allow over a set of pairs (sigma, tau). *)
Definition allowed (hs : list enode) (zeta : bool) (D : Q -> Q -> Prop) (x : point) : Prop :=
  exists s t r e z, x = [s; t; r; e; z] /\ D s t /\
    0 <= r /\ r <= LV_DEFAULT_UPPER_BOUND /\ 0 <= e /\ e <= LV_DEFAULT_UPPER_BOUND /\ 0 <= z /\ z <= LV_DEFAULT_UPPER_BOUND /\
    forall g R, used_lver hs zeta g -> e_data g = DLVER R \/ e_data g = DZLVER R -> denote R x.

(** A list of polytopes for a set, up to boundaries. *)
Definition pieces_for (S : point -> Prop) (ps : list lpoly) : Prop :=
  Forall (solid 5) ps /\
  (forall x p, In p ps -> member (body p) x -> S x) /\
  (forall x, Spec_Region.inside S x -> exists p, In p ps /\ member (body p) x).

(** Exactly one of the polytopes has points. *)
Definition one_nonempty (ps : list lpoly) : Prop :=
  exists l p l', ps = l ++ p :: l' /\ (exists x, member (body p) x) /\ forall q x, In q (l ++ l') -> ~ member (body q) x.

(** Every tuple with sigma = [s] is a limit of points inside the set with larger
    sigma. *)
Definition regular_at (S : point -> Prop) (s : Q) : Prop :=
  forall x, S x -> nth 0 x 0 == s -> forall e, 0 < e -> exists y, near e x y /\ s < nth 0 y 0 /\ Spec_Region.inside S y.

(** A region that consists of one polytope, as a convex estimate does. *)
Definition one_polytope (R : region) : Prop := exists p, R = RPoly p \/ R = RDisj [RPoly p].
