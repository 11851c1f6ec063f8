(** What the zero density estimates derived from large value estimates should say. *)
From Verif Require Import Base Model_Text Model_Reference LinAlg Model_Polytope Spec_Polytope Model_Region Spec_Region Model_ExponentPair Spec_ExponentPair
  Model_LargeValues Spec_LargeValues Spec_LargeValueRegion Model_LargeValueRegion Model_RationalFunction Spec_RationalFunction Model_ZeroDensity Model_DensityEstimate Spec_DensityEstimate
  Model_LiteratureLV Model_DensityDerivation Spec_DensityDerivation.
From Verif Require Spec_Reference.
From Coq Require Import Reals Qreals.
Open Scope list_scope.
Local Open Scope Q_scope.

(** What the estimates rho <= max of the bounds in [B], for [B] in [Bs], say of rho at
    (s, t) when they are raised to the powers in [ks]. *)
Definition permitted (Bs : list (list (list Q))) (ks : list Q) (s t u : Q) : Prop :=
  forall B k, In B Bs -> In k ks -> exists b, In b B /\ u <= k * bound_at b s (t / k).

(** [v] is the largest rho / tau that is permitted with tau in [t0, t1]. *)
Definition largest_ratio (Bs : list (list (list Q))) (ks : list Q) (s t0 t1 : Q) (v : R) : Prop :=
  (exists t u, t0 <= t <= t1 /\ 0 < u /\ permitted Bs ks s t u /\ v = Q2R (u / t)) /\
  forall t u, t0 <= t <= t1 -> permitted Bs ks s t u -> (Q2R (u / t) <= v)%R.

(** Bounds as they occur in the literature: they include 2 - 2 sigma, fall in sigma,
    and none is idle. *)
Definition proper_bounds (B : list (list Q)) : Prop :=
  B <> [] /\ Forall (fun b => List.length b = 3%nat /\ nth 1 b 0 <= -(1)) B /\ each_needed B /\
  exists b, In b B /\ forall s t, bound_at b s t == 2 - 2 * s.

(** A hypothesis that records the maximum of the bounds [B]. *)
Definition records (E : ext) (h : lnode) (B : list (list Q)) : Prop :=
  proper_bounds B /\ Spec_Reference.proper_year (r_year (l_ref h)) /\ convert_bounds E B = Ret (l_data h).

Definition l2_bounds : list (list Q) := [[2; -(2); 0]; [1; -(2); 1]].
Definition powers : list Q := [1; 2; 3; 4; 5].

(** The references that the bibliography gives. *)
Record bibliography (get : str -> reference) : Prop := {
  by_huxley : author_str (get (s_of "Huxley")) = s_of "Huxley";
  by_heath_brown : author_str (get (s_of "heathbrown_zero_1979")) = s_of "Heath-Brown";
  by_jutila : author_str (get (s_of "jutila_zero_density_1977")) = s_of "Jutila";
  by_bourgain : author_str (get (s_of "bourgain_large_2000")) = s_of "Bourgain";
  by_guth_maynard : author_str (get (s_of "guth-maynard")) = s_of "Guth--Maynard";
  jutila_dated : Spec_Reference.proper_year (r_year (get (s_of "jutila_zero_density_1977")));
  guth_maynard_dated : Spec_Reference.proper_year (r_year (get (s_of "guth-maynard"))) }.

(** The hypotheses of the literature in some order: the large value estimates of
    literature.py 717-835, and hypotheses of other types. *)
Definition recorded_literature (E : ext) (get : str -> reference) (K : Z) (literature : list lnode) : Prop :=
  exists hux hb js bo gm others,
    add_huxley_large_values_estimate E get = Ret hux /\ add_heath_brown_large_values_estimate E get = Ret hb /\
    add_jutila_large_values_estimate E get K = Ret js /\ add_bourgain_large_values_estimate E get = Ret bo /\
    add_guth_maynard_large_values_estimate E get = Ret gm /\
    (forall h, In h others -> is_lv h = false /\ Model_Text.contains (s_of "Jutila large value estimate") (l_name h) = false) /\
    forall h, In h literature <-> In h (hux :: hb :: bo :: gm :: js ++ others).

(** The list is of derived estimates that tile [a, b), and the bound is one with
    [P s] at each rational s. *)
Definition derived_over (l : list znode) (a b : Q) (P : Q -> R -> Prop) : Prop :=
  estimates_tile l (Q2R a) (Q2R b) /\
  forall o, In o l -> exists x i f p r ds, o = ZNode (s_of "Derived zero density estimate") (Model_DensityEstimate.mkZ x i (Some f)) p r ds /\
    (forall x, Spec_RationalFunction.inside i x -> ~ has_pole f x) /\
    forall s, Spec_RationalFunction.inside i (Q2R s) -> P s (rfval f (Q2R s)).
