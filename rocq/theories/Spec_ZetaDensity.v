(** What the zero density estimates derived from large value estimates and zeta large
    value estimates should say. *)
From Verif Require Import Base Model_Text Model_Reference LinAlg Model_Polytope Spec_Polytope Model_Region Spec_Region Model_ExponentPair Spec_ExponentPair
  Model_LargeValues Spec_LargeValues Spec_LargeValueRegion Model_LargeValueRegion Model_ZetaLargeValues Model_RationalFunction Spec_RationalFunction
  Model_LiteratureLV Spec_DerivedDensity.
From Verif Require Spec_Reference.
From Coq Require Import Reals Qreals.
Open Scope list_scope.
Local Open Scope Q_scope.

(** What the zeta estimates rho <= max of the bounds in [B], for [B] in [Zs], say. *)
Definition zeta_permitted (Zs : list (list (list Q))) (s t u : Q) : Prop :=
  forall B, In B Zs -> exists b, In b B /\ u <= bound_at b s t.

(** [v] is the largest rho / tau that is permitted with tau in [2, 2 tau0], where the
    zeta estimates are used for tau < tau0. *)
Definition largest_zeta_ratio (Bs : list (list (list Q))) (ks : list Q) (Zs : list (list (list Q))) (s tau0 : Q) (v : R) : Prop :=
  (exists t u, 2 <= t <= 2 * tau0 /\ 0 < u /\ permitted Bs ks s t u /\ (t < tau0 -> zeta_permitted Zs s t u) /\ v = Q2R (u / t)) /\
  forall t u, 2 <= t <= 2 * tau0 -> permitted Bs ks s t u -> (t < tau0 -> zeta_permitted Zs s t u) -> (Q2R (u / t) <= v)%R.

(** Bounds that fall in sigma, none of them idle, and not all of them excluding that
    there are large values at tau0. *)
Definition proper_zeta_bounds (tau0 : Q) (B : list (list Q)) : Prop :=
  B <> [] /\ Forall (fun b => List.length b = 3%nat /\ nth 1 b 0 <= -(1)) B /\ each_needed B /\
  forall s, s < 1 -> exists b, In b B /\ 0 < bound_at b s tau0.

(** A hypothesis that records the maximum of the bounds [B] for zeta. *)
Definition records_zeta (E : ext) (tau0 : Q) (h : lnode) (B : list (list Q)) : Prop :=
  proper_zeta_bounds tau0 B /\ Spec_Reference.proper_year (r_year (l_ref h)) /\
  exists r rep, convert_bounds E B = Ret (DLV r rep) /\ l_data h = DZLV r rep.

(** The references that the bibliography gives. *)
Record zeta_bibliography (get : str -> reference) : Prop := {
  zeta_bib : bibliography get;
  heath_brown_dated : Spec_Reference.proper_year (r_year (get (s_of "heathbrown_zero_1979")));
  by_twelfth : r_author (get (s_of "heathbrown_twelfth_1978")) = VStr (s_of "Heath-Brown");
  twelfth_year : r_year (get (s_of "heathbrown_twelfth_1978")) = VInt 1978 }.

(** The literature with the zeta large value estimate of literature.py 845-847, the
    only one of its type. *)
Definition recorded_zeta_literature (E : ext) (get : str -> reference) (K : Z) (literature : list lnode) : Prop :=
  recorded_literature E get K literature /\
  (forall h, In h literature -> is_lv h = false -> Model_Text.contains (s_of "Heath-Brown large value estimate") (l_name h) = false) /\
  exists tw, twelfth_moment_estimate E get = Ret tw /\ In tw literature /\ forall h, In h literature -> is_zlv h = true -> h = tw.
