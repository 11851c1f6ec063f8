(** What the worked derivations of bounds on A*(sigma) should give. *)
From Verif Require Import Base Model_Text Model_Reference LinAlg Model_Polytope Spec_Polytope Model_Region Spec_Region Model_ExponentPair Spec_ExponentPair
  Model_LargeValues Spec_LargeValues Model_AdditiveEnergy Spec_AdditiveEnergy Model_RationalFunction Spec_RationalFunction
  Model_DensityEstimate Spec_DensityEstimate Model_DensityEnergy Spec_DensityEnergy Model_LiteratureLV Model_LiteratureEnergy Spec_LiteratureEnergy Spec_DerivedDensity.
From Verif Require Spec_Reference.
From Coq Require Import Reals Qreals.
Open Scope list_scope.
Local Open Scope Q_scope.

(** rho is at most the largest of the bounds [B]. *)
Definition lv_relation (B : list (list Q)) : Spec_LiteratureEnergy.relation := fun s t r e z => Exists (fun b => r <= bound_at b s t) B.

(** The relations hold at (s, t, r, e, z) and at all of its powers. *)
Definition obeyed (rels : list Spec_LiteratureEnergy.relation) (ks : list Q) (s t r e z : Q) : Prop :=
  forall rel k, In rel rels -> In k ks -> rel s (t / k) (r / k) (e / k) (z / k).

(** The list is of derived estimates that tile [a, b), and the bound is one with
    [P s] at each rational s. *)
Definition energy_over (l : list anode) (a b : Q) (P : Q -> R -> Prop) : Prop :=
  bounds_tile l (Q2R a) (Q2R b) /\
  forall o, In o l -> exists x i f p r ds, o = ANode (s_of "Derived zero density energy estimate") TEnergy (mkZ x i (Some f)) p r ds /\
    (forall x, Spec_RationalFunction.inside i x -> ~ has_pole f x) /\
    forall s, Spec_RationalFunction.inside i (Q2R s) -> P s (rfval f (Q2R s)).

(** The members of the literature, in some order, that the derivations look for: the large
    value estimates of literature.py 717-835 and Heath-Brown's energy region 2a; the
    names of all others have none of the three texts in them. *)
Definition energy_literature (E : ext) (get : str -> reference) (K : Z) (literature : list enode) : Prop :=
  exists hux hb js bo gm er others,
    add_huxley_large_values_estimate E get = Ret hux /\ add_heath_brown_large_values_estimate E get = Ret hb /\
    add_jutila_large_values_estimate E get K = Ret js /\ add_bourgain_large_values_estimate E get = Ret bo /\
    add_guth_maynard_large_values_estimate E get = Ret gm /\ add_lver_heath_brown_1979b1 E get = Ret er /\
    (forall h, In h others -> Model_Text.contains (s_of "Guth--Maynard large value estimate") (e_name h) = false /\
       Model_Text.contains (s_of "Jutila large value estimate") (e_name h) = false /\
       Model_Text.contains (s_of "Heath-Brown large value energy region 2a") (e_name h) = false) /\
    forall h, In h literature <-> In h (map EBase (hux :: hb :: bo :: gm :: js) ++ er :: others).

(** The bibliography, with a year for Heath-Brown's paper. *)
Definition energy_bibliography (get : str -> reference) : Prop :=
  bibliography get /\ Spec_Reference.proper_year (r_year (get (s_of "heathbrown_zero_1979"))).

(** In each world where the recorded estimates that were used are true, [v] is a bound
    on A*(s). *)
Definition follows_from (E : ext) (get : str -> reference) (used : list (res lnode)) (s v : Q) : Prop :=
  forall tr btr W er, a_admissible W -> add_lver_heath_brown_1979b1 E get = Ret er -> eholds tr btr (ener (dens W)) er ->
    Forall (fun h => forall l, h = Ret l -> lholds tr btr (Spec_AdditiveEnergy.low (ener (dens W))) l) used -> ze W s (Q2R v).

(** The bound of the second derivation: the larger of the two in the literature. *)
Definition energy_2 (s : Q) : Q := qmax (5 * (18 - 19 * s) / (2 * (5 * s + 3))) (2 * (45 - 44 * s) / (2 * s + 15)).
(** The bounds of the fifth and the sixth. *)
Definition energy_5 (s : Q) : Q := qmax ((18 - 19 * s) / (6 * (15 * s - 11))) (3 * (18 - 19 * s) / (4 * (4 * s - 1))).
Definition energy_6 (s : Q) : Q := qmax ((18 - 19 * s) / (2 * (37 * s - 27))) (5 * (18 - 19 * s) / (2 * (13 * s - 3))).
(** The bounds of the fourth, the eighth and the tenth. *)
Definition energy_4 (s : Q) : Q := qmax (qmin ((650 * s - 473) / (5 * (190 * s - 141))) ((72 - 91 * s) / (7 * (11 * s - 8)))) ((5 * (18 - 19 * s)) / (2 * (5 * s + 3))).
Definition energy_8 (s : Q) : Q := qmax ((270 * s - 173) / (16 * (125 * s - 93))) (qmax ((890 * s - 653) / (10 * (125 * s - 93))) ((1151 - 1190 * s) / (20 * (15 * s - 2)))).
Definition energy_10 (s : Q) : Q := qmax (qmin ((730 * s - 533) / (30 * (35 * s - 26))) ((3 * (26 - 33 * s)) / (85 * s - 62))) ((174 - 185 * s) / (31 * s + 2)).
