(** What the published relations between the exponents of large value patterns say:
    blueprint, chapter on additive energy.  Arguments are sigma, tau, rho, rho* and s. *)
From Verif Require Import Base Model_Text Model_Reference LinAlg Model_Polytope Spec_Polytope Model_Region Spec_Region Spec_ExponentPair
  Model_LargeValues Spec_LargeValues Model_AdditiveEnergy Spec_AdditiveEnergy.
Open Scope list_scope.

Definition relation : Type := Q -> Q -> Q -> Q -> Q -> Prop.

(** Heath-Brown's bound on double sums *)
Definition hb_double : relation := fun s t r e z => z <= max3 (r + 1) (2 * r) ((5#4) * r + t * (1#2)) + 1.
(** The easy case of the double sums *)
Definition ivic_easy : relation := fun s t r e z => t < 1 -> z <= qmax (r + 1) (2 * r) + 1.
(** The Heath-Brown relation *)
Definition hb_relation : relation := fun s t r e z =>
  e <= 1 - 2 * s + (1#2) * max3 (r + 1) (2 * r) ((5#4) * r + t * (1#2)) + (1#2) * max3 (e + 1) (4 * r) ((3#4) * e + r + t * (1#2)).
(** The simplified Heath-Brown relation *)
Definition hb_simple_bound (s r : Q) : Q := max3 (3 * r + 1 - 2 * s) (r + 4 - 4 * s) ((5#2) * r + (3 - 4 * s) * (1#2)).
Definition hb_simple : relation := fun s t r e z => t <= 3#2 -> e <= hb_simple_bound s r.
(** The second Heath-Brown relation, for one k *)
Definition hb_second (k : Z) : relation := fun s t r e z => let K := inject_Z k in
  r <= qmax (2 - 2 * s) (e * (1#4) + qmax (t * (1#4) + K * (3 - 4 * s) * (1#4)) (K * t * (1#4) + K * (1 - 2 * s) * (1#2))).
(** The Guth-Maynard relation, for one k: both bounds on S_3 are at one's disposal. *)
Definition gm_S1 : Q := -(10).
Definition gm_S2 (k : Z) (t r : Q) : Q := let K := inject_Z k in max3 (2 + 2 * r) (t + 1 + (2 - 1 / K) * r) (2 + 2 * r + (t * (1#2) - r * (3#4)) / K).
Definition gm_S3a (t r e : Q) : Q := 2 * t + r * (1#2) + e * (1#2).
Definition gm_S3b (t r e : Q) : Q := qmax (2 * t + r * (3#2)) (t + 1 + r * (1#2) + e * (1#2)).
Definition gm_with (k : Z) (S3 : Q) (s t r : Q) : Prop := r <= qmax (2 - 2 * s) (1 - 2 * s + max3 gm_S1 (gm_S2 k t r) S3 * (1#3)).
Definition gm_relation (k : Z) : relation := fun s t r e z => gm_with k (gm_S3a t r e) s t r /\ gm_with k (gm_S3b t r e) s t r.
(** The second Guth-Maynard relation, for tau <= 3/2 *)
Definition gm_simple_bound (s r : Q) : Q := qmax (3 * r + 1 - 2 * s) (2 * r + 2 - 2 * s).
Definition gm_simple : relation := fun s t r e z => t <= 3#2 -> e <= gm_simple_bound s r.
(** The third Guth-Maynard relation *)
Definition gm_third_bound (s t r : Q) : Q := max3 (r + 4 - 4 * s) ((21#8) * r + t * (1#4) + 1 - 2 * s) (3 * r + 1 - 2 * s).
Definition gm_third : relation := fun s t r e z => 1 <= t -> t <= 4#3 -> e <= gm_third_bound s t r.

(** What is recorded where a relation holds for a closed range of tau: the range without
    its ends. *)
Definition hb_simple_open : relation := fun s t r e z => t < 3#2 -> e <= hb_simple_bound s r.
Definition gm_simple_open : relation := fun s t r e z => t < 3#2 -> e <= gm_simple_bound s r.
Definition gm_third_open : relation := fun s t r e z => 1 < t -> t < 4#3 -> e <= gm_third_bound s t r.
(** What is recorded for the Guth-Maynard relation: in the place of the first bound on
    S_3, a bound on rho* in terms of rho. *)
Definition gm_recorded (k : Z) : relation := fun s t r e z =>
  (r <= qmax (2 - 2 * s) (1 - 2 * s + qmax gm_S1 (gm_S2 k t r) * (1#3)) \/ 5 * e <= 6 - 12 * s + 4 * t + r) /\ gm_with k (gm_S3b t r e) s t r.

(** The relation holds in a world, for the patterns that are recorded. *)
Definition obeys (W : eworld) (rel : relation) : Prop := forall s t r e z, recorded s t r e z -> en W [s; t; r; e; z] -> rel s t r e z.

(** The hypothesis has the given reference, name and no dependencies; its region can be
    used for computing (Spec_AdditiveEnergy.usable_lvers), its pieces overlap only in
    boundaries, and it consists of the tuples in the range with the given relation. *)
Definition records (h : enode) (ref : reference) (params : str) (rel : relation) : Prop :=
  e_ref h = ref /\ e_deps h = [] /\ e_name h = author_str ref ++ s_of " large value energy region" ++ params /\
  exists R, e_data h = DLVER R /\ disjoint_form R /\ leaves (solid 5) R /\ truly_disjoint R /\
    forall x, denote R x <-> exists s t r e z, x = [s; t; r; e; z] /\ in_range5 s t r e z /\ rel s t r e z.

(** A world with a single tuple. *)
Definition single_world (L : lworld) (p : point) : eworld := mkEW L (fun x => Forall2 Qeq x p) (fun _ => False).
