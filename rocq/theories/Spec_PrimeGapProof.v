(** C74: what the additive energy bounds entered for the prime gap computation say. *)
From Verif Require Import Base Model_LargeValues Spec_LargeValues Model_AdditiveEnergy Spec_AdditiveEnergy Model_DensityEstimate Spec_DensityEstimate Model_DensityEnergy Spec_DensityEnergy.
From Coq Require Import Reals Qreals.
Local Open Scope Q_scope.

(** A*(s) is at most g(s) / (1 - s) on [a, b). *)
Definition energy_on (W : aworld) (a b : Q) (g : Q -> Q) : Prop := forall s, a <= s -> s < b -> ze W s (Q2R (g s / (1 - s))).
(** The five bounds of the table in the literature *)
Definition bound_1 (s : Q) : Q := 5 * (18 - 19 * s) / (2 * (5 * s + 3)).
Definition bound_2 (s : Q) : Q := 2 * (45 - 44 * s) / (2 * s + 15).
Definition bound_3 (s : Q) : Q := (197 - 220 * s) / (8 * (5 * s - 1)).
Definition bound_4 (s : Q) : Q := 3 * (29 - 30 * s) / (5 * (5 * s - 1)).
Definition bound_5 (s : Q) : Q := (40 - 36 * s) / (20 * s - 5).
(** The table with the changes from the first to the second and from the fourth to the
    fifth bound at c and d *)
Definition energy_entered (W : aworld) (c d : Q) : Prop :=
  energy_on W (7#10) c bound_1 /\ energy_on W c (3#4) bound_2 /\ energy_on W (3#4) (289#380) bound_3 /\ energy_on W (289#380) d bound_4 /\ energy_on W d (5#6) bound_5.
(** The first two *)
Definition first_entered (c s : Q) : Q := if Qlt_le_dec s c then bound_1 s else bound_2 s.
(** Between the place where the two are equal, which is a root of this polynomial, and
    the place c where the table changes *)
Definition between (c s : Q) : Prop := 690 * s * s - 1617 * s + 810 < 0 /\ s < c.
(** All five *)
Definition entered (c d s : Q) : Q :=
  if Qlt_le_dec s c then bound_1 s else if Qlt_le_dec s (3#4) then bound_2 s else if Qlt_le_dec s (289#380) then bound_3 s else if Qlt_le_dec s d then bound_4 s else bound_5 s.
(** Theorem "Heath-Brown's additive energy bound" on the same range *)
Definition heath_brown_value (s : Q) : Q := if Qlt_le_dec s (3#4) then (18 - 19 * s) / (4 - 2 * s) else 12 * (1 - s) / (4 * s - 1).
