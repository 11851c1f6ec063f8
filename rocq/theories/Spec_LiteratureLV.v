(** What the large value theorems in the literature say: blueprint, chapter on large
    values, and chapter on additive energy for those of Guth-Maynard and Bourgain. *)
From Verif Require Import Base LinAlg Model_Polytope Spec_Polytope Model_Region Spec_Region Spec_ExponentPair Model_LargeValues Spec_LargeValues Spec_AdditiveEnergy.
Open Scope list_scope.

(** LV(s, t) is at most the given bound, where estimates are recorded. *)
Definition lv_at_most (W : lworld) (bound : Q -> Q -> Q) : Prop := forall s t r, in_range s t r -> lv W s t r -> r <= bound s t.

Definition huxley_bound (s t : Q) : Q := qmax (2 - 2 * s) (4 + t - 6 * s).
Definition heath_brown_bound (s t : Q) : Q := qmax (2 - 2 * s) (10 + t - 13 * s).
Definition jutila_bound (k : Z) (s t : Q) : Q :=
  let K := inject_Z k in max3 (2 - 2 * s) (t + (4 - 2 / K) - (6 - 2 / K) * s) (t + (6 - 8 * s) * K).
Definition guth_maynard_bound (s t : Q) : Q := max3 (2 - 2 * s) ((18#5) - 4 * s) (t + (12#5) - 4 * s).
(** The twelfth power moment of zeta *)
Definition twelfth_bound (s t : Q) : Q := 2 * t - 12 * (s - (1#2)).

(** ** Bourgain *)
(** The theorem, for the number r of large values of any pattern. *)
Definition bourgain_first (a1 a2 s t r : Q) : Prop := r <= max3 (a2 + 2 - 2 * s) (- a2 + 2 * t + 4 - 8 * s) (-(2) * a1 + t + 12 - 16 * s).
Definition bourgain_second (a1 a2 s t r : Q) : Prop := exists z, 0 <= z /\
  qmax (-(2) * a1 + 2 * s + z + r) (- a1 - a2 * (1#2) + 2 * s + z * (1#2) + r * (3#2)) <=
  (1#2) * max3 (r + 2) (2 * r + 1) (r * (5#4) + t * (1#2) + 1) + (1#2) * max3 (z + 2) (2 * z + 1) (z * (5#4) + t * (1#2) + 1).
Record bourgain_lv_facts (W : lworld) : Prop := {
  bl_theorem : forall a1 a2 s t r, 0 <= a1 -> 0 <= a2 -> 1#2 < s -> s < 1 -> 0 < t -> 0 <= r -> lv W s t r -> bourgain_first a1 a2 s t r \/ bourgain_second a1 a2 s t r;
  bl_trivial : forall s t r, in_range s t r -> lv W s t r -> r <= t;
  bl_huxley : lv_at_most W huxley_bound }.

(** The table "Bounds on LV for 1/2 <= sigma <= 1 and tau >= 1": the bound, the choice
    of alpha_1 and alpha_2, the set. *)
Record table_row : Type := mkTR { tr_bound : Q -> Q -> Q; tr_a1 : Q -> Q -> Q; tr_a2 : Q -> Q -> Q; tr_set : Q -> Q -> Prop }.
Definition bourgain_table : list table_row :=
  [mkTR (fun s t => (16#3) - (20#3) * s + (1#3) * t) (fun s t => (10#3) - (14#3) * s + (1#3) * t) (fun s t => 0)
     (fun s t => 0 <= -(1) + t /\ 0 <= 10 - 14 * s + t /\ 0 <= 4 + 4 * s - 5 * t /\ 0 <= -(11) + 16 * s - t);
   mkTR (fun s t => 5 - 7 * s + (3#4) * t) (fun s t => (7#2) - (9#2) * s + (1#8) * t) (fun s t => -(1) - s + (5#4) * t)
     (fun s t => 0 <= 8 - 8 * s - t /\ 0 <= -(16) + 20 * s + (1#3) * t /\ 0 <= -(6) + 10 * s - (7#6) * t /\ 0 <= -(4) - 4 * s + 5 * t);
   mkTR (fun s t => 3 - 5 * s + t) (fun s t => (9#2) - (11#2) * s) (fun s t => 1 - 3 * s + t)
     (fun s t => 0 <= -(8) + 8 * s + t /\ 0 <= 2 - 6 * s + 2 * t /\ 0 <= -(10) + 14 * s - (2#3) * t /\ 0 <= 6 - 2 * s - 2 * t);
   mkTR (fun s t => -(4) * s + 2 * t) (fun s t => 0) (fun s t => 1 - 3 * s + t)
     (fun s t => 0 <= -(6) + 2 * s + 2 * t /\ 0 <= -(12) + 12 * s + t /\ 0 <= 1 - s);
   mkTR (fun s t => 8 - 12 * s + (4#3) * t) (fun s t => 2 - 2 * s - (1#6) * t) (fun s t => 6 - 10 * s + (4#3) * t)
     (fun s t => 0 <= 15 - 21 * s + t /\ 0 <= 12 - 12 * s - t /\ 0 <= -(3#2) + t /\ 0 <= 6 - 10 * s + (7#6) * t);
   mkTR (fun s t => 2 - 2 * s) (fun s t => 0) (fun s t => 0)
     (fun s t => 0 <= 1 - s /\ 0 <= -(10) + 14 * s - t /\ 0 <= -(1) + t /\ 0 <= -(2) + 6 * s - 2 * t);
   mkTR (fun s t => 9 - 12 * s + (2#3) * t) (fun s t => (3#2) - 2 * s + (1#6) * t) (fun s t => 11 - 16 * s + t)
     (fun s t => 0 <= (3#2) - t /\ 0 <= -(1#2) + s /\ 0 <= -(1) + t /\ 0 <= 11 - 16 * s + t /\ 0 <= 16 - 20 * s - (1#3) * t)].
(** The row with index i *)
Definition row_at (i : nat) : table_row := nth i bourgain_table (mkTR (fun _ _ => 0) (fun _ _ => 0) (fun _ _ => 0) (fun _ _ => True)).
(** A world in which LV(s0, t0) is unbounded, and nothing else is known to be large. *)
Definition one_world (Z : zworld) (s0 t0 : Q) : lworld := mkLW Z (fun s t r => s == s0 /\ t == t0) (fun _ _ _ => False).
