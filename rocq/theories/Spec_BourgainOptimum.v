(** What the best parameters in Bourgain's large value theorem are, for fixed sigma and
    tau.  Source: large_values.py 190-196 and 329-340, and corollary "optimized Bourgain"
    of the blueprint. *)
From Verif Require Import Base LinAlg.
Open Scope list_scope.
Local Open Scope Q_scope.

(** What the theorem gives with the parameters a1 and a2: the largest of six numbers. *)
Definition with_parameters (a1 a2 s t : Q) : list Q :=
  [a2 + 2 - 2 * s; a1 + a2 * (1#2) + 2 - 2 * s; - a2 + 2 * t + 4 - 8 * s; -(2) * a1 + t + 12 - 16 * s; 4 * a1 + 3 - 4 * s; 4 * a1 + 2 * t - 4 * s].
Definition largest (l : list Q) (v : Q) : Prop := Exists (fun x => x == v) l /\ Forall (fun x => x <= v) l.
(** [v] is the best exponent. *)
Definition best_exponent (s t v : Q) : Prop :=
  (exists a1 a2, 0 <= a1 /\ 0 <= a2 /\ largest (with_parameters a1 a2 s t) v) /\
  forall a1 a2 w, 0 <= a1 -> 0 <= a2 -> largest (with_parameters a1 a2 s t) w -> v <= w.
(** C + A s + B t *)
Definition affine_at (d : list Q) (s t : Q) : Q := nth 0 d 0 + nth 1 d 0 * s + nth 2 d 0 * t.

(** [x] solves the linear program: minimise c.x where A x <= b and x >= 0. *)
Definition satisfies (rows : list (list Q * Q)) (x : list Q) : Prop := Forall (fun r => dot (fst r) x <= snd r) rows /\ Forall (fun v => 0 <= v) x.
Definition minimiser (c : list Q) (rows : list (list Q * Q)) (x : list Q) : Prop :=
  List.length x = List.length c /\ satisfies rows x /\ forall y, List.length y = List.length c -> satisfies rows y -> dot c x <= dot c y.
