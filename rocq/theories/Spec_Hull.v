(** What is assumed of the external convex hull routine. *)
From Verif Require Import Base Model_Hull.

Definition pt_eq (a b : pt) : Prop := fst a == fst b /\ snd a == snd b.

(** The point dividing the segment [a b] in the ratio [t : 1 - t]. *)
Definition pmix (t : Q) (a b : pt) : pt :=
  ((1 - t) * fst a + t * fst b, (1 - t) * snd a + t * snd b).

(** Least convex set containing [S]. *)
Inductive hull2 (S : pt -> Prop) : pt -> Prop :=
| hull2_in : forall a p, S a -> pt_eq p a -> hull2 S p
| hull2_mix : forall a b t p, hull2 S a -> hull2 S b -> 0 <= t -> t <= 1 ->
    pt_eq p (pmix t a b) -> hull2 S p.

(** [m] lies strictly between [a] and [b]. *)
Definition strictly_between (a m b : pt) : Prop :=
  ~ pt_eq a b /\ exists t, 0 < t /\ t < 1 /\ pt_eq m (pmix t a b).

Definition collinear (pts : list pt) : Prop :=
  forall a b c, In a pts -> In b pts -> In c pts -> cross a b c == 0.

(** A counter-clockwise list of the extreme points. *)
Record is_hull (pts : list pt) (vs : list nat) : Prop := {
  hull_range : Forall (fun i => (i < length pts)%nat) vs;
  (* every point lies to the left of (or on) every edge *)
  hull_left : forall i j p, In (i, j) (cyc_edges vs) -> In p pts ->
    0 <= cross (pts_at pts i) (pts_at pts j) p;
  hull_proper : forall i j, In (i, j) (cyc_edges vs) -> ~ pt_eq (pts_at pts i) (pts_at pts j);
  hull_distinct : forall a b, (a < b < length vs)%nat ->
    ~ pt_eq (pts_at pts (nth a vs O)) (pts_at pts (nth b vs O));
  hull_extreme : forall i a b, In i vs -> In a pts -> In b pts ->
    ~ strictly_between a (pts_at pts i) b;
  hull_covers : forall p, In p pts -> hull2 (fun q => exists i, In i vs /\ q = pts_at pts i) p }.

Definition hull_spec (ch : hull_routine) : Prop :=
  forall pts,
    (collinear pts -> ch pts = Raise ValueError) /\
    (~ collinear pts -> exists vs, ch pts = Ret vs /\ is_hull pts vs).
