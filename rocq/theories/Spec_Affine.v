(** Specification vocabulary for affine pieces: where a piece is defined, its
    value there, and what it means to be the best of several. *)
From Verif Require Import Base Model_Interval Spec_Interval Model_Affine.

Definition covers (f : affine) (x : Q) : Prop := in_set (dom f) x.
Definition value (f : affine) (x : Q) : Q := slope f * x + icpt f.

(** [None] means no cropping. *)
Definition in_domain (d : option interval) (x : Q) : Prop :=
  match d with None => True | Some i => in_set i x end.

(** Same slope and intercept. *)
Definition same_fun (f g : affine) : Prop := slope f == slope g /\ icpt f == icpt g.

(** Every point of an earlier piece lies strictly left of every point of a later
    one; in particular the pieces are pairwise disjoint. *)
Fixpoint ordered (l : list affine) : Prop :=
  match l with
  | [] => True
  | p :: l' => (forall q x y, In q l' -> covers p x -> covers q y -> x < y) /\ ordered l'
  end.

(** [v] is the minimum (maximum) at [x] of the given functions that are defined
    there: it is attained, and it bounds all of them. *)
Definition is_min_of (fs : list affine) (x v : Q) : Prop :=
  (exists f, In f fs /\ covers f x /\ value f x == v) /\
  (forall f, In f fs -> covers f x -> v <= value f x).
Definition is_max_of (fs : list affine) (x v : Q) : Prop :=
  (exists f, In f fs /\ covers f x /\ value f x == v) /\
  (forall f, In f fs -> covers f x -> value f x <= v).

(** An object the Interval constructor can produce. *)
Definition well_formed (f : affine) : Prop := wf (dom f).
