(** Piecewise affine functions as relations between points and values. *)
From Verif Require Import Base LinAlg Model_Polytope Spec_Polytope Model_Piecewise.

(** Some piece is defined at [x] and has the value [v] there. *)
Definition takes (pieces : list affine2) (x : point) (v : Q) : Prop :=
  exists f, In f pieces /\ member (dom2 f) x /\ rowval (a2 f) x == v.

Definition defined (pieces : list affine2) (x : point) : Prop :=
  exists f, In f pieces /\ member (dom2 f) x.

(** Pieces agree wherever they overlap. *)
Definition single_valued (pieces : list affine2) : Prop :=
  forall x v w, takes pieces x v -> takes pieces x w -> v == w.

(** A piece in dimension [d] with a bounded domain. *)
Definition proper_piece (d : nat) (f : affine2) : Prop :=
  good (dom2 f) /\ bounded (dom2 f) /\ ncol (pmat (dom2 f)) = S d /\ length (a2 f) = S d.

Definition solid_piece (d : nat) (f : affine2) : Prop :=
  proper_piece d f /\ exists x, interior (dom2 f) x.

Definition labelled (f : affine2) : Prop := label2 f <> None.

(** [x] lies in a full-dimensional polytope on which [D] holds. *)
Definition thick (D : point -> Prop) (d : nat) (x : point) : Prop :=
  exists R, good R /\ ncol (pmat R) = S d /\ (exists z, interior R z) /\ member R x /\ forall y, member R y -> D y.

(** The same function: equal label and coefficients. *)
Definition same_function (f g : affine2) : Prop := label2 f = label2 g /\ Forall2 Qeq (a2 f) (a2 g).

(** A selection of elements, in order. *)
Inductive sub {A} : list A -> list A -> Prop :=
| sub_nil : forall l, sub [] l
| sub_take : forall x c l, sub c l -> sub (x :: c) (x :: l)
| sub_skip : forall x c l, sub c l -> sub c (x :: l).

(** The domains share an interior point. *)
Definition overlap (p q : affine2) : Prop := exists x, interior (dom2 p) x /\ interior (dom2 q) x.
