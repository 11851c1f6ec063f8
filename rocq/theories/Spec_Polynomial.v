(** Specification: the function denoted by a coefficient list (lowest degree
    first), and canonical coefficient lists. *)
From Verif Require Import Base Model_Polynomial.

Fixpoint eval (p : poly) (x : Q) : Q :=
  match p with [] => 0 | c :: p' => c + x * eval p' x end.

(** No trailing zero: what the constructor accepts. *)
Definition canonical (p : poly) : Prop := p = [] \/ ~ last p 0 == 0.
