(** Specification: what it means for a number to lie in an interval, written
    without reference to the implementation of [contains]. *)
From Verif Require Import Base Model_Interval.

(** a bound respected weakly (endpoint included) or strictly *)
Definition respects_lower (incl : bool) (lo x : Q) : Prop := if incl then lo <= x else lo < x.
Definition respects_upper (incl : bool) (hi x : Q) : Prop := if incl then x <= hi else x < hi.
Definition in_set (i : interval) (x : Q) : Prop :=
  respects_lower (incl_lo i) (x0 i) x /\ respects_upper (incl_hi i) (x1 i) x.

