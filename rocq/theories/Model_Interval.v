(** Model of class [Interval], functions.py 14-130.
    Numbers are rationals; the string constructor (functions.py 30-35, 67-71)
    is modelled in [Model_IntervalText.v]. *)
From Verif Require Import Base.

(** functions.py 44-47: the four attributes. *)
Record interval : Type := mkI { x0 : Q; x1 : Q; incl_lo : bool; incl_hi : bool }.

(** functions.py 42-47, [Interval.__init__] (numeric scheme). *)
Definition Interval (a b : Q) (il iu : bool) : res interval :=
  if Qltb 0 (a - b) then Raise ValueError else Ret (mkI a b il iu).

(** functions.py 28: the defaults include_lower=True, include_upper=False. *)
Definition Interval_default (a b : Q) : res interval := Interval a b true false.

(** functions.py 77-78. *)
Definition length (i : interval) : Q := x1 i - x0 i.

(** functions.py 81-84. *)
Definition is_empty (i : interval) : bool :=
  if Qeqb (length i) 0 then negb (incl_lo i && incl_hi i) else false.

(** functions.py 87-88. *)
Definition midpoint (i : interval) : Q := (x0 i + x1 i) / 2.

(** functions.py 91-103. *)
Definition contains (i : interval) (x : Q) : bool :=
  if incl_lo i then
    if incl_hi i then Qleb 0 (x - x0 i) && Qleb 0 (x1 i - x)
    else Qleb 0 (x - x0 i) && Qltb 0 (x1 i - x)
  else if incl_hi i then Qltb 0 (x - x0 i) && Qleb 0 (x1 i - x)
  else Qltb 0 (x - x0 i) && Qltb 0 (x1 i - x).

(** functions.py 54-63, [Interval.__eq__]. *)
Definition interval_eqb (i j : interval) : bool :=
  if is_empty i && is_empty j then true
  else Qeqb (x0 i) (x0 j) && Qeqb (x1 i) (x1 j)
       && Bool.eqb (incl_lo i) (incl_lo j) && Bool.eqb (incl_hi i) (incl_hi j).

(** functions.py 108-130, [Interval.intersect]; the constructor call may
    raise, as in the code. *)
Definition intersect (i j : interval) : res interval :=
  let lower := qmax (x0 i) (x0 j) in
  let upper := qmin (x1 i) (x1 j) in
  if Qltb upper lower then Interval 0 0 false false
  else
    let il := if Qltb (x0 j) (x0 i) then incl_lo i
              else if Qltb (x0 i) (x0 j) then incl_lo j
              else incl_lo i && incl_lo j in
    let iu := if Qltb (x1 i) (x1 j) then incl_hi i
              else if Qltb (x1 j) (x1 i) then incl_hi j
              else incl_hi i && incl_hi j in
    Interval lower upper il iu.

(** functions.py 74-75, [Interval.deep_copy]. *)
Definition deep_copy (i : interval) : res interval :=
  Interval (x0 i) (x1 i) (incl_lo i) (incl_hi i).

(** An interval object that the constructor accepts. *)
Definition wf (i : interval) : Prop := x0 i <= x1 i.
