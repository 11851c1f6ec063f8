(** Model of class [Polynomial], polynomial.py 4-134 (string output is modelled
    in [Model_Text.v]).  A Polynomial object is its coefficient tuple, lowest
    degree first. *)
From Verif Require Import Base.

Definition poly := list Q.

(** Python indexing [c[-1]] on a non-empty tuple. *)
Definition last_coeff (c : poly) : Q := last c 0.

(** polynomial.py 9-17, the constructor applied to a tuple. *)
Definition Polynomial (c : poly) : res poly :=
  match c with
  | [] => Ret []
  | _ => if Qeqb (last_coeff c) 0 then Raise ValueError else Ret c
  end.

(** polynomial.py 25-26, tuple equality. *)
Definition poly_eqb (p q : poly) : bool := qlist_eqb p q.

(** polynomial.py 67-73: [n] counts down from len(c). *)
Fixpoint trim_from (n : nat) (c : poly) : poly :=
  match n with
  | O => []
  | S n' => if negb (Qeqb (nth n' c 0) 0) then firstn n c else trim_from n' c
  end.
Definition trim_trailing_zeroes (c : poly) : poly := trim_from (length c) c.

(** polynomial.py 75-78; [None] stands for float('-inf'). *)
Definition degree (p : poly) : option nat :=
  match length p with O => None | S n => Some n end.

(** polynomial.py 80-81. *)
Definition is_zero (p : poly) : bool := Nat.eqb (length p) 0.

(** [tuple(f(p[i], q[i]) for i in range(k))]. *)
Definition zip_upto (f : Q -> Q -> Q) (k : nat) (p q : poly) : poly :=
  map (fun i => f (nth i p 0) (nth i q 0)) (seq 0 k).

(** polynomial.py 84-95. *)
Definition add (p q : poly) : res poly :=
  let m := length p in let n := length q in
  let c := if Nat.eqb m n then zip_upto Qplus m p q
           else if Nat.ltb n m then zip_upto Qplus n p q ++ skipn n p
           else zip_upto Qplus m p q ++ skipn m q in
  Polynomial (trim_trailing_zeroes c).

(** polynomial.py 98-109. *)
Definition subtract (p q : poly) : res poly :=
  let m := length p in let n := length q in
  let c := if Nat.eqb m n then zip_upto Qminus m p q
           else if Nat.ltb n m then zip_upto Qminus n p q ++ skipn n p
           else zip_upto Qminus m p q ++ map Qopp (skipn m q) in
  Polynomial (trim_trailing_zeroes c).

(** [c[k] += v] on a list; an index out of range raises. *)
Fixpoint incr_at (k : nat) (v : Q) (c : list Q) : res (list Q) :=
  match c, k with
  | [], _ => Raise IndexError
  | a :: c', O => Ret (a + v :: c')
  | a :: c', S k' => let! r := incr_at k' v c' in Ret (a :: r)
  end.

(** polynomial.py 122-123: inner loop over [q] starting at index [j]. *)
Fixpoint mul_row (i j : nat) (a : Q) (q : poly) (c : list Q) : res (list Q) :=
  match q with
  | [] => Ret c
  | b :: q' => let! c' := incr_at (i + j) (a * b) c in mul_row i (S j) a q' c'
  end.
(** polynomial.py 121-123: outer loop over [p] starting at index [i]. *)
Fixpoint mul_rows (i : nat) (p q : poly) (c : list Q) : res (list Q) :=
  match p with
  | [] => Ret c
  | a :: p' => let! c' := mul_row i 0 a q c in mul_rows (S i) p' q c'
  end.

(** polynomial.py 112-124. *)
Definition multiply (p q : poly) : res poly :=
  if is_zero p || is_zero q then Polynomial []
  else
    let! c := mul_rows 0 p q (repeat 0 (length p + length q - 1)) in
    Polynomial (trim_trailing_zeroes c).

(** polynomial.py 127-134: [RationalFunction2(self, other)] is called with a
    Polynomial where a list or tuple is required (functions.py 664-665), so a
    non-zero divisor raises ValueError as well. *)
Definition divide (p q : poly) : res poly :=
  if is_zero q then Raise ValueError else Raise ValueError.
