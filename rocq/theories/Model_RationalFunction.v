(** Model of functions.py 657-1002: [RationalFunction2] predicates,
    [RationalFunction] arithmetic, the piecewise optimum and the extremum over
    an interval. *)
From Verif Require Import Base.
From Coq Require Import Reals.
Local Open Scope Q_scope.

(** ** Symbolic polynomials (sympy expressions in the single symbol x that the
    class builds: numbers, x, sums, differences, products). *)
Inductive expr :=
| ENum (c : Q)
| EX
| EAdd (a b : expr)
| ESub (a b : expr)
| EMul (a b : expr).

(** value of an expression at a rational point ([.subs(x, value)]) *)
Fixpoint qeval (e : expr) (x : Q) : Q :=
  match e with
  | ENum c => c
  | EX => x
  | EAdd a b => qeval a x + qeval b x
  | ESub a b => qeval a x - qeval b x
  | EMul a b => qeval a x * qeval b x
  end.

(** value at a real point *)
Fixpoint reval (e : expr) (x : R) : R :=
  match e with
  | ENum c => Q2R c
  | EX => x
  | EAdd a b => (reval a x + reval b x)%R
  | ESub a b => (reval a x - reval b x)%R
  | EMul a b => (reval a x * reval b x)%R
  end.

(** sympy.diff(e, x) *)
Fixpoint ediff (e : expr) : expr :=
  match e with
  | ENum _ => ENum 0
  | EX => ENum 1
  | EAdd a b => EAdd (ediff a) (ediff b)
  | ESub a b => ESub (ediff a) (ediff b)
  | EMul a b => EAdd (EMul (ediff a) b) (EMul a (ediff b))
  end.

(** Expansion to a coefficient list, lowest degree first: how the zero test
    [.equals(0)] and [.is_constant()] are decided. *)
Fixpoint ladd (p q : list Q) : list Q :=
  match p, q with
  | [], _ => q
  | _, [] => p
  | a :: p', b :: q' => (a + b) :: ladd p' q'
  end.
Definition lscale (c : Q) (p : list Q) : list Q := map (Qmult c) p.
Fixpoint lmul (p q : list Q) : list Q :=
  match p with [] => [] | a :: p' => ladd (lscale a q) (0 :: lmul p' q) end.
Fixpoint expand (e : expr) : list Q :=
  match e with
  | ENum c => [c]
  | EX => [0; 1]
  | EAdd a b => ladd (expand a) (expand b)
  | ESub a b => ladd (expand a) (lscale (-(1)) (expand b))
  | EMul a b => lmul (expand a) (expand b)
  end.
Definition expr_is_zero (e : expr) : bool := forallb (fun c => Qeqb c 0) (expand e).
Definition expr_is_constant (e : expr) : bool := forallb (fun c => Qeqb c 0) (tl (expand e)).

(** ** RationalFunction, functions.py 742-765 *)
Record rfun := mkR { num : expr; den : expr }.

(** functions.py 754-763: Horner-like accumulation over the reversed list. *)
Fixpoint sum_monomials (low_first : list Q) (acc xn : expr) : expr :=
  match low_first with
  | [] => acc
  | c :: rest => sum_monomials rest (EAdd acc (EMul (ENum c) xn)) (EMul xn EX)
  end.
Definition expr_of_coeffs (high_first : list Q) : expr :=
  sum_monomials (rev high_first) (ENum 0) (ENum 1).
(** functions.py 749-765; [None] is the default denominator [1]. *)
Definition RationalFunction (num_coeffs : list Q) (den_coeffs : option (list Q)) : rfun :=
  mkR (expr_of_coeffs num_coeffs)
      (expr_of_coeffs (match den_coeffs with None => [1] | Some d => d end)).

(** functions.py 770-778 *)
Definition rf_eqb (f g : rfun) : bool :=
  expr_is_zero (ESub (EMul (num f) (den g)) (EMul (den f) (num g))).

(** functions.py 897-901 on a rational argument.  At a zero of the denominator
    sympy gives nan/zoo (or Python raises ZeroDivisionError); both are modelled
    as raising. *)
Definition rf_at (f : rfun) (x : Q) : res Q :=
  if Qeqb (qeval (den f) x) 0 then Raise ZeroDivisionError
  else Ret (qeval (num f) x / qeval (den f) x).

(** functions.py 897-901 on a real argument. *)
Definition rf_atR (f : rfun) (x : R) : res R :=
  if Req_EM_T (reval (den f) x) 0%R then Raise ZeroDivisionError
  else Ret (reval (num f) x / reval (den f) x)%R.

(** The argument of the arithmetic methods: a Number or a RationalFunction.
    (Other types, which are rejected, are not modelled.) *)
Inductive operand := ONum (c : Q) | ORat (g : rfun).

(** functions.py 903-914 *)
Definition rf_add (f : rfun) (o : operand) : rfun :=
  match o with
  | ONum c => mkR (EAdd (num f) (EMul (den f) (ENum c))) (den f)
  | ORat g => mkR (EAdd (EMul (num f) (den g)) (EMul (den f) (num g))) (EMul (den f) (den g))
  end.
(** functions.py 916-926 *)
Definition rf_subtract (f : rfun) (o : operand) : rfun :=
  match o with
  | ONum c => mkR (ESub (num f) (EMul (den f) (ENum c))) (den f)
  | ORat g => mkR (ESub (EMul (num f) (den g)) (EMul (den f) (num g))) (EMul (den f) (den g))
  end.
(** functions.py 928-938 *)
Definition rf_mul (f : rfun) (o : operand) : rfun :=
  match o with
  | ONum c => mkR (EMul (num f) (ENum c)) (den f)
  | ORat g => mkR (EMul (num f) (num g)) (EMul (den f) (den g))
  end.
(** functions.py 941-951.  Line 944 multiplies by the number. *)
Definition rf_div (f : rfun) (o : operand) : rfun :=
  match o with
  | ONum c => mkR (EMul (num f) (ENum c)) (den f)
  | ORat g => mkR (EMul (num f) (den g)) (EMul (den f) (num g))
  end.

(** functions.py 780-790: the operators.  [__sub__] calls a method [sub] that
    does not exist. *)
Definition op_add (f : rfun) (o : operand) : res rfun := Ret (rf_add f o).
Definition op_sub (f : rfun) (o : operand) : res rfun := Raise AttributeError.
Definition op_mul (f : rfun) (o : operand) : res rfun := Ret (rf_mul f o).
Definition op_truediv (f : rfun) (o : operand) : res rfun := Ret (rf_div f o).

(** ** The piecewise optimum, functions.py 811-895.  The number type is a
    parameter because the critical points returned by sympy.solve are real
    algebraic numbers: it is used at Q for concrete runs and at R for proofs. *)
Section Optimal.
  Variable T : Type.
  Variable ltb : T -> T -> bool.
  Variable eqb : T -> T -> bool.
  Variable mid : T -> T -> T.
  Variable at_ : rfun -> T -> res T.
  (** the real solutions sympy.solve returns for num1/den1 - num2/den2 = 0 *)
  Variable solve : rfun -> rfun -> list T.

  (** functions.py 14-62: an Interval over [T]. *)
  Record ivl := mkV { lo : T; hi : T; ilo : bool; ihi : bool }.
  Definition mk_interval (a b : T) : res ivl :=
    if ltb b a then Raise ValueError else Ret (mkV a b true false).
  (** functions.py 91-103 *)
  Definition icontains (i : ivl) (x : T) : bool :=
    (if ilo i then negb (ltb x (lo i)) else ltb (lo i) x) &&
    (if ihi i then negb (ltb (hi i) x) else ltb x (hi i)).

  (** sorted list of a set *)
  Fixpoint ins (x : T) (l : list T) : list T :=
    match l with
    | [] => [x]
    | y :: l' => if ltb x y then x :: l else if ltb y x then y :: ins x l' else l
    end.
  Definition sorted_set (l : list T) : list T := fold_right ins [] l.

  Definition piece := (rfun * ivl * Z)%type.

  (** functions.py 827-833 *)
  Definition crits (f1 : rfun) (in1 : ivl) (f2 : rfun) (in2 : ivl) : list T :=
    sorted_set (filter (icontains in2) (solve f1 f2 ++ [lo in1; hi in1]) ++ [lo in2; hi in2]).

  (** functions.py 834-841: loop over consecutive critical points. *)
  Fixpoint cells (cmp : T -> T -> bool) (f1 : rfun) (in1 : ivl) (ref1 : Z)
      (f2 : rfun) (ref2 : Z) (a : T) (rest : list T) : res (list piece) :=
    match rest with
    | [] => Ret []
    | b :: rest' =>
        let! inter := mk_interval a b in
        let m := mid a b in
        let! keep2 := (if negb (icontains in1 m) then Ret true
                       else let! v2 := at_ f2 m in let! v1 := at_ f1 m in Ret (cmp v2 v1)) in
        let! tail := cells cmp f1 in1 ref1 f2 ref2 b rest' in
        Ret ((if keep2 then (f2, inter, ref2) else (f1, inter, ref1)) :: tail)
    end.
  Definition split_piece (cmp : T -> T -> bool) (f1 : rfun) (in1 : ivl) (ref1 : Z) (p : piece) : res (list piece) :=
    let '(f2, in2, ref2) := p in
    match crits f1 in1 f2 in2 with
    | [] => Ret []
    | a :: rest => cells cmp f1 in1 ref1 f2 ref2 a rest
    end.

  (** functions.py 844-862: merging loop; [grow] is the inner loop. *)
  Fixpoint grow (track : bool) (fi : rfun) (left right : T) (refi : Z) (l : list piece) : res (list piece) :=
    match l with
    | [] => let! i := mk_interval left right in Ret [(fi, i, refi)]
    | (fj, intj, refj) :: l' =>
        if rf_eqb fi fj && eqb right (lo intj) && (negb track || Z.eqb refi refj)
        then grow track fi left (hi intj) refi l'
        else let! i := mk_interval left right in
             let! tail := grow track fj (lo intj) (hi intj) refj l' in
             Ret ((fi, i, refi) :: tail)
    end.
  Definition merge_pieces (track : bool) (l : list piece) : res (list piece) :=
    match l with
    | [] => Ret []
    | (f, i, r) :: l' => grow track f (lo i) (hi i) r l'
    end.

  (** functions.py 822-862: the outer loop, [ref1] the index of the head. *)
  Fixpoint optimal_from (cmp : T -> T -> bool) (track : bool) (ref1 : nat)
      (fs : list (rfun * ivl)) (best : list piece) : res (list piece) :=
    match fs with
    | [] => Ret best
    | (f1, in1) :: fs' =>
        let! new := mapM (split_piece cmp f1 in1 (Z.of_nat ref1)) best in
        let! best' := merge_pieces track (concat new) in
        optimal_from cmp track (S ref1) fs' best'
    end.
  (** functions.py 811-867.  The final projection of [track = false] drops the
      indices; the model keeps them and the theorems ignore them in that case. *)
  Definition compute_optimal (fs : list (rfun * ivl)) (domain : ivl)
      (cmp : T -> T -> bool) (default : Q) (track : bool) : res (list piece) :=
    optimal_from cmp track 0 fs [(RationalFunction [default] None, domain, (-1)%Z)].

  (** functions.py 874-881 *)
  Definition rf_min (fs : list (rfun * ivl)) (domain : ivl) (track : bool) :=
    compute_optimal fs domain ltb (inject_Z 1000000) track.
  (** functions.py 888-894 *)
  Definition rf_max (fs : list (rfun * ivl)) (domain : ivl) (track : bool) :=
    compute_optimal fs domain (fun x y => ltb y x) (inject_Z (-1000000)) track.

  (** ** Extrema over an interval, functions.py 953-1002 *)
  (** the real roots sympy.real_roots returns *)
  Variable real_roots : expr -> list T.

  (** functions.py 960-962 *)
  Definition stationary (f : rfun) : expr :=
    ESub (EMul (num f) (ediff (den f))) (EMul (ediff (num f)) (den f)).
  (** functions.py 955-971 *)
  Definition critical_pts (f : rfun) (i : ivl) : list T :=
    [lo i; hi i] ++
    if expr_is_constant (stationary f) then []
    else filter (icontains i) (real_roots (stationary f)).
  (** functions.py 975-985 *)
  Definition intersections (f g : rfun) (i : ivl) : list T :=
    let e := ESub (EMul (num f) (den g)) (EMul (den f) (num g)) in
    if expr_is_constant e then [] else filter (icontains i) (real_roots e).

  (** Python max/min over the enumerated points: the first best one. *)
  Fixpoint pick (better : T -> T -> bool) (f : rfun) (bx bv : T) (l : list T) : res (T * T) :=
    match l with
    | [] => Ret (bx, bv)
    | x :: l' => let! v := at_ f x in
                 if better v bv then pick better f x v l' else pick better f bx bv l'
    end.
  Definition extremum (better : T -> T -> bool) (f : rfun) (i : ivl) : res (T * T) :=
    match critical_pts f i with
    | [] => Raise ValueError
    | x :: l => let! v := at_ f x in pick better f x v l
    end.
  (** functions.py 993-996 *)
  Definition maximise := extremum (fun v w => ltb w v).
  (** functions.py 999-1002 *)
  Definition minimise := extremum ltb.
End Optimal.

Arguments mkV {T}. Arguments lo {T}. Arguments hi {T}. Arguments ilo {T}. Arguments ihi {T}.

(** ** RationalFunction2, functions.py 657-737 *)
Record rfun2 := mkR2 { num2 : list Q; den2 : list Q }.
(** functions.py 663-680, for a list of numbers (the documented first form of
    the argument).  With two or more entries [tuple(coeffs[0])] is applied to a
    number, which raises TypeError. *)
Definition RationalFunction2_of_list (coeffs : list Q) : res rfun2 :=
  match coeffs with
  | [] => Raise ValueError
  | [c] => Ret (mkR2 [c] [1])
  | _ => Raise TypeError
  end.
(** functions.py 663-680, for a pair of lists. *)
Definition RationalFunction2_of_pair (p q : list Q) : rfun2 := mkR2 p q.
(** functions.py 725-735 *)
Definition r2_is_zero (f : rfun2) : bool := forallb (fun c => Qeqb c 0) (num2 f).
Definition r2_is_constant (f : rfun2) : bool :=
  forallb (fun c => Qeqb c 0) (skipn 1 (num2 f)) && forallb (fun c => Qeqb c 0) (skipn 1 (den2 f)).
Definition r2_is_affine (f : rfun2) : bool :=
  forallb (fun c => Qeqb c 0) (skipn 2 (num2 f)) && forallb (fun c => Qeqb c 0) (skipn 1 (den2 f)).
