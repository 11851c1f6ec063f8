(** Specification vocabulary for the piecewise optimum, over the reals. *)
From Coq Require Import Reals Lra.
From Verif Require Import Base Model_RationalFunction.
Local Open Scope R_scope.

(** the value of a rational function at a real point *)
Definition rfval (f : rfun) (x : R) : R := reval (num f) x / reval (den f) x.
Definition has_pole (f : rfun) (x : R) : Prop := reval (den f) x = 0.

(** real interval membership with the open/closed flags *)
Definition inside (i : ivl R) (x : R) : Prop :=
  (if ilo i then lo i <= x else lo i < x) /\ (if ihi i then x <= hi i else x < hi i).
Definition is_endpoint (fs : list (rfun * ivl R)) (x : R) : Prop :=
  exists f i, In (f, i) fs /\ (x = lo i \/ x = hi i).

(** [v] is the greatest among the default and the values of the functions whose
    interval contains x *)
Definition is_greatest (fs : list (rfun * ivl R)) (default : R) (x v : R) : Prop :=
  (v = default \/ exists f i, In (f, i) fs /\ inside i x /\ v = rfval f x) /\
  default <= v /\ forall f i, In (f, i) fs -> inside i x -> rfval f x <= v.
Definition is_least (fs : list (rfun * ivl R)) (default : R) (x v : R) : Prop :=
  (v = default \/ exists f i, In (f, i) fs /\ inside i x /\ v = rfval f x) /\
  v <= default /\ forall f i, In (f, i) fs -> inside i x -> v <= rfval f x.

(** decidable comparisons and midpoint at R, to instantiate the model *)
Definition Rltb (x y : R) : bool := if Rlt_dec x y then true else false.
Definition Reqb (x y : R) : bool := if Req_EM_T x y then true else false.
Definition Rmid (x y : R) : R := (x + y) / 2.

(** Specification of sympy.solve: unless the functions are identical, every
    common value at a point without pole is reported. *)
Definition solve_complete (solve : rfun -> rfun -> list R) : Prop :=
  forall f g x, rf_eqb f g = false -> ~ has_pole f x -> ~ has_pole g x ->
    rfval f x = rfval g x -> In x (solve f g).
(** Specification of sympy.real_roots on an expression that is not constant. *)
Definition roots_complete (roots : expr -> list R) : Prop :=
  forall e x, expr_is_constant e = false -> reval e x = 0 -> In x (roots e).

(** The pieces are consecutive non-empty half-open intervals [a0,a1), [a1,a2),
    ..., starting at a and ending at b. *)
Fixpoint tiles (l : list (piece R)) (a b : R) : Prop :=
  match l with
  | [] => a = b
  | (_, i, _) :: l' => lo i = a /\ lo i < hi i /\ ilo i = true /\ ihi i = false /\ tiles l' (hi i) b
  end.

(** Inputs have no pole inside their own interval.  Without dependency tracking,
    where pieces of equal functions are merged whatever their origin, the lower
    end counts too, and poles elsewhere in the domain are not removable. *)
Definition no_poles (track : bool) (domain : ivl R) (fs : list (rfun * ivl R)) : Prop :=
  forall f i x, In (f, i) fs -> lo domain <= x < hi domain ->
    (lo i < x < hi i -> ~ has_pole f x) /\
    (track = false -> (lo i <= x < hi i -> ~ has_pole f x) /\ (has_pole f x -> reval (num f) x <> 0)).

(** Inputs as [Interval(a, b)] builds them, without a pole at their lower end
    either. *)
Definition half_open_inputs (fs : list (rfun * ivl R)) : Prop :=
  forall f i, In (f, i) fs -> ilo i = true /\ ihi i = false.
Definition defined_inputs (domain : ivl R) (fs : list (rfun * ivl R)) : Prop :=
  forall f i x, In (f, i) fs -> lo domain <= x < hi domain -> lo i <= x < hi i -> ~ has_pole f x.

(** where a piece comes from: the default, or the input with that index *)
Definition comes_from (track : bool) (fs : list (rfun * ivl R)) (default : Q)
    (f : rfun) (i : ivl R) (r : Z) : Prop :=
  (r = (-1)%Z /\ f = RationalFunction [default] None) \/
  exists k i', r = Z.of_nat k /\ nth_error fs k = Some (f, i') /\
    (track = true -> lo i' <= lo i /\ hi i <= hi i').
