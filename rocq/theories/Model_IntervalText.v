(** Model of functions.py 30-35, 49-52 and 67-71: intervals as text, and of the
    constructor of [Fraction] for texts.

    Of the texts that [Fraction] accepts, those with an exponent or with underscores
    between digits are left out; they are rejected here.  Digits and white space are
    those of ASCII. *)
From Verif Require Import Base Model_Text Model_Interval Model_Formula Model_Format.
Open Scope list_scope.
Local Open Scope Q_scope.

(** Digits at the front, and the rest. *)
Fixpoint take_digits (s : str) : str * str :=
  match s with
  | c :: s' => match digit c with Some _ => let (w, r) := take_digits s' in (c :: w, r) | None => ([], s) end
  | [] => ([], [])
  end.
(** [int(w)] for a word of digits, and 0 for the empty word. *)
Definition digits_value (w : str) : Z := fold_left (fun n c => match digit c with Some d => (10 * n + d)%Z | None => n end) w 0%Z.
Definition is_nil {A} (l : list A) : bool := match l with [] => true | _ => false end.

(** [Fraction(s)], fractions.py: the regular expression _RATIONAL_FORMAT and what follows. *)
Definition unsigned_frac (t : str) : res Q :=
  let (num, rest) := take_digits t in
  match rest with
  | [] => if is_nil num then Raise ValueError else Ret (inject_Z (digits_value num))
  | c :: rest =>
      let (w, rest) := take_digits rest in
      if negb (is_nil rest) then Raise ValueError
      else if ch_eqb c "/" then
        if is_nil num || is_nil w then Raise ValueError
        else if (digits_value w =? 0)%Z then Raise ZeroDivisionError
        else Ret (inject_Z (digits_value num) / inject_Z (digits_value w))
      else if ch_eqb c "." then
        if is_nil num && is_nil w then Raise ValueError
        else Ret (inject_Z (digits_value (num ++ w)) / inject_Z (10 ^ Z.of_nat (List.length w)))
      else Raise ValueError
  end.
Definition frac_of_str (s : str) : res Q :=
  match strip s with
  | c :: t =>
      if ch_eqb c "-" then let! q := unsigned_frac t in Ret (- q)
      else if ch_eqb c "+" then unsigned_frac t
      else unsigned_frac (c :: t)
  | [] => Raise ValueError
  end.

(** functions.py 67-71, [Interval.parse]; also the constructor for a text, lines 30-35. *)
Definition interval_parse (s : str) : res interval :=
  let inner := split (s_of ",") (removelast (tl s)) in
  let! a := match inner with p :: _ => frac_of_str (strip p) | [] => Raise IndexError end in
  let! b := match inner with _ :: p :: _ => frac_of_str (strip p) | _ => Raise IndexError end in
  match s with
  | c :: _ => Interval a b (ch_eqb c "[") (ch_eqb (last s c) "]")
  | [] => Raise IndexError
  end.

(** functions.py 49-52, [Interval.__repr__] *)
Definition interval_repr (i : interval) : str :=
  (if incl_lo i then s_of "[" else s_of "(") ++ frac_str (x0 i) ++ s_of "," ++ frac_str (x1 i) ++ (if incl_hi i then s_of "]" else s_of ")").
