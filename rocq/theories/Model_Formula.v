(** Model of functions.py 796-802, [RationalFunction.parse]: how the text of a
    formula becomes a rational function.

    [parse_expr] of sympy first lets Python read the text: the tokens and the
    grammar below are those of Python restricted to numbers, the symbol x, the
    operators + - * / ** and parentheses.  Anything else is rejected here, although
    sympy knows further names, numbers like 1e5 or .5, and powers that are not
    integers.  The value is kept as numerator and denominator; common factors, which
    sympy sometimes cancels, stay.  Decimal numbers are exact. *)
From Verif Require Import Base Model_Text Model_RationalFunction.
Open Scope list_scope.
Local Open Scope Q_scope.

(** ** Tokens *)
Inductive token : Type := TNum (q : Q) | TX | TPlus | TMinus | TTimes | TDiv | TPow | TLeft | TRight.

(** What may still continue: a number, the digits after its point, a star, a name. *)
Inductive pending : Type := PNone | PInt (n : Z) | PFrac (n : Z) (scale : positive) | PStar | PName.
Definition flush (p : pending) : list token :=
  match p with
  | PNone => []
  | PInt n => [TNum (inject_Z n)]
  | PFrac n d => [TNum (n # d)]
  | PStar => [TTimes]
  | PName => [TX]
  end.

Definition digit (c : ascii) : option Z :=
  let n := N_of_ascii c in
  if ((48 <=? n) && (n <=? 57))%N then Some (Z.of_N (n - 48)%N) else None.

(** One character: the tokens completed by it, and what is pending then. *)
Definition step (p : pending) (c : ascii) : res (list token * pending) :=
  match digit c with
  | Some d =>
      match p with
      | PInt n => if (n =? 0)%Z && negb (d =? 0)%Z then Raise SyntaxError else Ret ([], PInt (10 * n + d))
      | PFrac n s => Ret ([], PFrac (10 * n + d) (10 * s))
      | PName => Raise SyntaxError
      | _ => Ret (flush p, PInt d)
      end
  | None =>
      if (c =? ".")%char then match p with PInt n => Ret ([], PFrac n 1) | _ => Raise SyntaxError end
      else if (c =? "*")%char then match p with PStar => Ret ([TPow], PNone) | _ => Ret (flush p, PStar) end
      else if (c =? "x")%char then match p with PName => Raise SyntaxError | _ => Ret (flush p, PName) end
      else if (c =? " ")%char then Ret (flush p, PNone)
      else if (c =? "+")%char then Ret (flush p ++ [TPlus], PNone)
      else if (c =? "-")%char then Ret (flush p ++ [TMinus], PNone)
      else if (c =? "/")%char then Ret (flush p ++ [TDiv], PNone)
      else if (c =? "(")%char then Ret (flush p ++ [TLeft], PNone)
      else if (c =? ")")%char then Ret (flush p ++ [TRight], PNone)
      else Raise SyntaxError
  end.
Fixpoint lex (p : pending) (s : str) : res (list token) :=
  match s with
  | [] => Ret (flush p)
  | c :: s' => let! (ts, p') := step p c in
               let! rest := lex p' s' in Ret (ts ++ rest)
  end.

(** ** Syntax *)
Inductive formula : Type :=
| FNum (q : Q)
| FX
| FAdd (a b : formula)
| FSub (a b : formula)
| FMul (a b : formula)
| FDiv (a b : formula)
| FNeg (a : formula)
| FPow (a b : formula).

(** Python's grammar of sums, products, signs, powers and atoms. *)
Fixpoint p_sum (n : nat) (ts : list token) {struct n} : res (formula * list token) :=
  match n with
  | O => Raise RecursionError
  | S n => let! (a, ts) := p_term n ts in p_sum_more n a ts
  end
with p_sum_more (n : nat) (a : formula) (ts : list token) {struct n} : res (formula * list token) :=
  match n with
  | O => Raise RecursionError
  | S n => match ts with
           | TPlus :: ts => let! (b, ts) := p_term n ts in p_sum_more n (FAdd a b) ts
           | TMinus :: ts => let! (b, ts) := p_term n ts in p_sum_more n (FSub a b) ts
           | _ => Ret (a, ts)
           end
  end
with p_term (n : nat) (ts : list token) {struct n} : res (formula * list token) :=
  match n with
  | O => Raise RecursionError
  | S n => let! (a, ts) := p_factor n ts in p_term_more n a ts
  end
with p_term_more (n : nat) (a : formula) (ts : list token) {struct n} : res (formula * list token) :=
  match n with
  | O => Raise RecursionError
  | S n => match ts with
           | TTimes :: ts => let! (b, ts) := p_factor n ts in p_term_more n (FMul a b) ts
           | TDiv :: ts => let! (b, ts) := p_factor n ts in p_term_more n (FDiv a b) ts
           | _ => Ret (a, ts)
           end
  end
with p_factor (n : nat) (ts : list token) {struct n} : res (formula * list token) :=
  match n with
  | O => Raise RecursionError
  | S n => match ts with
           | TMinus :: ts => let! (a, ts) := p_factor n ts in Ret (FNeg a, ts)
           | TPlus :: ts => p_factor n ts
           | _ => let! (a, ts) := p_atom n ts in
                  match ts with
                  | TPow :: ts => let! (b, ts) := p_factor n ts in Ret (FPow a b, ts)
                  | _ => Ret (a, ts)
                  end
           end
  end
with p_atom (n : nat) (ts : list token) {struct n} : res (formula * list token) :=
  match n with
  | O => Raise RecursionError
  | S n => match ts with
           | TNum q :: ts => Ret (FNum q, ts)
           | TX :: ts => Ret (FX, ts)
           | TLeft :: ts => let! (a, ts) := p_sum n ts in
                            match ts with TRight :: ts => Ret (a, ts) | _ => Raise SyntaxError end
           | _ => Raise SyntaxError
           end
  end.
Definition read_tokens (ts : list token) : res formula :=
  let! (a, rest) := p_sum (8 * List.length ts + 8) ts in
  match rest with [] => Ret a | _ => Raise SyntaxError end.

(** ** Value *)
Definition const (q : Q) : rfun := mkR (ENum q) (ENum 1).
Fixpoint epow (e : expr) (k : nat) : expr := match k with O => ENum 1 | S k => EMul e (epow e k) end.
(** The number that a formula without x stands for. *)
Definition constant_value (f : rfun) : option Q :=
  if expr_is_constant (num f) && expr_is_constant (den f) && negb (expr_is_zero (den f))
  then Some (qeval (num f) 0 / qeval (den f) 0) else None.
Definition rf_power (f g : rfun) : res rfun :=
  match constant_value g with
  | Some q => let q := Qred q in
              if (Zpos (Qden q) =? 1)%Z then
                if (0 <=? Qnum q)%Z then Ret (mkR (epow (num f) (Z.to_nat (Qnum q))) (epow (den f) (Z.to_nat (Qnum q))))
                else Ret (mkR (epow (den f) (Z.to_nat (- Qnum q))) (epow (num f) (Z.to_nat (- Qnum q))))
              else Raise NotImplementedError
  | None => Raise NotImplementedError
  end.
Fixpoint rf_of (e : formula) : res rfun :=
  match e with
  | FNum q => Ret (const q)
  | FX => Ret (mkR EX (ENum 1))
  | FAdd a b => let! f := rf_of a in let! g := rf_of b in Ret (rf_add f (ORat g))
  | FSub a b => let! f := rf_of a in let! g := rf_of b in Ret (rf_subtract f (ORat g))
  | FMul a b => let! f := rf_of a in let! g := rf_of b in Ret (rf_mul f (ORat g))
  | FDiv a b => let! f := rf_of a in let! g := rf_of b in Ret (rf_div f (ORat g))
  | FNeg a => let! f := rf_of a in Ret (rf_mul f (ONum (-(1))))
  | FPow a b => let! f := rf_of a in let! g := rf_of b in rf_power f g
  end.

(** functions.py 796-802 *)
Definition parse_formula (s : str) : res rfun :=
  let! ts := lex PNone s in
  let! e := read_tokens ts in
  rf_of e.
