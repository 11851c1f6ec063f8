(** What the text of a formula stands for. *)
From Coq Require Import Reals Qreals.
From Verif Require Import Base Model_Text Model_RationalFunction Spec_RationalFunction Model_Formula.
Open Scope list_scope.

(** ** Spelling *)
Definition is_digit (c : ascii) (d : Z) : Prop :=
  (0 <= d)%Z /\ nth_error (s_of "0123456789") (Z.to_nat d) = Some c.
(** Whole numbers have no leading zeros. *)
Inductive whole : str -> Z -> Prop :=
| whole_digit : forall c d, is_digit c d -> whole [c] d
| whole_more : forall w n c d, whole w n -> is_digit c d -> (n <> 0 \/ d = 0)%Z -> whole (w ++ [c]) (10 * n + d).
(** [decimal w n s]: the number n / s. *)
Inductive decimal : str -> Z -> positive -> Prop :=
| decimal_point : forall w n, whole w n -> decimal (w ++ ["."%char]) n 1
| decimal_more : forall w n s c d, decimal w n s -> is_digit c d -> decimal (w ++ [c]) (10 * n + d) (10 * s).
Inductive spells : token -> str -> Prop :=
| spells_whole : forall w n, whole w n -> spells (TNum (inject_Z n)) w
| spells_decimal : forall w n s, decimal w n s -> spells (TNum (n # s)) w
| spells_x : spells TX (s_of "x")
| spells_plus : spells TPlus (s_of "+")
| spells_minus : spells TMinus (s_of "-")
| spells_times : spells TTimes (s_of "*")
| spells_div : spells TDiv (s_of "/")
| spells_pow : spells TPow (s_of "**")
| spells_left : spells TLeft (s_of "(")
| spells_right : spells TRight (s_of ")").

(** A token ends before the rest: longer tokens win, and words of digits and
    letters are not split. *)
Definition ends (t : token) (rest : str) : Prop :=
  match rest with
  | [] => True
  | c :: _ =>
      match t with
      | TNum _ => forall d, ~ is_digit c d
      | TX => (forall d, ~ is_digit c d) /\ c <> "x"%char
      | TTimes => c <> "*"%char
      | _ => True
      end
  end.
Inductive text : list token -> str -> Prop :=
| text_end : text [] []
| text_space : forall ts s, text ts s -> text ts (" "%char :: s)
| text_token : forall t w ts s, spells t w -> text ts s -> ends t s -> text (t :: ts) (w ++ s).

(** ** Grammar: products bind more tightly than sums, powers more than signs,
    sums and products group to the left. *)
Inductive level : Type := Sum | Term | Factor | Atom.
Inductive written : level -> formula -> list token -> Prop :=
| w_num : forall q, written Atom (FNum q) [TNum q]
| w_x : written Atom FX [TX]
| w_parens : forall a ts, written Sum a ts -> written Atom a (TLeft :: ts ++ [TRight])
| w_atom : forall a ts, written Atom a ts -> written Factor a ts
| w_pow : forall a b t1 t2, written Atom a t1 -> written Factor b t2 -> written Factor (FPow a b) (t1 ++ TPow :: t2)
| w_neg : forall a ts, written Factor a ts -> written Factor (FNeg a) (TMinus :: ts)
| w_pos : forall a ts, written Factor a ts -> written Factor a (TPlus :: ts)
| w_factor : forall a ts, written Factor a ts -> written Term a ts
| w_mul : forall a b t1 t2, written Term a t1 -> written Factor b t2 -> written Term (FMul a b) (t1 ++ TTimes :: t2)
| w_div : forall a b t1 t2, written Term a t1 -> written Factor b t2 -> written Term (FDiv a b) (t1 ++ TDiv :: t2)
| w_term : forall a ts, written Term a ts -> written Sum a ts
| w_add : forall a b t1 t2, written Sum a t1 -> written Term b t2 -> written Sum (FAdd a b) (t1 ++ TPlus :: t2)
| w_sub : forall a b t1 t2, written Sum a t1 -> written Term b t2 -> written Sum (FSub a b) (t1 ++ TMinus :: t2).

(** ** Meaning: the value at x, where it is defined. *)
Local Open Scope R_scope.
Fixpoint without_x (e : formula) : Prop :=
  match e with
  | FNum _ => True
  | FX => False
  | FAdd a b | FSub a b | FMul a b | FDiv a b | FPow a b => without_x a /\ without_x b
  | FNeg a => without_x a
  end.
Inductive means : formula -> R -> R -> Prop :=
| m_num : forall q x, means (FNum q) x (Q2R q)
| m_x : forall x, means FX x x
| m_add : forall a b x u v, means a x u -> means b x v -> means (FAdd a b) x (u + v)
| m_sub : forall a b x u v, means a x u -> means b x v -> means (FSub a b) x (u - v)
| m_mul : forall a b x u v, means a x u -> means b x v -> means (FMul a b) x (u * v)
| m_div : forall a b x u v, means a x u -> means b x v -> v <> 0 -> means (FDiv a b) x (u / v)
| m_neg : forall a x u, means a x u -> means (FNeg a) x (- u)
| m_pow : forall a b x u k, means a x u -> without_x b -> means b x (IZR k) -> ((0 <= k)%Z \/ u <> 0) -> means (FPow a b) x (powerRZ u k).
(** The formula has a value somewhere, so its exponents are whole numbers. *)
Definition meaningful (e : formula) : Prop := exists x v, means e x v.

(** The text [s] is the formula [e]. *)
Definition formula_text (s : str) (e : formula) : Prop := exists ts, text ts s /\ written Sum e ts.
