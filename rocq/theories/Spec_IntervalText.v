(** What the text of a fraction and of an interval stands for. *)
From Verif Require Import Base Model_Text Model_Interval Model_Formula Spec_Formula.
Open Scope list_scope.
Local Open Scope Q_scope.

(** A word of decimal digits. *)
Inductive number : str -> Z -> Prop :=
| number_one : forall c d, is_digit c d -> number [c] d
| number_more : forall w n c d, number w n -> is_digit c d -> number (w ++ [c]) (10 * n + d).
Definition blank (s : str) : Prop := Forall (fun c => is_space c = true) s.

(** 12   12/5   1.25   1.   .25 *)
Inductive magnitude : str -> Q -> Prop :=
| mag_whole : forall w n, number w n -> magnitude w (inject_Z n)
| mag_frac : forall w n v m, number w n -> number v m -> (m <> 0)%Z -> magnitude (w ++ s_of "/" ++ v) (inject_Z n / inject_Z m)
| mag_decimal : forall w v m, number (w ++ v) m -> magnitude (w ++ s_of "." ++ v) (inject_Z m / inject_Z (10 ^ Z.of_nat (List.length v))).
Inductive rational : str -> Q -> Prop :=
| rat_plain : forall s q, magnitude s q -> rational s q
| rat_plus : forall s q, magnitude s q -> rational (s_of "+" ++ s) q
| rat_minus : forall s q, magnitude s q -> rational (s_of "-" ++ s) (- q).
(** With white space around. *)
Definition fraction_text (s : str) (q : Q) : Prop := exists u w v, s = u ++ w ++ v /\ blank u /\ blank v /\ rational w q.

(** "[a, b]", with a round bracket for an end that is left out. *)
Definition interval_text (s : str) (i : interval) : Prop := exists a b,
  s = (if incl_lo i then s_of "[" else s_of "(") ++ a ++ s_of "," ++ b ++ (if incl_hi i then s_of "]" else s_of ")") /\
  fraction_text a (x0 i) /\ fraction_text b (x1 i).
(** The text starts like the inside of such a text, between any two characters. *)
Definition loose_text (s : str) (i : interval) : Prop := exists l a b more r,
  s = l :: a ++ s_of "," ++ b ++ more ++ [r] /\ (more = [] \/ exists t, more = s_of "," ++ t) /\
  fraction_text a (x0 i) /\ fraction_text b (x1 i) /\
  (incl_lo i = true <-> l = "["%char) /\ (incl_hi i = true <-> r = "]"%char).

(** The same interval, with the ends written differently. *)
Definition same_ends (i j : interval) : Prop := x0 i == x0 j /\ x1 i == x1 j /\ incl_lo i = incl_lo j /\ incl_hi i = incl_hi j.
