(** Specification vocabulary for reference.py, independent of the model's
    parsing functions. *)
From Verif Require Import Base Model_Text Model_Reference.
Open Scope list_scope.
Open Scope char_scope.

(** *** Years *)

(** A reference whose year is an integer, infinite, or "Unknown date". *)
Definition has_date (v : value) : Prop := match v with VStr _ => False | _ => True end.
Definition proper_year (v : value) : Prop := has_date v \/ v = unknown_date.

(** Order of known years: integers below infinity. *)
Definition year_le (a b : value) : Prop :=
  match a, b with
  | VInt m, VInt n => (m <= n)%Z
  | VInt _, VInf => True
  | VInf, VInf => True
  | _, _ => False
  end.

(** [v] is the latest of the known years [l]. *)
Definition latest (l : list value) (v : value) : Prop :=
  In v l /\ forall w, In w l -> year_le w v.

(** *** Nesting *)

Fixpoint count_ch (c : ascii) (s : str) : Z :=
  match s with
  | [] => 0
  | d :: s' => ((if ch_eqb c d then 1 else 0) + count_ch c s')%Z
  end.

(** Nesting depth after reading [s]. *)
Definition depth (op cl : ascii) (s : str) : Z := (count_ch op s - count_ch cl s)%Z.

(** [cuts op cl delim level pre s segs]: read after the prefix [pre], the
    string [s] consists of the segments [segs] separated by the occurrences of
    [delim] at nesting depth [level], and by all of those. *)
Definition uncut (op cl delim : ascii) (level : Z) (pre s : str) : Prop :=
  forall u v, s = u ++ delim :: v -> depth op cl (pre ++ u) <> level.

Inductive cuts (op cl delim : ascii) (level : Z) : str -> str -> list str -> Prop :=
| cuts_last : forall pre s, uncut op cl delim level pre s -> cuts op cl delim level pre s [s]
| cuts_more : forall pre s t segs,
    uncut op cl delim level pre s -> depth op cl (pre ++ s) = level ->
    cuts op cl delim level (pre ++ s ++ [delim]) t segs ->
    cuts op cl delim level pre (s ++ delim :: t) (s :: segs).

Definition nonempty (s : str) : bool := match s with [] => false | _ => true end.

(** Properly nested strings. *)
Inductive balanced (op cl : ascii) : str -> Prop :=
| bal_nil : balanced op cl []
| bal_char : forall c s, c <> op -> c <> cl -> balanced op cl s -> balanced op cl (c :: s)
| bal_group : forall a s, balanced op cl a -> balanced op cl s ->
    balanced op cl (op :: a ++ cl :: s).

Definition free_of (c : ascii) (s : str) : Prop := ~ In c s.
Definition spaces (s : str) : Prop := Forall (fun c => is_space c = true) s.

(** *** Written form of a bibtex entry *)

(** An author as written, and the surname the reader should keep. *)
Inductive person : str -> str -> Prop :=
| person_comma : forall sur first, free_of "," sur -> trimmed (sur ++ "," :: first) ->
    person (sur ++ "," :: first) sur
| person_plain : forall first sur, free_of "," first -> free_of "," sur -> free_of " " sur ->
    trimmed (first ++ " " :: sur) -> person (first ++ " " :: sur) sur
| person_single : forall sur, free_of "," sur -> free_of " " sur -> trimmed sur -> person sur sur.

(** No occurrence of " and " begins inside the author's own text. *)
Definition no_and (p : str) : Prop := contains sep_and (p ++ s_of " and") = false.

(** What the text between the braces means, by key. *)
Inductive means : str -> str -> value -> Prop :=
| means_year : forall n rest, (0 <= n)%Z -> (rest = [] \/ exists r, rest = "/" :: r) ->
    means key_year (z_str n ++ rest) (VInt n)
| means_author : forall ps surs, ps <> [] -> Forall2 person ps surs -> Forall no_and ps ->
    means key_author (join sep_and ps) (VStr (join "--"%string surs))
| means_other : forall k s, k <> key_year -> k <> key_author -> means k s (VStr s).

(** One field: padding, key, padding, [=], padding, [{], value, [}], padding. *)
Record field : Type := mkField {
  f_w1 : str; f_key : str; f_w2 : str; f_w3 : str; f_text : str; f_w4 : str }.
Definition field_text (f : field) : str :=
  f_w1 f ++ f_key f ++ f_w2 f ++ "=" :: f_w3 f ++ "{" :: f_text f ++ "}" :: f_w4 f.
Definition good_field (f : field) (v : value) : Prop :=
  spaces (f_w1 f) /\ spaces (f_w2 f) /\ spaces (f_w3 f) /\ spaces (f_w4 f) /\
  f_key f <> [] /\ trimmed (f_key f) /\
  free_of "{" (f_key f) /\ free_of "}" (f_key f) /\ free_of "," (f_key f) /\ free_of "=" (f_key f) /\
  f_text f <> [] /\ balanced "{" "}" (f_text f) /\
  means (lower (f_key f)) (f_text f) v.

(** An entry: type, [{], padded label, fields each preceded by a comma, [}],
    and anything without braces after it. *)
Definition entry_text (typ w1 label w2 : str) (fs : list field) (tail : str) : str :=
  typ ++ "{" :: w1 ++ label ++ w2 ++ flat_map (fun f => "," :: field_text f) fs ++ "}" :: tail.

(** The last value bound to a key. *)
Definition last_bound {V} (l : list (str * V)) (k : str) (o : option V) : Prop :=
  match o with
  | Some v => exists l1 l2, l = l1 ++ (k, v) :: l2 /\ ~ In k (map fst l2)
  | None => ~ In k (map fst l)
  end.
