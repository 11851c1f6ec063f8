(** Model of blueprint/src/python/reference.py: references, their years and
    the bibtex reader. *)
From Verif Require Import Base Model_Text.
Open Scope list_scope.
Open Scope char_scope.

(** A value stored in [Reference.entries]: an integer, [float("inf")], or a
    string. *)
Inductive value : Type :=
| VInt (n : Z)
| VInf
| VStr (s : str).

Definition val_eqb (a b : value) : bool :=
  match a, b with
  | VInt m, VInt n => (m =? n)%Z
  | VInf, VInf => true
  | VStr s, VStr t => str_eqb s t
  | _, _ => false
  end.

(** Lexicographic [s < t] on strings. *)
Fixpoint str_ltb (s t : str) : bool :=
  match s, t with
  | _, [] => false
  | [], _ :: _ => true
  | a :: s', b :: t' =>
      (nat_of_ascii a <? nat_of_ascii b)%nat || (ch_eqb a b && str_ltb s' t')
  end.

(** Python's [a < b] and [a <= b]: a string and a number do not compare. *)
Definition val_lt (a b : value) : res bool :=
  match a, b with
  | VInt m, VInt n => Ret (m <? n)%Z
  | VInt _, VInf => Ret true
  | VInf, VInt _ => Ret false
  | VInf, VInf => Ret false
  | VStr s, VStr t => Ret (str_ltb s t)
  | _, _ => Raise TypeError
  end.
Definition val_le (a b : value) : res bool :=
  match a, b with
  | VInt m, VInt n => Ret (m <=? n)%Z
  | VInt _, VInf => Ret true
  | VInf, VInt _ => Ret false
  | VInf, VInf => Ret true
  | VStr s, VStr t => Ret (negb (str_ltb t s))
  | _, _ => Raise TypeError
  end.

(** Python's [max] over a non-empty iterable: keep the first, replace it by a
    strictly larger one; [max] of nothing raises ValueError. *)
Fixpoint val_max_from (best : value) (l : list value) : res value :=
  match l with
  | [] => Ret best
  | v :: l' => let! b := val_lt best v in val_max_from (if b then v else best) l'
  end.
Definition val_max (l : list value) : res value :=
  match l with [] => Raise ValueError | v :: l' => val_max_from v l' end.

(** A Python dict with string keys, in insertion order. *)
Definition dict (V : Type) := list (str * V).
Fixpoint dict_get {V} (d : dict V) (k : str) : option V :=
  match d with
  | [] => None
  | (k', v) :: d' => if str_eqb k k' then Some v else dict_get d' k
  end.
Fixpoint dict_set {V} (d : dict V) (k : str) (v : V) : dict V :=
  match d with
  | [] => [(k, v)]
  | (k', v') :: d' => if str_eqb k k' then (k', v) :: d' else (k', v') :: dict_set d' k v
  end.

(** reference.py 4-8 *)
Record reference : Type := mkRef {
  r_label : str;
  r_type : str;
  r_entries : dict value }.

Definition key_year : str := "year"%string.
Definition key_author : str := "author"%string.
Definition unknown_date : value := VStr "Unknown date"%string.
Definition unknown_author : value := VStr "Unknown author"%string.

(** reference.py 14-15 *)
Definition r_author (r : reference) : value :=
  match dict_get (r_entries r) key_author with Some v => v | None => unknown_author end.

(** reference.py 17-18 *)
Definition r_year (r : reference) : value :=
  match dict_get (r_entries r) key_year with Some v => v | None => unknown_date end.

Definition lab_classical : str := "Classical"%string.
Definition lab_derived : str := "Derived"%string.
Definition lab_conjectured : str := "Conjectured"%string.
Definition lab_trivial : str := "Trivial"%string.

(** reference.py 20-33 *)
Definition r_is_classical (r : reference) : bool := str_eqb (r_label r) lab_classical.
Definition r_is_derived (r : reference) : bool := str_eqb (r_label r) lab_derived.
Definition r_is_conjectured (r : reference) : bool := str_eqb (r_label r) lab_conjectured.
Definition r_is_trivial (r : reference) : bool := str_eqb (r_label r) lab_trivial.
Definition r_is_literature (r : reference) : bool :=
  negb (r_is_classical r || r_is_derived r || r_is_conjectured r).

(** reference.py 36-40, for a year given as a number. *)
Definition ref_make (author : str) (y : Z) : reference :=
  mkRef (s_of "temp_" ++ author ++ s_of "_" ++ z_str y) ("article"%string : str)
    [(key_author, VStr author); (key_year, VInt y)].

(** reference.py 42-57: the other constructors. *)
Definition ref_classical : reference := mkRef lab_classical lab_classical [(key_year, VInt (-1))].
Definition ref_derived (y : value) : reference := mkRef lab_derived lab_derived [(key_year, y)].
Definition ref_conjectured : reference := mkRef lab_conjectured lab_conjectured [(key_year, VInf)].
Definition ref_trivial : reference := mkRef lab_trivial lab_trivial [(key_year, VInt (-1))].

(** reference.py 61-66 *)
Definition max_year (refs : list reference) : res value :=
  match refs with
  | [] => Ret (VInt (-1))
  | _ =>
      if existsb (fun r => val_eqb (r_year r) unknown_date) refs then Ret unknown_date
      else val_max (map r_year refs)
  end.

(** ** The bibtex reader *)

(** reference.py 112-122: the level is lowered at a closing brace before the
    character is looked at and raised at an opening brace after it. *)
Fixpoint extract_go (op cl : ascii) (level : Z) (item : str) : str :=
  match item with
  | [] => []
  | c :: item' =>
      let l1 := if ch_eqb c cl then (level - 1)%Z else level in
      let l2 := if ch_eqb c op then (l1 + 1)%Z else l1 in
      if (1 <=? l1)%Z then c :: extract_go op cl l2 item'
      else extract_go op cl l2 item'
  end.
Definition extract (item : str) (op cl : ascii) : str := extract_go op cl 0 item.

(** reference.py 125-143; [chs] is kept reversed. *)
Definition flush (chs : str) : list str := match chs with [] => [] | _ => [rev chs] end.
Fixpoint split_level_go (op cl delim : ascii) (level l : Z) (chs item : str) : list str :=
  match item with
  | [] => flush chs
  | c :: item' =>
      let l1 := if ch_eqb c cl then (l - 1)%Z else l in
      let l2 := if ch_eqb c op then (l1 + 1)%Z else l1 in
      if (l1 =? level)%Z && ch_eqb c delim
      then flush chs ++ split_level_go op cl delim level l2 [] item'
      else split_level_go op cl delim level l2 (c :: chs) item'
  end.
Definition split_level (item : str) (op cl delim : ascii) (level : Z) : list str :=
  split_level_go op cl delim level 0 [] item.

(** reference.py 145-146 ([str.split] always returns at least one piece). *)
Definition parse_year (s : str) : res Z := py_int (hd [] (split ["/"] s)).

(** reference.py 148-156 *)
Definition sep_and : str := " and "%string.
Definition surname (a : str) : str :=
  if contains [","] a then hd [] (split [","] a) else last (split [" "] a) [].
Definition parse_authors (s : str) : str :=
  join "--"%string (map (fun p => surname (strip p)) (split sep_and s)).

(** reference.py 166-182: one [key = value] entry of an item. *)
Definition parse_field (e : str) (fields : dict value) : res (dict value) :=
  let e := strip e in
  match e with
  | [] => Ret fields
  | _ =>
      match split_level e "{" "}" "=" 0 with
      | k0 :: v0 :: _ =>
          let key := lower (strip k0) in
          let value := extract (strip v0) "{" "}" in
          match key, value with
          | [], _ => Ret fields
          | _, [] => Ret fields
          | _, _ =>
              if str_eqb key key_year then
                let! y := parse_year value in Ret (dict_set fields key (VInt y))
              else if str_eqb key key_author then
                Ret (dict_set fields key (VStr (parse_authors value)))
              else Ret (dict_set fields key (VStr value))
          end
      | _ => Ret fields
      end
  end.

Fixpoint parse_fields (es : list str) (fields : dict value) : res (dict value) :=
  match es with
  | [] => Ret fields
  | e :: es' => let! f := parse_field e fields in parse_fields es' f
  end.

(** reference.py 159-184 ([entries[0]] raises IndexError on an empty list). *)
Definition parse_item (item : str) : res reference :=
  let typ := lower (hd [] (split ["{"] item)) in
  let ref := extract item "{" "}" in
  match split_level ref "{" "}" "," 0 with
  | [] => Raise IndexError
  | e0 :: es =>
      let! fields := parse_fields es [] in
      Ret (mkRef (strip e0) typ fields)
  end.

(** reference.py 76-93: [Reference_Manager.load] on the lines of the file. *)
Fixpoint load_items (items : list str) (refs : dict reference) : res (dict reference) :=
  match items with
  | [] => Ret refs
  | [] :: items' => load_items items' refs
  | item :: items' =>
      let! ref := parse_item item in
      load_items items' (match r_label ref with [] => refs | l => dict_set refs l ref end)
  end.
Definition load (lines : list str) (refs : dict reference) : res (dict reference) :=
  load_items (split ["@"] (join [" "] (map strip lines))) refs.

(** reference.py 95-103: [find_all]; [None] stands for "Any".  [author in
    entries["author"]] is a substring test on a string and raises TypeError on
    a number; a missing key raises KeyError. *)
Fixpoint find_all (author : option str) (year : option value) (refs : list reference)
  : res (list reference) :=
  match refs with
  | [] => Ret []
  | ref :: refs' =>
      let! a := match author with
                | None => Ret true
                | Some a => match dict_get (r_entries ref) key_author with
                            | Some (VStr s) => Ret (contains a s)
                            | Some _ => Raise TypeError
                            | None => Raise KeyError
                            end
                end in
      let! y := if a then
                  match year with
                  | None => Ret true
                  | Some y => match dict_get (r_entries ref) key_year with
                              | Some v => Ret (val_eqb v y)
                              | None => Raise KeyError
                              end
                  end
                else Ret false in
      let! rest := find_all author year refs' in
      Ret (if y then ref :: rest else rest)
  end.

(** reference.py 105-108 *)
Definition get_ref (refs : dict reference) (label : str) : res reference :=
  match dict_get refs label with Some r => Ret r | None => Raise ValueError end.
