(** How a printed linear expression is read.  An expression is a sequence of
    words separated by single spaces.  A term is an optional minus sign, an
    optional non-negative number [n] or [n/m] and an optional name; a term with
    no name is a constant, one with no number has the coefficient 1. *)
From Verif Require Import Base Model_Text Model_Polytope Model_Region.
Open Scope list_scope.

Definition num_ch (c : ascii) : bool := existsb (ch_eqb c) (s_of "0123456789/").

Fixpoint span_num (s : str) : str * str :=
  match s with
  | [] => ([], [])
  | c :: s' => if num_ch c then let (a, b) := span_num s' in (c :: a, b) else ([], s)
  end.

Definition read_frac (s : str) : option Q :=
  match split (s_of "/") s with
  | [a] => match z_read a with Some n => Some (inject_Z n) | None => None end
  | [a; b] =>
      match z_read a, z_read b with
      | Some n, Some (Zpos d) => Some (n # d)
      | _, _ => None
      end
  | _ => None
  end.

Definition read_pos_term (s : str) : option (Q * str) :=
  match span_num s with
  | ([], []) => None
  | ([], v) => Some (1, v)
  | (n, v) => match read_frac n with Some q => Some (q, v) | None => None end
  end.

Definition negate (t : option (Q * str)) : option (Q * str) :=
  match t with Some (q, v) => Some (- q, v) | None => None end.

Definition read_term (s : str) : option (Q * str) :=
  match s with
  | c :: s' => if ch_eqb c "-" then negate (read_pos_term s') else read_pos_term s
  | [] => None
  end.

Definition cons_term (t : option (Q * str)) (r : option (list (Q * str))) : option (list (Q * str)) :=
  match t, r with Some t, Some r => Some (t :: r) | _, _ => None end.

(** Strict reading: exactly one sign between two terms. *)
Fixpoint read_tail (ws : list str) : option (list (Q * str)) :=
  match ws with
  | [] => Some []
  | s :: t :: ws' =>
      if str_eqb s (s_of "+") then cons_term (read_pos_term t) (read_tail ws')
      else if str_eqb s (s_of "-") then cons_term (negate (read_pos_term t)) (read_tail ws')
      else None
  | _ => None
  end.
Definition read_words (ws : list str) : option (list (Q * str)) :=
  match ws with
  | [] => Some []
  | t :: ws' =>
      if str_eqb t (s_of "-") then
        match ws' with [] => None | t' :: ws'' => cons_term (negate (read_pos_term t')) (read_tail ws'') end
      else cons_term (read_term t) (read_tail ws')
  end.
(** The empty string is the empty sum. *)
Definition read_sum (s : str) : option (list (Q * str)) :=
  match s with [] => Some [] | _ => read_words (split (s_of " ") s) end.

(** Lenient reading: any number of signs before a term. *)
Fixpoint read_signs (neg : bool) (ws : list str) : option (list (Q * str)) :=
  match ws with
  | [] => Some []
  | w :: ws' =>
      if str_eqb w (s_of "+") then read_signs neg ws'
      else if str_eqb w (s_of "-") then read_signs (negb neg) ws'
      else cons_term (if neg then negate (read_term w) else read_term w) (read_signs false ws')
  end.
Definition read_lenient (s : str) : option (list (Q * str)) := read_signs false (split (s_of " ") s).

(** A printed sum has been read as the terms [ts]. *)
Definition same_terms (r : option (list (Q * str))) (ts : list (Q * str)) : Prop :=
  exists l, r = Some l /\ Forall2 (fun a b => fst a == fst b /\ snd a = snd b) l ts.

(** The terms of [c0 + c1 x1 + ...]: those with a coefficient that is not zero. *)
Definition terms (cs : list Q) (names : list str) : list (Q * str) :=
  filter (fun t => negb (Qeqb (fst t) 0)) (combine cs names).

(** Names that cannot be mistaken for a number or a sign. *)
Definition name (v : str) : Prop :=
  match v with [] => False | c :: _ => num_ch c = false /\ c <> "-"%char /\ c <> "+"%char end /\
  ~ In " "%char v /\ ~ In "'"%char v.

(** The coefficient of a name in a sum. *)
Fixpoint coefficient (v : str) (ts : list (Q * str)) : Q :=
  match ts with
  | [] => 0
  | (q, w) :: ts' => (if str_eqb v w then q else 0) + coefficient v ts'
  end.

(** The text of a polytope: a list of quoted rows, each a sum and a relation. *)
Definition read_row (s : str) : option (list (Q * str) * bool) :=
  match rev (split (s_of " ") s) with
  | z :: r :: ws =>
      if str_eqb z (s_of "0") then
        match (match rev ws with [[]] => Some [] | ws => read_words ws end) with
        | Some ts => if str_eqb r (s_of "=") then Some (ts, true) else if str_eqb r (s_of ">=") then Some (ts, false) else None
        | None => None
        end
      else None
  | _ => None
  end.
Fixpoint odd_parts (first : bool) (ws : list str) : option (list str) :=
  match ws with
  | [a] => if str_eqb a (if first then s_of "[]" else s_of "]") then Some [] else None
  | a :: b :: ws' =>
      if str_eqb a (if first then s_of "[" else s_of ", ") then
        match odd_parts false ws' with Some l => Some (b :: l) | None => None end
      else None
  | [] => None
  end.
Fixpoint read_all {A B} (f : A -> option B) (l : list A) : option (list B) :=
  match l with
  | [] => Some []
  | a :: l' => match f a, read_all f l' with Some b, Some bs => Some (b :: bs) | _, _ => None end
  end.
Definition read_polytope (s : str) : option (list (list (Q * str) * bool)) :=
  match odd_parts true (split (s_of "'") s) with
  | Some rows => read_all read_row rows
  | None => None
  end.

(** The name of the power [var^deg]: nothing for the constant. *)
Definition power (var : str) (deg : nat) : str :=
  match deg with O => [] | 1%nat => var | _ => var ++ s_of "^" ++ z_str (Z.of_nat deg) end.
Definition powers (var : str) (n : nat) : list str := map (power var) (seq 0 n).

(** A region built from polytopes by unions and intersections only. *)
Fixpoint plain_region (r : region) : bool :=
  match r with
  | RPoly _ => true
  | RWrap _ | RCompl _ => false
  | RUnion rs | RDisj rs | RInter rs => forallb plain_region rs
  end.

(** The text of a large value estimate: one bound or a maximum of bounds. *)
Fixpoint strip (p s : str) : option str :=
  match p, s with
  | [], _ => Some s
  | a :: p', b :: s' => if ch_eqb a b then strip p' s' else None
  | _, [] => None
  end.
Definition read_bounds (s : str) : option (list (list (Q * str))) :=
  match strip (s_of "ρ <= ") s with
  | None => None
  | Some t =>
      match strip (s_of "max(") t with
      | None => match read_sum t with Some ts => Some [ts] | None => None end
      | Some u =>
          match rev u with
          | c :: w =>
              if ch_eqb c ")" then
                match split (s_of ",") (rev w) with
                | a :: l => match read_all (strip (s_of " ")) l with Some l => read_all read_sum (a :: l) | None => None end
                | [] => None
                end
              else None
          | [] => None
          end
      end
  end.

(** Characters of numbers, signs and spaces. *)
Definition plain_ch (c : ascii) : Prop := In c (s_of "0123456789/ +-").

(** The text of a region, read from the left: a polytope is everything up to
    the closing bracket; otherwise a kind and its parts between braces. *)
Inductive rkind := KUnion | KDisjoint | KIntersection.
Inductive rtext := TPoly (rows : list (list (Q * str) * bool)) | TOf (k : rkind) (ts : list rtext).

Fixpoint to_bracket (s : str) : option (str * str) :=
  match s with
  | [] => None
  | c :: s' =>
      if ch_eqb c "]" then Some ([c], s')
      else match to_bracket s' with Some (a, b) => Some (c :: a, b) | None => None end
  end.
Definition read_kind (s : str) : option (rkind * str) :=
  match strip (s_of "Union of {") s with
  | Some t => Some (KUnion, t)
  | None =>
      match strip (s_of "Disjoint union of {") s with
      | Some t => Some (KDisjoint, t)
      | None => match strip (s_of "Intersection of {") s with Some t => Some (KIntersection, t) | None => None end
      end
  end.
Fixpoint read_items (read : str -> option (rtext * str)) (n : nat) (s : str) : option (list rtext * str) :=
  match n with
  | O => None
  | S n =>
      match read s with
      | None => None
      | Some (t, s') =>
          match strip (s_of "}") s' with
          | Some s'' => Some ([t], s'')
          | None =>
              match strip (s_of ", ") s' with
              | None => None
              | Some s'' => match read_items read n s'' with Some (ts, u) => Some (t :: ts, u) | None => None end
              end
          end
      end
  end.
Fixpoint read_region_upto (n : nat) (s : str) : option (rtext * str) :=
  match n with
  | O => None
  | S n =>
      match strip (s_of "[") s with
      | Some _ =>
          match to_bracket s with
          | Some (p, rest) => match read_polytope p with Some rows => Some (TPoly rows, rest) | None => None end
          | None => None
          end
      | None =>
          match read_kind s with
          | None => None
          | Some (k, s') =>
              match strip (s_of "}") s' with
              | Some rest => Some (TOf k [], rest)
              | None => match read_items (read_region_upto n) n s' with Some (ts, rest) => Some (TOf k ts, rest) | None => None end
              end
          end
      end
  end.
Definition read_region (s : str) : option rtext :=
  match read_region_upto (S (List.length s)) s with Some (t, []) => Some t | _ => None end.

(** The rows of a text are those of a matrix, in the given names. *)
Definition rows_read (m : mat) (vars : list str) (rows : list (list (Q * str) * bool)) : Prop :=
  Forall2 (fun rb tb => snd tb = snd rb /\ coefficient [] (fst tb) == nth 0 (fst rb) 0 /\
    forall i, (i < ncol m - 1)%nat -> coefficient (nth i vars []) (fst tb) == nth (S i) (fst rb) 0) (mrows m) rows.
(** The text says what the region is: the same tree, the same rows.  [vars] gives
    the names used for a polytope of a given dimension. *)
Inductive describes (vars : nat -> list str) : rtext -> region -> Prop :=
| D_poly p rows : rows_read (pmat (body p)) (vars (ncol (pmat (body p)) - 1)%nat) rows -> describes vars (TPoly rows) (RPoly p)
| D_union ts rs : Forall2 (describes vars) ts rs -> describes vars (TOf KUnion ts) (RUnion rs)
| D_disjoint ts rs : Forall2 (describes vars) ts rs -> describes vars (TOf KDisjoint ts) (RDisj rs)
| D_inter ts rs : Forall2 (describes vars) ts rs -> describes vars (TOf KIntersection ts) (RInter rs).
