(** Model of blueprint/src/python/hypotheses.py: hypotheses, their dependency
    graph, sets of hypotheses and the cache the sets carry.

    Hypothesis objects compare and hash by identity, so they are modelled by
    their identity (a number) together with a store giving the object's
    attributes.  [description], [proof] and the printing methods are not
    modelled. *)
From Verif Require Import Base Model_Text Model_Reference.
Open Scope list_scope.

(** hypotheses.py 43-51; [data] is an arbitrary type with a comparison. *)
Record hyp (D : Type) : Type := mkHyp {
  h_name : str;
  h_type : str;
  h_data : D;
  h_ref : reference;
  h_deps : list nat }.   (* hypotheses.py 51: the set [dependencies] *)
Arguments mkHyp {D}.
Arguments h_name {D}.
Arguments h_type {D}.
Arguments h_data {D}.
Arguments h_ref {D}.
Arguments h_deps {D}.

(** A Python set of hypotheses: no repetition, in some order. *)
Definition mem (x : nat) (l : list nat) : bool := existsb (Nat.eqb x) l.
Definition set_add (x : nat) (l : list nat) : list nat := if mem x l then l else l ++ [x].
(** [set.update] *)
Definition set_update (l xs : list nat) : list nat := fold_left (fun l x => set_add x l) xs l.

Section Graph.
Context {D : Type} (st : nat -> hyp D).
(** Iteration order of the set [dependencies] of a hypothesis. *)
Context (ord : nat -> list nat -> list nat).

(** hypotheses.py 70-73.  [fuel] is what is left of the interpreter's recursion
    limit. *)
Fixpoint add_recursive_dependencies (fuel : nat) (h : nat) (acc : list nat) : res (list nat) :=
  match fuel with
  | O => Raise RecursionError
  | S f =>
      let ds := ord h (h_deps (st h)) in
      fold_left (fun r d => let! a := r in add_recursive_dependencies f d a)
        ds (Ret (set_update acc ds))
  end.

(** hypotheses.py 76-79 *)
Definition recursive_dependencies (fuel : nat) (h : nat) : res (list nat) :=
  add_recursive_dependencies fuel h [].

(** hypotheses.py 111-112 *)
Fixpoint proof_complexity (fuel : nat) (h : nat) : res Z :=
  match fuel with
  | O => Raise RecursionError
  | S f =>
      let! cs := mapM (proof_complexity f) (ord h (h_deps (st h))) in
      Ret (fold_left Z.add cs 0 + 1)%Z
  end.

(** hypotheses.py 115-119 *)
Fixpoint proof_date (fuel : nat) (h : nat) : res value :=
  match fuel with
  | O => Raise RecursionError
  | S f =>
      let y := r_year (h_ref (st h)) in
      let y := if val_eqb y unknown_date then VInt (-1) else y in
      let! ds := mapM (proof_date f) (ord h (h_deps (st h))) in
      val_max (y :: ds)
  end.

(** hypotheses.py 93-108; [None] stands for "Any". *)
Definition is_match (h : nat) (typ : option str) (year : option value) : res bool :=
  let x := st h in
  if match typ with None => true | Some t => str_eqb t (h_type x) end then
    match year with
    | None => Ret true
    | Some y =>
        if str_eqb (r_label (h_ref x)) lab_derived || str_eqb (r_label (h_ref x)) lab_classical
        then Ret true
        else if str_eqb (r_label (h_ref x)) lab_conjectured then Ret false
        else if val_eqb (r_year (h_ref x)) unknown_date then Ret false
        else val_le (r_year (h_ref x)) y
    end
  else Ret false.

(** hypotheses.py 190-195, over the members in iteration order. *)
Fixpoint list_hypotheses (ms : list nat) (typ : option str) (year : option value)
  : res (list nat) :=
  match ms with
  | [] => Ret []
  | h :: ms' =>
      let! b := is_match h typ year in
      let! rest := list_hypotheses ms' typ year in
      Ret (if b then h :: rest else rest)
  end.

(** hypotheses.py 198-212: the first member, in iteration order, that passes
    every test; [None] when there is none (after printing an error). *)
Context (data_eqb : D -> D -> bool).
Definition find_test (typ : option str) (data : option D) (keywords : option str)
  (year : option value) (h : nat) : bool :=
  let x := st h in
  match typ with None => true | Some t => str_eqb (h_type x) t end &&
  (match data with None => true | Some d => data_eqb (h_data x) d end &&
  (match keywords with
   | None => true
   | Some ks => forallb (fun k => contains (strip k) (h_name x)) (split [","%char] ks)
   end &&
   match year with None => true | Some y => val_eqb (r_year (h_ref x)) y end)).
Definition find_hypothesis (ms : list nat) (typ : option str) (data : option D)
  (keywords : option str) (year : option value) : option nat :=
  find (find_test typ data keywords year) ms.
End Graph.

(** ** Hypothesis_Set objects and their caches

    A Hypothesis_Set is its member set, a reference to a dictionary [data]
    (dictionaries are objects, so two sets can share one) and the flag
    [data_valid].  The only key used anywhere in the code base is
    "convex_hull", so a dictionary is an optional value. *)
Record hset : Type := mkSet {
  s_members : list nat;
  s_dict : nat;
  s_valid : bool }.

Record world (V : Type) : Type := mkWorld {
  w_sets : list hset;
  w_dicts : list (option V) }.
Arguments mkWorld {V}.
Arguments w_sets {V}.
Arguments w_dicts {V}.

Fixpoint upd {A} (l : list A) (i : nat) (a : A) : list A :=
  match l, i with
  | [], _ => []
  | _ :: l', O => a :: l'
  | x :: l', S j => x :: upd l' j a
  end.

(** What can be passed to [add_hypotheses] (hypotheses.py 176-187). *)
Inductive add_arg : Type :=
| AOne (h : nat)             (* a Hypothesis *)
| ASet (s : nat)             (* a Hypothesis_Set *)
| AList (l : list nat)       (* a list *)
| AIter (l : list nat).      (* a set or another iterable *)

(** A routine that uses the cache: the value it computes from the members, and
    whether it marks the cache as valid after storing it. *)
Record client (V : Type) : Type := mkClient {
  cl_value : list nat -> V;
  cl_marks : list nat -> bool }.
Arguments mkClient {V}.
Arguments cl_value {V}.
Arguments cl_marks {V}.

Section World.
Context {V : Type}.

Definition arg_members (w : world V) (a : add_arg) : list nat :=
  match a with
  | AOne h => [h]
  | ASet s => match nth_error (w_sets w) s with Some x => s_members x | None => [] end
  | AList l => l
  | AIter l => l
  end.

(** hypotheses.py 131-135: a new set has a fresh, empty dictionary. *)
Definition new_set (l : list nat) (w : world V) : world V :=
  mkWorld (w_sets w ++ [mkSet (set_update [] l) (length (w_dicts w)) false])
          (w_dicts w ++ [None]).

(** hypotheses.py 141-145: the copy has its own member set, and the same
    dictionary and flag. *)
Definition copy_set (s : nat) (w : world V) : world V :=
  match nth_error (w_sets w) s with
  | None => w
  | Some x =>
      mkWorld (w_sets w ++ [mkSet (set_update [] (s_members x)) (s_dict x) (s_valid x)])
              (w_dicts w)
  end.

(** hypotheses.py 170-173 and 176-187 *)
Definition add_hypotheses (s : nat) (a : add_arg) (invalidate : bool) (w : world V) : world V :=
  match nth_error (w_sets w) s with
  | None => w
  | Some x =>
      mkWorld (upd (w_sets w) s
                 (mkSet (set_update (s_members x) (arg_members w a)) (s_dict x)
                    (if invalidate then false else s_valid x)))
              (w_dicts w)
  end.

(** exponent_pair.py 144-153 and bound_mu.py 171-175, 190-200, 243-248: reuse
    the stored value when the flag is set and the key is present, else compute
    it, store it and (perhaps) set the flag. *)
Definition ask (c : client V) (s : nat) (w : world V) : option V * world V :=
  match nth_error (w_sets w) s with
  | None => (None, w)
  | Some x =>
      let cached := match nth_error (w_dicts w) (s_dict x) with Some o => o | None => None end in
      match s_valid x, cached with
      | true, Some v => (Some v, w)
      | _, _ =>
          let v := cl_value c (s_members x) in
          (Some v,
           mkWorld (upd (w_sets w) s
                      (mkSet (s_members x) (s_dict x)
                         (if cl_marks c (s_members x) then true else s_valid x)))
                   (upd (w_dicts w) (s_dict x) (Some v)))
      end
  end.

(** A program: a sequence of operations on the sets created so far. *)
Inductive op : Type :=
| ONew (l : list nat)
| OCopy (s : nat)
| OAdd (s : nat) (a : add_arg) (invalidate : bool)
| OAsk (c : client V) (s : nat).

Definition step (o : op) (w : world V) : option V * world V :=
  match o with
  | ONew l => (None, new_set l w)
  | OCopy s => (None, copy_set s w)
  | OAdd s a i => (None, add_hypotheses s a i w)
  | OAsk c s => ask c s w
  end.

(** The answers given during a run. *)
Fixpoint run (ops : list op) (w : world V) : list (option V) * world V :=
  match ops with
  | [] => ([], w)
  | o :: ops' =>
      let '(r, w1) := step o w in
      let '(rs, w2) := run ops' w1 in (r :: rs, w2)
  end.

Definition empty_world : world V := mkWorld [] [].
End World.
