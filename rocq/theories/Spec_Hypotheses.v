(** Specification vocabulary for hypotheses.py. *)
From Coq Require Import Relations.
From Verif Require Import Base Model_Text Model_Reference Spec_Reference Model_Hypotheses.
Open Scope list_scope.

Section Graph.
Context {D : Type} (st : nat -> hyp D).

(** [h] lists [d] among its dependencies. *)
Definition depends (h d : nat) : Prop := In d (h_deps (st h)).

(** [x] is reached from [h] by one or more dependency steps. *)
Definition reaches : nat -> nat -> Prop := clos_trans nat depends.

(** Acyclic, with every chain of dependencies from [h] shorter than [rank h]. *)
Definition ranked (rank : nat -> nat) : Prop := forall h d, depends h d -> (rank d < rank h)%nat.

(** The proof tree of a hypothesis, one node for every use of a dependency. *)
Inductive tree : Type := node (h : nat) (ts : list tree).
Inductive unfolds : nat -> tree -> Prop :=
| unfolds_node : forall h ts, Forall2 unfolds (h_deps (st h)) ts -> unfolds h (node h ts).
Fixpoint size (t : tree) : Z :=
  match t with node _ ts => (1 + fold_right Z.add 0 (map size ts))%Z end.

(** The year a hypothesis counts with: its own, -1 when that is unknown. *)
Definition counted_year (h : nat) (y : value) : Prop :=
  (r_year (h_ref (st h)) = unknown_date /\ y = VInt (-1)) \/
  (r_year (h_ref (st h)) <> unknown_date /\ y = r_year (h_ref (st h))).

(** [y] is the latest counted year among [h] and everything it depends on. *)
Definition latest_counted (h : nat) (y : value) : Prop :=
  (exists x, (x = h \/ reaches h x) /\ counted_year x y) /\
  (forall x z, x = h \/ reaches h x -> counted_year x z -> year_le z y).

(** Every hypothesis with dependencies carries the year of the latest of them,
    as the [derived_*] constructors arrange. *)
Definition well_derived : Prop := forall h, h_deps (st h) <> [] ->
  latest (map (fun d => r_year (h_ref (st d))) (h_deps (st h))) (r_year (h_ref (st h))).

(** Admissible under a type and a year, as the documentation of
    [list_hypotheses] has it. *)
Definition admissible (typ : option str) (year : option value) (h : nat) : Prop :=
  (forall t, typ = Some t -> h_type (st h) = t) /\
  (forall y, year = Some y ->
     r_label (h_ref (st h)) = lab_derived \/ r_label (h_ref (st h)) = lab_classical \/
     (r_label (h_ref (st h)) <> lab_conjectured /\ year_le (r_year (h_ref (st h))) y)).

(** Every keyword, between commas and trimmed, occurs in the name. *)
Definition has_keywords (ks : str) (name : str) : Prop :=
  forall pieces, pieces <> [] -> Forall (fun p => ~ In ","%char p) pieces ->
    ks = join [","%char] pieces ->
    forall p, In p pieces -> exists u v, name = u ++ strip p ++ v.
End Graph.

(** ** Sets without caches

    The same programs run on plain member sets, every answer computed anew. *)
Section Ideal.
Context {V : Type}.

Definition imembers (w : list (list nat)) (a : add_arg) : list nat :=
  match a with
  | AOne h => [h]
  | ASet s => nth s w []
  | AList l => l
  | AIter l => l
  end.

Definition istep (o : @op V) (w : list (list nat)) : option V * list (list nat) :=
  match o with
  | ONew l => (None, w ++ [set_update [] l])
  | OCopy s =>
      (None, match nth_error w s with Some m => w ++ [set_update [] m] | None => w end)
  | OAdd s a _ =>
      (None, match nth_error w s with Some m => upd w s (set_update m (imembers w a)) | None => w end)
  | OAsk c s =>
      (match nth_error w s with Some m => Some (cl_value c m) | None => None end, w)
  end.

Fixpoint irun (ops : list op) (w : list (list nat)) : list (option V) * list (list nat) :=
  match ops with
  | [] => ([], w)
  | o :: ops' =>
      let '(r, w1) := istep o w in
      let '(rs, w2) := irun ops' w1 in (r :: rs, w2)
  end.

(** A program that never copies a set, lets only one routine use each set, and
    skips the invalidation only when what is added does not change that
    routine's value. *)
Fixpoint tame (owner : nat -> client V) (ops : list op) (w : list (list nat)) : Prop :=
  match ops with
  | [] => True
  | o :: ops' =>
      match o with
      | ONew _ => True
      | OCopy _ => False
      | OAdd s a i =>
          i = false -> forall m, nth_error w s = Some m ->
            cl_value (owner s) (set_update m (imembers w a)) = cl_value (owner s) m
      | OAsk c s => c = owner s
      end /\ tame owner ops' (snd (istep o w))
  end.
End Ideal.
