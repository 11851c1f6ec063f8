(** Shared vocabulary: Python exceptions as values, rational comparisons as
    booleans, and small list facts.  Nothing here models a particular source
    file. *)
From Coq Require Export List Bool Arith ZArith QArith Qabs Lia Lqa.
Export ListNotations.
Open Scope Q_scope.

(** Exceptions that the modelled Python code can raise. *)
Inductive pyexc : Type :=
| ValueError
| TypeError
| IndexError
| KeyError
| AttributeError
| NameError
| UnboundLocalError
| ZeroDivisionError
| NotImplementedError
| RecursionError
| SyntaxError.

(** Outcome of a modelled Python call. *)
Inductive res (A : Type) : Type :=
| Ret (a : A)
| Raise (e : pyexc).
Arguments Ret {A} a.
Arguments Raise {A} e.

Definition bind {A B} (r : res A) (f : A -> res B) : res B :=
  match r with Ret a => f a | Raise e => Raise e end.

Notation "'let!' x ':=' r 'in' k" := (bind r (fun x => k))
  (at level 200, x pattern, r at level 100, k at level 200).

(** Left-to-right list traversal with exceptions. *)
Section MapM.
Context {A B : Type} (f : A -> res B).
Fixpoint mapM (l : list A) : res (list B) :=
  match l with
  | [] => Ret []
  | a :: l' => let! b := f a in let! bs := mapM l' in Ret (b :: bs)
  end.
End MapM.

(** Python comparisons on Fractions. *)
Definition Qleb (x y : Q) : bool := Qle_bool x y.
Definition Qltb (x y : Q) : bool := negb (Qle_bool y x).
Definition Qeqb (x y : Q) : bool := Qeq_bool x y.

Lemma Qleb_spec : forall x y, BoolSpec (x <= y) (y < x) (Qleb x y).
Proof.
  intros x y. unfold Qleb. destruct (Qle_bool x y) eqn:E; constructor.
  - now apply Qle_bool_iff.
  - apply Qnot_le_lt. intro H. apply Qle_bool_iff in H. congruence.
Qed.

Lemma Qltb_spec : forall x y, BoolSpec (x < y) (y <= x) (Qltb x y).
Proof.
  intros x y. unfold Qltb. destruct (Qle_bool y x) eqn:E; constructor.
  - now apply Qle_bool_iff.
  - apply Qnot_le_lt. intro H. apply Qle_bool_iff in H. congruence.
Qed.

Lemma Qeqb_spec : forall x y, reflect (x == y) (Qeqb x y).
Proof.
  intros x y. unfold Qeqb. destruct (Qeq_bool x y) eqn:E; constructor.
  - now apply Qeq_bool_iff.
  - intro H. apply Qeq_bool_iff in H. congruence.
Qed.

Lemma Qleb_true : forall x y, Qleb x y = true <-> x <= y.
Proof. intros x y. destruct (Qleb_spec x y); split; intros; auto; try discriminate; exfalso; lra. Qed.
Lemma Qleb_false : forall x y, Qleb x y = false <-> y < x.
Proof. intros x y. destruct (Qleb_spec x y); split; intros; auto; try discriminate; exfalso; lra. Qed.
Lemma Qltb_true : forall x y, Qltb x y = true <-> x < y.
Proof. intros x y. destruct (Qltb_spec x y); split; intros; auto; try discriminate; exfalso; lra. Qed.
Lemma Qltb_false : forall x y, Qltb x y = false <-> y <= x.
Proof. intros x y. destruct (Qltb_spec x y); split; intros; auto; try discriminate; exfalso; lra. Qed.
Lemma Qeqb_true : forall x y, Qeqb x y = true <-> x == y.
Proof. intros x y. destruct (Qeqb_spec x y); split; intros; auto; discriminate. Qed.
Lemma Qeqb_false : forall x y, Qeqb x y = false <-> ~ x == y.
Proof. intros x y. destruct (Qeqb_spec x y); split; intros; auto; try discriminate; contradiction. Qed.

(** Python's [max(a, b)] and [min(a, b)] on two numbers. *)
Definition qmax (x y : Q) : Q := if Qltb x y then y else x.
Definition qmin (x y : Q) : Q := if Qltb y x then y else x.

(** Replace boolean comparison hypotheses and goals by propositions. *)
Ltac qprop :=
  repeat match goal with
  | H : _ && _ = true |- _ => apply andb_true_iff in H; destruct H
  | H : _ || _ = false |- _ => apply orb_false_iff in H; destruct H
  | H : negb _ = true |- _ => apply negb_true_iff in H
  | H : negb _ = false |- _ => apply negb_false_iff in H
  | H : Qleb _ _ = true |- _ => apply Qleb_true in H
  | H : Qleb _ _ = false |- _ => apply Qleb_false in H
  | H : Qltb _ _ = true |- _ => apply Qltb_true in H
  | H : Qltb _ _ = false |- _ => apply Qltb_false in H
  | H : Qeqb _ _ = true |- _ => apply Qeqb_true in H
  | H : Qeqb _ _ = false |- _ => apply Qeqb_false in H
  | H : true = _ |- _ => symmetry in H
  | H : false = _ |- _ => symmetry in H
  end.

Ltac qcase :=
  match goal with
  | |- context [Qleb ?x ?y] => destruct (Qleb_spec x y)
  | |- context [Qltb ?x ?y] => destruct (Qltb_spec x y)
  | |- context [Qeqb ?x ?y] => destruct (Qeqb_spec x y)
  | H : context [Qleb ?x ?y] |- _ => destruct (Qleb_spec x y)
  | H : context [Qltb ?x ?y] |- _ => destruct (Qltb_spec x y)
  | H : context [Qeqb ?x ?y] |- _ => destruct (Qeqb_spec x y)
  end.

(** Congruence of the boolean comparisons. *)
Global Instance Qleb_comp : Proper (Qeq ==> Qeq ==> eq) Qleb.
Proof.
  intros a b E c d F. destruct (Qleb_spec a c), (Qleb_spec b d); auto; exfalso; lra.
Qed.
Global Instance Qltb_comp : Proper (Qeq ==> Qeq ==> eq) Qltb.
Proof.
  intros a b E c d F. destruct (Qltb_spec a c), (Qltb_spec b d); auto; exfalso; lra.
Qed.
Global Instance Qeqb_comp : Proper (Qeq ==> Qeq ==> eq) Qeqb.
Proof.
  intros a b E c d F. destruct (Qeqb_spec a c), (Qeqb_spec b d); auto; exfalso; lra.
Qed.

Lemma Qeqb_refl : forall x, Qeqb x x = true.
Proof. intros. apply Qeqb_true. reflexivity. Qed.

(** Python list equality of tuples of Fractions. *)
Fixpoint qlist_eqb (a b : list Q) : bool :=
  match a, b with
  | [], [] => true
  | x :: a', y :: b' => Qeqb x y && qlist_eqb a' b'
  | _, _ => false
  end.

Lemma qlist_eqb_spec : forall a b, qlist_eqb a b = true <-> Forall2 Qeq a b.
Proof.
  induction a as [|x a IH]; destruct b as [|y b]; cbn; split; intros H; auto; try discriminate; try now inversion H.
  - apply andb_true_iff in H. destruct H as [H1 H2]. constructor; [now apply Qeqb_true|now apply IH].
  - inversion H; subst. apply andb_true_iff. split; [now apply Qeqb_true|now apply IH].
Qed.

(** Sorted list of distinct numbers: [list(set(...))] followed by [.sort()]. *)
Fixpoint qinsert (x : Q) (l : list Q) : list Q :=
  match l with
  | [] => [x]
  | y :: l' => if Qltb x y then x :: l else if Qeqb x y then l else y :: qinsert x l'
  end.
Definition sort_uniq (l : list Q) : list Q := fold_right qinsert [] l.

(** [a] is strictly below every element of [l]. *)
Definition below (a : Q) (l : list Q) : Prop := Forall (fun y => a < y) l.
Fixpoint strictly_sorted (l : list Q) : Prop :=
  match l with [] => True | x :: l' => below x l' /\ strictly_sorted l' end.

(** Membership of rational lists up to [==]. *)
Definition InQ (x : Q) (l : list Q) : Prop := Exists (fun y => x == y) l.

Lemma InQ_In : forall x l, In x l -> InQ x l.
Proof. intros x l H. apply Exists_exists. exists x. split; [auto|reflexivity]. Qed.
Lemma InQ_eq : forall x y l, x == y -> InQ x l -> InQ y l.
Proof.
  intros x y l E H. apply Exists_exists in H. destruct H as [z [Hz Ez]].
  apply Exists_exists. exists z. split; auto. lra.
Qed.
Lemma InQ_app : forall x l1 l2, InQ x (l1 ++ l2) <-> InQ x l1 \/ InQ x l2.
Proof. intros. unfold InQ. apply Exists_app. Qed.
Lemma InQ_cons : forall x y l, InQ x (y :: l) <-> x == y \/ InQ x l.
Proof. intros. unfold InQ. split; intros H; [inversion H; auto|destruct H; [now constructor|now constructor 2]]. Qed.
Lemma InQ_nil : forall x, ~ InQ x [].
Proof. intros x H. inversion H. Qed.

Lemma InQ_qinsert : forall x y l, InQ x (qinsert y l) <-> x == y \/ InQ x l.
Proof.
  intros x y l. induction l as [|z l IH]; cbn.
  - rewrite InQ_cons. reflexivity.
  - destruct (Qltb_spec y z) as [L|L]; [rewrite !InQ_cons; tauto|].
    destruct (Qeqb_spec y z) as [E|E].
    + rewrite !InQ_cons. split; [tauto|]. intros [K|K]; [left; lra|tauto].
    + rewrite !InQ_cons, IH. tauto.
Qed.

Lemma InQ_sort_uniq : forall x l, InQ x (sort_uniq l) <-> InQ x l.
Proof.
  intros x l. induction l as [|y l IH]; cbn; [reflexivity|].
  rewrite InQ_qinsert, InQ_cons, IH. reflexivity.
Qed.

Lemma below_qinsert : forall a y l, a < y -> below a l -> below a (qinsert y l).
Proof.
  intros a y l Ha. induction l as [|z l IH]; intros H; cbn.
  - repeat constructor. auto.
  - inversion H; subst. destruct (Qltb_spec y z); [constructor; auto|].
    destruct (Qeqb_spec y z); auto. constructor; auto. now apply IH.
Qed.

Lemma sorted_qinsert : forall y l, strictly_sorted l -> strictly_sorted (qinsert y l).
Proof.
  intros y l. induction l as [|z l IH]; cbn; intros H.
  - split; constructor.
  - destruct H as [H1 H2]. destruct (Qltb_spec y z) as [L|L].
    + cbn. split; [|split; auto]. constructor; auto.
      eapply Forall_impl; [|exact H1]. cbn. intros; lra.
    + destruct (Qeqb_spec y z) as [E|E]; cbn.
      * split; auto.
      * split; [|auto]. apply below_qinsert; auto.
        apply Qle_lteq in L. destruct L as [L|L]; auto. exfalso; apply E; lra.
Qed.

Lemma sorted_sort_uniq : forall l, strictly_sorted (sort_uniq l).
Proof. induction l as [|x l IH]; cbn; [exact I|]. now apply sorted_qinsert. Qed.

Lemma below_InQ : forall a l x, below a l -> InQ x l -> a < x.
Proof.
  intros a l x H1 H2. apply Exists_exists in H2. destruct H2 as [y [Hy E]].
  unfold below in H1. rewrite Forall_forall in H1. specialize (H1 y Hy). lra.
Qed.

Lemma Forall2_Qeq_refl : forall l, Forall2 Qeq l l.
Proof. induction l; constructor; auto. reflexivity. Qed.
Lemma Forall2_Qeq_sym : forall l m, Forall2 Qeq l m -> Forall2 Qeq m l.
Proof. induction 1; constructor; auto. now symmetry. Qed.
Lemma Forall2_Qeq_trans : forall l m n, Forall2 Qeq l m -> Forall2 Qeq m n -> Forall2 Qeq l n.
Proof.
  intros l m n H. revert n. induction H; intros n Hn; inversion Hn; subst; constructor; eauto.
  etransitivity; eauto.
Qed.
