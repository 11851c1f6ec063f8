(** The Python string operations the code base uses, on lists of characters.
    A Python [str] is modelled as a list of 8-bit characters: characters
    outside that range do not occur in the modelled uses except in author
    names and titles, where they are only ever copied. *)
From Coq Require Export Ascii String List.
From Coq Require Import DecimalString DecimalPos DecimalZ.
From Verif Require Import Base.
Open Scope list_scope.

Definition str := list ascii.
Definition s_of (s : string) : str := list_ascii_of_string s.
Coercion s_of : string >-> str.

(** Python's [==] on strings. *)
Definition ch_eqb (a b : ascii) : bool := Ascii.eqb a b.
Fixpoint str_eqb (s t : str) : bool :=
  match s, t with
  | [], [] => true
  | a :: s', b :: t' => ch_eqb a b && str_eqb s' t'
  | _, _ => false
  end.

(** Characters removed by [str.strip()] (the ASCII white space of Python). *)
Definition is_space (c : ascii) : bool :=
  let n := nat_of_ascii c in
  ((9 <=? n) && (n <=? 13) || (28 <=? n) && (n <=? 32))%nat.

Fixpoint lstrip (s : str) : str :=
  match s with
  | c :: s' => if is_space c then lstrip s' else s
  | [] => []
  end.
Definition rstrip (s : str) : str := rev (lstrip (rev s)).
(** [s.strip()] *)
Definition strip (s : str) : str := rstrip (lstrip s).

(** [s.startswith(p)] *)
Fixpoint starts_with (p s : str) : bool :=
  match p, s with
  | [], _ => true
  | a :: p', b :: s' => ch_eqb a b && starts_with p' s'
  | _ :: _, [] => false
  end.

(** [p in s] *)
Fixpoint contains (p s : str) : bool :=
  starts_with p s || match s with [] => false | _ :: s' => contains p s' end.

(** [s.split(sep)] for a non-empty separator: scan from the left, cutting at
    every non-overlapping occurrence. *)
Fixpoint split_go (sep : str) (skip : nat) (cur s : str) : list str :=
  match s with
  | [] => [rev cur]
  | c :: s' =>
      match skip with
      | S k => split_go sep k cur s'
      | O => if starts_with sep s then rev cur :: split_go sep (length sep - 1) [] s'
             else split_go sep 0 (c :: cur) s'
      end
  end.
Definition split (sep s : str) : list str := split_go sep 0 [] s.

(** [sep.join(l)] *)
Fixpoint join (sep : str) (l : list str) : str :=
  match l with
  | [] => []
  | [s] => s
  | s :: l' => s ++ sep ++ join sep l'
  end.

(** [s.lower()] on ASCII letters. *)
Definition lower_ch (c : ascii) : ascii :=
  let n := nat_of_ascii c in
  if ((65 <=? n) && (n <=? 90))%nat then ascii_of_nat (n + 32) else c.
Definition lower (s : str) : str := map lower_ch s.

(** [str(n)] for an integer and [int(s)] for a string.  [int] also accepts
    surrounding white space and a plus sign; its underscores are not
    modelled. *)
Definition z_str (n : Z) : str := list_ascii_of_string (NilZero.string_of_int (Z.to_int n)).
Definition z_read (s : str) : option Z :=
  option_map Z.of_int (NilZero.int_of_string (string_of_list_ascii s)).
Definition py_int (s : str) : res Z :=
  let t := strip s in
  let t := match t with
           | c :: (d :: _) as t' => if ch_eqb c "+" && negb (ch_eqb d "-") then t' else t
           | _ => t
           end in
  match z_read t with Some n => Ret n | None => Raise ValueError end.

(** ** Facts *)
Lemma ch_eqb_true : forall a b, ch_eqb a b = true <-> a = b.
Proof. intros. apply Ascii.eqb_eq. Qed.
Lemma ch_eqb_refl : forall a, ch_eqb a a = true.
Proof. intros. now apply ch_eqb_true. Qed.
Lemma ch_eqb_false : forall a b, ch_eqb a b = false <-> a <> b.
Proof. intros. apply Ascii.eqb_neq. Qed.

Lemma str_eqb_true : forall s t, str_eqb s t = true <-> s = t.
Proof.
  induction s as [|a s IH]; intros [|b t]; simpl; split; intros E; try discriminate; auto.
  - apply andb_true_iff in E. destruct E as [E1 E2]. apply ch_eqb_true in E1.
    apply IH in E2. now subst.
  - inversion E; subst. rewrite ch_eqb_refl. simpl. now apply IH.
Qed.
Lemma str_eqb_refl : forall s, str_eqb s s = true.
Proof. intros. now apply str_eqb_true. Qed.
Lemma str_eqb_false : forall s t, str_eqb s t = false <-> s <> t.
Proof.
  intros s t. split.
  - intros E H. apply str_eqb_true in H. congruence.
  - intros H. destruct (str_eqb s t) eqn:E; auto. apply str_eqb_true in E. contradiction.
Qed.

Lemma starts_with_true : forall p s, starts_with p s = true <-> exists t, s = p ++ t.
Proof.
  induction p as [|a p IH]; intros [|b s]; simpl; split; intros H; auto; try discriminate.
  - now exists [].
  - now exists (b :: s).
  - destruct H as [t Ht]. discriminate.
  - apply andb_true_iff in H. destruct H as [H1 H2]. apply ch_eqb_true in H1.
    apply IH in H2. destruct H2 as [t Ht]. exists t. now subst.
  - destruct H as [t Ht]. inversion Ht; subst. rewrite ch_eqb_refl. simpl.
    apply IH. now exists t.
Qed.

Lemma contains_true : forall p s, contains p s = true <-> exists u v, s = u ++ p ++ v.
Proof.
  intros p s. induction s as [|c s IH].
  - simpl. rewrite orb_false_r. rewrite starts_with_true. split.
    + intros [t Ht]. exists [], t. auto.
    + intros (u & v & E). destruct u; [|discriminate]. exists v. auto.
  - cbn [contains]. rewrite orb_true_iff, starts_with_true, IH. split.
    + intros [[t Ht]|(u & v & E)].
      * exists [], t. auto.
      * exists (c :: u), v. simpl. now f_equal.
    + intros (u & v & E). destruct u as [|d u].
      * left. exists v. auto.
      * right. inversion E; subst. exists u, v. auto.
Qed.

(** A string without white space at either end. *)
Definition trimmed (s : str) : Prop :=
  (forall c t, s = c :: t -> is_space c = false) /\
  (forall c t, s = t ++ [c] -> is_space c = false).

Lemma lstrip_trimmed : forall s, (forall c t, s = c :: t -> is_space c = false) -> lstrip s = s.
Proof.
  intros [|c s] H; auto. simpl. now rewrite (H c s eq_refl).
Qed.

Lemma strip_trimmed : forall s, trimmed s -> strip s = s.
Proof.
  intros s [H1 H2]. unfold strip. rewrite lstrip_trimmed by auto.
  unfold rstrip. rewrite lstrip_trimmed; [apply rev_involutive|].
  intros c t E. apply (H2 c (rev t)).
  rewrite <- (rev_involutive s), E. simpl. auto.
Qed.

Lemma lstrip_spaces : forall w s, Forall (fun c => is_space c = true) w -> lstrip (w ++ s) = lstrip s.
Proof. induction 1; simpl; auto. now rewrite H. Qed.

(** Padding is removed. *)
Lemma strip_pad : forall w s v, Forall (fun c => is_space c = true) w ->
  Forall (fun c => is_space c = true) v -> trimmed s -> strip (w ++ s ++ v) = s.
Proof.
  intros w s v HW HV HT. unfold strip. rewrite lstrip_spaces by auto.
  destruct s as [|c s].
  - simpl. rewrite <- (app_nil_r v). rewrite lstrip_spaces by auto. reflexivity.
  - destruct HT as [H1 H2].
    rewrite lstrip_trimmed.
    2:{ intros d t E. inversion E; subst. now apply (H1 d s). }
    unfold rstrip. rewrite rev_app_distr, lstrip_spaces by now apply Forall_rev.
    rewrite lstrip_trimmed; [apply rev_involutive|].
    intros d t E. apply (H2 d (rev t)).
    rewrite <- (rev_involutive (c :: s)), E. simpl. auto.
Qed.

Lemma z_read_str : forall n, z_read (z_str n) = Some n.
Proof.
  intros n. unfold z_read, z_str. rewrite string_of_list_ascii_of_string.
  rewrite NilZero.isi.
  - simpl. now rewrite of_to.
  - unfold Z.to_int. destruct n; simpl; try discriminate.
    intro E. inversion E as [F]. now apply (DecimalPos.Unsigned.to_uint_nonnil p).
  - unfold Z.to_int. destruct n; simpl; try discriminate.
    intro E. inversion E as [F]. now apply (DecimalPos.Unsigned.to_uint_nonnil p).
Qed.

(** ** [split] *)
Lemma split_go_free : forall c cur s, ~ In c s -> split_go [c] 0 cur s = [rev cur ++ s].
Proof.
  intros c cur s. revert cur. induction s as [|d s IH]; intros cur H; simpl.
  - now rewrite app_nil_r.
  - destruct (ch_eqb c d) eqn:E.
    + apply ch_eqb_true in E. subst. exfalso. apply H. now left.
    + simpl. rewrite IH by (intro; apply H; now right). simpl. now rewrite <- app_assoc.
Qed.

Lemma split_go_cut : forall c cur s t, ~ In c s ->
  split_go [c] 0 cur (s ++ c :: t) = (rev cur ++ s) :: split_go [c] 0 [] t.
Proof.
  intros c cur s t. revert cur. induction s as [|d s IH]; intros cur H; simpl.
  - rewrite ch_eqb_refl. simpl. now rewrite app_nil_r.
  - destruct (ch_eqb c d) eqn:E.
    + apply ch_eqb_true in E. subst. exfalso. apply H. now left.
    + simpl. rewrite IH by (intro; apply H; now right). simpl. now rewrite <- app_assoc.
Qed.

(** Splitting a joined list on a one-character separator gives the list back. *)
Lemma split_join : forall c l, l <> [] -> Forall (fun s => ~ In c s) l ->
  split [c] (join [c] l) = l.
Proof.
  intros c l. unfold split. induction l as [|s l IH]; intros NE F; [contradiction|].
  inversion F; subst. destruct l as [|s' l].
  - simpl. rewrite split_go_free by auto. reflexivity.
  - change (join [c] (s :: s' :: l)) with (s ++ c :: join [c] (s' :: l)).
    rewrite split_go_cut by auto. rewrite IH; [reflexivity|discriminate|auto].
Qed.
