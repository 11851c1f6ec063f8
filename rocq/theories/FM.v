(** Fourier-Motzkin elimination over Q, with proofs.  It provides a solver
    that meets the assumptions made about cdd, so that theorems stated for any
    such solver are not vacuous and can be run on examples. *)
From Verif Require Import Base LinAlg.

(** A row [(h, c)] stands for [dot h p + dot c x >= 0], with [p] parameters
    that are kept and [x] variables that are eliminated. *)
Definition prow : Type := (list Q * list Q)%type.

Definition pval (p x : list Q) (r : prow) : Q := dot (fst r) p + dot (snd r) x.

Definition sat (p x : list Q) (rows : list prow) : Prop := Forall (fun r => 0 <= pval p x r) rows.

Definition lead (r : prow) : Q := hd 0 (snd r).
Definition drop (r : prow) : prow := (fst r, tl (snd r)).

Definition lows (rows : list prow) : list prow := filter (fun r => Qltb 0 (lead r)) rows.
Definition ups (rows : list prow) : list prow := filter (fun r => Qltb (lead r) 0) rows.
Definition flats (rows : list prow) : list prow := filter (fun r => Qeqb (lead r) 0) rows.

Definition combine_rows (l u : prow) : prow :=
  (vadd (vscale (- lead u) (fst l)) (vscale (lead l) (fst u)),
   vadd (vscale (- lead u) (tl (snd l))) (vscale (lead l) (tl (snd u)))).

(** Elimination of the first variable. *)
Definition elim1 (rows : list prow) : list prow :=
  map drop (flats rows) ++
  flat_map (fun l => map (combine_rows l) (ups rows)) (lows rows).

Lemma pval_cons : forall p y x r, pval p (y :: x) r == lead r * y + pval p x (drop r).
Proof.
  intros p y x [h c]. unfold pval, lead, drop; simpl. destruct c; simpl; ring.
Qed.

Lemma pval_combine : forall p x l u,
  pval p x (combine_rows l u) == - lead u * pval p x (drop l) + lead l * pval p x (drop u).
Proof.
  intros. unfold pval, combine_rows, drop; simpl.
  rewrite !dot_vadd_l, !dot_vscale_l. ring.
Qed.

Lemma elim1_sound : forall p y x rows, sat p (y :: x) rows -> sat p x (elim1 rows).
Proof.
  intros p y x rows H. unfold sat in *. rewrite Forall_forall in H. unfold elim1.
  apply Forall_app; split.
  - apply Forall_map, Forall_forall. intros r Hr. apply filter_In in Hr as [Hr Z].
    apply Qeqb_true in Z. specialize (H r Hr). cbv beta in H. rewrite pval_cons, Z in H. lra.
  - apply Forall_flat_map, Forall_forall. intros l Hl. apply filter_In in Hl as [Hl Pl].
    apply Forall_map, Forall_forall. intros u Hu. apply filter_In in Hu as [Hu Pu].
    apply Qltb_true in Pl, Pu.
    pose proof (H l Hl) as A. pose proof (H u Hu) as B. cbv beta in A, B.
    rewrite pval_cons in A, B. rewrite pval_combine.
    assert (C1 : 0 <= - lead u * (lead l * y + pval p x (drop l))) by (apply Qmult_le_0_compat; lra).
    assert (C2 : 0 <= lead l * (lead u * y + pval p x (drop u))) by (apply Qmult_le_0_compat; lra).
    nra.
Qed.

(** A value for the eliminated variable: the largest lower bound, or else the
    smallest upper bound. *)
Definition bnd (p x : list Q) (r : prow) : Q := - pval p x (drop r) / lead r.

Definition maxl (a : Q) (l : list Q) : Q := fold_right qmax a l.
Definition minl (a : Q) (l : list Q) : Q := fold_right qmin a l.

Definition pick (p x : list Q) (rows : list prow) : Q :=
  match lows rows with
  | r :: rest => maxl (bnd p x r) (map (bnd p x) rest)
  | [] =>
      match ups rows with
      | r :: rest => minl (bnd p x r) (map (bnd p x) rest)
      | [] => 0
      end
  end.

Lemma qmax_ge : forall a b, a <= qmax a b /\ b <= qmax a b.
Proof. intros; unfold qmax; destruct (Qltb_spec a b); split; lra. Qed.
Lemma qmin_le : forall a b, qmin a b <= a /\ qmin a b <= b.
Proof. intros; unfold qmin; destruct (Qltb_spec b a); split; lra. Qed.

Lemma maxl_ge : forall l a, a <= maxl a l /\ Forall (fun b => b <= maxl a l) l.
Proof.
  induction l; intros; simpl.
  - split; [lra|constructor].
  - destruct (IHl a0) as [A B]. destruct (qmax_ge a (maxl a0 l)) as [C D]. split; [lra|].
    constructor; auto. eapply Forall_impl; [|exact B]. cbv beta; intros; lra.
Qed.

Lemma minl_le : forall l a, minl a l <= a /\ Forall (fun b => minl a l <= b) l.
Proof.
  induction l; intros; simpl.
  - split; [lra|constructor].
  - destruct (IHl a0) as [A B]. destruct (qmin_le a (minl a0 l)) as [C D]. split; [lra|].
    constructor; auto. eapply Forall_impl; [|exact B]. cbv beta; intros; lra.
Qed.

Lemma maxl_in : forall l a, maxl a l = a \/ In (maxl a l) l.
Proof.
  induction l; intros; simpl; auto. unfold qmax. destruct (Qltb a (maxl a0 l)); auto.
  destruct (IHl a0) as [H|H]; auto.
Qed.

Lemma minl_in : forall l a, minl a l = a \/ In (minl a l) l.
Proof.
  induction l; intros; simpl; auto. unfold qmin. destruct (Qltb (minl a0 l) a); auto.
  destruct (IHl a0) as [H|H]; auto.
Qed.

Lemma bnd_low : forall p x r y, 0 < lead r -> (bnd p x r <= y <-> 0 <= lead r * y + pval p x (drop r)).
Proof.
  intros. unfold bnd. split; intro A.
  - assert (lead r * (- pval p x (drop r) / lead r) <= lead r * y).
    { rewrite !(Qmult_comm (lead r)). apply Qmult_le_compat_r; lra. }
    assert (E : lead r * (- pval p x (drop r) / lead r) == - pval p x (drop r)) by (field; lra). lra.
  - apply Qle_shift_div_r; lra.
Qed.

Lemma bnd_up : forall p x r y, lead r < 0 -> (y <= bnd p x r <-> 0 <= lead r * y + pval p x (drop r)).
Proof.
  intros. unfold bnd.
  assert (E : - pval p x (drop r) / lead r == pval p x (drop r) / (- lead r)) by (field; lra).
  rewrite E. split; intro A.
  - assert (y * (- lead r) <= (pval p x (drop r) / - lead r) * (- lead r)) by (apply Qmult_le_compat_r; lra).
    assert (E2 : (pval p x (drop r) / - lead r) * (- lead r) == pval p x (drop r)) by (field; lra). lra.
  - apply Qle_shift_div_l; lra.
Qed.

Lemma elim1_complete : forall p x rows, sat p x (elim1 rows) -> sat p (pick p x rows :: x) rows.
Proof.
  intros p x rows H. unfold sat, elim1 in H. apply Forall_app in H as [F C].
  rewrite Forall_map in F. rewrite Forall_forall in F.
  rewrite Forall_flat_map in C. rewrite Forall_forall in C.
  assert (HC : forall l u, In l (lows rows) -> In u (ups rows) -> bnd p x l <= bnd p x u).
  { intros l u Hl Hu. specialize (C l Hl). rewrite Forall_map, Forall_forall in C.
    specialize (C u Hu). cbv beta in C. rewrite pval_combine in C.
    apply filter_In in Hl as [_ Pl]. apply filter_In in Hu as [_ Pu]. apply Qltb_true in Pl, Pu.
    apply bnd_low; auto.
    assert (E : lead l * bnd p x u * (- lead u) == lead l * pval p x (drop u)) by (unfold bnd; field; lra).
    assert (0 <= (lead l * bnd p x u + pval p x (drop l)) * (- lead u)) by nra.
    destruct (Qlt_le_dec (lead l * bnd p x u + pval p x (drop l)) 0); auto.
    assert ((lead l * bnd p x u + pval p x (drop l)) * (- lead u) < 0 * (- lead u))
      by (apply Qmult_lt_compat_r; lra). lra. }
  assert (PL : forall l, In l (lows rows) -> bnd p x l <= pick p x rows).
  { intros l Hl. unfold pick. destruct (lows rows) as [|r rest]; [destruct Hl|].
    destruct (maxl_ge (map (bnd p x) rest) (bnd p x r)) as [A B]. destruct Hl as [<-|Hl]; auto.
    rewrite Forall_map, Forall_forall in B. now apply B. }
  assert (PU : forall u, In u (ups rows) -> pick p x rows <= bnd p x u).
  { intros u Hu. unfold pick. destruct (lows rows) as [|r rest] eqn:EL.
    - destruct (ups rows) as [|r rest]; [destruct Hu|].
      destruct (minl_le (map (bnd p x) rest) (bnd p x r)) as [A B]. destruct Hu as [<-|Hu]; auto.
      rewrite Forall_map, Forall_forall in B. now apply B.
    - destruct (maxl_in (map (bnd p x) rest) (bnd p x r)) as [A|A].
      + rewrite A. apply HC; auto. now left.
      + apply in_map_iff in A as (l & A & Hl). rewrite <- A. apply HC; auto. now right. }
  apply Forall_forall. intros r Hr. rewrite pval_cons.
  destruct (Qlt_le_dec 0 (lead r)) as [P|P].
  - apply bnd_low; auto. apply PL. apply filter_In; split; auto. now apply Qltb_true.
  - destruct (Qlt_le_dec (lead r) 0) as [N|N].
    + apply bnd_up; auto. apply PU. apply filter_In; split; auto. now apply Qltb_true.
    + assert (Z : lead r == 0) by lra.
      assert (0 <= pval p x (drop r)).
      { apply F. apply filter_In; split; auto. now apply Qeqb_true. }
      rewrite Z. lra.
Qed.

(** Elimination of [n] variables, and the solution it describes. *)
Fixpoint elim (n : nat) (rows : list prow) : list prow :=
  match n with O => rows | S k => elim k (elim1 rows) end.

Fixpoint solve (n : nat) (rows : list prow) (p : list Q) : list Q :=
  match n with
  | O => []
  | S k => let x := solve k (elim1 rows) p in pick p x rows :: x
  end.

Definition heads (n : nat) (rows : list prow) : list (list Q) := map fst (elim n rows).

Lemma solve_length : forall n rows p, length (solve n rows p) = n.
Proof. induction n; intros; simpl; auto. Qed.

Lemma elim_sound : forall n p x rows, length x = n -> sat p x rows ->
  Forall (fun h => 0 <= dot h p) (heads n rows).
Proof.
  induction n; intros p x rows L H.
  - destruct x; try discriminate. unfold heads; simpl. apply Forall_map.
    eapply Forall_impl; [|exact H]. intros [h c] A. unfold pval in A; cbn [fst snd] in *. rewrite dot_nil_r in A. lra.
  - destruct x as [|y x]; try discriminate. unfold heads. simpl. apply (IHn p x); [simpl in L; lia|].
    now apply elim1_sound in H.
Qed.

Lemma elim_complete : forall n p rows, Forall (fun h => 0 <= dot h p) (heads n rows) ->
  sat p (solve n rows p) rows.
Proof.
  induction n; intros p rows H.
  - unfold heads in H. rewrite Forall_map in H. eapply Forall_impl; [|exact H].
    intros [h c] A. unfold pval; simpl in *. rewrite dot_nil_r. lra.
  - simpl. apply elim1_complete. now apply IHn.
Qed.

Theorem elim_iff : forall n p rows,
  Forall (fun h => 0 <= dot h p) (heads n rows) <-> exists x, length x = n /\ sat p x rows.
Proof.
  intros; split.
  - intro H. exists (solve n rows p). split; [apply solve_length|now apply elim_complete].
  - intros (x & L & H). now apply (elim_sound n p x).
Qed.

(** Parameters can be compared up to trailing zeroes. *)
Lemma sat_peq : forall p p' x rows, peq p p' -> sat p x rows -> sat p' x rows.
Proof.
  intros. eapply Forall_impl; [|exact H0]. intros r A. unfold pval in *. now rewrite <- H.
Qed.
