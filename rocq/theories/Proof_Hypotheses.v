(** Proofs about hypotheses.py. *)
From Coq Require Import Permutation Relations.
From Verif Require Import Base Model_Text Model_Reference Spec_Reference Proof_Reference
  Model_Hypotheses Spec_Hypotheses.
Open Scope list_scope.

(** ** Member sets *)
Lemma mem_In : forall x l, mem x l = true <-> In x l.
Proof.
  intros. unfold mem. rewrite existsb_exists. split.
  - intros (y & I & E). apply Nat.eqb_eq in E. now subst.
  - intros I. exists x. split; auto. apply Nat.eqb_refl.
Qed.

Lemma set_add_In : forall x l y, In y (set_add x l) <-> In y l \/ y = x.
Proof.
  intros. unfold set_add. destruct (mem x l) eqn:E.
  - apply mem_In in E. split; [auto|]. intros [H|H]; subst; auto.
  - rewrite in_app_iff. simpl. split; intros [H|H]; auto. destruct H as [H|[]]; auto.
Qed.

Lemma NoDup_snoc1 : forall (A : Type) (l : list A) x, NoDup l -> ~ In x l -> NoDup (l ++ [x]).
Proof.
  induction l as [|a l IH]; intros x N NI; simpl.
  - constructor; auto.
  - inversion N; subst. constructor.
    + rewrite in_app_iff. simpl. intros [H|[H|[]]]; [contradiction|]. subst. apply NI. now left.
    + apply IH; auto. intro H. apply NI. now right.
Qed.

Lemma set_add_NoDup : forall x l, NoDup l -> NoDup (set_add x l).
Proof.
  intros x l N. unfold set_add. destruct (mem x l) eqn:E; auto.
  apply NoDup_snoc1; auto. intro H. apply mem_In in H. congruence.
Qed.

Lemma set_update_In : forall xs l y, In y (set_update l xs) <-> In y l \/ In y xs.
Proof.
  unfold set_update. induction xs as [|x xs IH]; intros l y; simpl; [tauto|].
  rewrite IH, set_add_In. split.
  - intros [[H|H]|H]; auto.
  - intros [H|[H|H]]; auto.
Qed.

Lemma set_update_NoDup : forall xs l, NoDup l -> NoDup (set_update l xs).
Proof.
  unfold set_update. induction xs as [|x xs IH]; intros l N; simpl; auto.
  apply IH. now apply set_add_NoDup.
Qed.

(** ** Recursive dependencies *)
Section Graph.
Context {D : Type} (st : nat -> hyp D) (ord : nat -> list nat -> list nat).
Hypothesis ord_ok : forall h l, Permutation (ord h l) l.

Lemma ord_In : forall h l x, In x (ord h l) <-> In x l.
Proof.
  intros. split; apply Permutation_in; [|apply Permutation_sym]; apply ord_ok.
Qed.

Lemma reaches_cases : forall h x, reaches st h x <->
  exists d, depends st h d /\ (x = d \/ reaches st d x).
Proof.
  intros h x. split.
  - intros R. apply clos_trans_t1n in R. destruct R as [y S|y z S R].
    + exists y. auto.
    + exists y. split; auto. right. now apply clos_t1n_trans.
  - intros (d & S & [E|R]).
    + subst. now apply t_step.
    + apply t_trans with d; auto. now apply t_step.
Qed.

Lemma add_recursive_ok : forall rank, ranked st rank ->
  forall fuel h acc, (rank h < fuel)%nat ->
  exists l, add_recursive_dependencies st ord fuel h acc = Ret l /\
    (forall x, In x l <-> In x acc \/ reaches st h x) /\ (NoDup acc -> NoDup l).
Proof.
  intros rank RK. induction fuel as [|f IH]; intros h acc L; [lia|].
  cbn [add_recursive_dependencies].
  assert (G : forall ds acc, (forall d, In d ds -> depends st h d) ->
    exists l, fold_left (fun r d => let! a := r in add_recursive_dependencies st ord f d a)
                ds (Ret acc) = Ret l /\
      (forall x, In x l <-> In x acc \/ exists d, In d ds /\ reaches st d x) /\
      (NoDup acc -> NoDup l)).
  { induction ds as [|d ds IHd]; intros a S.
    - exists a. split; [auto|]. split; [|auto]. intros x. split; [auto|].
      intros [H|(d & [] & _)]; auto.
    - cbn [fold_left bind].
      destruct (IH d a) as (l1 & E1 & C1 & N1).
      { specialize (RK h d (S d (or_introl eq_refl))). lia. }
      rewrite E1. destruct (IHd l1) as (l & E & C & N).
      { intros d' H. apply S. now right. }
      exists l. split; [exact E|]. split; [|auto]. intros x. rewrite C, C1. split.
      + intros [[H|H]|(d' & I & H)]; auto; right; [exists d|exists d']; simpl; auto.
      + intros [H|(d' & [I|I] & H)]; auto; [subst; auto|]. right. exists d'. auto. }
  destruct (G (ord h (h_deps (st h))) (set_update acc (ord h (h_deps (st h)))))
    as (l & E & C & N).
  { intros d I. now apply ord_In in I. }
  exists l. split; [exact E|]. split.
  - intros x. rewrite C, set_update_In. rewrite reaches_cases. split.
    + intros [[H|H]|(d & I & H)]; auto; right.
      * exists x. apply ord_In in H. auto.
      * exists d. apply ord_In in I. auto.
    + intros [H|(d & S & [H|H])]; auto.
      * subst d. left. right. now apply ord_In.
      * right. exists d. split; auto. now apply ord_In.
  - intros NA. apply N. now apply set_update_NoDup.
Qed.

(** On a cycle the recursion never ends: the interpreter gives up. *)
Lemma add_recursive_outcomes : forall fuel h acc,
  (exists l, add_recursive_dependencies st ord fuel h acc = Ret l) \/
  add_recursive_dependencies st ord fuel h acc = Raise RecursionError.
Proof.
  induction fuel as [|f IH]; intros h acc; [now right|].
  cbn [add_recursive_dependencies].
  generalize (set_update acc (ord h (h_deps (st h)))).
  induction (ord h (h_deps (st h))) as [|d ds IHd]; intros a; cbn [fold_left bind].
  - left. now exists a.
  - destruct (IH d a) as [(l & E)|E]; rewrite E; [apply IHd|].
    right. clear. induction ds; simpl; auto.
Qed.

Lemma fold_raise : forall f ds e,
  fold_left (fun r d => let! a := r in add_recursive_dependencies st ord f d a) ds (Raise e) =
  Raise e.
Proof. induction ds; simpl; auto. Qed.

Lemma add_recursive_cycle : forall fuel h acc, reaches st h h ->
  add_recursive_dependencies st ord fuel h acc = Raise RecursionError.
Proof.
  induction fuel as [|f IH]; intros h acc R; auto.
  cbn [add_recursive_dependencies].
  assert (X : exists d, In d (ord h (h_deps (st h))) /\ reaches st d d).
  { apply reaches_cases in R. destruct R as (d & S & R). exists d. split; [now apply ord_In|].
    destruct R as [R|R]; [subst; now apply t_step|].
    apply t_trans with h; [auto|now apply t_step]. }
  destruct X as (d & I & C).
  generalize (set_update acc (ord h (h_deps (st h)))).
  induction (ord h (h_deps (st h))) as [|x ds IHd]; [contradiction|].
  intros a. cbn [fold_left bind]. destruct I as [I|I].
  - subst x. rewrite IH by auto. apply fold_raise.
  - destruct (add_recursive_outcomes f x a) as [(l & E)|E]; rewrite E.
    + now apply IHd.
    + apply fold_raise.
Qed.

(** ** Complexity *)
Lemma unfolds_exists : forall rank, ranked st rank ->
  forall n h, (rank h < n)%nat -> exists t, unfolds st h t.
Proof.
  intros rank RK. induction n as [|n IH]; intros h L; [lia|].
  assert (X : exists ts, Forall2 (unfolds st) (h_deps (st h)) ts).
  { assert (A : forall d, In d (h_deps (st h)) -> exists t, unfolds st d t).
    { intros d I. apply IH. specialize (RK h d I). lia. }
    induction (h_deps (st h)) as [|d ds IHd].
    - exists []. constructor.
    - destruct (A d (or_introl eq_refl)) as (t & T).
      destruct IHd as (ts & TS); [intros; apply A; now right|].
      exists (t :: ts). now constructor. }
  destruct X as (ts & TS). exists (node h ts). now constructor.
Qed.

Lemma sum_shift : forall l a, fold_left Z.add l a = (a + fold_left Z.add l 0)%Z.
Proof.
  induction l as [|x l IH]; intros a; simpl; [lia|].
  rewrite (IH (a + x)%Z), (IH x). lia.
Qed.
Lemma sum_left_right : forall l, fold_left Z.add l 0%Z = fold_right Z.add 0%Z l.
Proof.
  induction l as [|x l IH]; simpl; auto. rewrite sum_shift, IH. reflexivity.
Qed.
Lemma sum_perm : forall l l', Permutation l l' -> fold_right Z.add 0%Z l = fold_right Z.add 0%Z l'.
Proof. induction 1; simpl; lia. Qed.

Lemma mapM_ok : forall (A B : Type) (f : A -> res B) (R : A -> B -> Prop) l,
  (forall a, In a l -> exists b, f a = Ret b /\ R a b) ->
  exists bs, mapM f l = Ret bs /\ Forall2 R l bs.
Proof.
  intros A B f R. induction l as [|a l IH]; intros H; simpl.
  - exists []. auto.
  - destruct (H a (or_introl eq_refl)) as (b & E & Rb). rewrite E. simpl.
    destruct IH as (bs & E' & F); [intros; apply H; now right|].
    rewrite E'. exists (b :: bs). auto.
Qed.

Lemma complexity_ok : forall rank, ranked st rank ->
  forall fuel h t, (rank h < fuel)%nat -> unfolds st h t ->
  proof_complexity st ord fuel h = Ret (size t).
Proof.
  intros rank RK. induction fuel as [|f IH]; intros h t L U; [lia|].
  cbn [proof_complexity]. inversion U as [h' ts TS]; subst.
  (* a cost function for the dependencies *)
  assert (X : forall l, (forall d, In d l -> depends st h d) ->
    exists cs, mapM (proof_complexity st ord f) l = Ret cs /\
      Forall2 (fun d c => forall t, unfolds st d t -> c = size t) l cs).
  { intros l S. apply mapM_ok. intros d I.
    assert (RD := RK h d (S d I)).
    destruct (unfolds_exists rank RK (Datatypes.S (rank d)) d) as (td & TD); [lia|].
    exists (size td). split; [apply IH; [lia|auto]|].
    intros t' T'. assert (E1 := IH d td ltac:(lia) TD). assert (E2 := IH d t' ltac:(lia) T').
    congruence. }
  destruct (X (ord h (h_deps (st h)))) as (cs & E & F).
  { intros d I. now apply ord_In in I. }
  rewrite E. cbn [bind]. f_equal.
  rewrite sum_left_right. cbn [size].
  assert (Y : fold_right Z.add 0%Z cs = fold_right Z.add 0%Z (map size ts)); [|lia].
  clear E X U.
  pose proof (ord_ok h (h_deps (st h))) as P.
  destruct (Permutation_Forall2 P F) as (cs' & P' & F').
  rewrite (sum_perm _ _ P'). clear F P P' cs.
  revert cs' F'. induction TS as [|d t ds ts T TS IHT]; intros cs' F'.
  - inversion F'; subst. reflexivity.
  - inversion F' as [|x c y cs0 Hc F0]; subst. simpl. f_equal; auto.
Qed.

(** ** Dates *)
Lemma counted_exists : forall h, proper_year (r_year (h_ref (st h))) ->
  exists y, counted_year st h y /\ has_date y /\
    (if val_eqb (r_year (h_ref (st h))) unknown_date then VInt (-1) else r_year (h_ref (st h))) = y.
Proof.
  intros h P. destruct (val_eqb _ _) eqn:E.
  - apply val_eqb_true in E. exists (VInt (-1)). split; [now left|]. split; simpl; auto.
  - assert (N : r_year (h_ref (st h)) <> unknown_date).
    { intro H. apply val_eqb_true in H. congruence. }
    exists (r_year (h_ref (st h))). split; [right; auto|]. split; [|auto].
    destruct P; [auto|contradiction].
Qed.

Lemma counted_unique : forall h y z, counted_year st h y -> counted_year st h z -> y = z.
Proof. intros h y z [[A B]|[A B]] [[C E]|[C E]]; subst; congruence. Qed.

Lemma date_ok : forall rank, ranked st rank -> (forall h, proper_year (r_year (h_ref (st h)))) ->
  forall fuel h, (rank h < fuel)%nat ->
  exists y, proof_date st ord fuel h = Ret y /\ has_date y /\ latest_counted st h y.
Proof.
  intros rank RK PY. induction fuel as [|f IH]; intros h L; [lia|].
  cbn [proof_date].
  destruct (counted_exists h (PY h)) as (y & CY & HY & EY). rewrite EY.
  destruct (mapM_ok _ _ (proof_date st ord f)
              (fun d v => has_date v /\ latest_counted st d v) (ord h (h_deps (st h))))
    as (ds & E & F).
  { intros d I. apply ord_In in I. specialize (RK h d I).
    destruct (IH d ltac:(lia)) as (v & Ev & Hv & Lv). exists v. auto. }
  rewrite E. cbn [bind].
  destruct (val_max_from_ok ds y) as (v & EV & [LV1 LV2] & HV); auto.
  { clear -F. induction F; constructor; auto. tauto. }
  exists v. split; [exact EV|]. split; [auto|].
  assert (FD : forall w, In w ds -> exists d, depends st h d /\ latest_counted st d w).
  { intros w I. assert (G : exists d, In d (ord h (h_deps (st h))) /\ latest_counted st d w).
    { clear -F I. induction F as [|d v l l' [H1 H2] F IH]; [contradiction|].
      destruct I as [I|I]; [subst; exists d; simpl; auto|].
      destruct (IH I) as (d' & I' & L). exists d'. simpl. auto. }
    destruct G as (d & I' & L'). exists d. split; auto. now apply ord_In in I'. }
  assert (FB : forall d, depends st h d -> exists w, In w ds /\ latest_counted st d w).
  { intros d S. apply (ord_In h) in S.
    clear -F S. induction F as [|d' v l l' [H1 H2] F IH]; [contradiction|].
    destruct S as [S|S]; [subst; exists v; simpl; auto|].
    destruct (IH S) as (w & I' & L). exists w. simpl. auto. }
  split.
  - destruct LV1 as [LV1|LV1].
    + subst v. exists h. auto.
    + destruct (FD v LV1) as (d & S & [(x & Hx & Cx) _]). exists x. split; auto.
      right. apply reaches_cases. exists d. split; auto.
  - intros x z Hx Cz. destruct Hx as [Hx|Hx].
    + subst x. rewrite (counted_unique h z y Cz CY). apply LV2. now left.
    + apply reaches_cases in Hx. destruct Hx as (d & S & Hx).
      destruct (FB d S) as (w & I & [_ Lw]).
      apply (year_le_trans z w v).
      * apply (Lw x); auto.
      * apply LV2. now right.
Qed.
End Graph.

(** ** Caches *)
Lemma nth_error_upd_eq : forall (A : Type) (l : list A) i a,
  (i < length l)%nat -> nth_error (upd l i a) i = Some a.
Proof.
  induction l as [|x l IH]; intros [|i] a L; simpl in *; auto; try lia. apply IH. lia.
Qed.
Lemma nth_error_upd_neq : forall (A : Type) (l : list A) i j a,
  i <> j -> nth_error (upd l i a) j = nth_error l j.
Proof.
  induction l as [|x l IH]; intros [|i] [|j] a N; simpl; auto; try contradiction.
Qed.
Lemma upd_length : forall (A : Type) (l : list A) i a, length (upd l i a) = length l.
Proof. induction l as [|x l IH]; intros [|i] a; simpl; auto. Qed.

Lemma nth_error_upd : forall (A : Type) (l : list A) i j a x,
  nth_error (upd l i a) j = Some x -> (i = j /\ x = a) \/ (i <> j /\ nth_error l j = Some x).
Proof.
  intros A l i j a x H. destruct (Nat.eq_dec i j) as [E|E].
  - subst j. assert (L : (i < length l)%nat).
    { rewrite <- (upd_length _ l i a). apply nth_error_Some. congruence. }
    rewrite nth_error_upd_eq in H by auto. inversion H. auto.
  - right. split; auto. now rewrite nth_error_upd_neq in H.
Qed.

Section World.
Context {V : Type}.

(** Every set has a dictionary of its own, and what it holds while the flag is
    set is its owner's value of the members. *)
Definition fresh (owner : nat -> client V) (w : world V) : Prop :=
  length (w_dicts w) = length (w_sets w) /\
  forall i x, nth_error (w_sets w) i = Some x ->
    s_dict x = i /\
    (forall v, s_valid x = true -> nth_error (w_dicts w) i = Some (Some v) ->
       v = cl_value (owner i) (s_members x)).

Definition mirror (w : world V) (iw : list (list nat)) : Prop := map s_members (w_sets w) = iw.

Lemma mirror_nth : forall w iw s, mirror w iw ->
  nth_error iw s = option_map s_members (nth_error (w_sets w) s).
Proof. intros w iw s M. unfold mirror in M. subst. apply nth_error_map. Qed.

Lemma mirror_arg : forall w iw a, mirror w iw -> arg_members w a = imembers iw a.
Proof.
  intros w iw a M. destruct a as [h|s|l|l]; simpl; auto.
  pose proof (mirror_nth w iw s M) as E. destruct (nth_error (w_sets w) s); simpl in E.
  - symmetry. now apply nth_error_nth.
  - symmetry. apply nth_overflow. now apply nth_error_None.
Qed.

Lemma map_upd : forall (A B : Type) (f : A -> B) l i a, map f (upd l i a) = upd (map f l) i (f a).
Proof. induction l as [|x l IH]; intros [|i] a; simpl; auto. now rewrite IH. Qed.

Lemma upd_same : forall (A : Type) (l : list A) i a, nth_error l i = Some a -> upd l i a = l.
Proof.
  induction l as [|x l IH]; intros [|i] a H; simpl in *; auto; try discriminate.
  - now inversion H.
  - now rewrite IH.
Qed.

(** Members do not depend on the cache at all. *)
Lemma step_mirror : forall o w iw, mirror w iw -> mirror (snd (step o w)) (snd (istep o iw)).
Proof.
  intros o w iw M. destruct o as [l|s|s a i|c s]; cbn [step istep snd].
  - unfold mirror, new_set. cbn [w_sets]. rewrite map_app. simpl. now rewrite M.
  - unfold copy_set. rewrite (mirror_nth w iw s M).
    destruct (nth_error (w_sets w) s) as [x|] eqn:E; simpl; auto.
    unfold mirror. cbn [w_sets]. rewrite map_app. simpl. now rewrite M.
  - unfold add_hypotheses. rewrite (mirror_nth w iw s M).
    destruct (nth_error (w_sets w) s) as [x|] eqn:E; simpl; auto.
    unfold mirror. cbn [w_sets]. rewrite map_upd. cbn [s_members].
    rewrite (mirror_arg w iw a M). now rewrite M.
  - unfold ask. destruct (nth_error (w_sets w) s) as [x|] eqn:E; auto.
    assert (G : mirror (mkWorld (upd (w_sets w) s
       (mkSet (s_members x) (s_dict x) (if cl_marks c (s_members x) then true else s_valid x)))
       (upd (w_dicts w) (s_dict x) (Some (cl_value c (s_members x))))) iw).
    { unfold mirror. cbn [w_sets]. rewrite map_upd. cbn [s_members].
      rewrite upd_same; auto. rewrite nth_error_map, E. reflexivity. }
    destruct (s_valid x); auto.
    destruct (match nth_error (w_dicts w) (s_dict x) with Some o => o | None => None end); auto.
Qed.

Lemma step_fresh : forall owner o ops w iw, mirror w iw -> fresh owner w ->
  tame owner (o :: ops) iw ->
  fst (step o w) = fst (istep o iw) /\ fresh owner (snd (step o w)).
Proof.
  intros owner o ops w iw M [LEN F] [T _]. destruct o as [l|s|s a i|c s]; cbn [step istep fst snd].
  - split; [auto|]. unfold new_set. split; cbn [w_sets w_dicts].
    + rewrite !app_length. simpl. lia.
    + intros j x H. destruct (Nat.lt_ge_cases j (length (w_sets w))) as [L|L].
      * rewrite nth_error_app1 in H by auto. destruct (F j x H) as [F1 F2]. split; auto.
        intros v Hv Hn. rewrite nth_error_app1 in Hn by lia. now apply F2.
      * rewrite nth_error_app2 in H by auto.
        destruct (j - length (w_sets w))%nat as [|k] eqn:J; simpl in H.
        -- inversion H; subst. simpl. split; [lia|discriminate].
        -- destruct k; discriminate.
  - contradiction.
  - split; [auto|]. unfold add_hypotheses.
    destruct (nth_error (w_sets w) s) as [x|] eqn:E; [|split; auto].
    split; cbn [w_sets w_dicts]; [now rewrite upd_length|].
    intros j y H. apply nth_error_upd in H. destruct H as [[J Y]|[J H]]; [|now apply F].
    subst j y. cbn [s_dict s_members s_valid]. destruct (F s x E) as [F1 F2]. split; auto.
    intros v Hv Hn. destruct i; [discriminate|].
    rewrite (mirror_arg w iw a M).
    rewrite (T eq_refl (s_members x)); [now apply F2|].
    rewrite (mirror_nth w iw s M), E. reflexivity.
  - subst c. unfold ask. rewrite (mirror_nth w iw s M).
    destruct (nth_error (w_sets w) s) as [x|] eqn:E; simpl; [|split; [auto|split; auto]].
    destruct (F s x E) as [F1 F2].
    assert (G : fresh owner (mkWorld (upd (w_sets w) s
       (mkSet (s_members x) (s_dict x) (if cl_marks (owner s) (s_members x) then true else s_valid x)))
       (upd (w_dicts w) (s_dict x) (Some (cl_value (owner s) (s_members x)))))).
    { split; cbn [w_sets w_dicts]; [now rewrite !upd_length|].
      intros j y H. rewrite F1. apply nth_error_upd in H. destruct H as [[J Y]|[J H]].
      - subst j y. cbn [s_dict s_members s_valid]. split; auto.
        intros v _ Hn. rewrite nth_error_upd_eq in Hn.
        + now inversion Hn.
        + rewrite LEN. apply nth_error_Some. congruence.
      - destruct (F j y H) as [F3 F4]. split; auto. intros v Hv Hn.
        rewrite nth_error_upd_neq in Hn by auto. now apply F4. }
    destruct (s_valid x) eqn:VX; [|split; [auto|exact G]].
    destruct (nth_error (w_dicts w) (s_dict x)) as [[v|]|] eqn:DX; try (split; [auto|exact G]; fail).
    split; [|split; auto]. simpl. rewrite (F2 v); auto. now rewrite F1 in DX.
Qed.

Lemma run_fresh : forall owner ops w iw, mirror w iw -> fresh owner w -> tame owner ops iw ->
  fst (run ops w) = fst (irun ops iw).
Proof.
  intros owner. induction ops as [|o ops IH]; intros w iw M F T; auto.
  destruct (step_fresh owner o ops w iw M F T) as [E F'].
  pose proof (step_mirror o w iw M) as M'. destruct T as [_ T].
  cbn [run irun]. destruct (step o w) as [r w1], (istep o iw) as [r' iw1]. cbn [fst snd] in *.
  specialize (IH w1 iw1 M' F' T).
  destruct (run ops w1) as [rs w2], (irun ops iw1) as [rs' iw2]. cbn [fst] in *. now subst.
Qed.

(** Members only grow. *)
Lemma step_grows : forall o (w : world V) s x, nth_error (w_sets w) s = Some x ->
  exists x', nth_error (w_sets (snd (step o w))) s = Some x' /\
    incl (s_members x) (s_members x') /\ (NoDup (s_members x) -> NoDup (s_members x')).
Proof.
  intros o w s x H.
  assert (L : (s < length (w_sets w))%nat) by (apply nth_error_Some; congruence).
  destruct o as [l|t|t a i|c t]; cbn [step snd].
  - exists x. unfold new_set. cbn [w_sets]. rewrite nth_error_app1 by auto.
    split; [auto|]. split; [apply incl_refl|auto].
  - unfold copy_set. destruct (nth_error (w_sets w) t).
    + exists x. cbn [w_sets]. rewrite nth_error_app1 by auto. split; [auto|]. split; [apply incl_refl|auto].
    + exists x. split; [auto|]. split; [apply incl_refl|auto].
  - unfold add_hypotheses. destruct (nth_error (w_sets w) t) as [y|] eqn:E.
    + cbn [w_sets]. destruct (Nat.eq_dec t s) as [J|J].
      * subst t. rewrite nth_error_upd_eq by auto. eexists. split; [reflexivity|].
        rewrite H in E. inversion E; subst y. cbn [s_members]. split.
        -- intros z Z. apply set_update_In. auto.
        -- intros N. now apply set_update_NoDup.
      * rewrite nth_error_upd_neq by auto. exists x. split; [auto|]. split; [apply incl_refl|auto].
    + exists x. split; [auto|]. split; [apply incl_refl|auto].
  - unfold ask. destruct (nth_error (w_sets w) t) as [y|] eqn:E.
    2:{ exists x. split; [auto|]. split; [apply incl_refl|auto]. }
    assert (G : exists x', nth_error (w_sets (mkWorld (upd (w_sets w) t
       (mkSet (s_members y) (s_dict y) (if cl_marks c (s_members y) then true else s_valid y)))
       (upd (w_dicts w) (s_dict y) (Some (cl_value c (s_members y)))))) s = Some x' /\
       incl (s_members x) (s_members x') /\ (NoDup (s_members x) -> NoDup (s_members x'))).
    { cbn [w_sets]. destruct (Nat.eq_dec t s) as [J|J].
      - subst t. rewrite nth_error_upd_eq by auto. eexists. split; [reflexivity|].
        rewrite H in E. inversion E; subst y. cbn [s_members]. split; [apply incl_refl|auto].
      - rewrite nth_error_upd_neq by auto. exists x. split; [auto|]. split; [apply incl_refl|auto]. }
    destruct (s_valid y); [|exact G].
    destruct (match nth_error (w_dicts w) (s_dict y) with Some o => o | None => None end).
    + exists x. split; [auto|]. split; [apply incl_refl|auto].
    + exact G.
Qed.

Lemma run_grows : forall ops (w : world V) s x, nth_error (w_sets w) s = Some x ->
  exists x', nth_error (w_sets (snd (run ops w))) s = Some x' /\
    incl (s_members x) (s_members x') /\ (NoDup (s_members x) -> NoDup (s_members x')).
Proof.
  induction ops as [|o ops IH]; intros w s x H.
  - exists x. split; [auto|]. split; [apply incl_refl|auto].
  - destruct (step_grows o w s x H) as (x1 & H1 & I1 & N1).
    cbn [run]. destruct (step o w) as [r w1]. cbn [snd] in H1.
    destruct (IH w1 s x1 H1) as (x2 & H2 & I2 & N2).
    destruct (run ops w1) as [rs w2]. cbn [snd] in *.
    exists x2. split; [auto|]. split; [eapply incl_tran; eauto|auto].
Qed.
End World.
