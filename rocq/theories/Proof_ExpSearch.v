(** [compute_exp_pairs]: what the search finds and what pruning keeps. *)
From Verif Require Import Base Model_Text Model_Reference Spec_Reference Proof_Reference
  Model_Interval Spec_Interval Model_Affine Spec_Affine
  Model_Hull Spec_Hull Proof_Hull Model_ExponentPair Spec_ExponentPair Proof_ExponentPair.
Open Scope list_scope.

(** ** Dictionaries *)
Definition Kd (d : edict) (p : pt) : Prop := exists e, In e d /\ pt_eq p (fst e).
Definition entry_ok (e : pt * hnode) : Prop :=
  exists k l, n_data (snd e) = DPair k l /\ pt_eq (fst e) (k, l).

Lemma pt_eqb_true : forall a b, pt_eqb a b = true <-> pt_eq a b.
Proof. intros. destruct (pt_eqb_spec a b); split; auto; discriminate. Qed.

Lemma is_pair_data : forall h, is_pair h = true <-> exists k l, n_data h = DPair k l.
Proof.
  intros h. unfold is_pair. split; [destruct (n_data h); try discriminate; eauto|].
  intros (k & l & ->). auto.
Qed.
Lemma key_data : forall h k l, n_data h = DPair k l -> key_of h = (k, l).
Proof. intros h k l H. unfold key_of. now rewrite H. Qed.

Lemma e_mem_iff : forall k d, e_mem k d = true <-> Kd d k.
Proof.
  intros k d. unfold e_mem, Kd. rewrite existsb_exists. split; intros (e & I & H); exists e; (split; [auto|]);
    now apply pt_eqb_true.
Qed.

Lemma Kd_eq : forall d p q, pt_eq p q -> Kd d p -> Kd d q.
Proof. intros d p q E (e & I & H). exists e. split; [auto|]. now rewrite <- E. Qed.

Lemma e_set_in : forall k h d e, In e (e_set k h d) -> In e d \/ (snd e = h /\ pt_eq (fst e) k).
Proof.
  induction d as [|[k' h'] d IH]; intros e H; cbn in H.
  - destruct H as [<-|[]]. right. cbn. split; [auto|reflexivity].
  - destruct (pt_eqb k k') eqn:E.
    + destruct H as [<-|H]; [|left; now right]. right. cbn. split; [auto|]. apply pt_eqb_true in E. now symmetry.
    + destruct H as [<-|H]; [left; now left|]. destruct (IH e H); [left; now right|auto].
Qed.
Lemma e_set_K : forall k h d p, Kd (e_set k h d) p <-> pt_eq p k \/ Kd d p.
Proof.
  induction d as [|[k' h'] d IH]; intros p; cbn.
  - split; [intros (e & [<-|[]] & H); auto|]. intros [H|(e & [] & _)]. exists (k, h). split; [now left|auto].
  - destruct (pt_eqb k k') eqn:E.
    + apply pt_eqb_true in E. split.
      * intros (e & [<-|I] & H); [left; cbn in H; now rewrite H, E|]. right. exists e. split; [now right|auto].
      * intros [H|(e & [<-|I] & H)].
        -- exists (k', h). split; [now left|]. cbn. now rewrite H.
        -- exists (k', h). split; [now left|auto].
        -- exists e. split; [now right|auto].
    + split.
      * intros (e & [<-|I] & H); [right; exists (k', h'); split; [now left|auto]|].
        destruct (proj1 (IH p)) as [H1|(e1 & I1 & H1)]; [exists e; auto|auto|]. right. exists e1. split; [now right|auto].
      * intros [H|(e & [<-|I] & H)].
        -- destruct (proj2 (IH p) (or_introl H)) as (e1 & I1 & H1). exists e1. split; [now right|auto].
        -- exists (k', h'). split; [now left|auto].
        -- destruct (proj2 (IH p)) as (e1 & I1 & H1); [right; exists e; auto|]. exists e1. split; [now right|auto].
Qed.

Lemma e_of_gen : forall ps d,
  (forall e, In e (fold_left (fun d p => e_set (key_of p) p d) ps d) ->
     In e d \/ (In (snd e) ps /\ pt_eq (fst e) (key_of (snd e)))) /\
  (forall p, Kd (fold_left (fun d p => e_set (key_of p) p d) ps d) p <->
     Kd d p \/ exists h, In h ps /\ pt_eq p (key_of h)).
Proof.
  induction ps as [|h ps IH]; intros d; cbn [fold_left].
  - split; [auto|]. intros p. split; [auto|]. intros [H|(h & [] & _)]. auto.
  - destruct (IH (e_set (key_of h) h d)) as [I1 I2]. split.
    + intros e He. destruct (I1 e He) as [H|[H H']].
      * destruct (e_set_in _ _ _ _ H) as [H'|[<- H']]; [auto|]. right. split; [now left|auto].
      * right. split; [now right|auto].
    + intros p. rewrite I2, e_set_K. split.
      * intros [[H|H]|(g & I & H)]; [right; exists h; split; [now left|auto]|auto|right; exists g; split; [now right|auto]].
      * intros [H|(g & [<-|I] & H)]; [auto|auto|]. right. exists g. auto.
Qed.
Lemma e_of_in : forall ps e, In e (e_of ps) -> In (snd e) ps /\ pt_eq (fst e) (key_of (snd e)).
Proof. intros ps e H. destruct (proj1 (e_of_gen ps []) e H) as [[]|H']. auto. Qed.
Lemma e_of_K : forall ps p, Kd (e_of ps) p <-> exists h, In h ps /\ pt_eq p (key_of h).
Proof.
  intros ps p. unfold e_of. rewrite (proj2 (e_of_gen ps [])). split; [|auto]. intros [(e & [] & _)|H]; auto.
Qed.
Lemma e_of_ok : forall ps, Forall (fun h => is_pair h = true) ps -> Forall entry_ok (e_of ps).
Proof.
  intros ps F. apply Forall_forall. intros e I. apply e_of_in in I as [I E]. rewrite Forall_forall in F.
  apply F, is_pair_data in I as (k & l & D). exists k, l. split; [auto|]. now rewrite <- (key_data _ _ _ D).
Qed.
Lemma entry_key : forall e, entry_ok e -> is_pair (snd e) = true /\ pt_eq (fst e) (key_of (snd e)).
Proof.
  intros e (k & l & D & E). split; [apply is_pair_data; eauto|]. now rewrite (key_data _ _ _ D).
Qed.

Section Search.
Context (ch : hull_routine) (tr : nat -> hnode -> res hnode).

Lemma apply_all_ok : forall t snap d d', apply_all tr t snap d = Ret d' ->
  (forall e, In e d -> In e d') /\
  (forall e, In e d' -> In e d \/ (entry_ok e /\ exists s, In s snap /\ apply_trans tr t (snd s) = Ret (snd e))) /\
  (forall s, In s snap -> exists h', apply_trans tr t (snd s) = Ret h' /\ is_pair h' = true /\ Kd d' (key_of h')).
Proof.
  intros t. induction snap as [|[ks p] snap IH]; intros d d' H; cbn [apply_all] in H.
  - injection H as <-. split; [auto|]. split; [auto|]. intros s [].
  - destruct (apply_trans tr t p) as [tp|] eqn:E; [|discriminate]. cbn [bind] in H.
    destruct (pair_of tp) as [[k l]|] eqn:E2; [|discriminate]. cbn [bind] in H.
    apply pair_of_inv in E2. destruct (IH _ _ H) as (I1 & I2 & I3).
    set (d1 := if e_mem (k, l) d then d else d ++ [((k, l), tp)]) in *.
    assert (Sub : forall e, In e d -> In e d1) by (intros e I; unfold d1; destruct (e_mem _ _); [auto|apply in_or_app; auto]).
    assert (K1 : Kd d1 (k, l)).
    { unfold d1. destruct (e_mem (k, l) d) eqn:M; [now apply e_mem_iff|].
      exists ((k, l), tp). split; [apply in_or_app; right; now left|reflexivity]. }
    split; [auto|]. split.
    + intros e I. destruct (I2 e I) as [I'|(O & s & Is & Es)].
      * unfold d1 in I'. destruct (e_mem (k, l) d); [auto|]. apply in_app_or in I' as [I'|[<-|[]]]; [auto|].
        right. split; [exists k, l; split; [auto|reflexivity]|]. exists (ks, p). split; [now left|auto].
      * right. split; [auto|]. exists s. split; [now right|auto].
    + intros s [<-|I]; [|auto]. exists tp. split; [auto|]. split; [apply is_pair_data; eauto|].
      rewrite (key_data _ _ _ E2). destruct K1 as (e & Ie & Ee). exists e. split; auto.
Qed.

Lemma one_round_ok : forall ts d d', one_round tr ts d = Ret d' ->
  (forall e, In e d -> In e d') /\
  (forall t s, In t ts -> In s d -> exists h', apply_trans tr t (snd s) = Ret h' /\ is_pair h' = true /\ Kd d' (key_of h')).
Proof.
  induction ts as [|t ts IH]; intros d d' H; cbn [one_round] in H.
  - injection H as <-. split; [auto|]. intros t s [].
  - destruct (apply_all tr t d d) as [d1|] eqn:E; [|discriminate]. cbn [bind] in H.
    destruct (apply_all_ok _ _ _ _ E) as (A1 & _ & A3). destruct (IH _ _ H) as (B1 & B2).
    split; [auto|]. intros t' s [<-|It] Is; [|auto].
    destruct (A3 s Is) as (h' & E' & P' & (e & Ie & Ee)). exists h'. split; [auto|]. split; [auto|]. exists e. auto.
Qed.

Section Sound.
Context (ps ts : list hnode).
Definition within (n : nat) (h : hnode) : Prop := exists m, (m <= n)%nat /\ reach tr ps ts m h.
Lemma within_le : forall n n' h, (n <= n')%nat -> within n h -> within n' h.
Proof. intros n n' h L (m & M & R). exists m. split; [lia|auto]. Qed.

Definition inv (n : nat) (d : edict) : Prop := Forall entry_ok d /\ Forall (fun e => within n (snd e)) d.

Lemma inv_le : forall n n' d, (n <= n')%nat -> inv n d -> inv n' d.
Proof. intros n n' d L [I1 I2]. split; [auto|]. eapply Forall_impl; [|exact I2]. intros e. now apply within_le. Qed.

Lemma apply_all_inv : forall n t d d', In t ts -> inv n d -> apply_all tr t d d = Ret d' -> inv (S n) d'.
Proof.
  intros n t d d' It [I1 I2] H. destruct (apply_all_ok _ _ _ _ H) as (_ & A2 & _).
  rewrite Forall_forall in I1, I2. split; apply Forall_forall; intros e I; destruct (A2 e I) as [J|(O & s & Is & Es)]; auto.
  - apply (within_le n); auto.
  - destruct (I2 s Is) as (m & M & R). exists (S m). split; [lia|]. now apply (reach_step tr ps ts m (snd s) t).
Qed.

Lemma one_round_inv : forall ts' n d d', incl ts' ts -> inv n d -> one_round tr ts' d = Ret d' ->
  inv (n + List.length ts') d'.
Proof.
  induction ts' as [|t ts' IH]; intros n d d' Sb I H; cbn [one_round] in H.
  - injection H as <-. apply (inv_le n); [cbn; lia|auto].
  - destruct (apply_all tr t d d) as [d1|] eqn:E; [|discriminate]. cbn [bind] in H.
    cbn [List.length]. rewrite Nat.add_succ_r. apply (IH (S n) d1); auto.
    + intros x Hx. apply Sb. now right.
    + apply (apply_all_inv n t d); auto. apply Sb. now left.
Qed.

Context (Hch : hull_spec ch).

Lemma hull_inv : forall pts vs, ch pts = Ret vs -> is_hull pts vs.
Proof.
  intros pts vs H. destruct (Hch pts) as [C1 C2].
  destruct (collinearb pts) eqn:B.
  - rewrite C1 in H by (now apply collinearb_spec). discriminate.
  - destruct C2 as (vs' & E & I); [intro C; apply collinearb_spec in C; congruence|]. rewrite E in H. now injection H as <-.
Qed.

Lemma prune_in : forall d d', prune_dict ch d = Ret d' -> forall e, In e d' ->
  exists e', In e' d /\ snd e' = snd e /\ (pt_eq (fst e) (key_of (snd e)) \/ e = e').
Proof.
  intros d d' H e I. unfold prune_dict in H. destruct (List.length d <? 3)%nat.
  { injection H as <-. exists e. auto. }
  destruct (ch (map key_of (map snd d))) as [vs|] eqn:E; [|discriminate]. cbn [bind] in H. injection H as <-.
  apply hull_inv in E. apply e_of_in in I as [I K]. apply in_map_iff in I as (v & Ev & Iv).
  pose proof (hull_range _ _ E) as R. rewrite Forall_forall in R. specialize (R v Iv). rewrite !map_length in R.
  assert (J : In (snd e) (map snd d)).
  { rewrite <- Ev. apply nth_In. now rewrite map_length. }
  apply in_map_iff in J as (e' & E' & J). exists e'. split; [auto|]. split; [auto|]. now left.
Qed.

Lemma prune_inv : forall n d d', inv n d -> prune_dict ch d = Ret d' -> inv n d'.
Proof.
  intros n d d' [I1 I2] H. rewrite Forall_forall in I1, I2. split; apply Forall_forall; intros e I;
    destruct (prune_in _ _ H e I) as (e' & J & S & K).
  - destruct (I1 e' J) as (k & l & D & E). rewrite S in D. exists k, l. split; [auto|].
    destruct K as [K|<-]; [|auto]. now rewrite K, (key_data _ _ _ D).
  - rewrite <- S. auto.
Qed.

Lemma rounds_inv : forall m n prune d d', inv n d -> rounds ch tr m prune ts d = Ret d' ->
  inv (n + m * List.length ts) d'.
Proof.
  induction m as [|m IH]; intros n prune d d' I H; cbn [rounds] in H.
  - injection H as <-. apply (inv_le n); [lia|auto].
  - destruct (one_round tr ts d) as [d1|] eqn:E; [|discriminate]. cbn [bind] in H.
    apply (one_round_inv ts n d) in E; [|intros x; auto|auto].
    destruct (if prune then prune_dict ch d1 else Ret d1) as [d2|] eqn:E2; [|discriminate]. cbn [bind] in H.
    replace (n + S m * List.length ts)%nat with ((n + List.length ts) + m * List.length ts)%nat by (cbn; lia).
    apply (IH _ prune d2); [|auto]. destruct prune; [now apply (prune_inv _ d1)|injection E2 as <-; auto].
Qed.
End Sound.

Lemma filter_pairs : forall hs, Forall (fun h => is_pair h = true) (filter is_pair hs).
Proof. intros. apply Forall_forall. intros h H. now apply filter_In in H. Qed.

Lemma compute_sound : hull_spec ch -> forall hs depth prune out h,
  compute_exp_pairs ch tr hs depth prune = Ret out -> In h out ->
  is_pair h = true /\
  within (filter is_pair hs) (filter is_trans hs) (depth * List.length (filter is_trans hs)) h.
Proof.
  intros Hch hs depth prune out h H I. unfold compute_exp_pairs in H.
  destruct (rounds ch tr depth prune (filter is_trans hs) (e_of (filter is_pair hs))) as [d|] eqn:E; [|discriminate].
  cbn [bind] in H. injection H as <-. apply in_map_iff in I as (e & <- & I).
  apply (rounds_inv (filter is_pair hs) (filter is_trans hs) Hch depth 0) in E.
  - destruct E as [E1 E2]. rewrite Forall_forall in E1, E2. split; [now apply entry_key, E1|]. apply (E2 e I).
  - split; [apply e_of_ok, filter_pairs|]. apply Forall_forall. intros e' I'. apply e_of_in in I' as [I' _].
    exists 0%nat. split; [lia|]. now constructor.
Qed.

(** ** Rounds, last first *)
Definition round1 (prune : bool) (ts : list hnode) (d : edict) : res edict :=
  let! d' := one_round tr ts d in if prune then prune_dict ch d' else Ret d'.
Lemma rounds_last : forall m prune ts d d', rounds ch tr (S m) prune ts d = Ret d' ->
  exists d1, rounds ch tr m prune ts d = Ret d1 /\ round1 prune ts d1 = Ret d'.
Proof.
  induction m as [|m IH]; intros prune ts d d' H.
  - exists d. split; [auto|]. cbn [rounds] in H. unfold round1. destruct (one_round tr ts d) as [d1|]; [|discriminate].
    cbn [bind] in H |- *. destruct (if prune then _ else _); [|discriminate]. cbn [bind] in H. auto.
  - change (rounds ch tr (S (S m)) prune ts d) with
      (let! d' := one_round tr ts d in let! d'' := if prune then prune_dict ch d' else Ret d' in rounds ch tr (S m) prune ts d'') in H.
    cbn [rounds]. destruct (one_round tr ts d) as [d1|]; [|discriminate]. cbn [bind] in H |- *.
    destruct (if prune then _ else _) as [d2|]; [|discriminate]. cbn [bind] in H |- *. now apply IH.
Qed.

(** *** Without pruning *)
Lemma round_keeps : forall ts d d', round1 false ts d = Ret d' -> forall e, In e d -> In e d'.
Proof.
  intros ts d d' H. unfold round1 in H. destruct (one_round tr ts d) as [d1|] eqn:E; [|discriminate].
  cbn [bind] in H. injection H as <-. now apply (one_round_ok ts d).
Qed.
Lemma rounds_keep : forall j n ts d dn dm, rounds ch tr n false ts d = Ret dn -> rounds ch tr (n + j) false ts d = Ret dm ->
  forall e, In e dn -> In e dm.
Proof.
  induction j as [|j IH]; intros n ts d dn dm E1 E2 e I.
  - rewrite Nat.add_0_r in E2. rewrite E2 in E1. now injection E1 as <-.
  - rewrite Nat.add_succ_r in E2. apply rounds_last in E2 as (d1 & E2 & R).
    apply (round_keeps ts d1 dm R). exact (IH n ts d dn d1 E1 E2 e I).
Qed.
Lemma rounds_prefix : forall j n prune ts d dm, rounds ch tr (n + j) prune ts d = Ret dm -> exists dn, rounds ch tr n prune ts d = Ret dn.
Proof.
  induction j as [|j IH]; intros n prune ts d dm E; [rewrite Nat.add_0_r in E; eauto|].
  rewrite Nat.add_succ_r in E. apply rounds_last in E as (d1 & E & _). exact (IH n prune ts d d1 E).
Qed.

Lemma entry_rounds : hull_spec ch -> forall m prune ps ts d, Forall (fun h => is_pair h = true) ps ->
  rounds ch tr m prune ts (e_of ps) = Ret d -> Forall entry_ok d.
Proof.
  intros Hch m prune ps ts d F E. apply (rounds_inv ps ts Hch m 0) in E; [apply E|].
  split; [now apply e_of_ok|]. apply Forall_forall. intros e I. apply e_of_in in I as [I _]. exists 0%nat. split; [lia|now constructor].
Qed.

Lemma unpruned_complete : hull_spec ch -> forall ps ts, Forall (fun h => is_pair h = true) ps -> Forall (determined tr) ts ->
  forall n h, reach tr ps ts n h -> forall dn, rounds ch tr n false ts (e_of ps) = Ret dn ->
  is_pair h = true /\ Kd dn (key_of h).
Proof.
  intros Hch ps ts F Dt n h R. induction R as [h I|n h t h' R IH It Et]; intros dn E.
  - cbn in E. injection E as <-. rewrite Forall_forall in F. split; [auto|]. apply e_of_K. exists h. split; [auto|reflexivity].
  - pose proof (entry_rounds Hch (S n) false ps ts dn F E) as OK'.
    apply rounds_last in E as (d1 & E & R1). pose proof (entry_rounds Hch n false ps ts d1 F E) as OK.
    destruct (IH d1 E) as [P (e & Ie & Ee)].
    unfold round1 in R1. destruct (one_round tr ts d1) as [d2|] eqn:E2; [|discriminate]. cbn [bind] in R1. injection R1 as <-.
    destruct (one_round_ok _ _ _ E2) as [_ O2]. destruct (O2 t e It Ie) as (a & Ea & Pa & Ka).
    rewrite Forall_forall in OK. destruct (entry_key e (OK e Ie)) as [Pe Ke].
    rewrite Forall_forall in Dt. destruct (Dt t It h (snd e) h' a P Pe) as [D1 D2]; auto; [now rewrite Ee|].
    split; [congruence|]. now apply (Kd_eq d2 (key_of a)); [symmetry|].
Qed.

Lemma compute_complete : hull_spec ch -> forall hs depth out n h,
  Forall (determined tr) (filter is_trans hs) ->
  compute_exp_pairs ch tr hs depth false = Ret out ->
  (n <= depth)%nat -> reach tr (filter is_pair hs) (filter is_trans hs) n h ->
  exists h', In h' out /\ same_pair h h'.
Proof.
  intros Hch hs depth out n h Dt H L R. unfold compute_exp_pairs in H.
  destruct (rounds ch tr depth false (filter is_trans hs) (e_of (filter is_pair hs))) as [d|] eqn:E; [|discriminate].
  cbn [bind] in H. injection H as <-.
  replace depth with (n + (depth - n))%nat in E by lia.
  destruct (rounds_prefix _ _ _ _ _ _ E) as [dn En].
  destruct (unpruned_complete Hch _ _ (filter_pairs hs) Dt n h R dn En) as [P (e & Ie & Ee)].
  pose proof (rounds_keep _ _ _ _ _ _ En E e Ie) as Ie'.
  pose proof (entry_rounds Hch _ _ _ _ _ (filter_pairs hs) E) as OK. rewrite Forall_forall in OK.
  destruct (entry_key e (OK e Ie')) as [Pe Ke].
  exists (snd e). split; [now apply in_map|]. split; [auto|]. split; [auto|]. now rewrite Ee.
Qed.

(** *** With pruning *)
Lemma hull_in_dom : forall (D S : pt -> Prop) p, convex_dom D -> (forall q, S q -> D q) -> hull2 S p -> D p.
Proof.
  intros D S p [D1 D2] H R. induction R as [a p Sa E|a b t p Ra IHa Rb IHb T0 T1 E].
  - apply (D1 a); [now symmetry|auto].
  - apply (D1 (pmix t a b)); [now symmetry|]. auto.
Qed.

Lemma segment_hull : forall D f, convex_dom D -> segment_map D f -> forall (S T : pt -> Prop),
  (forall q, S q -> D q) -> (forall q, S q -> hull2 T (f q)) -> forall p, hull2 S p -> hull2 T (f p).
Proof.
  intros D f CD [F1 F2 F3] S T SD H p R. induction R as [a p Sa E|a b t p Ra IHa Rb IHb T0 T1 E].
  - apply (hull2_eq T (f a)); [|auto]. apply F1; [auto|now symmetry].
  - assert (Da : D a) by (eapply hull_in_dom; eauto). assert (Db : D b) by (eapply hull_in_dom; eauto).
    destruct (F3 a b t Da Db T0 T1) as (s & S0 & S1 & Es).
    apply (hull2_mix T (f a) (f b) s); auto. rewrite <- Es. symmetry. apply F1; [|now symmetry].
    apply (dom_mix D CD); auto.
Qed.

Lemma K_hull_mono : forall d d' p, (forall q, Kd d q -> hull2 (Kd d') q) -> hull2 (Kd d) p -> hull2 (Kd d') p.
Proof. intros. eapply hull2_sub; eauto. Qed.

Lemma prune_hull : hull_spec ch -> forall d d', Forall entry_ok d -> prune_dict ch d = Ret d' ->
  forall p, hull2 (Kd d) p -> hull2 (Kd d') p.
Proof.
  intros Hch d d' OK H p Hp. unfold prune_dict in H. destruct (List.length d <? 3)%nat; [injection H as <-; auto|].
  set (pts := map key_of (map snd d)) in *.
  destruct (ch pts) as [vs|] eqn:E; [|discriminate]. cbn [bind] in H. injection H as <-.
  apply hull_inv in E; [|auto]. revert Hp. apply K_hull_mono. intros q (e & Ie & Ee).
  rewrite Forall_forall in OK. destruct (entry_key e (OK e Ie)) as [_ Ke].
  assert (In (key_of (snd e)) pts) as Iq by (unfold pts; apply in_map, in_map; auto).
  apply (hull2_eq _ (key_of (snd e))); [rewrite Ee, Ke; reflexivity|].
  pose proof (hull_covers _ _ E _ Iq) as C. eapply hull2_sub; [|exact C]. intros r (i & Ii & ->).
  apply (hull2_in _ (pts_at pts i)); [|reflexivity]. apply e_of_K.
  exists (nth i (map snd d) trivial_exp_pair). split; [apply in_map_iff; eauto|].
  pose proof (hull_range _ _ E) as R. rewrite Forall_forall in R. specialize (R i Ii).
  unfold pts_at. unfold pts in R |- *. rewrite map_length in R.
  rewrite (nth_indep _ _ (key_of trivial_exp_pair)) by (now rewrite map_length). rewrite map_nth. reflexivity.
Qed.

Lemma acts_keys : forall D d t f e h', convex_dom D -> Forall entry_ok d -> (forall q, Kd d q -> D q) ->
  segment_map D f -> acts_as tr D t f ->
  In e d -> apply_trans tr t (snd e) = Ret h' -> is_pair h' = true /\ pt_eq (key_of h') (f (fst e)).
Proof.
  intros D d t f e h' CD OK HD SM Ac Ie E. rewrite Forall_forall in OK. destruct (entry_key e (OK e Ie)) as [P K].
  assert (De : D (fst e)) by (apply HD; exists e; split; [auto|reflexivity]).
  assert (Dk : D (key_of (snd e))) by (apply (dom_eq D CD (fst e)); auto).
  destruct (Ac _ _ P Dk E) as [P' E']. split; [auto|]. rewrite E'. symmetry. now apply (sm_eq D f SM).
Qed.

Lemma apply_all_dom : forall D d t f d', convex_dom D -> Forall entry_ok d -> (forall q, Kd d q -> D q) ->
  segment_map D f -> acts_as tr D t f -> apply_all tr t d d = Ret d' ->
  Forall entry_ok d' /\ (forall q, Kd d' q -> D q).
Proof.
  intros D d t f d' CD OK HD SM Ac H. destruct (apply_all_ok _ _ _ _ H) as (_ & A2 & _).
  split.
  - rewrite Forall_forall in *. intros e I. destruct (A2 e I) as [J|[O _]]; auto.
  - intros q (e & I & Eq). destruct (A2 e I) as [J|(O & s & Is & Es)]; [apply HD; exists e; auto|].
    destruct (acts_keys D d t f s (snd e) CD OK HD SM Ac Is Es) as [_ K]. destruct (entry_key e O) as [_ Ke].
    apply (dom_eq D CD (f (fst s))); [now rewrite Eq, Ke, K|]. apply (sm_dom D f SM). apply HD. exists s. split; [auto|reflexivity].
Qed.

Lemma one_round_dom : forall D (f : hnode -> pt -> pt) ts d d', convex_dom D -> Forall entry_ok d -> (forall q, Kd d q -> D q) ->
  (forall t, In t ts -> segment_map D (f t) /\ acts_as tr D t (f t)) -> one_round tr ts d = Ret d' ->
  Forall entry_ok d' /\ (forall q, Kd d' q -> D q).
Proof.
  intros D f. induction ts as [|t ts IH]; intros d d' CD OK HD HF H; cbn [one_round] in H; [injection H as <-; auto|].
  destruct (apply_all tr t d d) as [d1|] eqn:E; [|discriminate]. cbn [bind] in H.
  destruct (HF t (or_introl eq_refl)) as [S1 S2].
  destruct (apply_all_dom D d t (f t) d1 CD OK HD S1 S2 E) as [O1 D1].
  apply (IH d1); auto. intros t' I. apply HF. now right.
Qed.

Lemma prune_dom : hull_spec ch -> forall (D : pt -> Prop) d d', convex_dom D -> Forall entry_ok d -> (forall q, Kd d q -> D q) ->
  prune_dict ch d = Ret d' -> Forall entry_ok d' /\ (forall q, Kd d' q -> D q).
Proof.
  intros Hch D d d' CD OK HD H. rewrite Forall_forall in OK.
  assert (G : forall e, In e d' -> entry_ok e /\ D (fst e)).
  { intros e I. destruct (prune_in Hch _ _ H e I) as (e' & J & S & K). destruct (OK e' J) as (k & l & Dt & E).
    rewrite S in Dt. assert (De : D (fst e')) by (apply HD; exists e'; split; [auto|reflexivity]).
    destruct K as [K|<-]; [|split; [exists k, l; auto|auto]].
    rewrite (key_data _ _ _ Dt) in K. split; [exists k, l; auto|]. apply (dom_eq D CD (fst e')); [now rewrite E, K|auto]. }
  split; [apply Forall_forall; intros e I; now apply G|]. intros q (e & I & E).
  apply (dom_eq D CD (fst e)); [now symmetry|]. now apply G.
Qed.

Lemma pruned_complete : hull_spec ch -> forall D (f : hnode -> pt -> pt) ps ts prune,
  convex_dom D -> Forall (fun h => is_pair h = true /\ D (key_of h)) ps ->
  (forall t, In t ts -> segment_map D (f t) /\ acts_as tr D t (f t)) ->
  (forall m d, rounds ch tr m prune ts (e_of ps) = Ret d -> Forall entry_ok d /\ forall q, Kd d q -> D q) /\
  forall n h, reach tr ps ts n h -> is_pair h = true /\ D (key_of h) /\
    forall d, rounds ch tr n prune ts (e_of ps) = Ret d -> hull2 (Kd d) (key_of h).
Proof.
  intros Hch D f ps ts prune CD F HF.
  assert (P1 : forall m d, rounds ch tr m prune ts (e_of ps) = Ret d -> Forall entry_ok d /\ forall q, Kd d q -> D q).
  { induction m as [|m IH]; intros d E.
    - cbn in E. injection E as <-. split.
      + apply e_of_ok. eapply Forall_impl; [|exact F]. now intros h [H _].
      + intros q Hq. apply e_of_K in Hq as (h & I & Eq). rewrite Forall_forall in F. apply (dom_eq D CD (key_of h)); [now symmetry|].
        now apply F.
    - apply rounds_last in E as (d1 & E & R1). destruct (IH d1 E) as [O1 D1]. unfold round1 in R1.
      destruct (one_round tr ts d1) as [d2|] eqn:E2; [|discriminate]. cbn [bind] in R1.
      destruct (one_round_dom D f ts d1 d2 CD O1 D1 HF E2) as [O2 D2].
      destruct prune; [now apply (prune_dom Hch D d2)|injection R1 as <-; auto]. }
  split; [exact P1|].
  intros n h R. induction R as [h I|n h t h' R IH It Et].
  - rewrite Forall_forall in F. destruct (F h I) as [Ph Dh]. split; [auto|]. split; [auto|].
    intros d E. cbn in E. injection E as <-.
    apply (hull2_in _ (key_of h)); [|reflexivity]. apply e_of_K. exists h. split; [auto|reflexivity].
  - destruct IH as (Ph & Dh & IH). destruct (HF t It) as [SM Ac]. destruct (Ac h h' Ph Dh Et) as [Ph' Eh'].
    split; [auto|]. split; [apply (dom_eq D CD (f t (key_of h))); [now symmetry|]; now apply (sm_dom D (f t) SM)|].
    intros d E. apply rounds_last in E as (d1 & E & R1). specialize (IH d1 E). destruct (P1 n d1 E) as [O1 D1].
    unfold round1 in R1. destruct (one_round tr ts d1) as [d2|] eqn:E2; [|discriminate]. cbn [bind] in R1.
    destruct (one_round_dom D f ts d1 d2 CD O1 D1 HF E2) as [O2 D2].
    assert (H2 : hull2 (Kd d2) (key_of h')).
    { apply (hull2_eq _ (f t (key_of h))); [now symmetry|].
      apply (segment_hull D (f t) CD SM (Kd d1)); auto.
      intros q (e & Ie & Eq). destruct (one_round_ok _ _ _ E2) as [_ Or]. destruct (Or t e It Ie) as (a & Ea & Pa & Ka).
      apply (hull2_in _ (key_of a)); [auto|].
      destruct (acts_keys D d1 t (f t) e a CD O1 D1 SM Ac Ie Ea) as [_ Kf]. rewrite Kf. apply (sm_eq D (f t) SM); [|auto].
      apply D1. exists e. auto. }
    destruct prune; [now apply (prune_hull Hch d2)|injection R1 as <-; auto].
Qed.

(** Pruning and further rounds keep the hull. *)
Lemma hull_grows : hull_spec ch -> forall ps ts prune, Forall (fun h => is_pair h = true) ps ->
  forall j n d d', rounds ch tr n prune ts (e_of ps) = Ret d -> rounds ch tr (n + j) prune ts (e_of ps) = Ret d' ->
  forall p, hull2 (Kd d) p -> hull2 (Kd d') p.
Proof.
  intros Hch ps ts prune F. induction j as [|j IH]; intros n d d' E1 E2 p Hp.
  - rewrite Nat.add_0_r in E2. rewrite E2 in E1. now injection E1 as <-.
  - rewrite Nat.add_succ_r in E2.
    apply rounds_last in E2 as (d1 & E2 & R1). specialize (IH n d d1 E1 E2 p Hp).
    pose proof (entry_rounds Hch _ _ _ _ _ F E2) as O1.
    assert (O2 : forall d2, one_round tr ts d1 = Ret d2 -> Forall entry_ok d2).
    { intros d2 E. clear - O1 E. revert d1 d2 O1 E. induction ts as [|t ts' IHt]; intros d1 d2 O1 E; cbn [one_round] in E;
        [now injection E as <-|]. destruct (apply_all tr t d1 d1) as [d3|] eqn:E3; [|discriminate]. cbn [bind] in E.
      apply (IHt d3 d2); [|auto]. destruct (apply_all_ok _ _ _ _ E3) as (_ & A2 & _). rewrite Forall_forall in *.
      intros e I. destruct (A2 e I) as [J|[O _]]; auto. }
    unfold round1 in R1. destruct (one_round tr ts d1) as [d2|] eqn:E3; [|discriminate]. cbn [bind] in R1.
    assert (H2 : hull2 (Kd d2) p).
    { revert IH. apply K_hull_mono. intros q (e & I & Eq). apply (hull2_in _ q); [|reflexivity]. exists e. split; [|auto].
      now apply (one_round_ok ts d1 d2 E3). }
    destruct prune; [|injection R1 as <-; auto]. apply (prune_hull Hch d2); auto.
Qed.

Lemma compute_pruned_complete : hull_spec ch -> forall D (f : hnode -> pt -> pt) hs depth prune out n h,
  convex_dom D -> Forall (fun h => D (key_of h)) (filter is_pair hs) ->
  (forall t, In t (filter is_trans hs) -> segment_map D (f t) /\ acts_as tr D t (f t)) ->
  compute_exp_pairs ch tr hs depth prune = Ret out ->
  (n <= depth)%nat -> reach tr (filter is_pair hs) (filter is_trans hs) n h ->
  is_pair h = true /\ hull2 (node_keys out) (key_of h).
Proof.
  intros Hch D f hs depth prune out n h CD F HF H L R. unfold compute_exp_pairs in H.
  destruct (rounds ch tr depth prune (filter is_trans hs) (e_of (filter is_pair hs))) as [d|] eqn:E; [|discriminate].
  cbn [bind] in H. injection H as <-.
  assert (F' : Forall (fun h => is_pair h = true /\ D (key_of h)) (filter is_pair hs)).
  { apply Forall_forall. intros x I. rewrite Forall_forall in F. split; [now apply filter_In in I|auto]. }
  destruct (pruned_complete Hch D f (filter is_pair hs) (filter is_trans hs) prune CD F' HF) as [P1 P2].
  destruct (P2 n h R) as (Ph & _ & P3). split; [auto|].
  replace depth with (n + (depth - n))%nat in E by lia.
  destruct (rounds_prefix _ _ _ _ _ _ E) as [dn En].
  pose proof (hull_grows Hch _ _ _ (filter_pairs hs) _ _ _ _ En E _ (P3 dn En)) as G.
  destruct (P1 _ _ E) as [Od _]. eapply hull2_sub; [|exact G]. intros q (e & Ie & Eq).
  rewrite Forall_forall in Od. destruct (entry_key e (Od e Ie)) as [Pe Ke].
  apply (hull2_in _ (key_of (snd e))); [|now rewrite Eq]. exists (snd e). split; [now apply in_map|auto].
Qed.
End Search.
