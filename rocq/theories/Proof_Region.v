(** Lemmas on regions: membership, maps, projection, half-planes, inclusion. *)
From Verif Require Import Base LinAlg Model_Polytope Spec_Polytope FM_Ext Proof_Polytope Proof_PolytopeMaps
  Proof_PolytopeLP Proof_PolytopeSets Proof_PolytopeUnion Model_Region Spec_Region.
From Coq Require Import Permutation.

Lemma anyM_ok : forall {A} (f : A -> res bool) (P : A -> Prop) l,
  Forall (fun a => exists b, f a = Ret b /\ (b = true <-> P a)) l ->
  exists b, anyM f l = Ret b /\ (b = true <-> anyP P l).
Proof.
  induction l as [|a l IH]; intro F; simpl.
  - exists false. split; [reflexivity|]. split; [discriminate|tauto].
  - apply Forall_cons_iff in F as [(b & Eb & Hb) F]. rewrite Eb; cbn [bind]. destruct b.
    + exists true. split; [reflexivity|]. tauto.
    + destruct (IH F) as (b' & E' & H'). exists b'. split; [exact E'|].
      assert (~ P a) by (intro; assert (false = true) by tauto; discriminate). tauto.
Qed.

Lemma allM_ok : forall {A} (f : A -> res bool) (P : A -> Prop) l,
  Forall (fun a => exists b, f a = Ret b /\ (b = true <-> P a)) l ->
  exists b, allM f l = Ret b /\ (b = true <-> allP P l).
Proof.
  induction l as [|a l IH]; intro F; simpl.
  - exists true. split; [reflexivity|]. tauto.
  - apply Forall_cons_iff in F as [(b & Eb & Hb) F]. rewrite Eb; cbn [bind]. destruct b.
    + destruct (IH F) as (b' & E' & H'). exists b'. split; [exact E'|]. tauto.
    + exists false. split; [reflexivity|]. split; [discriminate|]. tauto.
Qed.

Lemma Forall_allP : forall {A} (P Q : A -> Prop) l, Forall (fun a => P a -> Q a) l -> allP P l -> Forall Q l.
Proof.
  induction l as [|a l IH]; intros F H; constructor; apply Forall_cons_iff in F as [F1 F]; destruct H; auto.
Qed.

(** ** contains *)

Lemma rcontains_ok : forall r x d, leaves (has_dim d) r -> length x = d ->
  exists b, rcontains r x = Ret b /\ (b = true <-> denote r x).
Proof.
  intros r x d H L. revert H. induction r as [p|r IH|r IH|rs IH|rs IH|rs IH] using region_tree_ind; intro H; simpl in *.
  - destruct (contains (body p) x) as [[]|e] eqn:C.
    + exists true. split; [reflexivity|]. apply contains_true in C. tauto.
    + exists false. split; [reflexivity|]. apply contains_false in C as [_ C]. split; [discriminate|contradiction].
    + apply contains_raise in C as [_ C]. exfalso. apply C. unfold has_dim in H. lia.
  - auto.
  - destruct (IH H) as (b & Eb & Hb). rewrite Eb; cbn [bind]. exists (negb b). split; [reflexivity|].
    destruct b; simpl; split; try discriminate; try tauto. intros _ D. apply Hb in D. discriminate.
  - apply anyM_ok. exact (Forall_allP _ _ _ IH H).
  - apply anyM_ok. exact (Forall_allP _ _ _ IH H).
  - apply allM_ok. exact (Forall_allP _ _ _ IH H).
Qed.

Lemma denote_dec : forall r x d, leaves (has_dim d) r -> length x = d -> denote r x \/ ~ denote r x.
Proof.
  intros r x d H L. destruct (rcontains_ok r x d H L) as ([] & _ & B).
  - left. tauto.
  - right. intro D. apply B in D. discriminate.
Qed.

Lemma denote_peq : forall r x y, length x = length y -> peq x y -> (denote r x <-> denote r y).
Proof.
  intros r x y L H. induction r as [p|r IH|r IH|rs IH|rs IH|rs IH] using region_tree_ind; simpl.
  - now apply mmember_peq.
  - exact IH.
  - tauto.
  - rewrite !anyP_iff. rewrite Forall_forall in IH. split; intros (a & Ha & D); exists a; (split; [auto|apply (IH a Ha); auto]).
  - rewrite !anyP_iff. rewrite Forall_forall in IH. split; intros (a & Ha & D); exists a; (split; [auto|apply (IH a Ha); auto]).
  - rewrite !allP_iff. rewrite Forall_forall in IH. split; intros D a Ha; apply (IH a Ha); auto.
Qed.

Lemma denote_length : forall r x d, leaves (has_dim d) r -> positive r -> denote r x -> length x = d.
Proof.
  intros r x d. induction r as [p|r IH|r IH|rs IH|rs IH|rs IH] using region_tree_ind; simpl; intros H P D; try tauto.
  - destruct D as [D _]. unfold has_dim in H. lia.
  - rewrite anyP_iff in D. rewrite allP_iff in H, P. rewrite Forall_forall in IH. destruct D as (a & Ha & D). eapply IH; eauto.
  - rewrite anyP_iff in D. rewrite allP_iff in H, P. rewrite Forall_forall in IH. destruct D as (a & Ha & D). eapply IH; eauto.
  - destruct P as [NE P]. destruct rs as [|a rs]; [congruence|]. simpl in *. apply Forall_cons_iff in IH as [IH _]. tauto.
Qed.

(** ** Mapping the polytopes of a tree *)

Section RMap.
Variable f : polytope -> res polytope.
Fixpoint rmap (r : region) : res region :=
  match r with
  | RPoly p => let! q := f (body p) in Ret (RPoly (plain q))
  | RWrap r => let! q := rmap r in Ret (RWrap q)
  | RCompl r => let! q := rmap r in Ret (RCompl q)
  | RUnion rs => let! qs := mapM rmap rs in Ret (RUnion qs)
  | RDisj rs => let! qs := mapM rmap rs in Ret (RDisj qs)
  | RInter rs => let! qs := mapM rmap rs in Ret (RInter qs)
  end.
End RMap.

Lemma mapM_ext_Forall : forall {A B} (f g : A -> res B) l, Forall (fun a => f a = g a) l -> mapM f l = mapM g l.
Proof. induction 1 as [|a l H F IH]; simpl; [reflexivity|]. now rewrite H, IH. Qed.

Lemma rsubstitute_rmap : forall values r, rsubstitute values r = rmap (fun p => substitute p values) r.
Proof.
  intros values r. induction r using region_tree_ind; simpl; auto; try (now rewrite IHr);
    now rewrite (mapM_ext_Forall _ _ _ H).
Qed.

Lemma rscale_all_rmap : forall factors r, rscale_all factors r = rmap (fun p => scale_all p factors) r.
Proof.
  intros factors r. induction r using region_tree_ind; simpl; auto; try (now rewrite IHr);
    now rewrite (mapM_ext_Forall _ _ _ H).
Qed.

Lemma mapM_list_ok : forall {A B} (f : A -> res B) (R : A -> B -> Prop) l,
  Forall (fun a => exists b, f a = Ret b /\ R a b) l -> exists m, mapM f l = Ret m /\ Forall2 R l m.
Proof.
  induction l as [|a l IH]; intro F; simpl.
  - exists []. split; [reflexivity|constructor].
  - apply Forall_cons_iff in F as [(b & Eb & Hb) F]. destruct (IH F) as (m & Em & Hm).
    rewrite Eb, Em; cbn [bind]. exists (b :: m). split; [reflexivity|now constructor].
Qed.

Lemma anyP_Forall2 : forall {A B} (P : A -> Prop) (Q : B -> Prop) l m,
  Forall2 (fun a b => P a <-> Q b) l m -> (anyP P l <-> anyP Q m).
Proof. induction 1; simpl; tauto. Qed.

Lemma allP_Forall2 : forall {A B} (P : A -> Prop) (Q : B -> Prop) l m,
  Forall2 (fun a b => P a <-> Q b) l m -> (allP P l <-> allP Q m).
Proof. induction 1; simpl; tauto. Qed.

Lemma Forall2_allP : forall {A B} (R : A -> B -> Prop) (Q : B -> Prop) l m,
  (forall a b, R a b -> Q b) -> Forall2 R l m -> allP Q m.
Proof. intros A B R Q l m H F. induction F; simpl; auto. split; eauto. Qed.

(** [D] is the set of new points considered, [Rel y x] says that [x] is the old
    point that belongs to [y]. *)
Lemma rmap_ok : forall f (L L' : lpoly -> Prop) (D : point -> Prop) (Rel : point -> point -> Prop),
  (forall p, L p -> exists q, f (body p) = Ret q /\ L' (plain q) /\
     forall y, D y -> (member q y <-> exists x, Rel y x /\ member (body p) x)) ->
  (forall y, D y -> exists x, Rel y x) ->
  (forall y x x', D y -> Rel y x -> Rel y x' -> length x = length x' /\ peq x x') ->
  forall r, leaves L r -> exists q, rmap f r = Ret q /\ leaves L' q /\
    forall y, D y -> (denote q y <-> exists x, Rel y x /\ denote r x).
Proof.
  intros f L L' D Rel HL Tot Uni r. induction r as [p|r IH|r IH|rs IH|rs IH|rs IH] using region_tree_ind; intro H; simpl in H; simpl.
  - destruct (HL p H) as (q & Eq & Lq & Hq). rewrite Eq; cbn [bind]. eexists. split; [reflexivity|]. split; [exact Lq|]. exact Hq.
  - destruct (IH H) as (q & Eq & Lq & Hq). rewrite Eq; cbn [bind]. eexists. split; [reflexivity|]. split; [exact Lq|]. exact Hq.
  - destruct (IH H) as (q & Eq & Lq & Hq). rewrite Eq; cbn [bind]. eexists. split; [reflexivity|]. split; [exact Lq|].
    intros y Dy. simpl. rewrite (Hq y Dy). split.
    + intro N. destruct (Tot y Dy) as (x & Rx). exists x. split; [auto|]. intro Dx. apply N. now exists x.
    + intros (x & Rx & N) (x' & Rx' & Dx'). destruct (Uni y x x' Dy Rx Rx') as [U1 U2].
      apply N. now apply (denote_peq r x x').
  - assert (F : Forall (fun a => exists b, rmap f a = Ret b /\ (leaves L' b /\ forall y, D y -> (denote b y <-> exists x, Rel y x /\ denote a x))) rs).
    { exact (Forall_allP _ _ _ IH H). }
    apply mapM_list_ok in F as (qs & Eqs & F). rewrite Eqs; cbn [bind]. eexists. split; [reflexivity|]. split.
    + simpl. eapply Forall2_allP; [|exact F]. cbv beta. tauto.
    + intros y Dy. simpl. rewrite anyP_iff. split.
      * intros (b & Hb & Db). clear - F Hb Db Dy.
        induction F as [|a b0 l m H0 F IH]; [destruct Hb|]. destruct Hb as [<-|Hb].
        -- apply H0 in Db as (x & Rx & Dx); auto. exists x. split; [auto|]. now left.
        -- destruct (IH Hb) as (x & Rx & Dx). exists x. split; [auto|]. now right.
      * intros (x & Rx & Dx). clear - F Dx Rx Dy. induction F as [|a b0 l m H0 F IH]; [destruct Dx|]. destruct Dx as [Dx|Dx].
        -- exists b0. split; [now left|]. apply H0; auto. now exists x.
        -- destruct (IH Dx) as (b & Hb & Db). exists b. split; [now right|auto].
  - assert (F : Forall (fun a => exists b, rmap f a = Ret b /\ (leaves L' b /\ forall y, D y -> (denote b y <-> exists x, Rel y x /\ denote a x))) rs).
    { exact (Forall_allP _ _ _ IH H). }
    apply mapM_list_ok in F as (qs & Eqs & F). rewrite Eqs; cbn [bind]. eexists. split; [reflexivity|]. split.
    + simpl. eapply Forall2_allP; [|exact F]. cbv beta. tauto.
    + intros y Dy. simpl. rewrite anyP_iff. split.
      * intros (b & Hb & Db). clear - F Hb Db Dy.
        induction F as [|a b0 l m H0 F IH]; [destruct Hb|]. destruct Hb as [<-|Hb].
        -- apply H0 in Db as (x & Rx & Dx); auto. exists x. split; [auto|]. now left.
        -- destruct (IH Hb) as (x & Rx & Dx). exists x. split; [auto|]. now right.
      * intros (x & Rx & Dx). clear - F Dx Rx Dy. induction F as [|a b0 l m H0 F IH]; [destruct Dx|]. destruct Dx as [Dx|Dx].
        -- exists b0. split; [now left|]. apply H0; auto. now exists x.
        -- destruct (IH Dx) as (b & Hb & Db). exists b. split; [now right|auto].
  - assert (F : Forall (fun a => exists b, rmap f a = Ret b /\ (leaves L' b /\ forall y, D y -> (denote b y <-> exists x, Rel y x /\ denote a x))) rs).
    { exact (Forall_allP _ _ _ IH H). }
    apply mapM_list_ok in F as (qs & Eqs & F). rewrite Eqs; cbn [bind]. eexists. split; [reflexivity|]. split.
    + simpl. eapply Forall2_allP; [|exact F]. cbv beta. tauto.
    + intros y Dy. simpl. destruct (Tot y Dy) as (x & Rx).
      assert (G : Forall2 (fun a b => denote a x <-> denote b y) rs qs).
      { clear - F Dy Rx Uni. induction F as [|a b l m H0 F IH]; constructor; auto.
        destruct H0 as [_ H0]. rewrite (H0 y Dy). split; [intro; exists x; auto|].
        intros (x' & Rx' & Dx'). destruct (Uni y x x' Dy Rx Rx') as [U1 U2]. now apply (denote_peq a x x'). }
      rewrite <- (allP_Forall2 (fun c => denote c x) _ _ _ G). split.
      * intro A. exists x. auto.
      * intros (x' & Rx' & A). destruct (Uni y x x' Dy Rx Rx') as [U1 U2].
        rewrite allP_iff in *. intros a Ha. apply (denote_peq a x x'); auto.
Qed.

(** ** substitute *)

Definition fixed_at (values : list (nat * Q)) (d : nat) (y x : point) : Prop :=
  length x = d /\ (forall k v, In (k, v) values -> nth k x 0 == v) /\ Forall2 Qeq y (remaining (map fst values) 0 x).

Lemma remaining_repeat : forall keys i n m x, length x = n -> length (remaining keys i x) = length (remaining keys i (repeat m n)).
Proof.
  intros keys i n m x. revert i n. induction x as [|a x IH]; intros i n L; subst n; simpl; auto.
  destruct (in_dec Nat.eq_dec i keys); simpl; auto.
Qed.

Lemma fixed_unique : forall values x x' i, length x = length x' ->
  (forall k v, In (k, v) values -> (i <= k)%nat -> nth (k - i) x 0 == v) ->
  (forall k v, In (k, v) values -> (i <= k)%nat -> nth (k - i) x' 0 == v) ->
  Forall2 Qeq (remaining (map fst values) i x) (remaining (map fst values) i x') -> peq x x'.
Proof.
  intros values. induction x as [|a x IH]; intros x' i L H H' F; destruct x' as [|b x']; try discriminate; [intro; reflexivity|].
  assert (T : forall z c, (forall k v, In (k, v) values -> (i <= k)%nat -> nth (k - i) (c :: z) 0 == v) ->
              forall k v, In (k, v) values -> (S i <= k)%nat -> nth (k - S i) z 0 == v).
  { intros z c Hz k v Hk Hi. specialize (Hz k v Hk ltac:(lia)). replace (k - i)%nat with (S (k - S i)) in Hz by lia. exact Hz. }
  simpl in F. destruct (in_dec Nat.eq_dec i (map fst values)) as [I|NI].
  - apply in_map_iff in I as ([k v] & Ek & Hk). cbn [fst] in Ek. subst k.
    pose proof (H i v Hk ltac:(lia)) as A. pose proof (H' i v Hk ltac:(lia)) as B. rewrite Nat.sub_diag in A, B. simpl in A, B.
    intros [|j]; simpl; [lra|]. apply (IH x' (S i)); eauto.
  - inversion F; subst. intros [|j]; simpl; [assumption|]. apply (IH x' (S i)); eauto.
Qed.

Lemma Forall2_Qeq_common : forall y l l', Forall2 Qeq y l -> Forall2 Qeq y l' -> Forall2 Qeq l l'.
Proof.
  induction y as [|a y IH]; intros l l' B1 B2; inversion B1 as [|? b ? m Q1 F1]; subst; inversion B2 as [|? b' ? m' Q2 F2]; subst; constructor; [|auto].
  rewrite <- Q1, <- Q2. reflexivity.
Qed.

Lemma rsubstitute_ok : forall values d r,
  leaves (fun p => wf_mat (pmat (body p)) /\ mrows (pmat (body p)) <> [] /\ has_dim d p) r ->
  NoDup (map fst values) -> (forall k v, In (k, v) values -> (k < d)%nat) ->
  exists q, rsubstitute values r = Ret q /\
    forall y, length y = length (remaining (map fst values) 0 (repeat 0 d)) ->
      (denote q y <-> exists x, fixed_at values d y x /\ denote r x).
Proof.
  intros values d r HL ND K. rewrite rsubstitute_rmap.
  assert (DC : forall n i, length (remaining (map fst values) i (repeat 0 n)) = length (drop_cols values i (repeat 0 n))).
  { intros n i. apply remaining_length. }
  destruct (rmap_ok (fun p => substitute p values)
    (fun p => wf_mat (pmat (body p)) /\ mrows (pmat (body p)) <> [] /\ has_dim d p) (fun _ => True)
    (fun y => length y = length (remaining (map fst values) 0 (repeat 0 d))) (fixed_at values d)) with (r := r)
    as (q & Eq & _ & Hq); auto.
  - intros p (W & NE & HD). unfold has_dim in HD.
    destruct (substitute_ok (body p) values W NE ND) as (q & Eq & _ & _ & Hq).
    + intros k v Hk. specialize (K k v Hk). lia.
    + exists q. split; [exact Eq|]. split; [exact Logic.I|]. intros y _. rewrite Hq. unfold fixed_at. split.
      * intros (x & Mx & A & B). exists x. split; [|exact Mx]. split; [destruct Mx; lia|auto].
      * intros (x & (_ & A & B) & Mx). exists x. auto.
  - intros y Ly. exists (fill values 0 d y). split; [apply fill_length|]. split.
    + intros k v Hk. specialize (K k v Hk).
      pose proof (fill_agree values d 0 y k v ND Hk) as FA. rewrite Nat.sub_0_r in FA. rewrite FA by lia. reflexivity.
    + rewrite remaining_fill; [|now rewrite Ly, DC]. clear. induction y; constructor; auto. reflexivity.
  - intros y x x' _ (L1 & A1 & B1) (L2 & A2 & B2). split; [lia|].
    apply (fixed_unique values x x' 0); [lia| | |].
    + intros k v Hk _. rewrite Nat.sub_0_r. auto.
    + intros k v Hk _. rewrite Nat.sub_0_r. auto.
    + exact (Forall2_Qeq_common _ _ _ B1 B2).
  - exists q. split; [exact Eq|exact Hq].
Qed.

(** ** scale_all *)

Lemma stretch_all_unique : forall fs x x', Forall (fun f => ~ f == 0) fs -> length fs = length x -> length fs = length x' ->
  Forall2 Qeq (stretch_all fs x) (stretch_all fs x') -> peq x x'.
Proof.
  induction fs as [|f fs IH]; intros x x' NZ L L' F; destruct x as [|a x], x' as [|b x']; try discriminate.
  - intro; reflexivity.
  - simpl in F. inversion F; subst. apply Forall_cons_iff in NZ as [N NZ].
    assert (P : peq x x') by (apply IH; auto).
    intros [|i]; simpl; [|apply P]. apply (Qmult_inj_l _ _ f); auto.
Qed.

Lemma rscale_all_ok : forall fs r,
  leaves (fun p => good (body p) /\ mrows (pmat (body p)) <> [] /\ has_dim (length fs) p) r ->
  Forall (fun f => ~ f == 0) fs ->
  exists q, rscale_all fs r = Ret q /\
    forall y, length y = length fs ->
      (denote q y <-> exists x, (length x = length fs /\ Forall2 Qeq y (stretch_all fs x)) /\ denote r x).
Proof.
  intros fs r HL NZ. rewrite rscale_all_rmap.
  destruct (rmap_ok (fun p => scale_all p fs)
    (fun p => good (body p) /\ mrows (pmat (body p)) <> [] /\ has_dim (length fs) p) (fun _ => True)
    (fun y => length y = length fs) (fun y x => length x = length fs /\ Forall2 Qeq y (stretch_all fs x))) with (r := r)
    as (q & Eq & _ & Hq); auto.
  - intros p (G & NE & HD). unfold has_dim in HD.
    destruct (scale_all_ok (body p) fs G ltac:(lia) NZ NE) as (q & Eq & _ & _ & Hq).
    exists q. split; [exact Eq|]. split; [exact Logic.I|]. intros y _. rewrite Hq. split.
    + intros (x & Mx & A). exists x. split; [|exact Mx]. split; [destruct Mx; lia|auto].
    + intros (x & (_ & A) & Mx). exists x. auto.
  - intros y Ly. exists (stretch_all (map Qinv fs) y).
    assert (LS : length (stretch_all (map Qinv fs) y) = length fs) by (rewrite stretch_all_length; rewrite ?map_length; lia).
    split; [exact LS|]. pose proof (stretch_all_inverse fs y NZ ltac:(lia)) as P.
    exact P.
  - intros y x x' _ (L1 & B1) (L2 & B2). split; [lia|]. apply (stretch_all_unique fs); auto.
    exact (Forall2_Qeq_common _ _ _ B1 B2).
  - exists q. split; [exact Eq|exact Hq].
Qed.

(** ** lift *)

Lemma rlift_rmap : forall var r, positive r -> rlift var r = rmap (fun p => lift p var) r.
Proof.
  intros var r. induction r using region_tree_ind; simpl; intro P; auto; try tauto.
  - rewrite (mapM_ext_Forall (rlift var) (rmap (fun p => lift p var)) rs); auto. exact (Forall_allP _ _ _ H P).
  - rewrite (mapM_ext_Forall (rlift var) (rmap (fun p => lift p var)) rs); auto. exact (Forall_allP _ _ _ H P).
  - destruct P as [_ P]. rewrite (mapM_ext_Forall (rlift var) (rmap (fun p => lift p var)) rs); auto. exact (Forall_allP _ _ _ H P).
Qed.

Lemma mapM_Forall2 : forall {A B} (f : A -> res B) l m, mapM f l = Ret m -> Forall2 (fun a b => f a = Ret b) l m.
Proof.
  induction l as [|a l IH]; simpl; intros m H; [injection H as <-; constructor|].
  destruct (f a) as [b|e] eqn:Ea; cbn [bind] in H; [|discriminate].
  destruct (mapM f l) as [bs|e]; cbn [bind] in H; [|discriminate]. injection H as <-. constructor; auto.
Qed.

Lemma rmap_positive : forall f r q, rmap f r = Ret q -> positive r -> positive q.
Proof.
  intros f r. induction r using region_tree_ind; simpl; intros q E P; try tauto.
  - destruct (f (body p)); cbn [bind] in E; [|discriminate]. injection E as <-. exact Logic.I.
  - destruct (mapM (rmap f) rs) as [qs|] eqn:M; cbn [bind] in E; [|discriminate]. injection E as <-. simpl.
    apply mapM_Forall2 in M. clear - M H P. induction M; simpl in *; auto. apply Forall_cons_iff in H as [H1 H]. destruct P. split; auto.
  - destruct (mapM (rmap f) rs) as [qs|] eqn:M; cbn [bind] in E; [|discriminate]. injection E as <-. simpl.
    apply mapM_Forall2 in M. clear - M H P. induction M; simpl in *; auto. apply Forall_cons_iff in H as [H1 H]. destruct P. split; auto.
  - destruct (mapM (rmap f) rs) as [qs|] eqn:M; cbn [bind] in E; [|discriminate]. injection E as <-. simpl.
    apply mapM_Forall2 in M. destruct P as [NE P]. split; [destruct M; congruence|].
    clear - M H P. induction M; simpl in *; auto. apply Forall_cons_iff in H as [H1 H]. destruct P. split; auto.
Qed.

Lemma denote_within : forall (D : point -> Prop) r y, leaves (fun p => forall y, member (body p) y -> D y) r ->
  positive r -> denote r y -> D y.
Proof.
  intros D r y. induction r as [p|r IH|r IH|rs IH|rs IH|rs IH] using region_tree_ind; simpl; intros H P X; try tauto; auto.
  - rewrite anyP_iff in X. rewrite allP_iff in H, P. rewrite Forall_forall in IH. destruct X as (a & Ha & X). eapply IH; eauto.
  - rewrite anyP_iff in X. rewrite allP_iff in H, P. rewrite Forall_forall in IH. destruct X as (a & Ha & X). eapply IH; eauto.
  - destruct P as [NE P]. destruct rs as [|a rs]; [congruence|]. simpl in *. apply Forall_cons_iff in IH as [IH _]. tauto.
Qed.

Lemma lift_var_of : forall var d k, Permutation (lift_dims var) (seq 0 d) -> (k < d)%nat -> exists i, nth_error var i = Some (Dim k).
Proof.
  intros var d k P H. assert (I : In k (lift_dims var)).
  { apply (Permutation_in k (Permutation_sym P)). apply in_seq. lia. }
  unfold lift_dims in I. apply in_flat_map in I as (v & Hv & I). destruct v; simpl in I; [|tauto].
  destruct I as [<-|[]]. now apply In_nth_error in Hv.
Qed.

Lemma rlift_ok : forall var d r,
  leaves (fun p => good (body p) /\ has_dim d p /\
    (matrix_as_list (pmat (body p)) false <> [] \/ exists lo up, In (Box lo up) var)) r ->
  positive r -> Permutation (lift_dims var) (seq 0 d) ->
  exists q, rlift var r = Ret q /\
    forall y, denote q y <-> length y = length var /\ in_box var y /\ exists x, length x = d /\ lifts var x y /\ denote r x.
Proof.
  intros var d r HL PR P. rewrite (rlift_rmap var r PR).
  destruct (rmap_ok (fun p => lift p var)
    (fun p => good (body p) /\ has_dim d p /\
    (matrix_as_list (pmat (body p)) false <> [] \/ exists lo up, In (Box lo up) var))
    (fun p => forall y, member (body p) y -> length y = length var /\ in_box var y)
    (fun y => length y = length var /\ in_box var y) (fun y x => length x = d /\ lifts var x y)) with (r := r)
    as (q & Eq & Lq & Hq); auto.
  - intros p (G & HD & NE). unfold has_dim in HD.
    destruct (lift_ok (body p) var G) as (q & Eq & _ & _ & Hq); [now replace (ncol (pmat (body p)) - 1)%nat with d by lia|exact NE|].
    exists q. split; [exact Eq|]. split.
    + intros y My. cbn [body plain] in My. apply Hq in My. tauto.
    + intros y [L1 L2]. rewrite Hq. split.
      * intros (_ & _ & z & Mz & Lz). exists z. split; [|exact Mz]. split; [destruct Mz; lia|exact Lz].
      * intros (x & [_ Lx] & Mx). split; [auto|]. split; [auto|]. exists x. auto.
  - intros y _. exists (pull var d y). split; [unfold pull; now rewrite map_length, seq_length|]. now apply pull_lifts.
  - intros y x x' _ [L1 A1] [L2 A2]. split; [lia|]. intro k.
    destruct (Nat.lt_ge_cases k d) as [H|H].
    + destruct (lift_var_of var d k P H) as (i & Hi). rewrite (A1 i k Hi), (A2 i k Hi). reflexivity.
    + rewrite !nth_overflow by lia. reflexivity.
  - exists q. split; [exact Eq|]. intro y. split.
    + intro Dy. pose proof (denote_within (fun y => length y = length var /\ in_box var y) q y Lq (rmap_positive _ _ _ Eq PR) Dy) as [L1 L2].
      split; [auto|]. split; [auto|]. apply Hq in Dy as (x & [A B] & Dx); auto. exists x. auto.
    + intros (L1 & L2 & x & A & B & Dx). apply Hq; auto. exists x. auto.
Qed.

(** ** project *)

Section WithExt.
Variable E : ext.
Hypothesis OK : ext_ok E.

Lemma somes_In : forall {A} (l : list (option A)) a, In a (somes l) <-> In (Some a) l.
Proof.
  induction l as [|[b|] l IH]; simpl; intro a; [tauto| |].
  - rewrite IH. split; intros [H|H]; auto; [left; congruence|left; congruence].
  - rewrite IH. split; [auto|intros [H|H]; [discriminate|auto]].
Qed.

Lemma rproject_unions : forall dims d r, unions_only r ->
  leaves (fun p => good (body p) /\ bounded (body p) /\ has_dim d p) r ->
  exists q, rproject E dims r = Ret q /\
    match q with
    | None => forall x, ~ denote r x
    | Some q => (exists x, denote r x) /\
        forall y, denote q y <-> exists x, denote r x /\ Forall2 Qeq y (selected dims 0 x)
    end.
Proof.
  intros dims d r.
  assert (U : forall rs, Forall (fun r => unions_only r -> leaves (fun p => good (body p) /\ bounded (body p) /\ has_dim d p) r ->
     exists q, rproject E dims r = Ret q /\
      match q with
      | None => forall x, ~ denote r x
      | Some q => (exists x, denote r x) /\ forall y, denote q y <-> exists x, denote r x /\ Forall2 Qeq y (selected dims 0 x)
      end) rs -> allP unions_only rs -> allP (leaves (fun p => good (body p) /\ bounded (body p) /\ has_dim d p)) rs ->
     exists q, (let! qs := mapM (rproject E dims) rs in
       match somes qs with [] => Ret None | [q] => Ret (Some q) | qs => Ret (Some (RUnion qs)) end) = Ret q /\
     match q with
      | None => forall x, ~ anyP (fun c => denote c x) rs
      | Some q => (exists x, anyP (fun c => denote c x) rs) /\
        forall y, denote q y <-> exists x, anyP (fun c => denote c x) rs /\ Forall2 Qeq y (selected dims 0 x)
     end).
  { intros rs IH UO LV.
    assert (F : Forall (fun r => exists q, rproject E dims r = Ret q /\
      match q with
      | None => forall x, ~ denote r x
      | Some q => (exists x, denote r x) /\ forall y, denote q y <-> exists x, denote r x /\ Forall2 Qeq y (selected dims 0 x)
      end) rs).
    { rewrite allP_iff in UO, LV. rewrite Forall_forall in *. intros a Ha. apply IH; auto. }
    apply mapM_list_ok in F as (qs & Eqs & F). rewrite Eqs; cbn [bind].
    assert (A : forall y, (exists q, In q (somes qs) /\ denote q y) <-> exists x, anyP (fun c => denote c x) rs /\ Forall2 Qeq y (selected dims 0 x)).
    { intro y. clear - F. induction F as [|a [b|] l m H F IH]; simpl.
      - split; [intros (? & [] & _)|intros (? & [] & _)].
      - destruct H as [_ H]. split.
        + intros (q & [<-|Hq] & Dq).
          * apply H in Dq as (x & Dx & Sx). exists x. auto.
          * destruct (proj1 IH ltac:(eauto)) as (x & Dx & Sx). exists x. auto.
        + intros (x & [Dx|Dx] & Sx).
          * exists b. split; [now left|]. apply H. eauto.
          * destruct (proj2 IH ltac:(eauto)) as (q & Hq & Dq). exists q. auto.
      - rewrite IH. split; intros (x & Dx & Sx).
        + exists x. auto.
        + destruct Dx as [Dx|Dx]; [now apply H in Dx|]. exists x. auto. }
    assert (NE : somes qs <> [] -> exists x, anyP (fun c => denote c x) rs).
    { clear - F. intro N. induction F as [|a [b|] l m H F IH]; simpl in *; [congruence| |].
      - destruct H as [(x & Dx) _]. exists x. auto.
      - destruct (IH N) as (x & Dx). exists x. auto. }
    destruct (somes qs) as [|q [|q' qs']] eqn:SQ.
    - exists None. split; [reflexivity|]. intros x Dx. clear - SQ F Dx. induction F as [|a [b|] l m H F IH]; simpl in *; [tauto|discriminate|].
      destruct Dx as [Dx|Dx]; [exact (H x Dx)|auto].
    - exists (Some q). split; [reflexivity|]. split; [apply NE; discriminate|]. intro y. rewrite <- A. split.
      + intro D. exists q. split; [now left|auto].
      + intros (q0 & [<-|[]] & D). auto.
    - exists (Some (RUnion (q :: q' :: qs'))). split; [reflexivity|]. split; [apply NE; discriminate|]. intro y. rewrite <- A.
      cbn [denote]. rewrite anyP_iff. reflexivity. }
  induction r as [p|r IH|r IH|rs IH|rs IH|rs IH] using region_tree_ind; cbn [unions_only leaves]; intros UO LV; try tauto.
  - destruct LV as (G & B & _). destruct (project_ok E OK (body p) dims G B) as (r & Er & H).
    cbn [rproject]. rewrite Er; cbn [bind]. eexists. split; [reflexivity|]. destruct r as [q|].
    + destruct H as (Gq & NE & Hq). split; [exact NE|]. intro y. cbn [denote body plain]. rewrite Hq.
      split; intros (x & Mx & H); exists x; (split; [auto|]).
      * apply peq_Forall2; tauto.
      * pose proof (Forall2_len _ _ _ H). split; [auto|]. now apply peq_Forall2.
    + intros x Dx. apply H. now exists x.
  - apply U; auto.
  - apply U; auto.
Qed.

(** Projections of intersections are over-approximations. *)
Lemma rproject_sound : forall dims d r q, positive r ->
  leaves (fun p => good (body p) /\ bounded (body p) /\ has_dim d p) r ->
  rproject E dims r = Ret q ->
  match q with
  | None => forall x, ~ denote r x
  | Some q => forall x, denote r x -> forall y, Forall2 Qeq y (selected dims 0 x) -> denote q y
  end.
Proof.
  intros dims d r.
  assert (U : forall rs, Forall (fun r => forall q, positive r -> leaves (fun p => good (body p) /\ bounded (body p) /\ has_dim d p) r ->
     rproject E dims r = Ret q ->
      match q with
      | None => forall x, ~ denote r x
      | Some q => forall x, denote r x -> forall y, Forall2 Qeq y (selected dims 0 x) -> denote q y
      end) rs -> allP positive rs -> allP (leaves (fun p => good (body p) /\ bounded (body p) /\ has_dim d p)) rs ->
     forall qs, mapM (rproject E dims) rs = Ret qs ->
     Forall2 (fun r q => match q with
      | None => forall x, ~ denote r x
      | Some q => forall x, denote r x -> forall y, Forall2 Qeq y (selected dims 0 x) -> denote q y
      end) rs qs).
  { intros rs IH PO LV qs M. apply mapM_Forall2 in M. induction M; constructor.
    - apply Forall_cons_iff in IH as [IH _]. destruct PO, LV. apply IH; auto.
    - apply Forall_cons_iff in IH as [_ IH]. destruct PO, LV. auto. }
  assert (UU : forall rs qs q, Forall2 (fun r q => match q with
      | None => forall x, ~ denote r x
      | Some q => forall x, denote r x -> forall y, Forall2 Qeq y (selected dims 0 x) -> denote q y
      end) rs qs ->
      match somes qs with [] => Ret None | [q] => Ret (Some q) | qs => Ret (Some (RUnion qs)) end = Ret q ->
      match q with
      | None => forall x, ~ anyP (fun c => denote c x) rs
      | Some q => forall x, anyP (fun c => denote c x) rs -> forall y, Forall2 Qeq y (selected dims 0 x) -> denote q y
      end).
  { intros rs qs q F E1.
    assert (A : forall x, anyP (fun c => denote c x) rs -> forall y, Forall2 Qeq y (selected dims 0 x) -> exists q, In q (somes qs) /\ denote q y).
    { intros x Dx y Sy. clear - F Dx Sy. induction F as [|a [b|] l m H F IH]; simpl in *; [tauto| |].
      - destruct Dx as [Dx|Dx]; [exists b; split; [now left|eauto]|]. destruct (IH Dx) as (q & Hq & Dq). eauto.
      - destruct Dx as [Dx|Dx]; [now apply H in Dx|]. auto. }
    destruct (somes qs) as [|q0 [|q1 qs']].
    - injection E1 as <-. intros x Dx. destruct (A x Dx (selected dims 0 x)) as (? & [] & _).
      clear. induction (selected dims 0 x); constructor; auto. reflexivity.
    - injection E1 as <-. intros x Dx y Sy. destruct (A x Dx y Sy) as (? & [<-|[]] & D). auto.
    - injection E1 as <-. intros x Dx y Sy. destruct (A x Dx y Sy) as (q2 & H2 & D). cbn [denote]. rewrite anyP_iff. eauto. }
  induction r as [p|r IH|r IH|rs IH|rs IH|rs IH] using region_tree_ind; cbn [positive leaves]; intros q PO LV Eq; try tauto.
  - destruct LV as (G & B & _). destruct (project_ok E OK (body p) dims G B) as (r & Er & H).
    cbn [rproject] in Eq. rewrite Er in Eq; cbn [bind] in Eq. injection Eq as <-. destruct r as [q|].
    + destruct H as (Gq & NE & Hq). intros x Dx y Sy. cbn [denote body plain]. apply Hq. exists x. split; [exact Dx|].
      pose proof (Forall2_len _ _ _ Sy). split; [auto|]. now apply peq_Forall2.
    + intros x Dx. apply H. now exists x.
  - cbn [rproject] in Eq. destruct (mapM (rproject E dims) rs) as [qs|] eqn:M; cbn [bind] in Eq; [|discriminate].
    exact (UU rs qs q (U rs IH PO LV qs M) Eq).
  - cbn [rproject] in Eq. destruct (mapM (rproject E dims) rs) as [qs|] eqn:M; cbn [bind] in Eq; [|discriminate].
    exact (UU rs qs q (U rs IH PO LV qs M) Eq).
  - destruct PO as [NE PO]. cbn [rproject] in Eq. destruct (mapM (rproject E dims) rs) as [qs|] eqn:M; cbn [bind] in Eq; [|discriminate].
    pose proof (U rs IH PO LV qs M) as F.
    assert (A : forall x, allP (fun c => denote c x) rs -> forall y, Forall2 Qeq y (selected dims 0 x) -> allP (fun q => denote q y) (somes qs)).
    { intros x Dx y Sy. clear - F Dx Sy. induction F as [|a [b|] l m H F IH]; simpl in *; auto.
      - destruct Dx as [D1 Dx]. split; [eauto|auto].
      - destruct Dx as [D1 Dx]. auto. }
    destruct (somes qs) as [|q0 [|q1 qs']] eqn:SQ.
    + injection Eq as <-. intros x Dx. cbn [denote] in Dx. destruct F as [|a b l m H F]; [congruence|].
      destruct b as [b|]; [discriminate|]. destruct Dx as [D1 _]. exact (H x D1).
    + discriminate.
    + injection Eq as <-. intros x Dx y Sy. exact (A x Dx y Sy).
Qed.

(** ** from_union_of_halfplanes *)

Lemma halfplane_polys_ok : forall n box, (1 <= n)%nat -> Forall (fun r => length r = n) box ->
  (exists r, In r box /\ ~ zero_row r) ->
  forall hps neg, Forall (fun r => length r = n /\ ~ zero_row r) hps ->
  Forall (fun r => length r = n) neg ->
  exists ps, halfplane_polys E box neg hps = Ret (map (fun p => RPoly (plain p)) ps) /\
    Forall (fun p => good p /\ ncol (pmat p) = n) ps /\
    (forall x, in_union ps x <-> S (length x) = n /\ Forall (fun r => 0 <= rowval r x) box /\
       Forall (fun r => 0 <= rowval r x) neg /\ Exists (fun h => 0 <= rowval h x) hps) /\
    Forall (fun p => forall x, member p x -> Forall (fun r => 0 <= rowval r x) neg) ps /\
    ForallOrdPairs (fun p q => forall x, ~ (interior p x /\ interior q x)) ps.
Proof.
  intros n box N LB NZ. induction hps as [|h hps IH]; intros neg FH FN.
  - exists []. split; [reflexivity|]. split; [constructor|]. split; [|split; constructor].
    intro x. split; [intros (q & [] & _)|intros (_ & _ & _ & X); inversion X].
  - apply Forall_cons_iff in FH as [[Lh Zh] FH].
    assert (LV : length (vopp h) = n) by (rewrite vopp_length; auto).
    destruct (Polytope_ok E OK (box ++ [h] ++ neg) false true n) as (p & Ep & Gp & Np & _ & Mp); auto.
    { rewrite !Forall_app. split; [auto|]. split; [repeat constructor; auto|auto]. }
    { destruct NZ as (r & Hr & Zr). exists r. split; [apply in_or_app; auto|auto]. }
    destruct (IH (neg ++ [vopp h]) FH) as (ps & Eps & F1 & F2 & F3 & F4).
    { rewrite Forall_app. split; [auto|repeat constructor; auto]. }
    exists (p :: ps). cbn [halfplane_polys map]. rewrite Ep; cbn [bind]. rewrite Eps; cbn [bind].
    split; [reflexivity|]. split; [constructor; auto|].
    assert (MP : forall x, member p x <-> S (length x) = n /\ Forall (fun r => 0 <= rowval r x) box /\ 0 <= rowval h x /\ Forall (fun r => 0 <= rowval r x) neg).
    { intro x. rewrite Mp. unfold holds; cbn [fst snd]. rewrite !Forall_app, Forall_cons_iff. intuition. }
    split; [|split].
    + intro x. unfold in_union in *. split.
      * intros (q & [<-|Hq] & Mq).
        -- apply MP in Mq as (A & B & C & D). split; [auto|]. split; [auto|]. split; [auto|]. now constructor.
        -- destruct (proj1 (F2 x) ltac:(eauto)) as (A & B & C & D). rewrite Forall_app in C. destruct C as [C _].
           split; [auto|]. split; [auto|]. split; [auto|]. now constructor 2.
      * intros (A & B & C & D). destruct (Qlt_le_dec (rowval h x) 0) as [LT|GE].
        -- inversion D; subst; [lra|]. destruct (proj2 (F2 x)) as (q & Hq & Mq).
           { split; [auto|]. split; [auto|]. split; [|auto]. rewrite Forall_app. split; [auto|].
             repeat constructor. rewrite rowval_vopp. lra. }
           exists q. split; [now right|auto].
        -- exists p. split; [now left|]. apply MP. auto.
    + constructor; [intros x Mx; apply MP in Mx; tauto|].
      eapply Forall_impl; [|exact F3]. cbv beta. intros q H x Mx. specialize (H x Mx). rewrite Forall_app in H. tauto.
    + constructor; [|exact F4]. rewrite Forall_forall in F3. apply Forall_forall. intros q Hq x [Ip Iq].
      (* a neighbourhood on which [h] vanishes *)
      destruct Ip as [Px (e1 & E1 & N1)]. destruct Iq as [Qx (e2 & E2 & N2)].
      assert (ME : exists e, 0 < e /\ e <= e1 /\ e <= e2).
      { destruct (Qlt_le_dec e1 e2) as [H|H]; [exists e1|exists e2]; split; try split; lra. }
      destruct ME as (e & EP & M1 & M2).
      assert (Z : forall y, near e x y -> rowval h y == 0).
      { intros y [Ly Hy].
        assert (A : member p y) by (apply N1; split; [auto|intro i; specialize (Hy i); lra]).
        assert (B : member q y) by (apply N2; split; [auto|intro i; specialize (Hy i); lra]).
        apply MP in A as (_ & _ & A & _). apply (F3 q Hq) in B. rewrite Forall_app in B. destruct B as [_ B].
        inversion B as [|? ? B1 _]; subst. rewrite rowval_vopp in B1. lra. }
      assert (NX : near e x x).
      { split; [auto|]. intro i. setoid_replace (nth i x 0 - nth i x 0) with 0 by ring. change (Qabs 0) with 0. lra. }
      pose proof (Z x NX) as Z0.
      destruct (row_cases h Zh) as [[N0 C0]|(k & Hk & Nk)].
      * apply N0. rewrite <- (C0 x). exact Z0.
      * apply MP in Px as (Lx & _).
        assert (NY : near e x (nudge x k e)).
        { apply nudge_near; [lia|]. rewrite Qabs_pos; lra. }
        specialize (Z _ NY). rewrite rowval_nudge in Z. assert (Z1 : e * nth k (tl h) 0 == 0) by lra.
        apply Nk. apply (Qmult_inj_l _ _ e); lra.
Qed.

End WithExt.
