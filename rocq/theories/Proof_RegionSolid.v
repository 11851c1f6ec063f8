(** Scaling, lifting and projecting keep polytopes usable: bounded and not flat. *)
From Coq Require Import Permutation.
From Verif Require Import Base LinAlg FM Hull Model_Polytope Spec_Polytope Model_Region Spec_Region.
From Verif Require Import Proof_Polytope Proof_PolytopeMaps Proof_PolytopeLP Proof_PolytopeSets Proof_PolytopeUnion Proof_Region.

Lemma solid_rows : forall d p, (1 <= d)%nat -> solid d p -> mrows (pmat (body p)) <> [].
Proof.
  intros d p D (G & (B & HB) & N & _) C. set (x := (Qabs B + 1) :: repeat 0 (d - 1)).
  assert (M : member (body p) x).
  { split; [unfold x; simpl; rewrite repeat_length; lia|]. rewrite C. constructor. }
  specialize (HB x 0%nat M). unfold x in HB. cbn [nth] in HB.
  rewrite Qabs_pos in HB by (pose proof (Qabs_nonneg B); lra). pose proof (Qle_Qabs B). lra.
Qed.

Lemma leaves_mono : forall (P Q : lpoly -> Prop) r, (forall p, P p -> Q p) -> leaves P r -> leaves Q r.
Proof.
  intros P Q r H. induction r as [p|r IH|r IH|rs IH|rs IH|rs IH] using region_tree_ind; cbn [leaves]; auto;
    rewrite !allP_iff; rewrite Forall_forall in IH; auto.
Qed.

Lemma solid_sized : forall d r, (1 <= d)%nat -> leaves (solid d) r ->
  leaves (fun p => good (body p) /\ mrows (pmat (body p)) <> [] /\ has_dim d p) r.
Proof.
  intros d r D. apply leaves_mono. intros p S. split; [apply S|]. split; [now apply (solid_rows d)|]. destruct S as (_ & _ & N & _). exact N.
Qed.

(** ** Scaling *)

Lemma nth_stretch_all : forall fs x i, length fs = length x -> nth i (stretch_all fs x) 0 == nth i fs 0 * nth i x 0.
Proof.
  induction fs as [|f fs IH]; intros [|a x] i L; try discriminate; [destruct i; cbn; ring|].
  destruct i as [|i]; cbn [stretch_all nth]; [reflexivity|]. apply IH. simpl in L. lia.
Qed.

Lemma smallest : forall fs, Forall (fun f => ~ f == 0) fs -> exists m, 0 < m /\ forall i, (i < length fs)%nat -> m <= Qabs (nth i fs 0).
Proof.
  induction fs as [|f fs IH]; intro F; [exists 1; split; [lra|]; simpl; lia|].
  apply Forall_cons_iff in F as [N F]. destruct (IH F) as (m & M & H). destruct (qmin_le m (Qabs f)) as [L1 L2].
  assert (P : 0 < Qabs f).
  { pose proof (Qabs_nonneg f). destruct (Qeq_dec (Qabs f) 0) as [Z|Z]; [|lra]. exfalso. apply N.
    pose proof (Qle_Qabs f). pose proof (Qle_Qabs (- f)) as K. rewrite Qabs_opp in K. lra. }
  exists (qmin m (Qabs f)). split; [unfold qmin; destruct (Qltb (Qabs f) m); lra|]. intros [|i] I; cbn [nth]; [lra|].
  specialize (H i ltac:(simpl in I; lia)). lra.
Qed.

Lemma largest : forall fs : list Q, exists m, 0 <= m /\ forall i, Qabs (nth i fs 0) <= m.
Proof.
  induction fs as [|f fs (m & M & H)]; [exists 0; split; [lra|]; intros [|i]; cbn; change (Qabs 0) with 0; lra|].
  destruct (qmax_ge m (Qabs f)) as [L1 L2]. exists (qmax m (Qabs f)). split; [lra|]. intros [|i]; cbn [nth]; [lra|]. specialize (H i). lra.
Qed.

Lemma scale_solid : forall d p fs, (1 <= d)%nat -> solid d p -> length fs = d -> Forall (fun f => ~ f == 0) fs ->
  exists q, scale_all (body p) fs = Ret q /\ solid d (plain q) /\
    forall y, member q y <-> exists x, member (body p) x /\ Forall2 Qeq y (stretch_all fs x).
Proof.
  intros d p fs D S Lf NZ. pose proof S as (G & (B & HB) & N & I).
  destruct (scale_all_ok (body p) fs G ltac:(lia) NZ (solid_rows d p D S)) as (q & Eq & Gq & Nq & Mq).
  exists q. split; [exact Eq|]. split; [|exact Mq].
  assert (LEN : forall x, member (body p) x -> length x = d) by (intros x [L _]; lia).
  split; [exact Gq|]. cbn [body plain]. split; [|split; [lia|]].
  - destruct (largest fs) as (m & M & HM). exists (m * Qabs B). intros y i My. apply Mq in My as (x & Mx & Q).
    apply peq_Forall2 in Q; [|now apply Forall2_len in Q]. specialize (Q i). rewrite Q, nth_stretch_all by (rewrite (LEN x Mx); lia).
    rewrite Qabs_Qmult. specialize (HB x i Mx). specialize (HM i). pose proof (Qle_Qabs B). pose proof (Qabs_nonneg (nth i fs 0)). pose proof (Qabs_nonneg (nth i x 0)).
    apply Qle_trans with (m * Qabs (nth i x 0)); [apply Qmult_le_compat_r; lra|]. rewrite (Qmult_comm m), (Qmult_comm m). apply Qmult_le_compat_r; lra.
  - intros (y0 & My0). apply Mq in My0 as (x0 & Mx0 & _). destruct I as (x & Mx & (e & He & Hn)); [eauto|].
    destruct (smallest fs NZ) as (m & M & HM). pose proof (LEN x Mx) as Lx.
    exists (stretch_all fs x). split.
    { apply Mq. exists x. split; [exact Mx|]. apply peq_Forall2; [reflexivity|]. intro i. reflexivity. }
    exists (e * m). split; [apply Qmult_lt_0_compat; lra|]. intros y [Ly Hy]. rewrite stretch_all_length in Ly by lia.
    apply Mq. exists (stretch_all (map Qinv fs) y). split.
    + apply Hn. split; [rewrite stretch_all_length; [lia|rewrite map_length; lia]|]. intro i.
      rewrite nth_stretch_all by (rewrite map_length; lia).
      destruct (Nat.lt_ge_cases i d) as [Li|Li].
      * rewrite (nth_indep _ 0 (/ 0)) by (rewrite map_length; lia). rewrite map_nth.
        assert (NF : ~ nth i fs 0 == 0) by (rewrite Forall_forall in NZ; apply NZ, nth_In; lia).
        specialize (Hy i). rewrite nth_stretch_all in Hy by lia. specialize (HM i ltac:(lia)).
        assert (X : / nth i fs 0 * nth i y 0 - nth i x 0 == / nth i fs 0 * (nth i y 0 - nth i fs 0 * nth i x 0)) by (field; auto).
        rewrite X, Qabs_Qmult.
        assert (Y : Qabs (/ nth i fs 0) * Qabs (nth i fs 0) == 1) by (rewrite <- Qabs_Qmult; setoid_replace (/ nth i fs 0 * nth i fs 0) with 1 by (field; auto); reflexivity).
        pose proof (Qabs_nonneg (/ nth i fs 0)) as P1.
        apply Qle_trans with (Qabs (/ nth i fs 0) * (e * m)); [rewrite (Qmult_comm (Qabs _)), (Qmult_comm (Qabs (/ _))); apply Qmult_le_compat_r; lra|].
        assert (Z : Qabs (/ nth i fs 0) * m <= 1) by (rewrite <- Y; rewrite !(Qmult_comm (Qabs (/ _))); apply Qmult_le_compat_r; lra). nra.
      * rewrite (nth_overflow y) by lia. rewrite (nth_overflow x) by lia. rewrite Qmult_0_r. change (Qabs (0 - 0)) with 0. lra.
    + apply stretch_all_inverse; auto. lia.
Qed.

Lemma rscale_solid : forall d fs r, (1 <= d)%nat -> length fs = d -> leaves (solid d) r -> Forall (fun f => ~ f == 0) fs ->
  exists q, rscale_all fs r = Ret q /\ leaves (solid d) q /\
    forall y, length y = d -> (denote q y <-> exists x, (length x = d /\ Forall2 Qeq y (stretch_all fs x)) /\ denote r x).
Proof.
  intros d fs r D Lf HL NZ. rewrite rscale_all_rmap.
  destruct (rmap_ok (fun p => scale_all p fs) (solid d) (solid d)
    (fun y => length y = d) (fun y x => length x = d /\ Forall2 Qeq y (stretch_all fs x))) with (r := r)
    as (q & Eq & Lq & Hq); auto.
  - intros p S. destruct (scale_solid d p fs D S Lf NZ) as (q & Eq & Sq & Mq). exists q. split; [exact Eq|]. split; [exact Sq|].
    intros y _. rewrite Mq. destruct S as (_ & _ & N & _). split.
    + intros (x & Mx & A). exists x. split; [|exact Mx]. split; [destruct Mx; lia|auto].
    + intros (x & (_ & A) & Mx). exists x. auto.
  - intros y Ly. exists (stretch_all (map Qinv fs) y). split; [rewrite stretch_all_length; [lia|rewrite map_length; lia]|].
    apply stretch_all_inverse; auto. lia.
  - intros y x x' _ (L1 & B1) (L2 & B2). split; [lia|]. apply (stretch_all_unique fs); auto; [lia|lia|].
    exact (Forall2_Qeq_common _ _ _ B1 B2).
  - exists q. auto.
Qed.

(** ** Lifting *)

Definition wide (var : list lift_var) : Prop := forall lo up, In (Box lo up) var -> lo < up.

Lemma box_half : forall var, wide var -> exists w, 0 < w /\ forall lo up, In (Box lo up) var -> w <= (up - lo) * (1#2).
Proof.
  induction var as [|[k|lo up] var IH]; intro W.
  - exists 1. split; [lra|]. intros lo up [].
  - destruct IH as (w & P & H); [intros lo up I; apply W; now right|]. exists w. split; [exact P|].
    intros lo up [C|I]; [discriminate|auto].
  - destruct IH as (w & P & H); [intros lo' up' I; apply W; now right|]. pose proof (W lo up ltac:(now left)) as Q.
    destruct (qmin_le w ((up - lo) * (1#2))) as [L1 L2]. exists (qmin w ((up - lo) * (1#2))).
    split; [unfold qmin; destruct (Qltb _ w); lra|]. intros lo' up' [C|I]; [injection C as <- <-; lra|]. specialize (H lo' up' I). lra.
Qed.

Lemma box_bound : forall var, exists K, 0 <= K /\ forall lo up, In (Box lo up) var -> Qabs lo <= K /\ Qabs up <= K.
Proof.
  induction var as [|[k|lo up] var (K & P & H)].
  - exists 0. split; [lra|]. intros lo up [].
  - exists K. split; [exact P|]. intros lo up [C|I]; [discriminate|auto].
  - exists (K + Qabs lo + Qabs up). pose proof (Qabs_nonneg lo). pose proof (Qabs_nonneg up). split; [lra|].
    intros lo' up' [C|I]; [injection C as <- <-; lra|]. specialize (H lo' up' I). lra.
Qed.

Lemma lift_solid : forall d p var, (1 <= d)%nat -> solid d p -> Permutation (lift_dims var) (seq 0 d) -> wide var ->
  (exists lo up, In (Box lo up) var) ->
  exists q, lift (body p) var = Ret q /\ solid (length var) (plain q) /\
    forall y, member q y <-> length y = length var /\ in_box var y /\ exists z, member (body p) z /\ lifts var z y.
Proof.
  intros d p var D S P WD BX. pose proof S as (G & (B & HB) & N & I).
  destruct (lift_ok (body p) var G) as (q & Eq & Gq & Nq & Mq); [now replace (ncol (pmat (body p)) - 1)%nat with d by lia|now right|].
  exists q. split; [exact Eq|]. split; [|exact Mq].
  split; [exact Gq|]. cbn [body plain]. split; [|split; [exact Nq|]].
  - destruct (box_bound var) as (K & PK & HK). exists (Qabs B + K). intros y i My. apply Mq in My as (Ly & IB & z & Mz & Lz).
    pose proof (Qle_Qabs B). pose proof (Qabs_nonneg B).
    destruct (nth_error var i) as [[k|lo up]|] eqn:V.
    + rewrite <- (Lz i k V). specialize (HB z k Mz). lra.
    + destruct (IB i lo up V) as [A1 A2]. destruct (HK lo up (nth_error_In _ _ V)) as [K1 K2].
      apply Qabs_Qle_condition. pose proof (Qle_Qabs up). pose proof (Qle_Qabs (- lo)) as Q. rewrite Qabs_opp in Q. lra.
    + apply nth_error_None in V. rewrite nth_overflow by lia. change (Qabs 0) with 0. lra.
  - intros (y0 & My0). apply Mq in My0 as (_ & _ & z0 & Mz0 & _). destruct I as (x & Mx & (e & He & Hn)); [eauto|].
    assert (Lx : length x = d) by (destruct Mx; lia).
    destruct (box_half var WD) as (w & PW & HW). destruct (qmin_le e w) as [L1 L2].
    assert (PM : 0 < qmin e w) by (unfold qmin; destruct (Qltb w e); lra).
    set (y1 := map (fun v => match v with Dim k => nth k x 0 | Box lo up => (lo + up) * (1#2) end) var).
    assert (Y1 : forall i v, nth_error var i = Some v -> nth i y1 0 = match v with Dim k => nth k x 0 | Box lo up => (lo + up) * (1#2) end).
    { intros i v V. apply nth_error_nth. unfold y1. rewrite nth_error_map, V. reflexivity. }
    assert (MM : forall y, near (qmin e w) y1 y -> member q y).
    { intros y [Ly Hy]. unfold y1 in Ly. rewrite map_length in Ly. apply Mq. split; [exact Ly|]. split.
      - intros i lo up V. specialize (Hy i). rewrite (Y1 _ _ V) in Hy. apply Qabs_Qle_condition in Hy.
        specialize (HW lo up (nth_error_In _ _ V)). lra.
      - exists (pull var d y). split; [|now apply pull_lifts]. apply Hn.
        assert (Lp : length (pull var d y) = d) by (unfold pull; now rewrite map_length, seq_length).
        split; [lia|]. intro k. destruct (Nat.lt_ge_cases k d) as [Hk|Hk].
        + destruct (lift_var_of var d k P Hk) as (i & V). rewrite (pull_lifts var d y P i k V).
          specialize (Hy i). rewrite (Y1 _ _ V) in Hy. lra.
        + rewrite !nth_overflow by lia. change (Qabs (0 - 0)) with 0. lra. }
    assert (NR : near (qmin e w) y1 y1).
    { split; [reflexivity|]. intro i. setoid_replace (nth i y1 0 - nth i y1 0) with 0 by ring. change (Qabs 0) with 0. lra. }
    exists y1. split; [now apply MM|]. exists (qmin e w). split; [exact PM|exact MM].
Qed.

Lemma rlift_solid : forall d var r, (1 <= d)%nat -> leaves (solid d) r -> positive r -> Permutation (lift_dims var) (seq 0 d) ->
  wide var -> (exists lo up, In (Box lo up) var) ->
  exists q, rlift var r = Ret q /\ leaves (solid (length var)) q /\ positive q /\
    forall y, denote q y <-> length y = length var /\ in_box var y /\ exists x, length x = d /\ lifts var x y /\ denote r x.
Proof.
  intros d var r D HL PR P WD BX.
  destruct (rlift_ok var d r) as (q & Eq & Hq); auto.
  { revert HL. apply leaves_mono. intros p (G & _ & N & _). split; [exact G|]. split; [exact N|now right]. }
  exists q. split; [exact Eq|]. rewrite (rlift_rmap var r PR) in Eq. split; [|split; [exact (rmap_positive _ _ _ Eq PR)|exact Hq]].
  destruct (rmap_ok (fun p => lift p var) (solid d) (solid (length var))
    (fun y => False) (fun y x => True)) with (r := r) as (q' & Eq' & Lq' & _); auto.
  - intros p S. destruct (lift_solid d p var D S P WD BX) as (q' & E' & S' & _). exists q'. split; [exact E'|]. split; [exact S'|tauto].
  - tauto.
  - tauto.
  - rewrite Eq in Eq'. injection Eq' as <-. exact Lq'.
Qed.

Lemma rmap_disjoint_form : forall f r q, rmap f r = Ret q -> disjoint_form r -> disjoint_form q.
Proof.
  intros f r. induction r using region_tree_ind; simpl; intros q E P; try tauto.
  - destruct (f (body p)); cbn [bind] in E; [|discriminate]. injection E as <-. exact Logic.I.
  - destruct (mapM (rmap f) rs) as [qs|] eqn:M; cbn [bind] in E; [|discriminate]. injection E as <-. simpl.
    apply mapM_Forall2 in M. clear - M H P. induction M; simpl in *; auto. apply Forall_cons_iff in H as [H1 H]. destruct P. split; auto.
  - destruct (mapM (rmap f) rs) as [qs|] eqn:M; cbn [bind] in E; [|discriminate]. injection E as <-. simpl.
    apply mapM_Forall2 in M. destruct P as [NE P]. split; [destruct M; congruence|].
    clear - M H P. induction M; simpl in *; auto. apply Forall_cons_iff in H as [H1 H]. destruct P. split; auto.
Qed.

Lemma disjoint_form_positive : forall r, disjoint_form r -> positive r.
Proof.
  intro r. induction r using region_tree_ind; simpl; try tauto.
  - rewrite !allP_iff. rewrite Forall_forall in H. auto.
  - rewrite !allP_iff. rewrite Forall_forall in H. intros [A B]. split; auto.
Qed.

(** ** Projecting *)

Lemma selected_length : forall keys i x x', length x = length x' -> length (selected keys i x) = length (selected keys i x').
Proof.
  intros keys i x. revert i. induction x as [|a x IH]; intros i [|b x'] L; try discriminate; [reflexivity|]. simpl in L. cbn [selected].
  destruct (in_dec Nat.eq_dec i keys); cbn [length]; rewrite (IH (S i) x') by lia; reflexivity.
Qed.

(** [x] with its selected coordinates replaced by [y]. *)
Fixpoint put (keys : list nat) (i : nat) (x y : point) : point :=
  match x with
  | [] => []
  | a :: x' => if in_dec Nat.eq_dec i keys then hd 0 y :: put keys (S i) x' (tl y) else a :: put keys (S i) x' y
  end.

Lemma put_ok : forall keys x i y e, length y = length (selected keys i x) -> 0 <= e ->
  (forall k, Qabs (nth k y 0 - nth k (selected keys i x) 0) <= e) ->
  selected keys i (put keys i x y) = y /\ near e x (put keys i x y).
Proof.
  intros keys. induction x as [|a x IH]; intros i y e L He H.
  - cbn in *. destruct y; [|discriminate]. split; [reflexivity|]. split; [reflexivity|]. intros k. destruct k; cbn; change (Qabs (0 - 0)) with 0; lra.
  - cbn [selected put] in *. destruct (in_dec Nat.eq_dec i keys) as [I|I].
    + destruct y as [|b y]; [discriminate|]. cbn [length hd tl] in *.
      destruct (IH (S i) y e ltac:(lia) He) as (A & B & C); [intro k; exact (H (S k))|]. cbn [selected]. destruct (in_dec Nat.eq_dec i keys); [|contradiction].
      split; [now rewrite A|]. split; [cbn [length]; lia|]. intros [|k]; cbn [nth]; [exact (H 0%nat)|apply C].
    + destruct (IH (S i) y e L He H) as (A & B & C). cbn [selected]. destruct (in_dec Nat.eq_dec i keys); [contradiction|].
      split; [exact A|]. split; [cbn [length]; lia|]. intros [|k]; cbn [nth]; [|apply C].
      setoid_replace (a - a) with 0 by ring. change (Qabs 0) with 0. lra.
Qed.

Lemma selected_from : forall keys x i k, exists j, nth k (selected keys i x) 0 = nth j x 0.
Proof.
  intros keys. induction x as [|a x IH]; intros i k; cbn [selected]; [exists 0%nat; destruct k; reflexivity|].
  destruct (in_dec Nat.eq_dec i keys).
  - destruct k as [|k]; [exists 0%nat; reflexivity|]. destruct (IH (S i) k) as (j & E). exists (S j). exact E.
  - destruct (IH (S i) k) as (j & E). exists (S j). exact E.
Qed.

Section WithExt.
Variable E : ext.
Hypothesis OK : ext_ok E.

Lemma project_solid : forall d p dims q, solid d p -> project E (body p) dims = Ret (Some q) ->
  solid (length (selected dims 0 (repeat 0 d))) (plain q).
Proof.
  intros d p dims q (G & B & N & I) H. destruct (project_ok E OK (body p) dims G B) as (r & Er & Hr). rewrite H in Er. injection Er as <-.
  destruct Hr as (Gq & (x0 & Mx0) & Mq).
  assert (LEN : forall x, member (body p) x -> length x = d) by (intros x [L _]; lia).
  assert (LS : forall x, member (body p) x -> length (selected dims 0 x) = length (selected dims 0 (repeat 0 d))).
  { intros x Mx. apply selected_length. rewrite repeat_length. auto. }
  split; [exact Gq|]. cbn [body plain]. split; [|split].
  - destruct B as (K & HK). exists K. intros y i My. apply Mq in My as (x & Mx & _ & P). rewrite (P i).
    destruct (selected_from dims x 0 i) as (j & ->). now apply HK.
  - assert (My : member q (selected dims 0 x0)) by (apply Mq; exists x0; split; [exact Mx0|]; split; [reflexivity|]; intro; reflexivity).
    destruct My as [L _]. rewrite (LS x0 Mx0) in L. unfold member, mmember in *. lia.
  - intros _. destruct I as (x & Mx & (e & He & Hn)); [eauto|].
    assert (MM : forall y, near e (selected dims 0 x) y -> member q y).
    { intros y [Ly Hy]. destruct (put_ok dims x 0 y e Ly ltac:(lra) Hy) as [A C]. apply Mq. exists (put dims 0 x y).
      split; [now apply Hn|]. rewrite A. split; [reflexivity|]. intro; reflexivity. }
    exists (selected dims 0 x). split.
    + apply MM. split; [reflexivity|]. intro i. setoid_replace (nth i (selected dims 0 x) 0 - nth i (selected dims 0 x) 0) with 0 by ring.
      change (Qabs 0) with 0. lra.
    + exists e. split; [exact He|exact MM].
Qed.

Lemma rproject_solid : forall d dims r q, unions_only r -> leaves (solid d) r -> rproject E dims r = Ret (Some q) ->
  leaves (solid (length (selected dims 0 (repeat 0 d)))) q /\ unions_only q.
Proof.
  intros d dims r.
  assert (U : forall rs q, Forall (fun r => forall q, unions_only r -> leaves (solid d) r -> rproject E dims r = Ret (Some q) ->
       leaves (solid (length (selected dims 0 (repeat 0 d)))) q /\ unions_only q) rs ->
     allP unions_only rs -> allP (leaves (solid d)) rs ->
     (let! qs := mapM (rproject E dims) rs in
       match somes qs with [] => Ret None | [q] => Ret (Some q) | qs => Ret (Some (RUnion qs)) end) = Ret (Some q) ->
     leaves (solid (length (selected dims 0 (repeat 0 d)))) q /\ unions_only q).
  { intros rs q IH UO LV H. destruct (mapM (rproject E dims) rs) as [qs|] eqn:M; cbn [bind] in H; [|discriminate].
    assert (F : Forall (fun q => leaves (solid (length (selected dims 0 (repeat 0 d)))) q /\ unions_only q) (somes qs)).
    { apply mapM_Forall2 in M. clear H. induction M as [|a [b|] l m Ha M IHM]; cbn [somes]; [constructor| |].
      - apply Forall_cons_iff in IH as [I1 I2]. destruct UO, LV. constructor; auto.
      - apply Forall_cons_iff in IH as [I1 I2]. destruct UO, LV. auto. }
    destruct (somes qs) as [|q1 [|q2 qs']]; [discriminate| |].
    - injection H as <-. now apply Forall_cons_iff in F.
    - injection H as <-. cbn [leaves unions_only]. rewrite !allP_iff. rewrite Forall_forall in F. split; intros a Ha; now apply F. }
  induction r as [p|r IH|r IH|rs IH|rs IH|rs IH] using region_tree_ind; cbn [unions_only leaves]; intros q UO LV H; try tauto.
  - cbn [rproject] in H. destruct (project E (body p) dims) as [[s|]|] eqn:EP; cbn [bind] in H; try discriminate.
    injection H as <-. split; [exact (project_solid d p dims s LV EP)|exact Logic.I].
  - exact (U rs q IH UO LV H).
  - exact (U rs q IH UO LV H).
Qed.

End WithExt.

(** Without intersections the pieces are kept exactly. *)
Lemma disj_only_exact : forall E order r, disj_only r ->
  exists ps, as_disjoint_union E order false r = Ret (RDisj (map RPoly ps)) /\ ps = tree_polys r /\
    forall x, denote (RDisj (map RPoly ps)) x <-> denote r x.
Proof.
  intros E order r.
  assert (T : forall r, disj_only r -> forall x, anyP (fun c => denote c x) (map RPoly (tree_polys r)) <-> denote r x).
  { clear. intro r. induction r as [p|r IH|r IH|rs IH|rs IH|rs IH] using region_tree_ind; cbn [disj_only tree_polys]; intros D x; try tauto.
    - cbn. tauto.
    - cbn [denote]. rewrite !anyP_iff. rewrite allP_iff in D. rewrite Forall_forall in IH. split.
      + intros (a & Ha & Da). apply in_map_iff in Ha as (p & <- & Hp). apply in_flat_map in Hp as (b & Hb & Hp). exists b. split; [exact Hb|].
        apply (IH b Hb (D b Hb) x). apply anyP_iff. exists (RPoly p). split; [now apply in_map|exact Da].
      + intros (b & Hb & Db). apply (IH b Hb (D b Hb) x) in Db. apply anyP_iff in Db as (a & Ha & Da). exists a. split; [|exact Da].
        apply in_map_iff in Ha as (p & <- & Hp). apply in_map. apply in_flat_map. eauto. }
  assert (X : forall r, disj_only r -> as_disjoint_union_poly E order false r = Ret (tree_polys r)).
  { clear T. intro r0. induction r0 as [p|r0 IH|r0 IH|rs IH|rs IH|rs IH] using region_tree_ind; cbn [disj_only tree_polys]; intro D; try tauto.
    - cbn [as_disjoint_union_poly].
      assert (Y : mapM (as_disjoint_union_poly E order false) rs = Ret (map tree_polys rs)).
      { induction rs as [|a rs IHr]; [reflexivity|]. apply Forall_cons_iff in IH as [I1 I2]. destruct D as [D1 D2]. cbn [mapM map].
        rewrite (I1 D1). cbn [bind]. rewrite (IHr I2 D2). reflexivity. }
      rewrite Y. cbn [bind]. rewrite <- flat_map_concat_map. reflexivity. }
  intro D. exists (tree_polys r). unfold as_disjoint_union. rewrite (X r D). cbn [bind]. split; [reflexivity|]. split; [reflexivity|].
  intro x. cbn [denote]. now apply T.
Qed.
