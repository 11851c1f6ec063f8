(** Convex hulls of finite point lists: cones, clipping by a half-space, boxes.
    Used to build a verified vertex enumeration. *)
From Verif Require Import Base LinAlg.
From Coq Require Import Setoid Morphisms.

(** Combinations with non-negative weights of total [s]. *)
Definition cone (vs : list point) (s : Q) (x : point) : Prop :=
  exists ws, length ws = length vs /\ Forall (fun w => 0 <= w) ws /\ qsum ws == s /\
             peq x (wsum ws vs).

#[global] Instance cone_proper : Proper (eq ==> Qeq ==> peq ==> iff) cone.
Proof.
  intros vs vs' <- s s' Hs x y H. unfold cone. split; intros (ws & A & B & C & D); exists ws; repeat split; auto.
  - now rewrite C.
  - now rewrite <- H.
  - now rewrite C, Hs.
  - now rewrite H.
Qed.

Lemma conv_cone : forall vs x, conv vs x <-> cone vs 1 x.
Proof. reflexivity. Qed.

Lemma cone_zero : forall vs, cone vs 0 [].
Proof.
  intros. exists (repeat 0 (length vs)). repeat split.
  - apply repeat_length.
  - apply Forall_forall. intros x Hx. apply repeat_spec in Hx. rewrite Hx; lra.
  - apply qsum_repeat0.
  - symmetry. apply wsum_repeat0.
Qed.

Lemma wsum_vadd : forall u w vs, length u = length w ->
  peq (wsum (vadd u w) vs) (vadd (wsum u vs) (wsum w vs)).
Proof.
  intros u w vs. revert u w. induction vs as [|v vs IH]; intros u w L i.
  - assert (N : forall l, wsum l [] = []) by (destruct l; reflexivity). rewrite !N. destruct i; reflexivity.
  - destruct u as [|a u], w as [|b w]; try discriminate.
    + destruct i; reflexivity.
    + simpl. rewrite nth_vadd, (IH u w ltac:(simpl in L; lia) i).
      repeat first [rewrite nth_vadd | rewrite nth_vscale]. ring.
Qed.

Lemma wsum_vscale : forall t u vs, peq (wsum (vscale t u) vs) (vscale t (wsum u vs)).
Proof.
  intros t u vs. revert u. induction vs as [|v vs IH]; intros u i.
  - assert (N : forall l, wsum l [] = []) by (destruct l; reflexivity). rewrite !N. destruct i; reflexivity.
  - destruct u as [|a u]; [destruct i; reflexivity|].
    simpl. rewrite nth_vadd, (IH u i).
    repeat first [rewrite nth_vadd | rewrite nth_vscale]. ring.
Qed.

Lemma nonneg_vadd : forall u w, Forall (fun a => 0 <= a) u -> Forall (fun a => 0 <= a) w ->
  Forall (fun a => 0 <= a) (vadd u w).
Proof.
  induction u as [|a u IH]; intros [|b w] H1 H2; simpl; auto.
  apply Forall_cons_iff in H1 as [A H1]. apply Forall_cons_iff in H2 as [B H2].
  constructor; [lra|auto].
Qed.

Lemma cone_add : forall vs s t x y, cone vs s x -> cone vs t y -> cone vs (s + t) (vadd x y).
Proof.
  intros vs s t x y (u & A & B & C & D) (w & A' & B' & C' & D').
  exists (vadd u w). repeat split.
  - rewrite vadd_length; lia.
  - now apply nonneg_vadd.
  - rewrite qsum_vadd by lia. now rewrite C, C'.
  - rewrite wsum_vadd by lia. now rewrite D, D'.
Qed.

Lemma cone_scale : forall vs s t x, 0 <= t -> cone vs s x -> cone vs (t * s) (vscale t x).
Proof.
  intros vs s t x Ht (u & A & B & C & D). exists (vscale t u). repeat split.
  - rewrite vscale_length; lia.
  - apply Forall_map. eapply Forall_impl; [|exact B]. cbv beta; intros. now apply Qmult_le_0_compat.
  - rewrite qsum_vscale. now rewrite C.
  - rewrite wsum_vscale. now rewrite D.
Qed.

Lemma cone_gen : forall vs v w, In v vs -> 0 <= w -> cone vs w (vscale w v).
Proof.
  intros. assert (E : w == w * 1) by ring. rewrite E at 1. apply cone_scale; auto. now apply conv_in.
Qed.

(** Sums over weighted lists. *)
Definition ksum (g : point -> Q) (K : list (Q * point)) : Q :=
  qsum (map (fun wv => fst wv * g (snd wv)) K).

Definition kvec (K : list (Q * point)) : point :=
  fold_right (fun wv acc => vadd (vscale (fst wv) (snd wv)) acc) [] K.

Lemma nth_kvec : forall K i, nth i (kvec K) 0 == ksum (fun v => nth i v 0) K.
Proof.
  unfold ksum. induction K as [|[w v] K IH]; intro i; simpl; [destruct i; reflexivity|].
  rewrite nth_vadd, nth_vscale, IH. reflexivity.
Qed.

Lemma ksum_app : forall g K L, ksum g (K ++ L) == ksum g K + ksum g L.
Proof. intros. unfold ksum. rewrite map_app. apply qsum_app. Qed.

Lemma cone_list : forall vs K, Forall (fun wv => 0 <= fst wv /\ In (snd wv) vs) K ->
  cone vs (ksum (fun _ => 1) K) (kvec K).
Proof.
  induction K as [|[w v] K IH]; intro F.
  - apply cone_zero.
  - apply Forall_cons_iff in F as [[A B] F]. unfold ksum. simpl.
    assert (E : w * 1 == w) by ring. rewrite E. apply cone_add; [now apply cone_gen|now apply IH].
Qed.

Lemma combine_kvec : forall ws vs, length ws = length vs -> wsum ws vs = kvec (combine ws vs).
Proof.
  induction ws as [|w ws IH]; intros [|v vs] L; simpl; try discriminate; auto.
  rewrite IH by (simpl in L; lia). reflexivity.
Qed.

Lemma combine_ksum1 : forall ws vs, length ws = length vs -> qsum ws == ksum (fun _ => 1) (combine ws vs).
Proof.
  induction ws as [|w ws IH]; intros [|v vs] L; simpl; try discriminate; try reflexivity.
  unfold ksum in *; simpl. rewrite (IH vs) by (simpl in L; lia). ring.
Qed.

Lemma combine_ok : forall ws vs, length ws = length vs -> Forall (fun w => 0 <= w) ws ->
  Forall (fun wv : Q * point => 0 <= fst wv /\ In (snd wv) vs) (combine ws vs).
Proof.
  intros ws vs L F. apply Forall_forall. intros [w v] H. split.
  - apply in_combine_l in H. rewrite Forall_forall in F. now apply F.
  - now apply in_combine_r in H.
Qed.

Lemma conv_list : forall vs x, conv vs x <->
  exists K, Forall (fun wv => 0 <= fst wv /\ In (snd wv) vs) K /\ ksum (fun _ => 1) K == 1 /\ peq x (kvec K).
Proof.
  intros vs x. split.
  - intros (ws & A & B & C & D). exists (combine ws vs). repeat split.
    + now apply combine_ok.
    + rewrite <- combine_ksum1 by auto. exact C.
    + now rewrite <- combine_kvec by auto.
  - intros (K & A & B & C). rewrite C. apply conv_cone. rewrite <- B. now apply cone_list.
Qed.

(** A hull is contained in any hull that contains its generators. *)
Lemma conv_incl : forall vs vs' x, (forall v, In v vs -> conv vs' v) -> conv vs x -> conv vs' x.
Proof.
  intros vs vs' x H (ws & A & B & C & D). rewrite D. apply conv_cone. rewrite <- C. clear C D x.
  revert ws A B. induction vs as [|v vs IH]; intros [|w ws] A B; try discriminate; simpl.
  - apply cone_zero.
  - apply Forall_cons_iff in B as [Hw B]. apply cone_add.
    + assert (E : w == w * 1) by ring. rewrite E at 1. apply cone_scale; auto. apply H. now left.
    + apply IH; auto. intros; apply H. now right.
Qed.

Lemma ksum_linear : forall c K, ksum (rowval c) K == hd 0 c * ksum (fun _ => 1) K + dot (tl c) (kvec K).
Proof.
  unfold ksum. induction K as [|[w v] K IH]; simpl.
  - rewrite dot_nil_r. ring.
  - rewrite IH, dot_vadd_r, dot_vscale_r. unfold rowval. ring.
Qed.

(** Partition of a weighted list by the sign of an affine function. *)
Definition kpos (c : list Q) (K : list (Q * point)) := filter (fun wv : Q * point => Qltb 0 (rowval c (snd wv))) K.
Definition kneg (c : list Q) (K : list (Q * point)) := filter (fun wv : Q * point => Qltb (rowval c (snd wv)) 0) K.
Definition kzer (c : list Q) (K : list (Q * point)) := filter (fun wv : Q * point => Qeqb (rowval c (snd wv)) 0) K.

Lemma ksum_split : forall c g K, ksum g K == ksum g (kpos c K) + ksum g (kneg c K) + ksum g (kzer c K).
Proof.
  unfold ksum, kpos, kneg, kzer. induction K as [|[w v] K IH]; simpl; [ring|].
  rewrite IH. destruct (Qltb_spec 0 (rowval c v)), (Qltb_spec (rowval c v) 0), (Qeqb_spec (rowval c v) 0);
    simpl; try lra; exfalso; apply n; lra.
Qed.

(** Clipping a hull by the half-space [c >= 0]. *)
Definition cross (c : list Q) (u w : point) : point :=
  mix (rowval c u / (rowval c u - rowval c w)) u w.

Definition clip (c : list Q) (vs : list point) : list point :=
  filter (fun v => Qleb 0 (rowval c v)) vs ++
  flat_map (fun u => map (cross c u) (filter (fun w => Qltb (rowval c w) 0) vs))
           (filter (fun u => Qltb 0 (rowval c u)) vs).

Lemma cross_value : forall c u w, 0 < rowval c u -> rowval c w < 0 -> rowval c (cross c u w) == 0.
Proof. intros. unfold cross. rewrite rowval_mix. field. lra. Qed.

Lemma cross_range : forall c u w, 0 < rowval c u -> rowval c w < 0 ->
  0 <= rowval c u / (rowval c u - rowval c w) /\ rowval c u / (rowval c u - rowval c w) <= 1.
Proof.
  intros. split.
  - apply Qle_shift_div_l; lra.
  - apply Qle_shift_div_r; lra.
Qed.

Lemma clip_member : forall c vs v, In v (clip c vs) -> conv vs v /\ 0 <= rowval c v.
Proof.
  intros c vs v H. unfold clip in H. apply in_app_or in H as [H|H].
  - apply filter_In in H as [H P]. apply Qleb_true in P. split; auto. now apply conv_in.
  - apply in_flat_map in H as (u & Hu & H). apply in_map_iff in H as (w & <- & Hw).
    apply filter_In in Hu as [Hu Pu]. apply filter_In in Hw as [Hw Pw]. apply Qltb_true in Pu, Pw.
    split.
    + destruct (cross_range c u w Pu Pw). apply conv_mix; auto; now apply conv_in.
    + rewrite cross_value; auto. lra.
Qed.

Definition pairs (c : list Q) (s : Q) (P N : list (Q * point)) : list (Q * point) :=
  flat_map (fun u => map (fun w =>
      (fst u * fst w * (rowval c (snd u) - rowval c (snd w)) / s, cross c (snd u) (snd w))) N) P.

(** Functions that respect crossing points. *)
Definition affine (g : point -> Q) : Prop := forall t u w, g (mix t u w) == (1 - t) * g u + t * g w.

Lemma ksum_pairs_inner : forall c g s a u N, affine g -> 0 < rowval c u -> ~ s == 0 ->
  Forall (fun w : Q * point => rowval c (snd w) < 0) N ->
  ksum g (map (fun w : Q * point => (a * fst w * (rowval c u - rowval c (snd w)) / s, cross c u (snd w))) N)
  == a * rowval c u / s * ksum g N - a * g u / s * ksum (rowval c) N.
Proof.
  intros c g s a u N G Pu Hs F. unfold affine in G. unfold ksum. induction F as [|[m w] N Pw F IH]; simpl; [ring|].
  rewrite IH. unfold cross. rewrite G. simpl in Pw. field. split; auto. lra.
Qed.

Lemma ksum_pairs : forall c g s P N, affine g -> ~ s == 0 ->
  Forall (fun u : Q * point => 0 < rowval c (snd u)) P ->
  Forall (fun w : Q * point => rowval c (snd w) < 0) N ->
  ksum g (pairs c s P N) == ksum (rowval c) P / s * ksum g N - ksum g P / s * ksum (rowval c) N.
Proof.
  intros c g s P N G Hs FP FN. unfold pairs. induction FP as [|[a u] P Pu FP IH].
  - unfold ksum; simpl. field; auto.
  - cbn [flat_map]. rewrite ksum_app, IH. cbn [fst snd].
    rewrite (ksum_pairs_inner c g s a u N G Pu Hs FN).
    assert (E : forall f, ksum f ((a, u) :: P) == a * f u + ksum f P) by (intro; reflexivity).
    rewrite !E. field; auto.
Qed.

Lemma kpos_pos : forall c K, Forall (fun u : Q * point => 0 < rowval c (snd u)) (kpos c K).
Proof. intros. apply Forall_forall. intros u H. apply filter_In in H as [_ H]. now apply Qltb_true. Qed.

Lemma kneg_neg : forall c K, Forall (fun u : Q * point => rowval c (snd u) < 0) (kneg c K).
Proof. intros. apply Forall_forall. intros u H. apply filter_In in H as [_ H]. now apply Qltb_true. Qed.

Lemma kzer_sum : forall c K, ksum (rowval c) (kzer c K) == 0.
Proof.
  intros. unfold ksum, kzer. induction K as [|[w v] K IH]; simpl; [reflexivity|].
  destruct (Qeqb_spec (rowval c v) 0) as [e|e]; simpl; auto. rewrite IH, e. ring.
Qed.

Definition mono (K : list (Q * point)) : Prop := Forall (fun wv => 0 <= fst wv) K.

Lemma ksum_neg_le : forall c K, mono K -> Forall (fun u : Q * point => rowval c (snd u) < 0) K ->
  ksum (rowval c) K <= 0.
Proof.
  intros c K M F. unfold ksum, mono in *. induction K as [|[w v] K IH]; simpl; [lra|].
  apply Forall_cons_iff in M as [M1 M]. apply Forall_cons_iff in F as [F1 F]. cbn [fst snd] in *.
  specialize (IH M F). nra.
Qed.

Lemma ksum_pos_ge : forall c K, mono K -> Forall (fun u : Q * point => 0 < rowval c (snd u)) K ->
  0 <= ksum (rowval c) K.
Proof.
  intros c K M F. unfold ksum, mono in *. induction K as [|[w v] K IH]; simpl; [lra|].
  apply Forall_cons_iff in M as [M1 M]. apply Forall_cons_iff in F as [F1 F]. cbn [fst snd] in *.
  specialize (IH M F). nra.
Qed.

Lemma ksum_neg_zero : forall c g K, mono K -> Forall (fun u : Q * point => rowval c (snd u) < 0) K ->
  ksum (rowval c) K == 0 -> ksum g K == 0.
Proof.
  intros c g K M F Z. unfold mono in M. induction K as [|[w v] K IH]; [reflexivity|].
  assert (E : forall f, ksum f ((w, v) :: K) == w * f v + ksum f K) by (intro; reflexivity).
  rewrite E in *. 
  apply Forall_cons_iff in M as [M1 M]. apply Forall_cons_iff in F as [F1 F]. cbn [fst snd] in *.
  pose proof (ksum_neg_le c K M F).
  assert (W : w == 0).
  { destruct (Qlt_le_dec 0 w); [|lra]. assert (w * rowval c v < 0) by nra. lra. }
  rewrite W. rewrite IH; auto; [ring|]. rewrite W in Z. lra.
Qed.

Lemma mono_filter : forall f K, mono K -> mono (filter f K).
Proof.
  intros. apply Forall_forall. intros x Hx. apply filter_In in Hx as [Hx _].
  unfold mono in H. rewrite Forall_forall in H. now apply H.
Qed.

Lemma affine_one : affine (fun _ => 1).
Proof. intros t u w; cbv beta; ring. Qed.

Lemma affine_nth : forall i, affine (fun v => nth i v 0).
Proof. intros i t u w. cbv beta. apply nth_mix. Qed.

Definition kshrink (t : Q) (K : list (Q * point)) : list (Q * point) :=
  map (fun wv => (t * fst wv, snd wv)) K.

Lemma ksum_shrink : forall g t K, ksum g (kshrink t K) == t * ksum g K.
Proof.
  intros. unfold ksum, kshrink. rewrite map_map. rewrite <- qsum_map_scale.
  apply qsum_map_ext. intros [w v] _. simpl. ring.
Qed.

(** Clipping is exact. *)
Theorem clip_conv : forall c vs x, conv (clip c vs) x <-> conv vs x /\ 0 <= rowval c x.
Proof.
  intros c vs x. split.
  - intro H. split.
    + apply (conv_incl (clip c vs)); auto. intros v Hv. now apply clip_member in Hv as [? _].
    + apply (conv_nonneg (clip c vs)); auto. apply Forall_forall. intros v Hv.
      now apply clip_member in Hv as [_ ?].
  - intros [H P]. apply conv_list in H as (K & KO & K1 & KX).
    assert (M : mono K) by (eapply Forall_impl; [|exact KO]; cbv beta; tauto).
    assert (IN : forall wv, In wv K -> In (snd wv) vs).
    { intros wv Hwv. rewrite Forall_forall in KO. now apply KO. }
    assert (V : rowval c x == ksum (rowval c) K).
    { rewrite ksum_linear, K1. unfold rowval. rewrite KX. ring. }
    rewrite V, (ksum_split c) in P. rewrite kzer_sum in P.
    pose proof (ksum_neg_le c (kneg c K) (mono_filter _ _ M) (kneg_neg c K)) as SN.
    pose proof (ksum_pos_ge c (kpos c K) (mono_filter _ _ M) (kpos_pos c K)) as SP.
    set (s := ksum (rowval c) (kpos c K)) in *.
    set (n := ksum (rowval c) (kneg c K)) in *.
    destruct (Qeq_dec s 0) as [Z|Z].
    + (* no positive mass: the negative weights vanish *)
      assert (N0 : n == 0) by lra.
      apply conv_list. exists (kpos c K ++ kzer c K).
      assert (EQ : forall g, ksum g (kpos c K ++ kzer c K) == ksum g K).
      { intro g. rewrite ksum_app, (ksum_split c g K).
        rewrite (ksum_neg_zero c g (kneg c K)); [ring|now apply mono_filter|apply kneg_neg|exact N0]. }
      repeat split.
      * apply Forall_app; split; apply Forall_forall; intros wv Hwv; apply filter_In in Hwv as [Hwv Q0].
        -- split; [unfold mono in M; rewrite Forall_forall in M; now apply M|].
           unfold clip. apply in_or_app. left. apply filter_In. split; [now apply IN|].
           apply Qltb_true in Q0. apply Qleb_true. lra.
        -- split; [unfold mono in M; rewrite Forall_forall in M; now apply M|].
           unfold clip. apply in_or_app. left. apply filter_In. split; [now apply IN|].
           apply Qeqb_true in Q0. apply Qleb_true. lra.
      * rewrite EQ. exact K1.
      * rewrite KX. intro i. rewrite !nth_kvec. now rewrite EQ.
    + assert (S0 : 0 < s) by lra.
      set (t := 1 + n / s).
      assert (T0 : 0 <= t).
      { unfold t. assert (-1 <= n / s) by (apply Qle_shift_div_l; lra). lra. }
      apply conv_list. exists (kzer c K ++ kshrink t (kpos c K) ++ pairs c s (kpos c K) (kneg c K)).
      assert (EQ : forall g, affine g ->
         ksum g (kzer c K ++ kshrink t (kpos c K) ++ pairs c s (kpos c K) (kneg c K)) == ksum g K).
      { intros g G. rewrite !ksum_app, ksum_shrink, (ksum_split c g K).
        rewrite ksum_pairs; auto; [|apply kpos_pos|apply kneg_neg].
        fold s n. unfold t. field. auto. }
      repeat split.
      * apply Forall_app; split; [|apply Forall_app; split].
        -- apply Forall_forall; intros wv Hwv; apply filter_In in Hwv as [Hwv Q0].
           split; [unfold mono in M; rewrite Forall_forall in M; now apply M|].
           unfold clip. apply in_or_app. left. apply filter_In. split; [now apply IN|].
           apply Qeqb_true in Q0. apply Qleb_true. lra.
        -- apply Forall_map, Forall_forall; intros wv Hwv; apply filter_In in Hwv as [Hwv Q0]. cbn [fst snd].
           split; [unfold mono in M; rewrite Forall_forall in M; apply Qmult_le_0_compat; auto; now apply M|].
           unfold clip. apply in_or_app. left. apply filter_In. split; [now apply IN|].
           apply Qltb_true in Q0. apply Qleb_true. lra.
        -- apply Forall_flat_map, Forall_forall. intros u Hu. apply Forall_map, Forall_forall. intros w Hw.
           cbn [fst snd].
           apply filter_In in Hu as [Hu Pu]. apply filter_In in Hw as [Hw Pw].
           unfold mono in M; rewrite Forall_forall in M. pose proof (M u Hu) as Mu. pose proof (M w Hw) as Mw.
           cbv beta in Mu, Mw. split.
           ++ apply Qltb_true in Pu, Pw. apply Qle_shift_div_l; auto. rewrite Qmult_0_l.
              apply Qmult_le_0_compat; [now apply Qmult_le_0_compat|unfold point in *; lra].
           ++ unfold clip. apply in_or_app. right. apply in_flat_map. exists (snd u). split.
              ** apply filter_In; split; auto.
              ** apply in_map. apply filter_In; split; auto.
      * rewrite (EQ _ affine_one). exact K1.
      * rewrite KX. intro i. rewrite !nth_kvec. now rewrite (EQ _ (affine_nth i)).
Qed.

(** Corners of a box. *)
Fixpoint corners (n : nat) (B : Q) : list point :=
  match n with
  | O => [[]]
  | S k => map (cons B) (corners k B) ++ map (cons (- B)) (corners k B)
  end.

Lemma corners_length : forall n B v, In v (corners n B) -> length v = n.
Proof.
  induction n; simpl; intros B v H.
  - destruct H as [<-|[]]; reflexivity.
  - apply in_app_or in H as [H|H]; apply in_map_iff in H as (u & <- & Hu); simpl; f_equal; eauto.
Qed.

Lemma wsum_cons : forall a ws vs, length ws = length vs -> vs <> [] ->
  peq (wsum ws (map (cons a) vs)) ((a * qsum ws) :: wsum ws vs).
Proof.
  intros a ws vs L _. revert ws L. induction vs as [|v vs IH]; intros [|w ws] L; try discriminate.
  - intros [|i]; simpl; [ring|destruct i; reflexivity].
  - cbn [wsum map]. intros i. rewrite nth_vadd, (IH ws ltac:(simpl in L; lia) i). destruct i; simpl; [ring|].
    rewrite nth_vadd. reflexivity.
Qed.

Lemma conv_cons : forall a vs x, vs <> [] -> conv vs x -> conv (map (cons a) vs) (a :: x).
Proof.
  intros a vs x N (ws & A & B & C & D). exists ws. repeat split; auto.
  - now rewrite map_length.
  - rewrite wsum_cons by auto. apply peq_cons. split; auto. rewrite C; ring.
Qed.

Lemma conv_app_l : forall a b x, conv a x -> conv (a ++ b) x.
Proof. intros. apply (conv_incl a); auto. intros. apply conv_in, in_or_app; auto. Qed.

Lemma conv_app_r : forall a b x, conv b x -> conv (a ++ b) x.
Proof. intros. apply (conv_incl b); auto. intros. apply conv_in, in_or_app; auto. Qed.

Lemma corners_nonempty : forall n B, corners n B <> [].
Proof.
  induction n; simpl; intros B; [discriminate|]. intro H. apply app_eq_nil in H as [H _].
  apply map_eq_nil in H. now apply (IHn B).
Qed.

Lemma corners_conv : forall n B x, 0 < B -> length x = n -> (forall i, Qabs (nth i x 0) <= B) ->
  conv (corners n B) x.
Proof.
  induction n; intros B x HB L H.
  - destruct x; try discriminate. apply conv_in. now left.
  - destruct x as [|y x]; try discriminate. simpl.
    assert (C : conv (corners n B) x) by (apply IHn; auto; intro i; exact (H (S i))).
    pose proof (H 0%nat) as Hy. cbn [nth] in Hy. apply Qabs_Qle_condition in Hy as [H1 H2].
    assert (E : peq (y :: x) (mix ((B - y) / (2 * B)) (B :: x) (- B :: x))).
    { intros [|i]; rewrite nth_mix; cbn [nth]; field; lra. }
    rewrite E. apply conv_mix.
    + apply conv_app_l, conv_cons; auto. apply corners_nonempty.
    + apply conv_app_r, conv_cons; auto. apply corners_nonempty.
    + apply Qle_shift_div_l; lra.
    + apply Qle_shift_div_r; lra.
Qed.
