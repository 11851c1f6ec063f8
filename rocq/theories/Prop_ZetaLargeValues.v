(** Zeta large value estimates (C39). *)
From Verif Require Import Base Model_Text Model_Reference Spec_Reference Proof_Reference Model_Interval Spec_Interval Model_Affine Spec_Affine Model_BoundBeta Proof_Interval Proof_BoundBeta
  LinAlg Model_Polytope Spec_Polytope Proof_Polytope Proof_PolytopeMaps Model_Region Spec_Region Proof_Region FM_Ext
  Model_ExponentPair Spec_ExponentPair Proof_ExponentPair Proof_ExpDual Model_BoundMu Spec_BoundMu Prop_BoundMu Spec_Support Prop_Support
  Model_LargeValues Spec_LargeValues Proof_LargeValues Prop_LargeValues Model_ZetaLargeValues Proof_ZetaLargeValues.
Open Scope list_scope.

Lemma recip_one : forall a, 0 < a -> 1 / a * a == 1.
Proof. intros a A. field. lra. Qed.
Lemma recip_lt : forall a t, 0 < a -> 0 < t -> (a < 1 / t <-> t < 1 / a).
Proof.
  intros a t A T. pose proof (recip_one a A). pose proof (recip_one t T). split; intro H1; apply Qlt_shift_div_l; auto; nra.
Qed.
Lemma recip_gt : forall a t, 0 < a -> 0 < t -> (1 / t < a <-> 1 / a < t).
Proof.
  intros a t A T. pose proof (recip_one a A). pose proof (recip_one t T). split; intro H1; apply Qlt_shift_div_r; auto; nra.
Qed.
Lemma recip_pos : forall t, 0 < t -> 0 < 1 / t.
Proof. intros t T. apply Qlt_shift_div_l; lra. Qed.
Lemma recip_neg : forall a, a < 0 -> 1 / a < 0.
Proof. intros a A. assert (P : 0 < 1 / - a) by (apply recip_pos; lra). assert (E : 1 / - a == - (1 / a)) by (field; lra). lra. Qed.

Lemma scaled_value : forall b t, 0 < t -> t * Spec_Affine.value b (1 / t) == icpt b * t + slope b.
Proof. intros b t T. unfold Spec_Affine.value. field. lra. Qed.

(** tau lies strictly between the limits exactly when 1/tau lies strictly
    inside the domain of the bound. *)
Lemma limits : forall a0 a1 t, a0 <= a1 -> 2 <= t -> t <= TAU_UPPER_LIMIT ->
  tau_lower a1 < t -> t < tau_upper a0 -> a0 < 1 / t /\ 1 / t < a1.
Proof.
  intros a0 a1 t W T0 T1 L U. unfold tau_lower in L. unfold tau_upper in U. pose proof (recip_pos t ltac:(lra)) as P.
  assert (A0 : 0 <= a0 /\ a0 < 1 / t).
  { destruct (Qeqb_spec a0 0) as [Z|Z]; [lra|].
    assert (U2 : t < 1 / a0) by (unfold qmin in U; destruct (Qltb_spec (1 / a0) TAU_UPPER_LIMIT); lra).
    destruct (Qlt_le_dec a0 0) as [N|N]; [pose proof (recip_neg a0 N); lra|].
    split; [lra|]. apply recip_lt; lra. }
  split; [tauto|]. destruct (Qeqb_spec a1 0) as [Z|Z]; [lra|].
  assert (L2 : 1 / a1 < t) by (unfold qmax in L; destruct (Qltb_spec 2 (1 / a1)); lra).
  apply recip_gt; lra.
Qed.

(** ** From bounds on beta *)

(** The region is the one of the statement: at 1/tau inside the domain of the
    bound, only rho = 0 remains for sigma above tau * bound(1/tau); elsewhere the
    trivial bound rho <= tau. *)
Theorem beta_zlv_exact : forall E, ext_ok E -> forall be b, n_data be = DBeta b ->
  0 <= x0 (dom b) -> x0 (dom b) <= 1#2 -> 1 / TAU_UPPER_LIMIT <= x1 (dom b) ->
  exists h r, beta_zlv E be = Ret h /\ l_data h = DZLV r None /\ l_deps h = [LBase be] /\
    r_year (l_ref h) = r_year (n_ref be) /\ sized 3 r /\
    forall s t u, denote r [s; t; u] <->
      1#2 <= s /\ s <= 1 /\ 2 <= t /\ t <= TAU_UPPER_LIMIT /\ 0 <= u /\ u <= t /\
      (2 < t -> t < TAU_UPPER_LIMIT -> x0 (dom b) < 1 / t -> 1 / t < x1 (dom b) ->
       t * Spec_Affine.value b (1 / t) < s -> u == 0).
Proof.
  intros E OK be b D A0 A0' A1. destruct (beta_zlv_total E OK be) as (h & Eh). destruct (beta_zlv_ok E OK be h Eh) as (r & Dh & Eh2 & Yh & Sr & X).
  exists h, r. split; [exact Eh|]. split; [exact Dh|]. split; [exact Eh2|]. split; [exact Yh|]. split; [exact Sr|].
  assert (Bo : bound_of be = b) by (unfold bound_of; now rewrite D). rewrite Bo in X.
  assert (PT : 0 < 1 / TAU_UPPER_LIMIT) by (apply recip_pos; reflexivity).
  set (a0 := x0 (dom b)) in *. set (a1 := x1 (dom b)) in *.
  assert (LT : tau_lower a1 == qmax 2 (1 / a1)).
  { unfold tau_lower. destruct (Qeqb_spec a1 0); [exfalso; lra|reflexivity]. }
  assert (L1 : 1 / a1 <= TAU_UPPER_LIMIT).
  { apply Qle_shift_div_r; [lra|]. assert (Y : 1 / TAU_UPPER_LIMIT * TAU_UPPER_LIMIT == 1) by reflexivity. unfold TAU_UPPER_LIMIT in *. nra. }
  assert (L2 : 2 <= tau_lower a1 /\ tau_lower a1 <= TAU_UPPER_LIMIT).
  { rewrite LT. unfold qmax. assert (2 <= TAU_UPPER_LIMIT) by (apply Qleb_true; reflexivity). destruct (Qltb_spec 2 (1 / a1)); lra. }
  assert (U2 : 2 <= tau_upper a0 /\ tau_upper a0 <= TAU_UPPER_LIMIT).
  { unfold tau_upper. assert (2 <= TAU_UPPER_LIMIT) by (apply Qleb_true; reflexivity). destruct (Qeqb_spec a0 0) as [Z|Z]; [lra|].
    assert (2 <= 1 / a0) by (apply Qle_shift_div_l; lra). unfold qmin. destruct (Qltb_spec (1 / a0) TAU_UPPER_LIMIT); lra. }
  intros s t u. rewrite X, beta_rows_iff.
  (* the limits in terms of 1/tau *)
  assert (Lo : 2 < t -> 1 / t < a1 -> tau_lower a1 < t).
  { intros T H. rewrite LT. apply recip_gt in H; [|lra|lra]. unfold qmax. destruct (Qltb_spec 2 (1 / a1)); lra. }
  assert (Up : 2 < t -> t < TAU_UPPER_LIMIT -> a0 < 1 / t -> t < tau_upper a0).
  { intros T T' H. unfold tau_upper. destruct (Qeqb_spec a0 0) as [Z|Z]; [auto|]. apply recip_lt in H; [|lra|lra].
    unfold qmin. destruct (Qltb_spec (1 / a0) TAU_UPPER_LIMIT); lra. }
  split.
  - intros (S0 & S1 & U0 & H). split; [auto|]. split; [auto|].
    assert (T : 2 <= t /\ t <= TAU_UPPER_LIMIT /\ u <= t).
    { destruct H as [(Z & T0 & T1 & _)|(Uu & [(T0 & T1 & _)|[(T0 & T1)|(T0 & T1)]])]; repeat split; lra. }
    destruct T as (T0 & T1 & T2). split; [auto|]. split; [auto|]. split; [auto|]. split; [auto|].
    intros C1 C2 C3 C4 C5. rewrite scaled_value in C5 by lra. specialize (Lo C1 C4). specialize (Up C1 C2 C3).
    destruct H as [(Z & _)|(_ & [(_ & _ & V)|[(V1 & V2)|(V1 & V2)]])]; [exact Z| | |]; exfalso; lra.
  - intros (S0 & S1 & T0 & T1 & U0 & U1 & H). split; [auto|]. split; [auto|]. split; [auto|].
    destruct (Qlt_le_dec (tau_lower a1) t) as [V1|V1]; [|right; split; [auto|]; right; left; split; auto].
    destruct (Qlt_le_dec t (tau_upper a0)) as [V2|V2]; [|right; split; [auto|]; right; right; split; auto].
    destruct (Qlt_le_dec (icpt b * t + slope b) s) as [V3|V3]; [|right; split; [auto|]; left; repeat split; lra].
    left. assert (R : a0 < 1 / t /\ 1 / t < a1).
    { destruct (Qlt_le_dec a1 a0) as [W|W]; [|apply limits; auto].
      exfalso. rewrite LT in V1. assert (Z : 1 / a1 < t) by (unfold qmax in V1; destruct (Qltb_spec 2 (1 / a1)); lra).
      unfold tau_upper in V2. destruct (Qeqb_spec a0 0) as [Z0|Z0]; [lra|].
      assert (Z1 : t < 1 / a0) by (unfold qmin in V2; destruct (Qltb_spec (1 / a0) TAU_UPPER_LIMIT); lra).
      apply recip_gt in Z; [|lra|lra]. apply recip_lt in Z1; [|lra|lra]. lra. }
    split; [apply H; try tauto; try lra; rewrite scaled_value by lra; auto|]. repeat split; lra.
Qed.
Print Assumptions beta_zlv_exact.

(** Whatever the domain of the bound is, the estimate follows from it. *)
Theorem beta_zlv_supported : forall E, ext_ok E -> forall tr btr be b h, n_data be = DBeta b -> x0 (dom b) <= x1 (dom b) ->
  beta_zlv E be = Ret h -> l_deps h = [LBase be] /\ lsupported tr btr h.
Proof.
  intros E OK tr btr be b h D Wf H. destruct (beta_zlv_ok E OK be h H) as (r & Dh & Ed & _ & _ & X). split; [exact Ed|].
  assert (Bo : bound_of be = b) by (unfold bound_of; now rewrite D). rewrite Bo in X.
  intros W Ad F. rewrite Ed in F. apply Forall_inv in F as Hb. unfold lholds in *. rewrite Dh. cbn [l_data] in Hb. unfold holds in Hb. cbn [n_data] in Hb. rewrite D in Hb.
  intros s t u (R1 & R2 & R3 & R4 & R5 & R6) T L. apply X. apply beta_rows_iff.
  pose proof (zlv_trivial W Ad s t u R1 R2 T L) as U.
  split; [auto|]. split; [auto|]. split; [auto|]. right. split; [auto|].
  destruct (Qlt_le_dec (tau_lower (x1 (dom b))) t) as [V1|V1]; [|right; left; split; auto].
  destruct (Qlt_le_dec t (tau_upper (x0 (dom b)))) as [V2|V2]; [|right; right; split; auto].
  left. split; [lra|]. split; [lra|].
  destruct (Qlt_le_dec (icpt b * t + slope b) s) as [V3|V3]; [|auto]. exfalso.
  destruct (limits _ _ t Wf T R4 V1 V2) as [C1 C2].
  apply (zlv_beta W Ad s t u (Spec_Affine.value b (1 / t))); auto; [lra| |rewrite scaled_value by lra; auto].
  apply Hb. unfold covers, in_set, respects_lower, respects_upper.
  split; [destruct (incl_lo (dom b))|destruct (incl_hi (dom b))]; lra.
Qed.
Print Assumptions beta_zlv_supported.

(** A bound whose domain lies below 1/TAU_UPPER_LIMIT spoils the limit on tau. *)
Theorem beta_zlv_limit_refuted : forall E, ext_ok E -> exists be h r s t u,
  beta_zlv E be = Ret h /\ l_data h = DZLV r None /\ denote r [s; t; u] /\ TAU_UPPER_LIMIT < t.
Proof.
  intros E OK. set (b := mkA 1 0 (mkI 0 (1#2000000) true true) None).
  destruct (beta_zlv_total E OK (HNode [] (DBeta b) ref_trivial [])) as (h & Eh). destruct (beta_zlv_ok E OK _ h Eh) as (r & Dh & _ & _ & _ & X).
  exists (HNode [] (DBeta b) ref_trivial []), h, r, 1, 1500000, 0. split; [auto|]. split; [auto|]. split; [|reflexivity].
  apply X. apply beta_rows_iff. cbn. split; [apply Qleb_true; reflexivity|]. split; [lra|]. split; [lra|]. right. split; [lra|]. right. left.
  split; apply Qleb_true; reflexivity.
Qed.
Print Assumptions beta_zlv_limit_refuted.

(** ** From bounds on mu *)

Theorem mu_zlv_exact : forall E, ext_ok E -> forall mb s0 m, n_data mb = DMu s0 m ->
  exists h r, mu_zlv E mb = Ret h /\ l_data h = DZLV r None /\ l_deps h = [LBase mb] /\
    r_year (l_ref h) = r_year (n_ref mb) /\ sized 3 r /\
    forall s t u, denote r [s; t; u] <->
      1#2 <= s /\ s <= 1 /\ 2 <= t /\ t <= TAU_UPPER_LIMIT /\ 0 <= u /\ u <= t /\ (s0 + t * m < s -> u == 0).
Proof.
  intros E OK mb s0 m D. destruct (mu_zlv_ok E OK mb s0 m D) as (h & r & Eh & Dh & Ed & Y & Sr & X).
  exists h, r. split; [exact Eh|]. split; [exact Dh|]. split; [exact Ed|]. split; [exact Y|]. split; [exact Sr|].
  intros s t u. rewrite X, mu_rows_iff. split.
  - intros (S0 & S1 & U & T0 & T1 & [(U0 & H)|(U0 & H)]); repeat (split; [lra|]); [auto|intro; exfalso; lra].
  - intros (S0 & S1 & T0 & T1 & U & U1 & H). repeat (split; [lra|]).
    destruct (Qlt_le_dec (s0 + t * m) s) as [V|V]; [left; split; [auto|lra]|right; split; auto].
Qed.
Print Assumptions mu_zlv_exact.

Theorem mu_zlv_supported : forall E, ext_ok E -> forall tr btr mb s0 m h, n_data mb = DMu s0 m ->
  mu_zlv E mb = Ret h -> l_deps h = [LBase mb] /\ lsupported tr btr h.
Proof.
  intros E OK tr btr mb s0 m h D H. destruct (mu_zlv_exact E OK mb s0 m D) as (h' & r & Eh & Dh & Ed & _ & _ & X).
  rewrite Eh in H. injection H as <-. split; [exact Ed|].
  intros W Ad F. rewrite Ed in F. apply Forall_inv in F as Hb. unfold lholds in *. rewrite Dh. cbn [l_data] in Hb. unfold holds in Hb. cbn [n_data] in Hb. rewrite D in Hb.
  intros s t u (R1 & R2 & R3 & R4 & R5 & R6) T L. apply X.
  pose proof (zlv_trivial W Ad s t u R1 R2 T L) as U.
  repeat (split; [lra|]). intro V. exfalso.
  assert (Big : forall s1 m1, 1#2 <= s1 -> mu_le (base W) s1 m1 -> s1 + t * m1 < s -> False).
  { intros s1 m1 S1 M1 V1. destruct (Qlt_le_dec 1 s1) as [B|B].
    - pose proof (mu_nonneg W Ad s1 m1 ltac:(lra) M1). assert (0 <= t * m1) by nra. lra.
    - apply (zlv_mu W Ad s t u s1 m1); auto. lra. }
  destruct (Qlt_le_dec s0 (1#2)) as [B|B]; [|exact (Big s0 m B Hb V)].
  pose proof (mu_functional (base W) (lv_base W Ad) s0 m Hb) as M1.
  apply (Big (1 - s0) (m + s0 - (1#2))); [lra|exact M1|]. nra.
Qed.
Print Assumptions mu_zlv_supported.

(** ** From large value estimates *)

(** The estimates used: those of the set and their transforms. *)
Theorem lv_and_transformed_exact : forall hs hyps, lv_and_transformed hs = Ret hyps -> forall h,
  In h hyps <-> (In h hs /\ is_lv h = true) \/
    exists t k g, In t hs /\ l_data t = DLVTrans k /\ In g hs /\ is_lv g = true /\ raise_to_power k g = Ret h.
Proof.
  intros hs hyps H h. unfold lv_and_transformed in H. destruct (mapM _ (filter is_lv_trans hs)) as [ts|] eqn:Em; [|discriminate]. injection H as <-.
  apply mapM_Forall2 in Em. rewrite in_app_iff, filter_In, in_concat. split.
  - intros [A|(l & Il & Ih)]; [auto|]. right. destruct (Forall2_in_r _ _ _ _ _ _ Em Il) as (t & It & Et). apply mapM_Forall2 in Et.
    destruct (Forall2_in_r _ _ _ _ _ _ Et Ih) as (g & Ig & Eg). apply filter_In in It as [It Pt]. apply filter_In in Ig as [Ig Pg].
    unfold is_lv_trans in Pt. unfold apply_lv_trans in Eg. destruct (l_data t) as [|k| |] eqn:Dt; try discriminate. exists t, k, g. auto.
  - intros [A|(t & k & g & It & Dt & Ig & Pg & Eg)]; [auto|]. right.
    assert (It' : In t (filter is_lv_trans hs)) by (apply filter_In; split; [auto|unfold is_lv_trans; now rewrite Dt]).
    destruct (Forall2_in_l _ _ _ _ _ _ Em It') as (l & Il & El). exists l. split; [auto|]. apply mapM_Forall2 in El.
    assert (Ig' : In g (filter is_lv hs)) by (apply filter_In; auto). destruct (Forall2_in_l _ _ _ _ _ _ El Ig') as (h' & Ih & Eh).
    unfold apply_lv_trans in Eh. rewrite Dt in Eh. rewrite Eg in Eh. injection Eh as <-. exact Ih.
Qed.
Print Assumptions lv_and_transformed_exact.

(** Estimates for zeta restrict tau to at least 2 and change nothing else. *)
Theorem lv_to_zlv_exact : forall E, ext_ok E -> forall hs out, lv_to_zlv E hs = Ret out ->
  exists hyps, lv_and_transformed hs = Ret hyps /\
    Forall2 (fun g h => exists r r', region_of g = Ret r /\ l_data h = DZLV r' None /\ l_deps h = [g] /\
      r_year (l_ref h) = r_year (l_ref g) /\ forall s t u, denote r' [s; t; u] <-> 2 <= t /\ denote r [s; t; u]) hyps out.
Proof.
  intros E OK hs out H. unfold lv_to_zlv in H. destruct (lv_and_transformed hs) as [hyps|] eqn:Eh; [|discriminate]. cbn [bind] in H.
  exists hyps. split; [reflexivity|].
  destruct (Polytope_ok E OK [[-(2); 0; 1; 0]] false false 4 ltac:(lia) ltac:(repeat constructor)) as (p & Ep & _ & Np & _ & M).
  { exists [-(2); 0; 1; 0]. split; [now left|]. intro Z. inversion Z; lra. }
  rewrite Ep in H. cbn [bind] in H. apply mapM_Forall2 in H. clear Eh. induction H as [|g h hyps' out' Hg _ IH]; [constructor|]. constructor; [|exact IH]. clear IH.
  destruct (region_of g) as [r|] eqn:Er; [|discriminate]. cbn [bind] in Hg. unfold derived_bound_zeta_LV in Hg. rewrite derived_l_one in Hg. injection Hg as <-.
  exists r, (RInter [RPoly (plain p); r]). split; [reflexivity|]. split; [reflexivity|]. split; [reflexivity|]. split; [reflexivity|].
  intros s t u. cbn [denote allP body plain]. rewrite M. rewrite Forall_cons_iff. unfold Spec_Polytope.holds. cbn [fst snd]. rewrite rowval4.
  split; [intros ((_ & A & _) & B & _); split; [lra|auto]|intros (A & B)]. split; [split; [reflexivity|split; [lra|constructor]]|auto].
Qed.
Print Assumptions lv_to_zlv_exact.

(** ** Everything returned rests on the set *)

Lemma finish_wf : forall bounds self refs sl out, finish bounds self sl refs = Ret out ->
  Forall (fun b => wf (dom b)) bounds -> (forall r, In r refs -> wf (dom (deref self r))) ->
  forall o p, In o out -> out_bound bounds o = Some p -> wf (dom p).
Proof.
  intros bounds self refs. induction refs as [|r refs IH]; intros sl out H Wb Wr o p I P; [injection H as <-; destruct I|].
  cbn [finish] in H. destruct (match r with RSelf => sl | ROwn p => label p end) as [i|]; [|discriminate].
  destruct (nth_error bounds i) as [dep|] eqn:En; [|discriminate].
  destruct (finish bounds self _ refs) as [rest|] eqn:Er; [|discriminate]. cbn [bind] in H. injection H as <-.
  destruct I as [<-|I]; [|exact (IH _ rest Er Wb ltac:(intros r' Ir; apply Wr; now right) o p I P)].
  destruct (affine_eqb (deref self r) dep); cbn [out_bound] in P.
  - apply nth_error_In in P. rewrite Forall_forall in Wb. auto.
  - injection P as <-. cbn [dom]. apply Wr. now left.
Qed.

Lemma best_beta_wf : forall bounds out, Forall (fun b => wf (dom b)) bounds -> compute_best_beta_bounds bounds None = Ret out ->
  forall o p, In o out -> out_bound bounds o = Some p -> wf (dom p).
Proof.
  intros bounds out Wb H o p I P. unfold compute_best_beta_bounds in H. destruct bounds as [|b0 [|b1 rest]] eqn:EB.
  - injection H as <-. destruct I.
  - injection H as <-. destruct I as [<-|[]]. cbn in P. injection P as <-. now inversion Wb.
  - inversion Wb as [|? ? W0 W1]; subst. rewrite (deep_copy_ok b0 W0) in H. cbn [bind] in H.
    assert (Dw : wf (mkI 0 (1#2) true true)) by (unfold wf; cbn; lra).
    destruct (envelope_ok _ (b1 :: rest) [b0] _ Dw W1 (init_inv None b0 W0)) as [st [E [[I1 _] _]]].
    cbn [List.length] in E. rewrite E in H. cbn [bind] in H.
    eapply finish_wf; [exact H|exact Wb| |exact I|exact P].
    intros r Ir. destruct (I1 (deref (fst st) r)) as [X _]; [|exact X]. unfold deref_all. apply in_map_iff. eauto.
Qed.

Lemma best_beta_shape : forall hs bs be, Forall (fun h => is_beta h = true -> wf (dom (bound_of h))) hs ->
  best_beta_nodes hs = Ret bs -> In be bs -> n_data be = DBeta (bound_of be) /\ wf (dom (bound_of be)).
Proof.
  intros hs bs be Wf H I. destruct (best_nodes hs bs Wf H) as (out & E & F). destruct (Forall2_in_r _ _ _ _ _ _ F I) as (o & Io & P & Eb & _).
  split; [now apply is_beta_data|]. eapply best_beta_wf; [|exact E|exact Io|exact Eb].
  apply Forall_map, Forall_forall. intros h Ih. apply filter_In in Ih as [Ih Ph]. rewrite Forall_forall in Wf. auto.
Qed.

Lemma holds_data : forall tr btr W h h', n_data h = n_data h' -> holds tr btr W h -> holds tr btr W h'.
Proof. intros tr btr W h h' E. unfold holds. now rewrite E. Qed.

Lemma lholds_base : forall tr btr W h, lholds tr btr W (LBase h) <-> holds tr btr (base W) h.
Proof. intros. unfold lholds. cbn [l_data]. split; apply holds_data; reflexivity. Qed.

(** What rests on the exponent pairs and bounds of the set rests on the set. *)
Lemma grounded_base : forall tr btr hs h, grounded tr btr (bases hs) h -> lgrounded tr btr hs (LBase h).
Proof.
  intros tr btr hs h G. induction G as [h I|h S _ IH].
  - apply lgrounded_in. unfold bases in I. apply in_flat_map in I as (x & Ix & Hx). destruct x as [|g]; [destruct Hx|]. destruct Hx as [->|[]]. exact Ix.
  - apply lgrounded_by.
    + intros W Ad F. apply lholds_base. apply S; [apply (lv_base W Ad)|]. cbn [l_deps] in F. rewrite Forall_map in F.
      eapply Forall_impl; [|exact F]. intros d. apply lholds_base.
    + intros d Id. cbn [l_deps] in Id. apply in_map_iff in Id as (g & <- & Ig). auto.
Qed.

Theorem lgrounded_true : forall tr btr W hs h, lv_admissible W -> Forall (lholds tr btr W) hs -> lgrounded tr btr hs h -> lholds tr btr W h.
Proof.
  intros tr btr W hs h Ad F G. rewrite Forall_forall in F. induction G as [h I|h S _ IH]; [auto|]. apply S; [auto|]. now apply Forall_forall.
Qed.
Print Assumptions lgrounded_true.

Theorem lv_and_transformed_grounded : forall tr btr hs hyps h, sized_lv hs -> natural_powers hs -> lv_and_transformed hs = Ret hyps -> In h hyps ->
  lgrounded tr btr hs h.
Proof.
  intros tr btr hs hyps h SL NP H I. apply (lv_and_transformed_exact hs hyps H) in I as [[I _]|(t & k & g & It & Dt & Ig & Pg & Eg)]; [now apply lgrounded_in|].
  unfold is_lv in Pg. destruct (l_data g) as [r rep| | |] eqn:Dg; try discriminate.
  destruct (raise_to_power_supported tr btr k g r rep h (NP t k It Dt) Dg (SL g r rep Ig Dg) Eg) as [Ed S].
  apply lgrounded_by; [exact S|]. intros d Id. rewrite Ed in Id. destruct Id as [<-|[]]. now apply lgrounded_in.
Qed.
Print Assumptions lv_and_transformed_grounded.

Theorem compute_zlv_grounded : forall E, ext_ok E -> forall tr btr hs out h, sized_lv hs -> natural_powers hs -> wf_beta hs ->
  compute_large_value_estimate E hs = Ret out -> In h out -> is_zlv h = true /\ lgrounded tr btr hs h.
Proof.
  intros E OK tr btr hs out h SL NP WB H I. unfold compute_large_value_estimate in H.
  destruct (lv_to_zlv E hs) as [a|] eqn:Ea; [|discriminate]. cbn [bind] in H. destruct (beta_to_zlv E hs) as [b|] eqn:Eb; [|discriminate]. injection H as <-.
  apply in_app_iff in I as [I|I]; [|apply in_app_iff in I as [I|I]].
  - apply filter_In in I as [I P]. split; [exact P|]. now apply lgrounded_in.
  - destruct (lv_to_zlv_exact E OK hs a Ea) as (hyps & Eh & F). destruct (Forall2_in_r _ _ _ _ _ _ F I) as (g & Ig & r & r' & Er & Dh & Ed & _ & X).
    split; [unfold is_zlv; now rewrite Dh|].
    assert (Pg : exists rep, l_data g = DLV r rep).
    { apply (lv_and_transformed_exact hs hyps Eh) in Ig as [[_ Pg]|(t & k & g0 & _ & _ & _ & Pg0 & Eg)].
      - unfold is_lv in Pg. unfold region_of in Er. destruct (l_data g); try discriminate. injection Er as ->. eauto.
      - unfold raise_to_power in Eg. destruct (region_of g0); [|discriminate]. cbn [bind] in Eg. destruct (rscale_all _ _); [|discriminate]. cbn [bind] in Eg.
        apply derived_l_inv in Eg as (Dg & _). unfold region_of in Er. rewrite Dg in *. injection Er as ->. eauto. }
    destruct Pg as (rep & Dg). apply lgrounded_by.
    + intros W Ad Fd. rewrite Ed in Fd. inversion Fd as [|? ? Hg _]; subst. unfold lholds in *. rewrite Dh. rewrite Dg in Hg.
      intros s t u R T L. apply X. split; [exact T|]. destruct R as (R1 & R2 & R3). apply Hg; [split; [auto|split; [auto|exact R3]]|]. apply (zlv_lv W Ad); auto.
    + intros d Id. rewrite Ed in Id. destruct Id as [<-|[]]. exact (lv_and_transformed_grounded tr btr hs hyps g SL NP Eh Ig).
  - unfold beta_to_zlv in Eb. destruct (best_beta_nodes (bases hs)) as [bs|] eqn:Ebs; [|discriminate]. cbn [bind] in Eb. apply mapM_Forall2 in Eb.
    destruct (Forall2_in_r _ _ _ _ _ _ Eb I) as (be & Ib & Eh).
    assert (Wf : Forall (fun h => is_beta h = true -> wf (dom (bound_of h))) (bases hs)).
    { apply Forall_forall. intros g Ig P. apply is_beta_data in P. apply (WB g); [|exact P].
      unfold bases in Ig. apply in_flat_map in Ig as (x & Ix & Hx). destruct x as [|g']; [destruct Hx|]. destruct Hx as [->|[]]. exact Ix. }
    assert (G : grounded tr btr (bases hs) be) by exact (best_beta_grounded tr btr (bases hs) bs be Wf Ebs Ib).
    assert (Db : n_data be = DBeta (bound_of be) /\ wf (dom (bound_of be))).
    { exact (best_beta_shape (bases hs) bs be Wf Ebs Ib). }
    destruct Db as [Db Wd]. destruct (beta_zlv_supported E OK tr btr be _ h Db Wd Eh) as [Ed S].
    split.
    + destruct (beta_zlv_ok E OK be h Eh) as (r & Dh & _). unfold is_zlv. now rewrite Dh.
    + apply lgrounded_by; [exact S|]. intros d Id. rewrite Ed in Id. destruct Id as [<-|[]]. now apply grounded_base.
Qed.
Print Assumptions compute_zlv_grounded.

(** The same for the estimates from mu, which [compute_large_value_estimate]
    leaves out. *)
Theorem mu_to_zlv_grounded : forall E, ext_ok E -> forall tr btr hs out h, mu_to_zlv E hs = Ret out -> In h out ->
  is_zlv h = true /\ lgrounded tr btr hs h.
Proof.
  intros E OK tr btr hs out h H I. unfold mu_to_zlv in H. apply mapM_Forall2 in H. destruct (Forall2_in_r _ _ _ _ _ _ H I) as (mb & Im & Eh).
  apply filter_In in Im as [Im P]. unfold is_mu in P. destruct (n_data mb) as [| | | |s0 m] eqn:Dm; try discriminate.
  destruct (mu_zlv_supported E OK tr btr mb s0 m h Dm Eh) as [Ed S]. split.
  - destruct (mu_zlv_exact E OK mb s0 m Dm) as (h' & r & Eh' & Dh & _). rewrite Eh' in Eh. injection Eh as <-. unfold is_zlv. now rewrite Dh.
  - apply lgrounded_by; [exact S|]. intros d Id. rewrite Ed in Id. destruct Id as [<-|[]]. apply grounded_base. now apply grounded_in.
Qed.
Print Assumptions mu_to_zlv_grounded.

(** Hence a true set of hypotheses only yields true estimates. *)
Theorem compute_zlv_sound : forall E, ext_ok E -> forall tr btr W hs out h r rep, lv_admissible W -> Forall (lholds tr btr W) hs ->
  sized_lv hs -> natural_powers hs -> wf_beta hs -> compute_large_value_estimate E hs = Ret out -> In h out -> l_data h = DZLV r rep -> zlv_estimate W r.
Proof.
  intros E OK tr btr W hs out h r rep Ad F SL NP WB H I D.
  destruct (compute_zlv_grounded E OK tr btr hs out h SL NP WB H I) as [_ G]. pose proof (lgrounded_true tr btr W hs h Ad F G) as T.
  unfold lholds in T. now rewrite D in T.
Qed.
Print Assumptions compute_zlv_sound.

(** ** The calls return *)

Lemma mapM_total : forall A B (f : A -> res B) l, (forall x, In x l -> exists y, f x = Ret y) -> exists ys, mapM f l = Ret ys.
Proof.
  intros A B f l. induction l as [|x l IH]; intro H; [exists []; reflexivity|].
  destruct (H x (or_introl eq_refl)) as (y & Ey). destruct IH as (ys & Eys); [intros z Iz; apply H; now right|].
  exists (y :: ys). cbn [mapM]. rewrite Ey. cbn [bind]. now rewrite Eys.
Qed.

Theorem lv_to_zlv_returns : forall E, ext_ok E -> forall hs, sized_lv hs -> natural_powers hs -> exists out, lv_to_zlv E hs = Ret out.
Proof.
  intros E OK hs SL NP. unfold lv_to_zlv.
  assert (X : exists hyps, lv_and_transformed hs = Ret hyps).
  { unfold lv_and_transformed. destruct (mapM_total _ _ (fun t => mapM (apply_lv_trans t) (filter is_lv hs)) (filter is_lv_trans hs)) as (ts & Et).
    - intros t It. apply mapM_total. intros g Ig. apply filter_In in It as [It Pt]. apply filter_In in Ig as [Ig Pg].
      unfold is_lv_trans in Pt. unfold is_lv in Pg. unfold apply_lv_trans. destruct (l_data t) as [|k| |] eqn:Dt; try discriminate.
      destruct (l_data g) as [r rep| | |] eqn:Dg; try discriminate.
      destruct (raise_to_power_region k g r rep Dg (SL g r rep Ig Dg)) as (h' & _ & Eh & _); [|eauto].
      destruct (NP t k It Dt) as (n & N & Hn). rewrite Hn. intro Z. assert (0 < inject_Z n) by (change 0 with (inject_Z 0); rewrite <- Zlt_Qlt; lia). lra.
    - rewrite Et. cbn [bind]. eauto. }
  destruct X as (hyps & Eh). rewrite Eh. cbn [bind].
  destruct (Polytope_ok E OK [[-(2); 0; 1; 0]] false false 4 ltac:(lia) ltac:(repeat constructor)) as (p & Ep & _).
  { exists [-(2); 0; 1; 0]. split; [now left|]. intro Z. inversion Z; lra. }
  rewrite Ep. cbn [bind]. apply mapM_total. intros g Ig.
  assert (Pg : exists r rep, l_data g = DLV r rep).
  { apply (lv_and_transformed_exact hs hyps Eh) in Ig as [[_ Pg]|(t & k & g0 & _ & _ & _ & Pg0 & Eg)].
    - unfold is_lv in Pg. destruct (l_data g); try discriminate. eauto.
    - unfold raise_to_power in Eg. destruct (region_of g0); [|discriminate]. cbn [bind] in Eg. destruct (rscale_all _ _); [|discriminate]. cbn [bind] in Eg.
      apply derived_l_inv in Eg as (Dg & _). eauto. }
  destruct Pg as (r & rep & Dg). unfold region_of. rewrite Dg. cbn [bind]. unfold derived_bound_zeta_LV. rewrite derived_l_one. eauto.
Qed.
Print Assumptions lv_to_zlv_returns.

Theorem compute_zlv_returns : forall E, ext_ok E -> forall hs bs, sized_lv hs -> natural_powers hs -> best_beta_nodes (bases hs) = Ret bs ->
  exists out, compute_large_value_estimate E hs = Ret out.
Proof.
  intros E OK hs bs SL NP H. unfold compute_large_value_estimate. destruct (lv_to_zlv_returns E OK hs SL NP) as (a & Ea). rewrite Ea. cbn [bind].
  unfold beta_to_zlv. rewrite H. cbn [bind]. destruct (mapM_total _ _ (beta_zlv E) bs) as (b & Eb); [|rewrite Eb; cbn [bind]; eauto].
  intros be _. apply beta_zlv_total. exact OK.
Qed.
Print Assumptions compute_zlv_returns.

(** The members of the result: the recorded estimates, one for each large value
    estimate and each transform of one, and one for each best bound on beta. *)
Theorem compute_zlv_members : forall E hs out, compute_large_value_estimate E hs = Ret out ->
  exists hyps bs, lv_and_transformed hs = Ret hyps /\ best_beta_nodes (bases hs) = Ret bs /\
    exists a b, out = filter is_zlv hs ++ a ++ b /\ List.length a = List.length hyps /\ Forall2 (fun be h => beta_zlv E be = Ret h) bs b.
Proof.
  intros E hs out H. unfold compute_large_value_estimate in H. destruct (lv_to_zlv E hs) as [a|] eqn:Ea; [|discriminate]. cbn [bind] in H.
  destruct (beta_to_zlv E hs) as [b|] eqn:Eb; [|discriminate]. injection H as <-. unfold lv_to_zlv in Ea. destruct (lv_and_transformed hs) as [hyps|]; [|discriminate].
  cbn [bind] in Ea. destruct (Polytope E _ false false); [|discriminate]. cbn [bind] in Ea. apply mapM_Forall2 in Ea.
  unfold beta_to_zlv in Eb. destruct (best_beta_nodes (bases hs)) as [bs|]; [|discriminate]. cbn [bind] in Eb. apply mapM_Forall2 in Eb.
  exists hyps, bs. split; [reflexivity|]. split; [reflexivity|]. exists a, b. split; [reflexivity|]. split; [|exact Eb].
  symmetry. clear - Ea. induction Ea; cbn; congruence.
Qed.
Print Assumptions compute_zlv_members.

(** ** Estimates recorded from the literature *)

Theorem literature_bound_ZLV_exact : forall E, ext_ok E -> forall bounds r params, bounds <> [] -> Forall (fun b => List.length b = 3%nat) bounds ->
  exists h reg rep, literature_bound_ZLV_Max E bounds r params = Ret h /\ l_data h = DZLV reg (Some rep) /\ l_ref h = r /\ l_deps h = [] /\
    forall W, zlv_estimate W reg <-> forall s t u, in_range s t u -> 2 <= t -> zlv W s t u -> exists b, In b bounds /\ u <= bound_at b s t.
Proof.
  intros E OK bounds r params N F. destruct (convert_bounds_ok E OK bounds N F) as (ps & rep & Ec & _ & _ & _ & X & _).
  unfold literature_bound_ZLV_Max. rewrite Ec. cbn [bind]. do 3 eexists. split; [reflexivity|]. split; [reflexivity|]. split; [reflexivity|]. split; [reflexivity|].
  intro W. unfold zlv_estimate. split.
  - intros T s0 t u R T2 L. specialize (T s0 t u R T2 L). apply X in T as (s1 & t1 & u1 & Eq & _ & Ex). injection Eq as <- <- <-.
    apply Exists_exists in Ex. exact Ex.
  - intros T s0 t u R T2 L. apply X. exists s0, t, u. split; [reflexivity|]. split; [exact R|]. apply Exists_exists. eauto.
Qed.
Print Assumptions literature_bound_ZLV_exact.

(** ** Examples *)

(** beta(a) <= 1/6 + a/2, from the exponent pair (1/6, 2/3). *)
Definition ex_beta : hnode := HNode [] (DBeta (mkA (1#2) (1#6) (mkI 0 (1#2) true true) None)) ref_trivial [].
Example ex_beta_zlv : exists h r, beta_zlv fm_ext ex_beta = Ret h /\ l_data h = DZLV r None /\
  rcontains r [9#10; 239#100; 0] = Ret true /\ rcontains r [9#10; 239#100; 1] = Ret false /\ rcontains r [9#10; 12#5; 1] = Ret true.
Proof. do 2 eexists. split; [vm_compute; reflexivity|]. split; [reflexivity|]. repeat split; vm_compute; reflexivity. Qed.
Example ex_beta_domain : 0 <= x0 (dom (bound_of ex_beta)) /\ x0 (dom (bound_of ex_beta)) <= 1#2 /\ 1 / TAU_UPPER_LIMIT <= x1 (dom (bound_of ex_beta)).
Proof. repeat split; apply Qleb_true; reflexivity. Qed.

(** mu(1/2) <= 1/6 *)
Definition ex_mu : hnode := HNode [] (DMu (1#2) (1#6)) ref_trivial [].
Example ex_mu_zlv : exists h r, mu_zlv fm_ext ex_mu = Ret h /\ l_data h = DZLV r None /\
  rcontains r [9#10; 239#100; 0] = Ret true /\ rcontains r [9#10; 239#100; 1] = Ret false /\ rcontains r [9#10; 12#5; 1] = Ret true.
Proof. do 2 eexists. split; [vm_compute; reflexivity|]. split; [reflexivity|]. repeat split; vm_compute; reflexivity. Qed.

(** A set with an estimate, a transform, a bound on beta and one on mu. *)
Example ex_zlv_set : exists h, classical_LV_estimate fm_ext [[2; -2; 0]; [4; -6; 1]] = Ret h /\
  let hs := [h; raise_to_power_hypothesis 2; LBase ex_beta; LBase ex_mu] in
  sized_lv hs /\ natural_powers hs /\ wf_beta hs /\
  exists out, compute_large_value_estimate fm_ext hs = Ret out /\ List.length out = 3%nat.
Proof.
  destruct (convert_bounds_ok fm_ext fm_ext_ok [[2; -2; 0]; [4; -6; 1]] ltac:(discriminate) ltac:(repeat constructor)) as (ps & rep & Ec & _ & _ & S & _).
  unfold classical_LV_estimate. rewrite Ec. cbn [bind]. eexists. split; [reflexivity|]. cbv zeta.
  match goal with |- sized_lv ?hs /\ _ => set (HS := hs) end.
  assert (A1 : sized_lv HS).
  { intros h r rp [<-|[<-|[<-|[<-|[]]]]] D; try discriminate. injection D as <- _. exact S. }
  assert (A2 : natural_powers HS).
  { intros t k [<-|[<-|[<-|[<-|[]]]]] D; try discriminate. injection D as <-. exact ex_natural_power. }
  split; [exact A1|]. split; [exact A2|]. split.
  { intros h b [H|[H|[H|[H|[]]]]] D; try discriminate; injection H as <-; try discriminate. injection D as <-. unfold wf. cbn. lra. }
  destruct (compute_zlv_returns fm_ext fm_ext_ok HS [ex_beta] A1 A2 ltac:(reflexivity)) as (out & Eo). exists out. split; [exact Eo|].
  destruct (compute_zlv_members fm_ext HS out Eo) as (hyps & bs & Eh & Eb & a & b & -> & La & F). cbn in Eb. injection Eb as <-.
  apply Forall2_len in F. rewrite !app_length, La, <- F. clear - Eh.
  unfold lv_and_transformed in Eh. destruct (mapM _ (filter is_lv_trans HS)) as [ts|] eqn:Em; [|discriminate]. cbn [bind] in Eh. injection Eh as <-.
  apply mapM_Forall2 in Em. cbn in Em. inversion Em as [|? ? ? ? H1 H2]; subst. inversion H2; subst. destruct (apply_lv_trans _ _); [|discriminate]. cbn in H1. injection H1 as <-. reflexivity.
Qed.
