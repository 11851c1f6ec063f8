(** Proofs about zeta large value estimates. *)
From Verif Require Import Base Model_Text Model_Reference Spec_Reference Proof_Reference Model_Interval Model_Affine LinAlg Model_Polytope Spec_Polytope
  Proof_Polytope Proof_PolytopeMaps Model_Region Spec_Region Proof_Region Model_ExponentPair Spec_ExponentPair
  Proof_ExponentPair Proof_ExpDual Model_LargeValues Spec_LargeValues Proof_LargeValues Model_ZetaLargeValues.
Open Scope list_scope.

Section Ext.
Context (E : ext) (OK : ext_ok E).

(** Unions of polytopes given by rows of length four, none of them all zero. *)
Lemma disjoint_polys_ok : forall rows, Forall (fun rs => Forall (fun r => List.length r = 4%nat) rs /\ In [1; -1; 0; 0] rs) rows ->
  exists r, disjoint_polys E rows = Ret r /\ sized 3 r /\
    forall s t u, denote r [s; t; u] <-> exists rs, In rs rows /\ Forall (fun c => 0 <= rowval c [s; t; u]) rs.
Proof.
  intros rows F. unfold disjoint_polys.
  assert (X : exists ps, mapM (fun r => Polytope E r false false) rows = Ret ps /\
    Forall2 (fun rs p => good p /\ ncol (pmat p) = 4%nat /\ forall x, member p x <-> S (List.length x) = 4%nat /\ Forall (fun r => 0 <= rowval r x) rs) rows ps).
  { induction F as [|rs rows [L N] F IH]; [exists []; split; [reflexivity|constructor]|]. destruct IH as (ps & Eps & F2).
    destruct (Polytope_ok E OK rs false false 4 ltac:(lia) L) as (p & Ep & Gp & Np & _ & Mp).
    - exists [1; -1; 0; 0]. split; [exact N|]. intro Z. inversion Z; lra.
    - exists (p :: ps). cbn [mapM]. rewrite Ep. cbn [bind]. rewrite Eps. split; [reflexivity|]. constructor; [|exact F2].
      split; [exact Gp|]. split; [exact Np|]. exact Mp. }
  destruct X as (ps & Eps & F2). rewrite Eps. cbn [bind]. eexists. split; [reflexivity|].
  split.
  - cbn [sized leaves]. apply allP_iff. intros a Ha. apply in_map_iff in Ha as (p & <- & Hp).
    destruct (Forall2_in_r _ _ _ _ _ _ F2 Hp) as (rs & Hrs & G & N & M). cbn [leaves body plain]. split; [exact G|].
    assert (D : has_dim 3 (plain p)) by exact N. split; [|exact D].
    apply (has_rows p 3 D). exists [2; 0; 0]. split; [reflexivity|]. intro Mm. apply M in Mm as [_ Mm].
    rewrite Forall_forall in F, Mm. destruct (F rs Hrs) as [_ I]. specialize (Mm _ I). rewrite rowval4 in Mm. lra.
  - intros s t u. cbn [denote]. rewrite anyP_iff. split.
    + intros (a & Ha & D). apply in_map_iff in Ha as (p & <- & Hp). destruct (Forall2_in_r _ _ _ _ _ _ F2 Hp) as (rs & Hrs & _ & _ & M).
      exists rs. split; [exact Hrs|]. now apply M.
    + intros (rs & Hrs & D). destruct (Forall2_in_l _ _ _ _ _ _ F2 Hrs) as (p & Hp & _ & _ & M).
      exists (RPoly (plain p)). split; [apply in_map_iff; eauto|]. apply M. split; [reflexivity|exact D].
Qed.

Lemma in4 : forall {A} (a b c d : A) (P : A -> Prop), (exists x, In x [a; b; c; d] /\ P x) <-> P a \/ P b \/ P c \/ P d.
Proof.
  intros. split.
  - intros (x & [<-|[<-|[<-|[<-|[]]]]] & H); auto.
  - intros [H|[H|[H|H]]]; eexists; (split; [|exact H]); cbn; auto.
Qed.
Lemma in2 : forall {A} (a b : A) (P : A -> Prop), (exists x, In x [a; b] /\ P x) <-> P a \/ P b.
Proof.
  intros. split.
  - intros (x & [<-|[<-|[]]] & H); auto.
  - intros [H|H]; eexists; (split; [|exact H]); cbn; auto.
Qed.

Lemma beta_rows_iff : forall A B tl tu s t u,
  (exists rs, In rs (beta_rows A B tl tu) /\ Forall (fun c => 0 <= rowval c [s; t; u]) rs) <->
  (1#2 <= s /\ s <= 1 /\ 0 <= u /\
   ((u == 0 /\ tl <= t /\ t <= tu /\ A * t + B <= s) \/
    (u <= t /\ ((tl <= t /\ t <= tu /\ s <= A * t + B) \/ (2 <= t /\ t <= tl) \/ (tu <= t /\ t <= TAU_UPPER_LIMIT))))).
Proof.
  intros. unfold beta_rows. rewrite in4. rewrite !Forall_cons_iff, !rowval4.
  assert (N : forall P : Q -> Prop, Forall P [] <-> True) by (intro P; split; [auto|constructor]).
  assert (N' : forall P : list Q -> Prop, Forall P [] <-> True) by (intro P; split; [auto|constructor]).
  rewrite !N'. clear N N'. unfold TAU_UPPER_LIMIT.
  split.
  - intros [H|[H|[H|H]]]; decompose [and] H; clear H.
    + split; [lra|]. split; [lra|]. split; [lra|]. left. split; [lra|]. split; [lra|]. split; lra.
    + split; [lra|]. split; [lra|]. split; [lra|]. right. split; [lra|]. left. split; [lra|]. split; lra.
    + split; [lra|]. split; [lra|]. split; [lra|]. right. split; [lra|]. right. left. split; lra.
    + split; [lra|]. split; [lra|]. split; [lra|]. right. split; [lra|]. right. right. split; lra.
  - intros (S0 & S1 & U & [(U0 & T0 & T1 & H)|(U0 & [(T0 & T1 & H)|[(T0 & T1)|(T0 & T1)]])]).
    + left. repeat (split; [lra|]). exact Logic.I.
    + right. left. repeat (split; [lra|]). exact Logic.I.
    + right. right. left. repeat (split; [lra|]). exact Logic.I.
    + right. right. right. repeat (split; [lra|]). exact Logic.I.
Qed.

Lemma mu_rows_iff : forall s0 m s t u,
  (exists rs, In rs (mu_rows s0 m) /\ Forall (fun c => 0 <= rowval c [s; t; u]) rs) <->
  (1#2 <= s /\ s <= 1 /\ 0 <= u /\ 2 <= t /\ t <= TAU_UPPER_LIMIT /\
   ((u == 0 /\ s0 + t * m <= s) \/ (u <= t /\ s <= s0 + t * m))).
Proof.
  intros. unfold mu_rows. rewrite in2. rewrite !Forall_cons_iff, !rowval4.
  assert (N' : forall P : list Q -> Prop, Forall P [] <-> True) by (intro P; split; [auto|constructor]).
  rewrite !N'. clear N'. unfold TAU_UPPER_LIMIT.
  split.
  - intros [H|H]; decompose [and] H; clear H; repeat (split; [lra|]); [left|right]; split; lra.
  - intros (S0 & S1 & U & T0 & T1 & [(U0 & H)|(U0 & H)]); [left|right]; repeat (split; [lra|]); exact Logic.I.
Qed.

Lemma beta_zlv_ok : forall be h, beta_zlv E be = Ret h ->
  exists r, l_data h = DZLV r None /\ l_deps h = [LBase be] /\ r_year (l_ref h) = r_year (n_ref be) /\ sized 3 r /\
  forall s t u, denote r [s; t; u] <->
    exists rs, In rs (beta_rows (icpt (bound_of be)) (slope (bound_of be)) (tau_lower (x1 (dom (bound_of be)))) (tau_upper (x0 (dom (bound_of be))))) /\
      Forall (fun c => 0 <= rowval c [s; t; u]) rs.
Proof.
  intros be h H. unfold beta_zlv in H. set (rows := beta_rows _ _ _ _) in *.
  destruct (disjoint_polys_ok rows) as (r & Er & Sr & X).
  { unfold rows, beta_rows. repeat (apply Forall_cons; [split; [repeat constructor|cbn; auto 10]|]); constructor. }
  rewrite Er in H. cbn [bind] in H. unfold derived_bound_zeta_LV in H. rewrite derived_l_one in H. injection H as <-.
  exists r. cbn. auto 10.
Qed.

Lemma beta_zlv_total : forall be, exists h, beta_zlv E be = Ret h.
Proof.
  intro be. unfold beta_zlv. set (rows := beta_rows _ _ _ _) in *.
  destruct (disjoint_polys_ok rows) as (r & Er & Sr & X).
  { unfold rows, beta_rows. repeat (apply Forall_cons; [split; [repeat constructor|cbn; auto 10]|]); constructor. }
  rewrite Er. cbn [bind]. unfold derived_bound_zeta_LV. rewrite derived_l_one. eauto.
Qed.

Lemma mu_zlv_ok : forall mb s0 m, n_data mb = DMu s0 m ->
  exists h r, mu_zlv E mb = Ret h /\ l_data h = DZLV r None /\ l_deps h = [LBase mb] /\ r_year (l_ref h) = r_year (n_ref mb) /\ sized 3 r /\
  forall s t u, denote r [s; t; u] <-> exists rs, In rs (mu_rows s0 m) /\ Forall (fun c => 0 <= rowval c [s; t; u]) rs.
Proof.
  intros mb s0 m D. unfold mu_zlv. rewrite D.
  destruct (disjoint_polys_ok (mu_rows s0 m)) as (r & Er & Sr & X).
  { unfold mu_rows. repeat (apply Forall_cons; [split; [repeat constructor|cbn; auto 10]|]); constructor. }
  rewrite Er. cbn [bind]. unfold derived_bound_zeta_LV. rewrite derived_l_one. do 2 eexists. split; [reflexivity|]. cbn. auto 10.
Qed.
End Ext.
