(** The regions and values of a derivation from large value estimates. *)
From Coq Require Import Reals Qreals Permutation.
From Verif Require Import Base LinAlg FM Model_Text Model_Reference Spec_Reference Model_Polytope Spec_Polytope Proof_Polytope Proof_PolytopeLP FM_Ext
  Model_Region Spec_Region Proof_Region Proof_RegionSolid Prop_Region Proof_RegionDisjoint
  Model_ExponentPair Spec_ExponentPair Model_LargeValues Spec_LargeValues Proof_LargeValues Prop_LargeValues Model_ZetaLargeValues Prop_ZetaLargeValues
  Model_LargeValueRegion Spec_LargeValueRegion Prop_LargeValueRegion
  Model_RationalFunction Spec_RationalFunction Model_ZeroDensity Spec_ZeroDensity Model_DensityEstimate Spec_DensityEstimate
  Model_DensityDerivation Spec_DensityDerivation Prop_DensityDerivation
  Proof_RegionSplit Spec_Anchored Proof_HalfSplit Proof_SupExact Spec_DerivedDensity.
From Coq Require Import Lra.
Open Scope list_scope.
Local Open Scope Q_scope.

(** Bounds raised to a power. *)
Definition scaled (k : Q) (b : list Q) : list Q := [k * nth 0 b 0; k * nth 1 b 0; nth 2 b 0].
Definition system (Bs : list (list (list Q))) (ks : list Q) : list (list (list Q)) :=
  flat_map (fun B => map (fun k => map (scaled k) B) ks) Bs.

Lemma scaled_at : forall k b s t, ~ k == 0 -> bound_at (scaled k b) s t == k * bound_at b s (t / k).
Proof. intros k b s t K. unfold bound_at, scaled. cbn [nth]. field. exact K. Qed.
Lemma adm_permitted : forall Bs ks s t u, Forall (fun k => ~ k == 0) ks -> (adm (system Bs ks) s t u <-> permitted Bs ks s t u).
Proof.
  intros Bs ks s t u NZ. unfold adm, permitted, system. rewrite Forall_forall. rewrite Forall_forall in NZ. split.
  - intros H B k IB Ik. specialize (H (map (scaled k) B)). assert (I : In (map (scaled k) B) (flat_map (fun B => map (fun k => map (scaled k) B) ks) Bs)).
    { apply in_flat_map. exists B. split; [exact IB|]. apply in_map_iff. exists k. auto. }
    specialize (H I). apply Exists_exists in H as (b' & Ib & Hb). apply in_map_iff in Ib as (b & <- & Ib). exists b. split; [exact Ib|]. now rewrite <- (scaled_at k b s t (NZ k Ik)).
  - intros H B' I. apply in_flat_map in I as (B & IB & I). apply in_map_iff in I as (k & <- & Ik). destruct (H B k IB Ik) as (b & Ib & Hb).
    apply Exists_exists. exists (scaled k b). split; [now apply in_map|]. now rewrite (scaled_at k b s t (NZ k Ik)).
Qed.

Lemma sadm_near : forall sys s t u, sadm sys s t u ->
  exists e, 0 < e /\ forall s' t' u', Qabs (s' - s) <= e -> Qabs (t' - t) <= e -> Qabs (u' - u) <= e -> sadm sys s' t' u'.
Proof.
  intros sys s t u. induction sys as [|B sys IH]; intro S; [exists 1; split; [reflexivity|]; constructor|].
  apply Forall_cons_iff in S as [S1 S]. destruct (IH S) as (e1 & P1 & H1). apply Exists_exists in S1 as (b & Ib & Hb).
  set (D := bound_at b s t - u). assert (PD : 0 < D) by (unfold D; Lqa.lra).
  set (M := Qabs (nth 1 b 0) + Qabs (nth 2 b 0) + 1).
  pose proof (Qabs_nonneg (nth 1 b 0)) as N1. pose proof (Qabs_nonneg (nth 2 b 0)) as N2. assert (PM : 0 < M) by (unfold M; Lqa.lra).
  set (e2 := D / (2 * M)). assert (P2 : 0 < e2) by (apply Qlt_shift_div_l; Lqa.lra). assert (E2 : e2 * M < D).
  { assert (Z : e2 * M == D * (1#2)) by (unfold e2; field; Lqa.lra). Lqa.lra. }
  destruct (qmin_le e1 e2) as [M1 M2]. exists (qmin e1 e2). split; [unfold qmin; destruct (Qltb e2 e1); assumption|].
  intros s' t' u' A1 A2 A3. constructor; [|apply H1; Lqa.lra]. apply Exists_exists. exists b. split; [exact Ib|].
  assert (K : forall c x e, Qabs x <= e -> - (Qabs c * e) <= c * x).
  { intros c x e H. pose proof (Qabs_nonneg c) as Nc. pose proof (Qle_Qabs (- (c * x))) as L. rewrite Qabs_opp, Qabs_Qmult in L.
    assert (Qabs c * Qabs x <= Qabs c * e) by (rewrite !(Qmult_comm (Qabs c)); apply Qmult_le_compat_r; assumption). Lqa.lra. }
  pose proof (K (nth 1 b 0) (s' - s) e2 ltac:(Lqa.lra)) as K1. pose proof (K (nth 2 b 0) (t' - t) e2 ltac:(Lqa.lra)) as K2.
  pose proof (Qle_Qabs (u' - u)) as K3. unfold bound_at in *. unfold M in E2. unfold D in *. Lqa.lra.
Qed.

Section Run.
Context (E : ext) (OK : ext_ok E) (AN : anchored E) (order : nat -> list nat -> list nat) (OO : forall k l, Permutation (order k l) l)
  (iteration : list lnode -> list lnode) (IT : forall l x, In x (iteration l) <-> In x l).
Context (Bs : list (list (list Q))) (ks : list Q) (hs : list lnode).
Context (KS : Forall natural_power ks) (K1 : In 1 ks).
Context (H1 : forall h, In h hs -> (exists B, In B Bs /\ records E h B) \/ (exists k, In k ks /\ l_data h = DLVTrans k /\ proper_year (r_year (l_ref h))))
  (H2 : forall B, In B Bs -> exists h, In h hs /\ records E h B)
  (H3 : forall k, In k ks -> k = 1 \/ exists h, In h hs /\ l_data h = DLVTrans k)
  (NB : In l2_bounds Bs).

(** A used estimate says what one list of bounds says when raised to one power. *)
Definition says (g : lnode) (B : list (list Q)) (k : Q) : Prop :=
  In B Bs /\ In k ks /\ proper_year (r_year (l_ref g)) /\ exists r rep, l_data g = DLV r rep /\ disjoint_form r /\ leaves (solid 3) r /\
    forall s t u, denote r [s; t; u] <-> in_range s (t / k) (u / k) /\ exists b, In b B /\ u <= k * bound_at b s (t / k).

Lemma records_says : forall h B, In B Bs -> records E h B -> says h B 1.
Proof.
  intros h B IB ((NE & F & EN & _) & Y & Ec). split; [exact IB|]. split; [exact K1|]. split; [exact Y|].
  destruct (convert_bounds_usable E OK B NE) as (r & rep & Ec' & DF & S3 & X); [eapply Forall_impl; [|exact F]; intros b [L _]; exact L|exact EN|].
  rewrite Ec' in Ec. exists r, rep. split; [congruence|]. split; [exact DF|]. split; [exact S3|]. intros s t u. rewrite X.
  assert (T1 : forall q, q / 1 == q) by (intro q; field). assert (BP : forall b, bound_at b s (t / 1) == bound_at b s t) by (intro b; apply bound_proper; [reflexivity|apply T1]).
  rewrite Exists_exists. unfold in_range. rewrite (T1 t), (T1 u). split; (intros (A & b & Ib & Hb); split; [exact A|]; exists b; split; [exact Ib|]); pose proof (BP b); Lqa.lra.
Qed.

Lemma lv_recorded : forall h, In h hs -> is_lv h = true -> exists B, In B Bs /\ records E h B.
Proof. intros h Ih P. destruct (H1 h Ih) as [X|(k & _ & D & _)]; [exact X|]. unfold is_lv in P. rewrite D in P. discriminate. Qed.
Lemma record_lv : forall h B, records E h B -> is_lv h = true.
Proof. intros h B (_ & _ & Ec). unfold convert_bounds in Ec. destruct (from_union_of_halfplanes _ _ _); [|discriminate]. cbn [bind] in Ec. destruct (lv_repr B); [|discriminate]. cbn [bind] in Ec. unfold is_lv. injection Ec as <-. reflexivity. Qed.
Lemma no_zlv : forall h, In h hs -> is_zlv h = false.
Proof.
  intros h Ih. destruct (H1 h Ih) as [(B & _ & R)|(k & _ & D & _)].
  - apply record_lv in R. unfold is_lv, is_zlv in *. destruct (l_data h); congruence.
  - unfold is_zlv. now rewrite D.
Qed.
Lemma ks_nz : forall k, In k ks -> 1 <= k.
Proof.
  intros k Ik. rewrite Forall_forall in KS. destruct (KS k Ik) as (n & N & ->). change 1 with (inject_Z 1). rewrite <- Zle_Qle. exact N.
Qed.
Lemma trans_power : forall t k, In t hs -> l_data t = DLVTrans k -> In k ks.
Proof.
  intros t k It D. destruct (H1 t It) as [(B & _ & R)|(k' & Ik & D' & _)]; [|congruence]. apply record_lv in R. unfold is_lv in R. rewrite D in R. discriminate.
Qed.
Lemma raised_says : forall k h B g, In k ks -> In B Bs -> records E h B -> raise_to_power k h = Ret g -> says g B k.
Proof.
  intros k h B g Ik IB R Eg. pose proof (ks_nz k Ik) as Pk. assert (NZ : ~ k == 0) by (intro Z; rewrite Z in Pk; now apply Pk).
  destruct (records_says h B IB R) as (_ & _ & Y & r & rep & Dh & DF & S3 & X).
  destruct (usable_scaled k h r rep g Dh DF S3 NZ Eg) as (r' & Dg & Yg & DF' & S3').
  destruct (raise_to_power_region k h r rep Dh (solid_sized3 r S3) NZ) as (g' & r'' & Eg' & Dg' & _ & _ & _ & X'). rewrite Eg in Eg'. injection Eg' as <-. rewrite Dg in Dg'. injection Dg' as <-.
  split; [exact IB|]. split; [exact Ik|]. split; [now rewrite Yg|]. exists r', None. split; [exact Dg|]. split; [exact DF'|]. split; [exact S3'|].
  intros s t u. assert (Zt : k * (t / k) == t) by (field; exact NZ). assert (Zu : k * (u / k) == u) by (field; exact NZ).
  transitivity (denote r' [s; k * (t / k); k * (u / k)]).
  { split; apply denote3; auto; try reflexivity; now symmetry. }
  rewrite X', X. assert (T1 : forall q, q / 1 == q) by (intro q; field). unfold in_range. rewrite !T1.
  assert (Q1 : forall b, u <= k * bound_at b s (t / k) <-> u / k <= 1 * bound_at b s (t / k / 1)).
  { intro b. assert (BP : bound_at b s (t / k / 1) == bound_at b s (t / k)) by (apply bound_proper; [reflexivity|apply T1]). rewrite BP.
    split; intro L; [apply Qle_shift_div_r; Lqa.lra|]. apply (Qmult_le_compat_r _ _ k) in L; [|Lqa.lra]. Lqa.lra. }
  split; (intros (A & b & Ib & Hb); split; [exact A|]; exists b; split; [exact Ib|]); now apply Q1.
Qed.

Lemma used_says : forall g, used_estimate hs false g -> exists B k, says g B k.
Proof.
  intros g [(Ig & Pg)|[(t & k & h & It & Dt & Ih & Ph & Eg)|(Z & _)]]; [| |discriminate].
  - destruct (lv_recorded g Ig Pg) as (B & IB & R). exists B, 1. now apply records_says.
  - destruct (lv_recorded h Ih Ph) as (B & IB & R). exists B, k. apply (raised_says k h); auto. now apply (trans_power t).
Qed.
Lemma says_used : forall B k, In B Bs -> In k ks -> exists g, used_estimate hs false g /\ says g B k.
Proof.
  intros B k IB Ik. destruct (H2 B IB) as (h & Ih & R). pose proof (record_lv h B R) as Ph. destruct (H3 k Ik) as [->|(t & It & Dt)].
  - exists h. split; [left; auto|now apply records_says].
  - destruct (records_says h B IB R) as (_ & _ & _ & r & rep & Dh & _ & S3 & _). pose proof (ks_nz k Ik) as Pk.
    destruct (raise_to_power_region k h r rep Dh (solid_sized3 r S3)) as (g & _ & Eg & _); [intro Z; rewrite Z in Pk; now apply Pk|].
    exists g. split; [right; left; exists t, k, h; auto 6|now apply (raised_says k h)].
Qed.

Lemma range_scaled : forall s t u k, 1 <= k -> 1#2 <= s <= 1 -> 0 <= t <= TAU_UPPER_LIMIT -> 0 <= u <= LV_DEFAULT_UPPER_BOUND -> in_range s (t / k) (u / k).
Proof.
  intros s t u k Pk Bs' Bt Bu. assert (K : forall x, 0 <= x -> 0 <= x / k /\ x / k <= x).
  { intros x Px. split; [apply Qle_shift_div_l; Lqa.lra|]. apply Qle_shift_div_r; [Lqa.lra|]. Lqa.nra. }
  destruct (K t ltac:(Lqa.lra)), (K u ltac:(Lqa.lra)). unfold in_range. repeat split; Lqa.lra.
Qed.

Lemma allowed_iff : forall dom s t u, 1#2 <= s <= 1 -> 0 <= t <= TAU_UPPER_LIMIT -> 0 <= u <= LV_DEFAULT_UPPER_BOUND ->
  (allowed hs false dom [s; t; u] <-> denote dom [s; t; u] /\ permitted Bs ks s t u).
Proof.
  intros dom s t u Hs Ht Hu. unfold allowed. split; intros [D A]; (split; [exact D|]).
  - intros B k IB Ik. destruct (says_used B k IB Ik) as (g & U & (_ & _ & _ & r & rep & Dg & _ & _ & X)). apply (X s t u). apply (A g r U). unfold region_of. now rewrite Dg.
  - intros g r U R. destruct (used_says g U) as (B & k & (IB & Ik & _ & r' & rep & Dg & _ & _ & X)). unfold region_of in R. rewrite Dg in R. injection R as <-.
    apply X. split; [apply range_scaled; auto; now apply ks_nz|]. now apply A.
Qed.

(** ** The set with the estimates for zeta *)
Lemma bases_none : bases hs = [].
Proof.
  unfold bases. assert (X : forall l, incl l hs -> flat_map (fun h => match h with LBase h => [h] | _ => [] end) l = []); [|now apply X].
  induction l as [|h l IH]; intro I; [reflexivity|]. cbn [flat_map]. rewrite IH by (intros x Hx; apply I; now right). rewrite app_nil_r.
  destruct h as [|h]; [reflexivity|]. exfalso. destruct (H1 (LBase h)) as [(B & _ & R)|(k & _ & D & _)]; [apply I; now left| |discriminate D]. apply record_lv in R. discriminate R.
Qed.

Lemma zeta_set : exists zs, add_zeta_estimates E iteration hs = Ret (iteration (hs ++ zs)) /\
  (forall h, In h zs -> exists g, used_estimate hs false g /\ exists r, region_of g = Ret r /\ l_data h = DZLV (RInter [RPoly (plain half_space); r]) None /\ r_year (l_ref h) = r_year (l_ref g)).
Proof.
  destruct (lv_to_zlv_returns E OK hs) as (zs & Ez).
  { intros h r rep Ih Dh. destruct (lv_recorded h Ih) as (B & IB & Rc); [unfold is_lv; now rewrite Dh|]. destruct (records_says h B IB Rc) as (_ & _ & _ & r' & rep' & Dh' & DF & S3 & _).
    rewrite Dh in Dh'. injection Dh' as -> _. now apply solid_sized3. }
  { intros t k It Dt. rewrite Forall_forall in KS. apply KS. now apply (trans_power t). }
  exists zs. split.
  { unfold add_zeta_estimates. rewrite Ez. cbn [bind]. unfold beta_to_zlv. rewrite bases_none. cbn. now rewrite app_nil_r. }
  unfold lv_to_zlv in Ez. destruct (lv_and_transformed hs) as [hyps|] eqn:Eh; [|discriminate]. cbn [bind] in Ez. rewrite half_built in Ez. cbn [bind] in Ez.
  intros h Ih. apply (Proof_Piecewise.mapM_In _ _ _ _ _ _ Ez) in Ih as (g & Ig & Eg). exists g. split.
  - pose proof (proj1 (lv_and_transformed_exact hs hyps Eh g) Ig) as [U|U]; [left; exact U|right; left; exact U].
  - destruct (region_of g) as [r|] eqn:R; [|discriminate]. cbn [bind] in Eg. unfold derived_bound_zeta_LV in Eg. rewrite derived_l_one in Eg. exists r. split; [reflexivity|].
    apply (f_equal (fun x => match x with Ret y => y | _ => h end)) in Eg. rewrite <- Eg. split; reflexivity.
Qed.

Lemma used_zeta : forall zs hs' g, hs' = iteration (hs ++ zs) ->
  (forall h, In h zs -> is_zlv h = true) -> (used_estimate hs' true g <-> used_estimate hs false g \/ In g zs).
Proof.
  intros zs hs' g -> Z.
  assert (NL : forall h, In h zs -> is_lv h = false /\ forall k, l_data h <> DLVTrans k). { intros h Ih. specialize (Z h Ih). unfold is_zlv, is_lv in *. destruct (l_data h); try discriminate. split; [reflexivity|discriminate]. }
  assert (I : forall h, In h (iteration (hs ++ zs)) <-> In h hs \/ In h zs) by (intro h; rewrite IT; apply in_app_iff).
  split.
  - intros [(Ig & Pg)|[(t & k & h & It & Dt & Ih & Ph & Eg)|(_ & Ig & Pg)]].
    + apply I in Ig as [Ig|Ig]; [left; left; auto|]. apply NL in Ig as [Ig _]. congruence.
    + apply I in It as [It|It]; [|apply NL in It as [_ It]; now apply It in Dt]. apply I in Ih as [Ih|Ih]; [|apply NL in Ih as [Ih _]; congruence].
      left. right. left. exists t, k, h. auto 6.
    + apply I in Ig as [Ig|Ig]; [rewrite (no_zlv g Ig) in Pg; discriminate|]. now right.
  - intros [[(Ig & Pg)|[(t & k & h & It & Dt & Ih & Ph & Eg)|(Y & _)]]|Ig].
    + left. split; [apply I; auto|exact Pg].
    + right. left. exists t, k, h. split; [apply I; auto|]. split; [exact Dt|]. split; [apply I; auto|]. auto.
    + discriminate.
    + right. right. split; [reflexivity|]. split; [apply I; auto|auto].
Qed.

(** ** A region over a rectangle *)
Context (a b t0 t1 : Q) (AB : a < b) (A0 : 1#2 <= a) (B1 : b <= 1) (T0 : 2 <= t0) (T01 : t0 < t1) (TU : t1 + 1 < LV_DEFAULT_UPPER_BOUND).

Definition box_set (s t u : Q) : Prop := a <= s <= b /\ t0 <= t <= t1 /\ 0 <= u <= LV_DEFAULT_UPPER_BOUND.
Lemma domain_ok : exists d, rect E [(a, b); (t0, t1); (0, LV_DEFAULT_UPPER_BOUND)] = Ret d /\ solid 3 (plain d) /\
  forall s t u, member d [s; t; u] <-> box_set s t u.
Proof.
  destruct (rect_ok E OK [(a, b); (t0, t1); (0, LV_DEFAULT_UPPER_BOUND)] ltac:(discriminate)) as (d & Ed & G & N & _ & M). exists d. split; [exact Ed|].
  assert (X : forall s t u, member d [s; t; u] <-> box_set s t u).
  { intros s t u. rewrite M. unfold box_set. split.
    - intros [_ H]. pose proof (H 0%nat a b eq_refl). pose proof (H 1%nat t0 t1 eq_refl). pose proof (H 2%nat _ _ eq_refl). cbn [nth] in *. tauto.
    - intros (P & Q & R). split; [reflexivity|]. intros [|[|[|i]]] l h Hn; cbn in Hn; try (injection Hn as <- <-; cbn [nth]; assumption). destruct i; discriminate. }
  assert (TE : LV_DEFAULT_UPPER_BOUND == 1000000) by reflexivity.
  split; [|exact X]. split; [exact G|]. split; [|split; [exact N|]].
  - exists LV_DEFAULT_UPPER_BOUND. intros x i Mx. assert (L : List.length x = 3%nat) by (destruct Mx as [L _]; cbn [pmat body plain] in L; rewrite N in L; cbn in L; lia).
    destruct x as [|s [|t [|u [|? ?]]]]; try discriminate L. apply X in Mx as (P & Q & R). apply Qabs_Qle_condition. destruct i as [|[|[|i]]]; cbn [nth]; try Lqa.lra. destruct i; Lqa.lra.
  - intros _. exists [(a + b) / 2; (t0 + t1) / 2; 1]. cbn [body plain]. assert (HF : forall q, q / 2 == q * (1#2)) by (intro; field).
    split; [apply X; unfold box_set; rewrite !HF; Lqa.lra|]. set (e := qmin (1#2) (qmin ((b - a) * (1#2)) ((t1 - t0) * (1#2)))).
    destruct (qmin_le (1#2) (qmin ((b - a) * (1#2)) ((t1 - t0) * (1#2)))) as [E1 E2]. destruct (qmin_le ((b - a) * (1#2)) ((t1 - t0) * (1#2))) as [E3 E4]. fold e in E1, E2.
    exists e. split. { unfold e, qmin. repeat match goal with |- context [Qltb ?p ?q] => destruct (Qltb p q) end; Lqa.lra. }
    intros y [Ly Hy]. destruct y as [|s [|t [|u [|? ?]]]]; try discriminate Ly. apply X. pose proof (Hy 0%nat) as Y0. pose proof (Hy 1%nat) as Y1. pose proof (Hy 2%nat) as Y2. cbn [nth] in *.
    apply Qabs_Qle_condition in Y0, Y1, Y2. rewrite HF in Y0, Y1. unfold box_set. Lqa.lra.
Qed.

Definition good_region (ps : list lpoly) : Prop :=
  usable_pieces E ps /\ (forall p, In p ps -> ncol (pmat (body p)) = 4%nat) /\
  (forall s t u, within ps [s; t; u] -> a <= s <= b /\ t0 <= t <= t1 /\ 0 <= u <= LV_DEFAULT_UPPER_BOUND /\ adm (system Bs ks) s t u) /\
  (forall s t u, a < s < b -> t0 < t < t1 -> 0 < u < LV_DEFAULT_UPPER_BOUND -> sadm (system Bs ks) s t u -> within ps [s; t; u]).

Lemma ks_nonzero : Forall (fun k => ~ k == 0) ks.
Proof. apply Forall_forall. intros k Ik Z. pose proof (ks_nz k Ik) as P. rewrite Z in P. now apply P. Qed.
Lemma sadm_adm : forall sys s t u, sadm sys s t u -> adm sys s t u.
Proof. intros sys s t u. apply Forall_impl. intro B. apply Exists_impl. intros c H. Lqa.lra. Qed.

Lemma region_good : forall (A : point -> Prop) ps, Forall (solid 3) ps -> Forall uncached ps ->
  (forall x, denote (RDisj (map RPoly ps)) x -> A x) -> (forall x, List.length x = 3%nat -> Spec_Region.inside A x -> denote (RDisj (map RPoly ps)) x) ->
  (forall s t u, A [s; t; u] -> box_set s t u /\ permitted Bs ks s t u) -> (forall s t u, box_set s t u -> permitted Bs ks s t u -> A [s; t; u]) -> good_region ps.
Proof.
  intros A ps S3 UC P1 P2 A1 A2. rewrite Forall_forall in S3, UC.
  assert (SZ : forall p, In p ps -> ncol (pmat (body p)) = 4%nat) by (intros p Ip; apply (S3 p Ip)).
  split; [|split; [exact SZ|split]].
  - intros p Ip. split; [|intros _; left; exact (UC p Ip)]. destruct (S3 p Ip) as (G & BD & N & _). split; [apply G|]. split; [exact N|]. split; [exact BD|].
    intros x Mx. assert (L : List.length x = 3%nat) by (destruct Mx as [L _]; rewrite N in L; lia). destruct x as [|s [|t [|u [|? ?]]]]; try discriminate L.
    destruct (A1 s t u) as ((_ & Bt & Bu) & _); [apply P1, pieces_within; exists p; auto|]. cbn [nth]. split; Lqa.lra.
  - intros s t u W. destruct (A1 s t u) as ((X1 & X2 & X3) & X4); [apply P1, pieces_within, W|]. split; [exact X1|]. split; [exact X2|]. split; [exact X3|]. apply adm_permitted; [exact ks_nonzero|exact X4].
  - intros s t u Hs Ht Hu S. apply pieces_within, P2; [reflexivity|]. destruct (sadm_near _ _ _ _ S) as (e & Pe & He).
    set (m := qmin e (qmin (qmin (s - a) (b - s)) (qmin (qmin (t - t0) (t1 - t)) (qmin u (LV_DEFAULT_UPPER_BOUND - u))))).
    assert (M : 0 < m /\ m <= e /\ m <= s - a /\ m <= b - s /\ m <= t - t0 /\ m <= t1 - t /\ m <= u /\ m <= LV_DEFAULT_UPPER_BOUND - u).
    { unfold m. clear - Pe Hs Ht Hu.
      assert (G : forall p q, (0 < p -> 0 < q -> 0 < qmin p q) /\ qmin p q <= p /\ qmin p q <= q). { intros p q. split; [intros; unfold qmin; destruct (Qltb q p); assumption|apply qmin_le]. }
      destruct (G (s - a) (b - s)) as (g1 & g2 & g3). destruct (G (t - t0) (t1 - t)) as (g4 & g5 & g6). destruct (G u (LV_DEFAULT_UPPER_BOUND - u)) as (g7 & g8 & g9).
      destruct (G (qmin (t - t0) (t1 - t)) (qmin u (LV_DEFAULT_UPPER_BOUND - u))) as (h1 & h2 & h3).
      destruct (G (qmin (s - a) (b - s)) (qmin (qmin (t - t0) (t1 - t)) (qmin u (LV_DEFAULT_UPPER_BOUND - u)))) as (h4 & h5 & h6).
      destruct (G e (qmin (qmin (s - a) (b - s)) (qmin (qmin (t - t0) (t1 - t)) (qmin u (LV_DEFAULT_UPPER_BOUND - u))))) as (h7 & h8 & h9).
      specialize (g1 ltac:(Lqa.lra) ltac:(Lqa.lra)). specialize (g4 ltac:(Lqa.lra) ltac:(Lqa.lra)). specialize (g7 ltac:(Lqa.lra) ltac:(Lqa.lra)). specialize (h1 g4 g7). specialize (h4 g1 h1). specialize (h7 Pe h4).
      repeat split; Lqa.lra. }
    exists m. split; [apply M|]. intros y [Ly Hy]. destruct y as [|s' [|t' [|u' [|? ?]]]]; try discriminate Ly. pose proof (Hy 0%nat) as Y0. pose proof (Hy 1%nat) as Y1. pose proof (Hy 2%nat) as Y2. cbn [nth] in *.
    apply A2.
    + apply Qabs_Qle_condition in Y0, Y1, Y2. unfold box_set. Lqa.lra.
    + apply adm_permitted; [exact ks_nonzero|]. apply sadm_adm, He; Lqa.lra.
Qed.

Lemma years : Forall (fun h => proper_year (r_year (l_ref h))) hs.
Proof. apply Forall_forall. intros h Ih. destruct (H1 h Ih) as [(B & _ & (_ & Y & _))|(k & _ & _ & Y)]; exact Y. Qed.
Lemma nonzero : nonzero_powers hs.
Proof. intros t k It Dt Z. pose proof (ks_nz k (trans_power t k It Dt)) as P. rewrite Z in P. now apply P. Qed.
Lemma estimates_split : forall dom, split_estimates E order dom hs false.
Proof.
  intro dom. split; [|discriminate]. intros h r Ih Ph R. destruct (lv_recorded h Ih Ph) as (B & IB & Rc). destruct (records_says h B IB Rc) as (_ & _ & _ & r' & rep & Dh & DF & S3 & _).
  unfold region_of in R. rewrite Dh in R. injection R as <-. auto.
Qed.
Lemma tu : t1 <= TAU_UPPER_LIMIT. Proof. unfold LV_DEFAULT_UPPER_BOUND in TU. unfold TAU_UPPER_LIMIT. Lqa.lra. Qed.
Lemma allowed_box : forall d s t u, (forall s t u, member d [s; t; u] <-> box_set s t u) ->
  (allowed hs false (RPoly (plain d)) [s; t; u] <-> box_set s t u /\ permitted Bs ks s t u).
Proof.
  intros d s t u M. pose proof tu as TT. split.
  - intros A. assert (B : box_set s t u) by (apply M; exact (proj1 A)). pose proof B as (X1 & X2 & X3). split; [exact B|].
    apply (allowed_iff (RPoly (plain d)) s t u) in A; [apply A|Lqa.lra|Lqa.lra|exact X3].
  - intros [B P]. pose proof B as (X1 & X2 & X3). apply allowed_iff; [Lqa.lra|Lqa.lra|exact X3|]. split; [now apply M|exact P].
Qed.

Lemma region_false : forall d, rect E [(a, b); (t0, t1); (0, LV_DEFAULT_UPPER_BOUND)] = Ret d ->
  exists h ps, compute_large_value_region E order hs (RPoly (plain d)) false = Ret h /\ region_pieces h ps /\ dated h /\ good_region ps.
Proof.
  intros d Ed. destruct domain_ok as (d' & Ed' & Sd & M). rewrite Ed in Ed'. injection Ed' as <-.
  destruct (large_value_region_split E OK order OO (RPoly (plain d)) Logic.I Sd hs false (estimates_split _) nonzero years) as (h & ps & Eh & Dh & _ & S3 & UC & Y & P1 & P2 & _).
  { destruct (says_used l2_bounds 1 NB K1) as (g & U & _). eauto. }
  exists h, ps. split; [exact Eh|]. split; [unfold region_pieces, region_of; now rewrite Dh|]. split; [exact Y|].
  apply (region_good _ ps S3 UC P1 P2); intros s t u; [intro A; now apply (allowed_box d)|intros B P; now apply (allowed_box d)].
Qed.

Lemma region_true : forall d zs, rect E [(a, b); (t0, t1); (0, LV_DEFAULT_UPPER_BOUND)] = Ret d ->
  (forall h, In h zs -> exists g, used_estimate hs false g /\ exists r, region_of g = Ret r /\ l_data h = DZLV (RInter [RPoly (plain half_space); r]) None /\ r_year (l_ref h) = r_year (l_ref g)) ->
  exists h ps, compute_large_value_region E order (iteration (hs ++ zs)) (RPoly (plain d)) true = Ret h /\ region_pieces h ps /\ dated h /\ good_region ps.
Proof.
  intros d zs Ed Z. destruct domain_ok as (d' & Ed' & Sd & M). rewrite Ed in Ed'. injection Ed' as <-.
  assert (ZZ : forall h, In h zs -> is_zlv h = true). { intros h Ih. destruct (Z h Ih) as (g & _ & r & _ & D & _). unfold is_zlv. now rewrite D. }
  pose proof (fun g => used_zeta zs _ g eq_refl ZZ) as UZ.
  assert (II : forall h, In h (iteration (hs ++ zs)) <-> In h hs \/ In h zs) by (intro h; rewrite IT; apply in_app_iff).
  assert (SE : split_estimates E order (RPoly (plain d)) (iteration (hs ++ zs)) true).
  { split.
    - intros h r Ih Ph R. apply II in Ih as [Ih|Ih]; [exact (proj1 (estimates_split (RPoly (plain d))) h r Ih Ph R)|]. specialize (ZZ h Ih). unfold is_lv, is_zlv in *. destruct (l_data h); discriminate.
    - intros _ h r Ih Ph R. apply II in Ih as [Ih|Ih]; [rewrite (no_zlv h Ih) in Ph; discriminate|]. destruct (Z h Ih) as (g & U & r' & Rg & D & _). unfold region_of in R. rewrite D in R. injection R as <-.
      destruct (used_says g U) as (B & k & (_ & Ik & _ & r'' & rep & Dg & DF & S3 & X)). unfold region_of in Rg. rewrite Dg in Rg. injection Rg as <-.
      apply half_splits; auto; [exact Logic.I|]. intro C. apply X in C as [(C & _) _]. Lqa.lra. }
  assert (NZ : nonzero_powers (iteration (hs ++ zs))).
  { intros t k It Dt. apply II in It as [It|It]; [now apply (nonzero t)|]. specialize (ZZ t It). unfold is_zlv in ZZ. rewrite Dt in ZZ. discriminate. }
  assert (YY : Forall (fun h => proper_year (r_year (l_ref h))) (iteration (hs ++ zs))).
  { apply Forall_forall. intros h Ih. pose proof years as Y. rewrite Forall_forall in Y. apply II in Ih as [Ih|Ih]; [now apply Y|]. destruct (Z h Ih) as (g & U & r & _ & _ & ->). destruct (used_says g U) as (B & k & (_ & _ & Yg & _)). exact Yg. }
  destruct (large_value_region_split E OK order OO (RPoly (plain d)) Logic.I Sd (iteration (hs ++ zs)) true SE NZ YY) as (h & ps & Eh & Dh & _ & S3 & UC & Y & P1 & P2 & _).
  { destruct (says_used l2_bounds 1 NB K1) as (g & U & _). exists g. apply UZ. now left. }
  exists h, ps. split; [exact Eh|]. split; [unfold region_pieces, region_of; now rewrite Dh|]. split; [exact Y|].
  apply (region_good _ ps S3 UC P1 P2); intros s t u.
  - intros [D A]. apply (allowed_box d _ _ _ M). split; [exact D|]. intros g r U R. apply (A g r); [apply UZ; now left|exact R].
  - intros B P. pose proof (proj2 (allowed_box d s t u M) (conj B P)) as [D A]. split; [exact D|]. intros g r U R. apply UZ in U as [U|U]; [now apply (A g r)|].
    destruct (Z g U) as (g' & U' & r' & Rg & Dg & _). unfold region_of in R. rewrite Dg in R. injection R as <-. cbn [denote allP body plain]. split; [|split; [now apply (A g' r')|exact Logic.I]].
    apply half_member. destruct B as (_ & B & _). Lqa.lra.
Qed.

(** ** What is needed of the bounds *)
Lemma low_bound : forall s t u, a <= s <= b -> t0 <= t <= t1 -> adm (system Bs ks) s t u -> u < LV_DEFAULT_UPPER_BOUND.
Proof.
  intros s t u Hs Ht A. apply adm_permitted in A; [|exact ks_nonzero]. destruct (A l2_bounds 1 NB K1) as (c & Ic & Hc).
  assert (T1 : t / 1 == t) by field. assert (LVB : LV_DEFAULT_UPPER_BOUND == 1000000) by reflexivity.
  destruct Ic as [<-|[<-|[]]]; unfold bound_at in Hc; cbn [nth] in Hc; rewrite T1 in Hc; Lqa.lra.
Qed.
Lemma pos_value : forall s, a <= s < b -> exists t u, t0 <= t <= t1 /\ 0 < u /\ adm (system Bs ks) s t u.
Proof.
  intros s Hs. exists t0, (2 - 2 * s). split; [Lqa.lra|]. split; [Lqa.lra|]. apply adm_permitted; [exact ks_nonzero|]. intros B k IB Ik. destruct (H2 B IB) as (h & _ & ((_ & _ & _ & c & Ic & Hc) & _)).
  exists c. split; [exact Ic|]. rewrite Hc. pose proof (ks_nz k Ik). Lqa.nra.
Qed.
Lemma dec_bounds : Forall (Forall (fun b => nth 1 b 0 <= -(1))) (system Bs ks).
Proof.
  apply Forall_forall. intros B' I. apply in_flat_map in I as (B & IB & I). apply in_map_iff in I as (k & <- & Ik). apply Forall_forall. intros c' Ic. apply in_map_iff in Ic as (c & <- & Ic).
  destruct (H2 B IB) as (h & _ & ((_ & F & _) & _)). rewrite Forall_forall in F. destruct (F c Ic) as [_ L]. cbn [scaled nth]. pose proof (ks_nz k Ik). Lqa.nra.
Qed.
End Run.
