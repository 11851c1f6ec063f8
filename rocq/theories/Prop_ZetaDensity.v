(** Property C70: the zero density estimates that are proved from large value estimates
    and zeta large value estimates. *)
From Coq Require Import Reals Qreals Permutation.
From Verif Require Import Base LinAlg FM Model_Text Model_Reference Spec_Reference Model_Polytope Spec_Polytope Proof_Polytope FM_Ext Spec_Edges Proof_Edges
  Model_Region Spec_Region Model_ExponentPair Spec_ExponentPair Model_LargeValues Spec_LargeValues Proof_LargeValues Prop_LargeValues Model_ZetaLargeValues
  Model_AdditiveEnergy Spec_AdditiveEnergy Model_LargeValueRegion Spec_LargeValueRegion Prop_LargeValueRegion Model_RationalFunction Spec_RationalFunction Prop_Roots
  Model_ZeroDensity Spec_ZeroDensity Model_DensityEstimate Spec_DensityEstimate Model_DensityDerivation Spec_DensityDerivation Prop_DensityDerivation
  Model_DensityRoutes Model_LiteratureLV Spec_LiteratureLV Prop_LiteratureLV
  Proof_RegionSplit Spec_Anchored Proof_HalfSplit Proof_SupExact Model_DerivedDensity Spec_DerivedDensity Proof_DerivedDensity Prop_DerivedDensity
  Model_ZetaDensity Spec_ZetaDensity Proof_ZetaDensity.
From Verif Require Spec_BoundMu Prop_BoundMu Proof_ExpDual Prop_DensityEstimate Proof_Piecewise.
From Coq Require Import Lra.
Open Scope list_scope.
Local Open Scope Q_scope.

Lemma joined_zeta : forall Bs ks Zs s tau0 v1 v2, Forall (fun k => ~ k == 0) ks -> 2 <= tau0 ->
  top (system Bs ks) tau0 (2 * tau0) s v1 -> top (system Bs ks ++ Zs) 2 tau0 s v2 -> largest_zeta_ratio Bs ks Zs s tau0 (Rmax v1 v2).
Proof.
  intros Bs ks Zs s tau0 v1 v2 NZ T0 [(t & u & Bt & Pu & A & Ev) U1] [(t' & u' & Bt' & Pu' & A' & Ev') U2]. split.
  - destruct (Rle_or_lt v1 v2) as [L|L].
    + apply adm_app in A' as [A1 A2]. exists t', u'. split; [Lqa.lra|]. split; [exact Pu'|]. split; [now apply adm_permitted|]. split; [intros _; now apply adm_zeta|]. now rewrite Rmax_right.
    + exists t, u. split; [Lqa.lra|]. split; [exact Pu|]. split; [now apply adm_permitted|]. split; [intro; exfalso; Lqa.lra|]. rewrite Rmax_left; [exact Ev|lra].
  - intros t2 u2 B2 P Z. apply adm_permitted in P; [|exact NZ]. destruct (Qlt_le_dec t2 tau0) as [L|L].
    + eapply Rle_trans; [|apply Rmax_r]. apply U2; [Lqa.lra|]. apply adm_app. split; [exact P|]. apply adm_zeta. now apply Z.
    + eapply Rle_trans; [|apply Rmax_l]. apply U1; [Lqa.lra|exact P].
Qed.

Lemma tile_bounds : forall l u v, estimates_tile l u v -> (u <= v)%R /\
  forall n d p r ds, In (ZNode n d p r ds) l -> (u <= lo (z_int d) /\ hi (z_int d) <= v)%R /\ ilo (z_int d) = true /\ ihi (z_int d) = false.
Proof.
  induction l as [|[n d p r ds|h] l IH]; intros u v T; cbn in T; [split; [lra|intros ? ? ? ? ? []]| |destruct T].
  destruct T as (E1 & L & F1 & F2 & T). destruct (IH _ _ T) as [M K]. split; [lra|]. intros n' d' p' r' ds' [Eq|I]; [injection Eq as <- <- <- <- <-; split; [lra|auto]|]. destruct (K _ _ _ _ _ I) as [K1 K2]. split; [lra|exact K2].
Qed.

(** The run returns, the derived estimates tile the range of sigma, and the bound is
    at each sigma the largest rho / tau with tau in [2, 2 tau0] that is permitted by the
    large value estimates raised to the powers 1 to 5 and, for tau < tau0, by the zeta
    large value estimates. *)
Theorem zeta_density_value : forall E, ext_ok E -> anchored E -> forall adjacency, adjacency_ok E adjacency -> forall solve, solve_complete solve ->
  forall order, (forall k l, Permutation (order k l) l) -> forall iteration, (forall l x, In x (iteration l) <-> In x l) ->
  forall rf_str additional lvs Bs zlvs Zs a b tau0, Forall2 (records E) lvs Bs -> Forall2 (records_zeta E tau0) zlvs Zs ->
  (forall h, In h additional <-> In h lvs \/ In h zlvs) -> 1#2 <= a -> a < b -> b <= 1 -> 2 < tau0 -> 2 * tau0 + 1 < LV_DEFAULT_UPPER_BOUND ->
  exists l, prove_zero_density E order adjacency solve rf_str iteration additional a b (Method1 tau0) = Ret l /\
    derived_over l a b (fun s v => largest_zeta_ratio (l2_bounds :: Bs) powers Zs s tau0 v).
Proof.
  intros E OK AN adj AD solve SC order OO iter IT rf_str add lvs Bs zlvs Zs a b tau0 RC RZ AI A0 AB B1 T0 TU.
  destruct (l2_records E OK) as (h2 & E2 & R2). set (BB := l2_bounds :: Bs). set (hs := iter (h2 :: map raise_to_power_hypothesis [2; 3; 4; 5] ++ add)).
  assert (HS : forall h, In h hs <-> h = h2 \/ (exists k, In k [2; 3; 4; 5] /\ h = raise_to_power_hypothesis k) \/ In h lvs \/ In h zlvs).
  { intro h. unfold hs. rewrite IT. cbn [In]. rewrite in_app_iff, in_map_iff, AI. split.
    - intros [<-|[(k & <- & Ik)|I]]; [now left|right; left; exists k; split; [exact Ik|reflexivity]|right; now right].
    - intros [->|[(k & Ik & ->)|I]]; [now left|right; left; exists k; split; [reflexivity|exact Ik]|right; now right]. }
  assert (K1 : In 1 powers) by now left.
  assert (H1 : forall h, In h hs -> (exists B, In B BB /\ records E h B) \/ (exists k, In k powers /\ l_data h = DLVTrans k /\ proper_year (r_year (l_ref h))) \/ (exists B, In B Zs /\ records_zeta E tau0 h B)).
  { intros h Ih. apply HS in Ih as [->|[(k & Ik & ->)|[Ih|Ih]]].
    - left. exists l2_bounds. split; [now left|exact R2].
    - right. left. exists k. split; [now right|]. split; [reflexivity|exact classical_dated].
    - left. destruct (Proof_ExpDual.Forall2_in_l _ _ _ _ _ _ RC Ih) as (B & IB & R). exists B. split; [now right|exact R].
    - right. right. destruct (Proof_ExpDual.Forall2_in_l _ _ _ _ _ _ RZ Ih) as (B & IB & R). exists B. split; [exact IB|exact R]. }
  assert (H2 : forall B, In B BB -> exists h, In h hs /\ records E h B).
  { intros B [<-|IB]; [exists h2; split; [apply HS; now left|exact R2]|]. destruct (Proof_ExpDual.Forall2_in_r _ _ _ _ _ _ RC IB) as (h & Ih & R). exists h. split; [apply HS; auto|exact R]. }
  assert (H3 : forall k, In k powers -> k = 1 \/ exists h, In h hs /\ l_data h = DLVTrans k).
  { intros k [<-|Ik]; [now left|]. right. exists (raise_to_power_hypothesis k). split; [apply HS; right; left; exists k; split; [exact Ik|reflexivity]|reflexivity]. }
  assert (H4 : forall B, In B Zs -> exists h, In h hs /\ records_zeta E tau0 h B).
  { intros B IB. destruct (Proof_ExpDual.Forall2_in_r _ _ _ _ _ _ RZ IB) as (h & Ih & R). exists h. split; [apply HS; auto|exact R]. }
  assert (NB : In l2_bounds BB) by now left.
  assert (NZ : Forall (fun k => ~ k == 0) powers) by (repeat constructor; discriminate).
  assert (T1 : tau0 < 2 * tau0) by Lqa.lra. assert (T0' : 2 <= tau0) by Lqa.lra. assert (TU' : tau0 + 1 < LV_DEFAULT_UPPER_BOUND) by Lqa.lra. assert (T2 : 2 <= 2) by discriminate.
  destruct (domain_ok E OK a b tau0 (2 * tau0) AB A0 B1 T0' T1 TU) as (d1 & Ed1 & _).
  destruct (lv_region E OK order OO BB powers Zs tau0 hs powers_natural K1 H1 H2 H3 NB a b tau0 (2 * tau0) AB A0 B1 T0' T1 TU d1 Ed1) as (lvr & ps1 & Er1 & P1 & Y1 & (U1 & S1 & I1 & O1)).
  destruct (zeta_added E OK iter BB powers Zs tau0 hs powers_natural K1 H1) as (zs & Ez & Z).
  destruct (domain_ok E OK a b 2 tau0 AB A0 B1 T2 T0 TU') as (d2 & Ed2 & _).
  destruct (zeta_region E OK AN order OO iter IT BB powers Zs tau0 hs powers_natural K1 H1 H2 H3 H4 NB a b 2 tau0 AB A0 B1 T2 T0 TU' d2 zs Ed2 Z) as (zlvr & ps2 & Er2 & P2 & Y2 & (U2 & S2 & I2 & O2)).
  pose proof (low_bound BB powers powers_natural K1 NB a b tau0 (2 * tau0) AB A0 B1 T0' T1 TU) as L1.
  assert (L2 : forall s t u, a <= s <= b -> 2 <= t <= tau0 -> adm (system BB powers ++ Zs) s t u -> u < LV_DEFAULT_UPPER_BOUND).
  { intros s t u Hs Ht A. apply adm_app in A as [A _]. exact (low_bound BB powers powers_natural K1 NB a b 2 tau0 AB A0 B1 T2 T0 TU' s t u Hs Ht A). }
  pose proof (pos_value E BB powers hs powers_natural H2 a b tau0 (2 * tau0) B1 T1) as Q1.
  pose proof (zeta_pos E BB powers Zs tau0 hs powers_natural H2 H4 a b 2 tau0 B1 T0 TU' eq_refl) as Q2.
  pose proof (dec_bounds E BB powers hs powers_natural H2) as DC. pose proof (zeta_dec E BB powers Zs tau0 hs powers_natural H2 H4) as DZ.
  assert (T00 : 0 < tau0) by Lqa.lra. assert (T20 : 0 < 2) by reflexivity.
  destruct (lv_zlv_to_zd_value E OK adj AD solve SC order rf_str iter hs a b tau0 lvr (iter (hs ++ zs)) zlvr ps1 ps2 AB) as (l & El & TL & V); auto.
  { split; [exists d1; auto|]. split; [exact Ez|exists d2; auto]. }
  { intros l1 l2 E1 E2' f i r x I. apply in_app_iff in I as [I|I].
    - exact (region_sup_plain (system BB powers) a b tau0 (2 * tau0) _ ps1 AB T00 T1 S1 I1 O1 L1 Q1 DC E OK adj AD solve SC lvr l1 P1 U1 E1 f i r x I).
    - exact (region_sup_plain (system BB powers ++ Zs) a b 2 tau0 _ ps2 AB T20 T0 S2 I2 O2 L2 Q2 DZ E OK adj AD solve SC zlvr l2 P2 U2 E2' f i r x I). }
  exists l. split.
  { unfold prove_zero_density, density_hypotheses. rewrite E2. cbn [bind power_transforms]. fold hs. rewrite El. reflexivity. }
  split; [exact TL|]. intros o Io. destruct (V o Io) as (f & i & p & r & -> & NP & Vs). do 6 eexists. split; [reflexivity|]. split; [exact NP|].
  intros s J. destruct (Vs s J) as (v1 & v2 & V1 & V2 & ->).
  assert (Bs' : a <= s < b).
  { destruct (proj2 (tile_bounds _ _ _ TL) _ _ _ _ _ Io) as ((G1 & G2) & G3 & G4). cbn [z_int] in *. unfold Spec_RationalFunction.inside in J. rewrite G3, G4 in J.
    split; [apply Rle_Qle; lra|apply Rlt_Qlt; lra]. }
  apply joined_zeta; [exact NZ|exact T0'| |].
  - exact (sup_top (system BB powers) a b tau0 (2 * tau0) _ ps1 T00 T1 S1 I1 O1 L1 Q1 s v1 Bs' V1).
  - exact (sup_top (system BB powers ++ Zs) a b 2 tau0 _ ps2 T20 T0 S2 I2 O2 L2 Q2 s v2 Bs' V2).
Qed.
Print Assumptions zeta_density_value.

(** ** What the bound means *)
Lemma zeta_records_true : forall E tau0 tr btr W h B, ext_ok E -> records_zeta E tau0 h B -> lholds tr btr W h ->
  forall s t u, in_range s t u -> 2 <= t -> zlv W s t u -> exists b, In b B /\ u <= bound_at b s t.
Proof.
  intros E tau0 tr btr W h B OK ((NE & F & EN & _) & _ & r & rep & Ec & D) H s t u R T L. unfold lholds in H. rewrite D in H.
  destruct (convert_bounds_usable E OK B NE) as (r' & rep' & Ec' & _ & _ & X); [eapply Forall_impl; [|exact F]; intros b [Lb _]; exact Lb|exact EN|].
  rewrite Ec' in Ec. assert (Er : r' = r) by congruence. subst r'. pose proof (H s t u R T L) as Dn. apply X in Dn as [_ Dn]. now apply Exists_exists.
Qed.

(** In every world where the estimates hold, the value of the derived bound at sigma
    bounds A(sigma) (1 - sigma). *)
Theorem zeta_density_sound : forall E, ext_ok E -> anchored E -> forall adjacency, adjacency_ok E adjacency -> forall solve, solve_complete solve ->
  forall order, (forall k l, Permutation (order k l) l) -> forall iteration, (forall l x, In x (iteration l) <-> In x l) ->
  forall rf_str additional lvs Bs zlvs Zs a b tau0, Forall2 (records E) lvs Bs -> Forall2 (records_zeta E tau0) zlvs Zs ->
  (forall h, In h additional <-> In h lvs \/ In h zlvs) -> 1#2 <= a -> a < b -> b <= 1 -> 2 < tau0 -> 2 * tau0 + 1 < LV_DEFAULT_UPPER_BOUND ->
  forall h2 tr btr W, large_value_estimate_L2 E = Ret h2 -> d_admissible W -> lholds tr btr (low (ener W)) h2 -> Forall (lholds tr btr (low (ener W))) additional ->
  exists l, prove_zero_density E order adjacency solve rf_str iteration additional a b (Method1 tau0) = Ret l /\
    derived_over l a b (fun s v => 1#2 < s -> zd W s (v / (1 - Q2R s))%R).
Proof.
  intros E OK AN adj AD solve SC order OO iter IT rf_str add lvs Bs zlvs Zs a b tau0 RC RZ AI A0 AB B1 T0 TU h2 tr btr W E2 Ad H2 HA.
  destruct (zeta_density_value E OK AN adj AD solve SC order OO iter IT rf_str add lvs Bs zlvs Zs a b tau0 RC RZ AI A0 AB B1 T0 TU) as (l & El & TL & V).
  exists l. split; [exact El|]. split; [exact TL|]. intros o Io. destruct (V o Io) as (x & i & f & p & r & ds & -> & NP & Vs). do 6 eexists. split; [reflexivity|]. split; [exact NP|].
  intros s J S1. destruct (Vs s J) as ((t' & u' & Bt' & Pu' & _ & _ & Ev) & UP). set (v := rfval f (Q2R s)) in *.
  assert (S2 : s < 1).
  { destruct (proj2 (tile_bounds _ _ _ TL) _ _ _ _ _ Io) as ((G1 & G2) & G3 & G4). cbn [z_int] in *. unfold Spec_RationalFunction.inside in J. rewrite G3, G4 in J.
    apply Qle_Rle in B1. apply Rlt_Qlt. lra. }
  assert (Pv : (0 < v)%R).
  { rewrite Ev. rewrite <- RMicromega.Q2R_0. apply Qlt_Rlt. apply Qlt_shift_div_l; Lqa.lra. }
  assert (TT : TAU_UPPER_LIMIT == LV_DEFAULT_UPPER_BOUND) by reflexivity. pose proof (en_low _ (d_en W Ad)) as LA. rewrite Forall_forall in HA.
  assert (HL : Forall (lholds tr btr (low (ener W))) lvs) by (apply Forall_forall; intros h Ih; apply HA, AI; now left).
  assert (K : forall t u, 2 <= t <= 2 * tau0 -> lv (low (ener W)) s t u -> (t < tau0 -> zlv (low (ener W)) s t u) -> (Q2R u <= v * Q2R t)%R).
  { intros t u Bt L LZ. assert (Pt : 0 < t) by Lqa.lra. destruct (Qlt_le_dec u 0) as [Lu|Lu].
    - apply Qlt_Rlt in Lu, Pt. rewrite RMicromega.Q2R_0 in Lu, Pt. pose proof (Rmult_lt_0_compat _ _ Pv Pt). lra.
    - pose proof (lv_trivial W Ad s t u ltac:(Lqa.lra) ltac:(Lqa.lra) ltac:(Lqa.lra) L) as TR. apply div_le_R; [exact Pt|]. apply UP; [exact Bt| |].
      + apply (true_permitted E tr btr (low (ener W)) h2 lvs Bs); auto; Lqa.lra.
      + intros Lt B IB. destruct (Proof_ExpDual.Forall2_in_r _ _ _ _ _ _ RZ IB) as (h & Ih & R).
        apply (zeta_records_true E tau0 tr btr (low (ener W)) h B OK R); [apply HA, AI; now right| |Lqa.lra|now apply LZ]. unfold in_range. repeat split; Lqa.lra. }
  apply (zd_large W Ad s tau0 v S1 S2); [Lqa.lra| |].
  - intros t u L1 L2 L. apply K; [Lqa.lra|exact L|]. intro; exfalso; Lqa.lra.
  - intros t u L1 L2 L. apply K; [Lqa.lra| |intros _; exact L]. apply (zlv_lv _ LA); auto; Lqa.lra.
Qed.
Print Assumptions zeta_density_sound.

(** ** The values of the worked proofs *)
Lemma zeta_ratio_unique : forall Bs ks Zs s tau0 v w, largest_zeta_ratio Bs ks Zs s tau0 v -> largest_zeta_ratio Bs ks Zs s tau0 w -> v = w.
Proof.
  intros Bs ks Zs s tau0 v w [(t & u & Bt & _ & P & Z & ->) U1] [(t' & u' & Bt' & _ & P' & Z' & ->) U2]. apply Rle_antisym; auto.
Qed.
Lemma zeta_ratio_is : forall Bs ks Zs s tau0 v t, 2 <= t <= 2 * tau0 -> 0 < v -> permitted Bs ks s t (v * t) -> (t < tau0 -> zeta_permitted Zs s t (v * t)) ->
  (forall t u, 2 <= t <= 2 * tau0 -> permitted Bs ks s t u -> (t < tau0 -> zeta_permitted Zs s t u) -> u <= v * t) -> largest_zeta_ratio Bs ks Zs s tau0 (Q2R v).
Proof.
  intros Bs ks Zs s tau0 v t Bt Pv P Z U. split.
  - exists t, (v * t). split; [exact Bt|]. split; [Lqa.nra|]. split; [exact P|]. split; [exact Z|]. apply Qeq_eqR. field. Lqa.lra.
  - intros t' u' Bt' P' Z'. apply Qle_Rle. apply Qle_shift_div_r; [Lqa.lra|]. now apply U.
Qed.

Definition hb_bounds : list (list Q) := [[2; -(2); 0]; [10; -(13); 1]].
Definition twelfth_bounds : list (list Q) := [[6; -(12); 2]].
Lemma hb_proper : proper_bounds hb_bounds.
Proof.
  split; [discriminate|]. split; [repeat constructor; cbn [nth]; Lqa.lra|]. split.
  - intros pre b post Eq. unfold hb_bounds in Eq. destruct pre as [|a1 [|a2 [|]]]; cbn [app] in Eq; try discriminate.
    + assert (Eb : b = [2; -(2); 0]) by congruence. subst b. exists (3#4), 1, (1#4). unfold well_in_range, TAU_UPPER_LIMIT, LV_DEFAULT_UPPER_BOUND, bound_at. cbn [nth]. split; [Lqa.lra|]. split; [Lqa.lra|constructor].
    + assert (Eb : b = [10; -(13); 1]) by congruence. assert (Ea : a1 = [2; -(2); 0]) by congruence. subst b a1. exists (3#4), 2, 1.
      unfold well_in_range, TAU_UPPER_LIMIT, LV_DEFAULT_UPPER_BOUND, bound_at. cbn [nth]. split; [Lqa.lra|]. split; [Lqa.lra|]. constructor; [cbn [nth]; Lqa.lra|constructor].
  - exists [2; -(2); 0]. split; [now left|]. intros s t. unfold bound_at. cbn [nth]. Lqa.lra.
Qed.
Lemma twelfth_proper : proper_zeta_bounds 3 twelfth_bounds.
Proof.
  split; [discriminate|]. split; [repeat constructor; cbn [nth]; Lqa.lra|]. split.
  - intros pre b post Eq. unfold twelfth_bounds in Eq. destruct pre as [|a1 [|]]; cbn [app] in Eq; try discriminate.
    assert (Eb : b = [6; -(12); 2]) by congruence. subst b. exists (3#4), 2, (1#4). unfold well_in_range, TAU_UPPER_LIMIT, LV_DEFAULT_UPPER_BOUND, bound_at. cbn [nth]. split; [Lqa.lra|]. split; [Lqa.lra|constructor].
  - intros s S. exists [6; -(12); 2]. split; [now left|]. unfold bound_at. cbn [nth]. Lqa.lra.
Qed.
Lemma hb_permits : forall k s t u, 1 <= k -> ((exists b, In b hb_bounds /\ u <= k * bound_at b s (t / k)) <-> (u <= k * (2 - 2 * s) \/ u <= k * (10 - 13 * s) + t)).
Proof.
  intros k s t u K. assert (NZ : ~ k == 0) by (intro Z; rewrite Z in K; now apply K). unfold hb_bounds. split.
  - intros (b & [<-|[<-|[]]] & H); rewrite at_power in H by exact NZ; [left|right]; Lqa.lra.
  - intros [H|H]; [exists [2; -(2); 0]|exists [10; -(13); 1]]; (split; [cbn; auto|]); rewrite at_power by exact NZ; Lqa.lra.
Qed.
Lemma twelfth_permits : forall s t u, zeta_permitted [twelfth_bounds] s t u <-> u <= 6 - 12 * s + 2 * t.
Proof.
  intros s t u. split.
  - intro H. destruct (H twelfth_bounds (or_introl eq_refl)) as (b & [<-|[]] & Hb). unfold bound_at in Hb. cbn [nth] in Hb. Lqa.lra.
  - intros H B [<-|[]]. exists [6; -(12); 2]. split; [now left|]. unfold bound_at. cbn [nth]. Lqa.lra.
Qed.

Lemma hb_a_ratio : forall s, 11#14 <= s -> s < 1 -> largest_zeta_ratio [l2_bounds; jutila_bounds 3] powers [twelfth_bounds] s 3 (Q2R (9 * (1 - s) / (7 * s - 1))).
Proof.
  intros s S1 S2. set (c := 7 * s - 1). assert (C : 9#2 <= c < 6) by (unfold c; Lqa.lra). assert (Sc : s == (1#7) * (c + 1)) by (unfold c; ring).
  assert (IV : forall t, 9 * (1 - s) / c * t == 9 * (1 - s) * t / c) by (intro t; field; Lqa.lra).
  apply (zeta_ratio_is _ _ _ _ _ _ ((2#3) * c)); [Lqa.lra|apply Qlt_shift_div_l; Lqa.lra| | |].
  - assert (V : 9 * (1 - s) / c * ((2#3) * c) == 6 * (1 - s)) by (field; Lqa.lra).
    intros B k IB Ik. pose proof (powers_ge k Ik) as PK. destruct IB as [<-|[<-|[]]].
    + apply l2_permits; [exact PK|]. rewrite V. unfold c. destruct Ik as [<-|[<-|[<-|[<-|[<-|[]]]]]]; [right|right|left|left|left]; Lqa.lra.
    + apply jutila_permits; [exact PK|]. rewrite V. unfold c. destruct Ik as [<-|[<-|[<-|[<-|[<-|[]]]]]]; [right; left|right; left|left|left|left]; Lqa.lra.
  - intro; exfalso; Lqa.lra.
  - intros t u Bt P Z. rewrite IV. apply Qle_shift_div_l; [Lqa.lra|].
    assert (X : forall k, In k powers -> u <= k * (2 - 2 * s) \/ u <= k * ((10#3) - (16#3) * s) + t).
    { intros k Ik. pose proof (powers_ge k Ik) as PK. destruct (proj1 (jutila_permits k s t u PK) (P (jutila_bounds 3) k ltac:(right; now left) Ik)) as [H|[H|H]]; [now left|now right|right].
      assert (Y : 0 <= k * (s - (11#14))) by (apply Qmult_le_0_compat; Lqa.lra). Lqa.lra. }
    (* the power [k] settles 2 k c / 9 <= t <= k c / 3 *)
    assert (Y2 : forall k, In k powers -> 3 * t <= k * c -> u <= k * ((10#3) - (16#3) * s) + t -> u * c <= 9 * (1 - s) * t).
    { intros k Ik L H'. assert (Z1 : 0 <= (k * ((10#3) - (16#3) * s) + t - u) * c) by (apply Qmult_le_0_compat; Lqa.lra).
      assert (Z2 : 0 <= (k * c - 3 * t) * ((16#3) * s - (10#3))) by (apply Qmult_le_0_compat; Lqa.lra).
      assert (ID : 9 * (1 - s) * t - u * c == (k * ((10#3) - (16#3) * s) + t - u) * c + (k * c - 3 * t) * ((16#3) * s - (10#3))) by (unfold c; ring). Lqa.lra. }
    assert (Y : forall k, In k powers -> 2 * k * c <= 9 * t -> 3 * t <= k * c -> u * c <= 9 * (1 - s) * t).
    { intros k Ik L1 L2. destruct (X k Ik) as [H'|H']; [|now apply (Y2 k)].
      assert (Z1 : 0 <= (k * (2 - 2 * s) - u) * c) by (apply Qmult_le_0_compat; Lqa.lra). assert (Z2 : 0 <= (9 * t - 2 * k * c) * (1 - s)) by (apply Qmult_le_0_compat; Lqa.lra).
      assert (ID : 9 * (1 - s) * t - u * c == (k * (2 - 2 * s) - u) * c + (9 * t - 2 * k * c) * (1 - s)) by ring. Lqa.lra. }
    destruct (Qlt_le_dec (9 * t) (4 * c)) as [L|L].
    { assert (T3 : t < 3) by Lqa.lra. apply Z, twelfth_permits in T3. destruct (X 2 ltac:(right; now left)) as [H'|H']; [|apply (Y2 2); [right; now left|Lqa.lra|exact H']].
      destruct (Qlt_le_dec t (4 * s - 1)) as [L4|L4].
      - assert (Z1 : 0 <= (6 - 12 * s + 2 * t - u) * c) by (apply Qmult_le_0_compat; Lqa.lra).
        assert (Z2 : 0 <= (4 * s - 1 - t) * (23 * s - 11)) by (apply Qmult_le_0_compat; Lqa.lra).
        assert (Z3 : 0 <= (1 - s) * (8 * s - 5)) by (apply Qmult_le_0_compat; Lqa.lra).
        assert (ID : 9 * (1 - s) * t - u * c == (6 - 12 * s + 2 * t - u) * c + (4 * s - 1 - t) * (23 * s - 11) + (1 - s) * (8 * s - 5)) by (unfold c; ring). Lqa.lra.
      - assert (Z1 : 0 <= (4 - 4 * s - u) * c) by (apply Qmult_le_0_compat; Lqa.lra).
        assert (Z2 : 0 <= (t - (4 * s - 1)) * (9 * (1 - s))) by (apply Qmult_le_0_compat; Lqa.lra).
        assert (Z3 : 0 <= (1 - s) * (8 * s - 5)) by (apply Qmult_le_0_compat; Lqa.lra).
        assert (ID : 9 * (1 - s) * t - u * c == (4 - 4 * s - u) * c + (t - (4 * s - 1)) * (9 * (1 - s)) + (1 - s) * (8 * s - 5)) by (unfold c; ring). Lqa.lra. }
    destruct (Qlt_le_dec (3 * t) (2 * c)); [apply (Y 2); [right; left; reflexivity|Lqa.lra|Lqa.lra]|].
    destruct (Qlt_le_dec t c); [apply (Y 3); [right; right; left; reflexivity|Lqa.lra|Lqa.lra]|].
    apply (Y 4); [do 3 right; left; reflexivity|Lqa.lra|Lqa.lra].
Qed.

Lemma hb_b1_ratio : forall s, 20#23 <= s -> s < 25#28 -> largest_zeta_ratio [l2_bounds; jutila_bounds 3; hb_bounds] powers [twelfth_bounds] s 3 (Q2R (3 * (1 - s) / (10 * s - 7))).
Proof.
  intros s S1 S2. set (c := 10 * s - 7). assert (C : 39#23 <= c < 27#14) by (unfold c; Lqa.lra). assert (Sc : s == (1#10) * (c + 7)) by (unfold c; ring).
  assert (IV : forall t, 3 * (1 - s) / c * t == 3 * (1 - s) * t / c) by (intro t; field; Lqa.lra).
  apply (zeta_ratio_is _ _ _ _ _ _ (2 * c)); [Lqa.lra|apply Qlt_shift_div_l; Lqa.lra| | |].
  - assert (V : 3 * (1 - s) / c * (2 * c) == 6 * (1 - s)) by (field; Lqa.lra).
    intros B k IB Ik. pose proof (powers_ge k Ik) as PK. destruct IB as [<-|[<-|[<-|[]]]].
    + apply l2_permits; [exact PK|]. rewrite V. unfold c. destruct Ik as [<-|[<-|[<-|[<-|[<-|[]]]]]]; [right|right|left|left|left]; Lqa.lra.
    + apply jutila_permits; [exact PK|]. rewrite V. unfold c. destruct Ik as [<-|[<-|[<-|[<-|[<-|[]]]]]]; [right; left|right; left|left|left|left]; Lqa.lra.
    + apply hb_permits; [exact PK|]. rewrite V. unfold c. destruct Ik as [<-|[<-|[<-|[<-|[<-|[]]]]]]; [right|right|left|left|left]; Lqa.lra.
  - intro; exfalso; Lqa.lra.
  - intros t u Bt P Z. rewrite IV. apply Qle_shift_div_l; [Lqa.lra|].
    assert (X : forall k, In k powers -> u <= k * (2 - 2 * s) \/ u <= k * (10 - 13 * s) + t).
    { intros k Ik. apply hb_permits; [now apply powers_ge|]. apply P; [right; right; now left|exact Ik]. }
    (* the power [k] settles 2 k c / 3 <= t <= k c *)
    assert (Y2 : forall k, In k powers -> t <= k * c -> u <= k * (10 - 13 * s) + t -> u * c <= 3 * (1 - s) * t).
    { intros k Ik L H'. assert (Z1 : 0 <= (k * (10 - 13 * s) + t - u) * c) by (apply Qmult_le_0_compat; Lqa.lra).
      assert (Z2 : 0 <= (k * c - t) * (13 * s - 10)) by (apply Qmult_le_0_compat; Lqa.lra).
      assert (ID : 3 * (1 - s) * t - u * c == (k * (10 - 13 * s) + t - u) * c + (k * c - t) * (13 * s - 10)) by (unfold c; ring). Lqa.lra. }
    assert (Y : forall k, In k powers -> 2 * k * c <= 3 * t -> t <= k * c -> u * c <= 3 * (1 - s) * t).
    { intros k Ik L1 L2. destruct (X k Ik) as [H'|H']; [|now apply (Y2 k)].
      assert (Z1 : 0 <= (k * (2 - 2 * s) - u) * c) by (apply Qmult_le_0_compat; Lqa.lra). assert (Z2 : 0 <= (3 * t - 2 * k * c) * (1 - s)) by (apply Qmult_le_0_compat; Lqa.lra).
      assert (ID : 3 * (1 - s) * t - u * c == (k * (2 - 2 * s) - u) * c + (3 * t - 2 * k * c) * (1 - s)) by ring. Lqa.lra. }
    destruct (Qlt_le_dec (3 * t) (4 * c)) as [L|L].
    { assert (T3 : t < 3) by Lqa.lra. apply Z, twelfth_permits in T3. destruct (X 2 ltac:(right; now left)) as [H'|H']; [|apply (Y2 2); [right; now left|Lqa.lra|exact H']].
      assert (Z3 : 0 <= (1 - s) * (25 - 28 * s)) by (apply Qmult_le_0_compat; Lqa.lra).
      destruct (Qlt_le_dec t (4 * s - 1)) as [L4|L4].
      - assert (Z1 : 0 <= (6 - 12 * s + 2 * t - u) * c) by (apply Qmult_le_0_compat; Lqa.lra).
        assert (Z2 : 0 <= (4 * s - 1 - t) * (23 * s - 17)) by (apply Qmult_le_0_compat; Lqa.lra).
        assert (ID : 3 * (1 - s) * t - u * c == (6 - 12 * s + 2 * t - u) * c + (4 * s - 1 - t) * (23 * s - 17) + (1 - s) * (25 - 28 * s)) by (unfold c; ring). Lqa.lra.
      - assert (Z1 : 0 <= (4 - 4 * s - u) * c) by (apply Qmult_le_0_compat; Lqa.lra).
        assert (Z2 : 0 <= (t - (4 * s - 1)) * (3 * (1 - s))) by (apply Qmult_le_0_compat; Lqa.lra).
        assert (ID : 3 * (1 - s) * t - u * c == (4 - 4 * s - u) * c + (t - (4 * s - 1)) * (3 * (1 - s)) + (1 - s) * (25 - 28 * s)) by (unfold c; ring). Lqa.lra. }
    destruct (Qlt_le_dec t (2 * c)); [apply (Y 2); [right; left; reflexivity|Lqa.lra|Lqa.lra]|].
    destruct (Qlt_le_dec t (3 * c)); [apply (Y 3); [right; right; left; reflexivity|Lqa.lra|Lqa.lra]|].
    apply (Y 4); [do 3 right; left; reflexivity|Lqa.lra|Lqa.lra].
Qed.

Lemma hb_b2_ratio : forall s, 25#28 <= s -> s < 1 -> largest_zeta_ratio [l2_bounds; jutila_bounds 3; hb_bounds] powers [twelfth_bounds] s 3 (Q2R (4 * (1 - s) / (4 * s - 1))).
Proof.
  intros s S1 S2. set (c := 4 * s - 1). assert (C : 18#7 <= c < 3) by (unfold c; Lqa.lra). assert (Sc : s == (1#4) * (c + 1)) by (unfold c; ring).
  assert (IV : forall t, 4 * (1 - s) / c * t == 4 * (1 - s) * t / c) by (intro t; field; Lqa.lra).
  assert (V : 4 * (1 - s) / c * c == 4 * (1 - s)) by (field; Lqa.lra).
  apply (zeta_ratio_is _ _ _ _ _ _ c); [Lqa.lra|apply Qlt_shift_div_l; Lqa.lra| | |].
  - intros B k IB Ik. pose proof (powers_ge k Ik) as PK. destruct IB as [<-|[<-|[<-|[]]]].
    + apply l2_permits; [exact PK|]. rewrite V. unfold c. destruct Ik as [<-|[<-|[<-|[<-|[<-|[]]]]]]; [right|left|left|left|left]; Lqa.lra.
    + apply jutila_permits; [exact PK|]. rewrite V. unfold c. destruct Ik as [<-|[<-|[<-|[<-|[<-|[]]]]]]; [right; left|left|left|left|left]; Lqa.lra.
    + apply hb_permits; [exact PK|]. rewrite V. unfold c. destruct Ik as [<-|[<-|[<-|[<-|[<-|[]]]]]]; [right|left|left|left|left]; Lqa.lra.
  - intros _. apply twelfth_permits. rewrite V. unfold c. Lqa.lra.
  - intros t u Bt P Z. rewrite IV. apply Qle_shift_div_l; [Lqa.lra|].
    assert (X : forall k, In k powers -> u <= k * (2 - 2 * s) \/ u <= k * (10 - 13 * s) + t).
    { intros k Ik. apply hb_permits; [now apply powers_ge|]. apply P; [right; right; now left|exact Ik]. }
    (* the power [k] settles k c / 2 <= t <= T k, where T = (13 s - 10) c / (8 s - 5) is at least 3 c / 4 and 3 / 2 *)
    assert (Y : forall k T, In k powers -> k * c <= 2 * t -> t <= k * T -> T * (8 * s - 5) <= (13 * s - 10) * c -> u * c <= 4 * (1 - s) * t).
    { intros k T Ik L1 L2 LT. pose proof (powers_ge k Ik) as PK. destruct (X k Ik) as [H'|H'].
      - assert (Z1 : 0 <= (k * (2 - 2 * s) - u) * c) by (apply Qmult_le_0_compat; Lqa.lra). assert (Z2 : 0 <= (2 * t - k * c) * (2 * (1 - s))) by (apply Qmult_le_0_compat; Lqa.lra).
        assert (ID : 4 * (1 - s) * t - u * c == (k * (2 - 2 * s) - u) * c + (2 * t - k * c) * (2 * (1 - s))) by ring. Lqa.lra.
      - assert (Z1 : 0 <= (k * (10 - 13 * s) + t - u) * c) by (apply Qmult_le_0_compat; Lqa.lra).
        assert (Z2 : 0 <= (k * T - t) * (8 * s - 5)) by (apply Qmult_le_0_compat; Lqa.lra).
        assert (Z3 : 0 <= k * ((13 * s - 10) * c - T * (8 * s - 5))) by (apply Qmult_le_0_compat; Lqa.lra).
        assert (ID : 4 * (1 - s) * t - u * c == (k * (10 - 13 * s) + t - u) * c + (k * T - t) * (8 * s - 5) + k * ((13 * s - 10) * c - T * (8 * s - 5))) by (unfold c; ring). Lqa.lra. }
    assert (TA : (3#4) * c * (8 * s - 5) <= (13 * s - 10) * c).
    { assert (Z1 : 0 <= (7 * s - (25#4)) * c) by (apply Qmult_le_0_compat; Lqa.lra). assert (ID : (13 * s - 10) * c - (3#4) * c * (8 * s - 5) == (7 * s - (25#4)) * c) by ring. Lqa.lra. }
    destruct (Qlt_le_dec t c) as [L|L].
    { assert (T3 : t < 3) by Lqa.lra. apply Z, twelfth_permits in T3.
      assert (Z1 : 0 <= (6 - 12 * s + 2 * t - u) * c) by (apply Qmult_le_0_compat; Lqa.lra). assert (Z2 : 0 <= (c - t) * (12 * s - 6)) by (apply Qmult_le_0_compat; Lqa.lra).
      assert (ID : 4 * (1 - s) * t - u * c == (6 - 12 * s + 2 * t - u) * c + (c - t) * (12 * s - 6)) by (unfold c; ring). Lqa.lra. }
    destruct (Qlt_le_dec (2 * t) (3 * c)); [apply (Y 2 ((3#4) * c)); [right; left; reflexivity|Lqa.lra|Lqa.lra|exact TA]|].
    destruct (Qlt_le_dec t (2 * c)); [apply (Y 3 ((3#4) * c)); [right; right; left; reflexivity|Lqa.lra|Lqa.lra|exact TA]|].
    apply (Y 4 ((3#4) * c)); [do 3 right; left; reflexivity|Lqa.lra|Lqa.lra|exact TA].
Qed.

(** ** Finding the estimates in the literature *)
Section Literature.
Context (E : ext) (OK : ext_ok E) (get : str -> reference) (BIB : zeta_bibliography get) (K : Z) (K1 : (3 < K)%Z) (K2 : (K <= 30)%Z) (lit : list lnode) (RL : recorded_zeta_literature E get K lit).

Lemma max_is_lv : forall B r p h, literature_bound_LV_max E B r p = Ret h -> is_lv h = true.
Proof.
  intros B r p h H. destruct (literature_max_is _ _ _ _ _ H) as (_ & _ & C). unfold convert_bounds in C. destruct (from_union_of_halfplanes _ _ _); [|discriminate]. cbn [bind] in C. destruct (lv_repr _); [|discriminate]. cbn [bind] in C. unfold is_lv.
  apply (f_equal (fun x => match x with Ret y => y | _ => l_data h end)) in C. rewrite <- C. reflexivity.
Qed.

(** The keywords of the proof of the second estimate of Heath-Brown find their large
    value estimate. *)
Theorem heath_brown_found : exists h, add_heath_brown_large_values_estimate E get = Ret h /\ heath_brown_lv lit = Some h.
Proof.
  destruct RL as ((hux & hb & js & bo & gm & others & Eu & Eh & Ej & Eb & Eg & OT & M) & NH & _). pose proof (zeta_bib get BIB) as BB. exists hb. split; [exact Eh|].
  assert (AJ : forall g, In g js -> exists k, (1 <= k < 30)%Z /\ jutila_estimate E get k = Ret g).
  { intros g Ig. apply (Proof_Piecewise.mapM_In _ _ _ _ _ _ Ej) in Ig as (k & Ik & Ek). exists k. split; [|exact Ek]. unfold range1 in Ik. apply in_map_iff in Ik as (n & <- & In'). apply in_seq in In'. lia. }
  unfold heath_brown_lv. apply find_only.
  - apply M. right. now left.
  - destruct (literature_max_is _ _ _ _ _ Eh) as (N & _). cbn [andb]. rewrite (keyword_name _ _ _ N), (by_heath_brown get BB). vm_compute. reflexivity.
  - intros g Ig F. cbn [andb] in F. pose proof (NH g Ig) as NG. apply M in Ig. destruct Ig as [<-|[<-|[<-|[<-|Ig]]]].
    + destruct (literature_max_is _ _ _ _ _ Eu) as (N & _). rewrite (keyword_name _ _ _ N), (by_huxley get BB) in F. vm_compute in F. discriminate.
    + reflexivity.
    + pose proof (bourgain_name E get _ OK Eb) as N. rewrite (keyword_name _ _ _ N), (by_bourgain get BB) in F. vm_compute in F. discriminate.
    + destruct (literature_max_is _ _ _ _ _ Eg) as (N & _). rewrite (keyword_name _ _ _ N), (by_guth_maynard get BB) in F. vm_compute in F. discriminate.
    + exfalso. unfold keyword_match in F. rewrite forallb_forall in F. specialize (F (s_of "Heath-Brown large value estimate")).
      assert (IS : In (s_of "Heath-Brown large value estimate") (Model_Text.split [","%char] (s_of "Heath-Brown large value estimate"))) by (left; vm_compute; reflexivity).
      specialize (F IS). change (strip (s_of "Heath-Brown large value estimate")) with (s_of "Heath-Brown large value estimate") in F.
      apply in_app_iff in Ig as [Ig|Ig]; [|destruct (OT g Ig) as [C _]; rewrite (NG C) in F; discriminate].
      destruct (AJ g Ig) as (k & Bk & Ek). destruct (literature_max_is _ _ _ _ _ Ek) as (N & _). rewrite N, (by_jutila get BB) in F.
      assert (GN : forallb (fun k => negb (Model_Text.contains (s_of "Heath-Brown large value estimate") (s_of "Jutila" ++ s_of " large value estimate" ++ s_of " with k = " ++ z_str k))) (map Z.of_nat (seq 1 29)) = true) by (vm_compute; reflexivity).
      rewrite forallb_forall in GN. specialize (GN k). assert (Ik : In k (map Z.of_nat (seq 1 29))) by (apply in_map_iff; exists (Z.to_nat k); split; [lia|apply in_seq; lia]). specialize (GN Ik). apply negb_true_iff in GN. congruence.
Qed.

Lemma twelfth_is : forall h, twelfth_moment_estimate E get = Ret h -> l_ref h = get (s_of "heathbrown_twelfth_1978") /\
  l_name h = value_str (r_author (get (s_of "heathbrown_twelfth_1978"))) ++ s_of " (" ++ value_str (r_year (get (s_of "heathbrown_twelfth_1978"))) ++ s_of ") zeta large value estimate" ++ [] /\
  exists r rep, convert_bounds E twelfth_bounds = Ret (DLV r rep) /\ l_data h = DZLV r rep.
Proof.
  intros h H. unfold twelfth_moment_estimate, literature_bound_ZLV_Max in H. destruct (convert_bounds E [[6; -(12); 2]]) as [d|] eqn:Ec; [|discriminate]. cbn [bind] in H. destruct d as [r rep| | |]; try discriminate.
  apply (f_equal (fun x => match x with Ret y => y | _ => h end)) in H. rewrite <- H. split; [reflexivity|]. split; [reflexivity|]. exists r, rep. split; [exact Ec|reflexivity].
Qed.
(** The keyword finds the estimate from the twelfth moment. *)
Theorem twelfth_found : exists h, twelfth_moment_estimate E get = Ret h /\ heath_brown_zlv lit = Some h.
Proof.
  destruct RL as (_ & _ & tw & Et & It & U). exists tw. split; [exact Et|]. destruct (twelfth_is tw Et) as (_ & N & r & rep & _ & D). unfold heath_brown_zlv. apply find_only; [exact It| |].
  - unfold is_zlv. rewrite D. cbn [andb]. rewrite (keyword_name _ _ _ N), (by_twelfth get BIB), (twelfth_year get BIB). vm_compute. reflexivity.
  - intros g Ig F. apply andb_true_iff in F as [F _]. now apply U.
Qed.

Lemma zeta_inputs : exists h3 hb tw, jutila_estimate E get 3 = Ret h3 /\ add_heath_brown_large_values_estimate E get = Ret hb /\ twelfth_moment_estimate E get = Ret tw /\
  records E h3 (jutila_bounds 3) /\ records E hb hb_bounds /\ records_zeta E 3 tw twelfth_bounds /\
  jutila_3 lit = Some h3 /\ heath_brown_lv lit = Some hb /\ heath_brown_zlv lit = Some tw.
Proof.
  pose proof (zeta_bib get BIB) as BB. destruct (jutila_found E OK get BB K K1 K2 lit (proj1 RL)) as (h3 & E3 & F3). destruct heath_brown_found as (hb & Eh & Fh). destruct twelfth_found as (tw & Et & Ft).
  exists h3, hb, tw. split; [exact E3|]. split; [exact Eh|]. split; [exact Et|].
  split. { destruct (literature_max_is _ _ _ _ _ E3) as (_ & RF & C). split; [exact jutila_proper|]. split; [rewrite RF; exact (jutila_dated get BB)|exact C]. }
  split. { destruct (literature_max_is _ _ _ _ _ Eh) as (_ & RF & C). split; [exact hb_proper|]. split; [rewrite RF; exact (heath_brown_dated get BIB)|exact C]. }
  split. { destruct (twelfth_is tw Et) as (RF & _ & X). split; [exact twelfth_proper|]. split; [|exact X]. rewrite RF, (twelfth_year get BIB). left. exact Logic.I. }
  auto.
Qed.
End Literature.
Print Assumptions heath_brown_found.
Print Assumptions twelfth_found.

Lemma zeta_run : forall E, ext_ok E -> anchored E -> forall adjacency, adjacency_ok E adjacency -> forall solve, solve_complete solve ->
  forall order, (forall k l, Permutation (order k l) l) -> forall iteration, (forall l x, In x (iteration l) <-> In x l) ->
  forall rf_str additional lvs Bs zlvs Zs a b (val : Q -> Q), Forall2 (records E) lvs Bs -> Forall2 (records_zeta E 3) zlvs Zs -> (forall h, In h additional <-> In h lvs \/ In h zlvs) ->
  1#2 < a -> a < b -> b <= 1 -> (forall s, a <= s -> s < b -> largest_zeta_ratio (l2_bounds :: Bs) powers Zs s 3 (Q2R (val s))) ->
  exists l, prove_zero_density E order adjacency solve rf_str iteration additional a b (Method1 3) = Ret l /\
    derived_over l a b (fun s v => v = Q2R (val s) /\ forall W : worlds E additional, zd (proj1_sig W) s (Q2R (val s / (1 - s)))).
Proof.
  intros E OK AN adj AD solve SC order OO iter IT rf_str add lvs Bs zlvs Zs a b val RC RZ AI A0 AB B1 HV.
  assert (A0' : 1#2 <= a) by Lqa.lra. assert (T0 : 2 < 3) by reflexivity. assert (TU : 2 * 3 + 1 < LV_DEFAULT_UPPER_BOUND) by reflexivity.
  destruct (zeta_density_value E OK AN adj AD solve SC order OO iter IT rf_str add lvs Bs zlvs Zs a b 3 RC RZ AI A0' AB B1 T0 TU) as (l & El & D). exists l. split; [exact El|].
  assert (D1 : derived_over l a b (fun s v => v = Q2R (val s))) by (eapply derived_over_mono; [|exact D]; cbv beta; intros s v Sa Sb LR; eapply zeta_ratio_unique; [exact LR|now apply HV]).
  eapply derived_over_mono; [|apply (derived_over_and l a b (worlds E add) _ (fun W s v => 1#2 < s -> zd (proj1_sig W) s (v / (1 - Q2R s))%R) D1)].
  - intros s v Sa Sb [-> H]. split; [reflexivity|]. intros W. assert (S1 : 1#2 < s) by Lqa.lra. specialize (H W S1).
    replace (Q2R (val s / (1 - s))) with (Q2R (val s) / (1 - Q2R s))%R; [exact H|]. rewrite Q2R_div by Lqa.lra. rewrite Q2R_minus. f_equal. f_equal. unfold Q2R. cbn. lra.
  - intros (W & Ad & h2 & tr & btr & E2 & H2 & HA). cbn [proj1_sig].
    destruct (zeta_density_sound E OK AN adj AD solve SC order OO iter IT rf_str add lvs Bs zlvs Zs a b 3 RC RZ AI A0' AB B1 T0 TU h2 tr btr W E2 Ad H2 HA) as (l' & El' & D').
    rewrite El in El'. injection El' as <-. exact D'.
Qed.

(** The proof of the first estimate of Heath-Brown, A(sigma) <= 9 / (7 sigma - 1), on [11/14, 1). *)
Theorem heath_brown_1979a_proved : forall E, ext_ok E -> anchored E -> forall adjacency, adjacency_ok E adjacency -> forall solve, solve_complete solve ->
  forall order, (forall k l, Permutation (order k l) l) -> forall iteration, (forall l x, In x (iteration l) <-> In x l) -> forall rf_str,
  forall get K lit, zeta_bibliography get -> (3 < K <= 30)%Z -> recorded_zeta_literature E get K lit ->
  exists l, prove_zero_density_heathbrown_1979a E order adjacency solve rf_str iteration lit = Ret l /\
    derived_over l (11#14) 1 (fun s v => v = Q2R (9 / (7 * s - 1) * (1 - s)) /\
      forall W h2 h3 tw tr btr, d_admissible W -> large_value_estimate_L2 E = Ret h2 -> jutila_estimate E get 3 = Ret h3 -> twelfth_moment_estimate E get = Ret tw ->
        Forall (lholds tr btr (low (ener W))) [h2; h3; tw] -> zd W s (Q2R (9 / (7 * s - 1)))).
Proof.
  intros E OK AN adj AD solve SC order OO iter IT rf_str get K lit BIB [K1 K2] RL.
  destruct (zeta_inputs E OK get BIB K K1 K2 lit RL) as (h3 & hb & tw & E3 & _ & Et & R3 & _ & Rt & F3 & _ & Ft).
  destruct (zeta_run E OK AN adj AD solve SC order OO iter IT rf_str [h3; tw] [h3] [jutila_bounds 3] [tw] [twelfth_bounds] (11#14) 1 (fun s => 9 * (1 - s) / (7 * s - 1))) as (l & El & D);
    try reflexivity; try discriminate; try (constructor; [eassumption|constructor]); [intro h; cbn; tauto|intros s Sa Sb; now apply hb_a_ratio|].
  exists l. split; [unfold prove_zero_density_heathbrown_1979a; rewrite F3, Ft; exact El|].
  eapply derived_over_mono; [|exact D]. cbv beta. intros s v Sa Sb [-> H]. split; [apply Qeq_eqR; field; Lqa.lra|].
  intros W h2 h3' tw' tr btr Ad E2 E3' Et' HA.
  rewrite E3 in E3'. apply (f_equal (fun x => match x with Ret y => y | _ => h3 end)) in E3'. subst h3'. rewrite Et in Et'. apply (f_equal (fun x => match x with Ret y => y | _ => tw end)) in Et'. subst tw'.
  apply Forall_cons_iff in HA as [HA1 HA].
  assert (X : exists h2 tr btr, large_value_estimate_L2 E = Ret h2 /\ lholds tr btr (low (ener W)) h2 /\ Forall (lholds tr btr (low (ener W))) [h3; tw]) by (exists h2, tr, btr; auto).
  specialize (H (exist _ W (conj Ad X))). cbn [proj1_sig] in H. replace (Q2R (9 / (7 * s - 1))) with (Q2R (9 * (1 - s) / (7 * s - 1) / (1 - s))); [exact H|].
  apply Qeq_eqR. field. repeat split; Lqa.lra.
Qed.
Print Assumptions heath_brown_1979a_proved.

(** The proof of the second estimate of Heath-Brown, A(sigma) <= 3 / (10 sigma - 7) on [20/23, 25/28)
    and A(sigma) <= 4 / (4 sigma - 1) on [25/28, 1). *)
Theorem heath_brown_1979b_proved : forall E, ext_ok E -> anchored E -> forall adjacency, adjacency_ok E adjacency -> forall solve, solve_complete solve ->
  forall order, (forall k l, Permutation (order k l) l) -> forall iteration, (forall l x, In x (iteration l) <-> In x l) -> forall rf_str,
  forall get K lit, zeta_bibliography get -> (3 < K <= 30)%Z -> recorded_zeta_literature E get K lit ->
  exists l1 l2, prove_zero_density_heathbrown_1979b E order adjacency solve rf_str iteration lit = Ret [l1; l2] /\
    let follows s a := forall W h2 h3 hb tw tr btr, d_admissible W -> large_value_estimate_L2 E = Ret h2 -> jutila_estimate E get 3 = Ret h3 ->
        add_heath_brown_large_values_estimate E get = Ret hb -> twelfth_moment_estimate E get = Ret tw ->
        Forall (lholds tr btr (low (ener W))) [h2; h3; hb; tw] -> zd W s (Q2R a) in
    derived_over l1 (20#23) (25#28) (fun s v => v = Q2R (3 / (10 * s - 7) * (1 - s)) /\ follows s (3 / (10 * s - 7))) /\
    derived_over l2 (25#28) 1 (fun s v => v = Q2R (4 / (4 * s - 1) * (1 - s)) /\ follows s (4 / (4 * s - 1))).
Proof.
  intros E OK AN adj AD solve SC order OO iter IT rf_str get K lit BIB [K1 K2] RL.
  destruct (zeta_inputs E OK get BIB K K1 K2 lit RL) as (h3 & hb & tw & E3 & Eb & Et & R3 & Rb & Rt & F3 & Fb & Ft).
  assert (RC : Forall2 (records E) [h3; hb] [jutila_bounds 3; hb_bounds]) by (constructor; [exact R3|constructor; [exact Rb|constructor]]).
  assert (RZ : Forall2 (records_zeta E 3) [tw] [twelfth_bounds]) by (constructor; [exact Rt|constructor]).
  assert (AI : forall h, In h [h3; hb; tw] <-> In h [h3; hb] \/ In h [tw]) by (intro h; cbn; tauto).
  assert (FL : forall s q, (forall W : worlds E [h3; hb; tw], zd (proj1_sig W) s (Q2R q)) -> forall W h2 h3' hb' tw' tr btr, d_admissible W -> large_value_estimate_L2 E = Ret h2 -> jutila_estimate E get 3 = Ret h3' ->
        add_heath_brown_large_values_estimate E get = Ret hb' -> twelfth_moment_estimate E get = Ret tw' -> Forall (lholds tr btr (low (ener W))) [h2; h3'; hb'; tw'] -> zd W s (Q2R q)).
  { intros s q H W h2 h3' hb' tw' tr btr Ad E2 E3' Eb' Et' HA.
    rewrite E3 in E3'. apply (f_equal (fun x => match x with Ret y => y | _ => h3 end)) in E3'. subst h3'. rewrite Et in Et'. apply (f_equal (fun x => match x with Ret y => y | _ => tw end)) in Et'. subst tw'.
    rewrite Eb in Eb'. apply (f_equal (fun x => match x with Ret y => y | _ => hb end)) in Eb'. subst hb'. apply Forall_cons_iff in HA as [HA1 HA].
    assert (X : exists h2 tr btr, large_value_estimate_L2 E = Ret h2 /\ lholds tr btr (low (ener W)) h2 /\ Forall (lholds tr btr (low (ener W))) [h3; hb; tw]) by (exists h2, tr, btr; auto).
    exact (H (exist _ W (conj Ad X))). }
  destruct (zeta_run E OK AN adj AD solve SC order OO iter IT rf_str [h3; hb; tw] _ _ _ _ (20#23) (25#28) (fun s => 3 * (1 - s) / (10 * s - 7)) RC RZ AI) as (l1 & El1 & D1);
    try reflexivity; try discriminate; [intros s Sa Sb; now apply hb_b1_ratio|].
  destruct (zeta_run E OK AN adj AD solve SC order OO iter IT rf_str [h3; hb; tw] _ _ _ _ (25#28) 1 (fun s => 4 * (1 - s) / (4 * s - 1)) RC RZ AI) as (l2 & El2 & D2);
    try reflexivity; try discriminate; [intros s Sa Sb; now apply hb_b2_ratio|].
  exists l1, l2. split.
  { unfold prove_zero_density_heathbrown_1979b. rewrite F3, Fb, Ft. unfold all_found. cbn [mapM found bind concat app]. rewrite El1. cbn [bind]. rewrite El2. reflexivity. }
  cbv zeta. split.
  - eapply derived_over_mono; [|exact D1]. cbv beta. intros s v Sa Sb [-> H]. split; [apply Qeq_eqR; field; Lqa.lra|]. apply FL. intro W. specialize (H W).
    replace (Q2R (3 / (10 * s - 7))) with (Q2R (3 * (1 - s) / (10 * s - 7) / (1 - s))); [exact H|]. apply Qeq_eqR. field. repeat split; Lqa.lra.
  - eapply derived_over_mono; [|exact D2]. cbv beta. intros s v Sa Sb [-> H]. split; [apply Qeq_eqR; field; Lqa.lra|]. apply FL. intro W. specialize (H W).
    replace (Q2R (4 / (4 * s - 1))) with (Q2R (4 * (1 - s) / (4 * s - 1) / (1 - s))); [exact H|]. apply Qeq_eqR. field. repeat split; Lqa.lra.
Qed.
Print Assumptions heath_brown_1979b_proved.

(** A literature without the zeta estimate: the search finds nothing, and the run stops. *)
Theorem heath_brown_needs_zeta : forall E order adjacency solve rf_str iteration lit, (forall h, In h lit -> is_zlv h = false) ->
  prove_zero_density_heathbrown_1979a E order adjacency solve rf_str iteration lit = Raise AttributeError /\
  prove_zero_density_heathbrown_1979b E order adjacency solve rf_str iteration lit = Raise AttributeError.
Proof.
  intros E order adj solve rf_str iter lit N.
  assert (X : heath_brown_zlv lit = None).
  { unfold heath_brown_zlv, find_keywords. destruct (find _ lit) as [g|] eqn:F; [|reflexivity]. apply find_some in F as [Ig F]. rewrite (N g Ig) in F. discriminate. }
  unfold prove_zero_density_heathbrown_1979a, prove_zero_density_heathbrown_1979b. rewrite X. unfold all_found. cbn [mapM].
  destruct (found (jutila_3 lit)) as [l|e] eqn:F1; cbn [bind found]; [|unfold found in F1; destruct (jutila_3 lit); [discriminate|injection F1 as <-; auto]].
  split; [reflexivity|]. destruct (found (heath_brown_lv lit)) as [l'|e'] eqn:F2; cbn [bind found]; [reflexivity|]. unfold found in F2. destruct (heath_brown_lv lit); [discriminate|injection F2 as <-; reflexivity].
Qed.
Print Assumptions heath_brown_needs_zeta.

(** ** The assumptions are met *)
Definition zeta_sample_get (label : str) : reference :=
  if str_eqb label (s_of "heathbrown_twelfth_1978") then ref_make (s_of "Heath-Brown") 1978 else sample_get label.
Lemma sample_zeta_bibliography : zeta_bibliography zeta_sample_get.
Proof. split; [split| | |]; try (vm_compute; reflexivity); (left; vm_compute; exact Logic.I). Qed.

Lemma zeta_literature_recorded : forall E get K, ext_ok E -> zeta_bibliography get -> exists lit, recorded_zeta_literature E get K lit.
Proof.
  intros E get K OK BIB. destruct (literature_recorded E get K OK) as (lit & RL).
  destruct (twelfth_moment_exact E get OK) as (tw & reg & rep & Et & _). destruct (twelfth_is E get tw Et) as (_ & N & r & rep' & _ & D).
  rewrite (by_twelfth get BIB), (twelfth_year get BIB) in N.
  destruct RL as (hux & hb & js & bo & gm & others & Eu & Eh & Ej & Eb & Eg & OT & M).
  assert (NL : is_lv tw = false) by (unfold is_lv; now rewrite D).
  assert (LV : forall h, In h (hux :: hb :: bo :: gm :: js) -> is_lv h = true).
  { intros h [<-|[<-|[<-|[<-|I]]]]; try (eapply max_is_lv; eassumption).
    - destruct (bourgain_pieces_ok E get OK) as (ps & E4 & _). rewrite E4 in Eb. apply (f_equal (fun x => match x with Ret y => y | _ => bo end)) in Eb. rewrite <- Eb. reflexivity.
    - apply (Proof_Piecewise.mapM_In _ _ _ _ _ _ Ej) in I as (k & _ & Ek). eapply max_is_lv; eassumption. }
  exists (hux :: hb :: bo :: gm :: js ++ [tw]). split; [|split].
  - exists hux, hb, js, bo, gm, [tw]. split; [exact Eu|]. split; [exact Eh|]. split; [exact Ej|]. split; [exact Eb|]. split; [exact Eg|]. split; [|intro h; reflexivity].
    intros h [<-|[]]. split; [exact NL|]. rewrite N. vm_compute. reflexivity.
  - intros h I C. assert (X : In h (hux :: hb :: bo :: gm :: js) \/ h = tw).
    { destruct I as [I|[I|[I|[I|I]]]]; try (left; cbn; tauto). apply in_app_iff in I as [I|[I|[]]]; [left; cbn; tauto|now right]. }
    destruct X as [X| ->]; [rewrite (LV h X) in C; discriminate|]. rewrite N. vm_compute. reflexivity.
  - exists tw. split; [exact Et|]. split; [do 4 right; apply in_or_app; right; now left|]. intros h I C.
    destruct I as [I|[I|[I|[I|I]]]]; try (exfalso; assert (X : is_lv h = true) by (apply LV; cbn; tauto); unfold is_lv, is_zlv in *; destruct (l_data h); discriminate).
    apply in_app_iff in I as [I|[I|[]]]; [|now symmetry]. exfalso. assert (X : is_lv h = true) by (apply LV; cbn; tauto). unfold is_lv, is_zlv in *. destruct (l_data h); discriminate.
Qed.

(** With the verified solver both proofs run, and there is a world in which the
    estimates they start from hold. *)
Example heath_brown_case : exists adjacency solve lit, recorded_zeta_literature anchor_ext zeta_sample_get 20 lit /\
  (exists l, prove_zero_density_heathbrown_1979a anchor_ext (fun _ l => l) adjacency solve (fun _ => []) (fun l => l) lit = Ret l) /\
  (exists l, prove_zero_density_heathbrown_1979b anchor_ext (fun _ l => l) adjacency solve (fun _ => []) (fun l => l) lit = Ret l) /\
  exists W h2 h3 hb tw, d_admissible W /\ large_value_estimate_L2 anchor_ext = Ret h2 /\ jutila_estimate anchor_ext zeta_sample_get 3 = Ret h3 /\
    add_heath_brown_large_values_estimate anchor_ext zeta_sample_get = Ret hb /\ twelfth_moment_estimate anchor_ext zeta_sample_get = Ret tw /\
    forall tr btr, Forall (lholds tr btr (low (ener W))) [h2; h3; hb; tw].
Proof.
  destruct solver_exists as [solve SC]. exists (fun m => map (fun _ => seq 0 (List.length (generators anchor_ext m))) (generators anchor_ext m)), solve.
  destruct (zeta_literature_recorded anchor_ext zeta_sample_get 20 anchor_ext_ok sample_zeta_bibliography) as (lit & RL). exists lit. split; [exact RL|].
  pose proof (all_pairs_adjacency anchor_ext anchor_ext_ok) as AD. assert (OO : forall (k : nat) (l : list nat), Permutation l l) by (intros; apply Permutation_refl). assert (IT : forall (l : list lnode) x, In x l <-> In x l) by tauto.
  split; [destruct (heath_brown_1979a_proved anchor_ext anchor_ext_ok anchor_ext_anchored _ AD solve SC (fun _ l => l) OO (fun l => l) IT (fun _ => []) zeta_sample_get 20 lit sample_zeta_bibliography ltac:(lia) RL) as (l & El & _); exists l; exact El|].
  split; [destruct (heath_brown_1979b_proved anchor_ext anchor_ext_ok anchor_ext_anchored _ AD solve SC (fun _ l => l) OO (fun l => l) IT (fun _ => []) zeta_sample_get 20 lit sample_zeta_bibliography ltac:(lia) RL) as (l1 & l2 & El & _); exists [l1; l2]; exact El|].
  destruct (l2_records anchor_ext anchor_ext_ok) as (h2 & E2 & R2).
  destruct (zeta_inputs anchor_ext anchor_ext_ok zeta_sample_get sample_zeta_bibliography 20 ltac:(lia) ltac:(lia) lit RL) as (h3 & hb & tw & E3 & Eb & Et & R3 & Rb & Rt & _).
  exists (density_world Spec_BoundMu.trivial_world (fun _ => False)), h2, h3, hb, tw. split; [apply Prop_DensityEstimate.density_world_admissible; tauto|]. split; [exact E2|]. split; [exact E3|]. split; [exact Eb|]. split; [exact Et|].
  assert (H01 : forall s t u, in_range s t u -> conj_lv s t u -> u <= 2 - 2 * s \/ s == 1#2 /\ u <= t).
  { intros s t u (I1 & _) (L1 & [L2|L2]); [right; split; [apply Qle_antisym; assumption|exact L1]|left; exact L2]. }
  intros tr btr. repeat constructor; [| | |destruct Rt as (_ & _ & r & rep & _ & D); unfold lholds; rewrite D; intros s t u _ _ (Z & _); discriminate];
    eapply (sample_world anchor_ext); try exact anchor_ext_ok; try eassumption; intros s t u I C; destruct (H01 s t u I C) as [L|[Es L]];
    try (exists [2; -(2); 0]; split; [now left|unfold bound_at; cbn [nth]; Lqa.lra]).
  - exists [1; -(2); 1]. split; [right; now left|unfold bound_at; cbn [nth]; rewrite Es; Lqa.lra].
  - exists [6 * inject_Z 3; -(8) * inject_Z 3; 1]. split; [right; right; now left|unfold bound_at; cbn [nth]; rewrite Es; change (inject_Z 3) with 3; Lqa.lra].
  - exists [10; -(13); 1]. split; [right; now left|unfold bound_at; cbn [nth]; rewrite Es; Lqa.lra].
Qed.
