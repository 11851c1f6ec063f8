(** Property C69: the zero density estimates that are proved from large value estimates. *)
From Coq Require Import Reals Qreals Permutation.
From Verif Require Import Base LinAlg FM Model_Text Model_Reference Spec_Reference Model_Polytope Spec_Polytope Proof_Polytope FM_Ext Spec_Edges Proof_Edges
  Model_Region Spec_Region Model_ExponentPair Spec_ExponentPair Model_LargeValues Spec_LargeValues Proof_LargeValues Prop_LargeValues Model_ZetaLargeValues
  Model_AdditiveEnergy Spec_AdditiveEnergy Model_LargeValueRegion Spec_LargeValueRegion Prop_LargeValueRegion Model_RationalFunction Spec_RationalFunction Prop_Roots
  Model_ZeroDensity Spec_ZeroDensity Model_DensityEstimate Spec_DensityEstimate Model_DensityDerivation Spec_DensityDerivation Prop_DensityDerivation
  Model_DensityRoutes Model_LiteratureLV Prop_LiteratureLV
  Proof_RegionSplit Spec_Anchored Proof_HalfSplit Proof_SupExact Model_DerivedDensity Spec_DerivedDensity Proof_DerivedDensity.
From Verif Require Spec_BoundMu Prop_BoundMu Proof_ExpDual Prop_DensityEstimate.
From Coq Require Import Lra.
Open Scope list_scope.
Local Open Scope Q_scope.

Lemma l2_proper : proper_bounds l2_bounds.
Proof.
  split; [discriminate|]. split; [repeat constructor; cbn [nth]; Lqa.lra|]. split.
  - intros pre b post Eq. destruct pre as [|a [|a' [|]]]; try discriminate.
    + injection Eq as <- <-. exists (3#4), 1, (1#4). unfold well_in_range, TAU_UPPER_LIMIT, LV_DEFAULT_UPPER_BOUND, bound_at. cbn [nth]. split; [Lqa.lra|]. split; [Lqa.lra|constructor].
    + injection Eq as <- <- <-. exists (3#4), 2, 1. unfold well_in_range, TAU_UPPER_LIMIT, LV_DEFAULT_UPPER_BOUND, bound_at. cbn [nth]. split; [Lqa.lra|]. split; [Lqa.lra|]. constructor; [cbn [nth]; Lqa.lra|constructor].
  - exists [2; -(2); 0]. split; [now left|]. intros s t. unfold bound_at. cbn [nth]. Lqa.lra.
Qed.
Lemma classical_dated : proper_year (r_year ref_classical).
Proof. left. cbn. exact Logic.I. Qed.
Lemma l2_records : forall E, ext_ok E -> exists h, large_value_estimate_L2 E = Ret h /\ records E h l2_bounds.
Proof.
  intros E OK. destruct l2_proper as (NE & F & EN & X).
  destruct (convert_bounds_usable E OK l2_bounds NE) as (r & rep & Ec & _); [eapply Forall_impl; [|exact F]; intros b [L _]; exact L|exact EN|].
  exists (LNode (s_of "Classical large value estimate") (DLV r rep) ref_classical []). split.
  - unfold large_value_estimate_L2, classical_LV_estimate. change [[2; -2; 0]; [1; -2; 1]] with l2_bounds. rewrite Ec. reflexivity.
  - split; [exact l2_proper|]. split; [|exact Ec]. exact classical_dated.
Qed.

Lemma powers_natural : Forall natural_power powers.
Proof. unfold powers. repeat constructor; [exists 1%Z|exists 2%Z|exists 3%Z|exists 4%Z|exists 5%Z]; (split; [lia|reflexivity]). Qed.

Lemma joined_top : forall Bs ks s t0 v1 v2, Forall (fun k => ~ k == 0) ks -> 2 <= t0 ->
  top (system Bs ks) t0 (2 * t0) s v1 -> top (system Bs ks) 2 t0 s v2 -> largest_ratio Bs ks s 2 (2 * t0) (Rmax v1 v2).
Proof.
  intros Bs ks s t0 v1 v2 NZ T0 [(t & u & Bt & Pu & A & Ev) U1] [(t' & u' & Bt' & Pu' & A' & Ev') U2]. split.
  - destruct (Rle_or_lt v1 v2) as [L|L].
    + exists t', u'. split; [Lqa.lra|]. split; [exact Pu'|]. split; [now apply adm_permitted|]. now rewrite Rmax_right.
    + exists t, u. split; [Lqa.lra|]. split; [exact Pu|]. split; [now apply adm_permitted|]. rewrite Rmax_left; [exact Ev|lra].
  - intros t2 u2 B2 P. apply adm_permitted in P; [|exact NZ]. destruct (Qlt_le_dec t2 t0) as [L|L].
    + eapply Rle_trans; [|apply Rmax_r]. apply U2; [Lqa.lra|exact P].
    + eapply Rle_trans; [|apply Rmax_l]. apply U1; [Lqa.lra|exact P].
Qed.

(** The run returns, the derived estimates tile the range of sigma, and the bound is
    at each sigma the largest rho / tau with tau in [2, 2 tau0] that the given
    estimates and the classical one permit when raised to the powers 1 to 5. *)
Theorem prove_zero_density_value : forall E, ext_ok E -> anchored E -> forall adjacency, adjacency_ok E adjacency -> forall solve, solve_complete solve ->
  forall order, (forall k l, Permutation (order k l) l) -> forall iteration, (forall l x, In x (iteration l) <-> In x l) ->
  forall rf_str additional Bs a b tau0, Forall2 (records E) additional Bs -> 1#2 <= a -> a < b -> b <= 1 -> 2 < tau0 -> 2 * tau0 + 1 < LV_DEFAULT_UPPER_BOUND ->
  exists l, prove_zero_density E order adjacency solve rf_str iteration additional a b (Method1 tau0) = Ret l /\
    derived_over l a b (fun s v => largest_ratio (l2_bounds :: Bs) powers s 2 (2 * tau0) v).
Proof.
  intros E OK AN adj AD solve SC order OO iter IT rf_str add Bs a b tau0 RC A0 AB B1 T0 TU.
  destruct (l2_records E OK) as (h2 & E2 & R2). set (BB := l2_bounds :: Bs). set (hs := iter (h2 :: map raise_to_power_hypothesis [2; 3; 4; 5] ++ add)).
  assert (HS : forall h, In h hs <-> h = h2 \/ (exists k, In k [2; 3; 4; 5] /\ h = raise_to_power_hypothesis k) \/ In h add).
  { intro h. unfold hs. rewrite IT. cbn [In]. rewrite in_app_iff, in_map_iff. split.
    - intros [<-|[(k & <- & Ik)|I]]; [now left|right; left; exists k; split; [exact Ik|reflexivity]|right; now right].
    - intros [->|[(k & Ik & ->)|I]]; [now left|right; left; exists k; split; [reflexivity|exact Ik]|right; now right]. }
  assert (K1 : In 1 powers) by now left.
  assert (H1 : forall h, In h hs -> (exists B, In B BB /\ records E h B) \/ (exists k, In k powers /\ l_data h = DLVTrans k /\ proper_year (r_year (l_ref h)))).
  { intros h Ih. apply HS in Ih as [->|[(k & Ik & ->)|Ih]].
    - left. exists l2_bounds. split; [now left|exact R2].
    - right. exists k. split; [now right|]. split; [reflexivity|exact classical_dated].
    - left. destruct (Proof_ExpDual.Forall2_in_l _ _ _ _ _ _ RC Ih) as (B & IB & R). exists B. split; [now right|exact R]. }
  assert (H2 : forall B, In B BB -> exists h, In h hs /\ records E h B).
  { intros B [<-|IB]; [exists h2; split; [apply HS; now left|exact R2]|]. destruct (Proof_ExpDual.Forall2_in_r _ _ _ _ _ _ RC IB) as (h & Ih & R). exists h. split; [apply HS; auto|exact R]. }
  assert (H3 : forall k, In k powers -> k = 1 \/ exists h, In h hs /\ l_data h = DLVTrans k).
  { intros k [<-|Ik]; [now left|]. right. exists (raise_to_power_hypothesis k). split; [apply HS; right; left; exists k; split; [exact Ik|reflexivity]|reflexivity]. }
  assert (NB : In l2_bounds BB) by now left.
  assert (NZ : Forall (fun k => ~ k == 0) powers) by (repeat constructor; discriminate).
  assert (T1 : tau0 < 2 * tau0) by Lqa.lra. assert (T0' : 2 <= tau0) by Lqa.lra. assert (TU' : tau0 + 1 < LV_DEFAULT_UPPER_BOUND) by Lqa.lra. assert (T2 : 2 <= 2) by discriminate.
  destruct (domain_ok E OK a b tau0 (2 * tau0) AB A0 B1 T0' T1 TU) as (d1 & Ed1 & _).
  destruct (region_false E OK order OO BB powers hs powers_natural K1 H1 H2 H3 NB a b tau0 (2 * tau0) AB A0 B1 T0' T1 TU d1 Ed1) as (lvr & ps1 & Er1 & P1 & Y1 & (U1 & S1 & I1 & O1)).
  destruct (zeta_set E OK iter BB powers hs powers_natural K1 H1) as (zs & Ez & Z).
  destruct (domain_ok E OK a b 2 tau0 AB A0 B1 T2 T0 TU') as (d2 & Ed2 & _).
  destruct (region_true E OK AN order OO iter IT BB powers hs powers_natural K1 H1 H2 H3 NB a b 2 tau0 AB A0 B1 T2 T0 TU' d2 zs Ed2 Z) as (zlvr & ps2 & Er2 & P2 & Y2 & (U2 & S2 & I2 & O2)).
  pose proof (low_bound BB powers powers_natural K1 NB a b tau0 (2 * tau0) AB A0 B1 T0' T1 TU) as L1.
  pose proof (low_bound BB powers powers_natural K1 NB a b 2 tau0 AB A0 B1 T2 T0 TU') as L2.
  pose proof (pos_value E BB powers hs powers_natural H2 a b tau0 (2 * tau0) B1 T1) as Q1. pose proof (pos_value E BB powers hs powers_natural H2 a b 2 tau0 B1 T0) as Q2.
  pose proof (dec_bounds E BB powers hs powers_natural H2) as DC.
  assert (T00 : 0 < tau0) by Lqa.lra. assert (T20 : 0 < 2) by reflexivity.
  destruct (lv_zlv_to_zd_value E OK adj AD solve SC order rf_str iter hs a b tau0 lvr (iter (hs ++ zs)) zlvr ps1 ps2 AB) as (l & El & TL & V); auto.
  { split; [exists d1; auto|]. split; [exact Ez|exists d2; auto]. }
  { intros l1 l2 E1 E2' f i r x I. apply in_app_iff in I as [I|I].
    - exact (region_sup_plain (system BB powers) a b tau0 (2 * tau0) _ ps1 AB T00 T1 S1 I1 O1 L1 Q1 DC E OK adj AD solve SC lvr l1 P1 U1 E1 f i r x I).
    - exact (region_sup_plain (system BB powers) a b 2 tau0 _ ps2 AB T20 T0 S2 I2 O2 L2 Q2 DC E OK adj AD solve SC zlvr l2 P2 U2 E2' f i r x I). }
  exists l. split.
  { unfold prove_zero_density, density_hypotheses. rewrite E2. cbn [bind power_transforms]. fold hs. rewrite El. reflexivity. }
  split; [exact TL|]. intros o Io. destruct (V o Io) as (f & i & p & r & -> & NP & Vs). do 6 eexists. split; [reflexivity|]. split; [exact NP|].
  intros s J. destruct (Vs s J) as (v1 & v2 & V1 & V2 & ->).
  assert (Bs' : a <= s < b).
  { assert (G : forall l u v, estimates_tile l u v -> (u <= v)%R /\ forall n d p r ds, In (ZNode n d p r ds) l -> (u <= lo (z_int d) /\ hi (z_int d) <= v)%R /\ ilo (z_int d) = true /\ ihi (z_int d) = false).
    { clear. induction l as [|[n d p r ds|h] l IH]; intros u v T; cbn in T; [split; [lra|intros ? ? ? ? ? []]| |destruct T].
      destruct T as (E1 & L & F1 & F2 & T). destruct (IH _ _ T) as [M K]. split; [lra|]. intros n' d' p' r' ds' [Eq|I]; [injection Eq as <- <- <- <- <-; split; [lra|auto]|]. destruct (K _ _ _ _ _ I) as [K1 K2]. split; [lra|exact K2]. }
    destruct (proj2 (G _ _ _ TL) _ _ _ _ _ Io) as ((G1 & G2) & G3 & G4). cbn [z_int] in *. unfold Spec_RationalFunction.inside in J. rewrite G3, G4 in J.
    split; [apply Rle_Qle; lra|apply Rlt_Qlt; lra]. }
  apply joined_top; [exact NZ|exact T0'| |].
  - exact (sup_top (system BB powers) a b tau0 (2 * tau0) _ ps1 T00 T1 S1 I1 O1 L1 Q1 s v1 Bs' V1).
  - exact (sup_top (system BB powers) a b 2 tau0 _ ps2 T20 T0 S2 I2 O2 L2 Q2 s v2 Bs' V2).
Qed.
Print Assumptions prove_zero_density_value.

(** ** What the bound means *)
Lemma records_true : forall E tr btr W h B, ext_ok E -> records E h B -> lholds tr btr W h ->
  forall s t u, in_range s t u -> lv W s t u -> exists b, In b B /\ u <= bound_at b s t.
Proof.
  intros E tr btr W h B OK ((NE & F & _) & _ & Ec) H s t u R L. unfold lholds in H.
  assert (D : exists r rep, l_data h = DLV r rep).
  { unfold convert_bounds in Ec. destruct (from_union_of_halfplanes _ _ _) as [r|]; [|discriminate]. cbn [bind] in Ec. destruct (lv_repr B); [|discriminate]. cbn [bind] in Ec. injection Ec as <-. eauto. }
  destruct D as (r & rep & D). rewrite D in *.
  assert (M : lv_estimate W r <-> forall s t u, in_range s t u -> lv W s t u -> exists b, In b B /\ u <= bound_at b s t).
  { apply (convert_bounds_meaning E OK B r rep W); auto. eapply Forall_impl; [|exact F]. intros b [Lb _]. exact Lb. }
  rewrite M in H. now apply (H s t u).
Qed.
Lemma true_permitted : forall E tr btr W h2 additional Bs, ext_ok E -> lv_admissible W -> large_value_estimate_L2 E = Ret h2 -> lholds tr btr W h2 ->
  Forall2 (records E) additional Bs -> Forall (lholds tr btr W) additional ->
  forall s t u, 1#2 <= s <= 1 -> 0 <= t <= TAU_UPPER_LIMIT -> 0 <= u <= LV_DEFAULT_UPPER_BOUND -> lv W s t u -> permitted (l2_bounds :: Bs) powers s t u.
Proof.
  intros E tr btr W h2 add Bs OK AD E2 H2 RC HA s t u Hs Ht Hu L B k IB Ik.
  assert (RH : exists h, records E h B /\ lholds tr btr W h).
  { destruct IB as [<-|IB].
    - destruct (l2_records E OK) as (h & Eh & R). rewrite E2 in Eh. injection Eh as <-. eauto.
    - destruct (Proof_ExpDual.Forall2_in_r _ _ _ _ _ _ RC IB) as (h & Ih & R). rewrite Forall_forall in HA. eauto. }
  destruct RH as (h & R & Hh). pose proof powers_natural as PN. rewrite Forall_forall in PN. destruct (PN k Ik) as (n & N & Ek).
  assert (K1 : 1 <= k) by (rewrite Ek; change 1 with (inject_Z 1); rewrite <- Zle_Qle; exact N). assert (NZ : ~ k == 0) by (intro Z; rewrite Z in K1; now apply K1).
  assert (X : forall q, 0 <= q -> 0 <= q / k /\ q / k <= q). { intros q Pq. split; [apply Qle_shift_div_l; Lqa.lra|]. apply Qle_shift_div_r; [Lqa.lra|]. Lqa.nra. }
  destruct (X t ltac:(Lqa.lra)) as [X1 X2]. destruct (X u ltac:(Lqa.lra)) as [X3 X4].
  destruct (records_true E tr btr W h B OK R Hh s (t / k) (u / k)) as (b & Ib & Hb).
  - unfold in_range. repeat split; Lqa.lra.
  - apply (lv_power W AD s (t / k) (u / k) n N); [Lqa.lra|Lqa.lra|exact X1|]. apply (lv_proper W AD s s t _ u _); [reflexivity| | |exact L]; rewrite <- Ek; field; exact NZ.
  - exists b. split; [exact Ib|]. apply (Qmult_le_compat_r _ _ k) in Hb; [|Lqa.lra]. assert (Z : u / k * k == u) by (field; exact NZ). Lqa.lra.
Qed.

(** In every world where the large value estimates hold, the value of the derived
    bound at sigma bounds A(sigma) (1 - sigma). *)
Theorem prove_zero_density_sound : forall E, ext_ok E -> anchored E -> forall adjacency, adjacency_ok E adjacency -> forall solve, solve_complete solve ->
  forall order, (forall k l, Permutation (order k l) l) -> forall iteration, (forall l x, In x (iteration l) <-> In x l) ->
  forall rf_str additional Bs a b tau0, Forall2 (records E) additional Bs -> 1#2 <= a -> a < b -> b <= 1 -> 2 < tau0 -> 2 * tau0 + 1 < LV_DEFAULT_UPPER_BOUND ->
  forall h2 tr btr W, large_value_estimate_L2 E = Ret h2 -> d_admissible W -> lholds tr btr (low (ener W)) h2 -> Forall (lholds tr btr (low (ener W))) additional ->
  exists l, prove_zero_density E order adjacency solve rf_str iteration additional a b (Method1 tau0) = Ret l /\
    derived_over l a b (fun s v => 1#2 < s -> zd W s (v / (1 - Q2R s))%R).
Proof.
  intros E OK AN adj AD solve SC order OO iter IT rf_str add Bs a b tau0 RC A0 AB B1 T0 TU h2 tr btr W E2 Ad H2 HA.
  destruct (prove_zero_density_value E OK AN adj AD solve SC order OO iter IT rf_str add Bs a b tau0 RC A0 AB B1 T0 TU) as (l & El & TL & V).
  exists l. split; [exact El|]. split; [exact TL|]. intros o Io. destruct (V o Io) as (x & i & f & p & r & ds & -> & NP & Vs). do 6 eexists. split; [reflexivity|]. split; [exact NP|].
  intros s J S1. destruct (Vs s J) as ((t' & u' & Bt' & Pu' & _ & Ev) & UP). set (v := rfval f (Q2R s)) in *.
  assert (S2 : s < 1).
  { assert (G : forall l u v, estimates_tile l u v -> (u <= v)%R /\ forall n d p r ds, In (ZNode n d p r ds) l -> (u <= lo (z_int d) /\ hi (z_int d) <= v)%R /\ ilo (z_int d) = true /\ ihi (z_int d) = false).
    { clear. induction l as [|[n d p r ds|h] l IH]; intros u v T; cbn in T; [split; [lra|intros ? ? ? ? ? []]| |destruct T].
      destruct T as (E1 & L & F1 & F2 & T). destruct (IH _ _ T) as [M K]. split; [lra|]. intros n' d' p' r' ds' [Eq|I]; [injection Eq as <- <- <- <- <-; split; [lra|auto]|]. destruct (K _ _ _ _ _ I) as [K1 K2]. split; [lra|exact K2]. }
    destruct (proj2 (G _ _ _ TL) _ _ _ _ _ Io) as ((G1 & G2) & G3 & G4). cbn [z_int] in *. unfold Spec_RationalFunction.inside in J. rewrite G3, G4 in J.
    apply Qle_Rle in B1. apply Rlt_Qlt. lra. }
  assert (Pv : (0 < v)%R).
  { rewrite Ev. rewrite <- RMicromega.Q2R_0. apply Qlt_Rlt. apply Qlt_shift_div_l; Lqa.lra. }
  assert (TT : TAU_UPPER_LIMIT == LV_DEFAULT_UPPER_BOUND) by reflexivity. pose proof (en_low _ (d_en W Ad)) as LA.
  assert (K : forall t u, 2 <= t <= 2 * tau0 -> lv (low (ener W)) s t u -> (Q2R u <= v * Q2R t)%R).
  { intros t u Bt L. assert (Pt : 0 < t) by Lqa.lra. destruct (Qlt_le_dec u 0) as [Lu|Lu].
    - apply Qlt_Rlt in Lu, Pt. rewrite RMicromega.Q2R_0 in Lu, Pt. pose proof (Rmult_lt_0_compat _ _ Pv Pt). lra.
    - pose proof (lv_trivial W Ad s t u ltac:(Lqa.lra) ltac:(Lqa.lra) ltac:(Lqa.lra) L) as TR. apply div_le_R; [exact Pt|]. apply UP; [exact Bt|].
      apply (true_permitted E tr btr (low (ener W)) h2 add Bs); auto; Lqa.lra. }
  apply (zd_large W Ad s tau0 v S1 S2); [Lqa.lra| |].
  - intros t u L1 L2 L. apply K; [Lqa.lra|exact L].
  - intros t u L1 L2 L. apply K; [Lqa.lra|]. apply (zlv_lv _ LA); auto; Lqa.lra.
Qed.
Print Assumptions prove_zero_density_sound.

(** A method other than 1 and 2 is not supported. *)
Theorem prove_zero_density_method : forall E, ext_ok E -> forall order adjacency solve rf_str iteration additional a b n,
  prove_zero_density E order adjacency solve rf_str iteration additional a b (MethodOther n) = Raise NotImplementedError.
Proof. intros. destruct (l2_records E H) as (h & Eh & _). unfold prove_zero_density, density_hypotheses. rewrite Eh. reflexivity. Qed.
Print Assumptions prove_zero_density_method.

(** ** The worked proofs *)
Lemma ratio_unique : forall Bs ks s t0 t1 v w, largest_ratio Bs ks s t0 t1 v -> largest_ratio Bs ks s t0 t1 w -> v = w.
Proof.
  intros Bs ks s t0 t1 v w [(t & u & Bt & _ & P & ->) U1] [(t' & u' & Bt' & _ & P' & ->) U2]. apply Rle_antisym; auto.
Qed.
Lemma ratio_is : forall Bs ks s t0 t1 v t, 0 < t0 -> t0 <= t <= t1 -> 0 < v -> permitted Bs ks s t (v * t) ->
  (forall t u, t0 <= t <= t1 -> permitted Bs ks s t u -> u <= v * t) -> largest_ratio Bs ks s t0 t1 (Q2R v).
Proof.
  intros Bs ks s t0 t1 v t T0 Bt Pv P U. split.
  - exists t, (v * t). split; [exact Bt|]. split; [Lqa.nra|]. split; [exact P|]. apply Qeq_eqR. field. Lqa.lra.
  - intros t' u' Bt' P'. apply Qle_Rle. apply Qle_shift_div_r; [Lqa.lra|]. now apply U.
Qed.
Lemma Qsqr_nonneg : forall q, 0 <= q * q.
Proof. intro q. Lqa.nra. Qed.
Lemma at_power : forall c0 c1 c2 k s t, ~ k == 0 -> k * bound_at [c0; c1; c2] s (t / k) == k * (c0 + c1 * s) + c2 * t.
Proof. intros. unfold bound_at. cbn [nth]. field. assumption. Qed.
Lemma l2_permits : forall k s t u, 1 <= k -> ((exists b, In b l2_bounds /\ u <= k * bound_at b s (t / k)) <-> (u <= k * (2 - 2 * s) \/ u <= k * (1 - 2 * s) + t)).
Proof.
  intros k s t u K. assert (NZ : ~ k == 0) by (intro Z; rewrite Z in K; now apply K). split.
  - intros (b & [<-|[<-|[]]] & H); rewrite at_power in H by exact NZ; [left|right]; Lqa.lra.
  - intros [H|H]; [exists [2; -(2); 0]|exists [1; -(2); 1]]; (split; [cbn; auto|]); rewrite at_power by exact NZ; Lqa.lra.
Qed.

Lemma powers_ge : forall k, In k powers -> 1 <= k.
Proof. intros k Ik. assert (F : Forall (fun k => 1 <= k) powers) by (repeat constructor; Lqa.lra). rewrite Forall_forall in F. auto. Qed.

Definition ingham (s : Q) : Q := 3 * (1 - s) / (2 - s).
Lemma ingham_ratio : forall s, 1#2 <= s -> s <= 3#4 -> largest_ratio [l2_bounds] powers s 2 6 (Q2R (ingham s)).
Proof.
  intros s S1 S2. assert (C : 0 < 2 - s) by Lqa.lra.
  assert (IV : forall t, ingham s * t == 3 * (1 - s) * t / (2 - s)) by (intro t; unfold ingham; field; Lqa.lra).
  apply (ratio_is _ _ _ _ _ _ (2 * (2 - s))); [reflexivity|Lqa.lra|unfold ingham; apply Qlt_shift_div_l; Lqa.lra| |].
  - assert (V : ingham s * (2 * (2 - s)) == 6 * (1 - s)) by (unfold ingham; field; Lqa.lra).
    intros B k [<-|[]] Ik. pose proof (powers_ge k Ik) as PK.
    assert (X : 6 * (1 - s) <= k * (2 - 2 * s) \/ 6 * (1 - s) <= k * (1 - 2 * s) + 2 * (2 - s)).
    { destruct Ik as [<-|[<-|[<-|[<-|[<-|[]]]]]]; [right|right|left|left|left]; Lqa.lra. }
    apply l2_permits; [exact PK|]. rewrite V. exact X.
  - intros t u Bt P. rewrite IV. apply Qle_shift_div_l; [exact C|].
    assert (X : forall k, In k powers -> u <= k * (2 - 2 * s) \/ u <= k * (1 - 2 * s) + t).
    { intros k Ik. apply l2_permits; [now apply powers_ge|]. apply P; [now left|exact Ik]. }
    (* the power [k] settles 2 k c / 3 <= t <= k c *)
    assert (Y : forall k, In k powers -> 2 * k * (2 - s) <= 3 * t -> t <= k * (2 - s) -> u * (2 - s) <= 3 * (1 - s) * t).
    { intros k Ik L1 L2. pose proof (powers_ge k Ik). destruct (X k Ik) as [H'|H']; [Lqa.nra|].
      assert (Z : (k * (2 - s) - t) * (2 * s - 1) >= 0) by (apply Qmult_le_0_compat; Lqa.lra). Lqa.nra. }
    destruct (Qlt_le_dec t (2 * (2 - s))); [apply (Y 2); [right; left; reflexivity|Lqa.lra|Lqa.lra]|].
    destruct (Qlt_le_dec t (3 * (2 - s))); [apply (Y 3); [right; right; left; reflexivity|Lqa.lra|Lqa.lra]|].
    destruct (Qlt_le_dec t (4 * (2 - s))); [apply (Y 4); [do 3 right; left; reflexivity|Lqa.lra|Lqa.lra]|].
    apply (Y 5); [do 4 right; left; reflexivity|Lqa.lra|Lqa.lra].
Qed.

Lemma derived_over_mono : forall l a b (P Q : Q -> R -> Prop), (forall s v, a <= s -> s < b -> P s v -> Q s v) -> derived_over l a b P -> derived_over l a b Q.
Proof.
  intros l a b P Q PQ [TL V]. split; [exact TL|]. intros o Io. destruct (V o Io) as (x & i & f & p & r & ds & -> & NP & Vs). do 6 eexists. split; [reflexivity|]. split; [exact NP|].
  intros s J. apply PQ; [| |now apply Vs].
  all: assert (G : forall l u v, estimates_tile l u v -> (u <= v)%R /\ forall n d p r ds, In (ZNode n d p r ds) l -> (u <= lo (z_int d) /\ hi (z_int d) <= v)%R /\ ilo (z_int d) = true /\ ihi (z_int d) = false)
    by (clear; induction l as [|[n d p r ds|h] l IH]; intros u v T; cbn in T; [split; [lra|intros ? ? ? ? ? []]| |destruct T];
      destruct T as (E1 & L & F1 & F2 & T); destruct (IH _ _ T) as [M K]; split; [lra|]; intros n' d' p' r' ds' [Eq|I]; [injection Eq as <- <- <- <- <-; split; [lra|auto]|]; destruct (K _ _ _ _ _ I) as [K1 K2]; split; [lra|exact K2]).
  all: destruct (proj2 (G _ _ _ TL) _ _ _ _ _ Io) as ((G1 & G2) & G3 & G4); cbn [z_int] in *; unfold Spec_RationalFunction.inside in J; rewrite G3, G4 in J.
  - apply Rle_Qle. lra.
  - apply Rlt_Qlt. lra.
Qed.

(** Ingham: A(sigma) (1 - sigma) <= 3 (1 - sigma) / (2 - sigma) for 1/2 <= sigma < 3/4. *)
Theorem ingham_1940_value : forall E, ext_ok E -> anchored E -> forall adjacency, adjacency_ok E adjacency -> forall solve, solve_complete solve ->
  forall order, (forall k l, Permutation (order k l) l) -> forall iteration, (forall l x, In x (iteration l) <-> In x l) -> forall rf_str,
  exists l, prove_zero_density_ingham_1940 E order adjacency solve rf_str iteration = Ret l /\
    derived_over l (1#2) (3#4) (fun s v => v = Q2R (3 * (1 - s) / (2 - s))).
Proof.
  intros E OK AN adj AD solve SC order OO iter IT rf_str. unfold prove_zero_density_ingham_1940.
  destruct (prove_zero_density_value E OK AN adj AD solve SC order OO iter IT rf_str [] [] (1#2) (3#4) 3) as (l & El & D); try reflexivity; try discriminate; [constructor|].
  exists l. split; [exact El|]. eapply derived_over_mono; [|exact D]. intros s v Sa Sb LR. eapply ratio_unique; [exact LR|]. apply ingham_ratio; Lqa.lra.
Qed.
Print Assumptions ingham_1940_value.

Lemma jutila_proper : proper_bounds (jutila_bounds 3).
Proof.
  assert (Z3 : inject_Z 3 == 3) by reflexivity. assert (D3 : 2 / inject_Z 3 == 2#3) by reflexivity.
  split; [discriminate|]. split; [repeat constructor; cbn [jutila_bounds nth]; Lqa.lra|]. split.
  - intros pre b post Eq. unfold jutila_bounds in Eq. destruct pre as [|a1 [|a2 [|a3 [|]]]]; cbn [app] in Eq; try discriminate.
    + assert (Eb : b = [2; -(2); 0]) by congruence. subst b. exists (3#4), 1, (1#4). unfold well_in_range, TAU_UPPER_LIMIT, LV_DEFAULT_UPPER_BOUND, bound_at. cbn [nth]. split; [Lqa.lra|]. split; [Lqa.lra|constructor].
    + assert (Eb : b = [4 - 2 / inject_Z 3; -(6 - 2 / inject_Z 3); 1]) by congruence. assert (Ea : a1 = [2; -(2); 0]) by congruence. subst b a1. exists (3#4), 2, 1.
      unfold well_in_range, TAU_UPPER_LIMIT, LV_DEFAULT_UPPER_BOUND, bound_at. cbn [nth]. split; [Lqa.lra|]. split; [Lqa.lra|]. constructor; [cbn [nth]; Lqa.lra|constructor].
    + assert (Eb : b = [6 * inject_Z 3; -(8) * inject_Z 3; 1]) by congruence. assert (Ea : a1 = [2; -(2); 0]) by congruence. assert (Ea' : a2 = [4 - 2 / inject_Z 3; -(6 - 2 / inject_Z 3); 1]) by congruence. subst b a1 a2. exists (3#5), 2, 4.
      unfold well_in_range, TAU_UPPER_LIMIT, LV_DEFAULT_UPPER_BOUND, bound_at. cbn [nth]. split; [Lqa.lra|]. split; [Lqa.lra|]. constructor; [cbn [nth]; Lqa.lra|constructor; [cbn [nth]; Lqa.lra|constructor]].
  - exists [2; -(2); 0]. split; [now left|]. intros s t. unfold bound_at. cbn [nth]. Lqa.lra.
Qed.
Definition gm_bounds : list (list Q) := [[2; -(2); 0]; [18#5; -(4); 0]; [12#5; -(4); 1]].
Lemma gm_proper : proper_bounds gm_bounds.
Proof.
  split; [discriminate|]. split; [repeat constructor; cbn [nth]; Lqa.lra|]. split.
  - intros pre b post Eq. unfold gm_bounds in Eq. destruct pre as [|a1 [|a2 [|a3 [|]]]]; cbn [app] in Eq; try discriminate.
    + assert (Eb : b = [2; -(2); 0]) by congruence. subst b. exists (3#4), 1, (1#4). unfold well_in_range, TAU_UPPER_LIMIT, LV_DEFAULT_UPPER_BOUND, bound_at. cbn [nth]. split; [Lqa.lra|]. split; [Lqa.lra|constructor].
    + assert (Eb : b = [18#5; -(4); 0]) by congruence. assert (Ea : a1 = [2; -(2); 0]) by congruence. subst b a1. exists (3#5), 1, 1.
      unfold well_in_range, TAU_UPPER_LIMIT, LV_DEFAULT_UPPER_BOUND, bound_at. cbn [nth]. split; [Lqa.lra|]. split; [Lqa.lra|]. constructor; [cbn [nth]; Lqa.lra|constructor].
    + assert (Eb : b = [12#5; -(4); 1]) by congruence. assert (Ea : a1 = [2; -(2); 0]) by congruence. assert (Ea' : a2 = [18#5; -(4); 0]) by congruence. subst b a1 a2. exists (3#5), 4, 2.
      unfold well_in_range, TAU_UPPER_LIMIT, LV_DEFAULT_UPPER_BOUND, bound_at. cbn [nth]. split; [Lqa.lra|]. split; [Lqa.lra|]. constructor; [cbn [nth]; Lqa.lra|constructor; [cbn [nth]; Lqa.lra|constructor]].
  - exists [2; -(2); 0]. split; [now left|]. intros s t. unfold bound_at. cbn [nth]. Lqa.lra.
Qed.

Lemma jutila_permits : forall k s t u, 1 <= k -> ((exists b, In b (jutila_bounds 3) /\ u <= k * bound_at b s (t / k)) <->
  (u <= k * (2 - 2 * s) \/ u <= k * ((10#3) - (16#3) * s) + t \/ u <= k * (18 - 24 * s) + t)).
Proof.
  intros k s t u K. assert (NZ : ~ k == 0) by (intro Z; rewrite Z in K; now apply K). assert (Z3 : inject_Z 3 == 3) by reflexivity. assert (D3 : 2 / inject_Z 3 == 2#3) by reflexivity. unfold jutila_bounds.
  assert (X1 : k * (4 - 2 / inject_Z 3 + -(6 - 2 / inject_Z 3) * s) + 1 * t == k * ((10#3) - (16#3) * s) + t) by (rewrite D3; Lqa.lra).
  assert (X2 : k * (6 * inject_Z 3 + -(8) * inject_Z 3 * s) + 1 * t == k * (18 - 24 * s) + t) by (rewrite Z3; Lqa.lra). split.
  - intros (b & [<-|[<-|[<-|[]]]] & H); rewrite at_power in H by exact NZ; [left|right; left|right; right]; Lqa.lra.
  - intros [H|[H|H]]; [exists [2; -(2); 0]|exists [4 - 2 / inject_Z 3; -(6 - 2 / inject_Z 3); 1]|exists [6 * inject_Z 3; -(8) * inject_Z 3; 1]]; (split; [cbn; auto|]); rewrite at_power by exact NZ; Lqa.lra.
Qed.
Lemma gm_permits : forall k s t u, 1 <= k -> ((exists b, In b gm_bounds /\ u <= k * bound_at b s (t / k)) <->
  (u <= k * (2 - 2 * s) \/ u <= k * ((18#5) - 4 * s) \/ u <= k * ((12#5) - 4 * s) + t)).
Proof.
  intros k s t u K. assert (NZ : ~ k == 0) by (intro Z; rewrite Z in K; now apply K). unfold gm_bounds. split.
  - intros (b & [<-|[<-|[<-|[]]]] & H); rewrite at_power in H by exact NZ; [left|right; left|right; right]; Lqa.lra.
  - intros [H|[H|H]]; [exists [2; -(2); 0]|exists [18#5; -(4); 0]|exists [12#5; -(4); 1]]; (split; [cbn; auto|]); rewrite at_power by exact NZ; Lqa.lra.
Qed.

Lemma jutila_ratio : forall s, 11#14 <= s -> s < 1 -> largest_ratio [l2_bounds; jutila_bounds 3] powers s 2 6 (Q2R (2 * (1 - s))).
Proof.
  intros s S1 S2. apply (ratio_is _ _ _ _ _ _ 2); [reflexivity|Lqa.lra|Lqa.lra| |].
  - intros B k IB Ik. pose proof (powers_ge k Ik) as PK. destruct IB as [<-|[<-|[]]].
    + apply l2_permits; [exact PK|]. destruct Ik as [<-|[<-|[<-|[<-|[<-|[]]]]]]; [right|left|left|left|left]; Lqa.lra.
    + apply jutila_permits; [exact PK|]. destruct Ik as [<-|[<-|[<-|[<-|[<-|[]]]]]]; [right; left|left|left|left|left]; Lqa.lra.
  - intros t u Bt P.
    assert (X : forall k, In k powers -> u <= k * (2 - 2 * s) \/ u <= k * ((10#3) - (16#3) * s) + t \/ u <= k * (18 - 24 * s) + t).
    { intros k Ik. apply jutila_permits; [now apply powers_ge|]. apply P; [right; now left|exact Ik]. }
    assert (Y : forall k, In k powers -> k <= t -> t <= (3#2) * k -> u <= 2 * (1 - s) * t).
    { intros k Ik L1 L2. pose proof (powers_ge k Ik). destruct (X k Ik) as [H'|[H'|H']]; [Lqa.nra| |].
      - assert (Z : ((3#2) * k - t) * (2 * s - 1) >= 0) by (apply Qmult_le_0_compat; Lqa.lra). assert (Z' : k * (s - (11#14)) >= 0) by (apply Qmult_le_0_compat; Lqa.lra). Lqa.lra.
      - assert (Z : ((3#2) * k - t) * (2 * s - 1) >= 0) by (apply Qmult_le_0_compat; Lqa.lra). assert (Z' : k * (s - (11#14)) >= 0) by (apply Qmult_le_0_compat; Lqa.lra). Lqa.lra. }
    destruct (Qlt_le_dec t 3); [apply (Y 2); [right; left; reflexivity|Lqa.lra|Lqa.lra]|].
    destruct (Qlt_le_dec t 4); [apply (Y 3); [right; right; left; reflexivity|Lqa.lra|Lqa.lra]|].
    apply (Y 4); [do 3 right; left; reflexivity|Lqa.lra|Lqa.lra].
Qed.

Lemma gm_ratio : forall s, 7#10 <= s -> s <= 9#10 -> largest_ratio [l2_bounds; gm_bounds] powers s 2 6 (Q2R (15 * (1 - s) / (3 + 5 * s))).
Proof.
  intros s S1 S2. assert (C : 0 < 3 + 5 * s) by Lqa.lra.
  assert (IV : forall t, 15 * (1 - s) / (3 + 5 * s) * t == 15 * (1 - s) * t / (3 + 5 * s)) by (intro t; field; Lqa.lra).
  apply (ratio_is _ _ _ _ _ _ ((2#5) * (3 + 5 * s))); [reflexivity|Lqa.lra|apply Qlt_shift_div_l; Lqa.lra| |].
  - assert (V : 15 * (1 - s) / (3 + 5 * s) * ((2#5) * (3 + 5 * s)) == 6 * (1 - s)) by (field; Lqa.lra).
    intros B k IB Ik. pose proof (powers_ge k Ik) as PK. destruct IB as [<-|[<-|[]]].
    + apply l2_permits; [exact PK|]. rewrite V. destruct Ik as [<-|[<-|[<-|[<-|[<-|[]]]]]]; [right|right|left|left|left]; Lqa.lra.
    + apply gm_permits; [exact PK|]. rewrite V. destruct Ik as [<-|[<-|[<-|[<-|[<-|[]]]]]]; [right; right|right; right|left|left|left]; Lqa.lra.
  - intros t u Bt P. rewrite IV. apply Qle_shift_div_l; [exact C|].
    assert (X : forall k, In k powers -> u <= k * (2 - 2 * s) \/ u <= k * (1 - 2 * s) + t).
    { intros k Ik. apply l2_permits; [now apply powers_ge|]. apply P; [now left|exact Ik]. }
    assert (X' : forall k, In k powers -> u <= k * (2 - 2 * s) \/ u <= k * ((18#5) - 4 * s) \/ u <= k * ((12#5) - 4 * s) + t).
    { intros k Ik. apply gm_permits; [now apply powers_ge|]. apply P; [right; now left|exact Ik]. }
    (* the power [k] settles 2 k c / 15 <= t <= k c / 5 *)
    assert (Y : forall k, In k powers -> 2 * k * (3 + 5 * s) <= 15 * t -> 5 * t <= k * (3 + 5 * s) -> u * (3 + 5 * s) <= 15 * (1 - s) * t).
    { intros k Ik L1 L2. pose proof (powers_ge k Ik) as PK.
      assert (F1 : u <= k * (2 - 2 * s) -> u * (3 + 5 * s) <= 15 * (1 - s) * t) by (intro H'; clear - S1 S2 C L1 PK H'; Lqa.nra).
      destruct (X k Ik) as [H1|H1]; [auto|]. destruct (X' k Ik) as [H2|[H2|H2]]; [auto| |].
      - assert (Z1 : 0 <= (k * (1 - 2 * s) + t - u) * (15 * (1 - s))) by (apply Qmult_le_0_compat; Lqa.lra).
        assert (Z2 : 0 <= (k * ((18#5) - 4 * s) - u) * (4 * (5 * s - 3))) by (apply Qmult_le_0_compat; Lqa.lra).
        assert (Z3 : 0 <= k * (50 * ((s - (3#4)) * (s - (3#4))) + (3#40))) by (apply Qmult_le_0_compat; [Lqa.lra|pose proof (Qsqr_nonneg (s - (3#4))); Lqa.lra]).
        assert (ID : 15 * (1 - s) * t - u * (3 + 5 * s) == (k * (1 - 2 * s) + t - u) * (15 * (1 - s)) + (k * ((18#5) - 4 * s) - u) * (4 * (5 * s - 3)) + k * (50 * ((s - (3#4)) * (s - (3#4))) + (3#40))) by ring.
        clear - ID Z1 Z2 Z3. Lqa.lra.
      - assert (Z1 : 0 <= (k * ((12#5) - 4 * s) + t - u) * (3 + 5 * s)) by (apply Qmult_le_0_compat; Lqa.lra).
        assert (Z2 : 0 <= (k * (3 + 5 * s) - 5 * t) * (20 * s - 12)) by (apply Qmult_le_0_compat; Lqa.lra). Lqa.lra. }
    destruct (Qlt_le_dec (5 * t) (2 * (3 + 5 * s))); [apply (Y 2); [right; left; reflexivity|Lqa.lra|Lqa.lra]|].
    destruct (Qlt_le_dec (5 * t) (3 * (3 + 5 * s))); [apply (Y 3); [right; right; left; reflexivity|Lqa.lra|Lqa.lra]|].
    destruct (Qlt_le_dec (5 * t) (4 * (3 + 5 * s))); [apply (Y 4); [do 3 right; left; reflexivity|Lqa.lra|Lqa.lra]|].
    apply (Y 5); [do 4 right; left; reflexivity|Lqa.lra|Lqa.lra].
Qed.

(** ** Finding the estimates in the literature *)
Lemma find_only : forall (f : lnode -> bool) lit h, In h lit -> f h = true -> (forall g, In g lit -> f g = true -> g = h) -> find f lit = Some h.
Proof.
  intros f lit h I F U. destruct (find f lit) as [g|] eqn:Ef.
  - apply find_some in Ef as [Ig Fg]. f_equal. now apply U.
  - exfalso. rewrite (find_none f lit Ef h I) in F. discriminate.
Qed.
Lemma literature_max_is : forall E B r p h, literature_bound_LV_max E B r p = Ret h -> l_name h = author_str r ++ s_of " large value estimate" ++ p /\ l_ref h = r /\ convert_bounds E B = Ret (l_data h).
Proof.
  intros E B r p h H. unfold literature_bound_LV_max in H. destruct (convert_bounds E B) as [d|]; [|discriminate]. cbn [bind] in H.
  apply (f_equal (fun x => match x with Ret y => y | _ => h end)) in H. rewrite <- H. auto.
Qed.
Lemma keyword_name : forall kw g n, l_name g = n -> keyword_match kw g = forallb (fun k => Model_Text.contains (strip k) n) (Model_Text.split [","%char] kw).
Proof. intros kw g n <-. reflexivity. Qed.
Lemma bourgain_name : forall E get h, ext_ok E -> add_bourgain_large_values_estimate E get = Ret h -> l_name h = author_str (get (s_of "bourgain_large_2000")) ++ s_of " optimized large value estimate".
Proof.
  intros E get h OK H. destruct (bourgain_pieces_ok E get OK) as (ps & E1 & _). rewrite E1 in H. apply (f_equal (fun x => match x with Ret y => y | _ => h end)) in H. rewrite <- H. reflexivity.
Qed.
Lemma jutila_names : forallb (fun k => Z.eqb k 3 || negb (Model_Text.contains (s_of "k = 3") (s_of "Jutila" ++ s_of " large value estimate" ++ s_of " with k = " ++ z_str k))) (map Z.of_nat (seq 1 29)) = true.
Proof. vm_compute. reflexivity. Qed.

Section Literature.
Context (E : ext) (OK : ext_ok E) (get : str -> reference) (BIB : bibliography get) (K : Z) (K1 : (3 < K)%Z) (K2 : (K <= 30)%Z) (lit : list lnode) (RL : recorded_literature E get K lit).

Lemma jutila_members : forall js, add_jutila_large_values_estimate E get K = Ret js ->
  (exists h, jutila_estimate E get 3 = Ret h /\ In h js) /\ forall g, In g js -> exists k, (1 <= k < 30)%Z /\ jutila_estimate E get k = Ret g.
Proof.
  intros js H. unfold add_jutila_large_values_estimate, range1 in H. split.
  - assert (I3 : In 3%Z (map Z.of_nat (seq 1 (Z.to_nat (K - 1))))) by (apply in_map_iff; exists 3%nat; split; [reflexivity|apply in_seq; lia]).
    clear - H I3. revert js H. induction (map Z.of_nat (seq 1 (Z.to_nat (K - 1)))) as [|k l IH]; intros js H; [destruct I3|]. cbn [mapM] in H.
    destruct (jutila_estimate E get k) as [g|] eqn:Eg; [|discriminate]. cbn [bind] in H. destruct (mapM (jutila_estimate E get) l) as [gs|] eqn:Egs; [|discriminate]. cbn [bind] in H.
    assert (Ej : js = g :: gs) by congruence. subst js. destruct I3 as [->|I3]; [exists g; split; [exact Eg|now left]|]. destruct (IH I3 gs eq_refl) as (h & Eh & Ih). exists h. split; [exact Eh|now right].
  - intros g Ig. apply (Proof_Piecewise.mapM_In _ _ _ _ _ _ H) in Ig as (k & Ik & Eg). exists k. split; [|exact Eg]. apply in_map_iff in Ik as (n & <- & In'). apply in_seq in In'. lia.
Qed.

(** The keywords of the proof of Jutila's estimate find the estimate with k = 3. *)
Theorem jutila_found : exists h, jutila_estimate E get 3 = Ret h /\ find_keywords lit (fun _ => true) (s_of "Jutila large value estimate, k = 3") = Some h.
Proof.
  destruct RL as (hux & hb & js & bo & gm & others & Eu & Eh & Ej & Eb & Eg & OT & M). destruct (jutila_members js Ej) as ((h & E3 & I3) & AJ). exists h. split; [exact E3|].
  apply find_only.
  - apply M. do 4 right. apply in_or_app. now left.
  - destruct (literature_max_is _ _ _ _ _ E3) as (N & _). cbn [andb]. rewrite (keyword_name _ _ _ N). rewrite (by_jutila get BIB). vm_compute. reflexivity.
  - intros g Ig F. cbn [andb] in F. apply M in Ig. destruct Ig as [<-|[<-|[<-|[<-|Ig]]]].
    + destruct (literature_max_is _ _ _ _ _ Eu) as (N & _). rewrite (keyword_name _ _ _ N), (by_huxley get BIB) in F. vm_compute in F. discriminate.
    + destruct (literature_max_is _ _ _ _ _ Eh) as (N & _). rewrite (keyword_name _ _ _ N), (by_heath_brown get BIB) in F. vm_compute in F. discriminate.
    + pose proof (bourgain_name E get _ OK Eb) as N. rewrite (keyword_name _ _ _ N), (by_bourgain get BIB) in F. vm_compute in F. discriminate.
    + destruct (literature_max_is _ _ _ _ _ Eg) as (N & _). rewrite (keyword_name _ _ _ N), (by_guth_maynard get BIB) in F. vm_compute in F. discriminate.
    + apply in_app_iff in Ig as [Ig|Ig].
      * destruct (AJ g Ig) as (k & Bk & Ek). destruct (literature_max_is _ _ _ _ _ Ek) as (N & _). rewrite (keyword_name _ _ _ N), (by_jutila get BIB) in F.
        pose proof jutila_names as JN. rewrite forallb_forall in JN. specialize (JN k). assert (Ik : In k (map Z.of_nat (seq 1 29))) by (apply in_map_iff; exists (Z.to_nat k); split; [lia|apply in_seq; lia]). specialize (JN Ik).
        apply orb_true_iff in JN as [JN|JN]; [apply Z.eqb_eq in JN; subst k; congruence|]. exfalso. apply negb_true_iff in JN.
        rewrite forallb_forall in F. specialize (F (s_of " k = 3")). assert (IS : In (s_of " k = 3") (Model_Text.split [","%char] (s_of "Jutila large value estimate, k = 3"))) by (right; left; vm_compute; reflexivity).
        specialize (F IS). change (strip (s_of " k = 3")) with (s_of "k = 3") in F. congruence.
      * destruct (OT g Ig) as [_ C]. exfalso. unfold keyword_match in F. rewrite forallb_forall in F. specialize (F (s_of "Jutila large value estimate")).
        assert (IS : In (s_of "Jutila large value estimate") (Model_Text.split [","%char] (s_of "Jutila large value estimate, k = 3"))) by (left; vm_compute; reflexivity).
        specialize (F IS). change (strip (s_of "Jutila large value estimate")) with (s_of "Jutila large value estimate") in F. congruence.
Qed.

(** The keywords of the proof of the estimate of Guth and Maynard find theirs. *)
Theorem guth_maynard_found : exists h, add_guth_maynard_large_values_estimate E get = Ret h /\ find_keywords lit is_lv (s_of "Guth, Maynard") = Some h.
Proof.
  destruct RL as (hux & hb & js & bo & gm & others & Eu & Eh & Ej & Eb & Eg & OT & M). destruct (jutila_members js Ej) as (_ & AJ). exists gm. split; [exact Eg|].
  assert (LV : is_lv gm = true). { destruct (literature_max_is _ _ _ _ _ Eg) as (_ & _ & C). unfold convert_bounds in C. destruct (from_union_of_halfplanes _ _ _); [|discriminate]. cbn [bind] in C. destruct (lv_repr _); [|discriminate]. cbn [bind] in C. unfold is_lv.
    apply (f_equal (fun x => match x with Ret y => y | _ => l_data gm end)) in C. rewrite <- C. reflexivity. }
  apply find_only.
  - apply M. do 3 right. now left.
  - destruct (literature_max_is _ _ _ _ _ Eg) as (N & _). rewrite LV. cbn [andb]. rewrite (keyword_name _ _ _ N), (by_guth_maynard get BIB). vm_compute. reflexivity.
  - intros g Ig F. apply andb_true_iff in F as [F0 F]. apply M in Ig. destruct Ig as [<-|[<-|[<-|[<-|Ig]]]].
    + destruct (literature_max_is _ _ _ _ _ Eu) as (N & _). rewrite (keyword_name _ _ _ N), (by_huxley get BIB) in F. vm_compute in F. discriminate.
    + destruct (literature_max_is _ _ _ _ _ Eh) as (N & _). rewrite (keyword_name _ _ _ N), (by_heath_brown get BIB) in F. vm_compute in F. discriminate.
    + pose proof (bourgain_name E get _ OK Eb) as N. rewrite (keyword_name _ _ _ N), (by_bourgain get BIB) in F. vm_compute in F. discriminate.
    + reflexivity.
    + apply in_app_iff in Ig as [Ig|Ig]; [|destruct (OT g Ig) as [C _]; congruence]. exfalso.
      destruct (AJ g Ig) as (k & Bk & Ek). destruct (literature_max_is _ _ _ _ _ Ek) as (N & _). rewrite (keyword_name _ _ _ N), (by_jutila get BIB) in F.
      assert (GN : forallb (fun k => negb (Model_Text.contains (s_of "Guth") (s_of "Jutila" ++ s_of " large value estimate" ++ s_of " with k = " ++ z_str k))) (map Z.of_nat (seq 1 29)) = true) by (vm_compute; reflexivity).
      rewrite forallb_forall in GN. specialize (GN k). assert (Ik : In k (map Z.of_nat (seq 1 29))) by (apply in_map_iff; exists (Z.to_nat k); split; [lia|apply in_seq; lia]). specialize (GN Ik). apply negb_true_iff in GN.
      rewrite forallb_forall in F. specialize (F (s_of "Guth")). assert (IS : In (s_of "Guth") (Model_Text.split [","%char] (s_of "Guth, Maynard"))) by (left; vm_compute; reflexivity).
      specialize (F IS). change (strip (s_of "Guth")) with (s_of "Guth") in F. congruence.
Qed.

Context (AN : anchored E) (adjacency : mat -> list (list nat)) (AD : adjacency_ok E adjacency) (solve : rfun -> rfun -> list R) (SC : solve_complete solve)
  (order : nat -> list nat -> list nat) (OO : forall k l, Permutation (order k l) l) (iteration : list lnode -> list lnode) (IT : forall l x, In x (iteration l) <-> In x l) (rf_str : rfun -> str).

Lemma jutila_run : exists h l, jutila_estimate E get 3 = Ret h /\ records E h (jutila_bounds 3) /\
  prove_zero_density_jutila_1977 E order adjacency solve rf_str iteration lit = Ret l /\ prove_zero_density E order adjacency solve rf_str iteration [h] (11#14) 1 (Method1 3) = Ret l /\
  derived_over l (11#14) 1 (fun s v => v = Q2R (2 * (1 - s))).
Proof.
  destruct jutila_found as (h & Eh & Fh). destruct (literature_max_is _ _ _ _ _ Eh) as (_ & RF & C).
  assert (R : records E h (jutila_bounds 3)) by (split; [exact jutila_proper|]; split; [rewrite RF; exact (jutila_dated get BIB)|exact C]).
  destruct (prove_zero_density_value E OK AN adjacency AD solve SC order OO iteration IT rf_str [h] [jutila_bounds 3] (11#14) 1 3) as (l & El & D); try reflexivity; try discriminate; [constructor; [exact R|constructor]|].
  exists h, l. split; [exact Eh|]. split; [exact R|]. split; [unfold prove_zero_density_jutila_1977; rewrite Fh; cbn [found bind]; exact El|]. split; [exact El|].
  eapply derived_over_mono; [|exact D]. intros s v Sa Sb LR. eapply ratio_unique; [exact LR|]. apply jutila_ratio; Lqa.lra.
Qed.
Lemma guth_maynard_run : exists h l, add_guth_maynard_large_values_estimate E get = Ret h /\ records E h gm_bounds /\
  prove_zero_density_guth_maynard_2024 E order adjacency solve rf_str iteration lit = Ret l /\ prove_zero_density E order adjacency solve rf_str iteration [h] (7#10) (9#10) (Method1 3) = Ret l /\
  derived_over l (7#10) (9#10) (fun s v => v = Q2R (15 * (1 - s) / (3 + 5 * s))).
Proof.
  destruct guth_maynard_found as (h & Eh & Fh). destruct (literature_max_is _ _ _ _ _ Eh) as (_ & RF & C).
  assert (R : records E h gm_bounds) by (split; [exact gm_proper|]; split; [rewrite RF; exact (guth_maynard_dated get BIB)|exact C]).
  destruct (prove_zero_density_value E OK AN adjacency AD solve SC order OO iteration IT rf_str [h] [gm_bounds] (7#10) (9#10) 3) as (l & El & D); try reflexivity; try discriminate; [constructor; [exact R|constructor]|].
  exists h, l. split; [exact Eh|]. split; [exact R|]. split; [unfold prove_zero_density_guth_maynard_2024; rewrite Fh; cbn [found bind]; exact El|]. split; [exact El|].
  eapply derived_over_mono; [|exact D]. intros s v Sa Sb LR. eapply ratio_unique; [exact LR|]. apply gm_ratio; Lqa.lra.
Qed.
End Literature.
Print Assumptions jutila_found.
Print Assumptions guth_maynard_found.

Lemma derived_over_and : forall l a b (A : Type) (P : Q -> R -> Prop) (Q : A -> Q -> R -> Prop), derived_over l a b P -> (forall x, derived_over l a b (Q x)) ->
  derived_over l a b (fun s v => P s v /\ forall x, Q x s v).
Proof.
  intros l a b A P Q [TL V] H. split; [exact TL|]. intros o Io. destruct (V o Io) as (x & i & f & p & r & ds & Eo & NP & Vs). exists x, i, f, p, r, ds. split; [exact Eo|]. split; [exact NP|].
  intros s J. split; [now apply Vs|]. intro w. destruct (proj2 (H w) o Io) as (x' & i' & f' & p' & r' & ds' & Eo' & _ & Vs').
  assert (Ei : i = i') by congruence. assert (Ef : f = f') by congruence. subst i' f'. now apply Vs'.
Qed.

(** The worlds in which the classical estimate and [hs] hold. *)
Definition worlds (E : ext) (hs : list lnode) : Type :=
  { W : dworld | d_admissible W /\ exists h2 tr btr, large_value_estimate_L2 E = Ret h2 /\ lholds tr btr (low (ener W)) h2 /\ Forall (lholds tr btr (low (ener W))) hs }.

Lemma run_sound : forall E, ext_ok E -> anchored E -> forall adjacency, adjacency_ok E adjacency -> forall solve, solve_complete solve ->
  forall order, (forall k l, Permutation (order k l) l) -> forall iteration, (forall l x, In x (iteration l) <-> In x l) ->
  forall rf_str additional Bs a b tau0 l (val : Q -> Q), Forall2 (records E) additional Bs -> 1#2 <= a -> a < b -> b <= 1 -> 2 < tau0 -> 2 * tau0 + 1 < LV_DEFAULT_UPPER_BOUND ->
  prove_zero_density E order adjacency solve rf_str iteration additional a b (Method1 tau0) = Ret l ->
  derived_over l a b (fun s v => v = Q2R (val s)) ->
  derived_over l a b (fun s v => v = Q2R (val s) /\ forall W : worlds E additional, 1#2 < s -> zd (proj1_sig W) s (Q2R (val s / (1 - s)))).
Proof.
  intros E OK AN adj AD solve SC order OO iter IT rf_str add Bs a b tau0 l val RC A0 AB B1 T0 TU El D.
  eapply derived_over_mono; [|apply (derived_over_and l a b (worlds E add) _ (fun W s v => 1#2 < s -> zd (proj1_sig W) s (v / (1 - Q2R s))%R) D)].
  - intros s v Sa Sb [-> H]. split; [reflexivity|]. intros W S1. specialize (H W S1).
    replace (Q2R (val s / (1 - s))) with (Q2R (val s) / (1 - Q2R s))%R; [exact H|]. rewrite Q2R_div by Lqa.lra. rewrite Q2R_minus. f_equal. f_equal. unfold Q2R. cbn. lra.
  - intros (W & Ad & h2 & tr & btr & E2 & H2 & HA). cbn [proj1_sig].
    destruct (prove_zero_density_sound E OK AN adj AD solve SC order OO iter IT rf_str add Bs a b tau0 RC A0 AB B1 T0 TU h2 tr btr W E2 Ad H2 HA) as (l' & El' & D').
    rewrite El in El'. injection El' as <-. exact D'.
Qed.

(** The proof of Ingham's estimate A(sigma) <= 3 / (2 - sigma) on [1/2, 3/4). *)
Theorem ingham_1940_proved : forall E, ext_ok E -> anchored E -> forall adjacency, adjacency_ok E adjacency -> forall solve, solve_complete solve ->
  forall order, (forall k l, Permutation (order k l) l) -> forall iteration, (forall l x, In x (iteration l) <-> In x l) -> forall rf_str,
  exists l, prove_zero_density_ingham_1940 E order adjacency solve rf_str iteration = Ret l /\
    derived_over l (1#2) (3#4) (fun s v => v = Q2R (3 / (2 - s) * (1 - s)) /\
      forall W h2 tr btr, d_admissible W -> large_value_estimate_L2 E = Ret h2 -> lholds tr btr (low (ener W)) h2 -> 1#2 < s -> zd W s (Q2R (3 / (2 - s)))).
Proof.
  intros E OK AN adj AD solve SC order OO iter IT rf_str. destruct (ingham_1940_value E OK AN adj AD solve SC order OO iter IT rf_str) as (l & El & D). exists l. split; [exact El|].
  eapply derived_over_mono; [|apply (run_sound E OK AN adj AD solve SC order OO iter IT rf_str [] [] (1#2) (3#4) 3 l (fun s => 3 * (1 - s) / (2 - s))); try reflexivity; try discriminate; [constructor|exact El|exact D]].
  cbn beta. intros s v Sa Sb [-> H]. split; [apply Qeq_eqR; field; Lqa.lra|]. intros W h2 tr btr Ad E2 H2 S1.
  assert (X : exists h2 tr btr, large_value_estimate_L2 E = Ret h2 /\ lholds tr btr (low (ener W)) h2 /\ Forall (lholds tr btr (low (ener W))) []) by (exists h2, tr, btr; auto).
  specialize (H (exist _ W (conj Ad X)) S1). cbn [proj1_sig] in H. replace (Q2R (3 / (2 - s))) with (Q2R (3 * (1 - s) / (2 - s) / (1 - s))); [exact H|]. apply Qeq_eqR. field. split; Lqa.lra.
Qed.
Print Assumptions ingham_1940_proved.

(** The proof of Jutila's estimate A(sigma) <= 2 on [11/14, 1). *)
Theorem jutila_1977_proved : forall E, ext_ok E -> anchored E -> forall adjacency, adjacency_ok E adjacency -> forall solve, solve_complete solve ->
  forall order, (forall k l, Permutation (order k l) l) -> forall iteration, (forall l x, In x (iteration l) <-> In x l) -> forall rf_str,
  forall get K lit, bibliography get -> (3 < K <= 30)%Z -> recorded_literature E get K lit ->
  exists l, prove_zero_density_jutila_1977 E order adjacency solve rf_str iteration lit = Ret l /\
    derived_over l (11#14) 1 (fun s v => v = Q2R (2 * (1 - s)) /\
      forall W h2 h tr btr, d_admissible W -> large_value_estimate_L2 E = Ret h2 -> lholds tr btr (low (ener W)) h2 ->
        jutila_estimate E get 3 = Ret h -> lholds tr btr (low (ener W)) h -> zd W s 2).
Proof.
  intros E OK AN adj AD solve SC order OO iter IT rf_str get K lit BIB [K1 K2] RL.
  destruct (jutila_run E OK get BIB K K1 K2 lit RL AN adj AD solve SC order OO iter IT rf_str) as (h & l & Eh & R & El & El' & D). exists l. split; [exact El|].
  eapply derived_over_mono; [|apply (run_sound E OK AN adj AD solve SC order OO iter IT rf_str [h] [jutila_bounds 3] (11#14) 1 3 l (fun s => 2 * (1 - s))); try reflexivity; try discriminate; [constructor; [exact R|constructor]|exact El'|exact D]].
  cbn beta. intros s v Sa Sb [-> H]. split; [reflexivity|]. intros W h2 h' tr btr Ad E2 H2 Eh' Hh. rewrite Eh in Eh'. apply (f_equal (fun x => match x with Ret y => y | _ => h end)) in Eh'. subst h'.
  assert (X : exists h2 tr btr, large_value_estimate_L2 E = Ret h2 /\ lholds tr btr (low (ener W)) h2 /\ Forall (lholds tr btr (low (ener W))) [h]) by (exists h2, tr, btr; auto).
  specialize (H (exist _ W (conj Ad X)) ltac:(Lqa.lra)). cbn [proj1_sig] in H. replace 2%R with (Q2R (2 * (1 - s) / (1 - s))); [exact H|].
  transitivity (Q2R 2); [apply Qeq_eqR; field; Lqa.lra|unfold Q2R; cbn; lra].
Qed.
Print Assumptions jutila_1977_proved.

(** The proof of the estimate of Guth and Maynard, A(sigma) <= 15 / (5 sigma + 3), on [7/10, 9/10). *)
Theorem guth_maynard_2024_proved : forall E, ext_ok E -> anchored E -> forall adjacency, adjacency_ok E adjacency -> forall solve, solve_complete solve ->
  forall order, (forall k l, Permutation (order k l) l) -> forall iteration, (forall l x, In x (iteration l) <-> In x l) -> forall rf_str,
  forall get K lit, bibliography get -> (3 < K <= 30)%Z -> recorded_literature E get K lit ->
  exists l, prove_zero_density_guth_maynard_2024 E order adjacency solve rf_str iteration lit = Ret l /\
    derived_over l (7#10) (9#10) (fun s v => v = Q2R (15 / (5 * s + 3) * (1 - s)) /\
      forall W h2 h tr btr, d_admissible W -> large_value_estimate_L2 E = Ret h2 -> lholds tr btr (low (ener W)) h2 ->
        add_guth_maynard_large_values_estimate E get = Ret h -> lholds tr btr (low (ener W)) h -> zd W s (Q2R (15 / (5 * s + 3)))).
Proof.
  intros E OK AN adj AD solve SC order OO iter IT rf_str get K lit BIB [K1 K2] RL.
  destruct (guth_maynard_run E OK get BIB K K1 K2 lit RL AN adj AD solve SC order OO iter IT rf_str) as (h & l & Eh & R & El & El' & D). exists l. split; [exact El|].
  eapply derived_over_mono; [|apply (run_sound E OK AN adj AD solve SC order OO iter IT rf_str [h] [gm_bounds] (7#10) (9#10) 3 l (fun s => 15 * (1 - s) / (3 + 5 * s))); try reflexivity; try discriminate; [constructor; [exact R|constructor]|exact El'|exact D]].
  cbn beta. intros s v Sa Sb [-> H]. split; [apply Qeq_eqR; field; Lqa.lra|]. intros W h2 h' tr btr Ad E2 H2 Eh' Hh. rewrite Eh in Eh'. apply (f_equal (fun x => match x with Ret y => y | _ => h end)) in Eh'. subst h'.
  assert (X : exists h2 tr btr, large_value_estimate_L2 E = Ret h2 /\ lholds tr btr (low (ener W)) h2 /\ Forall (lholds tr btr (low (ener W))) [h]) by (exists h2, tr, btr; auto).
  specialize (H (exist _ W (conj Ad X)) ltac:(Lqa.lra)). cbn [proj1_sig] in H. replace (Q2R (15 / (5 * s + 3))) with (Q2R (15 * (1 - s) / (3 + 5 * s) / (1 - s))); [exact H|].
  apply Qeq_eqR. field. repeat split; Lqa.lra.
Qed.
Print Assumptions guth_maynard_2024_proved.

(** ** A solver that meets the assumptions *)
Definition anchor_lp (m : mat) (mx : bool) (c : list Q) : lp_result :=
  let r := fm_lp m mx c in if lp_optimal r then r else mkLP false (rowval c [0; 2; 0]) (lp_primal r).
Definition anchor_ext : ext := mkExt fm_canonicalize anchor_lp fm_generators fm_inequalities dedup.
Lemma anchor_ext_ok : ext_ok anchor_ext.
Proof.
  pose proof fm_ext_ok as OK. destruct OK. split; cbn [canonicalize linprog generators inequalities set_list fm_ext anchor_ext] in *; auto.
  all: intros m c WF LN; unfold anchor_lp.
  - destruct (lp_optimal (fm_lp m true c)) eqn:Eo; [intros _; now apply lp_max_optimal|discriminate].
  - destruct (lp_optimal (fm_lp m true c)) eqn:Eo; [congruence|intros _; now apply lp_max_other].
  - destruct (lp_optimal (fm_lp m false c)) eqn:Eo; [intros _; now apply lp_min_optimal|discriminate].
  - destruct (lp_optimal (fm_lp m false c)) eqn:Eo; [congruence|intros _; now apply lp_min_other].
Qed.
Lemma anchor_ext_anchored : anchored anchor_ext.
Proof.
  intros c LN. cbn [linprog anchor_ext]. unfold anchor_lp. destruct (lp_optimal (fm_lp (pmat half_space) false c)) eqn:Eo; [|reflexivity].
  assert (WF : wf_mat (pmat half_space)) by (split; repeat constructor).
  destruct (lp_min_optimal fm_ext fm_ext_ok (pmat half_space) c WF LN Eo) as (M & V & U). cbn [linprog fm_ext] in M, V, U.
  set (o := lp_obj (fm_lp (pmat half_space) false c)) in *. set (x := lp_primal (fm_lp (pmat half_space) false c)) in *. clearbody o x.
  destruct c as [|c0 [|c1 [|c2 [|c3 [|? ?]]]]]; try discriminate LN. assert (Lx : List.length x = 3%nat) by (destruct M as [L _]; cbn in L; lia).
  destruct x as [|x [|y [|z [|? ?]]]]; try discriminate Lx.
  assert (MI : forall x y z, mmember (pmat half_space) [x; y; z] <-> 2 <= y) by (intros; apply half_member).
  apply MI in M. assert (RV : forall x y z, rowval [c0; c1; c2; c3] [x; y; z] == c0 + c1 * x + c2 * y + c3 * z) by (intros; unfold rowval; cbn [hd tl dot]; ring).
  assert (U' : forall x y z, 2 <= y -> o <= c0 + c1 * x + c2 * y + c3 * z) by (intros a b d L; rewrite <- RV; now apply U, MI).
  rewrite RV in V |- *. pose proof (U' (x - c1) y z M). pose proof (U' x y (z - c3) M). pose proof (U' x (y + 1) z ltac:(Lqa.lra)). pose proof (U' 0 2 0 ltac:(Lqa.lra)).
  assert (Q1 : c1 * c1 <= 0) by Lqa.lra. assert (Q3 : c3 * c3 <= 0) by Lqa.lra. assert (C1 : c1 == 0) by Lqa.nra. assert (C3 : c3 == 0) by Lqa.nra. assert (C2 : 0 <= c2) by Lqa.lra.
  assert (P : 0 <= c2 * (y - 2)) by (apply Qmult_le_0_compat; Lqa.lra). rewrite C1, C3 in V |- *.
  assert (U0 : o <= c0 + c2 * 2) by Lqa.lra. apply Qle_antisym; Lqa.lra.
Qed.

(** ** The assumptions are met *)
Definition sample_get (label : str) : reference :=
  if str_eqb label (s_of "Huxley") then ref_make (s_of "Huxley") 1972
  else if str_eqb label (s_of "heathbrown_zero_1979") then ref_make (s_of "Heath-Brown") 1979
  else if str_eqb label (s_of "jutila_zero_density_1977") then ref_make (s_of "Jutila") 1977
  else if str_eqb label (s_of "bourgain_large_2000") then ref_make (s_of "Bourgain") 2000
  else ref_make (s_of "Guth--Maynard") 2024.
Lemma sample_bibliography : bibliography sample_get.
Proof. split; try (vm_compute; reflexivity); (left; vm_compute; exact Logic.I). Qed.

Lemma literature_recorded : forall E get K, ext_ok E -> exists lit, recorded_literature E get K lit.
Proof.
  intros E get K OK.
  assert (LM : forall B r p, B <> [] -> Forall (fun b => List.length b = 3%nat) B -> exists h, literature_bound_LV_max E B r p = Ret h).
  { intros B r p NE F. destruct (convert_bounds_ok E OK B NE F) as (reg & rep & Ec & _). unfold literature_bound_LV_max. rewrite Ec. cbn [bind]. eauto. }
  destruct (LM [[2; -(2); 0]; [4; -(6); 1]] (get (s_of "Huxley")) [] ltac:(discriminate) ltac:(repeat constructor)) as (hux & E1).
  destruct (LM [[2; -(2); 0]; [10; -(13); 1]] (get (s_of "heathbrown_zero_1979")) [] ltac:(discriminate) ltac:(repeat constructor)) as (hb & E2).
  destruct (LM gm_bounds (get (s_of "guth-maynard")) [] ltac:(discriminate) ltac:(repeat constructor)) as (gm & E3).
  destruct (bourgain_pieces_ok E get OK) as (ps & E4 & _).
  assert (E5 : exists js, add_jutila_large_values_estimate E get K = Ret js).
  { unfold add_jutila_large_values_estimate. induction (range1 K) as [|k l IH]; [exists []; reflexivity|]. destruct IH as (js & Ej).
    destruct (LM (jutila_bounds k) (get (s_of "jutila_zero_density_1977")) (s_of " with k = " ++ z_str k) ltac:(discriminate) ltac:(repeat constructor)) as (h & Eh).
    exists (h :: js). cbn [mapM]. unfold jutila_estimate at 1. rewrite Eh. cbn [bind]. rewrite Ej. reflexivity. }
  destruct E5 as (js & E5). eexists. exists hux, hb, js. eexists. exists gm, []. split; [exact E1|]. split; [exact E2|]. split; [exact E5|]. split; [exact E4|]. split; [exact E3|].
  split; [intros h []|]. intro h. reflexivity.
Qed.

Lemma sample_world : forall E tr btr P, ext_ok E -> forall h B, records E h B ->
  (forall s t u, in_range s t u -> conj_lv s t u -> exists b, In b B /\ u <= bound_at b s t) -> lholds tr btr (low (ener (density_world Spec_BoundMu.trivial_world P))) h.
Proof.
  intros E tr btr P OK h B ((NE & F & _) & _ & Ec) H. unfold lholds.
  assert (D : exists r rep, l_data h = DLV r rep).
  { unfold convert_bounds in Ec. destruct (from_union_of_halfplanes _ _ _) as [r|]; [|discriminate]. cbn [bind] in Ec. destruct (lv_repr B); [|discriminate]. cbn [bind] in Ec. injection Ec as <-. eauto. }
  destruct D as (r & rep & D). rewrite D in *. apply (convert_bounds_meaning E OK B r rep); auto. eapply Forall_impl; [|exact F]. intros b [Lb _]. exact Lb.
Qed.

(** With the verified solver all three proofs run, and there is a world in which the
    estimates they start from hold, so that what they conclude is true there. *)
Example worked_proofs_case : exists adjacency solve lit, recorded_literature anchor_ext sample_get 20 lit /\
  (exists l, prove_zero_density_ingham_1940 anchor_ext (fun _ l => l) adjacency solve (fun _ => []) (fun l => l) = Ret l) /\
  (exists l, prove_zero_density_jutila_1977 anchor_ext (fun _ l => l) adjacency solve (fun _ => []) (fun l => l) lit = Ret l) /\
  (exists l, prove_zero_density_guth_maynard_2024 anchor_ext (fun _ l => l) adjacency solve (fun _ => []) (fun l => l) lit = Ret l) /\
  exists W h2 h3 hg, d_admissible W /\ large_value_estimate_L2 anchor_ext = Ret h2 /\ jutila_estimate anchor_ext sample_get 3 = Ret h3 /\ add_guth_maynard_large_values_estimate anchor_ext sample_get = Ret hg /\
    forall tr btr, Forall (lholds tr btr (low (ener W))) [h2; h3; hg].
Proof.
  destruct solver_exists as [solve SC]. exists (fun m => map (fun _ => seq 0 (List.length (generators anchor_ext m))) (generators anchor_ext m)), solve.
  destruct (literature_recorded anchor_ext sample_get 20 anchor_ext_ok) as (lit & RL). exists lit. split; [exact RL|].
  pose proof (all_pairs_adjacency anchor_ext anchor_ext_ok) as AD. assert (OO : forall (k : nat) (l : list nat), Permutation l l) by (intros; apply Permutation_refl). assert (IT : forall (l : list lnode) x, In x l <-> In x l) by tauto.
  split; [destruct (ingham_1940_proved anchor_ext anchor_ext_ok anchor_ext_anchored _ AD solve SC (fun _ l => l) OO (fun l => l) IT (fun _ => [])) as (l & El & _); exists l; exact El|].
  split; [destruct (jutila_1977_proved anchor_ext anchor_ext_ok anchor_ext_anchored _ AD solve SC (fun _ l => l) OO (fun l => l) IT (fun _ => []) sample_get 20 lit sample_bibliography ltac:(lia) RL) as (l & El & _); exists l; exact El|].
  split; [destruct (guth_maynard_2024_proved anchor_ext anchor_ext_ok anchor_ext_anchored _ AD solve SC (fun _ l => l) OO (fun l => l) IT (fun _ => []) sample_get 20 lit sample_bibliography ltac:(lia) RL) as (l & El & _); exists l; exact El|].
  destruct (l2_records anchor_ext anchor_ext_ok) as (h2 & E2 & R2).
  destruct (jutila_run anchor_ext anchor_ext_ok sample_get sample_bibliography 20 ltac:(lia) ltac:(lia) lit RL anchor_ext_anchored _ AD solve SC (fun _ l => l) OO (fun l => l) IT (fun _ => [])) as (h3 & _ & E3 & R3 & _).
  destruct (guth_maynard_run anchor_ext anchor_ext_ok sample_get sample_bibliography 20 ltac:(lia) ltac:(lia) lit RL anchor_ext_anchored _ AD solve SC (fun _ l => l) OO (fun l => l) IT (fun _ => [])) as (hg & _ & Eg & Rg & _).
  exists (density_world Spec_BoundMu.trivial_world (fun _ => False)), h2, h3, hg. split; [apply Prop_DensityEstimate.density_world_admissible; tauto|]. split; [exact E2|]. split; [exact E3|]. split; [exact Eg|].
  assert (H01 : forall s t u, in_range s t u -> conj_lv s t u -> u <= 2 - 2 * s \/ s == 1#2 /\ u <= t).
  { intros s t u (I1 & _) (L1 & [L2|L2]); [right; split; [apply Qle_antisym; assumption|exact L1]|left; exact L2]. }
  intros tr btr. repeat constructor; eapply (sample_world anchor_ext); try exact anchor_ext_ok; try eassumption; intros s t u I C; destruct (H01 s t u I C) as [L|[Es L]];
    try (exists [2; -(2); 0]; split; [now left|unfold bound_at; cbn [nth]; Lqa.lra]).
  - exists [1; -(2); 1]. split; [right; now left|unfold bound_at; cbn [nth]; rewrite Es; Lqa.lra].
  - exists [6 * inject_Z 3; -(8) * inject_Z 3; 1]. split; [right; right; now left|unfold bound_at; cbn [nth]; rewrite Es; change (inject_Z 3) with 3; Lqa.lra].
  - exists [12#5; -(4); 1]. split; [right; right; now left|unfold bound_at; cbn [nth]; rewrite Es; Lqa.lra].
Qed.

(** The keywords would be ambiguous with thirty or more of Jutila's estimates. *)
Example jutila_keywords_thirty : forall d r, keyword_match (s_of "Jutila large value estimate, k = 3") (LNode (s_of "Jutila large value estimate with k = 30") d r []) = true.
Proof. intros. vm_compute. reflexivity. Qed.
