(** Property C54: zero density estimates from large value estimates. *)
From Coq Require Import Reals Qreals Permutation.
From Verif Require Import Base Model_Text Model_Reference Spec_Reference Proof_Reference LinAlg Model_Polytope Spec_Polytope Proof_Polytope FM_Ext Spec_Edges Proof_Edges
  Model_Region Spec_Region Model_ExponentPair Spec_ExponentPair Model_LargeValues Spec_LargeValues Proof_LargeValues Model_ZetaLargeValues Model_AdditiveEnergy Spec_AdditiveEnergy Proof_AdditiveEnergy
  Model_LargeValueRegion Spec_LargeValueRegion Model_RationalFunction Spec_RationalFunction Proof_RationalFunction Proof_RFOptimal Prop_RationalFunction Prop_Roots
  Model_ZeroDensity Spec_ZeroDensity Proof_ZeroDensity Prop_ZeroDensity Model_DensityEstimate Spec_DensityEstimate
  Model_DensityDerivation Spec_DensityDerivation.
From Verif Require Proof_Piecewise Spec_BoundMu Prop_BoundMu Prop_AdditiveEnergy Prop_Region.
From Coq Require Import Lra.
Open Scope list_scope.
Local Open Scope Q_scope.

Section Run.
Context (E : ext) (OK : ext_ok E) (adjacency : mat -> list (list nat)) (AD : adjacency_ok E adjacency)
  (solve : rfun -> rfun -> list R) (SC : solve_complete solve).

Lemma child_polytopes_ok : forall h ps, region_pieces h ps -> child_polytopes h = Ret (map body ps).
Proof.
  intros h ps H. unfold child_polytopes. rewrite H. cbn [bind]. clear H. induction ps as [|p ps IH]; [reflexivity|].
  cbn [map mapM child_polytope]. cbn [bind]. rewrite IH. reflexivity.
Qed.

Lemma region_sup_ok : forall h ps a b, region_pieces h ps -> usable_pieces E ps -> a < b ->
  exists l, region_sup E adjacency solve h (real_interval (a, b)) = Ret l /\ tiles l (Q2R a) (Q2R b) /\
    (forall f i r x, In (f, i, r) l -> Spec_RationalFunction.inside i x -> ~ has_pole f x) /\
    (forall f i r s, In (f, i, r) l -> Spec_RationalFunction.inside i (Q2R s) -> sup_value (map body ps) s (rfval f (Q2R s))).
Proof.
  intros h ps a b P U AB. unfold region_sup. rewrite (child_polytopes_ok h ps P). cbn [bind].
  assert (D : (lo (real_interval (a, b)) < hi (real_interval (a, b)))%R) by (unfold real_interval; cbn [lo hi fst snd]; now apply Qlt_Rlt).
  assert (H : forall p, In p (map body ps) -> value_polytope p /\ vertices_in_order E p).
  { intros p I. apply in_map_iff in I as (q & <- & Iq). auto. }
  destruct (sup_rho_on_tau E adjacency solve OK AD SC (map body ps) _ D H) as (l & El & T & V).
  exists l. split; [exact El|]. split; [|split].
  - destruct T as [T|[-> _]]; [exact T|]. cbn. split; [reflexivity|]. split; [now apply Qlt_Rlt|]. auto.
  - unfold compute_sup_rho_on_tau in El. destruct (sup_functions_ok E OK adjacency AD (map body ps) H) as (fs & Ef & S & _). rewrite Ef in El. cbn [bind] in El.
    destruct fs as [|f0 fs0] eqn:Efs.
    + injection El as <-. intros f i r x [Eq|[]] _. injection Eq as <- <- <-. apply fdef_pole.
    + rewrite <- Efs in *. assert (Ne : fs <> []) by (rewrite Efs; discriminate). clear Efs f0 fs0.
      assert (PF : forall f i x, In (f, i) fs -> (lo i <= x <= hi i)%R -> ~ has_pole f x).
      { intros f i x I B. destruct (S f i I) as (p & v & w & Ip & Mv & Mw & NE & -> & ->). destruct (H p Ip) as [(_ & _ & _ & POS) _].
        apply edge_fun_pole; auto; apply POS; auto. }
      destruct (rational_max_everywhere solve SC fs (real_interval (a, b)) true D Ne) as (l' & El' & _ & Pl).
      * intros f i x I _. split; [|discriminate]. intros B. apply (PF f i); auto. lra.
      * intros f i I. destruct (S f i I) as (p & v & w & _ & _ & _ & _ & _ & ->). split; reflexivity.
      * intros f i x I _ B. apply (PF f i); auto. lra.
      * rewrite El in El'. injection El' as <-. intros f i r x I J. apply (Pl f i r I). exact J.
  - intros f i r s I J. apply (V f i r s I J).
Qed.

Lemma max_attained : forall solve', solve_complete solve' -> forall l1 l2 a b, a < b -> tiles l1 (Q2R a) (Q2R b) -> tiles l2 (Q2R a) (Q2R b) ->
  (forall f i r x, In (f, i, r) (l1 ++ l2) -> Spec_RationalFunction.inside i x -> ~ has_pole f x) -> plain_over (l1 ++ l2) a b ->
  (forall f i r s, In (f, i, r) (l1 ++ l2) -> Spec_RationalFunction.inside i (Q2R s) -> (Q2R (inject_Z (-1000000)) <= rfval f (Q2R s))%R) ->
  exists l, rf_max R Rltb Reqb Rmid rf_atR solve' (map fst l1 ++ map fst l2) (real_interval (a, b)) false = Ret l /\ tiles l (Q2R a) (Q2R b) /\
    forall f i r, In (f, i, r) l -> (forall x, Spec_RationalFunction.inside i x -> ~ has_pole f x) /\
      forall s, Spec_RationalFunction.inside i (Q2R s) ->
      exists f1 i1 r1 f2 i2 r2, In (f1, i1, r1) l1 /\ Spec_RationalFunction.inside i1 (Q2R s) /\ In (f2, i2, r2) l2 /\ Spec_RationalFunction.inside i2 (Q2R s) /\
        rfval f (Q2R s) = Rmax (rfval f1 (Q2R s)) (rfval f2 (Q2R s)).
Proof.
  intros solve' SC' l1 l2 a b AB T1 T2 NP PO DF. pose proof (Qlt_Rlt _ _ AB) as AB'.
  assert (HO : forall l u v f i r, tiles l u v -> In (f, i, r) l -> ilo i = true /\ ihi i = false).
  { clear. induction l as [|[[g j] k] l IH]; intros u v f i r T I; [destruct I|]. cbn in T. destruct T as (_ & _ & A & B & T). destruct I as [Eq|I]; [injection Eq as <- <- <-; auto|eauto]. }
  assert (HI : forall f i, In (f, i) (map fst l1 ++ map fst l2) -> exists r, In (f, i, r) (l1 ++ l2) /\ ilo i = true /\ ihi i = false).
  { intros f i I. rewrite <- map_app in I. apply in_map_iff in I as ([[f' i'] r] & Eq & I). injection Eq as <- <-. exists r. split; [exact I|].
    apply in_app_iff in I as [I|I]; [exact (HO _ _ _ _ _ _ T1 I)|exact (HO _ _ _ _ _ _ T2 I)]. }
  assert (Ne : map fst l1 ++ map fst l2 <> []). { destruct l1 as [|x l1]; [cbn in T1; lra|discriminate]. }
  assert (DI : forall f i x, In (f, i) (map fst l1 ++ map fst l2) -> (lo i <= x < hi i)%R -> ~ has_pole f x).
  { intros f i x I B. destruct (HI f i I) as (r & I' & F1 & F2). apply (NP f i r x I'). unfold Spec_RationalFunction.inside. now rewrite F1, F2. }
  destruct (rational_max_everywhere solve' SC' (map fst l1 ++ map fst l2) (real_interval (a, b)) false AB' Ne) as (l & El & T & V).
  - intros f i x I B. split; [intro; apply (DI f i); auto; lra|]. intros _. split; [now apply (DI f i)|]. destruct (HI f i I) as (r & I' & _). exact (PO f i r x I' B).
  - intros f i I. now destruct (HI f i I) as (r & _ & F).
  - intros f i x I _. now apply (DI f i).
  - exists l. split; [exact El|]. split; [exact T|]. intros f i r I. destruct (V f i r I) as [_ V']. split; [intros x J; apply V', J|].
    intros s J. destruct (V' _ J) as [_ (O1 & O2 & O3)].
    assert (B : (Q2R a <= Q2R s < Q2R b)%R).
    { assert (G : forall l u v, tiles l u v -> forall f i r, In (f, i, r) l -> (u <= lo i /\ hi i <= v)%R).
      { clear. induction l as [|[[g j] k] l IH]; intros u v T f i r I; [destruct I|]. cbn in T. destruct T as (A & B & _ & _ & T).
        assert (M : forall l u v, tiles l u v -> (u <= v)%R). { clear. induction l as [|[[g j] k] l IH]; intros u v T; cbn in T; [lra|]. destruct T as (A & B & _ & _ & T). apply IH in T. lra. }
        pose proof (M _ _ _ T). destruct I as [Eq|I]; [injection Eq as <- <- <-; lra|]. destruct (IH _ _ T _ _ _ I). lra. }
      destruct (G _ _ _ T _ _ _ I) as [G1 G2]. destruct (HO _ _ _ _ _ _ T I) as [F1 F2]. unfold Spec_RationalFunction.inside in J. rewrite F1, F2 in J. cbn [real_interval lo hi fst snd] in *. lra. }
    destruct (tiles_cover _ _ _ (Q2R s) T1 B) as (f1 & i1 & r1 & I1 & J1). destruct (tiles_cover _ _ _ (Q2R s) T2 B) as (f2 & i2 & r2 & I2 & J2).
    exists f1, i1, r1, f2, i2, r2. split; [exact I1|]. split; [exact J1|]. split; [exact I2|]. split; [exact J2|].
    assert (U : forall l u v, tiles l u v -> forall f i r f' i' r', In (f, i, r) l -> In (f', i', r') l -> Spec_RationalFunction.inside i (Q2R s) -> Spec_RationalFunction.inside i' (Q2R s) -> f = f').
    { clear. induction l as [|[[g j] k] l IH]; intros u v T f i r f' i' r' I I' J J'; [destruct I|]. cbn in T. destruct T as (A & B & F1 & F2 & T).
      assert (L : forall l u v, tiles l u v -> forall f i r, In (f, i, r) l -> Spec_RationalFunction.inside i (Q2R s) -> (u <= Q2R s)%R).
      { clear. induction l as [|[[g j] k] l IH]; intros u v T f i r I J; [destruct I|]. cbn in T. destruct T as (A & B & F1 & F2 & T).
        destruct I as [Eq|I]; [injection Eq as <- <- <-; unfold Spec_RationalFunction.inside in J; rewrite F1, F2 in J; lra|]. specialize (IH _ _ T _ _ _ I J). lra. }
      destruct I as [Eq|I], I' as [Eq'|I'].
      - congruence.
      - injection Eq as <- <- <-. pose proof (L _ _ _ T _ _ _ I' J'). unfold Spec_RationalFunction.inside in J. rewrite F1, F2 in J. lra.
      - injection Eq' as <- <- <-. pose proof (L _ _ _ T _ _ _ I J). unfold Spec_RationalFunction.inside in J'. rewrite F1, F2 in J'. lra.
      - eauto. }
    assert (K1 : (rfval f1 (Q2R s) <= rfval f (Q2R s))%R) by (apply (O3 f1 i1); auto; apply in_or_app; left; apply in_map_iff; exists (f1, i1, r1); auto).
    assert (K2 : (rfval f2 (Q2R s) <= rfval f (Q2R s))%R) by (apply (O3 f2 i2); auto; apply in_or_app; right; apply in_map_iff; exists (f2, i2, r2); auto).
    apply Rle_antisym; [|now apply Rmax_lub]. destruct O1 as [O1|(g & j & Ig & Jg & O1)].
    + rewrite O1. eapply Rle_trans; [|apply Rmax_l]. apply (DF f1 i1 r1); auto. apply in_or_app. now left.
    + rewrite O1. apply in_app_iff in Ig as [Ig|Ig]; apply in_map_iff in Ig as ([[g' j'] k] & Eq & Ig); injection Eq as -> ->.
      * rewrite (U _ _ _ T1 _ _ _ _ _ _ Ig I1 Jg J1). apply Rmax_l.
      * rewrite (U _ _ _ T2 _ _ _ _ _ _ Ig I2 Jg J2). apply Rmax_r.
Qed.
End Run.

(** The estimates tile the range of sigma and rest on the two regions, and at
    every rational sigma the bound is the larger of the largest rho / tau in the
    two regions. *)
Theorem lv_zlv_to_zd_value : forall E, ext_ok E -> forall adjacency, adjacency_ok E adjacency -> forall solve, solve_complete solve ->
  forall order rf_str iteration hs a b tau0 lvr hs' zlvr ps1 ps2, a < b ->
  run_regions E order iteration hs a b tau0 lvr hs' zlvr -> dated lvr -> dated zlvr ->
  region_pieces lvr ps1 -> usable_pieces E ps1 -> region_pieces zlvr ps2 -> usable_pieces E ps2 ->
  (forall l1 l2, region_sup E adjacency solve lvr (real_interval (a, b)) = Ret l1 -> region_sup E adjacency solve zlvr (real_interval (a, b)) = Ret l2 ->
     plain_over (l1 ++ l2) a b) ->
  exists l, lv_zlv_to_zd E order adjacency solve rf_str iteration hs a b tau0 = Ret (l, hs') /\ estimates_tile l (Q2R a) (Q2R b) /\
    forall o, In o l -> exists f i p r, o = ZNode (s_of "Derived zero density estimate") (mkZ (rf_str f) i (Some f)) p r [ZBase (EBase lvr); ZBase (EBase zlvr)] /\
      (forall x, Spec_RationalFunction.inside i x -> ~ has_pole f x) /\
      forall s, Spec_RationalFunction.inside i (Q2R s) ->
        exists v1 v2, sup_value (map body ps1) s v1 /\ sup_value (map body ps2) s v2 /\ rfval f (Q2R s) = Rmax v1 v2.
Proof.
  intros E OK adj AD solve SC order rf_str iter hs a b tau0 lvr hs' zlvr ps1 ps2 AB ((d1 & Ed1 & E1) & Ea & (d2 & Ed2 & E2)) Y1 Y2 P1 U1 P2 U2 PO.
  destruct (region_sup_ok E OK adj AD solve SC lvr ps1 a b P1 U1 AB) as (l1 & El1 & T1 & N1 & V1).
  destruct (region_sup_ok E OK adj AD solve SC zlvr ps2 a b P2 U2 AB) as (l2 & El2 & T2 & N2 & V2).
  specialize (PO l1 l2 El1 El2).
  assert (SV : forall ps s v, usable_pieces E ps -> sup_value (map body ps) s v -> (Q2R (inject_Z (-1000000)) <= v)%R).
  { intros ps s v U [[(p & x & Ip & _ & Mx & _ & ->)|[-> _]] _]; [|apply Rle_refl]. apply in_map_iff in Ip as (q & <- & Iq). destruct (U q Iq) as [(_ & _ & _ & POS) _].
    destruct (POS x Mx) as [T R]. apply Qle_Rle. assert (P : 0 <= nth 2 x 0 / nth 1 x 0) by (apply Qle_shift_div_l; [exact T|Lqa.lra]). eapply Qle_trans; [|exact P]. discriminate. }
  destruct (max_attained solve SC l1 l2 a b AB T1 T2) as (l & El & T & V).
  { intros f i r x I J. apply in_app_iff in I as [I|I]; [now apply (N1 f i r)|now apply (N2 f i r)]. }
  { exact PO. }
  { intros f i r s I J. apply in_app_iff in I as [I|I]; [apply (SV ps1 s _ U1), (V1 f i r); auto|apply (SV ps2 s _ U2), (V2 f i r); auto]. }
  destruct (max_year_ok (map zn_ref [ZBase (EBase lvr); ZBase (EBase zlvr)])) as (y & Ey & _). { constructor; [exact Y1|constructor; [exact Y2|constructor]]. }
  set (node := fun s : piece R => ZNode (s_of "Derived zero density estimate") (mkZ (rf_str (fst (fst s))) (snd (fst s)) (Some (fst (fst s))))
     (s_of "Follows from computed large value estimates and zeta large value estimates") (ref_derived y) [ZBase (EBase lvr); ZBase (EBase zlvr)]).
  exists (map node l). split; [|split].
  - unfold lv_zlv_to_zd. rewrite Ed1. cbn [bind]. rewrite E1. cbn [bind]. rewrite El1. cbn [bind]. rewrite Ea. cbn [bind]. rewrite Ed2. cbn [bind]. rewrite E2. cbn [bind].
    rewrite El2. cbn [bind]. unfold pack_bounds. rewrite El. cbn [bind].
    assert (M : forall l, mapM (fun s : piece R => derived_zero_density_estimate (from_rational_func rf_str (fst (fst s)) (snd (fst s)))
      (s_of "Follows from computed large value estimates and zeta large value estimates") [ZBase (EBase lvr); ZBase (EBase zlvr)]) l = Ret (map node l)).
    { clear - Ey. induction l as [|x l IH]; [reflexivity|]. cbn [mapM map]. unfold derived_zero_density_estimate at 1. rewrite Ey. cbn [bind]. rewrite IH. reflexivity. }
    rewrite M. reflexivity.
  - clear - T. revert T. generalize (Q2R a). induction l as [|[[f i] r] l IH]; intros u T; cbn in *; [exact T|]. destruct T as (A & B & C & D & T). auto 6.
  - intros o I. apply in_map_iff in I as ([[f i] r] & <- & I). destruct (V f i r I) as [NP Vs]. exists f, i. do 2 eexists. split; [reflexivity|]. split; [exact NP|].
    intros s J. destruct (Vs s J) as (f1 & i1 & r1 & f2 & i2 & r2 & I1 & J1 & I2 & J2 & Eq). exists (rfval f1 (Q2R s)), (rfval f2 (Q2R s)).
    split; [now apply (V1 f1 i1 r1)|]. split; [now apply (V2 f2 i2 r2)|exact Eq].
Qed.
Print Assumptions lv_zlv_to_zd_value.

(** If the two regions contain all large values in their ranges, then the value
    of the result bounds A(sigma) (1 - sigma). *)
Theorem lv_zlv_to_zd_sound : forall E, ext_ok E -> forall adjacency, adjacency_ok E adjacency -> forall solve, solve_complete solve ->
  forall order rf_str iteration hs a b tau0 lvr hs' zlvr ps1 ps2, a < b ->
  run_regions E order iteration hs a b tau0 lvr hs' zlvr -> dated lvr -> dated zlvr ->
  region_pieces lvr ps1 -> usable_pieces E ps1 -> region_pieces zlvr ps2 -> usable_pieces E ps2 ->
  (forall l1 l2, region_sup E adjacency solve lvr (real_interval (a, b)) = Ret l1 -> region_sup E adjacency solve zlvr (real_interval (a, b)) = Ret l2 ->
     plain_over (l1 ++ l2) a b) ->
  0 < tau0 -> 2 * tau0 <= TAU_UPPER_LIMIT ->
  exists l, lv_zlv_to_zd E order adjacency solve rf_str iteration hs a b tau0 = Ret (l, hs') /\
    forall W s, d_admissible W -> covers (low (ener W)) false a b tau0 (2 * tau0) ps1 -> covers (low (ener W)) true a b 2 tau0 ps2 ->
      1#2 < s -> s < 1 -> a <= s -> s < b -> goes_on ps1 s -> goes_on ps2 s ->
      exists n d p r ds f, In (ZNode n d p r ds) l /\ Spec_RationalFunction.inside (z_int d) (Q2R s) /\ z_bound d = Some f /\ ~ has_pole f (Q2R s) /\
        zd W s (rfval f (Q2R s) / (1 - Q2R s))%R.
Proof.
  intros E OK adj AD solve SC order rf_str iter hs a b tau0 lvr hs' zlvr ps1 ps2 AB RR Y1 Y2 P1 U1 P2 U2 PO T0 TU.
  destruct (lv_zlv_to_zd_value E OK adj AD solve SC order rf_str iter hs a b tau0 lvr hs' zlvr ps1 ps2 AB RR Y1 Y2 P1 U1 P2 U2 PO) as (l & El & T & V).
  exists l. split; [exact El|]. intros W s Ad C1 C2 S1 S2 Sa Sb G1 G2.
  assert (TC : exists o, In o l /\ exists n d p r ds, o = ZNode n d p r ds /\ Spec_RationalFunction.inside (z_int d) (Q2R s)).
  { apply Qle_Rle in Sa. apply Qlt_Rlt in Sb. clear - T Sa Sb. revert T Sa. generalize (Q2R a). induction l as [|[n d p r ds|h] l IH]; intros u T Sa; cbn in T; [lra| |destruct T].
    destruct T as (L & LH & I1 & I2 & T). destruct (Rlt_or_le (Q2R s) (hi (z_int d))) as [K|K].
    - eexists. split; [now left|]. do 5 eexists. split; [reflexivity|]. unfold Spec_RationalFunction.inside. rewrite I1, I2. lra.
    - destruct (IH _ T ltac:(lra)) as (o & I & J). exists o. split; [now right|exact J]. }
  destruct TC as (o & Io & n & d & p & r & ds & -> & J). destruct (V _ Io) as (f & i & p' & r' & Eq & NP & Vs). injection Eq as -> -> -> -> ->. cbn [z_int] in J.
  do 6 eexists. split; [exact Io|]. cbn [z_int z_bound]. split; [exact J|]. split; [reflexivity|]. split; [now apply NP|].
  destruct (Vs s J) as (v1 & v2 & SV1 & SV2 & ->).
  assert (K : forall ps v, usable_pieces E ps -> goes_on ps s -> sup_value (map body ps) s v -> forall q t u, In q ps -> member (body q) [s; t; u] -> 0 < t /\ (Q2R u <= v * Q2R t)%R /\ (0 <= v)%R).
  { intros ps v U G [_ SV] q t u Iq M. destruct (U q Iq) as [(_ & _ & _ & POS) _]. destruct (POS _ M) as [Pt Pu]. cbn [nth] in Pt, Pu. split; [exact Pt|].
    assert (RP : reaches_past (body q) s) by (apply (G q [s; t; u]); auto; reflexivity).
    specialize (SV (body q) [s; t; u] (in_map body _ _ Iq) RP M ltac:(reflexivity)). cbn [nth] in SV.
    assert (Pt' : (0 < Q2R t)%R) by (apply Qlt_Rlt in Pt; now rewrite Q2R_0 in Pt). rewrite Q2R_div in SV by (intro Z; rewrite Z in Pt; discriminate Pt).
    assert (D : (0 <= Q2R u / Q2R t)%R). { apply Qle_Rle in Pu. rewrite Q2R_0 in Pu. unfold Rdiv. apply Rmult_le_pos; [exact Pu|]. apply Rlt_le, Rinv_0_lt_compat, Pt'. }
    split; [|lra]. replace (Q2R u) with (Q2R u / Q2R t * Q2R t)%R by (field; lra). apply Rmult_le_compat_r; [lra|exact SV]. }
  assert (TT : TAU_UPPER_LIMIT == LV_DEFAULT_UPPER_BOUND) by reflexivity.
  assert (Z0 : (0 <= v1)%R).
  { destruct (C1 s tau0 0) as (q & Iq & Mq); [split; Lqa.lra|split; Lqa.lra| |].
    - split; [|apply (lv_zero W Ad); Lqa.lra]. unfold in_range. unfold LV_DEFAULT_UPPER_BOUND. repeat split; try Lqa.lra.
    - now apply (K ps1 v1 U1 G1 SV1 q tau0 0). }
  apply (zd_large W Ad s tau0 (Rmax v1 v2) S1 S2 T0).
  - intros t u L1 L2 LV. assert (Pt : (0 < Q2R t)%R) by (rewrite <- Q2R_0; apply Qlt_Rlt; Lqa.lra).
    destruct (Qlt_le_dec u 0) as [Lu|Lu].
    + apply Qlt_Rlt in Lu. rewrite Q2R_0 in Lu. assert (0 <= Rmax v1 v2 * Q2R t)%R by (apply Rmult_le_pos; [eapply Rle_trans; [exact Z0|apply Rmax_l]|lra]). lra.
    + pose proof (lv_trivial W Ad s t u ltac:(Lqa.lra) ltac:(Lqa.lra) ltac:(Lqa.lra) LV) as TR.
      destruct (C1 s t u) as (q & Iq & Mq); [split; Lqa.lra|split; Lqa.lra| |].
      * split; [|exact LV]. unfold in_range. repeat split; Lqa.lra.
      * destruct (K ps1 v1 U1 G1 SV1 q t u Iq Mq) as (_ & B & _). eapply Rle_trans; [exact B|]. apply Rmult_le_compat_r; [lra|apply Rmax_l].
  - intros t u L1 L2 LV. assert (Pt : (0 < Q2R t)%R) by (rewrite <- Q2R_0; apply Qlt_Rlt; Lqa.lra).
    destruct (Qlt_le_dec u 0) as [Lu|Lu].
    + apply Qlt_Rlt in Lu. rewrite Q2R_0 in Lu. assert (0 <= Rmax v1 v2 * Q2R t)%R by (apply Rmult_le_pos; [eapply Rle_trans; [exact Z0|apply Rmax_l]|lra]). lra.
    + pose proof (zlv_trivial _ (en_low _ (d_en W Ad)) s t u ltac:(Lqa.lra) ltac:(Lqa.lra) L1 LV) as TR.
      destruct (C2 s t u) as (q & Iq & Mq); [split; Lqa.lra|split; Lqa.lra| |].
      * split; [|split; [exact L1|exact LV]]. unfold in_range. repeat split; Lqa.lra.
      * destruct (K ps2 v2 U2 G2 SV2 q t u Iq Mq) as (_ & B & _). eapply Rle_trans; [exact B|]. apply Rmult_le_compat_r; [lra|apply Rmax_r].
Qed.
Print Assumptions lv_zlv_to_zd_sound.

(** ** A concrete case: the trivial estimate LV(sigma, tau) <= tau *)
Lemma full_world_admissible : d_admissible (full_world Spec_BoundMu.trivial_world).
Proof.
  assert (PR : forall s t r e z y, Forall2 Qeq [s; t; r; e; z] y -> exists s' t' r' e' z', y = [s'; t'; r'; e'; z'] /\ s == s' /\ t == t' /\ r == r' /\ e == e' /\ z == z').
  { intros s t r e z y H. inversion H as [|? ? ? ? A1 H1]; subst. inversion H1 as [|? ? ? ? A2 H2]; subst. inversion H2 as [|? ? ? ? A3 H3]; subst.
    inversion H3 as [|? ? ? ? A4 H4]; subst. inversion H4 as [|? ? ? ? A5 H5]; subst. inversion H5; subst. do 5 eexists. split; [reflexivity|]. auto. }
  assert (LD : forall s t r k, (1 <= k)%Z -> 0 <= t -> s <= 1 -> full_lv s (inject_Z k * t) (inject_Z k * r) -> full_lv s t r).
  { intros s t r k K T S1 (H1 & H2). assert (K1 : 1 <= inject_Z k) by (change 1 with (inject_Z 1); rewrite <- Zle_Qle; lia).
    split; [Lqa.nra|]. destruct H2 as [H2|H2]; [now left|]. destruct (Qlt_le_dec r 0) as [L|L]; right; [Lqa.lra|Lqa.nra]. }
  constructor; cbn [full_world ener zd].
  - constructor; cbn [low en zen].
    + pose proof (en_low _ (Prop_AdditiveEnergy.conj_world_admissible _ false Prop_BoundMu.trivial_world_admissible
        ltac:(intros s m _ H; apply H))) as LA.
      constructor; cbn [base lv zlv].
      * exact (lv_base _ LA).
      * unfold full_lv. intros. Lqa.lra.
      * tauto.
      * intros s t r k K _ S1 T. now apply LD.
      * tauto.
      * tauto.
      * tauto.
      * tauto.
      * exact (mu_nonneg _ LA).
    + intros x y H (s & t & r & e & z & -> & C). apply PR in H as (s' & t' & r' & e' & z' & -> & A1 & A2 & A3 & A4 & A5).
      exists s', t', r', e', z'. split; [reflexivity|]. unfold full_en, full_lv in *. Lqa.lra.
    + tauto.
    + intros s t r e z (? & ? & ? & ? & ? & Eq & C). injection Eq as <- <- <- <- <-. apply C.
    + tauto.
    + tauto.
    + intros s t r S1 S2 T R0 L. exists (2 * r), (r + 2). do 5 eexists. split; [reflexivity|]. cbn in L. unfold full_en. split; [exact L|]. repeat split; try Lqa.lra.
    + cbn. tauto.
    + intros s t r e z (? & ? & ? & ? & ? & Eq & C). injection Eq as <- <- <- <- <-. unfold full_en in C. repeat split; Lqa.lra.
    + intros s t r e z k K (? & ? & ? & ? & ? & Eq & C). injection Eq as <- <- <- <- <-.
      assert (K1 : 1 <= inject_Z k) by (change 1 with (inject_Z 1); rewrite <- Zle_Qle; lia). destruct C as (L & S1 & S2 & R0 & E1 & Z1 & Z2).
      assert (I : 0 < / inject_Z k) by (apply Qinv_lt_0_compat; Lqa.lra).
      assert (M : forall q, inject_Z k * (q / inject_Z k) == q) by (intro; field; intro; Lqa.lra).
      assert (T0 : 0 <= t) by (destruct L; Lqa.lra).
      assert (X : full_en s (t / inject_Z k) (r / inject_Z k) (e / inject_Z k) (r / inject_Z k + 2)).
      { split; [|].
        - apply (LD s _ _ k K); [unfold Qdiv; Lqa.nra|exact S2|]. unfold full_lv in *. rewrite !M. exact L.
        - assert (0 <= r / inject_Z k) by (unfold Qdiv; Lqa.nra). repeat split; try Lqa.lra. rewrite E1. field. intro; Lqa.lra. }
      split; [exists (e / inject_Z k), (r / inject_Z k + 2)|exists (r / inject_Z k), (r / inject_Z k + 2)]; (split; [Lqa.lra|]); do 5 eexists; (split; [reflexivity|exact X]).
    + intros k l s t r e z _ _ (? & ? & ? & ? & ? & Eq & C). injection Eq as <- <- <- <- <-. destruct C as ((L1 & L2) & S1 & S2 & R0 & E1 & _). unfold energy_bound.
      destruct (max3_ge (r + 1) ((5 * r + t) / 3) (((2 + 3 * k + 4 * l) * r + (k + l) * t) / (1 + 2 * k + 2 * l))) as (M1 & M2 & _).
      destruct (max3_ge (e + 1) (4 * r) ((3 # 4) * e + r + t / 2)) as (N1 & N2 & _).
      assert (X : 2 * r <= (5 * r + t) / 3) by (apply Qle_shift_div_l; Lqa.lra).
      destruct L2 as [L2|L2]; Lqa.lra.
  - intros s s' v Eq [H K]. split; [exact H|]. intro L. rewrite <- (Qeq_eqR _ _ Eq). apply K. Lqa.lra.
  - intros s v w L [H K]. split; [lra|]. intro Ls. specialize (K Ls). apply Qle_Rle in Ls. assert (Q2R (3#4) < 1)%R by (rewrite <- Q2R_1; apply Qlt_Rlt; reflexivity). nra.
  - intros s t r _ _ _ [L _]. exact L.
  - intros s t S1 S2 T. cbn. unfold full_lv. split; [exact T|right; Lqa.lra].
  - intros s t0 b S1 S2 T0 HL _. assert (S2' : (Q2R s < 1)%R) by (rewrite <- Q2R_1; now apply Qlt_Rlt). assert (T0' : (0 < Q2R t0)%R) by (rewrite <- Q2R_0; now apply Qlt_Rlt).
    assert (BP : (0 < b)%R).
    { assert (K : exists r, 0 < r /\ r <= t0 /\ r <= 2 - 2 * s).
      { destruct (Qlt_le_dec t0 (2 - 2 * s)); [exists t0|exists (2 - 2 * s)]; repeat split; Lqa.lra. }
      destruct K as (r & R0 & R1 & R2). pose proof (HL t0 r ltac:(Lqa.lra) ltac:(Lqa.lra) (conj R1 (or_intror R2))) as B.
      apply Qlt_Rlt in R0. rewrite Q2R_0 in R0. destruct (Rlt_or_le 0 b) as [|N]; auto. exfalso. assert (b * Q2R t0 <= 0 * Q2R t0)%R by (apply Rmult_le_compat_r; lra). lra. }
    split; [apply Rdiv_lt_0_compat; lra|]. intro Ls. pose proof (HL t0 t0 ltac:(Lqa.lra) ltac:(Lqa.lra) (conj (Qle_refl t0) (or_introl Ls))) as B.
    replace (b / (1 - Q2R s) * (1 - Q2R s))%R with b by (field; lra). nra.
Qed.

(** In the list of edges there are only vertices. *)
Lemma edges_between_vertices : forall E adj p edges v w, pcanon p = true -> get_edges E adj p = Ret edges -> In (v, w) edges ->
  In v (get_vertices E p) /\ In w (get_vertices E p).
Proof.
  intros E adj p edges v w C H I. unfold get_edges in H. rewrite C in H.
  match type of H with bind ?m _ = _ => destruct m as [rows|] eqn:M; [|discriminate] end. cbn [bind] in H. injection H as <-.
  apply in_concat in I as (row & Ir & I). apply (Proof_Piecewise.mapM_In _ _ _ _ _ _ M) in Ir as (i & _ & Hi).
  unfold item in Hi at 1. destruct (nth_error (get_vertices E p) i) as [v1|] eqn:Ev; [|discriminate]. cbn [bind] in Hi.
  destruct (item (adj (pmat p)) i) as [js|]; [|discriminate]. cbn [bind] in Hi.
  apply (Proof_Piecewise.mapM_In _ _ _ _ _ _ Hi) in I as (j & _ & Hj). unfold item in Hj. destruct (nth_error (get_vertices E p) j) as [v2|] eqn:Ew; [|discriminate].
  injection Hj as <- <-. split; eapply nth_error_In; eassumption.
Qed.

(** Without poles at all: all vertices are over the ends of the range. *)
Lemma end_vertices_plain : forall E adj solve, ext_ok E -> adjacency_ok E adj -> solve_complete solve ->
  forall h p a b l, a < b -> region_pieces h [p] -> usable_pieces E [p] -> pcanon (body p) = true ->
  (forall v, In v (get_vertices E (body p)) -> nth 0 v 0 == a \/ nth 0 v 0 == b) ->
  region_sup E adj solve h (real_interval (a, b)) = Ret l -> forall f i r x, In (f, i, r) l -> (Q2R a <= x < Q2R b)%R -> ~ has_pole f x.
Proof.
  intros E adj solve OK AD SC h p a b l AB P U C VE El f i r x I B. unfold region_sup in El. rewrite (child_polytopes_ok h [p] P) in El. cbn [bind map] in El.
  unfold compute_sup_rho_on_tau, sup_functions in El. cbn [mapM] in El. destruct (get_edges E adj (body p)) as [edges|] eqn:Ee; [|discriminate]. cbn [bind concat] in El. rewrite app_nil_r in El.
  destruct (U p (or_introl eq_refl)) as [(WF & NC & BD & POS) VO]. destruct (get_edges_ok E OK adj AD (body p) WF BD VO) as (edges' & Ee' & M & _). rewrite Ee in Ee'. injection Ee' as <-.
  destruct (edge_functions_ok edges []) as (fns & Ef & S & _).
  { intros v w Iv. destruct (M v w Iv) as [[L1 _] [L2 _]]. split; lia. }
  { intros l' []. }
  rewrite Ef in El. cbn [bind] in El.
  assert (PF : forall g j, In (g, j) (map (fun f => (fst f, real_interval (snd f))) fns) -> (ilo j = true /\ ihi j = false) /\ forall y, (Q2R a <= y <= Q2R b)%R -> ~ has_pole g y).
  { intros g j Ig. apply in_map_iff in Ig as ([g' ab] & Eq & Ig). cbn [fst snd] in Eq. injection Eq as <- <-. split; [split; reflexivity|]. intros y By.
    destruct (S _ _ Ig) as (v & w & Iv & NE & -> & ->). destruct (M v w Iv) as [Mv Mw]. destruct (edges_between_vertices E adj (body p) edges v w C Ee Iv) as [Vv Vw].
    apply edge_fun_pole; [exact NE|apply (POS v Mv)|apply (POS w Mw)|].
    destruct (edge_ends_spec v w NE) as [_ [[L Eq]|[L Eq]]]; rewrite Eq; cbn [fst snd]; unfold point in *;
      (destruct (VE v Vv) as [Ev|Ev]; destruct (VE w Vw) as [Ew|Ew]; try (exfalso; Lqa.lra); rewrite (Qeq_eqR _ _ Ev), (Qeq_eqR _ _ Ew); exact By). }
  generalize dependent (map (fun f : rfun * (Q * Q) => (fst f, real_interval (snd f))) fns). intros fs El PF.
  destruct fs as [|f0 fs0].
  { injection El as <-. destruct I as [Eq|[]]. injection Eq as <- <- <-. apply fdef_pole. }
  destruct (rational_max_everywhere solve SC (f0 :: fs0) (real_interval (a, b)) true (Qlt_Rlt _ _ AB) ltac:(discriminate)) as (l' & El' & _ & V).
  - intros g j y Ig By. split; [|discriminate]. intros _. apply (PF g j Ig). cbn [real_interval lo hi fst snd] in By. lra.
  - intros g j Ig. apply (PF g j Ig).
  - intros g j y Ig By _. apply (PF g j Ig). cbn [real_interval lo hi fst snd] in By. lra.
  - rewrite El in El'. injection El' as <-. destruct (V f i r I) as [[[_ ->]|(k & j & _ & N & _)] _]; [apply fdef_pole|].
    apply nth_error_In in N. apply (PF f j N). lra.
Qed.

Definition dummy : lnode := LNode [] (DLVTrans 0) ref_trivial [].
Definition trivial_estimate : lnode :=
  match literature_bound_LV_max fm_ext [[0; 0; 1]] ref_trivial [] with Ret h => h | Raise _ => dummy end.
Definition keep (l : list lnode) : list lnode := l.
Definition region_over (hs : list lnode) (t0 t1 : Q) (zeta : bool) : lnode :=
  match (let! d := rect fm_ext [(1#2, 3#4); (t0, t1); (0, LV_DEFAULT_UPPER_BOUND)] in
         compute_large_value_region fm_ext Prop_Region.same_order hs (RPoly (plain d)) zeta) with Ret h => h | Raise _ => dummy end.
Definition with_zeta : list lnode := match add_zeta_estimates fm_ext keep [trivial_estimate] with Ret l => l | Raise _ => [] end.
Definition slab (t0 t1 : Q) : polytope := mkPoly (mkMat (map (fun r => (r, false))
  [[-(1#2); 1; 0; 0]; [3#4; -(1); 0; 0]; [-t0; 0; 1; 0]; [t1; 0; -(1); 0]; [0; 0; 0; 1]; [LV_DEFAULT_UPPER_BOUND; 0; 0; -(1)];
   [-(1#2); 1; 0; 0]; [1; -(1); 0; 0]; [0; 0; 1; 0]; [TAU_UPPER_LIMIT; 0; -(1); 0]; [0; 0; 0; 1]; [LV_DEFAULT_UPPER_BOUND; 0; 0; -(1)];
   [0; 0; 1; -(1)]]) 4) true None.

Lemma ex_run : run_regions fm_ext Prop_Region.same_order keep [trivial_estimate] (1#2) (3#4) 3 (region_over [trivial_estimate] 3 6 false) with_zeta (region_over with_zeta 2 3 true).
Proof.
  split; [|split].
  - eexists. split; [vm_compute; reflexivity|]. vm_compute. reflexivity.
  - vm_compute. reflexivity.
  - eexists. split; [vm_compute; reflexivity|]. vm_compute. reflexivity.
Qed.
Lemma ex_pieces : (exists ds, region_pieces (region_over [trivial_estimate] 3 6 false) [mkLPoly (slab 3 6) None (Some ds)]) /\
  (exists ds, region_pieces (region_over with_zeta 2 3 true) [mkLPoly (slab 2 3) None (Some ds)]) /\
  dated (region_over [trivial_estimate] 3 6 false) /\ dated (region_over with_zeta 2 3 true).
Proof.
  split; [eexists; vm_compute; reflexivity|]. split; [eexists; vm_compute; reflexivity|].
  split; left; vm_compute; exact Logic.I.
Qed.
Lemma slab_member : forall t0 t1 x, member (slab t0 t1) x <->
  exists s t r, x = [s; t; r] /\ (1#2) <= s <= 3#4 /\ (t0 <= t <= t1 /\ 0 <= t <= TAU_UPPER_LIMIT) /\ 0 <= r <= t /\ r <= LV_DEFAULT_UPPER_BOUND.
Proof.
  intros t0 t1 x. split.
  - intros [L F]. destruct x as [|s [|t [|r [|? ?]]]]; try discriminate. exists s, t, r. split; auto.
    unfold Spec_Polytope.holds in F. cbn in F. rewrite !Forall_cons_iff in F. cbn in F. decompose [and] F. unfold rowval in *. cbn in *. repeat split; Lqa.lra.
  - intros (s & t & r & -> & S & T & R). split; [reflexivity|]. repeat constructor; unfold Spec_Polytope.holds, rowval; cbn; Lqa.lra.
Qed.
Lemma slab_ok : forall t0 t1, 0 < t0 -> value_polytope (slab t0 t1) /\ vertices_in_order fm_ext (slab t0 t1).
Proof.
  intros t0 t1 T0. split; [|intros _; now left]. split; [split; [cbn; lia|repeat constructor]|]. split; [reflexivity|]. split.
  - exists 1000000. intros x i M. pose proof (proj1 (slab_member t0 t1 x) M) as (s & t & r & -> & S & T & R). unfold TAU_UPPER_LIMIT, LV_DEFAULT_UPPER_BOUND in *.
    apply Qabs_Qle_condition. destruct i as [|[|[|[|i]]]]; cbn; try (destruct i; cbn); split; Lqa.lra.
  - intros x M. apply slab_member in M. destruct M as (s & t & r & -> & S & T & R). cbn. split; Lqa.lra.
Qed.
Lemma slab_past : forall t0 t1 s, 0 <= t0 -> t0 <= t1 -> t0 <= TAU_UPPER_LIMIT -> reaches_past (slab t0 t1) s <-> (1#2) <= s /\ s < 3#4.
Proof.
  intros t0 t1 s P L U. split.
  - intros (x & z & Mx & Mz & X & Z). apply slab_member in Mx, Mz. destruct Mx as (s1 & u1 & r1 & -> & S1 & _), Mz as (s2 & u2 & r2 & -> & S2 & _). cbn in *. split; Lqa.lra.
  - intros [A B]. unfold TAU_UPPER_LIMIT, LV_DEFAULT_UPPER_BOUND in *. exists [s; t0; 0], [3#4; t0; 0]. split; [apply slab_member; exists s, t0, 0; repeat split; unfold TAU_UPPER_LIMIT, LV_DEFAULT_UPPER_BOUND; Lqa.lra|].
    split; [apply slab_member; exists (3#4), t0, 0; repeat split; unfold TAU_UPPER_LIMIT, LV_DEFAULT_UPPER_BOUND; Lqa.lra|]. cbn. split; [reflexivity|exact B].
Qed.
Lemma slab_vertices : forall t0 t1, (t0 = 3 /\ t1 = 6) \/ (t0 = 2 /\ t1 = 3) ->
  forall v, In v (get_vertices fm_ext (slab t0 t1)) -> nth 0 v 0 == 1#2 \/ nth 0 v 0 == 3#4.
Proof.
  intros t0 t1 K. assert (F : forallb (fun v => Qeqb (nth 0 v 0) (1#2) || Qeqb (nth 0 v 0) (3#4)) (get_vertices fm_ext (slab t0 t1)) = true).
  { destruct K as [[-> ->]|[-> ->]]; vm_compute; reflexivity. }
  intros v I. rewrite forallb_forall in F. specialize (F v I). clear I. cbv beta in F. apply orb_true_iff in F as [F|F]; [left|right]; now apply Qeqb_true.
Qed.
Lemma slab_value : forall t0 t1 s v ds, 0 < t0 -> t0 <= t1 -> t0 <= TAU_UPPER_LIMIT -> (1#2) <= s -> s < 3#4 ->
  sup_value (map body [mkLPoly (slab t0 t1) None (Some ds)]) s v -> v = 1%R.
Proof.
  intros t0 t1 s v ds P L U S1 S2 [W M]. cbn [map body] in W, M. assert (RP : reaches_past (slab t0 t1) s) by (apply slab_past; auto; Lqa.lra). apply Rle_antisym.
  - destruct W as [(p & x & [<-|[]] & _ & Mx & _ & ->)|[_ N]]; [|exfalso; apply (N (slab t0 t1)); [now left|exact RP]].
    apply slab_member in Mx. destruct Mx as (s' & t & q & -> & _ & [T1 T2] & [R1 R2]). cbn [nth]. rewrite <- Q2R_1. apply Qle_Rle. apply Qle_shift_div_r; Lqa.lra.
  - replace 1%R with (Q2R (nth 2 [s; t0; t0] 0 / nth 1 [s; t0; t0] 0)) by (rewrite <- Q2R_1; apply Qeq_eqR; cbn [nth]; field; intro; Lqa.lra).
    apply (M (slab t0 t1)); [now left|exact RP| |reflexivity]. unfold TAU_UPPER_LIMIT in *. apply slab_member. exists s, t0, t0. split; [reflexivity|]. unfold TAU_UPPER_LIMIT, LV_DEFAULT_UPPER_BOUND. repeat split; Lqa.lra.
Qed.

(** From LV(sigma, tau) <= tau alone, over 1/2 <= sigma <= 3/4 with tau0 = 3: every
    hypothesis of the two theorems holds, and every bound returned is 1. *)
Theorem lv_zlv_to_zd_case : exists adjacency solve, adjacency_ok fm_ext adjacency /\ solve_complete solve /\
  exists lvr zlvr ps1 ps2, run_regions fm_ext Prop_Region.same_order keep [trivial_estimate] (1#2) (3#4) 3 lvr with_zeta zlvr /\ dated lvr /\ dated zlvr /\
    region_pieces lvr ps1 /\ usable_pieces fm_ext ps1 /\ region_pieces zlvr ps2 /\ usable_pieces fm_ext ps2 /\
    (forall l1 l2, region_sup fm_ext adjacency solve lvr (real_interval (1#2, 3#4)) = Ret l1 -> region_sup fm_ext adjacency solve zlvr (real_interval (1#2, 3#4)) = Ret l2 ->
      plain_over (l1 ++ l2) (1#2) (3#4)) /\
    (forall s, goes_on ps1 s <-> ~ s == 3#4) /\ (forall s, goes_on ps2 s <-> ~ s == 3#4) /\
    (let W := low (ener (full_world Spec_BoundMu.trivial_world)) in covers W false (1#2) (3#4) 3 6 ps1 /\ covers W true (1#2) (3#4) 2 3 ps2) /\
    forall rf_str, exists l, lv_zlv_to_zd fm_ext Prop_Region.same_order adjacency solve rf_str keep [trivial_estimate] (1#2) (3#4) 3 = Ret (l, with_zeta) /\ l <> [] /\
      forall o, In o l -> exists n d p r ds f, o = ZNode n d p r ds /\ z_bound d = Some f /\
        forall s, Spec_RationalFunction.inside (z_int d) (Q2R s) -> rfval f (Q2R s) = 1%R.
Proof.
  destruct solver_exists as [solve SC]. exists (fun m => map (fun _ => seq 0 (List.length (generators fm_ext m))) (generators fm_ext m)), solve.
  pose proof (all_pairs_adjacency fm_ext fm_ext_ok) as AD. split; [exact AD|]. split; [exact SC|].
  destruct ex_pieces as ((ds1 & P1) & (ds2 & P2) & D1 & D2). pose proof ex_run as RR.
  revert P1 P2 D1 D2 RR. generalize (region_over [trivial_estimate] 3 6 false). generalize (region_over with_zeta 2 3 true). intros zlvr lvr P1 P2 D1 D2 RR.
  assert (U1 : usable_pieces fm_ext [mkLPoly (slab 3 6) None (Some ds1)]) by (intros p [<-|[]]; apply slab_ok; reflexivity).
  assert (U2 : usable_pieces fm_ext [mkLPoly (slab 2 3) None (Some ds2)]) by (intros p [<-|[]]; apply slab_ok; reflexivity).
  exists lvr, zlvr, [mkLPoly (slab 3 6) None (Some ds1)], [mkLPoly (slab 2 3) None (Some ds2)].
  match goal with |- ?A /\ ?B /\ ?C /\ ?D /\ ?E /\ ?F /\ ?G /\ ?H /\ _ => assert (PO : H) end.
  { intros l1 l2 E1 E2 f i r x I B HP. exfalso. apply in_app_iff in I as [I|I]; revert HP.
    - exact (end_vertices_plain fm_ext _ solve fm_ext_ok AD SC lvr _ (1#2) (3#4) l1 eq_refl P1 U1 eq_refl (slab_vertices 3 6 (or_introl (conj eq_refl eq_refl))) E1 f i r x I B).
    - exact (end_vertices_plain fm_ext _ solve fm_ext_ok AD SC zlvr _ (1#2) (3#4) l2 eq_refl P2 U2 eq_refl (slab_vertices 2 3 (or_intror (conj eq_refl eq_refl))) E2 f i r x I B). }
  assert (G : forall t0 t1 ds, 0 < t0 -> t0 <= t1 -> t0 <= TAU_UPPER_LIMIT -> forall s, goes_on [mkLPoly (slab t0 t1) None (Some ds)] s <-> ~ s == 3#4).
  { intros t0 t1 ds T0 T1 T2 s. unfold TAU_UPPER_LIMIT in T2. split.
    - intros K Eq. assert (X : reaches_past (slab t0 t1) s).
      { apply (K (mkLPoly (slab t0 t1) None (Some ds)) [3#4; t0; 0]); [now left| |cbn; now symmetry]. apply slab_member. exists (3#4), t0, 0. unfold TAU_UPPER_LIMIT, LV_DEFAULT_UPPER_BOUND. repeat split; Lqa.lra. }
      apply slab_past in X; [Lqa.lra|Lqa.lra|exact T1|exact T2].
    - intros N p x [<-|[]] M Eq. apply slab_member in M. destruct M as (s' & t & r & -> & S & _). cbn in Eq. apply slab_past; [Lqa.lra|exact T1|exact T2|].
      split; [Lqa.lra|]. apply Qnot_le_lt. intro L. apply N. Lqa.lra. }
  split; [exact RR|]. split; [exact D1|]. split; [exact D2|]. split; [exact P1|]. split; [exact U1|]. split; [exact P2|]. split; [exact U2|]. split; [exact PO|].
  split; [now apply G|]. split; [now apply G|]. split.
  { split; intros s t u Bs Bt O.
    - eexists. split; [now left|]. apply slab_member. exists s, t, u. split; [reflexivity|]. unfold occurs, in_range in O. cbn in O. unfold full_lv in O. unfold TAU_UPPER_LIMIT, LV_DEFAULT_UPPER_BOUND in *. repeat split; Lqa.lra.
    - exfalso. unfold occurs in O. cbn in O. tauto. }
  intro rf_str. destruct (lv_zlv_to_zd_value fm_ext fm_ext_ok _ AD solve SC Prop_Region.same_order rf_str keep [trivial_estimate] (1#2) (3#4) 3 lvr with_zeta zlvr _ _ eq_refl RR D1 D2 P1 U1 P2 U2 PO) as (l & El & T & V).
  exists l. split; [exact El|]. split.
  { intros ->. cbn in T. apply (Rlt_not_eq (Q2R (1#2)) (Q2R (3#4))); [now apply Qlt_Rlt|exact T]. }
  intros o I. destruct (V o I) as (f & i & p & r & -> & NP & W). do 6 eexists. split; [reflexivity|]. split; [reflexivity|]. cbn [z_int]. intros s J.
  assert (B : (Q2R (1#2) <= Q2R s < Q2R (3#4))%R).
  { clear -T I J. revert T I. generalize (Q2R (1#2)) as u, (Q2R (3#4)) as v. induction l as [|o l IH]; intros u v T I; [destruct I|].
    assert (M : forall l u v, estimates_tile l u v -> (u <= v)%R). { clear. induction l as [|[n d q s ds|h] l IH]; intros u v T; cbn in T; [lra| |destruct T]. destruct T as (A & B & _ & _ & T). apply IH in T. lra. }
    destruct o as [n' d' p' r' ds'|h]; [|destruct T]. cbn in T. destruct T as (A & B & C & D & T). pose proof (M _ _ _ T). destruct I as [Eq|I].
    - injection Eq as -> -> -> -> ->. cbn [z_int] in *. unfold Spec_RationalFunction.inside in J. rewrite C, D in J. lra.
    - pose proof (IH _ _ T I). lra. }
  assert (S1 : (1#2) <= s) by (apply Rle_Qle, B). assert (S2 : s < 3#4) by (apply Rlt_Qlt, B).
  destruct (W s J) as (v1 & v2 & W1 & W2 & ->). clear -W1 W2 S1 S2. rewrite (slab_value 3 6 s v1 ds1 eq_refl ltac:(discriminate) ltac:(discriminate) S1 S2 W1), (slab_value 2 3 s v2 ds2 eq_refl ltac:(discriminate) ltac:(discriminate) S1 S2 W2).
  apply Rmax_left. lra.
Qed.
Print Assumptions lv_zlv_to_zd_case.

Lemma same_result : forall (A B : Type) (r : res (A * B)) x y h, r = Ret (x, h) -> r = Ret (y, h) -> x = y.
Proof. intros A B r x y h -> H. injection H. auto. Qed.

(** The bound stored in an estimate is meant to be a bound on A(sigma).  What
    lv_zlv_to_zd stores is a bound on A(sigma) (1 - sigma): the division by 1 - sigma
    is missing.  From LV(sigma, tau) <= tau it returns A(5/8) <= 1, although in a
    world where that hypothesis is true A(5/8) is 8/3. *)
Theorem lv_zlv_to_zd_unscaled_refuted : ~ (forall parse tr btr E, ext_ok E -> forall adjacency, adjacency_ok E adjacency -> forall solve, solve_complete solve ->
  forall order rf_str iteration hs a b tau0 l hs', lv_zlv_to_zd E order adjacency solve rf_str iteration hs a b tau0 = Ret (l, hs') ->
  forall W, d_admissible W -> Forall (lholds tr btr (low (ener W))) hs -> Forall (zholds parse tr btr W) l).
Proof.
  intro H. destruct lv_zlv_to_zd_case as (adj & solve & AD & SC & lvr & zlvr & ps1 & ps2 & RR & Y1 & Y2 & P1 & U1 & P2 & U2 & PO & _ & _ & _ & C). destruct (C (fun _ => [])) as (l & El & NE & V).
  specialize (H (fun _ => Raise ValueError) (fun _ _ => Raise ValueError) (fun _ _ => Raise ValueError) fm_ext fm_ext_ok adj AD solve SC _ _ _ _ _ _ _ _ _ El _ full_world_admissible).
  destruct (lv_zlv_to_zd_value fm_ext fm_ext_ok adj AD solve SC Prop_Region.same_order (fun _ => []) keep [trivial_estimate] (1#2) (3#4) 3 lvr with_zeta zlvr _ _ eq_refl RR Y1 Y2 P1 U1 P2 U2 PO) as (l' & El' & T & _).
  apply (same_result _ _ _ _ _ _ El) in El' as <-.
  assert (K : exists n d p r ds, In (ZNode n d p r ds) l /\ Spec_RationalFunction.inside (z_int d) (Q2R (5#8))).
  { assert (B : (Q2R (1#2) <= Q2R (5#8) < Q2R (3#4))%R) by (split; [apply Qle_Rle; discriminate|now apply Qlt_Rlt]). clear -T B. revert T B. generalize (Q2R (1#2)) as u.
    induction l as [|o l IH]; intros u T B; cbn in T; [lra|]. destruct o as [n d p r ds|]; [|destruct T]. destruct T as (T1 & T2 & T3 & T4 & T).
    destruct (Rlt_or_le (Q2R (5#8)) (hi (z_int d))) as [L|L].
    - exists n, d, p, r, ds. split; [now left|]. unfold Spec_RationalFunction.inside. rewrite T3, T4. lra.
    - destruct (IH _ T ltac:(lra)) as (n' & d' & p' & r' & ds' & I & J). exists n', d', p', r', ds'. split; [now right|exact J]. }
  destruct K as (n & d & p & r & ds & I & J). destruct (V _ I) as (n' & d' & p' & r' & ds' & f & Eq & Bd & Val). injection Eq as <- <- <- <- <-.
  assert (Hyp : Forall (lholds (fun _ _ => Raise ValueError) (fun _ _ => Raise ValueError) (low (ener (full_world Spec_BoundMu.trivial_world)))) [trivial_estimate]).
  { constructor; [|constructor]. assert (D : exists r', exists rep, l_data trivial_estimate = DLV r' rep /\ forall s t u, in_range s t u -> u <= t -> denote r' [s; t; u]).
    { do 2 eexists. split; [vm_compute; reflexivity|]. intros s t u (? & ? & ? & ? & ? & ?) L. unfold TAU_UPPER_LIMIT, LV_DEFAULT_UPPER_BOUND in *. cbn. left.
      split; [reflexivity|]. repeat constructor; unfold Spec_Polytope.holds, rowval; cbn; Lqa.lra. }
    destruct D as (r' & rep & D & K). unfold lholds. rewrite D. intros s t u R [L _]. now apply K. }
  specialize (H Hyp). rewrite Forall_forall in H. specialize (H _ I f (or_introl Bd) (5#8)).
  assert (NPole : ~ has_pole f (Q2R (5#8))).
  { destruct (lv_zlv_to_zd_value fm_ext fm_ext_ok adj AD solve SC Prop_Region.same_order (fun _ => []) keep [trivial_estimate] (1#2) (3#4) 3 lvr with_zeta zlvr _ _ eq_refl RR Y1 Y2 P1 U1 P2 U2 PO) as (l' & El' & _ & V').
    apply (same_result _ _ _ _ _ _ El) in El' as <-. destruct (V' _ I) as (g & i & q & q' & Eq & NP & _). injection Eq as -> -> -> -> ->. cbn in Bd. injection Bd as ->. apply NP, J. }
  destruct (H eq_refl eq_refl J NPole) as [_ X]. specialize (X ltac:(discriminate)). rewrite (Val _ J), Rmult_1_l in X.
  assert (0 < Q2R (5#8))%R by (rewrite <- Q2R_0; now apply Qlt_Rlt). lra.
Qed.
Print Assumptions lv_zlv_to_zd_unscaled_refuted.

(** The set of hypotheses given to lv_zlv_to_zd is an argument to read.  It is
    changed: afterwards it also has the zeta large value estimates derived on the
    way. *)
Theorem lv_zlv_to_zd_set_refuted : ~ (forall E, ext_ok E -> forall adjacency, adjacency_ok E adjacency -> forall solve, solve_complete solve ->
  forall order rf_str iteration hs a b tau0 l hs', (forall x, Permutation (iteration x) x) ->
  lv_zlv_to_zd E order adjacency solve rf_str iteration hs a b tau0 = Ret (l, hs') -> forall h, In h hs' -> In h hs).
Proof.
  intro H. destruct lv_zlv_to_zd_case as (adj & solve & AD & SC & _ & _ & _ & _ & _ & _ & _ & _ & _ & _ & _ & _ & _ & _ & _ & C). destruct (C (fun _ => [])) as (l & El & _).
  specialize (H fm_ext fm_ext_ok adj AD solve SC _ _ _ _ _ _ _ _ _ (fun x => Permutation_refl x) El).
  assert (X : existsb (fun h => match l_data h with DZLV _ _ => true | _ => false end) with_zeta = true) by (vm_compute; reflexivity).
  apply existsb_exists in X as (h & I & X). destruct (H h I) as [<-|[]]. vm_compute in X. discriminate X.
Qed.
Print Assumptions lv_zlv_to_zd_set_refuted.
