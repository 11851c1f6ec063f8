(** Property C57: bounds on A*(sigma) from large value energy regions. *)
From Coq Require Import Reals Qreals Permutation Classical.
From Verif Require Import Base Model_Text Model_Reference Spec_Reference Proof_Reference LinAlg Model_Polytope Spec_Polytope Proof_Polytope FM_Ext Spec_Edges Proof_Edges Proof_Interval Model_Region Spec_Region
  Proof_Region Proof_RegionSolid Model_ExponentPair Spec_ExponentPair Model_LargeValues Spec_LargeValues Model_AdditiveEnergy Spec_AdditiveEnergy Proof_AdditiveEnergy Prop_AdditiveEnergy
  Model_RationalFunction Spec_RationalFunction Proof_RationalFunction Proof_RFOptimal Prop_RationalFunction Prop_Roots
  Model_ZeroDensity Spec_ZeroDensity Proof_ZeroDensity Prop_ZeroDensity Model_DensityEstimate Spec_DensityEstimate Prop_DensityEstimate Model_DensityDerivation Spec_DensityDerivation Prop_DensityDerivation
  Model_DensityEnergy Spec_DensityEnergy Prop_DensityEnergy Model_EnergyDerivation Spec_EnergyDerivation Proof_EnergyDerivation.
From Coq Require Import Lra.
Open Scope list_scope.
Local Open Scope Q_scope.

(** Division by 1 - x. *)
Lemma div_by_one_minus : forall f x, x <> 1%R ->
  (has_pole (rf_div f (ORat (RationalFunction ([-(1); 1])%Q None))) x <-> has_pole f x) /\
  (~ has_pole f x -> (rfval (rf_div f (ORat (RationalFunction ([-(1); 1])%Q None))) x * (1 - x) = rfval f x)%R).
Proof.
  intros f x N. unfold rf_div, has_pole, rfval, RationalFunction, expr_of_coeffs. cbn [Model_RationalFunction.num den reval fold_left map].
  assert (A : Q2R 1 = 1%R) by (unfold Q2R; cbn; Lra.lra). assert (B : Q2R (-(1)) = (-1)%R) by (unfold Q2R; cbn; Lra.lra). assert (C : Q2R 0 = 0%R) by (unfold Q2R; cbn; Lra.lra).
  cbn. rewrite ?A, ?B, ?C.
  match goal with |- context [(reval (den f) x * ?g)%R] => assert (G : g = (1 - x)%R) by (cbn; Lra.lra); rewrite G end.
  split; [split; [intro H; apply Rmult_integral in H as [H|H]; [exact H|Lra.lra]|intros ->; ring]|].
  intro P. field. split; [exact P|Lra.lra].
Qed.

Section Run.
Context (E : ext) (OK : ext_ok E) (adjacency : mat -> list (list nat)) (AD : adjacency_ok E adjacency)
  (solve : rfun -> rfun -> list R) (SC : solve_complete solve) (order : nat -> list nat -> list nat) (OO : forall k l, Permutation (order k l) l).

Lemma energy_functions_ok : forall h ps a b, a < b -> e_data h = DLVER (RDisj (map RPoly ps)) \/ e_data h = DZLVER (RDisj (map RPoly ps)) -> Forall (solid 5) ps ->
  (forall p s t r u z, In p ps -> member (body p) [s; t; r; u; z] -> 0 < t /\ 0 <= u) ->
  (one_nonempty ps /\ energy_functions E order adjacency solve h (real_interval (a, b)) = Raise TypeError) \/
  (~ one_nonempty ps /\ exists deps l qs, energy_functions E order adjacency solve h (real_interval (a, b)) = Ret (deps, l) /\
     represents l qs a b /\ usable_pieces E qs /\
     (forall s t u, (exists q, In q qs /\ member (body q) [s; t; u]) <-> exists p r z, In p ps /\ member (body p) [s; t; r; u; z]) /\
     (forall d, In d deps -> exists e, d = ABase (ZBase e) /\ e_deps e = [h] /\ r_year (e_ref e) = r_year (e_ref h))).
Proof.
  intros h ps a b AB D F POS. destruct (energy_shape E OK order OO h ps D F) as [(ON & e & p & Ee & De)|(ON & [(Em & Ee)|(e & qs & Ee & De & Dd & Ye & S3 & VO & X)])].
  - left. split; [exact ON|]. unfold energy_functions. rewrite Ee. cbn [bind]. unfold e_region. rewrite De. reflexivity.
  - right. split; [exact ON|]. exists [], [], []. split; [unfold energy_functions; rewrite Ee; reflexivity|]. split; [left; auto|]. split; [intros q []|]. split; [|intros d []].
    intros s t u. split; [intros (q & [] & _)|]. intros (p & r & z & Ip & M). destruct (Em p _ Ip M).
  - right. split; [exact ON|]. rewrite Forall_forall in S3, VO.
    assert (U : usable_pieces E qs).
    { intros q Iq. split; [|now apply VO]. destruct (S3 q Iq) as (G & B & N & _). split; [apply G|]. split; [exact N|]. split; [exact B|].
      intros x M. assert (L : List.length x = 3%nat) by (destruct M as [L _]; lia). destruct x as [|s [|t [|u [|]]]]; try discriminate. cbn [nth].
      destruct (proj1 (X s t u)) as (p & r & z & Ip & M'); [eauto|]. exact (POS p s t r u z Ip M'). }
    destruct (polys_sup E OK adjacency AD solve SC qs a b U AB) as (l & El & R).
    exists [ABase (ZBase e)], l, qs. split.
    + unfold energy_functions. rewrite Ee. cbn [bind]. unfold e_region. rewrite De. cbn [bind]. unfold compute_sup_LV_on_tau. cbn [energy_polytopes].
      assert (Ec : mapM child_polytope (map RPoly qs) = Ret (map body qs)). { clear. induction qs as [|q qs IH]; [reflexivity|]. cbn [map mapM child_polytope bind]. rewrite IH. reflexivity. }
      rewrite Ec. cbn [bind]. rewrite El. reflexivity.
    + split; [right; exact R|]. split; [exact U|]. split; [exact X|]. intros d [<- | []]. eauto.
Qed.

Lemma best_pieces : forall hs zeta d D, usable_set hs -> solid 2 (plain d) -> (forall s t, member d [s; t] <-> D s t) ->
  exists h ps, compute_best_lver E order hs (RPoly (plain d)) zeta = Ret h /\
    (e_data h = DLVER (RDisj (map RPoly ps)) \/ e_data h = DZLVER (RDisj (map RPoly ps))) /\ proper_year (r_year (e_ref h)) /\
    (forall g, In g (e_deps h) <-> used_lver hs zeta g) /\ pieces_for (allowed hs zeta D) ps.
Proof.
  intros hs zeta d D (U & UZ & NZ & Y) Sd HD.
  destruct (compute_best_lver_exact E OK order OO hs (RPoly (plain d)) zeta U (fun _ => UZ) NZ Y Logic.I Sd) as (h & lvers & ps & Eh & Dh & Ed & IL & F & P1 & P2 & _).
  exists h, ps. split; [exact Eh|]. split; [rewrite Dh; destruct zeta; auto|]. split.
  { apply (best_dated E order hs (RPoly (plain d)) zeta h U NZ Y Eh). rewrite Ed. intros g Ig. now apply IL. }
  split; [rewrite Ed; exact IL|].
  assert (M : forall x, lver_meet hs zeta (RPoly (plain d)) x <-> allowed hs zeta D x).
  { intro x. unfold lver_meet, allowed. split; intros (s & t & r & e & z & Ex & Ds & Rest); exists s, t, r, e, z; (split; [exact Ex|]); (split; [|exact Rest]); cbn in *; now apply HD. }
  assert (DN : forall x, denote (RDisj (map RPoly ps)) x <-> exists p, In p ps /\ member (body p) x).
  { intro x. cbn [denote]. rewrite anyP_iff. split; [intros (r & I & Mx); apply in_map_iff in I as (q & <- & I); eauto|intros (q & I & Mx); exists (RPoly q); split; [now apply in_map|exact Mx]]. }
  split; [exact F|]. split.
  - intros x p Ip Mx. apply M, P1, DN. eauto.
  - intros x (e & He & N). apply DN, P2. exists e. split; [exact He|]. intros y Hy. apply M, N, Hy.
Qed.
End Run.

(** The result: a TypeError if in one of the two ranges exactly one of the
    polytopes that the allowed tuples consist of is not empty.  Otherwise estimates
    that tile [a, b), which rest on the hypotheses, and whose value at every
    rational sigma other than 1 is the largest rho* / tau over all allowed tuples,
    divided by 1 - sigma. *)
Theorem energy_bound_value : forall E, ext_ok E -> forall adjacency, adjacency_ok E adjacency -> forall solve, solve_complete solve ->
  forall order, (forall k l, Permutation (order k l) l) -> forall rf_str hs m c a b, usable_set hs -> proper_tau0 m c a b ->
  exists ps1 ps2, pieces_for (allowed hs false (long_range m c a b)) ps1 /\ pieces_for (allowed hs true (zeta_range m c a b)) ps2 /\
    (((one_nonempty ps1 \/ one_nonempty ps2) /\ lver_to_energy_bound E order adjacency solve rf_str hs m c a b = Raise TypeError) \/
     (~ (one_nonempty ps1 \/ one_nonempty ps2) /\ exists l qs, lver_to_energy_bound E order adjacency solve rf_str hs m c a b = Ret l /\
       bounds_tile l (Q2R a) (Q2R b) /\
       (forall s t u, (exists q, In q qs /\ member q [s; t; u]) <-> exists p r z, In p (ps1 ++ ps2) /\ member (body p) [s; t; r; u; z]) /\
       (forall q, In q qs -> value_polytope q) /\
       forall o, In o l -> exists f i p r deps, o = ANode (s_of "Derived zero density energy estimate") TEnergy (mkZ (rf_str f) i (Some f)) p r deps /\
         (forall x, Spec_RationalFunction.inside i x -> x <> 1%R -> ~ has_pole f x) /\
         (forall s, Spec_RationalFunction.inside i (Q2R s) -> ~ s == 1 -> sup_value qs s (rfval f (Q2R s) * (1 - Q2R s))) /\
         (forall d, In d deps -> exists e g, d = ABase (ZBase e) /\ e_deps e = [g] /\ forall h, In h (e_deps g) -> used_lver hs true h))).
Proof.
  intros E OK adj AD solve SC order OO rf_str hs m c a b US PT. pose proof PT as (AB & Pa & Pb & _).
  destruct (long_domain E OK m c a b PT) as (d1 & Ed1 & S1 & M1). destruct (zeta_domain E OK m c a b PT) as (d2 & Ed2 & S2 & M2).
  destruct (best_pieces E OK order OO hs false d1 _ US S1 M1) as (h1 & ps1 & E1 & D1 & Y1 & L1 & P1).
  destruct (best_pieces E OK order OO hs true d2 _ US S2 M2) as (h2 & ps2 & E2 & D2 & Y2 & L2 & P2).
  exists ps1, ps2. split; [exact P1|]. split; [exact P2|]. destruct P1 as (F1 & In1 & _), P2 as (F2 & In2 & _).
  assert (POS1 : forall p s t r u z, In p ps1 -> member (body p) [s; t; r; u; z] -> 0 < t /\ 0 <= u).
  { intros p s t r u z Ip Mx. destruct (In1 _ p Ip Mx) as (s' & t' & r' & u' & z' & Eq & (Rs & Rt) & _ & _ & Ru & _). injection Eq as <- <- <- <- <-.
    pose proof (line_between m c a b s Rs Pa Pb). split; [Lqa.lra|exact Ru]. }
  assert (POS2 : forall p s t r u z, In p ps2 -> member (body p) [s; t; r; u; z] -> 0 < t /\ 0 <= u).
  { intros p s t r u z Ip Mx. destruct (In2 _ p Ip Mx) as (s' & t' & r' & u' & z' & Eq & (Rs & Rt) & _ & _ & Ru & _). injection Eq as <- <- <- <- <-. split; [Lqa.lra|exact Ru]. }
  unfold lver_to_energy_bound. rewrite Ed1, Ed2. cbn [bind]. rewrite E1. cbn [bind].
  destruct (energy_functions_ok E OK adj AD solve SC order OO h1 ps1 a b AB D1 F1 POS1) as [(O1 & Ef1)|(O1 & deps1 & l1 & qs1 & Ef1 & R1 & U1 & X1 & Dp1)].
  { left. split; [now left|]. rewrite Ef1. reflexivity. }
  rewrite Ef1. cbn [bind]. rewrite E2. cbn [bind].
  destruct (energy_functions_ok E OK adj AD solve SC order OO h2 ps2 a b AB D2 F2 POS2) as [(O2 & Ef2)|(O2 & deps2 & l2 & qs2 & Ef2 & R2 & U2 & X2 & Dp2)].
  { left. split; [now right|]. rewrite Ef2. reflexivity. }
  right. split; [tauto|]. rewrite Ef2. cbn [bind].
  assert (U : usable_pieces E (qs1 ++ qs2)) by (intros q Iq; apply in_app_iff in Iq as [Iq|Iq]; auto).
  destruct (max_represents E solve SC l1 l2 qs1 qs2 a b AB R1 R2 U) as (l & El & Rl & T). rewrite El. cbn [bind].
  destruct Rl as [[-> _]|(_ & Np & V)]; [cbn in T; apply Qlt_Rlt in AB; Lra.lra|].
  assert (DY : Forall (fun r => proper_year (r_year r)) (map a_ref (deps1 ++ deps2))).
  { apply Forall_map. apply Forall_forall. intros d Id. apply in_app_iff in Id as [Id|Id].
    - destruct (Dp1 d Id) as (e & -> & _ & Ye). cbn [a_ref zn_ref]. now rewrite Ye.
    - destruct (Dp2 d Id) as (e & -> & _ & Ye). cbn [a_ref zn_ref]. now rewrite Ye. }
  destruct (max_year_ok _ DY) as (y & Ey & _).
  set (sc := fun f => rf_div f (ORat (RationalFunction ([-(1); 1])%Q None))).
  set (txt := s_of "Follows from combining large value energy regions and zeta large value energy regions").
  set (node := fun s : piece R => ANode (s_of "Derived zero density energy estimate") TEnergy (mkZ (rf_str (sc (fst (fst s)))) (snd (fst s)) (Some (sc (fst (fst s))))) txt (ref_derived y) (deps1 ++ deps2)).
  exists (map node l), (map body (qs1 ++ qs2)). split; [|split; [|split; [|split]]].
  - assert (M : forall l0 : list (piece R), mapM (fun s : piece R => derived_zero_density_energy_estimate (from_rational_func rf_str (sc (fst (fst s))) (snd (fst s))) txt (deps1 ++ deps2)) l0 = Ret (map node l0)).
    { clear - Ey. induction l0 as [|x l0 IH]; [reflexivity|]. cbn [mapM map]. unfold derived_zero_density_energy_estimate at 1. rewrite Ey. cbn [bind]. rewrite IH. reflexivity. }
    exact (M l).
  - clear - T. revert T. generalize (Q2R a). induction l as [|[[f i] r] l IH]; intros u T; cbn in *; [exact T|]. destruct T as (A & B & C & D & T). auto 6.
  - intros s t u. split.
    + intros (q & Iq & Mq). apply in_map_iff in Iq as (q' & <- & Iq). apply in_app_iff in Iq as [Iq|Iq]; [destruct (proj1 (X1 s t u)) as (p & r & z & Ip & Mp)|destruct (proj1 (X2 s t u)) as (p & r & z & Ip & Mp)]; eauto;
        exists p, r, z; (split; [apply in_or_app; auto|exact Mp]).
    + intros (p & r & z & Ip & Mp). apply in_app_iff in Ip as [Ip|Ip]; [destruct (proj2 (X1 s t u)) as (q & Iq & Mq)|destruct (proj2 (X2 s t u)) as (q & Iq & Mq)]; eauto;
        exists (body q); (split; [apply in_map; apply in_or_app; auto|exact Mq]).
  - intros q Iq. apply in_map_iff in Iq as (q' & <- & Iq). now apply U.
  - intros o Io. apply in_map_iff in Io as ([[f i] r] & <- & Io). exists (sc f), i. do 3 eexists. split; [reflexivity|]. split; [|split].
    + intros x Ix N. unfold sc. rewrite (proj1 (div_by_one_minus f x N)). now apply (Np f i r).
    + intros s Is N. assert (N' : Q2R s <> 1%R). { intro Eq. apply N. apply eqR_Qeq. rewrite Eq. unfold Q2R. cbn. Lra.lra. }
      unfold sc. rewrite (proj2 (div_by_one_minus f (Q2R s) N')); [now apply (V f i r)|now apply (Np f i r)].
    + intros d Id. apply in_app_iff in Id as [Id|Id].
      * destruct (Dp1 d Id) as (e & -> & Ee & _). exists e, h1. split; [reflexivity|]. split; [exact Ee|]. intros h Ih. apply L1 in Ih as [Ih|[Ih|(K & _)]]; [left; exact Ih|right; left; exact Ih|discriminate].
      * destruct (Dp2 d Id) as (e & -> & Ee & _). exists e, h2. split; [reflexivity|]. split; [exact Ee|]. intros h Ih. now apply L2.
Qed.
Print Assumptions energy_bound_value.

(** Polytopes are closed. *)
Lemma negative_near : forall r x, rowval r x < 0 -> exists e, 0 < e /\ forall y, near e x y -> rowval r y < 0.
Proof.
  intros r x P. set (n := norm1 (tl r) + 1). assert (Hn : 0 < n) by (unfold n; pose proof (norm1_nonneg (tl r)); Lqa.lra).
  set (q := - rowval r x / n). assert (Hq : 0 < q) by (unfold q; apply Qlt_shift_div_l; Lqa.lra).
  exists q. split; [exact Hq|]. intros y [Ly Hy].
  assert (D : Qabs (dot (tl r) (vadd y (vscale (-1) x))) <= q * norm1 (tl r)).
  { apply dot_bound; [Lqa.lra|]. intro i. rewrite nth_vadd, nth_vscale.
    assert (E : nth i y 0 + -1 * nth i x 0 == nth i y 0 - nth i x 0) by ring. rewrite E. apply Hy. }
  rewrite dot_vadd_r, dot_vscale_r in D. apply Qabs_Qle_condition in D as [_ D].
  assert (E : q * n == - rowval r x) by (unfold q; field; Lqa.lra).
  assert (q * norm1 (tl r) == - rowval r x - q) by (rewrite <- E; unfold n; ring).
  unfold rowval in *. Lqa.lra.
Qed.
Lemma not_member_near : forall p x, ~ member p x -> exists e, 0 < e /\ forall y, near e x y -> ~ member p y.
Proof.
  intros p x N. destruct (Nat.eq_dec (S (List.length x)) (ncol (pmat p))) as [L|L].
  2:{ exists 1. split; [Lqa.lra|]. intros y [Ly _] [My _]. apply L. now rewrite <- Ly. }
  assert (X : Exists (fun rb => ~ Spec_Polytope.holds rb x) (mrows (pmat p))).
  { apply NNPP. intro A. apply N. split; [exact L|]. apply Forall_forall. intros rb I. apply NNPP. intro B. apply A. apply Exists_exists. eauto. }
  apply Exists_exists in X as ([r b] & I & H). unfold Spec_Polytope.holds in H. cbn [fst snd] in H.
  assert (C : rowval r x < 0 \/ (b = true /\ rowval (vopp r) x < 0)).
  { destruct b; [|left; now apply Qnot_le_lt]. rewrite rowval_vopp. destruct (Q_dec (rowval r x) 0) as [[G|G]|G]; [now left|right; split; [reflexivity|Lqa.lra]|contradiction]. }
  destruct C as [C|(-> & C)]; destruct (negative_near _ _ C) as (e & He & K); exists e; (split; [exact He|]); intros y Ny [_ My]; specialize (K y Ny);
    rewrite Forall_forall in My; specialize (My _ I); unfold Spec_Polytope.holds in My; cbn [fst snd] in My; [destruct b; Lqa.lra|]. rewrite rowval_vopp in K. Lqa.lra.
Qed.
Lemma limit_member : forall qs x s, nth 0 x 0 == s ->
  (forall e, 0 < e -> exists y q, near e x y /\ s < nth 0 y 0 /\ In q qs /\ member q y) -> exists q, In q qs /\ member q x /\ reaches_past q s.
Proof.
  induction qs as [|q qs IH]; intros x s Xs H; [destruct (H 1 ltac:(Lqa.lra)) as (y & q & _ & _ & [] & _)|].
  destruct (classic (member q x /\ exists z, member q z /\ s < nth 0 z 0)) as [(M & z & Mz & Sz)|N].
  { exists q. split; [now left|]. split; [exact M|]. exists x, z. auto. }
  assert (K : exists e, 0 < e /\ forall y, near e x y -> s < nth 0 y 0 -> ~ member q y).
  { destruct (classic (member q x)) as [M|M].
    - exists 1. split; [Lqa.lra|]. intros y _ Sy My. apply N. split; [exact M|]. eauto.
    - destruct (not_member_near q x M) as (e & He & K). exists e. split; [exact He|]. intros y Ny _. now apply K. }
  destruct K as (e0 & H0 & K). destruct (IH x s Xs) as (q' & I & M & R).
  - intros e He. destruct (qmin_spec e e0) as (Q1 & Q2 & Q3). assert (Q0 : 0 < qmin e e0) by (destruct Q3 as [-> | ->]; assumption).
    destruct (H _ Q0) as (y & q' & (Ly & Ny) & Sy & [<- | I] & My).
    + destruct (K y); [split; [exact Ly|]; intro i; specialize (Ny i); Lqa.lra|exact Sy|exact My].
    + exists y, q'. split; [split; [exact Ly|]; intro i; specialize (Ny i); Lqa.lra|auto].
  - exists q'. split; [now right|auto].
Qed.

(** All patterns are among the allowed tuples if the hypotheses are true. *)
Lemma patterns_allowed : forall tr btr W hs (zeta : bool) (D : Q -> Q -> Prop) s t r e z, en_admissible W -> usable_lvers hs -> closed_lvers hs -> natural_lver_powers hs ->
  Forall (eholds tr btr W) hs -> recorded s t r e z -> D s t -> (if zeta then 2 <= t /\ zen W [s; t; r; e; z] else en W [s; t; r; e; z]) ->
  allowed hs zeta D [s; t; r; e; z].
Proof.
  intros tr btr W hs zeta D s t r e z Ad U CL NP T Rc Ds En.
  assert (NZ : nonzero_lver_powers hs).
  { intros t' k Ht Dt. destruct (NP t' k Ht Dt) as (n & N & Kn). rewrite Kn. change 0 with (inject_Z 0). rewrite inject_Z_injective. lia. }
  exists s, t, r, e, z. split; [reflexivity|]. split; [exact Ds|]. pose proof Rc as ((IR & B1 & B2 & B3 & B4) & _). pose proof IR as (C1 & C2 & C3 & C4 & C5 & C6).
  repeat (split; [assumption|]).
  assert (En' : en W [s; t; r; e; z]) by (destruct zeta; [destruct En as [T2 En]; exact (zen_en W Ad _ _ _ _ _ C1 C2 T2 En)|exact En]).
  rewrite Forall_forall in T.
  intros g R [(A & R' & B)|[(t' & k & h & R' & Ht & Dt & Hh & Dh' & Ag)|(Z & A & R' & B)]] Dg.
  - pose proof (T g A) as Tg. unfold eholds in Tg. rewrite B in Tg, Dg. destruct Dg as [Dg|Dg]; [|discriminate]. injection Dg as <-. apply Tg; auto.
  - destruct (raise_energy_supported tr btr k h R' g (NP t' k Ht Dt) Dh' (usable_sized hs h R' U Hh Dh') (CL h R' Hh Dh') Ag) as (Gd & Sp & _).
    assert (Tg : eholds tr btr W g) by (apply Sp; [exact Ad|]; rewrite Gd; constructor; [exact (T h Hh)|constructor]).
    destruct (raise_energy_region k h R' Dh' (usable_sized hs h R' U Hh Dh') (NZ t' k Ht Dt)) as (g' & R2 & Eg & Dg' & _). rewrite Ag in Eg. injection Eg as <-.
    unfold eholds in Tg. rewrite Dg' in Tg, Dg. destruct Dg as [Dg|Dg]; [|discriminate]. injection Dg as <-. apply Tg; auto.
  - pose proof (T g A) as Tg. unfold eholds in Tg. rewrite B in Tg, Dg. destruct Dg as [Dg|Dg]; [discriminate|]. injection Dg as <-.
    rewrite Z in En. destruct En as [T2 En]. apply Tg; auto.
Qed.

(** The bounds are true if the hypotheses are, at every sigma at which the sets of
    allowed tuples reach on to larger sigma. *)
Theorem energy_bound_sound : forall tr btr E, ext_ok E -> forall adjacency, adjacency_ok E adjacency -> forall solve, solve_complete solve ->
  forall order, (forall k l, Permutation (order k l) l) -> forall rf_str W hs m c a b l, a_admissible W -> usable_set hs -> proper_tau0 m c a b ->
  closed_lvers hs -> natural_lver_powers hs -> Forall (eholds tr btr (ener (dens W))) hs ->
  lver_to_energy_bound E order adjacency solve rf_str hs m c a b = Ret l ->
  bounds_tile l (Q2R a) (Q2R b) /\
  forall n k d p r deps f s, In (ANode n k d p r deps) l -> z_bound d = Some f -> Spec_RationalFunction.inside (z_int d) (Q2R s) ->
    1#2 < s -> s < 1 -> a <= s <= b -> 6 * (m * s + c) + 2 <= TAU_UPPER_LIMIT ->
    regular_at (allowed hs false (long_range m c a b)) s -> regular_at (allowed hs true (zeta_range m c a b)) s ->
    k = TEnergy /\ ~ has_pole f (Q2R s) /\ ze W s (rfval f (Q2R s)).
Proof.
  intros tr btr E OK adj AD solve SC order OO rf_str W hs m c a b l Ad US PT CL NP T El.
  destruct (energy_bound_value E OK adj AD solve SC order OO rf_str hs m c a b US PT) as (ps1 & ps2 & P1 & P2 & [(_ & K)|(_ & l' & qs & El' & BT & X & VP & V)]); [rewrite El in K; discriminate|].
  rewrite El in El'. injection El' as <-. split; [exact BT|].
  intros n k d p r deps f s Io Zb Is S1 S2 Sab SZ R1 R2. destruct (V _ Io) as (f' & i & p' & r' & deps' & Eo & Np & Sv & _). injection Eo as -> -> -> -> -> ->.
  cbn [z_bound z_int] in Zb, Is. injection Zb as <-. split; [reflexivity|].
  assert (N1 : ~ s == 1) by (intro; Lqa.lra).
  assert (N1' : Q2R s <> 1%R). { intro Eq. apply N1. apply eqR_Qeq. rewrite Eq. unfold Q2R. cbn. Lra.lra. }
  split; [now apply Np|]. specialize (Sv s Is N1). destruct Sv as [_ UB]. set (v := (rfval f' (Q2R s) * (1 - Q2R s))%R) in *.
  destruct US as (U & UZ & NZ & Y). pose proof (a_dens W Ad) as Dd. pose proof (d_en _ Dd) as De.
  pose proof PT as (AB & Pa & Pb & _). assert (T0 : 0 < m * s + c) by exact (line_between m c a b s Sab Pa Pb).
  assert (B : forall (zeta : bool) ps D t r e z, pieces_for (allowed hs zeta D) ps -> incl ps (ps1 ++ ps2) -> regular_at (allowed hs zeta D) s -> allowed hs zeta D [s; t; r; e; z] -> 0 < t -> (Q2R e <= v * Q2R t)%R).
  { intros zeta ps D t r0 e z (_ & _ & Pin) Inc Rg Al Tp.
    destruct (limit_member qs [s; t; e] s (Qeq_refl s)) as (q & Iq & Mq & Rq).
    - intros ep Hep. destruct (Rg [s; t; r0; e; z] Al (Qeq_refl s) ep Hep) as (y & (Ly & Ny) & Sy & Iy). destruct (Pin y Iy) as (p0 & Ip & Mp).
      destruct y as [|y1 [|y2 [|y3 [|y4 [|y5 [|]]]]]]; try discriminate. cbn [nth] in Sy.
      destruct (proj2 (X y1 y2 y4)) as (q & Iq & Mq); [exists p0, y3, y5; split; [now apply Inc|exact Mp]|].
      exists [y1; y2; y4], q. split; [|auto]. split; [reflexivity|]. intro j. destruct j as [|[|[|j]]]; cbn [nth]; [exact (Ny 0%nat)|exact (Ny 1%nat)|exact (Ny 3%nat)|].
      destruct j; cbn [nth]; apply Qabs_Qle_condition; Lqa.lra.
    - specialize (UB q _ Iq Rq Mq (Qeq_refl s)). cbn [nth] in UB. rewrite Q2R_div in UB by (intro; Lqa.lra).
      apply Qlt_Rlt in Tp. rewrite RMicromega.Q2R_0 in Tp. apply (Rmult_le_compat_r (Q2R t)) in UB; [|Lra.lra]. unfold Rdiv in UB. rewrite Rmult_assoc, Rinv_l, Rmult_1_r in UB by Lra.lra. exact UB. }
  assert (Rec : forall t r0 e z, 0 <= t -> t <= 2 * (m * s + c) -> en (ener (dens W)) [s; t; r0; e; z] -> recorded s t r0 e z).
  { intros t r0 e z T1 T2 En. destruct (en_sizes _ De _ _ _ _ _ En) as (E1 & E2 & E3 & E4 & E5). pose proof (lv_trivial _ Dd s t r0 ltac:(Lqa.lra) ltac:(Lqa.lra) T1 (en_lv _ De _ _ _ _ _ En)) as E6.
    unfold recorded, in_range5, in_range. unfold TAU_UPPER_LIMIT in *. unfold LV_DEFAULT_UPPER_BOUND. repeat split; Lqa.lra. }
  assert (Z : ze W s (v / (1 - Q2R s))%R).
  { apply (ze_large W Ad s (m * s + c) v S1 S2 T0).
    - intros t r0 e z T1 T2 En. apply (B false ps1 _ t r0 e z P1); [apply incl_appl, incl_refl|exact R1| |Lqa.lra].
      apply (patterns_allowed tr btr (ener (dens W))); auto. apply Rec; [Lqa.lra|exact T2|exact En]. split; [exact Sab|split; assumption].
    - intros t r0 e z T1 T2 En. apply (B true ps2 _ t r0 e z P2); [apply incl_appr, incl_refl|exact R2| |Lqa.lra].
      apply (patterns_allowed tr btr (ener (dens W))); auto. apply Rec; [Lqa.lra|Lqa.lra|apply (zen_en _ De); auto; Lqa.lra]. split; [exact Sab|split; [exact T1|Lqa.lra]]. }
  unfold v in Z. replace (rfval f' (Q2R s) * (1 - Q2R s) / (1 - Q2R s))%R with (rfval f' (Q2R s)) in Z by (field; Lra.lra). exact Z.
Qed.
Print Assumptions energy_bound_sound.

(** Convex estimates only. *)
Lemma round_single : forall E track A B C, (List.length A <= 1)%nat -> (List.length B <= 1)%nat -> round E track A B = Ret C -> (List.length C <= 1)%nat.
Proof.
  intros E track [|p [|]] [|q [|]] C LA LB H; cbn [List.length] in *; try lia; cbn [round] in H; try (injection H as <-; cbn; lia).
  cbn [piece_inters] in H.
  assert (M : forall x, merge_inters E track [x] = Ret [x]) by reflexivity. assert (M0 : merge_inters E track [] = Ret []) by reflexivity.
  destruct (is_subset_of E (body p) (body q)); [cbn [bind] in H; rewrite M in H; cbn [bind] in H; injection H as <-; cbn; lia|].
  destruct (is_subset_of E (body q) (body p)); [cbn [bind] in H; rewrite M in H; cbn [bind] in H; injection H as <-; cbn; lia|].
  destruct (intersect E (body p) (body q)) as [w|]; [|discriminate]. cbn [bind] in H. destruct (is_empty E w false) as [[|]|]; [| |discriminate]; cbn [bind] in H.
  - cbn [app] in H. rewrite M0 in H. cbn [bind] in H. injection H as <-. cbn. lia.
  - destruct track; cbn [bind] in H.
    + destruct (dep_union p q); [|discriminate]. cbn [bind app] in H. rewrite M in H. cbn [bind] in H. injection H as <-. cbn. lia.
    + cbn [app] in H. rewrite M in H. cbn [bind] in H. injection H as <-. cbn. lia.
Qed.
Lemma rounds_single : forall E order track Bs i A C, (List.length A <= 1)%nat -> Forall (fun B => (List.length B <= 1)%nat) Bs ->
  intersect_rounds E order track i A Bs = Ret C -> (List.length C <= 1)%nat.
Proof.
  intros E order track. induction Bs as [|B Bs IH]; intros i A C LA F H; cbn [intersect_rounds] in H; [injection H as <-; exact LA|].
  apply Forall_cons_iff in F as [LB F]. destruct (round E track A B) as [A'|] eqn:R; [|discriminate]. cbn [bind] in H. pose proof (round_single _ _ _ _ _ LA LB R) as L'.
  assert (X : (100 <=? List.length A')%nat = false) by (apply Nat.leb_gt; lia). rewrite X, andb_false_r in H. cbn [bind] in H. exact (IH _ _ _ L' F H).
Qed.
Lemma used_region : forall hs zeta g, used_lver hs zeta g -> exists R, e_data g = DLVER R \/ e_data g = DZLVER R.
Proof.
  intros hs zeta g [(_ & R & K)|[(t & k & h & R & _ & _ & _ & Dh & Eg)|(_ & _ & R & K)]]; [eauto| |eauto].
  unfold raise_energy in Eg.
  repeat match type of Eg with context [let! _ := ?x in _] => destruct x; [|discriminate]; cbn [bind] in Eg end.
  unfold derived_lver, derived_e in Eg. destruct (max_year _); [|discriminate]. cbn [bind] in Eg. injection Eg as <-. cbn. eauto.
Qed.
Lemma best_single : forall E order hs d zeta h ps, (forall g R, used_lver hs zeta g -> e_data g = DLVER R \/ e_data g = DZLVER R -> one_polytope R) ->
  (forall g, In g (e_deps h) <-> used_lver hs zeta g) ->
  compute_best_lver E order hs (RPoly (plain d)) zeta = Ret h -> e_data h = DLVER (RDisj (map RPoly ps)) \/ e_data h = DZLVER (RDisj (map RPoly ps)) -> (List.length ps <= 1)%nat.
Proof.
  intros E order hs d zeta h ps O L H D. unfold compute_best_lver in H. destruct (known_lvers hs zeta) as [lvers|] eqn:Kl; [|discriminate]. cbn [bind] in H.
  destruct (rlift domain_lift (RPoly (plain d))) as [dom|] eqn:Ld; [|discriminate]. cbn [bind] in H. destruct (mapM e_region lvers) as [rs|] eqn:Mr; [|discriminate]. cbn [bind] in H.
  destruct (as_disjoint_union E order false (RInter (dom :: rs))) as [R1|] eqn:As; [|discriminate]. cbn [bind] in H.
  assert (HD : e_deps h = lvers /\ (e_data h = DLVER R1 \/ e_data h = DZLVER R1)).
  { destruct zeta; unfold derived_zlver, derived_lver, derived_e in H; destruct (max_year _); try discriminate; cbn [bind] in H; injection H as <-; cbn; auto. }
  destruct HD as [HD1 HD2]. rewrite HD1 in L.
  assert (R1 = RDisj (map RPoly ps)) as -> by (destruct D as [D|D], HD2 as [X|X]; rewrite D in X; try discriminate X; injection X as <-; reflexivity).
  unfold as_disjoint_union in As. destruct (as_disjoint_union_poly E order false (RInter (dom :: rs))) as [ps'|] eqn:Ap; [|discriminate]. cbn [bind] in As. injection As as Ep.
  assert (Lp : List.length ps = List.length ps') by (rewrite <- (map_length RPoly ps), <- Ep, map_length; reflexivity). rewrite Lp. clear Lp Ep.
  cbn [as_disjoint_union_poly] in Ap.
  assert (Xd : exists p, dom = RPoly p) by (cbn [rlift] in Ld; destruct (lift (body (plain d)) domain_lift); [cbn [bind] in Ld; injection Ld as <-; eauto|discriminate]).
  destruct Xd as (pd & ->). cbn [mapM as_disjoint_union_poly bind] in Ap.
  destruct (mapM (as_disjoint_union_poly E order false) rs) as [Bs|] eqn:MB; [|discriminate]. cbn [bind] in Ap.
  refine (rounds_single E order false Bs 0 [pd] ps' _ _ Ap); [cbn; lia|].
  apply Forall_forall. intros B IB. destruct (proj1 (Proof_Piecewise.mapM_In _ _ _ _ _ B MB) IB) as (R & IR & EB). destruct (proj1 (Proof_Piecewise.mapM_In _ _ _ _ _ R Mr) IR) as (g & Ig & Eg).
  assert (OR : one_polytope R). { apply (O g R); [now apply L|]. destruct (used_region hs zeta g (proj1 (L g) Ig)) as (R' & [K|K]); unfold e_region in Eg; rewrite K in Eg; injection Eg as <-; auto. }
  destruct OR as (p & [-> | ->]); cbn in EB; injection EB as <-; cbn; lia.
Qed.
(** No bound for convex estimates: if every region in use is one polytope, the
    region for A*(sigma) is one polytope too, and the list of its children is asked
    for.  Blueprint: the supremum of rho* / tau over it is a bound. *)
Theorem energy_bound_convex_refuted : forall E, ext_ok E -> forall adjacency, adjacency_ok E adjacency -> forall solve, solve_complete solve ->
  forall order, (forall k l, Permutation (order k l) l) -> forall rf_str hs m c a b, usable_set hs -> proper_tau0 m c a b ->
  (forall g R, used_lver hs false g -> e_data g = DLVER R \/ e_data g = DZLVER R -> one_polytope R) ->
  (exists x, Spec_Region.inside (allowed hs false (long_range m c a b)) x) ->
  lver_to_energy_bound E order adjacency solve rf_str hs m c a b = Raise TypeError.
Proof.
  intros E OK adj AD solve SC order OO rf_str hs m c a b US PT O (x & Ix). pose proof PT as (AB & Pa & Pb & _).
  destruct (long_domain E OK m c a b PT) as (d1 & Ed1 & S1 & M1).
  destruct (best_pieces E OK order OO hs false d1 _ US S1 M1) as (h1 & ps1 & E1 & D1 & Y1 & L1 & (F1 & In1 & Out1)).
  pose proof (best_single E order hs d1 false h1 ps1 O L1 E1 D1) as LP. destruct (Out1 x Ix) as (p & Ip & Mp).
  assert (ON : one_nonempty ps1).
  { destruct ps1 as [|p' [|]]; [destruct Ip| |cbn in LP; lia]. destruct Ip as [-> | []]. exists [], p, []. split; [reflexivity|]. split; [eauto|]. intros q y []. }
  assert (POS1 : forall p s t r u z, In p ps1 -> member (body p) [s; t; r; u; z] -> 0 < t /\ 0 <= u).
  { intros p0 s t r u z Ip0 Mx. destruct (In1 _ p0 Ip0 Mx) as (s' & t' & r' & u' & z' & Eq & (Rs & Rt) & _ & _ & Ru & _). injection Eq as <- <- <- <- <-.
    pose proof (line_between m c a b s Rs Pa Pb). split; [Lqa.lra|exact Ru]. }
  unfold lver_to_energy_bound. rewrite Ed1. cbn [bind]. rewrite E1. cbn [bind].
  destruct (energy_functions_ok E OK adj AD solve SC order OO h1 ps1 a b AB D1 F1 POS1) as [(_ & Ef1)|(O1 & _)]; [|contradiction].
  rewrite Ef1. reflexivity.
Qed.
Print Assumptions energy_bound_convex_refuted.

(** ** Examples *)
(** Without hypotheses. *)
Example ex_no_hypotheses : forall E, ext_ok E -> forall adjacency, adjacency_ok E adjacency -> forall solve, solve_complete solve ->
  forall order, (forall k l, Permutation (order k l) l) -> forall rf_str, lver_to_energy_bound E order adjacency solve rf_str [] 0 3 (5#8) (7#8) = Raise TypeError.
Proof.
  intros E OK adj AD solve SC order OO rf_str. apply energy_bound_convex_refuted; auto.
  - split; [intros g r []|]. split; [intros g r []|]. split; [intros g k []|constructor].
  - unfold proper_tau0. repeat split; Lqa.lra.
  - intros g R [([] & _)|[(t & k & h & R' & [] & _)|(_ & [] & _)]].
  - exists [3#4; 4; 1; 1; 1]. exists (1#16). split; [Lqa.lra|]. intros y [Ly Hy]. apply len5 in Ly as (s & t & r & e & z & ->).
    pose proof (Hy 0%nat) as H0. pose proof (Hy 1%nat) as H1. pose proof (Hy 2%nat) as H2. pose proof (Hy 3%nat) as H3. pose proof (Hy 4%nat) as H4. cbn [nth] in *.
    apply Qabs_Qle_condition in H0, H1, H2, H3, H4. exists s, t, r, e, z. split; [reflexivity|]. unfold long_range, LV_DEFAULT_UPPER_BOUND.
    repeat split; try Lqa.lra. intros g R [([] & _)|[(t' & k & h & R' & [] & _)|(_ & [] & _)]].
Qed.

(** One estimate that is not convex: sigma <= 3/4 or rho* <= 3. *)
Lemma two_halves : forall E, ext_ok E -> exists R, disjoint_form R /\ leaves (solid 5) R /\
  forall s t r e z, denote R [s; t; r; e; z] <-> in_range5 s t r e z /\ (s <= 3#4 \/ e <= 3).
Proof.
  intros E OK. destruct (one_half E OK [3#4; -(1); 0; 0; 0; 0] eq_refl) as (R1 & _ & _ & D1 & X1 & S1). { intro Z. inversion Z as [|? ? _ Z1]; subst. inversion Z1; subst; try discriminate. }
  destruct (one_half E OK [3; 0; 0; 0; -(1); 0] eq_refl) as (R2 & _ & _ & D2 & X2 & S2). { intro Z. inversion Z as [|? ? Z1 _]; subst. discriminate. }
  exists (RDisj [R1; R2]). split; [cbn; repeat split; apply disj_only_form; assumption|]. split.
  - cbn. split; [apply S1; exists (5#8), 1, 1, 1, 1|split; [apply S2; exists (5#8), 1, 1, 1, 1|exact Logic.I]]; rewrite rowval6; unfold TAU_UPPER_LIMIT, LV_DEFAULT_UPPER_BOUND; repeat split; Lqa.lra.
  - intros s t r e z. cbn [denote anyP]. rewrite X1, X2, !rowval6. split.
    + intros [[A B]|[[A B]|[]]]; (split; [exact A|]); [left; Lqa.lra|right; Lqa.lra].
    + intros [A [B|B]]; [left|right; left]; (split; [exact A|Lqa.lra]).
Qed.

Section Two.
Context (E : ext) (OK : ext_ok E) (adjacency : mat -> list (list nat)) (AD : adjacency_ok E adjacency)
  (solve : rfun -> rfun -> list R) (SC : solve_complete solve) (order : nat -> list nat -> list nat) (OO : forall k l, Permutation (order k l) l)
  (R : region) (DR : disjoint_form R) (LR : leaves (solid 5) R)
  (XR : forall s t r e z, denote R [s; t; r; e; z] <-> in_range5 s t r e z /\ (s <= 3#4 \/ e <= 3)).
Let h := ENode (s_of "two halves") (DLVER R) ref_trivial [].

Lemma two_usable : usable_set [h].
Proof.
  split; [|split; [|split]].
  - intros g r [<- | []] D. cbn in D. injection D as <-. auto.
  - intros g r [<- | []] D. discriminate.
  - intros g k [<- | []] D. discriminate.
  - repeat constructor.
Qed.
Lemma two_used : forall zeta g, used_lver [h] zeta g <-> g = h.
Proof.
  intros zeta g. split.
  - intros [([<- | []] & _)|[(t & k & g' & R' & [<- | []] & D & _)|(_ & [<- | []] & R' & D)]]; [reflexivity|discriminate|discriminate].
  - intros ->. left. split; [now left|]. exists R. reflexivity.
Qed.
(** The tuples that it allows. *)
Lemma two_allowed : forall zeta (D : Q -> Q -> Prop) s t r e z, (forall s t, D s t -> 5#8 <= s <= 7#8 /\ 2 <= t <= 6) ->
  allowed [h] zeta D [s; t; r; e; z] <-> D s t /\ 0 <= r <= LV_DEFAULT_UPPER_BOUND /\ 0 <= e <= LV_DEFAULT_UPPER_BOUND /\ 0 <= z <= LV_DEFAULT_UPPER_BOUND /\ (s <= 3#4 \/ e <= 3).
Proof.
  intros zeta D s t r e z HD. split.
  - intros (s' & t' & r' & e' & z' & Eq & Ds & A1 & A2 & A3 & A4 & A5 & A6 & K). injection Eq as <- <- <- <- <-.
    specialize (K h R (proj2 (two_used zeta h) eq_refl) (or_introl eq_refl)). apply XR in K as [_ K]. auto 10.
  - intros (Ds & [A1 A2] & [A3 A4] & [A5 A6] & K). exists s, t, r, e, z. repeat (split; [try reflexivity; assumption|]). intros g R' U. apply two_used in U as ->.
    intros [Dg|Dg]; [|discriminate]. cbn in Dg. injection Dg as <-. apply XR. split; [|exact K]. destruct (HD s t Ds) as [[? ?] [? ?]].
    unfold in_range5, in_range, TAU_UPPER_LIMIT in *. repeat split; try assumption; Lqa.lra.
Qed.
Lemma long_is : forall s t, long_range 0 3 (5#8) (7#8) s t <-> 5#8 <= s <= 7#8 /\ 3 <= t <= 6.
Proof. intros s t. unfold long_range. split; intros (A & B); (split; [exact A|]); Lqa.lra. Qed.
Lemma zeta_is : forall s t, zeta_range 0 3 (5#8) (7#8) s t <-> 5#8 <= s <= 7#8 /\ 2 <= t <= 3.
Proof. intros s t. unfold zeta_range. split; intros (A & B); (split; [exact A|]); Lqa.lra. Qed.

Section Over.
Context (zeta : bool) (D : Q -> Q -> Prop) (t1 t2 : Q) (T1 : 2 <= t1) (T12 : t1 + 1 <= t2) (T2 : t2 <= 6)
  (HD : forall s t, D s t <-> 5#8 <= s <= 7#8 /\ t1 <= t <= t2).
Lemma over : forall s t r e z, allowed [h] zeta D [s; t; r; e; z] <->
  5#8 <= s <= 7#8 /\ t1 <= t <= t2 /\ 0 <= r <= LV_DEFAULT_UPPER_BOUND /\ 0 <= e <= LV_DEFAULT_UPPER_BOUND /\ 0 <= z <= LV_DEFAULT_UPPER_BOUND /\ (s <= 3#4 \/ e <= 3).
Proof. intros. rewrite two_allowed by (intros s0 t0 K; apply HD in K as [K1 [K2 K3]]; split; [exact K1|split; Lqa.lra]). rewrite HD. tauto. Qed.
Lemma over_inside : forall s t r e z, 5#8 < s < 7#8 -> t1 < t < t2 -> 0 < r < LV_DEFAULT_UPPER_BOUND -> 0 < e < LV_DEFAULT_UPPER_BOUND -> 0 < z < LV_DEFAULT_UPPER_BOUND -> s < 3#4 \/ e < 3 ->
  Spec_Region.inside (allowed [h] zeta D) [s; t; r; e; z].
Proof.
  intros s t r e z A1 A2 A3 A4 A5 A6.
  assert (G : forall l, Forall (fun q => 0 < q) l -> exists d, 0 < d /\ Forall (fun q => d <= q) l).
  { induction 1 as [|q l Q1 _ (d & D0 & F)]; [exists 1; split; [Lqa.lra|constructor]|]. destruct (qmin_spec q d) as (M1 & M2 & M3). exists (qmin q d). split; [destruct M3 as [-> | ->]; assumption|].
    constructor; [exact M1|]. eapply Forall_impl; [|exact F]. cbv beta. intros. Lqa.lra. }
  assert (G6 : exists d0, 0 < d0 /\ (s + d0 <= 3#4 \/ e + d0 <= 3)).
  { destruct A6 as [A6|A6]; [exists ((3#4) - s)|exists (3 - e)]; (split; [Lqa.lra|]); [left|right]; Lqa.lra. }
  destruct G6 as (d0 & P0 & G6).
  destruct (G [d0; s - (5#8); (7#8) - s; t - t1; t2 - t; r; LV_DEFAULT_UPPER_BOUND - r; e; LV_DEFAULT_UPPER_BOUND - e; z; LV_DEFAULT_UPPER_BOUND - z]) as (d & P & F).
  { repeat (constructor; [Lqa.lra|]). constructor. }
  rewrite !Forall_cons_iff in F. exists d. split; [exact P|]. intros y [Ly Hy]. apply len5 in Ly as (s' & t' & r' & e' & z' & ->).
  pose proof (Hy 0%nat) as H0. pose proof (Hy 1%nat) as H1. pose proof (Hy 2%nat) as H2. pose proof (Hy 3%nat) as H3. pose proof (Hy 4%nat) as H4. cbn [nth] in *.
  apply Qabs_Qle_condition in H0, H1, H2, H3, H4. apply over. repeat split; try Lqa.lra.
Qed.
(** It does not consist of one polytope. *)
Lemma over_split : forall ps, pieces_for (allowed [h] zeta D) ps -> ~ one_nonempty ps.
Proof.
  intros ps (_ & In1 & Out1) (l & p & l' & -> & _ & N).
  assert (K : forall x, Spec_Region.inside (allowed [h] zeta D) x -> member (body p) x).
  { intros x Ix. destruct (Out1 x Ix) as (q & Iq & Mq). apply in_app_iff in Iq as [Iq|[<- | Iq]]; [destruct (N q x); [apply in_or_app; now left|exact Mq]|exact Mq|destruct (N q x); [apply in_or_app; now right|exact Mq]]. }
  assert (A : member (body p) [45#64; t1 + (1#2); 1; 10; 1]) by (apply K, over_inside; unfold LV_DEFAULT_UPPER_BOUND; try Lqa.lra; left; Lqa.lra).
  assert (B : member (body p) [55#64; t1 + (1#2); 1; 1; 1]) by (apply K, over_inside; unfold LV_DEFAULT_UPPER_BOUND; try Lqa.lra; right; Lqa.lra).
  assert (M : member (body p) (mix (1#2) [45#64; t1 + (1#2); 1; 10; 1] [55#64; t1 + (1#2); 1; 1; 1])).
  { destruct A as [LA FA], B as [LB FB]. split; [rewrite mix_length by reflexivity; exact LA|]. rewrite Forall_forall in *. intros [r b] Ir. specialize (FA _ Ir). specialize (FB _ Ir).
    unfold Spec_Polytope.holds in *. cbn [fst snd] in *. pose proof (rowval_mix r (1#2) [45#64; t1 + (1#2); 1; 10; 1] [55#64; t1 + (1#2); 1; 1; 1]). destruct b; Lqa.lra. }
  apply (In1 _ p) in M; [|apply in_or_app; right; now left]. cbn in M. apply over in M as (_ & _ & _ & _ & _ & M). Lqa.lra.
Qed.
Lemma over_regular : regular_at (allowed [h] zeta D) (13#16).
Proof.
  intros x Sx Xs e He. destruct Sx as (s & t & r & u & z & -> & Rest). assert (Al : allowed [h] zeta D [s; t; r; u; z]) by (exists s, t, r, u, z; auto). clear Rest.
  cbn [nth] in Xs. apply over in Al as (_ & B2 & B3 & B4 & B5 & B6).
  assert (U : u <= 3) by Lqa.lra. unfold LV_DEFAULT_UPPER_BOUND in *.
  destruct (qmin_spec (1#2) (e / 10000000)) as (M1 & M2 & M3). set (k := qmin (1#2) (e / 10000000)) in *.
  assert (EE : e / 10000000 * 10000000 == e) by (field). assert (K0 : 0 < k) by (destruct M3 as [-> | ->]; Lqa.lra). assert (KE : 10000000 * k <= e) by Lqa.lra.
  exists [(13#16) + k * (1#32); (1 - k) * t + k * (t1 + (1#2)); (1 - k) * r + k; (1 - k) * u + k; (1 - k) * z + k].
  split; [split; [reflexivity|]|split; [cbn [nth]; Lqa.lra|]].
  - intro i. destruct i as [|[|[|[|[|i]]]]]; cbn [nth]; apply Qabs_Qle_condition; Lqa.nra.
  - apply over_inside; unfold LV_DEFAULT_UPPER_BOUND; Lqa.nra.
Qed.
End Over.

(** At sigma = 13/16 the bound is (3/2) / (1 - sigma) = 8: rho* <= 3 and tau >= 2. *)
Lemma ex_value : forall rf_str, exists l, lver_to_energy_bound E order adjacency solve rf_str [h] 0 3 (5#8) (7#8) = Ret l /\ bounds_tile l (Q2R (5#8)) (Q2R (7#8)) /\
  forall n k d p r deps f, In (ANode n k d p r deps) l -> z_bound d = Some f -> Spec_RationalFunction.inside (z_int d) (Q2R (13#16)) -> rfval f (Q2R (13#16)) = 8%R.
Proof.
  intro rf_str. assert (PT : proper_tau0 0 3 (5#8) (7#8)) by (unfold proper_tau0; repeat split; Lqa.lra).
  destruct (energy_bound_value E OK adjacency AD solve SC order OO rf_str [h] 0 3 (5#8) (7#8) two_usable PT) as (ps1 & ps2 & P1 & P2 & [([K|K] & _)|(_ & l & qs & El & BT & X & VP & V)]).
  { exfalso. revert K. apply (over_split false _ 3 6 ltac:(Lqa.lra) ltac:(Lqa.lra) ltac:(Lqa.lra) long_is ps1 P1). }
  { exfalso. revert K. apply (over_split true _ 2 3 ltac:(Lqa.lra) ltac:(Lqa.lra) ltac:(Lqa.lra) zeta_is ps2 P2). }
  exists l. split; [exact El|]. split; [exact BT|]. intros n k d p r deps f Io Zb Is. destruct (V _ Io) as (f' & i & p' & r' & deps' & Eo & Np & Sv & _). injection Eo as -> -> -> -> -> ->.
  cbn [z_bound z_int] in Zb, Is. injection Zb as <-. specialize (Sv (13#16) Is ltac:(discriminate)). destruct Sv as [SV UB].
  assert (Le : forall q s t e, In q qs -> member q [s; t; e] -> s == 13#16 -> 2 <= t /\ e <= 3).
  { intros q s t e Iq Mq Es. destruct (proj1 (X s t e)) as (p0 & r0 & z0 & Ip & Mp); [eauto|]. apply in_app_iff in Ip as [Ip|Ip].
    - destruct P1 as (_ & In1 & _). specialize (In1 _ p0 Ip Mp). apply (over false _ 3 6 ltac:(Lqa.lra) ltac:(Lqa.lra) long_is) in In1 as (_ & B2 & _ & _ & _ & [B|B]); split; Lqa.lra.
    - destruct P2 as (_ & In1 & _). specialize (In1 _ p0 Ip Mp). apply (over true _ 2 3 ltac:(Lqa.lra) ltac:(Lqa.lra) zeta_is) in In1 as (_ & B2 & _ & _ & _ & [B|B]); split; Lqa.lra. }
  assert (C1 : Q2R (13#16) = (13/16)%R) by (unfold Q2R; cbn; Lra.lra). assert (C2 : Q2R (3#2) = (3/2)%R) by (unfold Q2R; cbn; Lra.lra).
  assert (Ge : (Q2R (3#2) <= rfval f' (Q2R (13#16)) * (1 - Q2R (13#16)))%R).
  { destruct (limit_member qs [13#16; 2; 3] (13#16) (Qeq_refl _)) as (q & Iq & Mq & Rq).
    - intros ep Hep. destruct (over_regular true _ 2 3 ltac:(Lqa.lra) ltac:(Lqa.lra) ltac:(Lqa.lra) zeta_is [13#16; 2; 1; 3; 1]) with (e := ep) as (y & (Ly & Ny) & Sy & Iy); [|reflexivity|exact Hep|].
      { apply (over true _ 2 3 ltac:(Lqa.lra) ltac:(Lqa.lra) zeta_is). unfold LV_DEFAULT_UPPER_BOUND. Lqa.lra. }
      destruct P2 as (_ & _ & Out). destruct (Out y Iy) as (p0 & Ip & Mp). apply len5 in Ly as (y1 & y2 & y3 & y4 & y5 & ->).
      destruct (proj2 (X y1 y2 y4)) as (q & Iq & Mq); [exists p0, y3, y5; split; [apply in_or_app; now right|exact Mp]|].
      exists [y1; y2; y4], q. split; [|auto]. split; [reflexivity|]. intro j. destruct j as [|[|[|j]]]; cbn [nth]; [exact (Ny 0%nat)|exact (Ny 1%nat)|exact (Ny 3%nat)|].
      destruct j; cbn [nth]; apply Qabs_Qle_condition; Lqa.lra.
    - specialize (UB q _ Iq Rq Mq (Qeq_refl _)). cbn [nth] in UB. exact UB. }
  destruct SV as [(q & x & Iq & _ & Mx & Xs & Ev)|(Ev & _)].
  - destruct (VP q Iq) as (_ & Nq & _). assert (Lx : List.length x = 3%nat) by (destruct Mx as [Lx _]; lia). destruct x as [|s [|t [|e [|]]]]; try discriminate. cbn [nth] in *.
    destruct (Le q s t e Iq Mx Xs) as [A B]. assert (Q2R (e / t) <= Q2R (3#2))%R. { apply Qle_Rle. apply Qle_shift_div_r; Lqa.lra. } rewrite C1 in *. Lra.lra.
  - rewrite Ev in Ge. apply Rle_Qle in Ge. unfold Qle in Ge. cbn in Ge. lia.
Qed.

(** The estimate is true in a world, and so is what is derived from it. *)
Lemma ex_sound : forall tr btr, let W := energy_world Spec_BoundMu.trivial_world (fun _ => False) in
  a_admissible W /\ Forall (eholds tr btr (ener (dens W))) [h] /\ closed_lvers [h] /\ natural_lver_powers [h] /\
  regular_at (allowed [h] false (long_range 0 3 (5#8) (7#8))) (13#16) /\ regular_at (allowed [h] true (zeta_range 0 3 (5#8) (7#8))) (13#16).
Proof.
  intros tr btr W. split; [apply energy_world_admissible; tauto|]. split; [|split; [|split; [|split]]].
  - constructor; [|constructor]. intros s t r e z (Rc & _) (s' & t' & r' & e' & z' & Eq & (C1 & C2 & C3 & C4 & C5 & C6 & C7 & C8)). injection Eq as <- <- <- <- <-.
    apply XR. split; [exact Rc|]. unfold conj_lv in C1. destruct C1 as [C1 [C0|C0]]; [left; Lqa.lra|]. destruct (Qlt_le_dec (3#4) s); [right|left]; Lqa.lra.
  - intros g R' [<- | []] Dg. cbn in Dg. injection Dg as <-. intros s t r e z r' e' z1 z2 (Rc & _) Lr Le H1 H2. apply XR. apply XR in H2 as [_ H2]. split; [exact Rc|exact H2].
  - intros t k [<- | []] Dt. discriminate.
  - apply (over_regular false _ 3 6 ltac:(Lqa.lra) ltac:(Lqa.lra) ltac:(Lqa.lra) long_is).
  - apply (over_regular true _ 2 3 ltac:(Lqa.lra) ltac:(Lqa.lra) ltac:(Lqa.lra) zeta_is).
Qed.
End Two.

Example ex_energy_bound : forall rf_str, exists E adjacency solve order hs l, ext_ok E /\ adjacency_ok E adjacency /\ solve_complete solve /\ (forall k l, Permutation (order k l) l) /\
  usable_set hs /\ proper_tau0 0 3 (5#8) (7#8) /\ lver_to_energy_bound E order adjacency solve rf_str hs 0 3 (5#8) (7#8) = Ret l /\
  (exists n k d p r deps f, In (ANode n k d p r deps) l /\ z_bound d = Some f /\ Spec_RationalFunction.inside (z_int d) (Q2R (13#16)) /\ rfval f (Q2R (13#16)) = 8%R).
Proof.
  intro rf_str. destruct (two_halves fm_ext fm_ext_ok) as (R & DR & LR & XR). destruct (solver_exists) as (solve & SC).
  pose proof (all_pairs_adjacency fm_ext fm_ext_ok) as AD. eexists fm_ext, _, solve, (fun _ l => l), [ENode (s_of "two halves") (DLVER R) ref_trivial []].
  destruct (ex_value fm_ext fm_ext_ok _ AD solve SC (fun _ l => l) (fun _ l => Permutation_refl l) R DR LR XR rf_str) as (l & El & BT & V).
  exists l. split; [exact fm_ext_ok|]. split; [exact AD|]. split; [exact SC|]. split; [intros; apply Permutation_refl|]. split; [exact (two_usable R DR LR)|].
  split; [unfold proper_tau0; repeat split; Lqa.lra|]. split; [exact El|].
  destruct (energy_bound_value fm_ext fm_ext_ok _ AD solve SC (fun _ l => l) (fun _ l => Permutation_refl l) rf_str _ 0 3 (5#8) (7#8) (two_usable R DR LR)) as (ps1 & ps2 & _ & _ & [(_ & K)|(_ & l' & qs & El' & _ & _ & _ & Z)]).
  { unfold proper_tau0; repeat split; Lqa.lra. } { rewrite El in K. discriminate. }
  rewrite El in El'. injection El' as <-.
  assert (P : exists n k d p r deps, In (ANode n k d p r deps) l /\ Spec_RationalFunction.inside (z_int d) (Q2R (13#16))).
  { assert (A : (Q2R (5#8) <= Q2R (13#16) < Q2R (7#8))%R) by (unfold Q2R; cbn; Lra.lra). revert BT A. clear. generalize (Q2R (13#16)) (Q2R (7#8)) (Q2R (5#8)). intros x w u. revert u.
    induction l as [|[n k d p r deps|] l IH]; intros u T A; cbn in T; [Lra.lra| |destruct T]. destruct T as (B1 & B2 & B3 & B4 & T).
    destruct (Rlt_le_dec x (hi (z_int d))) as [L|L].
    - do 6 eexists. split; [now left|]. unfold Spec_RationalFunction.inside. rewrite B3, B4, B1. Lra.lra.
    - destruct (IH _ T ltac:(Lra.lra)) as (n' & k' & d' & p' & r' & deps' & I & J). do 6 eexists. split; [right; exact I|exact J]. }
  destruct P as (n & k & d & p & r & deps & I & J). destruct (Z _ I) as (f & i & p0 & r0 & deps0 & Eo & _). injection Eo as -> -> -> -> -> ->.
  do 6 eexists. exists f. split; [exact I|]. split; [reflexivity|]. split; [exact J|]. exact (V _ _ _ _ _ _ f I eq_refl J).
Qed.
