(** C73: a domain without inner points, as for tau0 = 2, adds nothing. *)
From Coq Require Import Reals Qreals Permutation Classical.
From Verif Require Import Base Model_Text Model_Reference Spec_Reference Proof_Reference LinAlg Model_Polytope Spec_Polytope Proof_Polytope Proof_PolytopeLP Prop_Polytope Proof_Piecewise FM_Ext Spec_Edges Proof_Edges Proof_Interval Model_Region Spec_Region
  Proof_Region Proof_RegionDisjoint Proof_RegionSolid Model_ExponentPair Spec_ExponentPair Model_LargeValues Spec_LargeValues Model_AdditiveEnergy Spec_AdditiveEnergy Proof_AdditiveEnergy Prop_AdditiveEnergy
  Model_RationalFunction Spec_RationalFunction Proof_RationalFunction Proof_RFOptimal Prop_RationalFunction Prop_Roots
  Model_ZeroDensity Spec_ZeroDensity Proof_ZeroDensity Prop_ZeroDensity Model_DensityEstimate Spec_DensityEstimate Prop_DensityEstimate Model_DensityDerivation Spec_DensityDerivation Prop_DensityDerivation
  Model_DensityEnergy Spec_DensityEnergy Prop_DensityEnergy Model_EnergyDerivation Spec_EnergyDerivation Proof_EnergyDerivation Prop_EnergyDerivation.
From Coq Require Import Lra.
Open Scope list_scope.
Local Open Scope Q_scope.

Section Flat.
Context (E : ext) (OK : ext_ok E) (order : nat -> list nat -> list nat) (OO : forall k l, Permutation (order k l) l).

Definition void (ps : list lpoly) : Prop := Forall (solid 5) ps /\ forall p x, In p ps -> ~ member (body p) x.

Lemma flat_inters : forall p B, Spec_Polytope.good (body p) -> bounded (body p) -> ncol (pmat (body p)) = 6%nat ->
  (forall x, ~ interior (body p) x) -> Forall (solid 5) B ->
  (forall q, In q B -> exists x, member (body p) x /\ ~ member (body q) x) ->
  exists L, piece_inters E false p B = Ret L /\ void L.
Proof.
  intros p B Gp Bp Np Fp. induction B as [|q B IH]; intros F M; [exists []; split; [reflexivity|]; split; [constructor|intros ? ? []]|].
  apply Forall_cons_iff in F as [Sq F]. pose proof Sq as (Gq & Bq & Nq & Iq).
  destruct IH as (L & EL & SL & VL); [exact F|intros q' I; apply M; now right|].
  destruct (M q (or_introl eq_refl)) as (x0 & M0 & N0). cbn [piece_inters].
  assert (S1 : is_subset_of E (body p) (body q) = false).
  { destruct (is_subset_of E (body p) (body q)) eqn:S; [|reflexivity]. exfalso. apply N0.
    refine (proj1 (is_subset_of_ok E OK (body p) (body q) _ _ _ _ _) S x0 M0); [apply Gp|apply Gq|congruence|eauto|intros; now apply bounded_rows]. }
  rewrite S1, EL. cbn [bind]. destruct (is_subset_of E (body q) (body p)) eqn:S2.
  - exists (q :: L). split; [reflexivity|]. split; [now constructor|].
    intros p' x [<- | I] Mx; [|now apply (VL p' x)]. destruct (Iq (ex_intro _ x Mx)) as (y & Iy).
    apply (Fp y). revert Iy. apply interior_mono. intros w Mw.
    refine (proj1 (is_subset_of_ok E OK (body q) (body p) _ _ _ _ _) S2 w Mw); [apply Gq|apply Gp|congruence|eauto|intros; now apply bounded_rows].
  - unfold intersect. destruct (intersection_ok E OK (body p) [body q] true 6) as (i & Ei & Gi & Ni & Mi).
    { constructor; [auto|constructor; auto]. }
    rewrite Ei. cbn [bind]. destruct (is_empty_open_ok E OK i ltac:(apply Gi) ltac:(apply Gi)) as (b & Eb & Hb).
    unfold is_empty. rewrite Eb. cbn [bind]. destruct b.
    + exists L. split; [reflexivity|]. now split.
    + exfalso. destruct Hb as (y & Iy). apply (Fp y). revert Iy. apply interior_mono. intros w Mw. apply Mi in Mw. now inversion Mw.
Qed.

Lemma flat_meet : forall p rs, Spec_Polytope.good (body p) -> bounded (body p) -> ncol (pmat (body p)) = 6%nat ->
  (forall x, ~ interior (body p) x) -> rs <> [] -> (forall R, In R rs -> disjoint_form R /\ leaves (solid 5) R) ->
  (forall R, In R rs -> exists x, member (body p) x /\ ~ denote R x) ->
  exists ps, as_disjoint_union E order false (RInter (RPoly p :: rs)) = Ret (RDisj (map RPoly ps)) /\ void ps.
Proof.
  intros p rs Gp Bp Np Fp NE DF M.
  assert (X : forall rs, (forall R, In R rs -> disjoint_form R /\ leaves (solid 5) R) -> exists Bs, mapM (as_disjoint_union_poly E order false) rs = Ret Bs /\
     Forall2 (fun R B => Forall (Proof_RegionDisjoint.piece 5 false []) B /\ forall x, within B x -> denote R x) rs Bs).
  { clear - OK OO. induction rs as [|R rs IH]; intros DF; [exists []; split; [reflexivity|constructor]|].
    destruct (DF R (or_introl eq_refl)) as [D L]. destruct (disjoint_poly_ok E OK order OO 5 ltac:(lia) false [] R D) as (B & EB & FB & (H & _ & HS & _) & _).
    { revert L. apply leaves_mono. intros q S. split; [exact S|discriminate]. }
    destruct IH as (Bs & EBs & FBs); [intros R' I; apply DF; now right|]. exists (B :: Bs). cbn [mapM]. rewrite EB. cbn [bind]. rewrite EBs. split; [reflexivity|]. constructor; auto. }
  destruct rs as [|R rs]; [congruence|]. destruct (X (R :: rs) DF) as (Bs & EBs & FBs). inversion FBs as [|? B ? Bs' (FB & DB) FBs']; subst.
  unfold as_disjoint_union. cbn [as_disjoint_union_poly]. cbn [mapM as_disjoint_union_poly bind] in *.
  destruct (as_disjoint_union_poly E order false R) as [B'|]; [|discriminate]. cbn [bind] in EBs |- *.
  destruct (mapM (as_disjoint_union_poly E order false) rs) as [Bs''|]; [|discriminate]. cbn [bind] in EBs |- *. injection EBs as -> ->.
  cbn [intersect_rounds round].
  destruct (flat_inters p B Gp Bp Np Fp) as (L & EL & SL & VL).
  { revert FB. apply Forall_impl. intros q [S _]. exact S. }
  { intros q I. destruct (M R (or_introl eq_refl)) as (x & Mx & Nx). exists x. split; [exact Mx|]. intro Mq. apply Nx, DB. exists q. auto. }
  rewrite EL. cbn [bind]. destruct (merge_inters_ok E OK 5 ltac:(lia) false [] L) as (L' & EL' & FL' & WL' & _).
  { revert SL. apply Forall_impl. intros q S. split; [exact S|discriminate]. }
  rewrite EL'. cbn [bind]. rewrite app_nil_r. change (Nat.eqb (1 mod SIMPLIFY_EVERY) 0 && (100 <=? List.length L')%nat) with false. cbn [bind andb].
  destruct (rounds_ok E OK order OO 5 ltac:(lia) false [] Bs' 1 L' FL') as (C & EC & FC & (H & _ & HC & _) & _).
  { clear - FBs'. induction FBs' as [|R B rs Bs (F & _) _ IH]; constructor; auto. }
  rewrite EC. cbn [bind]. exists C. split; [reflexivity|]. split.
  - revert FC. apply Forall_impl. intros q [S _]. exact S.
  - intros q x I Mx. destruct (HC x) as [W _]; [exists q; auto|]. apply WL' in W as (c & Ic & Mc). exact (VL c x Ic Mc).
Qed.

(** The regions used each leave out a pair of the domain. *)
Lemma flat_best : forall hs zeta d a b t0, usable_set hs -> Spec_Polytope.good d -> ncol (pmat d) = 3%nat -> a < b -> (forall s t, member d [s; t] <-> a <= s <= b /\ t == t0) ->
  (exists g, used_lver hs zeta g) ->
  (forall g R, used_lver hs zeta g -> e_data g = DLVER R \/ e_data g = DZLVER R ->
     exists s r e z, a <= s <= b /\ 0 <= r <= LV_DEFAULT_UPPER_BOUND /\ 0 <= e <= LV_DEFAULT_UPPER_BOUND /\ 0 <= z <= LV_DEFAULT_UPPER_BOUND /\ ~ denote R [s; t0; r; e; z]) ->
  exists h ps, compute_best_lver E order hs (RPoly (plain d)) zeta = Ret h /\
    (e_data h = DLVER (RDisj (map RPoly ps)) \/ e_data h = DZLVER (RDisj (map RPoly ps))) /\ proper_year (r_year (e_ref h)) /\
    (forall g, In g (e_deps h) <-> used_lver hs zeta g) /\ void ps.
Proof.
  intros hs zeta d a b t0 US Gd Nd AB HD (g0 & U0) MS. pose proof US as (U & UZ & NZ & Y).
  destruct (transformed_ok hs U NZ) as (new & En & In_).
  set (lvers := filter is_lver hs ++ new ++ (if zeta then filter is_zlver hs else [])).
  assert (IL : forall g, In g lvers <-> used_lver hs zeta g).
  { intro g. unfold lvers, used_lver. rewrite !in_app_iff, In_, filter_In. unfold is_lver. split.
    - intros [(A & B)|[A|A]]; [left|right; left; exact A|right; right].
      + split; [exact A|]. destruct (e_data g); try discriminate. eauto.
      + destruct zeta; [|destruct A]. apply filter_In in A as [A B]. unfold is_zlver in B. split; [reflexivity|]. split; [exact A|]. destruct (e_data g); try discriminate. eauto.
    - intros [(A & R & B)|[A|(-> & A & R & B)]]; [left|right; left; exact A|right; right].
      + now rewrite B.
      + apply filter_In. unfold is_zlver. now rewrite B. }
  assert (RG : forall g, In g lvers -> exists R, (e_data g = DLVER R \/ e_data g = DZLVER R) /\ e_region g = Ret R /\ disjoint_form R /\ leaves (solid 5) R /\ proper_year (r_year (e_ref g))).
  { rewrite Forall_forall in Y. intros g Hg. apply IL in Hg as [(A & R & B)|[(t & k & h & R & Ht & Dt & Hh & Dh & Ag)|(-> & A & R & B)]].
    - exists R. destruct (U g R A B). unfold e_region. rewrite B. auto 10.
    - destruct (U h R Hh Dh) as [DF S5]. destruct (raise_energy_region k h R Dh (usable_sized hs h R U Hh Dh) (NZ t k Ht Dt)) as (g' & R' & Eg & Dg & _ & Yg & _ & Sg & Fg & _).
      rewrite Ag in Eg. injection Eg as <-. exists R'. unfold e_region. rewrite Dg, Yg. auto 10.
    - exists R. destruct (UZ g R A B). unfold e_region. rewrite B. auto 10. }
  destruct (mapM_ret _ _ e_region lvers) as (rs & Ers); [intros g Hg; destruct (RG g Hg) as (R & _ & ER & _); eauto|].
  assert (IR : forall R, In R rs <-> exists g, In g lvers /\ e_region g = Ret R) by (intro R; apply (mapM_In _ _ _ _ _ R Ers)).
  assert (RR : forall R, In R rs -> disjoint_form R /\ leaves (solid 5) R).
  { intros R HR. apply IR in HR as (g & Hg & Eg). destruct (RG g Hg) as (R' & _ & ER & A & B & _). rewrite Eg in ER. injection ER as <-. auto. }
  assert (NE : rs <> []). { apply IL in U0. destruct (RG g0 U0) as (R & _ & ER & _). assert (I : In R rs) by (apply IR; eauto). destruct rs; [destruct I|discriminate]. }
  destruct (polytope_lift d domain_lift Gd) as (p & Ep & Gp & Mp).
  { rewrite Nd. apply Permutation_refl. }
  { right. do 2 eexists. right. right. now left. }
  assert (M5 : forall s t r e z, member p [s; t; r; e; z] <-> a <= s <= b /\ t == t0 /\ 0 <= r <= LV_DEFAULT_UPPER_BOUND /\ 0 <= e <= LV_DEFAULT_UPPER_BOUND /\ 0 <= z <= LV_DEFAULT_UPPER_BOUND).
  { intros s t u e z. rewrite Mp. split.
    - intros (_ & B & x & D & Lf). pose proof (B 2%nat _ _ eq_refl) as B2. pose proof (B 3%nat _ _ eq_refl) as B3. pose proof (B 4%nat _ _ eq_refl) as B4. cbn [nth] in B2, B3, B4.
      pose proof (Lf 0%nat _ eq_refl) as L0. pose proof (Lf 1%nat _ eq_refl) as L1. cbn [nth] in L0, L1.
      destruct (member2 d x Nd D) as (s' & t' & ->). cbn [nth] in L0, L1. apply HD in D as [[D1 D2] D3]. split; [split; Lqa.lra|]. split; [Lqa.lra|]. tauto.
    - intros (D1 & D2 & B1 & B2 & B3). split; [reflexivity|]. split.
      + intros [|[|[|[|[|i]]]]] lo up H; try discriminate; [| | |destruct i; discriminate]; injection H as <- <-; cbn [nth]; auto.
      + exists [s; t]. split; [apply HD; auto|].
        intros [|[|[|[|[|i]]]]] k H; try discriminate; [| |destruct i; discriminate]; injection H as <-; reflexivity. }
  assert (L5 : forall x, member p x -> List.length x = 5%nat) by (intros x Mx; apply Mp in Mx as [L _]; exact L).
  assert (N6 : ncol (pmat p) = 6%nat).
  { assert (K : member p [a; t0; 0; 0; 0]) by (apply M5; unfold LV_DEFAULT_UPPER_BOUND; repeat split; Lqa.lra). destruct K as [K _]. symmetry. exact K. }
  assert (Bp : bounded p).
  { exists (Qabs a + Qabs b + Qabs t0 + LV_DEFAULT_UPPER_BOUND). intros x i Mx. destruct (len5 x (L5 x Mx)) as (s & t & r & e & z & ->). apply M5 in Mx as (D1 & D2 & B1 & B2 & B3).
    assert (K : forall q, - Qabs q <= q /\ q <= Qabs q) by (intro q; apply Qabs_Qle_condition; apply Qle_refl).
    pose proof (K a). pose proof (K b). pose proof (K t0). pose proof (Qabs_nonneg a). pose proof (Qabs_nonneg b). pose proof (Qabs_nonneg t0). unfold LV_DEFAULT_UPPER_BOUND in *.
    destruct i as [|[|[|[|[|i]]]]]; cbn [nth]; [| | | | |destruct i; cbn [nth]]; apply Qabs_Qle_condition; Lqa.lra. }
  assert (Fp : forall x, ~ interior p x).
  { intros x (Mx & e0 & He & N). destruct (len5 x (L5 x Mx)) as (s & t & r & e & z & ->). apply M5 in Mx as (D1 & D2 & B1 & B2 & B3).
    assert (K : member p [s; t + e0; r; e; z]).
    { apply N. split; [reflexivity|]. intros [|[|[|[|[|i]]]]]; cbn [nth]; [| | | | |destruct i; cbn [nth]]; apply Qabs_Qle_condition; Lqa.lra. }
    apply M5 in K as (_ & K & _). Lqa.lra. }
  destruct (flat_meet (plain p) rs Gp Bp N6 Fp NE RR) as (ps & Eps & V).
  { intros R HR. apply IR in HR as (g & Hg & Eg). destruct (RG g Hg) as (R' & Dg & ER & _). rewrite Eg in ER. injection ER as <-.
    destruct (MS g R (proj1 (IL g) Hg) Dg) as (s & r & e & z & A & B1 & B2 & B3 & N). exists [s; t0; r; e; z]. split; [|exact N]. apply M5. repeat split; tauto || reflexivity. }
  destruct (max_year_ok (map e_ref lvers)) as (y & Ey & _).
  { apply Forall_map. apply Forall_forall. intros g Hg. destruct (RG g Hg) as (R & _ & _ & _ & _ & A). exact A. }
  assert (EC : exists h, compute_best_lver E order hs (RPoly (plain d)) zeta = Ret h /\ e_data h = (if zeta then DZLVER (RDisj (map RPoly ps)) else DLVER (RDisj (map RPoly ps))) /\ e_deps h = lvers).
  { unfold compute_best_lver, known_lvers. rewrite En. cbn [bind]. fold lvers. cbn [rlift plain body]. rewrite Ep. cbn [bind]. rewrite Ers. cbn [bind]. rewrite Eps. cbn [bind].
    destruct zeta; unfold derived_zlver, derived_lver, derived_e; rewrite Ey; cbn [bind]; eexists; (split; [reflexivity|]); auto. }
  destruct EC as (h & Eh & Dh & Hd). exists h, ps. split; [exact Eh|]. split; [destruct zeta; auto|]. split.
  { apply (best_dated E order hs (RPoly (plain d)) zeta h U NZ Y Eh). rewrite Hd. intros g Ig. now apply IL. }
  split; [rewrite Hd; exact IL|exact V].
Qed.
End Flat.
