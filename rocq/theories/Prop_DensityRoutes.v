(** Property C59: zero density estimates from large value energy regions. *)
From Coq Require Import Reals Qreals Permutation Classical.
From Verif Require Import Base Model_Text Model_Reference Spec_Reference Proof_Reference LinAlg Model_Polytope Spec_Polytope Proof_Polytope Proof_PolytopeMaps Prop_Polytope FM_Ext Spec_Edges Proof_Edges Proof_Interval Model_Region Spec_Region
  Proof_Region Proof_RegionSolid Prop_Region Model_ExponentPair Spec_ExponentPair Model_LargeValues Spec_LargeValues Model_AdditiveEnergy Spec_AdditiveEnergy Proof_AdditiveEnergy Prop_AdditiveEnergy
  Model_RationalFunction Spec_RationalFunction Proof_RationalFunction Proof_RFOptimal Prop_RationalFunction Prop_Roots
  Model_ZeroDensity Spec_ZeroDensity Proof_ZeroDensity Prop_ZeroDensity Model_DensityEstimate Spec_DensityEstimate Prop_DensityEstimate Model_LargeValueRegion Model_DensityDerivation Spec_DensityDerivation Prop_DensityDerivation
  Model_EnergyDerivation Spec_EnergyDerivation Proof_EnergyDerivation Prop_EnergyDerivation Model_DensityRoutes Spec_DensityRoutes.
From Coq Require Import Lra.
Open Scope list_scope.
Local Open Scope Q_scope.

Lemma selected_lv : forall s t r e z, selected [0; 1; 2]%nat 0 [s; t; r; e; z] = [s; t; r].
Proof. reflexivity. Qed.

Section Shape.
Variable E : ext.
Hypothesis OK : ext_ok E.
Variable order : nat -> list nat -> list nat.
Hypothesis OO : forall k l, Permutation (order k l) l.

Definition projects3 (p : lpoly) (o : option polytope) : Prop :=
  match o with
  | None => forall x, ~ member (body p) x
  | Some q => solid 3 (plain q) /\ pcanon q = false /\ (exists x, member (body p) x) /\
      forall s t r, member q [s; t; r] <-> exists e z, member (body p) [s; t; r; e; z]
  end.

Lemma project3_one : forall p, solid 5 p -> exists o, rproject E [0; 1; 2]%nat (RPoly p) = Ret (option_map (fun q => RPoly (plain q)) o) /\ projects3 p o.
Proof.
  intros p S. destruct S as (G & B & N & I). destruct (polytope_project E OK (body p) [0; 1; 2]%nat G B) as (o & Eo & Ho).
  exists o. cbn [rproject]. rewrite Eo. cbn [bind]. destruct o as [q|]; cbn [option_map]; (split; [reflexivity|]).
  - destruct Ho as (Gq & Ex & Hq).
    assert (Er : rproject E [0; 1; 2]%nat (RPoly p) = Ret (Some (RPoly (plain q)))) by (cbn [rproject]; rewrite Eo; reflexivity).
    destruct (rproject_solid E OK 5 [0; 1; 2]%nat (RPoly p) (RPoly (plain q)) Logic.I (conj G (conj B (conj N I))) Er) as [Sq _].
    split; [exact Sq|]. split.
    { unfold project, from_V_rep in Eo. destruct (map _ _) as [|v vs] eqn:Em; [discriminate|]. destruct (matrix_of _ false); [|discriminate]. cbn [bind] in Eo. injection Eo as <-. reflexivity. }
    split; [exact Ex|]. intros s t r. rewrite Hq. split.
    + intros (x & Mx & A). assert (L : List.length x = 5%nat) by (destruct Mx as [L _]; lia). apply len5 in L as (s' & t' & r' & e & z & ->). rewrite selected_lv in A. apply F2_3 in A as (A1 & A2 & A3).
      exists e, z. assert (D5 : denote (RDisj [RPoly p]) [s; t; r; e; z]); [|cbn in D5; tauto]. apply (denote5 (RDisj [RPoly p]) s' t' r' e z); try reflexivity; try (symmetry; assumption). cbn. now left.
    + intros (e & z & M). exists [s; t; r; e; z]. split; [exact M|]. rewrite selected_lv. apply F2_3. repeat split; reflexivity.
  - intros x M. apply Ho. now exists x.
Qed.

Lemma project3_pieces : forall ps, Forall (solid 5) ps -> exists os, mapM (rproject E [0; 1; 2]%nat) (map RPoly ps) = Ret (map (option_map (fun q => RPoly (plain q))) os) /\ Forall2 projects3 ps os.
Proof.
  induction 1 as [|p ps S _ (os & Eo & F)]; [exists []; split; [reflexivity|constructor]|].
  destruct (project3_one p S) as (o & E1 & P). exists (o :: os). split; [|constructor; auto]. cbn [map mapM]. rewrite E1. cbn [bind]. rewrite Eo. reflexivity.
Qed.

Lemma one_survivor3 : forall ps os, Forall2 projects3 ps os -> (exists q, somes os = [q]) <-> one_nonempty ps.
Proof.
  intros ps os F. split.
  - intros (q & Eq). revert q Eq. induction F as [|p o ps os P F IH]; intros q Eq; [discriminate|]. destruct o as [q'|]; cbn in Eq.
    + injection Eq as <- Eq. exists [], p, ps. split; [reflexivity|]. split; [apply P|]. intros p' x I. cbn in I. clear IH P.
      induction F as [|p1 o1 ps1 os1 P1 F1 IH1]; [destruct I|]. destruct o1; [discriminate|]. destruct I as [<-|I]; [exact (P1 x)|auto].
    + destruct (IH q Eq) as (l & p0 & l' & -> & Ex & N). exists (p :: l), p0, l'. split; [reflexivity|]. split; [exact Ex|]. intros p' x [<-|I]; [exact (P x)|now apply N].
  - intros (l & p & l' & -> & (x & Mx) & N). apply Forall2_app_inv_l in F as (o1 & o2 & F1 & F2 & ->).
    inversion F2 as [|? o ? os2 P F3]; subst. destruct o as [q|]; [|destruct (P x Mx)].
    assert (K : forall qs os, Forall2 projects3 qs os -> (forall q, In q qs -> In q (l ++ l')) -> somes os = []).
    { clear - N. induction 1 as [|p1 o1 ps1 os1 P1 F1 IH1]; intro H; [reflexivity|]. destruct o1 as [q1|].
      - destruct P1 as (_ & _ & (y & My) & _). destruct (N p1 y); [apply H; now left|exact My].
      - cbn. apply IH1. intros q Iq. apply H. now right. }
    exists q. assert (SA : forall (a b : list (option polytope)), somes (a ++ b) = somes a ++ somes b). { clear. induction a as [|[u|] a IH]; intro b; cbn; [reflexivity| |apply IH]. now rewrite IH. }
    rewrite SA. cbn [somes]. rewrite (K _ _ F1), (K _ _ F3); [reflexivity| |]; intros; apply in_or_app; tauto.
Qed.

(** The projected and simplified region. *)
Lemma density_shape : forall ps, Forall (solid 5) ps ->
  (no_points ps /\ rproject E [0; 1; 2]%nat (RDisj (map RPoly ps)) = Ret None) \/
  (one_nonempty ps /\ exists p, rproject E [0; 1; 2]%nat (RDisj (map RPoly ps)) = Ret (Some (RPoly p))) \/
  (~ no_points ps /\ ~ one_nonempty ps /\ exists r b qs, rproject E [0; 1; 2]%nat (RDisj (map RPoly ps)) = Ret (Some r) /\ simplify E order r = Ret (b, RUnion (map RPoly qs)) /\
      Forall (solid 3) qs /\ Forall (fun q => vertices_in_order E (body q)) qs /\
      forall s t u, (exists q, In q qs /\ member (body q) [s; t; u]) <-> exists p e z, In p ps /\ member (body p) [s; t; u; e; z]).
Proof.
  intros ps F. destruct (project3_pieces ps F) as (os & Eo & Fo). pose proof (one_survivor3 ps os Fo) as ON.
  assert (SP : forall q, In q (somes os) -> exists p, In p ps /\ projects3 p (Some q)).
  { clear - Fo. induction Fo as [|p o ps os P Fo IH]; intros q I; [destruct I|]. destruct o as [q'|]; cbn in I.
    - destruct I as [<-|I]; [exists p; split; [now left|exact P]|]. destruct (IH q I) as (p' & Ip & P'). exists p'. split; [now right|exact P'].
    - destruct (IH q I) as (p' & Ip & P'). exists p'. split; [now right|exact P']. }
  assert (PS : forall p, In p ps -> (exists q, In q (somes os) /\ projects3 p (Some q)) \/ forall x, ~ member (body p) x).
  { clear - Fo. induction Fo as [|p o ps os P Fo IH]; intros p' I; [destruct I|]. destruct I as [<-|I].
    - destruct o as [q|]; [left; exists q; split; [now left|exact P]|now right].
    - destruct (IH p' I) as [(q & Iq & Pq)|N]; [left; exists q; split; [destruct o; [now right|exact Iq]|exact Pq]|now right]. }
  cbn [rproject]. rewrite Eo. cbn [bind]. rewrite somes_map.
  destruct (somes os) as [|q [|q2 qs]] eqn:Es; cbn [map].
  - left. split; [|reflexivity]. intros p x Ip. destruct (PS p Ip) as [(q & [] & _)|N]; exact (N x).
  - right; left. split; [apply ON; eauto|]. eauto.
  - right; right. split; [|split].
    { intro N. destruct (SP q (or_introl eq_refl)) as (p & Ip & _ & _ & (x & Mx) & _). exact (N p x Ip Mx). }
    { intro O. apply ON in O as (q' & O). discriminate. }
    destruct (simplify_union_of_polys_correct E OK order OO 3 (map plain (q :: q2 :: qs)) ltac:(lia)) as (ps' & Ep & Sp & Up & _).
    { apply Forall_forall. intros lp I. apply in_map_iff in I as (q' & <- & I). destruct (SP q' I) as (p & _ & S & _). exact S. }
    eexists _, true, ps'. split; [reflexivity|]. split.
    { cbn [simplify]. assert (LP : forall qs, leaf_polys (map (fun q => RPoly (plain q)) qs) = Some (map plain qs)). { clear. induction qs as [|q qs IH]; [reflexivity|]. cbn [map leaf_polys]. now rewrite IH. }
      pose proof (LP (q :: q2 :: qs)) as LP'. cbn [map] in LP', Ep. rewrite LP', Ep. reflexivity. }
    split; [exact Sp|]. split.
    + eapply simplify_forall; [intros a b u; apply try_union2_order| |exact Ep]. apply Forall_forall.
      intros lp I. apply in_map_iff in I as (q' & <- & I). destruct (SP q' I) as (p & _ & _ & Cn & _). unfold vertices_in_order. cbn [body plain]. rewrite Cn. discriminate.
    + intros s t u. assert (IU : forall l x, (exists q, In q l /\ member (body q) x) <-> denote (RUnion (map RPoly l)) x).
      { clear. intros l x. cbn [denote]. rewrite anyP_iff. split; [intros (q & I & M); exists (RPoly q); split; [now apply in_map|exact M]|intros (r & I & M); apply in_map_iff in I as (q & <- & I); eauto]. }
      rewrite IU, Up, <- IU. split.
      * intros (lp & I & M). apply in_map_iff in I as (q' & <- & I). destruct (SP q' I) as (p & Ip & _ & _ & _ & X). destruct (proj1 (X s t u) M) as (r & z & M'). eauto.
      * intros (p & r & z & Ip & M). destruct (PS p Ip) as [(q' & Iq & _ & _ & _ & X)|N]; [|destruct (N _ M)]. exists (plain q'). split; [now apply in_map|]. apply X. eauto.
Qed.
End Shape.

Section Run.
Context (E : ext) (OK : ext_ok E) (adjacency : mat -> list (list nat)) (AD : adjacency_ok E adjacency)
  (solve : rfun -> rfun -> list R) (SC : solve_complete solve) (order : nat -> list nat -> list nat) (OO : forall k l, Permutation (order k l) l).

Lemma density_functions_ok : forall zeta h ps a b, a < b -> source zeta h ps ->
  (exists e, fails ps e /\ density_functions E order adjacency solve h (real_interval (a, b)) = Raise e) \/
  ((forall e, ~ fails ps e) /\ exists l qs, density_functions E order adjacency solve h (real_interval (a, b)) = Ret (l, deps_of h) /\
     represents l qs a b /\ usable_pieces E qs /\
     forall s t u, (exists q, In q qs /\ member (body q) [s; t; u]) <-> exists p e z, In p (pieces_of ps) /\ member (body p) [s; t; u; e; z]).
Proof.
  intros zeta h ps a b AB S. destruct h as [h|], ps as [ps|]; try contradiction.
  2:{ right. split; [intros e (l & Eq & _); discriminate|]. exists [], []. split; [reflexivity|]. split; [left; auto|]. split; [intros q []|].
      intros s t u. split; [intros (q & [] & _)|intros (p & e & z & [] & _)]. }
  destruct S as (D & F & POS & _). assert (Er : e_region h = Ret (RDisj (map RPoly ps))) by (unfold e_region; rewrite D; destruct zeta; reflexivity).
  unfold density_functions. rewrite Er. cbn [bind].
  destruct (density_shape E OK order OO ps F) as [(N & Ep)|[(O & p & Ep)|(N & O & r & b0 & qs & Ep & Es & S3 & VO & X)]]; rewrite Ep; cbn [bind].
  - left. exists AttributeError. split; [|reflexivity]. exists ps. auto.
  - left. exists TypeError. split; [|reflexivity]. exists ps. auto.
  - right. split; [intros e (l & Eq & [[K _]|[K _]]); injection Eq as <-; contradiction|]. rewrite Es. cbn [bind energy_polytopes].
    rewrite Forall_forall in S3, VO.
    assert (U : usable_pieces E qs).
    { intros q Iq. split; [|now apply VO]. destruct (S3 q Iq) as (G & B & Nc & _). split; [apply G|]. split; [exact Nc|]. split; [exact B|].
      intros x M. assert (L : List.length x = 3%nat) by (destruct M as [L _]; lia). destruct x as [|s [|t [|u [|]]]]; try discriminate. cbn [nth].
      destruct (proj1 (X s t u)) as (p & e & z & Ip & M'); [eauto|]. exact (POS p s t u e z Ip M'). }
    destruct (polys_sup E OK adjacency AD solve SC qs a b U AB) as (l & El & R).
    assert (Ec : mapM child_polytope (map RPoly qs) = Ret (map body qs)). { clear. induction qs as [|q qs IH]; [reflexivity|]. cbn [map mapM child_polytope bind]. rewrite IH. reflexivity. }
    rewrite Ec. cbn [bind]. rewrite El. cbn [bind]. exists l, qs. split; [reflexivity|]. split; [right; exact R|]. split; [exact U|]. exact X.
Qed.
End Run.

(** The result: an AttributeError if a region is empty and a TypeError if exactly
    one of its polytopes is not.  Otherwise estimates that tile [a, b) and depend on
    the dependencies of the two regions, and whose value at every rational sigma is
    the largest rho / tau over all tuples in them. *)
Theorem lver_to_zd_value : forall E, ext_ok E -> forall adjacency, adjacency_ok E adjacency -> forall solve, solve_complete solve ->
  forall order, (forall k l, Permutation (order k l) l) -> forall rf_str h1 h2 ps1 ps2 a b, a < b -> source false h1 ps1 -> source true h2 ps2 ->
  (exists e, fails ps1 e /\ lver_to_zd E order adjacency solve rf_str h1 h2 a b = Raise e) \/
  ((forall e, ~ fails ps1 e) /\ exists e, fails ps2 e /\ lver_to_zd E order adjacency solve rf_str h1 h2 a b = Raise e) \/
  ((forall e, ~ fails ps1 e) /\ (forall e, ~ fails ps2 e) /\ exists l qs, lver_to_zd E order adjacency solve rf_str h1 h2 a b = Ret l /\
     estimates_tile l (Q2R a) (Q2R b) /\
     (forall s t u, (exists q, In q qs /\ member q [s; t; u]) <-> exists p e z, In p (pieces_of ps1 ++ pieces_of ps2) /\ member (body p) [s; t; u; e; z]) /\
     (forall q, In q qs -> value_polytope q) /\
     forall o, In o l -> exists f i p r, o = ZNode (s_of "Derived zero density estimate") (mkZ (rf_str f) i (Some f)) p r (map ZBase (deps_of h1 ++ deps_of h2)) /\
       (forall x, Spec_RationalFunction.inside i x -> ~ has_pole f x) /\
       (forall s, Spec_RationalFunction.inside i (Q2R s) -> sup_value qs s (rfval f (Q2R s)))).
Proof.
  intros E OK adj AD solve SC order OO rf_str h1 h2 ps1 ps2 a b AB S1 S2. unfold lver_to_zd.
  assert (W1 : wrong_type is_lver h1 = false). { destruct h1 as [h1|], ps1; try contradiction; [|reflexivity]. destruct S1 as (D & _). cbn. unfold is_lver. rewrite D. reflexivity. }
  assert (W2 : wrong_type is_zlver h2 = false). { destruct h2 as [h2|], ps2; try contradiction; [|reflexivity]. destruct S2 as (D & _). cbn. unfold is_zlver. rewrite D. reflexivity. }
  rewrite W1, W2.
  destruct (density_functions_ok E OK adj AD solve SC order OO false h1 ps1 a b AB S1) as [(e & Fe & Ee)|(N1 & l1 & qs1 & E1 & R1 & U1 & X1)].
  { left. exists e. split; [exact Fe|]. rewrite Ee. reflexivity. }
  right. rewrite E1. cbn [bind].
  destruct (density_functions_ok E OK adj AD solve SC order OO true h2 ps2 a b AB S2) as [(e & Fe & Ee)|(N2 & l2 & qs2 & E2 & R2 & U2 & X2)].
  { left. split; [exact N1|]. exists e. split; [exact Fe|]. rewrite Ee. reflexivity. }
  right. split; [exact N1|]. split; [exact N2|]. rewrite E2. cbn [bind].
  assert (U : usable_pieces E (qs1 ++ qs2)) by (intros q Iq; apply in_app_iff in Iq as [Iq|Iq]; auto).
  destruct (max_represents E solve SC l1 l2 qs1 qs2 a b AB R1 R2 U) as (l & El & Rl & T). rewrite El. cbn [bind].
  destruct Rl as [[-> _]|(_ & Np & V)]; [cbn in T; apply Qlt_Rlt in AB; Lra.lra|].
  set (deps := map ZBase (deps_of h1 ++ deps_of h2)).
  assert (DY : Forall (fun r => proper_year (r_year r)) (map zn_ref deps)).
  { unfold deps. rewrite map_map. apply Forall_map. apply Forall_app. split; [destruct h1, ps1; try contradiction; [apply S1|constructor]|destruct h2, ps2; try contradiction; [apply S2|constructor]]. }
  destruct (max_year_ok _ DY) as (y & Ey & _).
  set (txt := s_of "Follows from combining large value energy regions and zeta large value energy regions").
  set (node := fun s : piece R => ZNode (s_of "Derived zero density estimate") (mkZ (rf_str (fst (fst s))) (snd (fst s)) (Some (fst (fst s)))) txt (ref_derived y) deps).
  exists (map node l), (map body (qs1 ++ qs2)). split; [|split; [|split; [|split]]].
  - assert (M : forall l0 : list (piece R), mapM (fun s : piece R => derived_zero_density_estimate (from_rational_func rf_str (fst (fst s)) (snd (fst s))) txt deps) l0 = Ret (map node l0)).
    { clear - Ey. induction l0 as [|x l0 IH]; [reflexivity|]. cbn [mapM map]. unfold derived_zero_density_estimate at 1. rewrite Ey. cbn [bind]. rewrite IH. reflexivity. }
    exact (M l).
  - clear - T. revert T. generalize (Q2R a). induction l as [|[[f i] r] l IH]; intros u T; cbn in *; [exact T|]. destruct T as (A & B & C & D & T). auto 6.
  - intros s t u. split.
    + intros (q & Iq & Mq). apply in_map_iff in Iq as (q' & <- & Iq). apply in_app_iff in Iq as [Iq|Iq]; [destruct (proj1 (X1 s t u)) as (p & r & z & Ip & Mp)|destruct (proj1 (X2 s t u)) as (p & r & z & Ip & Mp)]; eauto;
        exists p, r, z; (split; [apply in_or_app; auto|exact Mp]).
    + intros (p & r & z & Ip & Mp). apply in_app_iff in Ip as [Ip|Ip]; [destruct (proj2 (X1 s t u)) as (q & Iq & Mq)|destruct (proj2 (X2 s t u)) as (q & Iq & Mq)]; eauto;
        exists (body q); (split; [apply in_map; apply in_or_app; auto|exact Mq]).
  - intros q Iq. apply in_map_iff in Iq as (q' & <- & Iq). now apply U.
  - intros o Io. apply in_map_iff in Io as ([[f i] r] & <- & Io). exists f, i. do 2 eexists. split; [reflexivity|]. split.
    + intros x Ix. now apply (Np f i r).
    + intros s Is. now apply (V f i r).
Qed.
Print Assumptions lver_to_zd_value.

(** Regions of the other type are rejected. *)
Theorem lver_to_zd_types : forall E adjacency solve order rf_str h1 h2 a b,
  (exists h, h1 = Some h /\ forall R, e_data h <> DLVER R) \/ (exists h, h2 = Some h /\ forall R, e_data h <> DZLVER R) ->
  lver_to_zd E order adjacency solve rf_str h1 h2 a b = Raise ValueError.
Proof.
  intros E adj solve order rf_str h1 h2 a b [(h & -> & N)|(h & -> & N)]; unfold lver_to_zd.
  - cbn [wrong_type]. unfold is_lver. destruct (e_data h) eqn:D; try reflexivity. destruct (N r eq_refl).
  - destruct (wrong_type is_lver h1); [reflexivity|]. cbn [wrong_type]. unfold is_zlver. destruct (e_data h) eqn:D; try reflexivity. destruct (N r eq_refl).
Qed.
Print Assumptions lver_to_zd_types.

(** ** Regions computed from a set of hypotheses *)
Lemma used_dated : forall hs zeta g, usable_set hs -> used_lver hs zeta g -> proper_year (r_year (e_ref g)).
Proof.
  intros hs zeta g (U & _ & NZ & Y) I. rewrite Forall_forall in Y.
  destruct I as [(A & _)|[(t & k & h & R & Ht & Dt & Hh & Dh & Ag)|(_ & A & _)]]; [now apply Y| |now apply Y].
  destruct (raise_energy_region k h R Dh (usable_sized hs h R U Hh Dh) (NZ t k Ht Dt)) as (g' & R' & Eg & _ & _ & Yg & _). rewrite Ag in Eg. injection Eg as <-. rewrite Yg. now apply Y.
Qed.
Lemma best_source : forall E, ext_ok E -> forall order, (forall k l, Permutation (order k l) l) -> forall hs (zeta : bool) d (D : Q -> Q -> Prop), usable_set hs -> solid 2 (plain d) ->
  (forall s t, member d [s; t] <-> D s t) -> (forall s t, D s t -> 0 < t) ->
  exists h ps, compute_best_lver E order hs (RPoly (plain d)) zeta = Ret h /\ source zeta (Some h) (Some ps) /\
    (forall g, In g (e_deps h) <-> used_lver hs zeta g) /\ pieces_for (allowed hs zeta D) ps.
Proof.
  intros E OK order OO hs zeta d D US Sd HD DT. pose proof US as (U & UZ & NZ & Y).
  destruct (best_pieces E OK order OO hs zeta d D US Sd HD) as (h & ps & Eh & Dh & _ & IL & PF). exists h, ps. split; [exact Eh|]. split; [|split; [exact IL|exact PF]].
  destruct (compute_best_lver_exact E OK order OO hs (RPoly (plain d)) zeta U (fun _ => UZ) NZ Y Logic.I Sd) as (h' & lvers & ps' & Eh' & Dh' & _).
  rewrite Eh in Eh'. injection Eh' as <-. destruct PF as (F & PI & _). split; [|split; [exact F|split]].
  - destruct zeta; rewrite Dh' in *; (destruct Dh as [Dh|Dh]; [try discriminate|try discriminate]); exact Dh.
  - intros p s t r u z Ip M. destruct (PI _ p Ip M) as (s' & t' & r' & u' & z' & Eq & Ds & R0 & _). injection Eq as <- <- <- <- <-. split; [now apply (DT s)|exact R0].
  - apply Forall_forall. intros g Ig. apply (used_dated hs zeta); [exact US|now apply IL].
Qed.

(** From the best regions over tau0 <= tau <= 2 tau0 and 2 <= tau <= tau0 that a
    set of true hypotheses implies, the value returned bounds A(sigma) (1 - sigma)
    at every sigma at which the sets of allowed tuples reach on to larger sigma. *)
Theorem lver_to_zd_sound : forall tr btr E, ext_ok E -> forall adjacency, adjacency_ok E adjacency -> forall solve, solve_complete solve ->
  forall order, (forall k l, Permutation (order k l) l) -> forall rf_str W hs m c a b d1 d2 h1 h2 l, d_admissible W -> usable_set hs -> proper_tau0 m c a b ->
  closed_lvers hs -> natural_lver_powers hs -> Forall (eholds tr btr (ener W)) hs ->
  lver_domain E m c a b = Ret d1 -> compute_best_lver E order hs (RPoly (plain d1)) false = Ret h1 ->
  lver_zeta_domain E m c a b = Ret d2 -> compute_best_lver E order hs (RPoly (plain d2)) true = Ret h2 ->
  lver_to_zd E order adjacency solve rf_str (Some h1) (Some h2) a b = Ret l ->
  estimates_tile l (Q2R a) (Q2R b) /\
  forall n d p r deps f s, In (ZNode n d p r deps) l -> z_bound d = Some f -> Spec_RationalFunction.inside (z_int d) (Q2R s) ->
    1#2 < s -> s < 1 -> a <= s <= b -> 6 * (m * s + c) + 2 <= TAU_UPPER_LIMIT ->
    regular_at (allowed hs false (long_range m c a b)) s -> regular_at (allowed hs true (zeta_range m c a b)) s ->
    ~ has_pole f (Q2R s) /\ zd W s (rfval f (Q2R s) / (1 - Q2R s)) /\
    forall g, In g deps <-> exists h, g = ZBase h /\ used_lver hs true h.
Proof.
  intros tr btr E OK adj AD solve SC order OO rf_str W hs m c a b d1 d2 h1 h2 l Dd US PT CL NP T Ed1 E1 Ed2 E2 El.
  pose proof PT as (AB & Pa & Pb & _).
  destruct (long_domain E OK m c a b PT) as (d1' & Ed1' & S1 & M1). rewrite Ed1 in Ed1'. injection Ed1' as <-.
  destruct (zeta_domain E OK m c a b PT) as (d2' & Ed2' & S2 & M2). rewrite Ed2 in Ed2'. injection Ed2' as <-.
  destruct (best_source E OK order OO hs false d1 _ US S1 M1) as (h1' & ps1 & E1' & So1 & L1 & P1).
  { intros s t [Rs Rt]. pose proof (line_between m c a b s Rs Pa Pb). Lqa.lra. }
  rewrite E1 in E1'. injection E1' as <-.
  destruct (best_source E OK order OO hs true d2 _ US S2 M2) as (h2' & ps2 & E2' & So2 & L2 & P2).
  { intros s t [Rs Rt]. Lqa.lra. }
  rewrite E2 in E2'. injection E2' as <-.
  destruct (lver_to_zd_value E OK adj AD solve SC order OO rf_str (Some h1) (Some h2) (Some ps1) (Some ps2) a b AB So1 So2) as [(e & _ & K)|[(_ & e & _ & K)|(_ & _ & l' & qs & El' & BT & X & VP & V)]];
    [rewrite El in K; discriminate|rewrite El in K; discriminate|].
  rewrite El in El'. injection El' as <-. split; [exact BT|]. cbn [pieces_of deps_of] in X, V.
  intros n d p r deps f s Io Zb Is Sa Sb Sab SZ R1 R2. destruct (V _ Io) as (f' & i & p' & r' & Eo & Np & Sv). injection Eo as -> -> -> -> ->.
  cbn [z_bound z_int] in Zb, Is. injection Zb as <-. split; [now apply Np|]. specialize (Sv s Is). destruct Sv as [_ UB]. set (v := rfval f' (Q2R s)) in *.
  split.
  2:{ intro g. rewrite in_map_iff. split.
      - intros (h & <- & Ih). exists h. split; [reflexivity|]. apply in_app_iff in Ih as [Ih|Ih]; [|now apply L2]. apply L1 in Ih as [Ih|[Ih|(K & _)]]; [left; exact Ih|right; left; exact Ih|discriminate].
      - intros (h & -> & Uh). exists h. split; [reflexivity|]. apply in_or_app. right. now apply L2. }
  destruct US as (U & UZ & NZ & Y). pose proof (d_en _ Dd) as De. assert (T0 : 0 < m * s + c) by exact (line_between m c a b s Sab Pa Pb).
  assert (B : forall (zeta : bool) ps D t r e z, pieces_for (allowed hs zeta D) ps -> incl ps (ps1 ++ ps2) -> regular_at (allowed hs zeta D) s -> allowed hs zeta D [s; t; r; e; z] -> 0 < t -> (Q2R r <= v * Q2R t)%R).
  { intros zeta ps D t r0 e z (_ & _ & Pin) Inc Rg Al Tp.
    destruct (limit_member qs [s; t; r0] s (Qeq_refl s)) as (q & Iq & Mq & Rq).
    - intros ep Hep. destruct (Rg [s; t; r0; e; z] Al (Qeq_refl s) ep Hep) as (y & (Ly & Ny) & Sy & Iy). destruct (Pin y Iy) as (p0 & Ip & Mp).
      destruct y as [|y1 [|y2 [|y3 [|y4 [|y5 [|]]]]]]; try discriminate. cbn [nth] in Sy.
      destruct (proj2 (X y1 y2 y3)) as (q & Iq & Mq); [exists p0, y4, y5; split; [now apply Inc|exact Mp]|].
      exists [y1; y2; y3], q. split; [|auto]. split; [reflexivity|]. intro j. destruct j as [|[|[|j]]]; cbn [nth]; [exact (Ny 0%nat)|exact (Ny 1%nat)|exact (Ny 2%nat)|].
      destruct j; cbn [nth]; apply Qabs_Qle_condition; Lqa.lra.
    - specialize (UB q _ Iq Rq Mq (Qeq_refl s)). cbn [nth] in UB. rewrite Q2R_div in UB by (intro; Lqa.lra).
      apply Qlt_Rlt in Tp. rewrite RMicromega.Q2R_0 in Tp. apply (Rmult_le_compat_r (Q2R t)) in UB; [|Lra.lra]. unfold Rdiv in UB. rewrite Rmult_assoc, Rinv_l, Rmult_1_r in UB by Lra.lra. exact UB. }
  assert (Rec : forall t r0 e z, 0 <= t -> t <= 2 * (m * s + c) -> en (ener W) [s; t; r0; e; z] -> recorded s t r0 e z).
  { intros t r0 e z T1 T2 En. destruct (en_sizes _ De _ _ _ _ _ En) as (E3 & E4 & E5 & E6 & E7). pose proof (lv_trivial _ Dd s t r0 ltac:(Lqa.lra) ltac:(Lqa.lra) T1 (en_lv _ De _ _ _ _ _ En)) as E8.
    unfold recorded, in_range5, in_range. unfold TAU_UPPER_LIMIT in *. unfold LV_DEFAULT_UPPER_BOUND. repeat split; Lqa.lra. }
  assert (L : forall t r0, m * s + c <= t -> t <= 2 * (m * s + c) -> 0 <= r0 -> lv (low (ener W)) s t r0 -> (Q2R r0 <= v * Q2R t)%R).
  { intros t r0 T1 T2 R0 LV. destruct (lv_en _ De s t r0 ltac:(Lqa.lra) ltac:(Lqa.lra) ltac:(Lqa.lra) R0 LV) as (e & z & En).
    apply (B false ps1 _ t r0 e z P1); [apply incl_appl, incl_refl|exact R1| |Lqa.lra].
    apply (patterns_allowed tr btr (ener W)); auto. apply Rec; [Lqa.lra|exact T2|exact En]. split; [exact Sab|split; assumption]. }
  assert (V0 : (0 <= v)%R).
  { pose proof (L (m * s + c) 0 ltac:(Lqa.lra) ltac:(Lqa.lra) ltac:(Lqa.lra) (lv_zero _ Dd s (m * s + c) ltac:(Lqa.lra) ltac:(Lqa.lra) ltac:(Lqa.lra))) as K. rewrite RMicromega.Q2R_0 in K.
    apply Qlt_Rlt in T0. rewrite RMicromega.Q2R_0 in T0. destruct (Rle_or_lt 0 v) as [|N]; [assumption|]. pose proof (Rmult_lt_compat_r _ _ _ T0 N). Lra.lra. }
  assert (Neg : forall t r0, 0 <= t -> r0 < 0 -> (Q2R r0 <= v * Q2R t)%R).
  { intros t r0 T1 Ln. apply Qlt_Rlt in Ln. apply Qle_Rle in T1. rewrite RMicromega.Q2R_0 in Ln, T1. pose proof (Rmult_le_pos _ _ V0 T1). Lra.lra. }
  apply (zd_large W Dd s (m * s + c) v Sa Sb T0).
  - intros t r0 T1 T2 LV. destruct (Qlt_le_dec r0 0) as [Ln|Lp]; [apply Neg; [Lqa.lra|exact Ln]|]. now apply L.
  - intros t r0 T1 T2 LV. destruct (Qlt_le_dec r0 0) as [Ln|Lp]; [apply Neg; [Lqa.lra|exact Ln]|].
    destruct (zlv_zen _ De s t r0 ltac:(Lqa.lra) ltac:(Lqa.lra) T1 Lp LV) as (e & z & En).
    apply (B true ps2 _ t r0 e z P2); [apply incl_appr, incl_refl|exact R2| |Lqa.lra].
    apply (patterns_allowed tr btr (ener W)); auto. apply Rec; [Lqa.lra|Lqa.lra|apply (zen_en _ De); auto; Lqa.lra]. split; [exact Sab|split; [exact T1|Lqa.lra]].
Qed.
Print Assumptions lver_to_zd_sound.

(** ** A region that is not convex: rho <= tau, and sigma <= 3/4 or rho* <= 3 *)
Lemma rows5 : forall E, ext_ok E -> forall rows, Forall (fun r => List.length r = 6%nat) rows ->
  exists p, Polytope E (rows ++ default_constraints) false false = Ret p /\
    (forall s t r e z, member p [s; t; r; e; z] <-> in_range5 s t r e z /\ Forall (fun row => 0 <= rowval row [s; t; r; e; z]) rows) /\
    ((exists s t r e z, 1#2 < s /\ s < 1 /\ 0 < t /\ t < TAU_UPPER_LIMIT /\ 0 < r /\ r < LV_DEFAULT_UPPER_BOUND /\
       0 < e /\ e < LV_DEFAULT_UPPER_BOUND /\ 0 < z /\ z < LV_DEFAULT_UPPER_BOUND /\ Forall (fun row => 0 < rowval row [s; t; r; e; z]) rows) -> solid 5 (plain p)).
Proof.
  intros E OK rows L. destruct (Polytope_ok E OK (rows ++ default_constraints) false false 6 ltac:(lia)) as (p & Ep & G & N & _ & M).
  { apply Forall_app. split; [exact L|exact default_len]. }
  { destruct default_nz as (r & I & Z). exists r. split; [apply in_or_app; now right|exact Z]. }
  exists p. split; [exact Ep|].
  assert (M' : forall s t r e z, member p [s; t; r; e; z] <-> in_range5 s t r e z /\ Forall (fun row => 0 <= rowval row [s; t; r; e; z]) rows).
  { intros s t r e z. rewrite M, Forall_app. unfold Spec_Polytope.holds. cbn [fst snd]. rewrite box5_iff. split; [tauto|]. intros [A B]. split; [reflexivity|tauto]. }
  split; [exact M'|]. intros (s & t & r & e & z & A1 & A2 & A3 & A4 & A5 & A6 & A7 & A8 & A9 & A10 & V).
  split; [exact G|]. split; [|split; [exact N|]].
  - exists LV_DEFAULT_UPPER_BOUND. intros x i Mx. pose proof Mx as [Lx _]. destruct (len5 x ltac:(cbn [plain body] in Lx; lia)) as (s0 & t0 & r0 & e0 & z0 & ->). apply M' in Mx as (((B1 & B2 & B3 & B4 & B5 & B6) & B7 & B8 & B9 & B10) & _).
    unfold TAU_UPPER_LIMIT, LV_DEFAULT_UPPER_BOUND in *. destruct i as [|[|[|[|[|i]]]]]; cbn [nth]; try (destruct i; cbn [nth]); apply Qabs_Qle_condition; Lqa.lra.
  - intros _. exists [s; t; r; e; z]. apply (rows_interior 5 (rows ++ default_constraints)); [apply Forall_app; split; [exact L|exact default_len]|exact N|reflexivity| |].
    + apply Forall_app. split; [exact V|]. unfold default_constraints, limits, unit_row. cbn [flat_map combine seq List.length map fst snd Nat.eqb app].
      repeat (constructor; [rewrite rowval6; Lqa.lra|]). constructor.
    + intros y Ly F. apply len5 in Ly as (s0 & t0 & r0 & e0 & z0 & ->). apply Forall_app in F as [F1 F2]. apply box5_iff in F2. now apply M'.
Qed.

Lemma two_wedges : forall E, ext_ok E -> exists R, disjoint_form R /\ leaves (solid 5) R /\
  forall s t r e z, denote R [s; t; r; e; z] <-> in_range5 s t r e z /\ r <= t /\ (s <= 3#4 \/ e <= 3).
Proof.
  intros E OK. destruct (rows5 E OK [[0; 0; 1; -(1); 0; 0]; [3#4; -(1); 0; 0; 0; 0]]) as (p1 & _ & M1 & S1); [repeat constructor|].
  destruct (rows5 E OK [[0; 0; 1; -(1); 0; 0]; [3; 0; 0; 0; -(1); 0]]) as (p2 & _ & M2 & S2); [repeat constructor|].
  exists (RDisj [RPoly (plain p1); RPoly (plain p2)]). split; [cbn; tauto|]. split.
  - cbn [leaves allP]. split; [|split; [|exact Logic.I]]; [apply S1|apply S2]; exists (5#8), 2, 1, 1, 1; rewrite !Forall_cons_iff, !rowval6; unfold TAU_UPPER_LIMIT, LV_DEFAULT_UPPER_BOUND; repeat split; try Lqa.lra; constructor.
  - intros s t r e z. cbn [denote anyP plain body]. rewrite M1, M2, !Forall_cons_iff, !rowval6. split.
    + intros [(A & B & C & _)|[(A & B & C & _)|[]]]; (split; [exact A|]); (split; [Lqa.lra|]); [left; Lqa.lra|right; Lqa.lra].
    + intros (A & B & [C|C]); [left|right; left]; (split; [exact A|]); (split; [Lqa.lra|split; [Lqa.lra|constructor]]).
Qed.

Section Wedges.
Context (E : ext) (OK : ext_ok E) (adjacency : mat -> list (list nat)) (AD : adjacency_ok E adjacency)
  (solve : rfun -> rfun -> list R) (SC : solve_complete solve) (order : nat -> list nat -> list nat) (OO : forall k l, Permutation (order k l) l)
  (R : region) (DR : disjoint_form R) (LR : leaves (solid 5) R)
  (XR : forall s t r e z, denote R [s; t; r; e; z] <-> in_range5 s t r e z /\ r <= t /\ (s <= 3#4 \/ e <= 3)).
Let h := ENode (s_of "two wedges") (DLVER R) ref_trivial [].

Lemma wedges_usable : usable_set [h].
Proof.
  split; [|split; [|split]].
  - intros g r [<- | []] D. cbn in D. injection D as <-. auto.
  - intros g r [<- | []] D. discriminate.
  - intros g k [<- | []] D. discriminate.
  - repeat constructor.
Qed.
Lemma wedges_used : forall zeta g, used_lver [h] zeta g <-> g = h.
Proof.
  intros zeta g. split.
  - intros [([<- | []] & _)|[(t & k & g' & R' & [<- | []] & D & _)|(_ & [<- | []] & R' & D)]]; [reflexivity|discriminate|discriminate].
  - intros ->. left. split; [now left|]. exists R. reflexivity.
Qed.

Section Over.
Context (zeta : bool) (D : Q -> Q -> Prop) (t1 t2 : Q) (T1 : 2 <= t1) (T12 : t1 + 1 <= t2) (T2 : t2 <= 6)
  (HD : forall s t, D s t <-> 5#8 <= s <= 7#8 /\ t1 <= t <= t2).
Lemma wedge_over : forall s t r e z, allowed [h] zeta D [s; t; r; e; z] <->
  5#8 <= s <= 7#8 /\ t1 <= t <= t2 /\ 0 <= r <= t /\ 0 <= e <= LV_DEFAULT_UPPER_BOUND /\ 0 <= z <= LV_DEFAULT_UPPER_BOUND /\ (s <= 3#4 \/ e <= 3).
Proof.
  intros s t r e z. split.
  - intros (s' & t' & r' & e' & z' & Eq & Ds & A1 & A2 & A3 & A4 & A5 & A6 & K). injection Eq as <- <- <- <- <-.
    specialize (K h R (proj2 (wedges_used zeta h) eq_refl) (or_introl eq_refl)). apply XR in K as (_ & K1 & K2). apply HD in Ds as [D1 D2]. auto 10.
  - intros (Ds & Dt & [A1 A2] & [A3 A4] & [A5 A6] & K). exists s, t, r, e, z. split; [reflexivity|]. split; [apply HD; auto|].
    assert (A7 : r <= LV_DEFAULT_UPPER_BOUND) by (unfold LV_DEFAULT_UPPER_BOUND; Lqa.lra). repeat (split; [assumption|]). intros g R' U. apply wedges_used in U as ->.
    intros [Dg|Dg]; [|discriminate]. cbn in Dg. injection Dg as <-. apply XR. split; [|split; [exact A2|exact K]].
    unfold in_range5, in_range, TAU_UPPER_LIMIT in *. repeat split; try assumption; Lqa.lra.
Qed.
Lemma wedge_inside : forall s t r e z, 5#8 < s < 7#8 -> t1 < t < t2 -> 0 < r < t -> 0 < e < LV_DEFAULT_UPPER_BOUND -> 0 < z < LV_DEFAULT_UPPER_BOUND -> s < 3#4 \/ e < 3 ->
  Spec_Region.inside (allowed [h] zeta D) [s; t; r; e; z].
Proof.
  intros s t r e z A1 A2 A3 A4 A5 A6.
  assert (G : forall l, Forall (fun q => 0 < q) l -> exists d, 0 < d /\ Forall (fun q => d <= q) l).
  { induction 1 as [|q l Q1 _ (d & D0 & F)]; [exists 1; split; [Lqa.lra|constructor]|]. destruct (qmin_spec q d) as (M1 & M2 & M3). exists (qmin q d). split; [destruct M3 as [-> | ->]; assumption|].
    constructor; [exact M1|]. eapply Forall_impl; [|exact F]. cbv beta. intros. Lqa.lra. }
  assert (G6 : exists d0, 0 < d0 /\ (s + d0 <= 3#4 \/ e + d0 <= 3)).
  { destruct A6 as [A6|A6]; [exists ((3#4) - s)|exists (3 - e)]; (split; [Lqa.lra|]); [left|right]; Lqa.lra. }
  destruct G6 as (d0 & P0 & G6).
  destruct (G [d0; s - (5#8); (7#8) - s; t - t1; t2 - t; r; (1#2) * (t - r); e; LV_DEFAULT_UPPER_BOUND - e; z; LV_DEFAULT_UPPER_BOUND - z]) as (d & P & F).
  { repeat (constructor; [Lqa.lra|]). constructor. }
  rewrite !Forall_cons_iff in F. exists d. split; [exact P|]. intros y [Ly Hy]. apply len5 in Ly as (s' & t' & r' & e' & z' & ->).
  pose proof (Hy 0%nat) as H0. pose proof (Hy 1%nat) as H1. pose proof (Hy 2%nat) as H2. pose proof (Hy 3%nat) as H3. pose proof (Hy 4%nat) as H4. cbn [nth] in *.
  apply Qabs_Qle_condition in H0, H1, H2, H3, H4. apply wedge_over. repeat split; try Lqa.lra.
Qed.
Lemma wedge_split : forall ps, pieces_for (allowed [h] zeta D) ps -> ~ one_nonempty ps /\ ~ no_points ps.
Proof.
  intros ps (_ & In1 & Out1).
  assert (IA : Spec_Region.inside (allowed [h] zeta D) [45#64; t1 + (1#2); 1; 10; 1]) by (apply wedge_inside; unfold LV_DEFAULT_UPPER_BOUND; try Lqa.lra; left; Lqa.lra).
  assert (IB : Spec_Region.inside (allowed [h] zeta D) [55#64; t1 + (1#2); 1; 1; 1]) by (apply wedge_inside; unfold LV_DEFAULT_UPPER_BOUND; try Lqa.lra; right; Lqa.lra).
  split; [|intro N; destruct (Out1 _ IA) as (q & Iq & Mq); exact (N q _ Iq Mq)].
  intros (l & p & l' & -> & _ & N).
  assert (K : forall x, Spec_Region.inside (allowed [h] zeta D) x -> member (body p) x).
  { intros x Ix. destruct (Out1 x Ix) as (q & Iq & Mq). apply in_app_iff in Iq as [Iq|[<- | Iq]]; [destruct (N q x); [apply in_or_app; now left|exact Mq]|exact Mq|destruct (N q x); [apply in_or_app; now right|exact Mq]]. }
  pose proof (K _ IA) as A. pose proof (K _ IB) as B.
  assert (M : member (body p) (mix (1#2) [45#64; t1 + (1#2); 1; 10; 1] [55#64; t1 + (1#2); 1; 1; 1])).
  { destruct A as [LA FA], B as [LB FB]. split; [rewrite mix_length by reflexivity; exact LA|]. rewrite Forall_forall in *. intros [r b] Ir. specialize (FA _ Ir). specialize (FB _ Ir).
    unfold Spec_Polytope.holds in *. cbn [fst snd] in *. pose proof (rowval_mix r (1#2) [45#64; t1 + (1#2); 1; 10; 1] [55#64; t1 + (1#2); 1; 1; 1]). destruct b; Lqa.lra. }
  apply (In1 _ p) in M; [|apply in_or_app; right; now left]. cbn in M. apply wedge_over in M as (_ & _ & _ & _ & _ & M). Lqa.lra.
Qed.
Lemma wedge_regular : regular_at (allowed [h] zeta D) (13#16).
Proof.
  intros x Sx Xs e He. destruct Sx as (s & t & r & u & z & -> & Rest). assert (Al : allowed [h] zeta D [s; t; r; u; z]) by (exists s, t, r, u, z; auto). clear Rest.
  cbn [nth] in Xs. apply wedge_over in Al as (_ & B2 & B3 & B4 & B5 & B6).
  assert (U : u <= 3) by Lqa.lra. unfold LV_DEFAULT_UPPER_BOUND in *.
  destruct (qmin_spec (1#2) (e / 10000000)) as (M1 & M2 & M3). set (k := qmin (1#2) (e / 10000000)) in *.
  assert (EE : e / 10000000 * 10000000 == e) by (field). assert (K0 : 0 < k) by (destruct M3 as [-> | ->]; Lqa.lra). assert (KE : 10000000 * k <= e) by Lqa.lra.
  exists [(13#16) + k * (1#32); (1 - k) * t + k * (t1 + (1#2)); (1 - k) * r + k; (1 - k) * u + k; (1 - k) * z + k].
  split; [split; [reflexivity|]|split; [cbn [nth]; Lqa.lra|]].
  - intro i. destruct i as [|[|[|[|[|i]]]]]; cbn [nth]; apply Qabs_Qle_condition; Lqa.nra.
  - apply wedge_inside; unfold LV_DEFAULT_UPPER_BOUND; Lqa.nra.
Qed.
End Over.

(** The best regions it implies for tau0 = 3, and the estimates from them. *)
Definition wedge_run (rf_str : rfun -> str) (d1 d2 : polytope) (h1 h2 : enode) (l : list znode) : Prop :=
  lver_domain E 0 3 (5#8) (7#8) = Ret d1 /\ compute_best_lver E order [h] (RPoly (plain d1)) false = Ret h1 /\
  lver_zeta_domain E 0 3 (5#8) (7#8) = Ret d2 /\ compute_best_lver E order [h] (RPoly (plain d2)) true = Ret h2 /\
  lver_to_zd E order adjacency solve rf_str (Some h1) (Some h2) (5#8) (7#8) = Ret l.
Lemma wedge_result : forall rf_str, exists d1 d2 h1 h2 l, wedge_run rf_str d1 d2 h1 h2 l /\ estimates_tile l (Q2R (5#8)) (Q2R (7#8)) /\
  forall o, In o l -> exists f i p r ds, o = ZNode (s_of "Derived zero density estimate") (mkZ (rf_str f) i (Some f)) p r ds /\
    (forall x, Spec_RationalFunction.inside i x -> ~ has_pole f x) /\
    (forall s, Spec_RationalFunction.inside i (Q2R s) -> (rfval f (Q2R s) <= 1)%R) /\
    (Spec_RationalFunction.inside i (Q2R (13#16)) -> rfval f (Q2R (13#16)) = 1%R).
Proof.
  intro rf_str. assert (PT : proper_tau0 0 3 (5#8) (7#8)) by (unfold proper_tau0; repeat split; Lqa.lra).
  destruct (long_domain E OK 0 3 (5#8) (7#8) PT) as (d1 & Ed1 & S1 & M1). destruct (zeta_domain E OK 0 3 (5#8) (7#8) PT) as (d2 & Ed2 & S2 & M2).
  destruct (best_source E OK order OO [h] false d1 _ wedges_usable S1 M1) as (h1 & ps1 & E1 & So1 & _ & P1). { intros s t K. apply long_is in K. Lqa.lra. }
  destruct (best_source E OK order OO [h] true d2 _ wedges_usable S2 M2) as (h2 & ps2 & E2 & So2 & _ & P2). { intros s t K. apply zeta_is in K. Lqa.lra. }
  destruct (wedge_split false _ 3 6 ltac:(Lqa.lra) ltac:(Lqa.lra) ltac:(Lqa.lra) long_is ps1 P1) as [A1 A2].
  destruct (wedge_split true _ 2 3 ltac:(Lqa.lra) ltac:(Lqa.lra) ltac:(Lqa.lra) zeta_is ps2 P2) as [A3 A4].
  destruct (lver_to_zd_value E OK adjacency AD solve SC order OO rf_str (Some h1) (Some h2) (Some ps1) (Some ps2) (5#8) (7#8) ltac:(reflexivity) So1 So2) as [(e & (l & Eq & [[K _]|[K _]]) & _)|[(_ & e & (l & Eq & [[K _]|[K _]]) & _)|(_ & _ & l & qs & El & BT & X & VP & V)]];
    try (injection Eq as <-; contradiction).
  exists d1, d2, h1, h2, l. split; [unfold wedge_run; auto|]. split; [exact BT|]. intros o Io. destruct (V o Io) as (f & i & p & r & -> & Np & Sv). exists f, i, p, r. eexists. split; [reflexivity|]. split; [exact Np|].
  cbn [pieces_of] in X.
  assert (Le : forall q s t u, In q qs -> member q [s; t; u] -> 0 < t /\ u <= t).
  { intros q s t u Iq Mq. destruct (proj1 (X s t u)) as (p0 & e0 & z0 & Ip & Mp); [eauto|]. apply in_app_iff in Ip as [Ip|Ip].
    - destruct P1 as (_ & In1 & _). specialize (In1 _ p0 Ip Mp). apply (wedge_over false _ 3 6 ltac:(Lqa.lra) long_is) in In1 as (_ & B2 & B3 & _). split; Lqa.lra.
    - destruct P2 as (_ & In1 & _). specialize (In1 _ p0 Ip Mp). apply (wedge_over true _ 2 3 ltac:(Lqa.lra) zeta_is) in In1 as (_ & B2 & B3 & _). split; Lqa.lra. }
  assert (C1 : Q2R 1 = 1%R) by (unfold Q2R; cbn; Lra.lra).
  assert (UP : forall s, Spec_RationalFunction.inside i (Q2R s) -> (rfval f (Q2R s) <= 1)%R).
  { intros s Is. destruct (Sv s Is) as [SV _]. destruct SV as [(q & x & Iq & _ & Mx & Xs & ->)|(-> & _)].
    - destruct (VP q Iq) as (_ & Nq & _). assert (Lx : List.length x = 3%nat) by (destruct Mx as [Lx _]; lia). destruct x as [|s' [|t [|u [|]]]]; try discriminate. cbn [nth] in *.
      destruct (Le q s' t u Iq Mx) as [A B]. rewrite <- C1. apply Qle_Rle. apply Qle_shift_div_r; Lqa.lra.
    - rewrite <- C1. apply Qle_Rle. discriminate. }
  split; [exact UP|]. intro Is. apply Rle_antisym; [now apply UP|]. destruct (Sv _ Is) as [_ UB].
  destruct (limit_member qs [13#16; 3; 3] (13#16) (Qeq_refl _)) as (q & Iq & Mq & Rq).
  - intros ep Hep. destruct (wedge_regular true _ 2 3 ltac:(Lqa.lra) ltac:(Lqa.lra) ltac:(Lqa.lra) zeta_is [13#16; 3; 3; 3; 1]) with (e := ep) as (y & (Ly & Ny) & Sy & Iy); [|reflexivity|exact Hep|].
    { apply (wedge_over true _ 2 3 ltac:(Lqa.lra) zeta_is). unfold LV_DEFAULT_UPPER_BOUND. Lqa.lra. }
    destruct P2 as (_ & _ & Out). destruct (Out y Iy) as (p0 & Ip & Mp). apply len5 in Ly as (y1 & y2 & y3 & y4 & y5 & ->).
    destruct (proj2 (X y1 y2 y3)) as (q & Iq & Mq); [exists p0, y4, y5; split; [apply in_or_app; now right|exact Mp]|].
    exists [y1; y2; y3], q. split; [|auto]. split; [reflexivity|]. intro j. destruct j as [|[|[|j]]]; cbn [nth]; [exact (Ny 0%nat)|exact (Ny 1%nat)|exact (Ny 2%nat)|].
    destruct j; cbn [nth]; apply Qabs_Qle_condition; Lqa.lra.
  - specialize (UB q _ Iq Rq Mq (Qeq_refl _)). cbn [nth] in UB. rewrite <- C1. replace (Q2R 1) with (Q2R (3 / 3)) by (apply Qeq_eqR; reflexivity). exact UB.
Qed.

(** It is true in a world. *)
Lemma wedge_true : forall tr btr, let W := full_world Spec_BoundMu.trivial_world in
  d_admissible W /\ Forall (eholds tr btr (ener W)) [h] /\ closed_lvers [h] /\ natural_lver_powers [h] /\
  regular_at (allowed [h] false (long_range 0 3 (5#8) (7#8))) (13#16) /\ regular_at (allowed [h] true (zeta_range 0 3 (5#8) (7#8))) (13#16).
Proof.
  intros tr btr W. split; [exact full_world_admissible|]. split; [|split; [|split; [|split]]].
  - constructor; [|constructor]. intros s t r e z (Rc & _) (s' & t' & r' & e' & z' & Eq & ((C1 & C2) & C3 & C4 & C5 & C6 & C7 & C8)). injection Eq as <- <- <- <- <-.
    apply XR. split; [exact Rc|]. split; [exact C1|]. destruct (Qlt_le_dec (3#4) s); [right|left; Lqa.lra]. destruct C2; Lqa.lra.
  - intros g R' [<- | []] Dg. cbn in Dg. injection Dg as <-. intros s t r e z r' e' z1 z2 (Rc & _) Lr Le H1 H2. apply XR. apply XR in H1 as (_ & H1 & _). apply XR in H2 as (_ & _ & H2). split; [exact Rc|]. split; [exact H1|exact H2].
  - intros t k [<- | []] Dt. discriminate.
  - apply (wedge_regular false _ 3 6 ltac:(Lqa.lra) ltac:(Lqa.lra) ltac:(Lqa.lra) long_is).
  - apply (wedge_regular true _ 2 3 ltac:(Lqa.lra) ltac:(Lqa.lra) ltac:(Lqa.lra) zeta_is).
Qed.
End Wedges.

Lemma tile_at : forall l u v x, estimates_tile l u v -> (u <= x < v)%R -> exists n d p r ds, In (ZNode n d p r ds) l /\ Spec_RationalFunction.inside (z_int d) x.
Proof.
  induction l as [|[n d p r ds|] l IH]; intros u v x T A; cbn in T; [Lra.lra| |destruct T]. destruct T as (B1 & B2 & B3 & B4 & T).
  destruct (Rlt_le_dec x (hi (z_int d))) as [L|L].
  - do 5 eexists. split; [now left|]. unfold Spec_RationalFunction.inside. rewrite B3, B4, B1. Lra.lra.
  - destruct (IH _ _ x T ltac:(Lra.lra)) as (n' & d' & p' & r' & ds' & I & J). do 5 eexists. split; [right; exact I|exact J].
Qed.

Example ex_lver_to_zd : forall rf_str, exists E adjacency solve order hs d1 d2 h1 h2 l, ext_ok E /\ adjacency_ok E adjacency /\ solve_complete solve /\ (forall k l, Permutation (order k l) l) /\
  usable_set hs /\ proper_tau0 0 3 (5#8) (7#8) /\
  lver_domain E 0 3 (5#8) (7#8) = Ret d1 /\ compute_best_lver E order hs (RPoly (plain d1)) false = Ret h1 /\
  lver_zeta_domain E 0 3 (5#8) (7#8) = Ret d2 /\ compute_best_lver E order hs (RPoly (plain d2)) true = Ret h2 /\
  lver_to_zd E order adjacency solve rf_str (Some h1) (Some h2) (5#8) (7#8) = Ret l /\
  (exists n d p r ds f, In (ZNode n d p r ds) l /\ z_bound d = Some f /\ Spec_RationalFunction.inside (z_int d) (Q2R (13#16)) /\ rfval f (Q2R (13#16)) = 1%R) /\
  forall tr btr, let W := full_world Spec_BoundMu.trivial_world in d_admissible W /\ Forall (eholds tr btr (ener W)) hs /\ closed_lvers hs /\ natural_lver_powers hs /\
    regular_at (allowed hs false (long_range 0 3 (5#8) (7#8))) (13#16) /\ regular_at (allowed hs true (zeta_range 0 3 (5#8) (7#8))) (13#16).
Proof.
  intro rf_str. destruct (two_wedges fm_ext fm_ext_ok) as (R & DR & LR & XR). destruct (solver_exists) as (solve & SC).
  pose proof (all_pairs_adjacency fm_ext fm_ext_ok) as AD. eexists fm_ext, _, solve, (fun _ l => l), [ENode (s_of "two wedges") (DLVER R) ref_trivial []].
  destruct (wedge_result fm_ext fm_ext_ok _ AD solve SC (fun _ l => l) (fun _ l => Permutation_refl l) R DR LR XR rf_str) as (d1 & d2 & h1 & h2 & l & (K1 & K2 & K3 & K4 & K5) & BT & V).
  exists d1, d2, h1, h2, l. split; [exact fm_ext_ok|]. split; [exact AD|]. split; [exact SC|]. split; [intros; apply Permutation_refl|]. split; [exact (wedges_usable R DR LR)|].
  split; [unfold proper_tau0; repeat split; Lqa.lra|]. split; [exact K1|]. split; [exact K2|]. split; [exact K3|]. split; [exact K4|]. split; [exact K5|].
  split; [|intros tr btr; exact (wedge_true R XR tr btr)].
  destruct (tile_at l _ _ (Q2R (13#16)) BT) as (n & d & p & r & ds & I & J). { unfold Q2R; cbn; Lra.lra. }
  destruct (V _ I) as (f & i & p0 & r0 & ds0 & Eo & _ & _ & Ev). injection Eo as -> -> -> -> ->. do 5 eexists. exists f. split; [exact I|]. split; [reflexivity|]. split; [exact J|]. exact (Ev J).
Qed.

(** The estimate says A(sigma) <= f(sigma) where f bounds A(sigma) (1 - sigma)
    (zero_density_estimate.py 516-528; line 518 prints "A(x)(1-x) \leq"): from a
    true hypothesis a false estimate. *)
Theorem lver_to_zd_unscaled_refuted : forall rf_str parse tr btr, exists E adjacency solve order hs W d1 d2 h1 h2 l,
  ext_ok E /\ adjacency_ok E adjacency /\ solve_complete solve /\ (forall k l, Permutation (order k l) l) /\
  usable_set hs /\ d_admissible W /\ Forall (eholds tr btr (ener W)) hs /\ closed_lvers hs /\ natural_lver_powers hs /\
  lver_domain E 0 3 (5#8) (7#8) = Ret d1 /\ compute_best_lver E order hs (RPoly (plain d1)) false = Ret h1 /\
  lver_zeta_domain E 0 3 (5#8) (7#8) = Ret d2 /\ compute_best_lver E order hs (RPoly (plain d2)) true = Ret h2 /\
  lver_to_zd E order adjacency solve rf_str (Some h1) (Some h2) (5#8) (7#8) = Ret l /\ exists o, In o l /\ ~ zholds parse tr btr W o.
Proof.
  intros rf_str parse tr btr. destruct (two_wedges fm_ext fm_ext_ok) as (R & DR & LR & XR). destruct (solver_exists) as (solve & SC).
  pose proof (all_pairs_adjacency fm_ext fm_ext_ok) as AD. eexists fm_ext, _, solve, (fun _ l => l), [ENode (s_of "two wedges") (DLVER R) ref_trivial []], (full_world Spec_BoundMu.trivial_world).
  destruct (wedge_result fm_ext fm_ext_ok _ AD solve SC (fun _ l => l) (fun _ l => Permutation_refl l) R DR LR XR rf_str) as (d1 & d2 & h1 & h2 & l & (K1 & K2 & K3 & K4 & K5) & BT & V).
  destruct (wedge_true R XR tr btr) as (T1 & T2 & T3 & T4 & _).
  exists d1, d2, h1, h2, l. split; [exact fm_ext_ok|]. split; [exact AD|]. split; [exact SC|]. split; [intros; apply Permutation_refl|]. split; [exact (wedges_usable R DR LR)|].
  split; [exact T1|]. split; [exact T2|]. split; [exact T3|]. split; [exact T4|]. split; [exact K1|]. split; [exact K2|]. split; [exact K3|]. split; [exact K4|]. split; [exact K5|].
  destruct (tile_at l _ _ (Q2R (5#8)) BT) as (n & d & p & r & ds & I & J). { unfold Q2R; cbn; Lra.lra. }
  destruct (V _ I) as (f & i & p0 & r0 & ds0 & Eo & Np & Up & _). injection Eo as -> -> -> -> ->. eexists. split; [exact I|]. intro H.
  specialize (H f (or_introl eq_refl)). cbn [z_int] in *. specialize (H (5#8) ltac:(reflexivity) ltac:(reflexivity) J (Np _ J)). cbn in H. destruct H as [_ H].
  specialize (H ltac:(discriminate)). specialize (Up _ J). assert (C : Q2R (5#8) = (5/8)%R) by (unfold Q2R; cbn; Lra.lra). rewrite C in *. Lra.nra.
Qed.
Print Assumptions lver_to_zd_unscaled_refuted.

(** With both regions left out the bound -10^6, without dependencies
    (zero_density_estimate.py 491-516): A(sigma) would be negative. *)
Theorem lver_to_zd_nothing_refuted : forall E adjacency solve order rf_str parse tr btr, exists l,
  lver_to_zd E order adjacency solve rf_str None None (5#8) (7#8) = Ret l /\ exists o, In o l /\ zn_deps o = [] /\ ~ zsupported parse tr btr o.
Proof.
  intros E adj solve order rf_str parse tr btr. unfold lver_to_zd. cbn [wrong_type density_functions bind app map]. rewrite rational_max_no_functions. cbn [bind mapM fst snd].
  eexists. split; [reflexivity|]. eexists. split; [now left|]. split; [reflexivity|]. intro H.
  specialize (H (full_world Spec_BoundMu.trivial_world) full_world_admissible ltac:(constructor)).
  specialize (H _ (or_introl eq_refl) (3#4) ltac:(reflexivity) ltac:(reflexivity)). cbn in H.
  destruct H as [H _]; [unfold Spec_RationalFunction.inside; unfold Q2R; cbn; Lra.lra|unfold has_pole, RationalFunction, expr_of_coeffs; cbn; unfold Q2R; cbn; Lra.lra|].
  revert H. rewrite (fdef_val (inject_Z (-1000000)) (Q2R (3#4))). unfold Q2R. cbn. Lra.lra.
Qed.
Print Assumptions lver_to_zd_nothing_refuted.

(** A region that is one polytope is rejected with a TypeError
    (zero_density_estimate.py 498-501): the projection is a single polytope, over
    which the comprehension cannot iterate. *)
Theorem lver_to_zd_convex_refuted : forall E, ext_ok E -> exists p, solid 5 p /\ (exists x, member (body p) x) /\
  (forall s t r u z, member (body p) [s; t; r; u; z] -> 0 < t /\ 0 <= r) /\
  forall adjacency, adjacency_ok E adjacency -> forall solve, solve_complete solve -> forall order, (forall k l, Permutation (order k l) l) -> forall rf_str,
    lver_to_zd E order adjacency solve rf_str (Some (ENode (s_of "one polytope") (DLVER (RDisj [RPoly p])) ref_trivial [])) None (5#8) (7#8) = Raise TypeError.
Proof.
  intros E OK. destruct (rows5 E OK [[-(1); 0; 1; 0; 0; 0]]) as (p & _ & M & S); [repeat constructor|]. exists (plain p).
  assert (Sp : solid 5 (plain p)). { apply S. exists (5#8), 2, 1, 1, 1. rewrite !Forall_cons_iff, !rowval6; unfold TAU_UPPER_LIMIT, LV_DEFAULT_UPPER_BOUND; repeat split; try Lqa.lra; constructor. }
  assert (Mx : member p [5#8; 2; 1; 1; 1]). { apply M. rewrite !Forall_cons_iff, !rowval6; unfold in_range5, in_range, TAU_UPPER_LIMIT, LV_DEFAULT_UPPER_BOUND; repeat split; try Lqa.lra; constructor. }
  assert (POS : forall s t r u z, member p [s; t; r; u; z] -> 0 < t /\ 0 <= r). { intros s t r u z K. apply M in K as (((_ & _ & _ & _ & K1 & _) & _) & K2). rewrite !Forall_cons_iff, !rowval6 in K2. split; [Lqa.lra|exact K1]. }
  split; [exact Sp|]. split; [eexists; exact Mx|]. split; [exact POS|]. intros adj AD solve SC order OO rf_str.
  assert (O : one_nonempty [plain p]). { exists [], (plain p), []. split; [reflexivity|]. split; [eexists; exact Mx|]. intros q x []. }
  destruct (lver_to_zd_value E OK adj AD solve SC order OO rf_str (Some (ENode (s_of "one polytope") (DLVER (RDisj [RPoly (plain p)])) ref_trivial [])) None (Some [plain p]) None (5#8) (7#8) ltac:(reflexivity)) as [(e & F & K)|[(N & _)|(N & _)]].
  - split; [reflexivity|]. split; [repeat constructor; apply Sp|]. split; [|constructor]. intros q s t r u z [<- | []]. apply POS.
  - exact Logic.I.
  - rewrite K. destruct F as (l & Eq & [[F _]|[_ ->]]); [|reflexivity]. injection Eq as <-. destruct (F (plain p) _ (or_introl eq_refl) Mx).
  - destruct (N TypeError). exists [plain p]. auto.
  - destruct (N TypeError). exists [plain p]. auto.
Qed.
Print Assumptions lver_to_zd_convex_refuted.

(** ** The second route from large value estimates *)
Lemma rows3 : forall E, ext_ok E -> forall rows, Forall (fun r => List.length r = 4%nat) rows -> (exists r, In r rows /\ ~ zero_row r) ->
  exists d, Polytope E rows false false = Ret d /\ forall x, member d x <-> exists s t u, x = [s; t; u] /\ Forall (fun r => 0 <= rowval r [s; t; u]) rows.
Proof.
  intros E OK rows L Z. destruct (Polytope_ok E OK rows false false 4 ltac:(lia) L Z) as (d & Ed & _ & _ & _ & M).
  exists d. split; [exact Ed|]. intro x. rewrite M. unfold Spec_Polytope.holds. cbn [fst snd]. split.
  - intros [Lx F]. destruct x as [|s [|t [|u [|]]]]; try discriminate. exists s, t, u. split; [reflexivity|exact F].
  - intros (s & t & u & -> & F). split; [reflexivity|exact F].
Qed.
Lemma rowval4 : forall c0 c1 c2 c3 s t u, rowval [c0; c1; c2; c3] [s; t; u] == c0 + c1 * s + c2 * t + c3 * u.
Proof. intros. unfold rowval. cbn. ring. Qed.

(** The first range is 2/3 tau0 <= tau <= tau0. *)
Theorem zd2_domain_exact : forall E, ext_ok E -> forall m c a b, exists d, zd2_domain E m c a b = Ret d /\
  forall x, member d x <-> exists s t u, x = [s; t; u] /\ a <= s <= b /\ (2#3) * (m * s + c) <= t <= m * s + c /\ 0 <= u <= LV_DEFAULT_UPPER_BOUND.
Proof.
  intros E OK m c a b. unfold zd2_domain.
  match goal with |- context [Polytope E ?rs] => destruct (rows3 E OK rs) as (d & Ed & M) end.
  { repeat constructor. }
  { exists [0; 0; 0; 1]. split; [do 4 right; now left|]. intro Z. inversion Z as [|? ? _ Z1]; subst. inversion Z1 as [|? ? _ Z2]; subst. inversion Z2 as [|? ? _ Z3]; subst. inversion Z3; subst. Lqa.lra. }
  exists d. split; [exact Ed|]. intro x. rewrite M. split; intros (s & t & u & -> & F); exists s, t, u; (split; [reflexivity|]); rewrite !Forall_cons_iff, !rowval4 in *.
  - destruct F as (A1 & A2 & A3 & A4 & A5 & A6 & _). repeat split; Lqa.lra.
  - destruct F as ((A1 & A2) & (A3 & A4) & A5 & A6). repeat split; try Lqa.lra. constructor.
Qed.
Print Assumptions zd2_domain_exact.

(** The second range should be 2 <= tau <= 4/3 tau0.  The coefficient of tau in the
    upper limit has the wrong sign (zero_density_estimate.py 444, comment "tau <=
    4/3 * tau0"): where tau0 is positive every tau >= 2 is in the range, and there is
    no limit on sigma and rho. *)
Theorem zd2_zeta_range_refuted : forall E, ext_ok E -> forall m c, exists d, zd2_zeta_domain E m c = Ret d /\
  forall s t u, 0 < m * s + c -> (member d [s; t; u] <-> 2 <= t).
Proof.
  intros E OK m c. unfold zd2_zeta_domain.
  match goal with |- context [Polytope E ?rs] => destruct (rows3 E OK rs) as (d & Ed & M) end.
  { repeat constructor. }
  { exists [-(2); 0; 1; 0]. split; [now left|]. intro Z. inversion Z; subst. Lqa.lra. }
  exists d. split; [exact Ed|]. intros s t u P. rewrite M. split.
  - intros (s' & t' & u' & Eq & F). injection Eq as <- <- <-. rewrite !Forall_cons_iff, !rowval4 in F. Lqa.lra.
  - intro T. exists s, t, u. split; [reflexivity|]. rewrite !Forall_cons_iff, !rowval4. repeat split; try Lqa.lra. constructor.
Qed.
Print Assumptions zd2_zeta_range_refuted.

(** What is returned for the regions over these ranges: as for the first route. *)
Theorem lv_zlv_to_zd2_value : forall E, ext_ok E -> forall adjacency, adjacency_ok E adjacency -> forall solve, solve_complete solve ->
  forall order rf_str iteration hs m c a b lvr hs' zlvr ps1 ps2, a < b ->
  zd2_regions E order iteration hs m c a b lvr hs' zlvr -> dated lvr -> dated zlvr ->
  region_pieces lvr ps1 -> usable_pieces E ps1 -> region_pieces zlvr ps2 -> usable_pieces E ps2 ->
  (forall l1 l2, region_sup E adjacency solve lvr (real_interval (a, b)) = Ret l1 -> region_sup E adjacency solve zlvr (real_interval (a, b)) = Ret l2 ->
     plain_over (l1 ++ l2) a b) ->
  exists l, lv_zlv_to_zd2 E order adjacency solve rf_str iteration hs m c a b = Ret (l, hs') /\ estimates_tile l (Q2R a) (Q2R b) /\
    forall o, In o l -> exists f i p r, o = ZNode (s_of "Derived zero density estimate") (mkZ (rf_str f) i (Some f)) p r [ZBase (EBase lvr); ZBase (EBase zlvr)] /\
      (forall x, Spec_RationalFunction.inside i x -> ~ has_pole f x) /\
      forall s, Spec_RationalFunction.inside i (Q2R s) ->
        exists v1 v2, sup_value (map body ps1) s v1 /\ sup_value (map body ps2) s v2 /\ rfval f (Q2R s) = Rmax v1 v2.
Proof.
  intros E OK adj AD solve SC order rf_str iter hs m c a b lvr hs' zlvr ps1 ps2 AB ((d1 & Ed1 & E1) & Ea & (d2 & Ed2 & E2)) Y1 Y2 P1 U1 P2 U2 PO.
  destruct (region_sup_ok E OK adj AD solve SC lvr ps1 a b P1 U1 AB) as (l1 & El1 & T1 & N1 & V1).
  destruct (region_sup_ok E OK adj AD solve SC zlvr ps2 a b P2 U2 AB) as (l2 & El2 & T2 & N2 & V2).
  specialize (PO l1 l2 El1 El2).
  assert (SV : forall ps s v, usable_pieces E ps -> sup_value (map body ps) s v -> (Q2R (inject_Z (-1000000)) <= v)%R).
  { intros ps s v U [[(p & x & Ip & _ & Mx & _ & ->)|[-> _]] _]; [|apply Rle_refl]. apply in_map_iff in Ip as (q & <- & Iq). destruct (U q Iq) as [(_ & _ & _ & POS) _].
    destruct (POS x Mx) as [T R]. apply Qle_Rle. assert (P : 0 <= nth 2 x 0 / nth 1 x 0) by (apply Qle_shift_div_l; [exact T|Lqa.lra]). eapply Qle_trans; [|exact P]. discriminate. }
  destruct (max_attained solve SC l1 l2 a b AB T1 T2) as (l & El & T & V).
  { intros f i r x I J. apply in_app_iff in I as [I|I]; [now apply (N1 f i r)|now apply (N2 f i r)]. }
  { exact PO. }
  { intros f i r s I J. apply in_app_iff in I as [I|I]; [apply (SV ps1 s _ U1), (V1 f i r); auto|apply (SV ps2 s _ U2), (V2 f i r); auto]. }
  destruct (max_year_ok (map zn_ref [ZBase (EBase lvr); ZBase (EBase zlvr)])) as (y & Ey & _). { constructor; [exact Y1|constructor; [exact Y2|constructor]]. }
  set (node := fun s : piece R => ZNode (s_of "Derived zero density estimate") (mkZ (rf_str (fst (fst s))) (snd (fst s)) (Some (fst (fst s))))
     (s_of "Follows from computed large value estimates and zeta large value estimates") (ref_derived y) [ZBase (EBase lvr); ZBase (EBase zlvr)]).
  exists (map node l). split; [|split].
  - unfold lv_zlv_to_zd2. rewrite Ed1. cbn [bind]. rewrite E1. cbn [bind]. rewrite El1. cbn [bind]. rewrite Ea. cbn [bind]. rewrite Ed2. cbn [bind]. rewrite E2. cbn [bind].
    rewrite El2. cbn [bind]. unfold pack_bounds. rewrite El. cbn [bind].
    assert (M : forall l, mapM (fun s : piece R => derived_zero_density_estimate (from_rational_func rf_str (fst (fst s)) (snd (fst s)))
      (s_of "Follows from computed large value estimates and zeta large value estimates") [ZBase (EBase lvr); ZBase (EBase zlvr)]) l = Ret (map node l)).
    { clear - Ey. induction l as [|x l IH]; [reflexivity|]. cbn [mapM map]. unfold derived_zero_density_estimate at 1. rewrite Ey. cbn [bind]. rewrite IH. reflexivity. }
    rewrite M. reflexivity.
  - clear - T. revert T. generalize (Q2R a). induction l as [|[[f i] r] l IH]; intros u T; cbn in *; [exact T|]. destruct T as (A & B & C & D & T). auto 6.
  - intros o I. apply in_map_iff in I as ([[f i] r] & <- & I). destruct (V f i r I) as [NP Vs]. exists f, i. do 2 eexists. split; [reflexivity|]. split; [exact NP|].
    intros s J. destruct (Vs s J) as (f1 & i1 & r1 & f2 & i2 & r2 & I1 & J1 & I2 & J2 & Eq). exists (rfval f1 (Q2R s)), (rfval f2 (Q2R s)).
    split; [now apply (V1 f1 i1 r1)|]. split; [now apply (V2 f2 i2 r2)|exact Eq].
Qed.
Print Assumptions lv_zlv_to_zd2_value.

Definition box_rows : list (list Q) := [[-(1#2); 1; 0; 0]; [1; -(1); 0; 0]; [-(5#2); 0; 1; 0]; [3; 0; -(1); 0]; [0; 0; 0; 1]; [0; 0; 1; -(1)]].
Definition box_poly : polytope := mkPoly (mkMat (map (fun r => (r, false)) box_rows) 4) true None.
Definition box_estimate : lnode := LNode (s_of "box") (DLV (RDisj [RPoly (plain box_poly)]) None) ref_trivial [].
Definition box_set : list lnode := match add_zeta_estimates fm_ext keep [box_estimate] with Ret l => l | Raise _ => [] end.
Definition zd2_over (hs : list lnode) (zeta : bool) : lnode :=
  match (let! d := (if zeta then zd2_zeta_domain fm_ext 0 3 else zd2_domain fm_ext 0 3 (1#2) 1) in
         compute_large_value_region fm_ext Prop_Region.same_order hs (RPoly (plain d)) zeta) with Ret h => h | Raise _ => dummy end.
Lemma box_usable : forall ds, usable_pieces fm_ext [mkLPoly box_poly None (Some ds)].
Proof.
  intros ds p [<- | []]. cbn [body]. split; [|intros _; now left].
  assert (M : forall x, member box_poly x -> exists s t u, x = [s; t; u] /\ 1#2 <= s <= 1 /\ 5#2 <= t <= 3 /\ 0 <= u <= t).
  { intros x [L F]. destruct x as [|s [|t [|u [|? ?]]]]; try discriminate. exists s, t, u. split; [reflexivity|].
    unfold Spec_Polytope.holds in F. cbn in F. rewrite !Forall_cons_iff in F. cbn in F. decompose [and] F. unfold rowval in *. cbn in *. repeat split; Lqa.lra. }
  split; [split; [cbn; lia|repeat constructor]|]. split; [reflexivity|]. split.
  - exists 3. intros x i Mx. destruct (M x Mx) as (s & t & u & -> & S & T & V). apply Qabs_Qle_condition. destruct i as [|[|[|[|i]]]]; cbn; try (destruct i; cbn); split; Lqa.lra.
  - intros x Mx. destruct (M x Mx) as (s & t & u & -> & S & T & V). cbn. split; Lqa.lra.
Qed.

(** The hypotheses of the theorem are met by an estimate on 5/2 <= tau <= 3. *)
Example ex_zd2 : exists adjacency solve lvr zlvr ps1 ps2, adjacency_ok fm_ext adjacency /\ solve_complete solve /\
  zd2_regions fm_ext Prop_Region.same_order keep [box_estimate] 0 3 (1#2) 1 lvr box_set zlvr /\ dated lvr /\ dated zlvr /\
  region_pieces lvr ps1 /\ usable_pieces fm_ext ps1 /\ region_pieces zlvr ps2 /\ usable_pieces fm_ext ps2 /\
  (forall l1 l2, region_sup fm_ext adjacency solve lvr (real_interval (1#2, 1)) = Ret l1 -> region_sup fm_ext adjacency solve zlvr (real_interval (1#2, 1)) = Ret l2 ->
     plain_over (l1 ++ l2) (1#2) 1).
Proof.
  destruct solver_exists as [solve SC]. exists (fun m => map (fun _ => seq 0 (List.length (generators fm_ext m))) (generators fm_ext m)), solve.
  pose proof (all_pairs_adjacency fm_ext fm_ext_ok) as AD.
  assert (RR : zd2_regions fm_ext Prop_Region.same_order keep [box_estimate] 0 3 (1#2) 1 (zd2_over [box_estimate] false) box_set (zd2_over box_set true)).
  { split; [|split]; [eexists; split; [vm_compute; reflexivity|]; vm_compute; reflexivity|vm_compute; reflexivity|eexists; split; [vm_compute; reflexivity|]; vm_compute; reflexivity]. }
  assert (D1 : dated (zd2_over [box_estimate] false)) by (left; vm_compute; exact Logic.I).
  assert (D2 : dated (zd2_over box_set true)) by (left; vm_compute; exact Logic.I).
  assert (P1 : exists ds, region_pieces (zd2_over [box_estimate] false) [mkLPoly box_poly None (Some ds)]) by (eexists; vm_compute; reflexivity).
  assert (P2 : exists ds, region_pieces (zd2_over box_set true) [mkLPoly box_poly None (Some ds)]) by (eexists; vm_compute; reflexivity).
  assert (BV : forall v, In v (get_vertices fm_ext box_poly) -> nth 0 v 0 == 1#2 \/ nth 0 v 0 == 1).
  { assert (F : forallb (fun v => Qeqb (nth 0 v 0) (1#2) || Qeqb (nth 0 v 0) 1) (get_vertices fm_ext box_poly) = true) by (vm_compute; reflexivity).
    intros v I. rewrite forallb_forall in F. specialize (F v I). clear I. cbv beta in F. apply orb_true_iff in F as [F|F]; [left|right]; now apply Qeqb_true. }
  destruct P1 as (ds1 & P1), P2 as (ds2 & P2). revert RR D1 D2 P1 P2. generalize (zd2_over [box_estimate] false). generalize (zd2_over box_set true). intros zlvr lvr RR D1 D2 P1 P2.
  exists lvr, zlvr, [mkLPoly box_poly None (Some ds1)], [mkLPoly box_poly None (Some ds2)]. split; [exact AD|]. split; [exact SC|]. split; [exact RR|]. split; [exact D1|]. split; [exact D2|].
  split; [exact P1|]. split; [apply box_usable|]. split; [exact P2|]. split; [apply box_usable|].
  intros l1 l2 E1 E2 f i r x I B HP. exfalso. apply in_app_iff in I as [I|I]; revert HP.
  - exact (end_vertices_plain fm_ext _ solve fm_ext_ok AD SC lvr _ (1#2) 1 l1 eq_refl P1 (box_usable ds1) eq_refl BV E1 f i r x I B).
  - exact (end_vertices_plain fm_ext _ solve fm_ext_ok AD SC zlvr _ (1#2) 1 l2 eq_refl P2 (box_usable ds2) eq_refl BV E2 f i r x I B).
Qed.

(** Over the second range, which is unbounded, an estimate can be lost
    (zero_density_estimate.py 438-447; polytope.py 669 looks at the objective value
    although the linear program has no optimum): with a correct solver the region
    computed from LV(sigma, tau) <= tau has points with rho > tau. *)
Theorem zd2_zeta_region_refuted : exists E hs, ext_ok E /\ add_zeta_estimates E keep [trivial_estimate] = Ret hs /\
  exists d h r, zd2_zeta_domain E 0 3 = Ret d /\ compute_large_value_region E Prop_Region.same_order hs (RPoly (plain d)) true = Ret h /\ region_of h = Ret r /\
    denote r [3#4; 2; 1000].
Proof.
  exists fm_ext, with_zeta. split; [exact fm_ext_ok|]. split; [vm_compute; reflexivity|]. do 3 eexists. split; [vm_compute; reflexivity|]. split; [vm_compute; reflexivity|]. split; [reflexivity|].
  cbn [denote anyP]. left. split; [reflexivity|]. unfold Spec_Polytope.holds. cbn. repeat constructor; cbn; unfold rowval; cbn; Lqa.lra.
Qed.
Print Assumptions zd2_zeta_region_refuted.
