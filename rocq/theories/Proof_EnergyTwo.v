(** C73: bounds on A*(sigma) with tau0 = 2. *)
From Coq Require Import Reals Qreals Permutation Classical.
From Verif Require Import Base Model_Text Model_Reference Spec_Reference Proof_Reference LinAlg Model_Polytope Spec_Polytope Proof_Polytope Proof_PolytopeLP Prop_Polytope Proof_Piecewise FM_Ext Spec_Edges Proof_Edges Proof_Interval Model_Region Spec_Region
  Proof_Region Proof_RegionDisjoint Proof_RegionSolid Model_ExponentPair Spec_ExponentPair Model_LargeValues Spec_LargeValues Model_AdditiveEnergy Spec_AdditiveEnergy Proof_AdditiveEnergy Prop_AdditiveEnergy
  Model_RationalFunction Spec_RationalFunction Proof_RationalFunction Proof_RFOptimal Prop_RationalFunction Prop_Roots
  Model_ZeroDensity Spec_ZeroDensity Proof_ZeroDensity Prop_ZeroDensity Model_DensityEstimate Spec_DensityEstimate Prop_DensityEstimate Model_DensityDerivation Spec_DensityDerivation Prop_DensityDerivation
  Model_DensityEnergy Spec_DensityEnergy Prop_DensityEnergy Model_EnergyDerivation Spec_EnergyDerivation Proof_EnergyDerivation Prop_EnergyDerivation Proof_EnergyFlat.
From Coq Require Import Lra.
Open Scope list_scope.
Local Open Scope Q_scope.

Lemma long_domain2 : forall E, ext_ok E -> forall m c a b, a < b -> 0 < m * a + c -> 0 < m * b + c ->
  exists d, lver_domain E m c a b = Ret d /\ solid 2 (plain d) /\ forall s t, member d [s; t] <-> long_range m c a b s t.
Proof.
  intros E OK m c a b AB P1 P2. unfold lver_domain.
  set (rows := [[-a; 1; 0]; [b; -(1); 0]; [-c; -m; 1]; [2 * c; 2 * m; -(1)]]).
  destruct (rows2 E OK rows) as (d & Ed & G & N & M).
  { repeat constructor. }
  { exists [b; -(1); 0]. split; [right; now left|]. intro Z. inversion Z as [|? ? _ Z1]; subst. inversion Z1; subst. Lqa.lra. }
  assert (M' : forall s t, member d [s; t] <-> long_range m c a b s t).
  { intros s t. rewrite M. unfold rows, long_range. rewrite !Forall_cons_iff, !rowval3. split; [intros (A & B & C & D & _)|intros ((A & B) & C & D)]; repeat split; try Lqa.lra. constructor. }
  exists d. split; [exact Ed|]. split; [|exact M']. split; [exact G|]. split; [|split; [exact N|]].
  - apply (bounded2 d a b (2 * qmax (m * a + c) (m * b + c)) N). intros s t Ms. apply M' in Ms as [S T]. split; [exact S|].
    pose proof (line_between m c a b s S P1 P2). pose proof (line_below m c a b s (qmax (m * a + c) (m * b + c)) S (proj1 (qmax_spec _ _)) (proj1 (proj2 (qmax_spec _ _)))). Lqa.lra.
  - intros _. set (s := (1#2) * (a + b)). set (t := (3#2) * (m * s + c)). exists [s; t].
    apply (rows_interior 2 rows); [repeat constructor|exact N|reflexivity| |].
    + pose proof (line_between m c a b s ltac:(unfold s; split; Lqa.lra) P1 P2). unfold rows. repeat (constructor; [rewrite rowval3; unfold t; unfold s in *; Lqa.lra|]). constructor.
    + intros y Ly F. destruct y as [|s' [|t' [|]]]; try discriminate. now apply M.
Qed.

(** The result for tau0 = 2 on the whole interval: the range of tau for the zeta
    function is the single value 2, and adds nothing. *)
Lemma energy_bound_two : forall E, ext_ok E -> forall adjacency, adjacency_ok E adjacency -> forall solve, solve_complete solve ->
  forall order, (forall k l, Permutation (order k l) l) -> forall rf_str hs a b, usable_set hs -> a < b -> (exists g, used_lver hs true g) ->
  (forall g R, used_lver hs true g -> e_data g = DLVER R \/ e_data g = DZLVER R ->
     exists s r e z, a <= s <= b /\ 0 <= r <= LV_DEFAULT_UPPER_BOUND /\ 0 <= e <= LV_DEFAULT_UPPER_BOUND /\ 0 <= z <= LV_DEFAULT_UPPER_BOUND /\ ~ denote R [s; 2; r; e; z]) ->
  exists ps1, pieces_for (allowed hs false (long_range 0 2 a b)) ps1 /\
    ((one_nonempty ps1 /\ lver_to_energy_bound E order adjacency solve rf_str hs 0 2 a b = Raise TypeError) \/
     (~ one_nonempty ps1 /\ exists l qs, lver_to_energy_bound E order adjacency solve rf_str hs 0 2 a b = Ret l /\
       bounds_tile l (Q2R a) (Q2R b) /\
       (forall s t u, (exists q, In q qs /\ member q [s; t; u]) <-> exists p r z, In p ps1 /\ member (body p) [s; t; r; u; z]) /\
       (forall q, In q qs -> value_polytope q) /\
       forall o, In o l -> exists f i p r deps, o = ANode (s_of "Derived zero density energy estimate") TEnergy (mkZ (rf_str f) i (Some f)) p r deps /\
         (forall x, Spec_RationalFunction.inside i x -> x <> 1%R -> ~ has_pole f x) /\
         (forall s, Spec_RationalFunction.inside i (Q2R s) -> ~ s == 1 -> sup_value qs s (rfval f (Q2R s) * (1 - Q2R s))) /\
         (forall d, In d deps -> exists e g, d = ABase (ZBase e) /\ e_deps e = [g] /\ forall h, In h (e_deps g) -> used_lver hs true h))).
Proof.
  intros E OK adj AD solve SC order OO rf_str hs a b US AB UG MS. set (m := 0). set (c := 2). assert (Pa : 0 < m * a + c) by (unfold m, c; Lqa.lra). assert (Pb : 0 < m * b + c) by (unfold m, c; Lqa.lra).
  destruct (long_domain2 E OK m c a b AB Pa Pb) as (d1 & Ed1 & S1 & M1). 
  assert (Z : exists d2, lver_zeta_domain E m c a b = Ret d2 /\ Spec_Polytope.good d2 /\ ncol (pmat d2) = 3%nat /\ forall s t, member d2 [s; t] <-> a <= s <= b /\ t == 2).
  { unfold lver_zeta_domain. set (rows := [[-a; 1; 0]; [b; -(1); 0]; [-(2); 0; 1]; [c; m; -(1)]]).
    destruct (rows2 E OK rows) as (d & Ed & G & N & M).
    { repeat constructor. }
    { exists [b; -(1); 0]. split; [right; now left|]. intro Z. inversion Z as [|? ? _ Z1]; subst. inversion Z1; subst. Lqa.lra. }
    exists d. split; [exact Ed|]. split; [exact G|]. split; [exact N|].
    intros s t. rewrite M. unfold rows, m, c. rewrite !Forall_cons_iff, !rowval3. split; [intros (A & B & C & D & _)|intros ((A & B) & C)]; repeat split; try Lqa.lra. constructor. }
  destruct Z as (d2 & Ed2 & G2 & N2 & M2).
  destruct (best_pieces E OK order OO hs false d1 _ US S1 M1) as (h1 & ps1 & E1 & D1 & Y1 & L1 & P1).
  destruct (flat_best E OK order OO hs true d2 a b 2 US G2 N2 AB M2 UG MS) as (h2 & ps2 & E2 & D2 & Y2 & L2 & (F2 & V2)).
  exists ps1. split; [exact P1|]. destruct P1 as (F1 & In1 & _).
  assert (POS1 : forall p s t r u z, In p ps1 -> member (body p) [s; t; r; u; z] -> 0 < t /\ 0 <= u).
  { intros p s t r u z Ip Mx. destruct (In1 _ p Ip Mx) as (s' & t' & r' & u' & z' & Eq & (Rs & Rt) & _ & _ & Ru & _). injection Eq as <- <- <- <- <-.
    pose proof (line_between m c a b s Rs Pa Pb). split; [Lqa.lra|exact Ru]. }
  assert (POS2 : forall p s t r u z, In p ps2 -> member (body p) [s; t; r; u; z] -> 0 < t /\ 0 <= u).
  { intros p s t r u z Ip Mx. destruct (V2 p _ Ip Mx). }
  unfold lver_to_energy_bound. rewrite Ed1, Ed2. cbn [bind]. rewrite E1. cbn [bind].
  destruct (energy_functions_ok E OK adj AD solve SC order OO h1 ps1 a b AB D1 F1 POS1) as [(O1 & Ef1)|(O1 & deps1 & l1 & qs1 & Ef1 & R1 & U1 & X1 & Dp1)].
  { left. split; [exact O1|]. rewrite Ef1. reflexivity. }
  rewrite Ef1. cbn [bind]. rewrite E2. cbn [bind].
  destruct (energy_functions_ok E OK adj AD solve SC order OO h2 ps2 a b AB D2 F2 POS2) as [(O2 & Ef2)|(O2 & deps2 & l2 & qs2 & Ef2 & R2 & U2 & X2 & Dp2)].
  { exfalso. destruct O2 as (w & p & w' & Ew & (x & Mx) & _). apply (V2 p x); [rewrite Ew; apply in_or_app; right; now left|exact Mx]. }
  right. split; [tauto|]. rewrite Ef2. cbn [bind].
  assert (U : usable_pieces E (qs1 ++ qs2)) by (intros q Iq; apply in_app_iff in Iq as [Iq|Iq]; auto).
  destruct (max_represents E solve SC l1 l2 qs1 qs2 a b AB R1 R2 U) as (l & El & Rl & T). rewrite El. cbn [bind].
  destruct Rl as [[-> _]|(_ & Np & V)]; [cbn in T; apply Qlt_Rlt in AB; Lra.lra|].
  assert (DY : Forall (fun r => proper_year (r_year r)) (map a_ref (deps1 ++ deps2))).
  { apply Forall_map. apply Forall_forall. intros d Id. apply in_app_iff in Id as [Id|Id].
    - destruct (Dp1 d Id) as (e & -> & _ & Ye). cbn [a_ref zn_ref]. now rewrite Ye.
    - destruct (Dp2 d Id) as (e & -> & _ & Ye). cbn [a_ref zn_ref]. now rewrite Ye. }
  destruct (max_year_ok _ DY) as (y & Ey & _).
  set (sc := fun f => rf_div f (ORat (RationalFunction ([-(1); 1])%Q None))).
  set (txt := s_of "Follows from combining large value energy regions and zeta large value energy regions").
  set (node := fun s : piece R => ANode (s_of "Derived zero density energy estimate") TEnergy (mkZ (rf_str (sc (fst (fst s)))) (snd (fst s)) (Some (sc (fst (fst s))))) txt (ref_derived y) (deps1 ++ deps2)).
  exists (map node l), (map body (qs1 ++ qs2)). split; [|split; [|split; [|split]]].
  - assert (M : forall l0 : list (piece R), mapM (fun s : piece R => derived_zero_density_energy_estimate (from_rational_func rf_str (sc (fst (fst s))) (snd (fst s))) txt (deps1 ++ deps2)) l0 = Ret (map node l0)).
    { clear - Ey. induction l0 as [|x l0 IH]; [reflexivity|]. cbn [mapM map]. unfold derived_zero_density_energy_estimate at 1. rewrite Ey. cbn [bind]. rewrite IH. reflexivity. }
    exact (M l).
  - clear - T. revert T. generalize (Q2R a). induction l as [|[[f i] r] l IH]; intros u T; cbn in *; [exact T|]. destruct T as (A & B & C & D & T). auto 6.
  - intros s t u. split.
    + intros (q & Iq & Mq). apply in_map_iff in Iq as (q' & <- & Iq). apply in_app_iff in Iq as [Iq|Iq]; [destruct (proj1 (X1 s t u)) as (p & r & z & Ip & Mp)|destruct (proj1 (X2 s t u)) as (p & r & z & Ip & Mp)]; eauto;
        try destruct (V2 p _ Ip Mp); exists p, r, z; auto.
    + intros (p & r & z & Ip & Mp). destruct (proj2 (X1 s t u)) as (q & Iq & Mq); eauto;
        exists (body q); (split; [apply in_map; apply in_or_app; auto|exact Mq]).
  - intros q Iq. apply in_map_iff in Iq as (q' & <- & Iq). now apply U.
  - intros o Io. apply in_map_iff in Io as ([[f i] r] & <- & Io). exists (sc f), i. do 3 eexists. split; [reflexivity|]. split; [|split].
    + intros x Ix N. unfold sc. rewrite (proj1 (div_by_one_minus f x N)). now apply (Np f i r).
    + intros s Is N. assert (N' : Q2R s <> 1%R). { intro Eq. apply N. apply eqR_Qeq. rewrite Eq. unfold Q2R. cbn. Lra.lra. }
      unfold sc. rewrite (proj2 (div_by_one_minus f (Q2R s) N')); [now apply (V f i r)|now apply (Np f i r)].
    + intros d Id. apply in_app_iff in Id as [Id|Id].
      * destruct (Dp1 d Id) as (e & -> & Ee & _). exists e, h1. split; [reflexivity|]. split; [exact Ee|]. intros h Ih. apply L1 in Ih as [Ih|[Ih|(K & _)]]; [left; exact Ih|right; left; exact Ih|discriminate].
      * destruct (Dp2 d Id) as (e & -> & Ee & _). exists e, h2. split; [reflexivity|]. split; [exact Ee|]. intros h Ih. now apply L2.
Qed.
