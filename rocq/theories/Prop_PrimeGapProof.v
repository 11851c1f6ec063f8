(** C74: the additive energy bounds entered for the prime gap computation. *)
From Coq Require Import Reals Qreals Permutation.
From Verif Require Import Base LinAlg FM Model_Text Model_Reference Spec_Reference Model_Polytope Spec_Polytope Proof_Polytope FM_Ext Spec_Edges Proof_Edges Proof_Interval
  Model_Region Spec_Region Model_ExponentPair Spec_ExponentPair Model_LargeValues Spec_LargeValues Proof_LargeValues Prop_LargeValues Model_ZetaLargeValues
  Model_AdditiveEnergy Spec_AdditiveEnergy Prop_AdditiveEnergy Model_RationalFunction Spec_RationalFunction Prop_Roots
  Model_ZeroDensity Spec_ZeroDensity Model_DensityEstimate Spec_DensityEstimate Model_DensityDerivation Spec_DensityDerivation Prop_DensityDerivation
  Model_DensityEnergy Spec_DensityEnergy Model_EnergyDerivation Spec_EnergyDerivation Prop_EnergyDerivation Model_LiteratureLV Prop_LiteratureLV Model_LiteratureEnergy Spec_LiteratureEnergy Prop_LiteratureEnergy
  Spec_DerivedDensity Proof_DerivedDensity Prop_DerivedDensity Model_EnergyProofs Spec_EnergyProofs Proof_EnergyProofs Proof_EnergyTwoValue Proof_EnergyJutila Prop_EnergyProofs
  Model_Formula Spec_Formula Proof_Formula Prop_Formula Model_PrimeGapProof Spec_PrimeGapProof.
From Verif Require Prop_LiteratureZD Prop_DensityEnergy.
From Coq Require Import Lra.
Open Scope list_scope.
Local Open Scope Q_scope.

Lemma half_entry : forall tr btr W t (g : Q -> Q) a b r e, Prop_LiteratureZD.text_formula t = Ret e -> 1#2 < a -> a < b -> b < 1 ->
  (forall x, (Q2R a <= x < Q2R b)%R -> exists v, means e x v) -> (forall s v, a <= s -> s < b -> means e (Q2R s) v -> v = Q2R (g s / (1 - s))) ->
  aholds parse_formula tr btr W (literature_zero_density_energy_estimate t (mkV (Q2R a) (Q2R b) true false) r []) <-> energy_on W a b g.
Proof.
  intros tr btr W t g a b r e E A AB B X M. apply Qlt_Rlt in AB as AB'. destruct (X (Q2R a) ltac:(Lra.lra)) as (v0 & M0). destruct (Prop_LiteratureZD.parse_some t e _ _ E M0) as (f & Pf).
  cbn [aholds literature_zero_density_energy_estimate Zero_Density_Estimate z_int]. unfold energy_on. split.
  - intros H s A' B'. specialize (H f). assert (Rd : reads parse_formula (Zero_Density_Estimate t (mkV (Q2R a) (Q2R b) true false)) f) by (right; split; [reflexivity|exact Pf]).
    assert (I : (Q2R a <= Q2R s < Q2R b)%R) by (split; [now apply Qle_Rle|now apply Qlt_Rlt]). destruct (X (Q2R s) I) as (v & Mv).
    destruct (Prop_LiteratureZD.parse_at t e f (Q2R s) _ E Pf Mv) as (NP & V). rewrite <- (M s v A' B' Mv), <- V. apply (H Rd); auto; try Lqa.lra.
  - intros H f' Rd s S1 S2 In _. destruct Rd as [Rd|(_ & Rd)]; [discriminate|]. cbn [Zero_Density_Estimate z_expr] in Rd. rewrite Pf in Rd. injection Rd as <-.
    destruct In as (I1 & I2). cbn [lo hi ilo ihi] in I1, I2. destruct (X (Q2R s) (conj I1 I2)) as (v & Mv).
    destruct (Prop_LiteratureZD.parse_at t e f (Q2R s) _ E Pf Mv) as (NP & V). rewrite V. apply Rle_Qle in I1. apply Rlt_Qlt in I2. rewrite (M s v I1 I2 Mv). now apply H.
Qed.
Lemma means_q : forall e s u v, means e (Q2R s) u -> means e (Q2R s) v -> u = v.
Proof. intros e s u v A B. exact (Prop_LiteratureZD.means_fun _ _ _ A _ B). Qed.

Ltac q2r := repeat first [rewrite Q2R_mult | rewrite Q2R_plus | rewrite Q2R_minus | rewrite Q2R_opp].
Ltac reading := repeat first [apply m_num | apply m_x | apply m_add | apply m_sub | apply m_mul | apply m_div].
Ltac entry_text g := match goal with |- aholds _ ?tr ?btr ?W (literature_zero_density_energy_estimate ?t _ _ _) <-> _ => let e := eval vm_compute in (Prop_LiteratureZD.text_formula t) in
  match e with Ret ?e0 => refine (half_entry tr btr W t g _ _ _ e0 _ _ _ _ _ _); [vm_compute; reflexivity|reflexivity|reflexivity|reflexivity| |] end end.
(** A text that reads f(x) / (1 - x) *)
Lemma entry_means : forall e (g : Q -> Q) a b, (forall s, a <= s -> s < b -> means e (Q2R s) (Q2R (g s / (1 - s)))) -> forall s v, a <= s -> s < b -> means e (Q2R s) v -> v = Q2R (g s / (1 - s)).
Proof. intros e g a b H s v A B M. exact (means_q _ _ _ _ M (H s A B)). Qed.
Ltac entry_all g := entry_text g;
  [let x := fresh in let X := fresh in intros x X; eexists; reading; revert X; unfold switch_1, switch_2; Prop_LiteratureZD.q_values; intros; nra
  |apply entry_means; let s := fresh "s" in let A := fresh in let B := fresh in intros s A B; eapply Prop_LiteratureZD.means_eq; [reading|];
   apply Qle_Rle in A as A'; apply Qlt_Rlt in B as B'; revert A' B'; unfold switch_1, switch_2, bound_1, bound_2, bound_3, bound_4, bound_5 in *; 
   rewrite ?Q2R_div by Lqa.lra; q2r; set (z := Q2R s); clearbody z; Prop_LiteratureZD.q_values; intros; first [nra | field; repeat split; nra]].

(** The table that is entered says what the table of the literature says, with the
    changes at the two floats. *)
Theorem gap_energy_exact : forall tr btr W ref, Forall (aholds parse_formula tr btr W) (gap_energy ref) <-> energy_entered W switch_1 switch_2.
Proof.
  intros tr btr W ref. unfold gap_energy, energy_entered.
  assert (A1 : aholds parse_formula tr btr W (literature_zero_density_energy_estimate (s_of "5 * (18 - 19 * x) / ((2 * (5 * x + 3)) * (1 - x))") (mkV (Q2R (7#10)) (Q2R switch_1) true false) ref []) <-> energy_on W (7#10) switch_1 bound_1) by entry_all bound_1.
  assert (A2 : aholds parse_formula tr btr W (literature_zero_density_energy_estimate (s_of "2 * (45 - 44 * x) / ((2 * x + 15) * (1 - x))") (mkV (Q2R switch_1) (Q2R (3#4)) true false) ref []) <-> energy_on W switch_1 (3#4) bound_2) by entry_all bound_2.
  assert (A3 : aholds parse_formula tr btr W (literature_zero_density_energy_estimate (s_of "(197 - 220 * x) / (8 * (5 * x - 1) * (1 - x))") (mkV (Q2R (3#4)) (Q2R (289#380)) true false) ref []) <-> energy_on W (3#4) (289#380) bound_3) by entry_all bound_3.
  assert (A4 : aholds parse_formula tr btr W (literature_zero_density_energy_estimate (s_of "3 * (29 - 30 * x) / (5 * (5 * x - 1) * (1 - x))") (mkV (Q2R (289#380)) (Q2R switch_2) true false) ref []) <-> energy_on W (289#380) switch_2 bound_4) by entry_all bound_4.
  assert (A5 : aholds parse_formula tr btr W (literature_zero_density_energy_estimate (s_of "(40 - 36 * x) / ((20 * x - 5) * (1 - x))") (mkV (Q2R switch_2) (Q2R (5#6)) true false) ref []) <-> energy_on W switch_2 (5#6) bound_5) by entry_all bound_5.
  rewrite !Forall_cons_iff, A1, A2, A3, A4, A5. split; [tauto|]. intros (H1 & H2 & H3 & H4 & H5). repeat split; auto.
Qed.
Print Assumptions gap_energy_exact.

(** ** The first two bounds and the second derivation *)
Lemma poly_diff : forall s, 7#10 <= s -> s < 3#4 -> exists d, 0 < d /\ bound_1 s - bound_2 s == (690 * s * s - 1617 * s + 810) * d.
Proof.
  intros s A B. exists (/ (2 * (5 * s + 3) * (2 * s + 15))). split; [apply Qinv_lt_0_compat; Lqa.nra|]. unfold bound_1, bound_2. field. split; Lqa.lra.
Qed.
Lemma past_switch : forall s, switch_1 <= s -> s < 3#4 -> 690 * s * s - 1617 * s + 810 < 0.
Proof. unfold switch_1. intros s A B. Lqa.nra. Qed.
Lemma energy_2_bounds : forall s, energy_2 s = qmax (bound_1 s) (bound_2 s).
Proof. reflexivity. Qed.
(** The entered bound never exceeds the derived one, and is equal to it except on an
    interval before the first float that is shorter than 10^-16. *)
Theorem entered_is_derived : forall s, 7#10 <= s -> s < 3#4 ->
  (first_entered switch_1 s == energy_2 s <-> ~ between switch_1 s) /\ (between switch_1 s <-> first_entered switch_1 s < energy_2 s) /\ (between switch_1 s -> switch_1 - s < 1 # 10000000000000000).
Proof.
  intros s A B. destruct (poly_diff s A B) as (d & D & Eq). rewrite energy_2_bounds. destruct (qmax_spec (bound_1 s) (bound_2 s)) as (M1 & M2 & M3). set (m := qmax _ _) in *. clearbody m.
  unfold first_entered, between. destruct (Qlt_le_dec s switch_1) as [L|L].
  - destruct (Qlt_le_dec (690 * s * s - 1617 * s + 810) 0) as [N|N].
    + assert (N' : (690 * s * s - 1617 * s + 810) * d < 0) by Lqa.nra. split; [|split].
      * split; [intros Q; exfalso; destruct M3 as [M3|M3]; rewrite M3 in *; Lqa.lra|intro Q; exfalso; tauto].
      * split; [intros _; Lqa.lra|intros _; tauto].
      * intros _. revert N L. clear -A B. intros N L. destruct (Qlt_le_dec (switch_1 - s) (1 # 10000000000000000)) as [G|G]; [exact G|exfalso]. set (e := switch_1 - s) in *.
        assert (Es : s == switch_1 - e) by (unfold e; ring). assert (P1 : 690 * s * s - 1617 * s + 810 == (690 * switch_1 * switch_1 - 1617 * switch_1 + 810) + e * (1617 - 690 * (s + switch_1))) by (unfold e; ring).
        assert (P2 : - (3 # 100000000000000) < 690 * switch_1 * switch_1 - 1617 * switch_1 + 810) by reflexivity. assert (P3 : 600 <= 1617 - 690 * (s + switch_1)) by (revert L; unfold switch_1; Lqa.lra).
        assert (P4 : (1 # 10000000000000000) * 600 <= e * (1617 - 690 * (s + switch_1))) by (apply Qmult_le_compat_nonneg; split; Lqa.lra || discriminate). Lqa.lra.
    + assert (N' : 0 <= (690 * s * s - 1617 * s + 810) * d) by Lqa.nra. split; [|split].
      * split; [intros _ (Q & _); Lqa.lra|intros _; apply Qle_antisym; destruct M3 as [M3|M3]; rewrite M3 in *; Lqa.lra].
      * split; [intros (Q & _); Lqa.lra|intro Q; destruct M3 as [M3|M3]; rewrite M3 in *; Lqa.lra].
      * intros (Q & _). Lqa.lra.
  - pose proof (past_switch s L B) as N. assert (N' : (690 * s * s - 1617 * s + 810) * d < 0) by Lqa.nra. split; [|split].
    + split; [intros _ (_ & Q); Lqa.lra|intros _; apply Qle_antisym; destruct M3 as [M3|M3]; rewrite M3 in *; Lqa.lra].
    + split; [intros (_ & Q); Lqa.lra|intro Q; destruct M3 as [M3|M3]; rewrite M3 in *; Lqa.lra].
    + intros (_ & Q). Lqa.lra.
Qed.
Print Assumptions entered_is_derived.

(** Outside this interval the two entered bounds follow from what the second derivation
    uses. *)
Theorem entered_follows : forall E, ext_ok E -> forall get, energy_bibliography get -> forall s, 7#10 <= s -> s < 3#4 -> ~ between switch_1 s ->
  follows_from E get [large_value_estimate_L2 E; add_guth_maynard_large_values_estimate E get] s (first_entered switch_1 s / (1 - s)).
Proof.
  intros E OK get EB s S1 S2 NB tr btr W er Ad Ee Te Tl. destruct (l2_records E OK) as (l2 & E2 & R2). 
  pose proof (proj2 (proj1 (entered_is_derived s S1 S2)) NB) as Eq.
  inversion Tl as [|? ? T2 Tl']. inversion Tl' as [|? ? Tg Tl'']. subst.
  destruct (guth_maynard_lv_exact E get OK) as (gm & _ & _ & Eg & _).
  pose proof (heath_brown_says E get OK EB er Ee) as Se. pose proof (gm_recorded_as E get OK EB gm Eg) as Rg.
  replace (Q2R (first_entered switch_1 s / (1 - s))) with (Q2R (energy_2 s / (1 - s))) by (apply Qeq_eqR; now rewrite Eq).
  apply (world_energy E OK tr btr W er [(l2, l2_bounds); (gm, gm_bounds)] [1; 2; 3; 4] s); auto; try Lqa.lra.
  + repeat (constructor; [eexists; split; [|reflexivity]; lia|]); constructor.
  + intros t r e z Ht Hr He O. apply (up2 s t r e z); auto. split; Lqa.lra.
Qed.
Print Assumptions entered_follows.

(** In [prove_prime_gap2] the change from the first to the second bound is entered as a
    float that is larger than the place where the two are equal, so just before it the
    bound that is entered is smaller than the one that was derived. *)
Theorem entered_everywhere_derived_refuted : exists s, 7#10 <= s /\ s < switch_1 /\ first_entered switch_1 s < energy_2 s.
Proof.
  exists (switch_1 - (1 # 100000000000000000)). split; [discriminate|]. split; [reflexivity|]. set (s := switch_1 - _). assert (A : 7#10 <= s) by discriminate. assert (B : s < 3#4) by reflexivity. assert (C : between switch_1 s) by (split; reflexivity).
  destruct (entered_is_derived s A B) as (_ & (D & _) & _). exact (D C).
Qed.
Print Assumptions entered_everywhere_derived_refuted.

(** As one function on all of [7/10, 5/6) *)
Theorem gap_energy_value : forall tr btr W ref, Forall (aholds parse_formula tr btr W) (gap_energy ref) <-> forall s, 7#10 <= s -> s < 5#6 -> ze W s (Q2R (entered switch_1 switch_2 s / (1 - s))).
Proof.
  intros tr btr W ref. rewrite gap_energy_exact. unfold energy_entered, energy_on. split.
  - intros (H1 & H2 & H3 & H4 & H5) s A B. unfold entered. repeat (match goal with |- context [Qlt_le_dec ?x ?y] => destruct (Qlt_le_dec x y) end); auto.
  - intro H. repeat split; intros s A B; (assert (A' : 7#10 <= s) by (revert A B; unfold switch_1, switch_2; intros; Lqa.lra)); (assert (B' : s < 5#6) by (revert A B; unfold switch_1, switch_2; intros; Lqa.lra)); specialize (H s A' B'); unfold entered in H;
      repeat (match type of H with context [Qlt_le_dec ?x ?y] => destruct (Qlt_le_dec x y) end); try exact H; exfalso; unfold switch_1, switch_2 in *; Lqa.lra.
Qed.
Print Assumptions gap_energy_value.

(** ** The bound of Heath-Brown *)
Lemma q_div_lt : forall a b c d, 0 < b -> 0 < d -> a * d < c * b -> a / b < c / d.
Proof. intros a b c d B D H. apply Qlt_shift_div_r; [exact B|]. setoid_replace (c / d * b) with (c * b / d) by (field; intro; Lqa.lra). apply Qlt_shift_div_l; [exact D|exact H]. Qed.
(** The table that is entered is nowhere worse than the bound of Heath-Brown that is
    already in the literature, and is better everywhere but at the left end. *)
Theorem entered_improves : forall s, 7#10 <= s -> s < 5#6 -> entered switch_1 switch_2 s <= heath_brown_value s /\ (7#10 < s -> entered switch_1 switch_2 s < heath_brown_value s).
Proof.
  intros s A B. assert (M : 7#10 < s -> entered switch_1 switch_2 s < heath_brown_value s).
  { intro A'. unfold entered, heath_brown_value. destruct (Qlt_le_dec s (3#4)) as [L|L]; destruct (Qlt_le_dec s switch_1) as [L1|L1]; try (exfalso; revert L1; unfold switch_1; Lqa.lra);
    [|  |destruct (Qlt_le_dec s (289#380)) as [L3|L3]; [|destruct (Qlt_le_dec s switch_2) as [L4|L4]]]; unfold bound_1, bound_2, bound_3, bound_4, bound_5, switch_1, switch_2 in *; apply q_div_lt; Lqa.nra. }
  split; [|exact M]. destruct (Qlt_le_dec (7#10) s) as [L|L]; [apply Qlt_le_weak; auto|].
  assert (Es : s == 7#10) by Lqa.lra. unfold entered, heath_brown_value. destruct (Qlt_le_dec s (3#4)) as [L2|L2]; [|exfalso; Lqa.lra]. destruct (Qlt_le_dec s switch_1) as [L1|L1]; [|exfalso; revert L1; unfold switch_1; Lqa.lra].
  unfold bound_1. rewrite Es. vm_compute. discriminate.
Qed.
Print Assumptions entered_improves.

(** ** Examples *)
(** At 7/10 and at 37/50 a different one of the two bounds is entered, and both are those
    of the derivation. *)
Example entered_values : first_entered switch_1 (7#10) == 47#26 /\ first_entered switch_1 (37#50) == energy_2 (37#50) /\ first_entered switch_1 (37#50) == 311#206 /\ ~ between switch_1 (7#10) /\ ~ between switch_1 (37#50).
Proof. split; [vm_compute; reflexivity|]. split; [vm_compute; reflexivity|]. split; [vm_compute; reflexivity|]. split; intros [H1 H2]; vm_compute in H1, H2; discriminate. Qed.
(** There is a world in which the hypotheses of the derivation hold, and in it the bound
    entered at 7/10 is true. *)
Example entered_case : exists W, a_admissible W /\ ze W (7#10) (Q2R ((47#26) / (1 - (7#10)))).
Proof.
  destruct energy_2_case as (_ & _ & lit & EB & _ & _ & W & Ad & H). exists W. split; [exact Ad|].
  destruct (H (fun _ h => Ret h) (fun _ b => Ret [b])) as ((er & Ee & Te) & Tl).
  replace (Q2R ((47#26) / (1 - (7#10)))) with (Q2R (first_entered switch_1 (7#10) / (1 - (7#10)))) by (apply Qeq_eqR; vm_compute; reflexivity).
  apply (entered_follows fm_ext fm_ext_ok sample_get EB (7#10) ltac:(discriminate) ltac:(reflexivity) (proj1 (proj2 (proj2 (proj2 entered_values)))) (fun _ h => Ret h) (fun _ b => Ret [b]) W er Ad Ee Te).
  eapply Forall_impl; [|exact Tl]. intros h (l & El & Hl) l' El'. assert (l' = l) by congruence. subst l'. exact Hl.
Qed.
