(** Large value energy regions (C38, C42-C44). *)
From Coq Require Import Permutation.
From Verif Require Import Base Model_Text Model_Reference Spec_Reference Proof_Reference LinAlg Model_Polytope Spec_Polytope Proof_Polytope
  Proof_PolytopeMaps Proof_PolytopeLP Model_Region Spec_Region Proof_Region Proof_RegionDisjoint Proof_RegionSolid Prop_Region Proof_Piecewise FM_Ext
  Model_ExponentPair Spec_ExponentPair Spec_BoundMu Prop_BoundMu
  Model_LargeValues Spec_LargeValues Proof_LargeValues Model_AdditiveEnergy Spec_AdditiveEnergy Proof_AdditiveEnergy.
Open Scope list_scope.

(** ** The facts assumed are consistent *)

(** Whatever is true of beta, mu and exponent pairs, with and without zeta large
    values. *)
Theorem conj_world_admissible : forall Z b, admissible Z -> (forall s m, 1 <= s -> mu_le Z s m -> 0 <= m) -> en_admissible (conj_world Z b).
Proof. exact conj_admissible. Qed.
Print Assumptions conj_world_admissible.

Definition w0 (b : bool) : eworld := conj_world trivial_world b.
Lemma w0_admissible : forall b, en_admissible (w0 b).
Proof. intro b. apply conj_admissible; [exact trivial_world_admissible|]. cbn. intros s m L (_ & _ & H). lra. Qed.
Lemma w0_en : forall b s t r e z, en (w0 b) [s; t; r; e; z] <-> conj_en s t r e z.
Proof.
  intros. cbn. split; [intros (? & ? & ? & ? & ? & E & C); injection E as <- <- <- <- <-; exact C|].
  intro C. do 5 eexists. split; [reflexivity|exact C].
Qed.

(** The rule as published has a third pattern, one with s' = s / k.  Together
    with the diagonal contribution to the double zeta sum, which makes s at
    least rho + 2, there would be no patterns at all. *)
Theorem published_power_rule_refuted : forall e5 : Q -> Q -> Q -> Q -> Q -> Prop,
  (forall s t r e z, e5 s t r e z -> 0 <= r /\ r + 2 <= z) ->
  (forall s t r e z (k : Z), (1 <= k)%Z -> e5 s t r e z ->
     exists r' e', e5 s (t / inject_Z k) r' e' (z / inject_Z k)) ->
  forall s t r e z, ~ e5 s t r e z.
Proof.
  intros e5 D P s t r e z H. destruct (D _ _ _ _ _ H) as [R Z].
  set (k := (Qnum z + 1)%Z).
  assert (Zk : z <= inject_Z (Qnum z)).
  { destruct z as [n d]. unfold Qle, inject_Z. cbn. assert (0 < n)%Z by (unfold Qle, Qplus in *; cbn in *; destruct r; cbn in *; nia). nia. }
  assert (N : (1 <= k)%Z).
  { unfold k. assert (0 <= Qnum z)%Z; [|lia]. assert (0 <= inject_Z (Qnum z)) by lra. change 0 with (inject_Z 0) in H0. now rewrite <- Zle_Qle in H0. }
  destruct (P _ _ _ _ _ k N H) as (r' & e' & H'). destruct (D _ _ _ _ _ H') as [R' Z'].
  assert (K : 0 < inject_Z k) by (change 0 with (inject_Z 0); rewrite <- Zlt_Qlt; lia).
  assert (X : z / inject_Z k <= 1).
  { apply Qle_shift_div_r; [exact K|]. unfold k. rewrite inject_Z_plus. change (inject_Z 1) with 1. lra. }
  lra.
Qed.
Print Assumptions published_power_rule_refuted.

(** ** C38: raising to a power *)

Theorem raise_energy_region : forall k h R, e_data h = DLVER R -> sized 5 R -> ~ k == 0 ->
  exists h' R', raise_energy k h = Ret h' /\ e_data h' = DLVER R' /\ e_deps h' = [h] /\
    r_year (e_ref h') = r_year (e_ref h) /\ sized 5 R' /\
    (leaves (solid 5) R -> leaves (solid 5) R') /\ (disjoint_form R -> disjoint_form R') /\
    forall s t r e z, denote R' [s; k * t; k * r; k * e; k * z] <-> denote R [s; t; r; e; z].
Proof.
  intros k h R D S K. destruct (scale5_iff k R S K) as (q & Eq & Sq & SS & Hq).
  unfold raise_energy, e_region. rewrite D. cbn [bind]. rewrite Eq. cbn [bind]. unfold derived_lver. rewrite derived_e_one.
  do 2 eexists. split; [reflexivity|]. split; [reflexivity|]. split; [reflexivity|]. split; [reflexivity|]. split; [exact Sq|].
  split; [exact SS|]. split; [exact (scale5_form k R q Eq)|].
  intros s t r e z. rewrite Hq. split; apply denote5; try reflexivity; field; auto.
Qed.
Print Assumptions raise_energy_region.

Theorem raise_energy_compose : forall j k h R, e_data h = DLVER R -> sized 5 R -> ~ j == 0 -> ~ k == 0 ->
  exists h1 h2 h12 R2 R12, raise_energy j h = Ret h1 /\ raise_energy k h1 = Ret h2 /\ raise_energy (j * k) h = Ret h12 /\
    e_data h2 = DLVER R2 /\ e_data h12 = DLVER R12 /\
    forall s t r e z, denote R2 [s; t; r; e; z] <-> denote R12 [s; t; r; e; z].
Proof.
  intros j k h R D S J K.
  destruct (raise_energy_region j h R D S J) as (h1 & r1 & E1 & D1 & _ & _ & S1 & _ & _ & X1).
  destruct (raise_energy_region k h1 r1 D1 S1 K) as (h2 & r2 & E2 & D2 & _ & _ & _ & _ & _ & X2).
  assert (JK : ~ j * k == 0) by (intro C; apply Qmult_integral in C as [C|C]; auto).
  destruct (raise_energy_region (j * k) h R D S JK) as (h3 & r3 & E3 & D3 & _ & _ & _ & _ & _ & X3).
  exists h1, h2, h3, r2, r3. split; [exact E1|]. split; [exact E2|]. split; [exact E3|]. split; [exact D2|]. split; [exact D3|].
  intros s t r e z. set (n := j * k) in *.
  assert (A2 : denote r2 [s; t; r; e; z] <-> denote R [s; t / n; r / n; e / n; z / n]).
  { rewrite <- X1. rewrite <- X2. split; apply denote5; try reflexivity; unfold n; field; auto. }
  rewrite A2, <- X3. split; apply denote5; try reflexivity; unfold n; field; auto.
Qed.
Print Assumptions raise_energy_compose.

(** A natural power of a true region is true if the power rule applies to the
    region, and the recorded dependency suffices; the rule applies to the result. *)
Theorem raise_energy_supported : forall tr btr k h R h', natural_power k -> e_data h = DLVER R -> sized 5 R -> power_closed R ->
  raise_energy k h = Ret h' ->
  e_deps h' = [h] /\ esupported tr btr h' /\ forall R', e_data h' = DLVER R' -> power_closed R'.
Proof.
  intros tr btr k h R h' NP D S PC H.
  assert (K1 : 1 <= k) by (destruct NP as (n & N & Kn); rewrite Kn; change 1 with (inject_Z 1); rewrite <- Zle_Qle; lia).
  destruct (raise_energy_region k h R D S ltac:(lra)) as (h2 & R' & E & D' & Ed & _ & _ & _ & _ & X).
  rewrite E in H. injection H as <-. split; [exact Ed|].
  assert (Y : forall s t r e z, denote R' [s; t; r; e; z] <-> denote R [s; t / k; r / k; e / k; z / k]).
  { intros s t r e z. rewrite <- X. split; apply denote5; try reflexivity; field; lra. }
  split.
  - intros W Ad F. rewrite Ed in F. inversion F as [|? ? Hh _]; subst. unfold eholds in *. rewrite D'. rewrite D in Hh.
    exact (raised_true W k R R' Ad NP PC Hh Y).
  - intros R2 D2. rewrite D' in D2. injection D2 as <-. intros s t r e z r' e' z1 z2 Rc Lr Le H1 H2. apply Y. apply Y in H1, H2.
    refine (PC _ _ _ _ _ _ _ _ _ (recorded_div k _ _ _ _ _ K1 Rc) _ _ H1 H2); unfold Qdiv; apply Qmult_le_compat_r; auto;
      apply Qinv_le_0_compat; lra.
Qed.
Print Assumptions raise_energy_supported.

(** So the transform as a hypothesis is true in every admissible world. *)
Theorem raise_energy_true : forall tr btr k W, natural_power k -> en_admissible W -> eholds tr btr W (get_raise_to_power_hypothesis k).
Proof.
  intros tr btr k W K Ad. unfold eholds. cbn [e_data get_raise_to_power_hypothesis]. intros h h' R D S PC T E.
  destruct (raise_energy_supported tr btr k h R h' K D S PC E) as (Ed & Sp & _).
  assert (H : eholds tr btr W h') by (apply Sp; [auto|]; rewrite Ed; constructor; [unfold eholds; rewrite D; exact T|constructor]).
  assert (K1 : 1 <= k) by (destruct K as (n & N & Kn); rewrite Kn; change 1 with (inject_Z 1); rewrite <- Zle_Qle; lia).
  destruct (raise_energy_region k h R D S ltac:(lra)) as (h2 & R' & E2 & D' & _).
  rewrite E2 in E. injection E as <-. unfold eholds in H. rewrite D' in H. eauto.
Qed.
Print Assumptions raise_energy_true.

(** The default range with one further inequality. *)
Lemma one_half : forall E, ext_ok E -> forall h, List.length h = 6%nat -> ~ zero_row h ->
  exists R, from_union_of_halfplanes E [h] default_constraints = Ret R /\ sized 5 R /\ disj_only R /\
    (forall s t r e z, denote R [s; t; r; e; z] <-> in_range5 s t r e z /\ 0 <= rowval h [s; t; r; e; z]) /\
    ((exists s t r e z, 1#2 < s /\ s < 1 /\ 0 < t /\ t < TAU_UPPER_LIMIT /\ 0 < r /\ r < LV_DEFAULT_UPPER_BOUND /\
       0 < e /\ e < LV_DEFAULT_UPPER_BOUND /\ 0 < z /\ z < LV_DEFAULT_UPPER_BOUND /\ 0 < rowval h [s; t; r; e; z]) -> leaves (solid 5) R).
Proof.
  intros E OK h L NZ. destruct (halfplanes5 E OK [h] ltac:(repeat constructor; auto)) as (ps & Ep & Lp & Fp & Sp & Dp & IU & X & _).
  exists (RDisj (map (fun p => RPoly (plain p)) ps)). split; [exact Ep|]. split; [exact Sp|]. split; [exact Dp|].
  assert (Y : forall s t r e z, denote (RDisj (map (fun p => RPoly (plain p)) ps)) [s; t; r; e; z] <-> in_range5 s t r e z /\ 0 <= rowval h [s; t; r; e; z]).
  { intros s t r e z. rewrite X. split.
    - intros (s0 & t0 & r0 & e0 & z0 & Eq & B & Ex). injection Eq as <- <- <- <- <-. split; [exact B|]. inversion Ex as [? ? V|? ? V]; [exact V|inversion V].
    - intros (B & V). do 5 eexists. split; [reflexivity|]. split; [exact B|]. now left. }
  split; [exact Y|]. intros (s & t & r & e & z & A1 & A2 & A3 & A4 & A5 & A6 & A7 & A8 & A9 & A10 & V).
  destruct ps as [|p [|]]; try discriminate. apply Forall_cons_iff in Fp as [(G & B & N) _].
  cbn [leaves map allP]. split; [|exact Logic.I]. split; [exact G|]. split; [exact B|]. split; [exact N|]. intros _.
  exists [s; t; r; e; z].
  apply (rows_interior 5 (h :: default_constraints)); [constructor; [exact L|exact default_len]|exact N|reflexivity| |].
  - constructor; [exact V|]. unfold default_constraints, limits, unit_row. cbn [flat_map combine seq List.length map fst snd Nat.eqb app].
    repeat (constructor; [rewrite rowval6; lra|]). constructor.
  - intros y Ly F. apply len5 in Ly as (s0 & t0 & r0 & e0 & z0 & ->). apply Forall_cons_iff in F as [F1 F2]. apply box5_iff in F2.
    assert (U : in_union [p] [s0; t0; r0; e0; z0]) by (apply IU, Y; auto). destruct U as (q & [<- | []] & M). exact M.
Qed.

(** The transform is applied to every region: with a lower bound on the double
    zeta sum, true of patterns, the square is not true. *)
Theorem raise_energy_double_sum_refuted : exists h R h' R' W, e_data h = DLVER R /\ leaves (solid 5) R /\ en_admissible W /\
  lver_estimate W R /\ raise_energy 2 h = Ret h' /\ e_data h' = DLVER R' /\ ~ lver_estimate W R'.
Proof.
  destruct (one_half fm_ext fm_ext_ok [-(2); 0; 0; 0; 0; 1] eq_refl) as (R & _ & S & _ & X & SL).
  { intro Z. inversion Z. lra. }
  set (h := ENode [] (DLVER R) ref_trivial []).
  destruct (raise_energy_region 2 h R eq_refl S ltac:(lra)) as (h' & R' & E & D & _ & _ & _ & _ & _ & Y).
  exists h, R, h', R', (w0 true). split; [reflexivity|]. split.
  { apply SL. exists (3#4), 1, 1, 1, 3. rewrite rowval6. unfold TAU_UPPER_LIMIT, LV_DEFAULT_UPPER_BOUND. repeat split; lra. }
  split; [apply w0_admissible|]. split.
  { intros s t r e z (B & _) C. apply w0_en in C. apply X. split; [exact B|]. rewrite rowval6. unfold conj_en in C. lra. }
  split; [exact E|]. split; [exact D|]. intro T.
  assert (C : denote R' [1#2; 1; 0; 0; 2]).
  { apply T; [|apply w0_en; unfold conj_en, conj_lv; lra]. unfold recorded, in_range5, in_range, TAU_UPPER_LIMIT, LV_DEFAULT_UPPER_BOUND. lra. }
  assert (C' : denote R' [1#2; 2 * (1#2); 2 * 0; 2 * 0; 2 * 1]) by (revert C; apply denote5; reflexivity).
  apply Y, X in C' as [_ C']. rewrite rowval6 in C'. lra.
Qed.
Print Assumptions raise_energy_double_sum_refuted.

(** A power that is not a natural number is accepted but not true. *)
Theorem raise_energy_fraction_refuted : exists h R h' R' W, e_data h = DLVER R /\ leaves (solid 5) R /\ power_closed R /\ en_admissible W /\
  lver_estimate W R /\ raise_energy (1#2) h = Ret h' /\ e_data h' = DLVER R' /\ ~ lver_estimate W R'.
Proof.
  destruct (one_half fm_ext fm_ext_ok [0; 0; 1; -1; 0; 0] eq_refl) as (R & _ & S & _ & X & SL).
  { intro Z. inversion Z as [|? ? _ Z1]; subst. inversion Z1 as [|? ? _ Z2]; subst. inversion Z2. lra. }
  set (h := ENode [] (DLVER R) ref_trivial []).
  destruct (raise_energy_region (1#2) h R eq_refl S ltac:(lra)) as (h' & R' & E & D & _ & _ & _ & _ & _ & Y).
  exists h, R, h', R', (w0 true). split; [reflexivity|]. split.
  { apply SL. exists (3#4), 2, 1, 1, 3. rewrite rowval6. unfold TAU_UPPER_LIMIT, LV_DEFAULT_UPPER_BOUND. repeat split; lra. }
  split.
  { intros s t r e z r' e' z1 z2 (Rc & _) Lr Le H1 H2. apply X. apply X in H1 as [_ H1]. split; [exact Rc|]. rewrite rowval6 in *. lra. }
  split; [apply w0_admissible|]. split.
  { intros s t r e z (B & _) C. apply w0_en in C. apply X. split; [exact B|]. rewrite rowval6. unfold conj_en, conj_lv in C. lra. }
  split; [exact E|]. split; [exact D|]. intro T.
  assert (C : denote R' [1#2; TAU_UPPER_LIMIT; 0; 0; 2]).
  { apply T; [|apply w0_en; unfold conj_en, conj_lv, TAU_UPPER_LIMIT; lra]. unfold recorded, in_range5, in_range, TAU_UPPER_LIMIT, LV_DEFAULT_UPPER_BOUND. lra. }
  assert (C' : denote R' [1#2; (1#2) * (2 * TAU_UPPER_LIMIT); (1#2) * 0; (1#2) * 0; (1#2) * 4]) by (revert C; apply denote5; unfold TAU_UPPER_LIMIT; reflexivity).
  apply Y, X in C' as [((_ & _ & _ & C' & _) & _) _]. unfold TAU_UPPER_LIMIT in C'. lra.
Qed.
Print Assumptions raise_energy_fraction_refuted.

(** What is not a region cannot be raised. *)
Theorem raise_energy_other : forall k h, (forall r, e_data h <> DLVER r) -> (forall r, e_data h <> DZLVER r) -> (forall r, e_data h <> DEnergy r) ->
  (forall r rep, e_data h <> DLow (DLV r rep)) -> (forall r rep, e_data h <> DLow (DZLV r rep)) -> raise_energy k h = Raise AttributeError.
Proof.
  intros k h A B C D F. unfold raise_energy, e_region. destruct (e_data h) as [r|q|r|r|d] eqn:Ed; try (exfalso; eauto; congruence); [reflexivity|].
  destruct d as [r rep|q|r rep|d]; try (exfalso; eauto; congruence); reflexivity.
Qed.
Print Assumptions raise_energy_other.

(** ** C42: exponent pairs *)

(** The region is the published inequality within the default range, its pieces
    do not overlap, and it rests on the pair. *)
Theorem ep_to_lver_exact : forall E, ext_ok E -> forall eph k l, e_data eph = DLow (DBase (DPair k l)) -> ~ 1 + 2 * k + 2 * l == 0 ->
  exists ps h, ep_to_lver E eph = Ret h /\ e_data h = DLVER (RDisj (map (fun p => RPoly (plain p)) ps)) /\ e_deps h = [eph] /\
    r_year (e_ref h) = r_year (e_ref eph) /\
    Forall (fun p => good p /\ bounded p /\ ncol (pmat p) = 6%nat) ps /\ sized 5 (RDisj (map (fun p => RPoly (plain p)) ps)) /\
    (forall x, denote (RDisj (map (fun p => RPoly (plain p)) ps)) x <->
       exists s t r e z, x = [s; t; r; e; z] /\ in_range5 s t r e z /\ energy_bound k l s t r e) /\
    ForallOrdPairs (fun p q => forall x, ~ (interior p x /\ interior q x)) ps.
Proof.
  intros E OK eph k l D NZ. destruct (energy_rows_ok k l NZ) as (rows & Er & Fr & Hr).
  destruct (halfplanes5 E OK rows Fr) as (ps & Ep & _ & Fp & Sp & _ & _ & X & Dj).
  exists ps. unfold ep_to_lver. rewrite D, Er. cbn [bind]. rewrite Ep. cbn [bind]. unfold derived_lver. rewrite derived_e_one.
  eexists. split; [reflexivity|]. split; [reflexivity|]. split; [reflexivity|]. split; [reflexivity|]. split; [exact Fp|]. split; [exact Sp|].
  split; [|exact Dj]. intro x. rewrite X. split; intros (s & t & r & e & z & -> & B & H); exists s, t, r, e, z; (split; [reflexivity|]); split; auto; apply (Hr s t r e z); exact H.
Qed.
Print Assumptions ep_to_lver_exact.

(** The pair suffices for the region, and the power rule applies to it. *)
Theorem ep_to_lver_supported : forall tr btr E, ext_ok E -> forall eph k l h, e_data eph = DLow (DBase (DPair k l)) -> 0 < k -> 0 <= l ->
  ep_to_lver E eph = Ret h -> e_deps h = [eph] /\ esupported tr btr h /\ forall R, e_data h = DLVER R -> power_closed R.
Proof.
  intros tr btr E OK eph k l h D K L H.
  destruct (ep_to_lver_exact E OK eph k l D ltac:(lra)) as (ps & h' & Eh & Dh & Ed & _ & _ & _ & X & _).
  rewrite Eh in H. injection H as <-. split; [exact Ed|]. split.
  - intros W Ad F. rewrite Ed in F. inversion F as [|? ? Hp _]; subst. unfold eholds in Hp. rewrite D in Hp.
    unfold eholds. rewrite Dh. intros s t r e z (B & _) En. apply X. do 5 eexists. split; [reflexivity|]. split; [exact B|].
    apply (en_pair W Ad k l s t r e z); auto.
  - intros R DR. rewrite Dh in DR. injection DR as <-. intros s t r e z r' e' z1 z2 (B & _) Lr Le _ H2. apply X in H2 as (? & ? & ? & ? & ? & Eq & _ & H2).
    injection Eq as <- <- <- <- <-. apply X. do 5 eexists. split; [reflexivity|]. split; [exact B|].
    exact (energy_bound_mono k l s t r r' e K L Lr H2).
Qed.
Print Assumptions ep_to_lver_supported.

Theorem ep_to_lver_zero_refuted : forall E eph k l, e_data eph = DLow (DBase (DPair k l)) -> 1 + 2 * k + 2 * l == 0 ->
  ep_to_lver E eph = Raise ZeroDivisionError.
Proof.
  intros E eph k l D Z. unfold ep_to_lver. rewrite D. unfold energy_rows, first_max, qdiv.
  destruct (Qeqb_spec (1 + 2 * k + 2 * l) 0); [reflexivity|contradiction].
Qed.
Print Assumptions ep_to_lver_zero_refuted.

Theorem ep_to_lver_other : forall E eph, (forall k l, e_data eph <> DLow (DBase (DPair k l))) -> ep_to_lver E eph = Raise AttributeError.
Proof.
  intros E eph H. unfold ep_to_lver. destruct (e_data eph) as [| | | |d]; auto. destruct d as [| | |d]; auto. destruct d; auto. exfalso. eapply H. reflexivity.
Qed.
Print Assumptions ep_to_lver_other.

(** ** C43: moving between regions in three and in five variables *)

(** [lv_to_lver]: one region for each (zeta) large value estimate, the same
    condition on (sigma, tau, rho) with no condition but the default limits on
    the new variables. *)
Theorem lv_to_lver_exact : forall hs (zeta : bool),
  (forall h r rep, In h hs -> e_data h = DLow (if zeta then DZLV r rep else DLV r rep) -> sized 3 r /\ positive r) ->
  exists out, lv_to_lver hs zeta = Ret out /\
    let becomes (h g : enode) := exists r rep q, e_data h = DLow (if zeta then DZLV r rep else DLV r rep) /\
      e_data g = (if zeta then DZLVER q else DLVER q) /\ e_deps g = [h] /\ r_year (e_ref g) = r_year (e_ref h) /\
      (leaves (solid 3) r -> leaves (solid 5) q) /\ (disjoint_form r -> disjoint_form q) /\
      (forall x, denote q x -> List.length x = 5%nat) /\
      forall s t u e z, denote q [s; t; u; e; z] <->
        denote r [s; t; u] /\ 0 <= e /\ e <= LV_DEFAULT_UPPER_BOUND /\ 0 <= z /\ z <= LV_DEFAULT_UPPER_BOUND in
    (forall h r rep, In h hs -> e_data h = DLow (if zeta then DZLV r rep else DLV r rep) -> exists g, In g out /\ becomes h g) /\
    (forall g, In g out -> exists h, In h hs /\ becomes h g).
Proof.
  intros hs zeta U. cbv zeta. unfold lv_to_lver.
  set (becomes := fun h g : enode => exists r rep q, e_data h = DLow (if zeta then DZLV r rep else DLV r rep) /\
      e_data g = (if zeta then DZLVER q else DLVER q) /\ e_deps g = [h] /\ r_year (e_ref g) = r_year (e_ref h) /\
      (leaves (solid 3) r -> leaves (solid 5) q) /\ (disjoint_form r -> disjoint_form q) /\
      (forall x, denote q x -> List.length x = 5%nat) /\
      forall s t u e z, denote q [s; t; u; e; z] <->
        denote r [s; t; u] /\ 0 <= e /\ e <= LV_DEFAULT_UPPER_BOUND /\ 0 <= z /\ z <= LV_DEFAULT_UPPER_BOUND).
  induction hs as [|h hs IH].
  - exists []. split; [destruct zeta; reflexivity|]. split; [intros h r rep []|intros g []].
  - destruct IH as (out & Eo & I1 & I2); [intros a r rep Ha; apply (U a r rep); now right|].
    assert (DC : (exists r rep, e_data h = DLow (if zeta then DZLV r rep else DLV r rep) /\ (if zeta then e_is_zlv else e_is_lv) h = true) \/
      ((forall r rep, e_data h <> DLow (if zeta then DZLV r rep else DLV r rep)) /\ (if zeta then e_is_zlv else e_is_lv) h = false)).
    { destruct zeta; unfold e_is_zlv, e_is_lv; destruct (e_data h) as [| | | |[]]; try (right; split; [intros; discriminate|reflexivity]); left; eauto. }
    destruct DC as [(r & rep & Dh & F)|(Nh & F)]; cbn [filter]; rewrite F.
    + destruct (U h r rep ltac:(now left) Dh) as [S P]. destruct (lv_lift_ok r S P) as (q & Eq & Q1 & Q2 & Q3 & Q4).
      cbn [mapM]. assert (Er : e_region h = Ret r) by (unfold e_region; rewrite Dh; destruct zeta; reflexivity). rewrite Er. cbn [bind]. rewrite Eq. cbn [bind].
      assert (Ed : exists g, (if zeta then derived_zlver else derived_lver) q [h] = Ret g /\ e_data g = (if zeta then DZLVER q else DLVER q) /\ e_deps g = [h] /\ r_year (e_ref g) = r_year (e_ref h)).
      { destruct zeta; unfold derived_zlver, derived_lver; rewrite derived_e_one; eexists; (split; [reflexivity|]); auto. }
      destruct Ed as (g & Eg & Dg & Gd & Gy). rewrite Eg. cbn [bind]. rewrite Eo. cbn [bind]. eexists. split; [reflexivity|].
      assert (B : becomes h g) by (exists r, rep, q; auto 10).
      split.
      * intros a r' rep' [<- | Ha] Da; [exists g; split; [now left|exact B]|]. destruct (I1 a r' rep' Ha Da) as (g' & Hg & Bg). exists g'. split; [now right|exact Bg].
      * intros g' [<- | Hg]; [exists h; split; [now left|exact B]|]. destruct (I2 g' Hg) as (a & Ha & Ba). exists a. split; [now right|exact Ba].
    + exists out. split; [exact Eo|]. split.
      * intros a r rep [<- | Ha] Da; [exfalso; exact (Nh r rep Da)|eauto].
      * intros g Hg. destruct (I2 g Hg) as (a & Ha & Ba). exists a. split; [now right|exact Ba].
Qed.
Print Assumptions lv_to_lver_exact.

(** Each result rests on its estimate alone, and the power rule applies to it. *)
Theorem lv_to_lver_supported : forall tr btr hs (zeta : bool) out,
  (forall h r rep, In h hs -> e_data h = DLow (if zeta then DZLV r rep else DLV r rep) -> sized 3 r /\ positive r) ->
  lv_to_lver hs zeta = Ret out ->
  Forall (fun g => (exists h, In h hs /\ e_deps g = [h]) /\ esupported tr btr g /\ forall R, e_data g = DLVER R -> power_closed R) out.
Proof.
  intros tr btr hs zeta out U H. destruct (lv_to_lver_exact hs zeta U) as (out' & Eo & _ & I2). rewrite Eo in H. injection H as <-.
  apply Forall_forall. intros g Hg. destruct (I2 g Hg) as (h & Hh & r & rep & q & Dh & Dg & Gd & _ & _ & _ & _ & X).
  split; [eauto|]. split.
  - intros W Ad F. rewrite Gd in F. inversion F as [|? ? T _]; subst. unfold eholds in *. rewrite Dg. rewrite Dh in T. destruct zeta; cbn in T.
    + intros s t u e z ((B & B1 & B2 & B3 & B4) & _) T2 En. apply X. split; [|auto]. apply T; auto. exact (zen_zlv W Ad _ _ _ _ _ T2 En).
    + intros s t u e z ((B & B1 & B2 & B3 & B4) & _) En. apply X. split; [|auto]. apply T; auto. exact (en_lv W Ad _ _ _ _ _ En).
  - intros R DR. rewrite Dg in DR. destruct zeta; [discriminate|]. injection DR as <-.
    intros s t u e z r' e' z1 z2 ((B & B1 & B2 & B3 & B4) & _) _ _ H1 _. apply X. apply X in H1 as [H1 _]. auto.
Qed.
Print Assumptions lv_to_lver_supported.

(** Projections. *)
Lemma selected_lv : forall s t r e z, selected [0; 1; 2]%nat 0 [s; t; r; e; z] = [s; t; r].
Proof. reflexivity. Qed.
Lemma selected_en : forall s t r e z, selected [0; 1; 3]%nat 0 [s; t; r; e; z] = [s; t; e].
Proof. reflexivity. Qed.

Lemma solid_dims : forall ps, Forall (solid 5) ps -> leaves (solid 5) (RDisj (map RPoly ps)) /\ unions_only (RDisj (map RPoly ps)) /\
  leaves (fun p => good (body p) /\ bounded (body p) /\ has_dim 5 p) (RDisj (map RPoly ps)) /\
  forall x, denote (RDisj (map RPoly ps)) x -> exists s t r e z, x = [s; t; r; e; z].
Proof.
  intros ps F. rewrite Forall_forall in F. cbn [leaves unions_only]. rewrite !allP_iff.
  split; [intros a Ha; apply in_map_iff in Ha as (p & <- & Hp); now apply F|].
  split; [intros a Ha; apply in_map_iff in Ha as (p & <- & Hp); exact Logic.I|].
  split; [intros a Ha; apply in_map_iff in Ha as (p & <- & Hp); cbn; destruct (F p Hp) as (A & B & C & _); auto|].
  intros x D. cbn [denote] in D. apply anyP_iff in D as (a & Ha & D). apply in_map_iff in Ha as (p & <- & Hp). cbn in D.
  destruct (F p Hp) as (_ & _ & N & _). destruct D as [L _]. apply len5. lia.
Qed.

(** Projection to three of the five coordinates followed by [simplify]. *)
Lemma project_simplify : forall E, ext_ok E -> forall order, (forall k l, Permutation (order k l) l) ->
  forall dims (pick : Q -> Q -> Q -> Q -> Q -> point), (forall s t r e z, selected dims 0 [s; t; r; e; z] = pick s t r e z) ->
  (forall s t r e z, (1 <= List.length (pick s t r e z))%nat) ->
  forall ps, Forall (solid 5) ps ->
  (rproject E dims (RDisj (map RPoly ps)) = Ret None /\ forall x, ~ denote (RDisj (map RPoly ps)) x) \/
  exists q b q', rproject E dims (RDisj (map RPoly ps)) = Ret (Some q) /\ simplify E order q = Ret (b, q') /\
    (exists x, denote (RDisj (map RPoly ps)) x) /\
    forall y, denote q' y <-> exists s t r e z, denote (RDisj (map RPoly ps)) [s; t; r; e; z] /\ Forall2 Qeq y (pick s t r e z).
Proof.
  intros E OK order OO dims pick Sel Pos ps F. destruct (solid_dims ps F) as (S5 & UO & GB & L5).
  destruct (region_project E OK dims 5 (RDisj (map RPoly ps)) UO GB) as (q & Eq & Hq). destruct q as [q|]; [|left; auto].
  right. destruct Hq as [Ex Hq]. destruct (rproject_solid E OK 5 dims _ q UO S5 Eq) as [Sq _].
  change (repeat 0 5) with [0; 0; 0; 0; 0] in Sq. rewrite Sel in Sq.
  destruct (region_simplify E OK order OO _ q (Pos 0 0 0 0 0) Sq) as (b & q' & Es & Hs).
  exists q, b, q'. split; [exact Eq|]. split; [exact Es|]. split; [exact Ex|]. intro y. rewrite Hs, Hq. split.
  - intros (x & D & A). destruct (L5 x D) as (s & t & r & e & z & ->). rewrite Sel in A. eauto 10.
  - intros (s & t & r & e & z & D & A). exists [s; t; r; e; z]. rewrite Sel. auto.
Qed.

Lemma F2_3 : forall s t u s' t' u', Forall2 Qeq [s; t; u] [s'; t'; u'] <-> s == s' /\ t == t' /\ u == u'.
Proof.
  intros. split.
  - intro H. inversion H as [|? ? ? ? A1 H1]; subst. inversion H1 as [|? ? ? ? A2 H2]; subst. inversion H2; subst. auto.
  - intros (A & B & C). repeat (constructor; [assumption|]). constructor.
Qed.

Lemma pieces_ok : forall E, ext_ok E -> forall order, (forall k l, Permutation (order k l) l) ->
  forall R, disjoint_form R -> leaves (solid 5) R ->
  exists ps, as_disjoint_union E order false R = Ret (RDisj (map RPoly ps)) /\ pieces_of R ps.
Proof.
  intros E OK order OO R DF S. destruct (region_as_disjoint_union E OK order OO 5 false R ltac:(lia) DF S ltac:(discriminate)) as (ps & Eps & A & B & C & D & _).
  exists ps. split; [exact Eps|]. split; [exact A|]. split; [exact B|]. split; [exact C|]. split; [exact D|].
  intros DO x Dx. destruct (disj_only_exact E order R DO) as (ps' & Eps' & _ & X). rewrite Eps in Eps'. injection Eps' as Ep.
  assert (ps = ps'); [|subst; now apply X].
  clear - Ep. revert ps' Ep. induction ps as [|p ps IH]; intros [|p' ps'] Ep; try discriminate; [reflexivity|]. injection Ep as -> Ep. f_equal. auto.
Qed.

Lemma disj_only_form : forall R, disj_only R -> disjoint_form R.
Proof.
  intros R. induction R as [p|r IH|r IH|rs IH|rs IH|rs IH] using region_tree_ind; cbn; try tauto. rewrite !allP_iff. rewrite Forall_forall in IH. auto.
Qed.

(** [lver_to_lv] keeps sigma, tau and rho; an empty region is not handled. *)
Theorem lver_to_lv_exact : forall E, ext_ok E -> forall order, (forall k l, Permutation (order k l) l) ->
  forall h R, e_data h = DLVER R \/ e_data h = DZLVER R -> disjoint_form R -> leaves (solid 5) R ->
  exists ps, pieces_of R ps /\
    ((forall x, ~ denote (RDisj (map RPoly ps)) x) /\ lver_to_lv E order h = Raise AttributeError \/
     (exists x, denote (RDisj (map RPoly ps)) x) /\ exists h' q, lver_to_lv E order h = Ret h' /\
       e_data h' = DLow (match e_data h with DZLVER _ => DZLV q None | _ => DLV q None end) /\
       e_deps h' = [h] /\ r_year (e_ref h') = r_year (e_ref h) /\
       forall s t u, denote q [s; t; u] <-> exists e z, denote (RDisj (map RPoly ps)) [s; t; u; e; z]).
Proof.
  intros E OK order OO h R D DF S. destruct (pieces_ok E OK order OO R DF S) as (ps & Eps & P). exists ps. split; [exact P|].
  destruct P as (F & _).
  destruct (project_simplify E OK order OO [0; 1; 2]%nat (fun s t r e z => [s; t; r]) selected_lv ltac:(cbn; intros; lia) ps F)
    as [(Ep & N)|(q & b & q' & Ep & Es & Ex & X)]; [left|right].
  - split; [exact N|]. unfold lver_to_lv.
    destruct D as [D|D]; rewrite D, Eps; cbn [bind]; rewrite Ep; reflexivity.
  - split; [exact Ex|]. unfold lver_to_lv.
    assert (Y : forall s t u, denote q' [s; t; u] <-> exists e z, denote (RDisj (map RPoly ps)) [s; t; u; e; z]).
    { intros s t u. rewrite X. split.
      - intros (s' & t' & u' & e & z & Dx & A). apply F2_3 in A as (A1 & A2 & A3). exists e, z. revert Dx. apply denote5; try reflexivity; symmetry; assumption.
      - intros (e & z & Dx). exists s, t, u, e, z. split; [exact Dx|]. apply F2_3. repeat split; reflexivity. }
    destruct D as [D|D]; rewrite D, Eps; cbn [bind]; rewrite Ep; cbn [bind]; rewrite Es; cbn [bind]; rewrite derived_e_one;
      do 2 eexists; (split; [reflexivity|]); (split; [reflexivity|]); (split; [reflexivity|]); (split; [reflexivity|exact Y]).
Qed.
Print Assumptions lver_to_lv_exact.

(** Regions without intersections are projected exactly. *)
Theorem lver_to_lv_union : forall E, ext_ok E -> forall order, (forall k l, Permutation (order k l) l) ->
  forall h R h', e_data h = DLVER R \/ e_data h = DZLVER R -> disj_only R -> leaves (solid 5) R -> lver_to_lv E order h = Ret h' ->
  exists q, e_data h' = DLow (match e_data h with DZLVER _ => DZLV q None | _ => DLV q None end) /\
    forall s t u, denote q [s; t; u] <-> exists e z, denote R [s; t; u; e; z].
Proof.
  intros E OK order OO h R h' D DO S H.
  destruct (lver_to_lv_exact E OK order OO h R D (disj_only_form R DO) S) as (ps & (_ & P1 & _ & _ & P2) & [(_ & B)|(_ & h2 & q & B & Dq & _ & _ & X)]);
    rewrite B in H; [discriminate|]. injection H as <-. exists q. split; [exact Dq|]. intros s t u. rewrite X.
  split; intros (e & z & A); exists e, z; [now apply P1|now apply P2].
Qed.
Print Assumptions lver_to_lv_union.

(** What the estimate says is true up to a third of the default limit. *)
Theorem lver_to_lv_true : forall E, ext_ok E -> forall order, (forall k l, Permutation (order k l) l) ->
  forall W h R h', en_admissible W -> disj_only R -> leaves (solid 5) R -> lver_to_lv E order h = Ret h' ->
  (e_data h = DLVER R -> lver_estimate W R -> exists q, e_data h' = DLow (DLV q None) /\
    forall s t u, in_range s t u -> 3 * u + 2 <= LV_DEFAULT_UPPER_BOUND -> lv (low W) s t u -> denote q [s; t; u]) /\
  (e_data h = DZLVER R -> zlver_estimate W R -> exists q, e_data h' = DLow (DZLV q None) /\
    forall s t u, in_range s t u -> 2 <= t -> 3 * u + 2 <= LV_DEFAULT_UPPER_BOUND -> zlv (low W) s t u -> denote q [s; t; u]).
Proof.
  intros E OK order OO W h R h' Ad DO S H.
  assert (RC : forall s t u e z, in_range s t u -> 3 * u + 2 <= LV_DEFAULT_UPPER_BOUND -> en W [s; t; u; e; z] -> recorded s t u e z).
  { intros s t u e z IR M En. pose proof IR as (A1 & A2 & A3 & A4 & A5 & A6). pose proof (en_sizes W Ad _ _ _ _ _ En) as Sz.
    split; [|exact M]. split; [exact IR|]. lra. }
  split; intros D T; destruct (lver_to_lv_union E OK order OO h R h' ltac:(auto) DO S H) as (q & Dq & X); rewrite D in Dq; exists q; (split; [exact Dq|]).
  - intros s t u IR M L. apply X. pose proof IR as (A1 & A2 & A3 & A4 & A5 & A6).
    destruct (lv_en W Ad s t u A1 A2 A3 A5 L) as (e & z & En). exists e, z. apply T; auto.
  - intros s t u IR T2 M L. apply X. pose proof IR as (A1 & A2 & A3 & A4 & A5 & A6).
    destruct (zlv_zen W Ad s t u A1 A2 T2 A5 L) as (e & z & En). exists e, z. apply T; auto. apply RC; auto. exact (zen_en W Ad _ _ _ _ _ A1 A2 T2 En).
Qed.
Print Assumptions lver_to_lv_true.

(** At the limit it is not: the energy of 10^6 large values is not within the
    limits, and the region loses them. *)
Theorem lver_to_lv_limit_refuted : forall E, ext_ok E -> forall order, (forall k l, Permutation (order k l) l) ->
  exists h R h' q W, e_data h = DLVER R /\ disj_only R /\ leaves (solid 5) R /\ en_admissible W /\ lver_estimate W R /\
    lver_to_lv E order h = Ret h' /\ e_data h' = DLow (DLV q None) /\ ~ lv_estimate (low W) q.
Proof.
  intros E OK order OO. destruct (one_half E OK [0; 0; 0; -(2); 1; 0] eq_refl) as (R & _ & S & DO & X & SL).
  { intro Z. inversion Z as [|? ? _ Z1]; subst. inversion Z1 as [|? ? _ Z2]; subst. inversion Z2 as [|? ? _ Z3]; subst. inversion Z3. lra. }
  assert (S5 : leaves (solid 5) R).
  { apply SL. exists (3#4), 1, 1, 3, 1. rewrite rowval6. unfold TAU_UPPER_LIMIT, LV_DEFAULT_UPPER_BOUND. repeat split; lra. }
  set (h := ENode [] (DLVER R) ref_trivial []).
  destruct (lver_to_lv_exact E OK order OO h R (or_introl eq_refl) (disj_only_form R DO) S5) as (ps & (_ & P1 & _ & _ & P2) & [(B & _)|(_ & h2 & q & B & Dq & _ & _ & Y)]).
  { exfalso. apply (B [1#2; 0; 0; 0; 0]). apply P2; [exact DO|]. apply X. rewrite rowval6. unfold in_range5, in_range, TAU_UPPER_LIMIT, LV_DEFAULT_UPPER_BOUND. lra. }
  exists h, R, h2, q, (w0 true). split; [reflexivity|]. split; [exact DO|]. split; [exact S5|]. split; [apply w0_admissible|]. split.
  { intros s t r e z (Rc & _) En. apply w0_en in En. apply X. split; [exact Rc|]. rewrite rowval6. unfold conj_en in En. lra. }
  split; [exact B|]. split; [exact Dq|]. intro T.
  assert (C : denote q [1#2; TAU_UPPER_LIMIT; LV_DEFAULT_UPPER_BOUND]).
  { apply T; [unfold in_range, TAU_UPPER_LIMIT, LV_DEFAULT_UPPER_BOUND; lra|]. cbn. unfold conj_lv, TAU_UPPER_LIMIT, LV_DEFAULT_UPPER_BOUND. lra. }
  apply Y in C as (e & z & C). apply P1, X in C as [(_ & _ & C1 & _) C2]. rewrite rowval6 in C2. unfold LV_DEFAULT_UPPER_BOUND in *. lra.
Qed.
Print Assumptions lver_to_lv_limit_refuted.

(** Other hypotheses are refused. *)
Theorem lver_to_lv_other : forall E order h, (forall R, e_data h <> DLVER R) -> (forall R, e_data h <> DZLVER R) ->
  lver_to_lv E order h = Raise ValueError /\ lver_to_energy E order h = Raise ValueError.
Proof.
  intros E order h A B. unfold lver_to_lv, lver_to_energy.
  destruct (e_data h) eqn:D; try (split; reflexivity); exfalso; [exact (A _ eq_refl)|exact (B _ eq_refl)].
Qed.
Print Assumptions lver_to_lv_other.

(** [lver_to_energy] keeps sigma, tau and rho*; nothing for an empty region. *)
Theorem lver_to_energy_exact : forall E, ext_ok E -> forall order, (forall k l, Permutation (order k l) l) ->
  forall h R, e_data h = DLVER R \/ e_data h = DZLVER R -> disjoint_form R -> leaves (solid 5) R ->
  exists ps, pieces_of R ps /\
    ((forall x, ~ denote (RDisj (map RPoly ps)) x) /\ lver_to_energy E order h = Ret None \/
     (exists x, denote (RDisj (map RPoly ps)) x) /\ exists h' q, lver_to_energy E order h = Ret (Some h') /\
       e_data h' = DEnergy q /\ e_deps h' = [h] /\ r_year (e_ref h') = r_year (e_ref h) /\
       forall s t e, denote q [s; t; e] <-> exists r z, denote (RDisj (map RPoly ps)) [s; t; r; e; z]).
Proof.
  intros E OK order OO h R D DF S. destruct (pieces_ok E OK order OO R DF S) as (ps & Eps & P). exists ps. split; [exact P|].
  destruct P as (F & _).
  destruct (project_simplify E OK order OO [0; 1; 3]%nat (fun s t r e z => [s; t; e]) selected_en ltac:(cbn; intros; lia) ps F)
    as [(Ep & N)|(q & b & q' & Ep & Es & Ex & X)]; [left|right].
  - split; [exact N|]. unfold lver_to_energy.
    destruct D as [D|D]; rewrite D, Eps; cbn [bind]; rewrite Ep; reflexivity.
  - split; [exact Ex|]. unfold lver_to_energy.
    assert (Y : forall s t e, denote q' [s; t; e] <-> exists r z, denote (RDisj (map RPoly ps)) [s; t; r; e; z]).
    { intros s t e. rewrite X. split.
      - intros (s' & t' & r & e' & z & Dx & A). apply F2_3 in A as (A1 & A2 & A3). exists r, z. revert Dx. apply denote5; try reflexivity; symmetry; assumption.
      - intros (r & z & Dx). exists s, t, r, e, z. split; [exact Dx|]. apply F2_3. repeat split; reflexivity. }
    destruct D as [D|D]; rewrite D, Eps; cbn [bind]; rewrite Ep; cbn [bind]; rewrite Es; cbn [bind]; unfold derived_energy; rewrite derived_e_one; cbn [bind];
      do 2 eexists; (split; [reflexivity|]); (split; [reflexivity|]); (split; [reflexivity|]); (split; [reflexivity|exact Y]).
Qed.
Print Assumptions lver_to_energy_exact.

(** For a large value energy region the region suffices for the estimate. *)
Theorem lver_to_energy_supported : forall tr btr E, ext_ok E -> forall order, (forall k l, Permutation (order k l) l) ->
  forall h R h', e_data h = DLVER R -> disj_only R -> leaves (solid 5) R -> lver_to_energy E order h = Ret (Some h') ->
  e_deps h' = [h] /\ esupported tr btr h'.
Proof.
  intros tr btr E OK order OO h R h' D DO S H.
  destruct (lver_to_energy_exact E OK order OO h R (or_introl D) (disj_only_form R DO) S) as (ps & (_ & _ & _ & _ & P2) & [(_ & B)|(_ & h2 & q & B & Dq & Ed & _ & X)]);
    rewrite B in H; [discriminate|]. injection H as <-. split; [exact Ed|].
  intros W Ad F. rewrite Ed in F. inversion F as [|? ? T _]; subst. unfold eholds in *. rewrite Dq. rewrite D in T.
  intros s t r e z Rc En. apply X. exists r, z. apply P2; auto.
Qed.
Print Assumptions lver_to_energy_supported.

(** For a zeta large value energy region it does not: the result does not say
    that it is about zeta large values only. *)
Theorem lver_to_energy_zeta_refuted : forall tr btr E, ext_ok E -> forall order, (forall k l, Permutation (order k l) l) ->
  exists h R h', e_data h = DZLVER R /\ disj_only R /\ leaves (solid 5) R /\ lver_to_energy E order h = Ret (Some h') /\
    e_deps h' = [h] /\ ~ esupported tr btr h'.
Proof.
  intros tr btr E OK order OO. destruct (one_half E OK [1#2; 0; 0; 0; -1; 0] eq_refl) as (R & _ & S & DO & X & SL).
  { intro Z. inversion Z. lra. }
  assert (S5 : leaves (solid 5) R).
  { apply SL. exists (3#4), 1, 1, (1#4), 1. rewrite rowval6. unfold TAU_UPPER_LIMIT, LV_DEFAULT_UPPER_BOUND. repeat split; lra. }
  set (h := ENode [] (DZLVER R) ref_trivial []).
  destruct (lver_to_energy_exact E OK order OO h R (or_intror eq_refl) (disj_only_form R DO) S5) as (ps & (_ & P1 & _ & _ & P2) & [(B & _)|(_ & h2 & q & B & Dq & Ed & _ & Y)]).
  { exfalso. apply (B [1#2; 0; 0; 0; 0]). apply P2; [exact DO|]. apply X. rewrite rowval6. unfold in_range5, in_range, TAU_UPPER_LIMIT, LV_DEFAULT_UPPER_BOUND. lra. }
  exists h, R, h2. split; [reflexivity|]. split; [exact DO|]. split; [exact S5|]. split; [exact B|]. split; [exact Ed|]. intro Sp.
  specialize (Sp (w0 false) (w0_admissible false)). rewrite Ed in Sp. unfold eholds in Sp. rewrite Dq in Sp.
  assert (T : energy_estimate (w0 false) q).
  { apply Sp. constructor; [|constructor]. unfold eholds, h. cbn [e_data]. intros s t r e z _ _ (? & ? & ? & ? & ? & _ & C & _). discriminate. }
  assert (C : denote q [1#2; 4; 2]).
  { apply (T (1#2) 4 1 2 3); [unfold recorded, in_range5, in_range, TAU_UPPER_LIMIT, LV_DEFAULT_UPPER_BOUND; lra|]. apply w0_en. unfold conj_en, conj_lv. lra. }
  apply Y in C as (r & z & C). apply P1, X in C as [_ C]. rewrite rowval6 in C. lra.
Qed.
Print Assumptions lver_to_energy_zeta_refuted.

(** ** C44: the best region from a set of hypotheses *)

Lemma transformed_ok : forall hs, usable_lvers hs -> nonzero_lver_powers hs ->
  exists new, transformed_lvers hs = Ret new /\ forall g, In g new <-> raised_lver hs g.
Proof.
  intros hs U NZ. unfold transformed_lvers.
  assert (ONE : forall t, In t (filter is_lver_trans hs) -> exists gs, mapM (apply_lver_trans t) (filter is_lver hs) = Ret gs /\
    forall g, In g gs <-> exists k h R, e_data t = DLVERTrans k /\ In h hs /\ e_data h = DLVER R /\ raise_energy k h = Ret g).
  { intros t Ht. apply filter_In in Ht as [Ht Ft]. unfold is_lver_trans in Ft. destruct (e_data t) as [|k| | |] eqn:Dt; try discriminate.
    assert (TOT : forall h, In h (filter is_lver hs) -> exists g, apply_lver_trans t h = Ret g).
    { intros h Hh. apply filter_In in Hh as [Hh Fh]. unfold is_lver in Fh. destruct (e_data h) as [R| | | |] eqn:Dh; try discriminate.
      unfold apply_lver_trans. rewrite Dt. destruct (U h R Hh Dh) as [_ S5].
      destruct (raise_energy_region k h R Dh) as (g & _ & Eg & _); [|exact (NZ t k Ht Dt)|eauto].
      revert S5. apply leaves_mono. intros p Sp. split; [apply Sp|]. split; [exact (solid_rows 5 p ltac:(lia) Sp)|apply Sp]. }
    destruct (mapM_ret _ _ _ _ TOT) as (gs & Eg). exists gs. split; [exact Eg|]. intro g. rewrite (mapM_In _ _ _ _ _ g Eg). split.
    - intros (h & Hh & Ag). apply filter_In in Hh as [Hh Fh]. unfold is_lver in Fh. destruct (e_data h) as [R| | | |] eqn:Dh; try discriminate.
      unfold apply_lver_trans in Ag. rewrite Dt in Ag. exists k, h, R. auto.
    - intros (k' & h & R & Ek & Hh & Dh & Ag). injection Ek as <-. exists h. split; [apply filter_In; split; [exact Hh|]; unfold is_lver; now rewrite Dh|].
      unfold apply_lver_trans. now rewrite Dt. }
  destruct (mapM_ret _ _ (fun t => mapM (apply_lver_trans t) (filter is_lver hs)) (filter is_lver_trans hs)) as (gss & Egs).
  { intros t Ht. destruct (ONE t Ht) as (gs & Eg & _). eauto. }
  rewrite Egs. cbn [bind]. eexists. split; [reflexivity|]. intro g. rewrite in_concat. unfold raised_lver. split.
  - intros (gs & Hgs & Hg). apply (mapM_In _ _ _ _ _ gs Egs) in Hgs as (t & Ht & Et). destruct (ONE t Ht) as (gs' & Eg & I). rewrite Eg in Et. injection Et as <-.
    apply I in Hg as (k & h & R & A & B & C & D). apply filter_In in Ht as [Ht _]. exists t, k, h, R. auto.
  - intros (t & k & h & R & Ht & Dt & Hh & Dh & Ag).
    assert (Ft : In t (filter is_lver_trans hs)) by (apply filter_In; split; [exact Ht|]; unfold is_lver_trans; now rewrite Dt).
    destruct (ONE t Ft) as (gs & Eg & I). exists gs. split; [apply (mapM_In _ _ _ _ _ gs Egs); eauto|]. apply I. exists k, h, R. auto.
Qed.

(** [expand_lver] adds every region raised by every transform, and nothing else. *)
Theorem expand_lver_exact : forall hs, usable_lvers hs -> nonzero_lver_powers hs ->
  exists out, expand_lver hs = Ret out /\ forall g, In g out <-> In g hs \/ raised_lver hs g.
Proof.
  intros hs U NZ. destruct (transformed_ok hs U NZ) as (new & En & I). unfold expand_lver. rewrite En. cbn [bind].
  eexists. split; [reflexivity|]. intro g. rewrite in_app_iff, I. reflexivity.
Qed.
Print Assumptions expand_lver_exact.

Lemma usable_sized : forall hs h R, usable_lvers hs -> In h hs -> e_data h = DLVER R -> sized 5 R.
Proof.
  intros hs h R U Hh Dh. destruct (U h R Hh Dh) as [_ S5]. revert S5. apply leaves_mono.
  intros p Sp. split; [apply Sp|]. split; [exact (solid_rows 5 p ltac:(lia) Sp)|apply Sp].
Qed.

(** What is added rests on what was there. *)
Theorem expand_lver_supported : forall tr btr hs out, usable_lvers hs -> closed_lvers hs -> natural_lver_powers hs -> expand_lver hs = Ret out ->
  forall g, In g out -> In g hs \/ (exists h, In h hs /\ e_deps g = [h]) /\ esupported tr btr g.
Proof.
  intros tr btr hs out U C NP H g Hg.
  assert (NZ : nonzero_lver_powers hs).
  { intros t k Ht Dt. destruct (NP t k Ht Dt) as (n & N & Kn). rewrite Kn. change 0 with (inject_Z 0). rewrite inject_Z_injective. lia. }
  destruct (expand_lver_exact hs U NZ) as (out' & Eo & I). rewrite Eo in H. injection H as <-. apply I in Hg as [Hg|(t & k & h & R & Ht & Dt & Hh & Dh & Ag)]; [now left|right].
  destruct (raise_energy_supported tr btr k h R g (NP t k Ht Dt) Dh (usable_sized hs h R U Hh Dh) (C h R Hh Dh) Ag) as (Gd & Sp & _).
  split; [eauto|exact Sp].
Qed.
Print Assumptions expand_lver_supported.

(** [compute_best_lver]: the intersection of the domain with all (zeta) large
    value energy regions and all powers of large value energy regions. *)
Theorem compute_best_lver_exact : forall E, ext_ok E -> forall order, (forall k l, Permutation (order k l) l) ->
  forall hs dom zeta, usable_lvers hs -> (zeta = true -> usable_zlvers hs) -> nonzero_lver_powers hs ->
  Forall (fun h => proper_year (r_year (e_ref h))) hs -> disjoint_form dom -> leaves (solid 2) dom ->
  exists h lvers ps, compute_best_lver E order hs dom zeta = Ret h /\
    e_data h = (if zeta then DZLVER (RDisj (map RPoly ps)) else DLVER (RDisj (map RPoly ps))) /\ e_deps h = lvers /\
    (forall g, In g lvers <-> used_lver hs zeta g) /\ Forall (solid 5) ps /\
    (forall x, denote (RDisj (map RPoly ps)) x -> lver_meet hs zeta dom x) /\
    (forall x, inside (lver_meet hs zeta dom) x -> denote (RDisj (map RPoly ps)) x) /\
    (exists H, Forall (fun h => List.length h = 6%nat /\ ~ zero_row h) H /\
       forall x, lver_meet hs zeta dom x -> denote (RDisj (map RPoly ps)) x \/ Exists (fun h => rowval h x == 0) H).
Proof.
  intros E OK order OO hs dom zeta U UZ NZ Y DD SD.
  destruct (transformed_ok hs U NZ) as (new & En & In_).
  set (lvers := filter is_lver hs ++ new ++ (if zeta then filter is_zlver hs else [])).
  assert (IL : forall g, In g lvers <-> used_lver hs zeta g).
  { intro g. unfold lvers, used_lver. rewrite !in_app_iff, In_, filter_In. unfold is_lver. split.
    - intros [(A & B)|[A|A]]; [left|right; left; exact A|right; right].
      + split; [exact A|]. destruct (e_data g); try discriminate. eauto.
      + destruct zeta; [|destruct A]. apply filter_In in A as [A B]. unfold is_zlver in B. split; [reflexivity|]. split; [exact A|]. destruct (e_data g); try discriminate. eauto.
    - intros [(A & R & B)|[A|(-> & A & R & B)]]; [left|right; left; exact A|right; right].
      + now rewrite B.
      + apply filter_In. unfold is_zlver. now rewrite B. }
  assert (RG : forall g, In g lvers -> exists R, (e_data g = DLVER R \/ e_data g = DZLVER R) /\ e_region g = Ret R /\ disjoint_form R /\ leaves (solid 5) R /\ proper_year (r_year (e_ref g))).
  { rewrite Forall_forall in Y. intros g Hg. apply IL in Hg as [(A & R & B)|[(t & k & h & R & Ht & Dt & Hh & Dh & Ag)|(-> & A & R & B)]].
    - exists R. destruct (U g R A B). unfold e_region. rewrite B. auto 10.
    - destruct (U h R Hh Dh) as [DF S5]. destruct (raise_energy_region k h R Dh (usable_sized hs h R U Hh Dh) (NZ t k Ht Dt)) as (g' & R' & Eg & Dg & _ & Yg & _ & Sg & Fg & _).
      rewrite Ag in Eg. injection Eg as <-. exists R'. unfold e_region. rewrite Dg, Yg. auto 10.
    - exists R. destruct (UZ eq_refl g R A B). unfold e_region. rewrite B. auto 10. }
  destruct (mapM_ret _ _ e_region lvers) as (rs & Ers); [intros g Hg; destruct (RG g Hg) as (R & _ & ER & _); eauto|].
  destruct (domain_lift_ok dom SD DD) as (D & ED & SD5 & DFD & LD & HD).
  assert (IR : forall R, In R rs <-> exists g, In g lvers /\ e_region g = Ret R) by (intro R; apply (mapM_In _ _ _ _ _ R Ers)).
  assert (RR : forall R, In R rs -> disjoint_form R /\ leaves (solid 5) R).
  { intros R HR. apply IR in HR as (g & Hg & Eg). destruct (RG g Hg) as (R' & _ & ER & A & B & _). rewrite Eg in ER. injection ER as <-. auto. }
  assert (DFI : disjoint_form (RInter (D :: rs))).
  { cbn [disjoint_form]. split; [discriminate|]. cbn [allP]. split; [exact DFD|]. apply allP_iff. intros R HR. apply (RR R HR). }
  assert (SI : leaves (solid 5) (RInter (D :: rs))).
  { cbn [leaves allP]. split; [exact SD5|]. apply allP_iff. intros R HR. apply (RR R HR). }
  destruct (pieces_ok E OK order OO _ DFI SI) as (ps & Eps & F & P1 & P2 & (H & FH & P3) & _).
  destruct (max_year_ok (map e_ref lvers)) as (y & Ey & _).
  { apply Forall_map. apply Forall_forall. intros g Hg. destruct (RG g Hg) as (R & _ & _ & _ & _ & A). exact A. }
  assert (M : forall x, denote (RInter (D :: rs)) x <-> lver_meet hs zeta dom x).
  { intro x. cbn [denote allP]. rewrite allP_iff. unfold lver_meet. split.
    - intros (A & B). destruct (len5 x (LD x A)) as (s & t & r & e & z & ->). exists s, t, r, e, z. split; [reflexivity|]. apply HD in A. decompose [and] A.
      repeat (split; [assumption|]). intros g R Ug Dg. apply B. apply IR. exists g. split; [now apply IL|]. unfold e_region. destruct Dg as [Dg|Dg]; now rewrite Dg.
    - intros (s & t & r & e & z & -> & A & B1 & B2 & B3 & B4 & B5 & B6 & C). split; [apply HD; auto 10|]. intros R HR. apply IR in HR as (g & Hg & Eg).
      destruct (RG g Hg) as (R' & Dg & ER & _). rewrite Eg in ER. injection ER as <-. apply (C g R); [now apply IL|exact Dg]. }
  assert (EC : exists h, compute_best_lver E order hs dom zeta = Ret h /\ e_data h = (if zeta then DZLVER (RDisj (map RPoly ps)) else DLVER (RDisj (map RPoly ps))) /\ e_deps h = lvers).
  { unfold compute_best_lver, known_lvers. rewrite En. cbn [bind]. fold lvers. rewrite ED. cbn [bind]. rewrite Ers. cbn [bind]. rewrite Eps. cbn [bind].
    destruct zeta; unfold derived_zlver, derived_lver, derived_e; rewrite Ey; cbn [bind]; eexists; (split; [reflexivity|]); auto. }
  destruct EC as (h & Eh & Dh & Hd). exists h, lvers, ps. split; [exact Eh|]. split; [exact Dh|]. split; [exact Hd|]. split; [exact IL|]. split; [exact F|].
  split; [intros x Dx; apply M, P1, Dx|]. split.
  - intros x (e & He & Nx). assert (L : List.length x = 5%nat).
    { specialize (Nx x). destruct Nx as (s & t & r & e' & z & -> & _); [|reflexivity]. split; [reflexivity|]. intro i. apply Qabs_Qle_condition. lra. }
    apply P2; [exact L|]. exists e. split; [exact He|]. intros y' Hy. apply M, Nx, Hy.
  - exists H. split; [exact FH|]. intros x Mx. apply P3, M, Mx.
Qed.
Print Assumptions compute_best_lver_exact.

(** If the hypotheses are true, all patterns over the domain are in the region,
    up to finitely many hyperplanes. *)
Theorem compute_best_lver_true : forall tr btr E, ext_ok E -> forall order, (forall k l, Permutation (order k l) l) ->
  forall W hs dom zeta h R, en_admissible W -> usable_lvers hs -> (zeta = true -> usable_zlvers hs) -> closed_lvers hs -> natural_lver_powers hs ->
  Forall (fun h => proper_year (r_year (e_ref h))) hs -> disjoint_form dom -> leaves (solid 2) dom ->
  Forall (eholds tr btr W) hs -> compute_best_lver E order hs dom zeta = Ret h -> e_region h = Ret R ->
  exists H, Forall (fun h => List.length h = 6%nat /\ ~ zero_row h) H /\
    forall s t r e z, recorded s t r e z -> denote dom [s; t] ->
      (if zeta then 2 <= t /\ zen W [s; t; r; e; z] else en W [s; t; r; e; z]) ->
      denote R [s; t; r; e; z] \/ Exists (fun h => rowval h [s; t; r; e; z] == 0) H.
Proof.
  intros tr btr E OK order OO W hs dom zeta h R Ad U UZ CL NP Y DD SD T Hc HR.
  assert (NZ : nonzero_lver_powers hs).
  { intros t k Ht Dt. destruct (NP t k Ht Dt) as (n & N & Kn). rewrite Kn. change 0 with (inject_Z 0). rewrite inject_Z_injective. lia. }
  destruct (compute_best_lver_exact E OK order OO hs dom zeta U UZ NZ Y DD SD) as (h' & lvers & ps & Eh & Dh & _ & _ & _ & _ & _ & H & FH & P).
  rewrite Eh in Hc. injection Hc as <-. assert (R = RDisj (map RPoly ps)) as -> by (unfold e_region in HR; rewrite Dh in HR; destruct zeta; injection HR as <-; reflexivity).
  exists H. split; [exact FH|]. intros s t r e z Rc Ds En. apply P.
  exists s, t, r, e, z. split; [reflexivity|]. split; [exact Ds|]. pose proof Rc as ((IR & B1 & B2 & B3 & B4) & _). pose proof IR as (C1 & C2 & C3 & C4 & C5 & C6).
  repeat (split; [assumption|]).
  assert (En' : en W [s; t; r; e; z]) by (destruct zeta; [destruct En as [T2 En]; exact (zen_en W Ad _ _ _ _ _ C1 C2 T2 En)|exact En]).
  rewrite Forall_forall in T.
  intros g R [(A & R' & B)|[(t' & k & h & R' & Ht & Dt & Hh & Dh' & Ag)|(Z & A & R' & B)]] Dg.
  - pose proof (T g A) as Tg. unfold eholds in Tg. rewrite B in Tg, Dg. destruct Dg as [Dg|Dg]; [|discriminate]. injection Dg as <-. apply Tg; auto.
  - destruct (raise_energy_supported tr btr k h R' g (NP t' k Ht Dt) Dh' (usable_sized hs h R' U Hh Dh') (CL h R' Hh Dh') Ag) as (Gd & Sp & _).
    assert (Tg : eholds tr btr W g) by (apply Sp; [exact Ad|]; rewrite Gd; constructor; [exact (T h Hh)|constructor]).
    destruct (raise_energy_region k h R' Dh' (usable_sized hs h R' U Hh Dh') (NZ t' k Ht Dt)) as (g' & R2 & Eg & Dg' & _). rewrite Ag in Eg. injection Eg as <-.
    unfold eholds in Tg. rewrite Dg' in Tg, Dg. destruct Dg as [Dg|Dg]; [|discriminate]. injection Dg as <-. apply Tg; auto.
  - pose proof (T g A) as Tg. unfold eholds in Tg. rewrite B in Tg, Dg. destruct Dg as [Dg|Dg]; [discriminate|]. injection Dg as <-.
    rewrite Z in En. destruct En as [T2 En]. apply Tg; auto.
Qed.
Print Assumptions compute_best_lver_true.

(** A rectangle for (sigma, tau). *)
Definition rect (a b c d : Q) : lpoly :=
  plain (mkPoly (mkMat [([- a; 1; 0], false); ([b; -1; 0], false); ([- c; 0; 1], false); ([d; 0; -1], false)] 3) false None).
Lemma rowval3 : forall a b c s t, rowval [a; b; c] [s; t] == a + b * s + c * t.
Proof. intros. unfold rowval. cbn. lra. Qed.
Lemma rect_iff : forall a b c d x, member (body (rect a b c d)) x <-> exists s t, x = [s; t] /\ a <= s /\ s <= b /\ c <= t /\ t <= d.
Proof.
  intros a b c d x. unfold member, mmember. cbn [body rect plain pmat ncol mrows]. rewrite !Forall_cons_iff. unfold Spec_Polytope.holds. cbn [fst snd]. split.
  - intros (L & A1 & A2 & A3 & A4 & _). destruct x as [|s [|t [|]]]; try discriminate. rewrite rowval3 in A1, A2, A3, A4. exists s, t. split; [reflexivity|]. lra.
  - intros (s & t & -> & A1 & A2 & A3 & A4). rewrite !rowval3. split; [reflexivity|]. repeat split; try lra. constructor.
Qed.
Lemma rect_solid : forall a b c d, a < b -> c < d -> solid 2 (rect a b c d).
Proof.
  intros a b c d AB CD. split; [|split; [|split; [reflexivity|]]].
  - split; [split; [cbn; lia|repeat constructor]|]. split; [|split; [discriminate|exact Logic.I]].
    unfold no_zero_rows. cbn [body rect plain pmat mrows].
    assert (N1 : forall u v w, ~ v == 0 \/ ~ w == 0 -> ~ zero_row [u; v; w]).
    { intros u v w H Z. inversion Z as [|? ? _ Z1]; subst. inversion Z1 as [|? ? Z2 Z3]; subst. inversion Z3; subst. tauto. }
    repeat (constructor; [cbn [fst]; apply N1; (left; discriminate) || (right; discriminate)|]). constructor.
  - exists (Qabs a + Qabs b + Qabs c + Qabs d). intros x i M. apply rect_iff in M as (s & t & -> & A1 & A2 & A3 & A4).
    assert (K : forall q, - Qabs q <= q /\ q <= Qabs q) by (intro q; apply Qabs_Qle_condition; apply Qle_refl).
    pose proof (K a). pose proof (K b). pose proof (K c). pose proof (K d).
    pose proof (Qabs_nonneg a). pose proof (Qabs_nonneg b). pose proof (Qabs_nonneg c). pose proof (Qabs_nonneg d).
    destruct i as [|[|i]]; cbn [nth]; [| |destruct i; cbn [nth]]; apply Qabs_Qle_condition; lra.
  - intros _. exists [(a + b) / 2; (c + d) / 2].
    apply (rows_interior 2 [[- a; 1; 0]; [b; -1; 0]; [- c; 0; 1]; [d; 0; -1]]); [repeat constructor|reflexivity|reflexivity| |].
    + assert (X : (a + b) / 2 == (1#2) * (a + b)) by field. assert (Y : (c + d) / 2 == (1#2) * (c + d)) by field.
      repeat (constructor; [rewrite rowval3, X, Y; lra|]). constructor.
    + intros y Ly F. destruct y as [|s [|t [|]]]; try discriminate. rewrite !Forall_cons_iff, !rowval3 in F. apply rect_iff. exists s, t. split; [reflexivity|]. lra.
Qed.

(** Outside the domain nothing is claimed, but the result does not say so: it is
    a hypothesis about all sigma and tau. *)
Theorem compute_best_lver_domain_refuted : forall tr btr E, ext_ok E -> forall order, (forall k l, Permutation (order k l) l) ->
  exists hs dom h, usable_lvers hs /\ closed_lvers hs /\ natural_lver_powers hs /\ hs <> [] /\ disjoint_form dom /\ leaves (solid 2) dom /\
    compute_best_lver E order hs dom false = Ret h /\ incl (e_deps h) hs /\ ~ esupported tr btr h.
Proof.
  intros tr btr E OK order OO. destruct (one_half E OK [0; 0; 1; -1; 0; 0] eq_refl) as (R & _ & S & DO & X & SL).
  { intro Z. inversion Z as [|? ? _ Z1]; subst. inversion Z1 as [|? ? _ Z2]; subst. inversion Z2. lra. }
  assert (S5 : leaves (solid 5) R).
  { apply SL. exists (3#4), 2, 1, 3, 1. rewrite rowval6. unfold TAU_UPPER_LIMIT, LV_DEFAULT_UPPER_BOUND. repeat split; lra. }
  set (g := ENode [] (DLVER R) ref_trivial []).
  assert (U : usable_lvers [g]). { intros h R' [<- | []] D. injection D as <-. split; [exact (disj_only_form R DO)|exact S5]. }
  assert (NZ : nonzero_lver_powers [g]) by (intros t k [<- | []] D; discriminate).
  assert (DD : disjoint_form (RPoly (rect (1#2) 1 1 2))) by exact Logic.I.
  assert (SD : leaves (solid 2) (RPoly (rect (1#2) 1 1 2))) by (apply rect_solid; lra).
  destruct (compute_best_lver_exact E OK order OO [g] _ false U ltac:(discriminate) NZ ltac:(repeat constructor; cbn; now left) DD SD)
    as (h & lvers & ps & Eh & Dh & Hd & IL & _ & P1 & _).
  exists [g], (RPoly (rect (1#2) 1 1 2)), h. split; [exact U|]. split.
  { intros h' R' [<- | []] D. injection D as <-. intros s t r e z r' e' z1 z2 (Rc & _) _ _ H1 _. apply X. apply X in H1 as [_ H1]. split; [exact Rc|]. rewrite rowval6 in *. lra. }
  split; [intros t k [<- | []] D; discriminate|]. split; [discriminate|]. split; [exact DD|]. split; [exact SD|]. split; [exact Eh|].
  assert (IN : incl (e_deps h) [g]).
  { rewrite Hd. intros d Hdd. apply IL in Hdd as [(A & _)|[(t & k & h' & R' & [<- | []] & D & _)|(C & _)]]; [exact A|discriminate|discriminate]. }
  split; [exact IN|]. intro Sp. specialize (Sp (w0 true) (w0_admissible true)).
  assert (T : eholds tr btr (w0 true) h).
  { apply Sp. apply Forall_forall. intros d Hdd. apply IN in Hdd as [<- | []]. unfold eholds, g. cbn [e_data].
    intros s t r e z (Rc & _) En. apply w0_en in En. apply X. split; [exact Rc|]. rewrite rowval6. unfold conj_en, conj_lv in En. lra. }
  unfold eholds in T. rewrite Dh in T.
  assert (C : denote (RDisj (map RPoly ps)) [1#2; 3; 0; 0; 2]).
  { apply T; [unfold recorded, in_range5, in_range, TAU_UPPER_LIMIT, LV_DEFAULT_UPPER_BOUND; lra|]. apply w0_en. unfold conj_en, conj_lv. lra. }
  apply P1 in C as (s & t & r & e & z & Eq & C & _). injection Eq as <- <- <- <- <-. cbn [denote] in C. apply rect_iff in C as (s & t & Eq & _ & _ & _ & C).
  injection Eq as <- <-. lra.
Qed.
Print Assumptions compute_best_lver_domain_refuted.

(** [compute_LV_star]: the projection of the best region to sigma, tau and rho*.
    It has the type of a region in five variables although it has three, so as
    such a region it would claim that there are no patterns. *)
Theorem compute_LV_star_exact : forall E, ext_ok E -> forall order, (forall k l, Permutation (order k l) l) ->
  forall hs dom zeta, usable_lvers hs -> (zeta = true -> usable_zlvers hs) -> nonzero_lver_powers hs ->
  Forall (fun h => proper_year (r_year (e_ref h))) hs -> disjoint_form dom -> leaves (solid 2) dom ->
  exists best R o, compute_best_lver E order hs dom zeta = Ret best /\ e_region best = Ret R /\ compute_LV_star E order hs dom zeta = Ret o /\
    match o with
    | None => forall x, ~ denote R x
    | Some h => (exists x, denote R x) /\ e_deps h = e_deps best /\ exists q, e_data h = (if zeta then DZLVER q else DLVER q) /\
        (forall s t e, denote q [s; t; e] <-> exists r z, denote R [s; t; r; e; z]) /\
        (forall s t r e z, ~ denote q [s; t; r; e; z])
    end.
Proof.
  intros E OK order OO hs dom zeta U UZ NZ Y DD SD.
  destruct (compute_best_lver_exact E OK order OO hs dom zeta U UZ NZ Y DD SD) as (h & lvers & ps & Eh & Dh & Hd & IL & F & _).
  assert (ER : e_region h = Ret (RDisj (map RPoly ps))) by (unfold e_region; rewrite Dh; destruct zeta; reflexivity).
  assert (Ey : exists y, max_year (map e_ref lvers) = Ret y).
  { unfold compute_best_lver in Eh. destruct (known_lvers hs zeta) as [l|]; [|discriminate]. cbn [bind] in Eh. destruct (rlift domain_lift dom); [|discriminate]. cbn [bind] in Eh.
    destruct (mapM e_region l); [|discriminate]. cbn [bind] in Eh. destruct (as_disjoint_union E order false _); [|discriminate]. cbn [bind] in Eh.
    assert (K : exists n d, derived_e n d l = Ret h) by (destruct zeta; unfold derived_zlver, derived_lver in Eh; eauto).
    destruct K as (n & d & K). apply derived_e_inv in K as (_ & K1 & y & K2 & _). exists y. rewrite <- K2. congruence. }
  destruct Ey as (y & Ey). exists h, (RDisj (map RPoly ps)).
  destruct (project_simplify E OK order OO [0; 1; 3]%nat (fun s t r e z => [s; t; e]) selected_en ltac:(cbn; intros; lia) ps F)
    as [(Ep & N)|(q & b & q' & Ep & Es & Ex & X)].
  - exists None. split; [exact Eh|]. split; [exact ER|]. split; [|exact N]. unfold compute_LV_star. rewrite Eh. cbn [bind]. rewrite ER. cbn [bind]. rewrite Ep. reflexivity.
  - assert (K : exists h', (if zeta then derived_zlver else derived_lver) q' (e_deps h) = Ret h' /\ e_deps h' = e_deps h /\ e_data h' = (if zeta then DZLVER q' else DLVER q')).
    { rewrite Hd. destruct zeta; unfold derived_zlver, derived_lver, derived_e; rewrite Ey; cbn [bind]; eexists; (split; [reflexivity|]); auto. }
    destruct K as (h' & Eh' & Hd' & Dh'). exists (Some h'). split; [exact Eh|]. split; [exact ER|]. split.
    { unfold compute_LV_star. rewrite Eh. cbn [bind]. rewrite ER. cbn [bind]. rewrite Ep. cbn [bind]. rewrite Es. cbn [bind]. rewrite Eh'. reflexivity. }
    split; [exact Ex|]. split; [exact Hd'|]. exists q'. split; [exact Dh'|]. split.
    + intros s t e. rewrite X. split.
      * intros (s' & t' & r & e' & z & Dx & A). apply F2_3 in A as (A1 & A2 & A3). exists r, z. revert Dx. apply denote5; try reflexivity; symmetry; assumption.
      * intros (r & z & Dx). exists s, t, r, e, z. split; [exact Dx|]. apply F2_3. repeat split; reflexivity.
    + intros s t r e z D. apply X in D as (? & ? & ? & ? & ? & _ & A). apply Forall2_len in A. discriminate.
Qed.
Print Assumptions compute_LV_star_exact.

(** The hyperplanes cannot be left out: parts without interior are lost, such as
    the part with sigma = 1/2 of a region that allows rho > 1 up to there only. *)
Theorem compute_best_lver_boundary_refuted : forall tr btr E, ext_ok E -> forall order, (forall k l, Permutation (order k l) l) ->
  exists W hs dom h R s t r e z, en_admissible W /\ usable_lvers hs /\ closed_lvers hs /\ natural_lver_powers hs /\ disjoint_form dom /\ leaves (solid 2) dom /\
    Forall (eholds tr btr W) hs /\ compute_best_lver E order hs dom false = Ret h /\ e_data h = DLVER R /\
    recorded s t r e z /\ denote dom [s; t] /\ en W [s; t; r; e; z] /\ ~ denote R [s; t; r; e; z].
Proof.
  intros tr btr E OK order OO.
  set (R0 := RDisj [RPoly (rect 0 (1#2) 0 LV_DEFAULT_UPPER_BOUND); RPoly (rect (1#2) 1 0 1)]).
  set (var := [Dim 0; Box 0 TAU_UPPER_LIMIT; Dim 1; Box 0 LV_DEFAULT_UPPER_BOUND; Box 0 LV_DEFAULT_UPPER_BOUND]).
  assert (SR0 : leaves (solid 2) R0).
  { cbn [R0 leaves allP]. split; [apply rect_solid; reflexivity|]. split; [apply rect_solid; lra|exact Logic.I]. }
  assert (PR0 : positive R0) by (cbn; auto).
  destruct (rlift_solid 2 var R0 ltac:(lia) SR0 PR0 (Permutation_refl _)) as (R1 & E1 & S5 & P1 & X1).
  { intros lo up H. cbn in H. decompose [or] H; try discriminate; try tauto; match goal with H : Box _ _ = _ |- _ => injection H as <- <- end; reflexivity. }
  { do 2 eexists. right. now left. }
  assert (DF : disjoint_form R1) by (rewrite (rlift_rmap _ _ PR0) in E1; apply (rmap_disjoint_form _ _ _ E1); cbn; auto).
  assert (X : forall s t r e z, denote R1 [s; t; r; e; z] <->
    (0 <= t /\ t <= TAU_UPPER_LIMIT /\ 0 <= e /\ e <= LV_DEFAULT_UPPER_BOUND /\ 0 <= z /\ z <= LV_DEFAULT_UPPER_BOUND) /\
    (0 <= s /\ s <= 1#2 /\ 0 <= r /\ r <= LV_DEFAULT_UPPER_BOUND \/ 1#2 <= s /\ s <= 1 /\ 0 <= r /\ r <= 1)).
  { intros s t r e z. rewrite X1. split.
    - intros (_ & B & x & Lx & Lf & D). pose proof (B 1%nat _ _ eq_refl) as B1. pose proof (B 3%nat _ _ eq_refl) as B3. pose proof (B 4%nat _ _ eq_refl) as B4. cbn [nth] in B1, B3, B4.
      destruct x as [|a [|b [|]]]; try discriminate. pose proof (Lf 0%nat _ eq_refl) as L0. pose proof (Lf 2%nat _ eq_refl) as L2. cbn [nth] in L0, L2.
      cbn [R0 denote anyP] in D. rewrite !rect_iff in D. split; [tauto|].
      destruct D as [(a' & b' & Eq & D)|[(a' & b' & Eq & D)|[]]]; injection Eq as <- <-; rewrite <- L0, <- L2; [left|right]; exact D.
    - intros ((B1 & B2 & B3 & B4 & B5 & B6) & D). split; [reflexivity|]. split.
      + intros [|[|[|[|[|i]]]]] lo up H; try discriminate; [| | |destruct i; discriminate]; injection H as <- <-; cbn [nth]; auto.
      + exists [s; r]. split; [reflexivity|]. split.
        * intros [|[|[|[|[|i]]]]] k H; try discriminate; [| |destruct i; discriminate]; injection H as <-; reflexivity.
        * cbn [R0 denote anyP]. rewrite !rect_iff. destruct D as [D|D]; [left|right; left]; do 2 eexists; (split; [reflexivity|exact D]). }
  set (g := ENode [] (DLVER R1) ref_trivial []).
  assert (U : usable_lvers [g]) by (intros h R' [<- | []] D; injection D as <-; auto).
  assert (NZ : nonzero_lver_powers [g]) by (intros t k [<- | []] D; discriminate).
  set (dom := RPoly (rect (1#2) 1 0 4)).
  assert (DD : disjoint_form dom) by exact Logic.I.
  assert (SD : leaves (solid 2) dom) by (apply rect_solid; lra).
  destruct (compute_best_lver_exact E OK order OO [g] dom false U ltac:(discriminate) NZ ltac:(repeat constructor; cbn; now left) DD SD)
    as (h & lvers & ps & Eh & Dh & _ & _ & F & M & _).
  exists (w0 true), [g], dom, h, (RDisj (map RPoly ps)), (1#2), 4, 2, 4, 4.
  split; [apply w0_admissible|]. split; [exact U|]. split.
  { intros h' R' [<- | []] D. injection D as <-. intros s t r e z r' e' z1 z2 (((A1 & A2 & A3 & A4 & A5 & A6) & A7 & A8 & A9 & A10) & _) _ _ H1 _.
    apply X. apply X in H1. tauto. }
  split; [intros t k [<- | []] D; discriminate|]. split; [exact DD|]. split; [exact SD|]. split.
  { constructor; [|constructor]. unfold eholds, g. cbn [e_data]. intros s t r e z (((A1 & A2 & A3 & A4 & A5 & A6) & A7 & A8 & A9 & A10) & _) En.
    apply w0_en in En. destruct En as ((C1 & C2) & _). apply X. split; [tauto|]. destruct C2 as [C2|C2]; [left|right]; lra. }
  split; [exact Eh|]. split; [exact Dh|]. split; [unfold recorded, in_range5, in_range, TAU_UPPER_LIMIT, LV_DEFAULT_UPPER_BOUND; lra|].
  split; [apply rect_iff; exists (1#2), 4; split; [reflexivity|lra]|]. split; [apply w0_en; unfold conj_en, conj_lv; lra|].
  intro D. cbn [denote] in D. apply anyP_iff in D as (a & Ha & D). apply in_map_iff in Ha as (p & <- & Hp). cbn [denote] in D.
  rewrite Forall_forall in F. destruct (F p Hp) as ((WF & NZR & _) & _ & N & I). destruct (I (ex_intro _ _ D)) as (w & Iw).
  assert (Lw : List.length w = 5%nat) by (destruct Iw as [[L _] _]; lia).
  destruct (mix_near [1#2; 4; 2; 4; 4] w (1#2) Lw ltac:(lra)) as (t0 & T0 & T1 & Nr).
  specialize (Nr t0 ltac:(lra) ltac:(lra)). set (y := mix t0 [1#2; 4; 2; 4; 4] w) in *.
  assert (Iy : interior (body p) y).
  { apply (proj2 (interior_iff _ _ WF NZR)). apply strict_mix; auto. apply (proj1 (interior_iff _ _ WF NZR)). exact Iw. }
  assert (Ly : List.length y = 5%nat) by (destruct Nr as [L _]; exact L).
  destruct (len5 y Ly) as (s & t & r & e & z & Ey). rewrite Ey in *. clear Ey y.
  pose proof (proj2 Nr 2%nat) as N2. cbn [nth] in N2. apply Qabs_Qle_condition in N2.
  assert (MM : forall x, member (body p) x -> lver_meet [g] false dom x).
  { intros x Mx. apply M. cbn [denote]. apply anyP_iff. exists (RPoly p). split; [now apply in_map|exact Mx]. }
  destruct Iy as [My (eps & He & Ny)].
  assert (Q1 : denote dom [s - eps; t]).
  { destruct (MM [s - eps; t; r; e; z]) as (? & ? & ? & ? & ? & Eq & C & _); [|injection Eq as <- <- <- <- <-; exact C].
    apply Ny. split; [reflexivity|]. intros [|i]; cbn [nth]; apply Qabs_Qle_condition; lra. }
  apply rect_iff in Q1 as (? & ? & Eq & C1 & _). injection Eq as <- <-.
  destruct (MM _ My) as (? & ? & ? & ? & ? & Eq & _ & _ & _ & _ & _ & _ & _ & C). injection Eq as <- <- <- <- <-.
  specialize (C g R1 ltac:(left; split; [now left|exists R1; reflexivity]) (or_introl eq_refl)). apply X in C. lra.
Qed.
Print Assumptions compute_best_lver_boundary_refuted.

(** A concrete exponent pair, region and power. *)
Example ex_energy_rows : exists rows, energy_rows (1#6) (2#3) = Ret rows /\ List.length rows = 9%nat /\
  Forall2 Qeq (nth 4 rows []) [1; -(2); 1#6; 17#6; -1; 0] /\ Forall2 Qeq (nth 5 rows []) [8#5; -(16#5); 2#3; 32#15; -1; 0].
Proof. eexists. split; [reflexivity|]. split; [reflexivity|]. split; repeat constructor. Qed.

Definition ex_pair : enode := EBase (LBase (HNode [] (DPair (1#6) (2#3)) ref_trivial [])).
Example ex_ep_to_lver : exists h r, ep_to_lver fm_ext ex_pair = Ret h /\ e_deps h = [ex_pair] /\ e_data h = DLVER r /\
  denote r [3#4; 2; 1#4; 1#2; 1] /\ ~ denote r [1; 1; 1; 3; 1].
Proof.
  destruct (ep_to_lver_exact fm_ext fm_ext_ok ex_pair (1#6) (2#3) eq_refl ltac:(discriminate)) as (ps & h & Eh & Dh & Hd & _ & _ & _ & X & _).
  exists h. eexists. split; [exact Eh|]. split; [exact Hd|]. split; [exact Dh|]. split.
  - apply X. do 5 eexists. split; [reflexivity|]. split; [unfold in_range5, in_range, TAU_UPPER_LIMIT, LV_DEFAULT_UPPER_BOUND; lra|discriminate].
  - intro D. apply X in D as (? & ? & ? & ? & ? & Eq & _ & B). injection Eq as <- <- <- <- <-. apply B. reflexivity.
Qed.

(** The large value estimate rho <= 2 - 2 sigma as a region in five variables,
    squared: rho <= 4 - 4 sigma. *)
Definition ex_lv : enode := EBase (LNode [] (DLV (RPoly (plain (mkPoly (mkMat [([2; -(2); 0; -1], false)] 4) false None))) None) ref_trivial []).
Example ex_raise : exists g h, lv_to_lver [ex_pair; ex_lv] false = Ret [g] /\ e_deps g = [ex_lv] /\ raise_energy 2 g = Ret h /\ e_deps h = [g] /\
  exists r, e_data h = DLVER r /\ denote r [3#4; 3; 1; 3; 4] /\ ~ denote r [3#4; 3; 2; 3; 4] /\ ~ denote r [3#4; 3; 1; -(1); 4].
Proof.
  do 2 eexists. split; [reflexivity|]. split; [reflexivity|]. split; [reflexivity|]. split; [reflexivity|]. eexists. split; [reflexivity|].
  split; [|split].
  - split; [reflexivity|]. cbn [mrows]. repeat (constructor; [discriminate|]). constructor.
  - intros [_ F]. inversion F as [|? ? F1 _]; subst. apply F1. reflexivity.
  - intros [_ F]. inversion F as [|? ? _ F1]; subst. inversion F1 as [|? ? F2 _]; subst. apply F2. reflexivity.
Qed.
