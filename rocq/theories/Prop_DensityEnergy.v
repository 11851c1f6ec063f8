(** Property C56: zero density energy estimates, the trivial ones, and the best one. *)
From Coq Require Import Reals Qreals Permutation.
From Verif Require Import Base Model_Text Model_Reference Model_Interval Model_Affine LinAlg Model_Polytope Spec_Polytope Model_Region Spec_Region
  Model_ExponentPair Spec_ExponentPair Model_LargeValues Spec_LargeValues Model_AdditiveEnergy Spec_AdditiveEnergy
  Model_RationalFunction Spec_RationalFunction Proof_RationalFunction Proof_RFOptimal Prop_RationalFunction Prop_Roots
  Spec_BoundMu Prop_BoundMu Proof_AdditiveEnergy Prop_AdditiveEnergy Model_DensityEstimate Spec_DensityEstimate Prop_DensityEstimate
  Model_Formula Spec_Formula Prop_Formula Model_DensityEnergy Spec_DensityEnergy.
From Coq Require Import Lra.
Import Model_RationalFunction.
Open Scope list_scope.
Local Open Scope R_scope.

(** ** The trivial estimates *)
Lemma in_density : forall hs d, (exists n p r, In (n, d, p, r) (density_in hs)) <-> density_estimate_in hs d.
Proof.
  intros hs d. unfold density_in, density_estimate_in. split.
  - intros (n & p & r & I). apply in_flat_map in I as ([n' [|] d' p' r' ds|[n' d' p' r' ds|h]] & I & J); cbn in J; try (destruct J as [J|[]]; injection J as -> -> -> ->; eauto 7); destruct J.
  - intros [(n & p & r & ds & I)|(n & p & r & ds & I)]; exists n, p, r; apply in_flat_map; eexists; (split; [exact I|now left]).
Qed.
Lemma in_trivial : forall hs h, In h (add_trivial_zero_density_energy_estimates hs) <->
  In h hs \/ (exists d, density_estimate_in hs d /\ h = trivial_zero_density_energy_estimate (Zero_Density_Estimate (s_of "3 * (" ++ z_expr d ++ s_of ")") (z_int d))) \/
  h = trivial_zero_density_energy_estimate (Zero_Density_Estimate (s_of "3 / (1 - x)") unit_interval).
Proof.
  intros hs h. unfold add_trivial_zero_density_energy_estimates. rewrite !in_app_iff, in_map_iff. cbn [In]. split.
  - intros [H|[([[[n d] p] r] & <- & I)|[H|[]]]]; auto. right. left. exists d. split; [apply in_density; eauto|reflexivity].
  - intros [H|[(d & D & ->)|H]]; auto. right. left. apply in_density in D as (n & p & r & I). exists (n, d, p, r). auto.
Qed.

Lemma start_text : exists g, parse_formula (s_of "3 / (1 - x)") = Ret g /\ forall x, (has_pole g x <-> x = 1) /\ rfval g x = 3 / (1 - x).
Proof.
  eexists. split; [vm_compute; reflexivity|]. intro x. unfold has_pole, rfval. cbn [Model_RationalFunction.num den reval].
  assert (A : Q2R 3 = 3) by (unfold Q2R; cbn; lra). assert (B : Q2R 1 = 1) by (unfold Q2R; cbn; lra). 
  rewrite A, B. split; [split; intro; lra|]. f_equal; ring.
Qed.

(** For every zero density estimate there is an energy estimate with three times
    the bound on the same interval, and there is 3/(1 - x). *)
Theorem trivial_energy_complete : forall hs,
  (forall d f, density_estimate_in hs d -> parse_formula (z_expr d) = Ret f ->
    exists d' g, In (ANode (s_of "Trivial zero density energy estimate") TEnergy d' (s_of "Trivial") ref_trivial []) (add_trivial_zero_density_energy_estimates hs) /\
      z_int d' = z_int d /\ reads parse_formula d' g /\ forall x, (has_pole g x <-> has_pole f x) /\ rfval g x = 3 * rfval f x) /\
  (exists d' g, In (ANode (s_of "Trivial zero density energy estimate") TEnergy d' (s_of "Trivial") ref_trivial []) (add_trivial_zero_density_energy_estimates hs) /\
      z_int d' = unit_interval /\ reads parse_formula d' g /\ forall x, (has_pole g x <-> x = 1) /\ rfval g x = 3 / (1 - x)) /\
  forall h, In h hs -> In h (add_trivial_zero_density_energy_estimates hs).
Proof.
  intro hs. split; [|split].
  - intros d f D P. destruct (parse_three_times _ _ P) as (g & Eg & V). eexists _, g. split; [apply in_trivial; right; left; exists d; split; [exact D|reflexivity]|].
    split; [reflexivity|]. split; [right; split; [reflexivity|exact Eg]|exact V].
  - destruct start_text as (g & Eg & V). eexists _, g. split; [apply in_trivial; right; right; reflexivity|].
    split; [reflexivity|]. split; [right; split; [reflexivity|exact Eg]|exact V].
  - intros h I. apply in_trivial. now left.
Qed.
Print Assumptions trivial_energy_complete.

(** The estimates that are added follow from those in the set. *)
Theorem trivial_energy_true : forall tr btr W hs, a_admissible W -> (forall d, density_estimate_in hs d -> plain_text parse_formula d) ->
  Forall (aholds parse_formula tr btr W) hs -> Forall (aholds parse_formula tr btr W) (add_trivial_zero_density_energy_estimates hs).
Proof.
  intros tr btr W hs AW PT T. rewrite Forall_forall in *. intros h I. apply in_trivial in I as [I|[(d & D & ->)| ->]]; [auto| |].
  - intros g [G|[_ G]]; [discriminate|]. cbn [z_expr Zero_Density_Estimate trivial_zero_density_energy_estimate] in G. destruct (PT d D) as (f & Ef & B). destruct (parse_three_times _ _ Ef) as (g' & Eg & V). rewrite Eg in G. injection G as <-.
    assert (ZE : forall b, reads parse_formula d b -> (forall x, (has_pole f x <-> has_pole b x) /\ rfval f x = rfval b x) /\ zd_estimate (dens W) b (z_int d)).
    { intros b Rb. split.
      - destruct Rb as [Rb|[_ Rb]]; [now apply B|]. rewrite Ef in Rb. injection Rb as <-. intro; split; [tauto|reflexivity].
      - destruct D as [(n & p & r & ds & I)|(n & p & r & ds & I)]; exact (T _ I b Rb). }
    assert (X : exists b, reads parse_formula d b). { destruct (z_bound d) as [b|] eqn:Eb; [exists b; now left|exists f; right; auto]. }
    destruct X as (b & Rb). destruct (ZE b Rb) as [S H]. intros s S1 S2 Is Np. destruct (V (Q2R s)) as [Vp Vv]. destruct (S (Q2R s)) as [Sp Sv]. rewrite Vv, Sv. apply (ze_three W AW); auto.
    apply H; auto. tauto.
  - intros g [G|[_ G]]; [discriminate|]. cbn [z_expr Zero_Density_Estimate trivial_zero_density_energy_estimate] in G. destruct start_text as (g' & Eg & V). rewrite Eg in G. injection G as <-.
    intros s S1 S2 _ _. rewrite (proj2 (V _)). now apply (ze_start W AW).
Qed.
Print Assumptions trivial_energy_true.

(** ** The best estimate *)
Section Best.
Context (parse : str -> res rfun) (rf_str : rfun -> str).
Lemma es_in : forall hs n d p r, In (n, d, p, r) (energy_in hs) <-> exists ds, In (ANode n TEnergy d p r ds) hs.
Proof.
  intros hs n d p r. unfold energy_in. rewrite in_flat_map. split.
  - intros ([n' [|] d' p' r' ds|h] & I & J); [destruct J| |destruct J]. destruct J as [E|[]]. injection E as -> -> -> ->. now exists ds.
  - intros (ds & I). eexists. split; [exact I|]. now left.
Qed.
Lemma energy_bounds_in : forall hs fs0, Forall2 (fun h fi => reads parse (of_hyp h) (fst fi) /\ snd fi = z_int (of_hyp h)) (energy_in hs) fs0 ->
  energy_estimates_in parse hs fs0.
Proof.
  intros hs fs0 F f i. split.
  - intro I. assert (X : exists h, In h (energy_in hs) /\ reads parse (of_hyp h) f /\ i = z_int (of_hyp h)).
    { clear -F I. induction F as [|h fi l m [A B] F IH]; [destruct I|]. destruct I as [->|I]; [exists h; cbn in *; split; [now left|auto]|]. destruct (IH I) as (h' & P & Q). exists h'. split; [now right|exact Q]. }
    destruct X as ([[[n d] p] r] & P & Q & ->). apply es_in in P. destruct P as (ds & P). exists n, d, p, r, ds. auto.
  - intros (n & d & p & r & ds & I & Rd & ->). assert (J : In (n, d, p, r) (energy_in hs)) by (apply es_in; eauto).
    clear I. induction F as [|h fi l m [A B] F IH]; [destruct J|]. destruct J as [->|J]; [|right; auto]. left. destruct fi as [g j]. cbn in *. subst j. f_equal. eapply reads_unique; eauto.
Qed.
Lemma pack_energy_all : forall hs fs0, Forall2 (fun h fi => reads parse (of_hyp h) (fst fi) /\ snd fi = z_int (of_hyp h)) (energy_in hs) fs0 ->
  forall l a b, tiles l a b -> (forall f i r, In (f, i, r) l -> comes_from true fs0 (inject_Z 1000000) f i r) ->
  exists out, mapM (pack_energy rf_str (energy_in hs)) l = Ret out /\ bounds_tile out a b /\
    forall o, In o out -> exists n t f i p r k, o = ANode n t (mkZ (rf_str f) i (Some f)) p r [] /\ In (f, i, k) l /\ energy_taken_from parse hs n t f i p r.
Proof.
  intros hs fs0 F. induction l as [|[[f i] k] l IH]; intros a b T C; [exists []; split; [reflexivity|]; split; [exact T|intros ? []]|].
  cbn in T. destruct T as (L & LH & I1 & I2 & T). destruct (IH (hi i) b T) as (out & Eo & To & Ho); [intros; apply C; now right|].
  assert (X : exists n t p r, pack_energy rf_str (energy_in hs) (f, i, k) = Ret (ANode n t (mkZ (rf_str f) i (Some f)) p r []) /\ energy_taken_from parse hs n t f i p r).
  { unfold pack_energy, from_rational_func. destruct (C f i k (or_introl eq_refl)) as [[-> Ef]|(m & j & -> & Nm & B)].
    - cbn. do 4 eexists. split; [reflexivity|]. left. auto.
    - assert (Z : (Z.of_nat m <? 0)%Z = false) by (apply Z.ltb_ge; lia). rewrite Z, Nat2Z.id. destruct (F2_nth_error _ _ _ _ _ _ _ F Nm) as ([[[n d] p] r] & Na & Rd & Ij). rewrite Na.
      exists n, TEnergy, p, r. split; [reflexivity|]. right. split; [reflexivity|]. apply nth_error_In, es_in in Na. destruct Na as (ds & Na). cbn in Ij, Rd. subst j. exists d, ds. destruct (B eq_refl). auto. }
  destruct X as (n & t & p & r & Ep & Tk). exists (ANode n t (mkZ (rf_str f) i (Some f)) p r [] :: out). cbn [mapM]. rewrite Ep. cbn [bind]. rewrite Eo. cbn [bind]. split; [reflexivity|].
  split; [cbn; auto|]. intros o [<-|Io]; [exists n, t, f, i, p, r, k; split; [reflexivity|]; split; [now left|exact Tk]|].
  destruct (Ho o Io) as (n' & t' & f' & i' & p' & r' & k' & A & B & D). exists n', t', f', i', p', r', k'. split; [exact A|]. split; [now right|exact D].
Qed.
End Best.

(** The result tiles [1/2, 1).  Every piece is the placeholder or has the name,
    proof, reference and bound of one of the hypotheses, within its interval, and
    is least there among all of them. *)
Theorem best_energy_everywhere : forall parse rf_str solve, solve_complete solve ->
  forall hs fs, energy_readable parse hs -> energy_estimates_in parse hs fs -> half_open_inputs fs -> defined_inputs unit_interval fs ->
  exists out, compute_best_energy_bound parse rf_str solve hs = Ret out /\
    bounds_tile out (Q2R (1#2)) (Q2R 1) /\
    forall o, In o out -> exists n t f i p r, o = ANode n t (mkZ (rf_str f) i (Some f)) p r [] /\ energy_taken_from parse hs n t f i p r /\
      forall x, inside i x -> ~ has_pole f x /\ is_least fs (Q2R (inject_Z 1000000)) x (rfval f x).
Proof.
  intros parse rf_str solve SC hs fs RD EI HO DI. unfold compute_best_energy_bound.
  destruct (bounds_ok parse (energy_in hs)) as (ds & fs0 & E1 & E2 & F).
  { intros [[[n d] p] r] I. apply es_in in I. destruct I as (ds & I). exact (RD _ _ _ _ _ I). }
  unfold of_hyp in E1. rewrite E1. cbn [bind]. rewrite E2. cbn [bind]. pose proof (energy_bounds_in parse hs fs0 F) as EI0.
  assert (SM : forall f i, In (f, i) fs0 <-> In (f, i) fs) by (intros f i; rewrite (EI f i), (EI0 f i); tauto).
  assert (X : exists l, rf_min R Rltb Reqb Rmid rf_atR solve fs0 unit_interval true = Ret l /\ tiles l (Q2R (1#2)) (Q2R 1) /\
    forall f i r, In (f, i, r) l -> comes_from true fs0 (inject_Z 1000000) f i r /\ forall x, inside i x -> ~ has_pole f x /\ is_least fs0 (Q2R (inject_Z 1000000)) x (rfval f x)).
  { destruct fs0 as [|f0 fs1] eqn:E0.
    - eexists. split; [reflexivity|]. split; [cbn; repeat split; apply half_lt_one|]. intros f i r [E|[]]. injection E as <- <- <-. split; [left; auto|].
      intros x _. split; [apply fdef_pole|]. split; [left; apply (fdef_val (inject_Z 1000000))|]. split; [rewrite (fdef_val (inject_Z 1000000)); lra|intros ? ? []].
    - rewrite <- E0 in *. apply (rational_min_everywhere solve SC fs0 unit_interval true half_lt_one); [rewrite E0; discriminate| | |].
      + intros f i x I D. split; [|discriminate]. intro B. apply (DI f i x); [now apply SM|exact D|lra].
      + intros f i I. apply (HO f i). now apply SM.
      + intros f i x I. apply DI. now apply SM. }
  destruct X as (l & El & Tl & Hl). rewrite El. cbn [bind]. destruct (pack_energy_all parse rf_str hs fs0 F l _ _ Tl) as (out & Eo & To & Ho); [intros; now apply Hl|].
  exists out. split; [exact Eo|]. split; [exact To|]. intros o Io. destruct (Ho o Io) as (n & t & f & i & p & r & k & -> & I & Tk). exists n, t, f, i, p, r. split; [reflexivity|]. split; [exact Tk|].
  intros x Ix. destruct (Hl f i k I) as [_ O]. destruct (O x Ix) as [NPx L]. split; [exact NPx|]. apply (least_same fs0 fs _ x _ SM L).
Qed.
Print Assumptions best_energy_everywhere.

Lemma bounds_flags : forall l a b n t d p r ds, bounds_tile l a b -> In (ANode n t d p r ds) l -> ilo (z_int d) = true /\ ihi (z_int d) = false.
Proof.
  induction l as [|[n' t' d' p' r' ds'|h] l IH]; intros a b n t d p r ds T I; cbn in T; [destruct I| |destruct T]. destruct T as (_ & _ & A & B & T).
  destruct I as [E|I]; [injection E as <- <- <- <- <- <-; auto|]. exact (IH _ _ _ _ _ _ _ _ T I).
Qed.
Lemma bounds_cover : forall l a b x, bounds_tile l a b -> a <= x < b -> exists n t d p r ds, In (ANode n t d p r ds) l /\ inside (z_int d) x.
Proof.
  induction l as [|[n t d p r ds|h] l IH]; intros a b x T B; cbn in T; [lra| |destruct T]. destruct T as (L & LH & I1 & I2 & T).
  destruct (Rlt_or_le x (hi (z_int d))) as [K|K].
  - exists n, t, d, p, r, ds. split; [now left|]. unfold inside. rewrite I1, I2. lra.
  - destruct (IH _ _ x T ltac:(lra)) as (n' & t' & d' & p' & r' & ds' & I & J). exists n', t', d', p', r', ds'. split; [now right|exact J].
Qed.

(** What is taken from true estimates is true. *)
Theorem best_energy_true : forall parse rf_str solve tr btr, solve_complete solve ->
  forall W hs fs, energy_readable parse hs -> energy_estimates_in parse hs fs -> half_open_inputs fs -> defined_inputs unit_interval fs ->
  Forall (aholds parse tr btr W) hs ->
  exists out, compute_best_energy_bound parse rf_str solve hs = Ret out /\
    forall o, In o out -> a_name o = s_of "Placeholder zero density estimate" \/ aholds parse tr btr W o.
Proof.
  intros parse rf_str solve tr btr SC W hs fs RD EI HO DI T. destruct (best_energy_everywhere parse rf_str solve SC hs fs RD EI HO DI) as (out & Eo & Ti & H).
  exists out. split; [exact Eo|]. intros o Io. destruct (H o Io) as (n & t & f & i & p & r & -> & Tk & _). destruct Tk as [(_ & -> & _)|(-> & d & ds & I & Rd & B1 & B2)]; [now left|]. right.
  rewrite Forall_forall in T. specialize (T _ I). cbn in T. specialize (T f Rd). cbn. intros g [G|[G _]]; [|discriminate]. injection G as <-.
  intros s S1 S2 Is Np. apply T; auto. assert (K : In (f, z_int d) fs) by (apply EI; exists n, d, p, r, ds; auto). destruct (HO _ _ K) as [K1 K2].
  destruct (bounds_flags _ _ _ _ _ _ _ _ _ Ti Io) as [F1 F2]. cbn in F1, F2. unfold inside in *. rewrite K1, K2. cbn [z_int] in Is. rewrite F1, F2 in Is. lra.
Qed.
Print Assumptions best_energy_true.

(** A piece of the result without a hypothesis behind it is not an energy
    estimate: its type is that of zero density estimates.  With the trivial
    estimates, one of which holds on all of [1/2, 1), there is such a piece near
    1, where no energy estimate is left. *)
Theorem best_energy_type_refuted : forall rf_str solve, solve_complete solve ->
  let hs := add_trivial_zero_density_energy_estimates [] in
  exists out, compute_best_energy_bound parse_formula rf_str solve hs = Ret out /\
    (exists n d p r, In (ANode n TDensity d p r []) out) /\
    forall x, 1 - 2 / 1000000 < x < 1 -> forall n d p r ds, In (ANode n TEnergy d p r ds) out -> ~ inside (z_int d) x.
Proof.
  intros rf_str solve SC hs. destruct start_text as (g & Eg & V).
  assert (EI : energy_estimates_in parse_formula hs [(g, unit_interval)]).
  { intros f i. split.
    - intros [E|[]]. injection E as <- <-. do 5 eexists. split; [left; reflexivity|]. split; [right; split; [reflexivity|exact Eg]|reflexivity].
    - intros (n & d & p & r & ds & [E|[]] & Rd & ->). injection E as <- <- <- <- <-. left. destruct Rd as [E|[_ E]]; [discriminate|]. pose proof (eq_trans (eq_sym Eg) E) as K; injection K as <-; clear E. reflexivity. }
  assert (RD : energy_readable parse_formula hs). { intros n d p r ds [E|[]]. injection E as <- <- <- <- <-. exists g. right. split; [reflexivity|exact Eg]. }
  assert (U : lo unit_interval = 1/2 /\ hi unit_interval = 1) by (split; unfold unit_interval, Q2R; cbn; lra). destruct U as [U1 U2].
  destruct (best_energy_everywhere parse_formula rf_str solve SC hs _ RD EI) as (out & Eo & T & H).
  { intros f i [E|[]]. injection E as <- <-. auto. }
  { intros f i x [E|[]] _ B. injection E as <- <-. rewrite (proj1 (V x)). rewrite U2 in B. lra. }
  assert (M : Q2R (inject_Z 1000000) = 1000000) by (unfold Q2R; cbn; lra).
  assert (NE : forall x, 1 - 2 / 1000000 < x < 1 -> forall n d p r ds, In (ANode n TEnergy d p r ds) out -> ~ inside (z_int d) x).
  { intros x Bx n d p r ds I J. destruct (H _ I) as (n' & t & f & i & p' & r' & Eq & Tk & L). injection Eq as <- <- -> <- <- ->. cbn [z_int] in J.
    destruct (L x J) as [_ (_ & Le & _)]. rewrite M in Le.
    destruct Tk as [(Eq & _)|(_ & d & ds & [Eq|[]] & Rd & _)]; [discriminate|]. injection Eq as <- <- <- <-. destruct Rd as [E|[_ E]]; [discriminate|]. pose proof (eq_trans (eq_sym Eg) E) as K; injection K as <-; clear E.
    rewrite (proj2 (V x)) in Le. assert (P : 0 < 1 - x) by lra. apply (Rmult_le_compat_r (1 - x)) in Le; [|lra]. unfold Rdiv in Le. rewrite Rmult_assoc, Rinv_l in Le by lra. lra. }
  exists out. split; [exact Eo|]. split; [|exact NE].
  destruct (bounds_cover _ _ _ (1 - 1/1000000) T) as (n & t & d & p & r & ds & I & J). { change (lo unit_interval <= 1 - 1/1000000 < hi unit_interval). rewrite U1, U2. lra. }
  destruct t; [|exfalso; revert J; apply (NE (1 - 1/1000000) ltac:(lra) _ _ _ _ _ I)]. destruct (H _ I) as (n' & t & f & i & p' & r' & Eq & _). injection Eq as -> <- -> -> -> ->. do 4 eexists. exact I.
Qed.
Print Assumptions best_energy_type_refuted.

(** The text of a computed zero density estimate is LaTeX.  Three times such a
    text cannot be read, and the best energy bound is then not computed. *)
Theorem trivial_energy_computed_refuted : forall rf_str solve f i n p r ds, In "\"%char (rf_str f) ->
  let hs := add_trivial_zero_density_energy_estimates [ABase (ZNode n (from_rational_func rf_str f i) p r ds)] in
  exists err, compute_best_energy_bound parse_formula rf_str solve hs = Raise err.
Proof.
  intros rf_str solve f i n p r ds B hs. unfold compute_best_energy_bound. cbn [hs add_trivial_zero_density_energy_estimates density_in flat_map app map energy_in trivial_zero_density_energy_estimate mapM fst snd].
  unfold ensure_bound at 1. cbn [z_bound Zero_Density_Estimate z_expr from_rational_func].
  destruct (parse_foreign_character (s_of "3 * (" ++ rf_str f ++ s_of ")") "\"%char) as (err & Ee).
  - apply in_or_app. right. apply in_or_app. now left.
  - intro I. unfold formula_chars in I. cbn in I. intuition discriminate.
  - rewrite Ee. exists err. reflexivity.
Qed.
Print Assumptions trivial_energy_computed_refuted.

(** ** What the trivial estimates record *)
Lemma energy_world_admissible : forall P : Q -> Prop, (forall s s', (s == s')%Q -> P s -> P s') -> a_admissible (energy_world trivial_world P).
Proof.
  intros P PP. constructor; cbn [energy_world dens ze].
  - now apply density_world_admissible.
  - intros s s' v E [H|[H K]]; [now left|right; split; auto; eapply PP; eauto].
  - intros s v w L [H|[H K]]; [left; lra|]. right. split; [lra|exact K].
  - intros s v _ _ [H|[H K]]; [left; lra|right; split; [lra|exact K]].
  - intros s _ S2. left. apply Qlt_Rlt in S2. rewrite Q2R_1 in S2. apply Rdiv_lt_0_compat; lra.
  - intros s t0 b S1 S2 T0 HL _. left.
    assert (K : exists r, (0 < r /\ r <= t0 /\ r <= 2 - 2 * s)%Q).
    { destruct (Qlt_le_dec t0 (2 - 2 * s)); [exists t0|exists (2 - 2 * s)%Q]; repeat split; Lqa.lra. }
    destruct K as (r & R0 & R1 & R2). assert (B : Q2R (2 * r) <= b * Q2R t0).
    { apply (HL t0 r (2 * r)%Q (r + 2)%Q); try Lqa.lra. cbn. do 5 eexists. split; [reflexivity|]. unfold conj_en, conj_lv. repeat split; try Lqa.lra. }
    apply Qlt_Rlt in R0, S2, T0. rewrite Q2R_0 in R0, T0. rewrite Q2R_1 in S2. rewrite Q2R_mult in B. assert (Q2R 2 = 2) by (unfold Q2R; cbn; lra). assert (BP : 0 < b).
    { destruct (Rlt_or_le 0 b) as [|N]; auto. exfalso. assert (b * Q2R t0 <= 0 * Q2R t0) by (apply Rmult_le_compat_r; lra). nra. }
    apply Rdiv_lt_0_compat; lra.
Qed.
(** A trivial estimate made from a zero density estimate does not name that
    estimate as a dependency, so what it records does not suffice for it. *)
Theorem trivial_energy_supported_refuted : forall tr btr, exists hs h, Forall (asupported parse_formula tr btr) hs /\
  In h (add_trivial_zero_density_energy_estimates hs) /\ a_deps h = [] /\ ~ asupported parse_formula tr btr h.
Proof.
  intros tr btr. set (d := mkZ (s_of "0") unit_interval None). set (g := ZNode (s_of "g") d [] ref_trivial []).
  exists [ABase (ZNode (s_of "h") d [] ref_trivial [g])], (trivial_zero_density_energy_estimate (Zero_Density_Estimate (s_of "3 * (0)") unit_interval)). split; [|split; [|split]].
  - constructor; [|constructor]. intros W _ T. inversion T as [|? ? T1 _]; subst. exact T1.
  - right. now left.
  - reflexivity.
  - intro S. specialize (S (energy_world trivial_world (fun _ => False)) (energy_world_admissible (fun _ => False) (fun _ _ _ F => F)) (Forall_nil _)).
    assert (X : exists f, parse_formula (s_of "3 * (0)") = Ret f /\ forall x, ~ has_pole f x /\ rfval f x = 0).
    { eexists. split; [vm_compute; reflexivity|]. intro x. unfold has_pole, rfval. cbn [Model_RationalFunction.num den reval]. assert (A : Q2R 1 = 1) by (unfold Q2R; cbn; lra). assert (B : Q2R 0 = 0) by (unfold Q2R; cbn; lra). rewrite A, B. split; [lra|field]. }
    destruct X as (f & Ef & V). cbn in S. specialize (S f (or_intror (conj eq_refl Ef)) (3#4) eq_refl eq_refl). assert (I : inside unit_interval (Q2R (3#4))).
    { unfold inside. cbn. split; [apply Qle_Rle; discriminate|apply Qlt_Rlt; reflexivity]. }
    specialize (S I (proj1 (V _))). cbn in S. rewrite (proj2 (V _)) in S. destruct S as [S|[_ []]]. lra.
Qed.
Print Assumptions trivial_energy_supported_refuted.

(** With the trivial estimates added, in whatever order the set is then listed,
    the best bound is at most 3 A for every bound A on zero density, and at most
    3/(1 - x). *)
Theorem best_energy_with_trivial : forall rf_str solve, solve_complete solve ->
  forall hs hs' fs, Permutation (add_trivial_zero_density_energy_estimates hs) hs' ->
  energy_readable parse_formula hs' -> energy_estimates_in parse_formula hs' fs -> half_open_inputs fs -> defined_inputs unit_interval fs ->
  exists out, compute_best_energy_bound parse_formula rf_str solve hs' = Ret out /\
    forall x, 1/2 <= x < 1 -> exists n t d p r ds g, In (ANode n t d p r ds) out /\ inside (z_int d) x /\ z_bound d = Some g /\ ~ has_pole g x /\
      rfval g x <= 3 / (1 - x) /\
      forall z f, density_estimate_in hs z -> parse_formula (z_expr z) = Ret f -> inside (z_int z) x -> rfval g x <= 3 * rfval f x.
Proof.
  intros rf_str solve SC hs hs' fs PM RD EI HO DI. destruct (best_energy_everywhere parse_formula rf_str solve SC hs' fs RD EI HO DI) as (out & Eo & T & H).
  exists out. split; [exact Eo|]. intros x B. destruct (trivial_energy_complete hs) as (C1 & C2 & _).
  assert (U : Q2R (1#2) = 1/2 /\ Q2R 1 = 1) by (split; unfold Q2R; cbn; lra). destruct U as [U1 U2].
  destruct (bounds_cover _ _ _ x T) as (n & t & d & p & r & ds & I & J); [rewrite U1, U2; exact B|].
  destruct (H _ I) as (n' & t' & g & i & p' & r' & Eq & _ & L). injection Eq as -> -> -> -> -> ->. cbn [z_int] in J. destruct (L x J) as [Np (_ & _ & Le)].
  exists n', t', (mkZ (rf_str g) i (Some g)), p', r', [], g. split; [exact I|]. split; [exact J|]. split; [reflexivity|]. split; [exact Np|].
  assert (IN : forall n d p r ds f, In (ANode n TEnergy d p r ds) (add_trivial_zero_density_energy_estimates hs) -> reads parse_formula d f -> inside (z_int d) x -> rfval g x <= rfval f x).
  { intros m z q k es f In1 Rd Is. apply (Le f (z_int z)); [|exact Is]. apply EI. exists m, z, q, k, es. split; [|auto]. now apply (Permutation_in _ PM). }
  split.
  - destruct C2 as (z & f & Iz & Ez & Rz & Vz). rewrite <- (proj2 (Vz x)). apply (IN _ _ _ _ _ _ Iz Rz). rewrite Ez. unfold inside, unit_interval. cbn [lo hi ilo ihi]. rewrite U1, U2. lra.
  - intros z f D P Is. destruct (C1 z f D P) as (z' & f' & Iz & Ez & Rz & Vz). rewrite <- (proj2 (Vz x)). apply (IN _ _ _ _ _ _ Iz Rz). now rewrite Ez.
Qed.
Print Assumptions best_energy_with_trivial.

(** Ingham's estimate A <= 3/(2 - x) alone: A* <= 9/(2 - x), at x = 3/4 below 36/5. *)
Definition ingham_set : list anode := [ABase (ZNode (s_of "Ingham") (mkZ (s_of "3/(2 - x)") unit_interval None) [] ref_classical [])].
Example best_energy_case : forall rf_str solve, solve_complete solve ->
  exists out, compute_best_energy_bound parse_formula rf_str solve (add_trivial_zero_density_energy_estimates ingham_set) = Ret out /\
    exists n t d p r ds g, In (ANode n t d p r ds) out /\ inside (z_int d) (3/4) /\ z_bound d = Some g /\ ~ has_pole g (3/4) /\ rfval g (3/4) <= 36/5.
Proof.
  intros rf_str solve SC.
  assert (X : exists f, parse_formula (s_of "3/(2 - x)") = Ret f /\ forall x, (has_pole f x <-> x = 2) /\ rfval f x = 3 / (2 - x)).
  { eexists. split; [vm_compute; reflexivity|]. intro x. unfold has_pole, rfval. cbn [Model_RationalFunction.num den reval].
    assert (A : Q2R 3 = 3) by (unfold Q2R; cbn; lra). assert (B : Q2R 1 = 1) by (unfold Q2R; cbn; lra). assert (C : Q2R 2 = 2) by (unfold Q2R; cbn; lra).
    rewrite A, B, C. split; [split; intro; lra|]. f_equal; ring. }
  destruct X as (f & Ef & Vf). destruct (parse_three_times _ _ Ef) as (f3 & Ef3 & V3). destruct start_text as (g & Eg & Vg).
  assert (U : lo unit_interval = 1/2 /\ hi unit_interval = 1) by (split; unfold unit_interval, Q2R; cbn; lra). destruct U as [U1 U2].
  assert (EI : energy_estimates_in parse_formula (add_trivial_zero_density_energy_estimates ingham_set) [(f3, unit_interval); (g, unit_interval)]).
  { intros h i. split.
    - intros [E|[E|[]]]; injection E as <- <-; do 5 eexists.
      + split; [right; left; reflexivity|]. split; [right; split; [reflexivity|exact Ef3]|reflexivity].
      + split; [right; right; left; reflexivity|]. split; [right; split; [reflexivity|exact Eg]|reflexivity].
    - intros (n & d & p & r & ds & [E|[E|[E|[]]]] & Rd & ->); [discriminate| |]; injection E as <- <- <- <- <-; destruct Rd as [E|[_ E]]; try discriminate.
      + pose proof (eq_trans (eq_sym Ef3) E) as K. injection K as <-. now left.
      + pose proof (eq_trans (eq_sym Eg) E) as K. injection K as <-. right. now left. }
  destruct (best_energy_with_trivial rf_str solve SC ingham_set _ [(f3, unit_interval); (g, unit_interval)] (Permutation_refl _)) as (out & Eo & H).
  - intros n d p r ds [E|[E|[E|[]]]]; [discriminate| |]; injection E as <- <- <- <- <-; [exists f3|exists g]; right; (split; [reflexivity|assumption]).
  - exact EI.
  - intros h i [E|[E|[]]]; injection E as <- <-; auto.
  - intros h i x [E|[E|[]]] _ B; injection E as <- <-; rewrite U1, U2 in B.
    + rewrite (proj1 (V3 x)), (proj1 (Vf x)). lra.
    + rewrite (proj1 (Vg x)). lra.
  - exists out. split; [exact Eo|]. destruct (H (3/4) ltac:(lra)) as (n & t & d & p & r & ds & h & I & J & Eh & Np & _ & L).
    exists n, t, d, p, r, ds, h. split; [exact I|]. split; [exact J|]. split; [exact Eh|]. split; [exact Np|].
    assert (B : rfval h (3/4) <= 3 * rfval f (3/4)).
    { apply (L (mkZ (s_of "3/(2 - x)") unit_interval None) f); [right; unfold ingham_set; do 4 eexists; now left|exact Ef|].
      unfold inside. cbn [z_int ilo ihi lo hi unit_interval]. unfold unit_interval in U1, U2. cbn in U1, U2. rewrite U1, U2. lra. }
    rewrite (proj2 (Vf _)) in B. lra.
Qed.
