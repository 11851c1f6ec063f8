(** C60: zero density estimates from exponent pairs. *)
From Verif Require Import Base Model_Text Model_Reference Model_Interval Proof_Interval Model_ExponentPair Spec_ExponentPair Model_LargeValues Spec_LargeValues
  Model_AdditiveEnergy Spec_AdditiveEnergy Model_RationalFunction Spec_RationalFunction Proof_RationalFunction Proof_RFOptimal Prop_RationalFunction Prop_Roots Model_ZeroDensity
  Model_DensityEstimate Spec_DensityEstimate Prop_DensityEstimate Model_Formula Prop_Formula Model_PairDensity Spec_PairDensity.
From Coq Require Import Reals Qreals Lra Lia.
From Verif Require Proof_Piecewise.
Open Scope list_scope.
Local Open Scope Q_scope.

Ltac qmm := repeat match goal with
  | |- context [qmax ?x ?y] => let E := fresh in destruct (qmax_spec x y) as (? & ? & [E|E]); rewrite E in *; clear E
  | |- context [qmin ?x ?y] => let E := fresh in destruct (qmin_spec x y) as (? & ? & [E|E]); rewrite E in *; clear E
  | _ : context [qmax ?x ?y] |- _ => let E := fresh in destruct (qmax_spec x y) as (? & ? & [E|E]); rewrite E in *; clear E
  end; Lqa.lra.

(** ** Ivic *)
Lemma square_cases : forall m : Z, m <> 0%Z -> 0 <= inject_Z m * inject_Z m - inject_Z m /\ 1 <= inject_Z m * inject_Z m.
Proof.
  intros m N. rewrite <- inject_Z_mult. unfold Qminus. rewrite <- inject_Z_opp, <- inject_Z_plus. change 0 with (inject_Z 0). change 1 with (inject_Z 1). rewrite <- !Zle_Qle. split; nia.
Qed.
Lemma frac_div_pos : forall p q, 0 < q -> frac_div p q = Ret (p / q).
Proof. intros p q P. unfold frac_div. destruct (Qeqb q 0) eqn:E; [apply Qeqb_true in E; Lqa.lra|reflexivity]. Qed.
Lemma start_den : forall m k l, m <> 0%Z -> 0 <= k -> 0 <= l ->
  0 < 4 * inject_Z m * inject_Z m * (1 + 2 * k + 2 * l) - (6 * k + 4 * l) * inject_Z m + 2 * k + 2 * l.
Proof.
  intros m k l N K L. destruct (square_cases m N) as [A B]. set (M := inject_Z m) in *.
  assert (E : 4 * M * M * (1 + 2 * k + 2 * l) - (6 * k + 4 * l) * M + 2 * k + 2 * l == 4 * (M * M) + k * (8 * (M * M) - 6 * M + 2) + l * (8 * (M * M) - 4 * M + 2)) by ring.
  rewrite E. assert (0 <= k * (8 * (M * M) - 6 * M + 2)) by (apply Qmult_le_0_compat; Lqa.lra).
  assert (0 <= l * (8 * (M * M) - 4 * M + 2)) by (apply Qmult_le_0_compat; Lqa.lra). Lqa.lra.
Qed.
Definition ivic_frac (m : Z) (k l : Q) : Q :=
  (3 * inject_Z m * inject_Z m * (1 + 2 * k + 2 * l) - (4 * k + 2 * l) * inject_Z m + 2 * k + 2 * l) /
  (4 * inject_Z m * inject_Z m * (1 + 2 * k + 2 * l) - (6 * k + 4 * l) * inject_Z m + 2 * k + 2 * l).
Lemma ivic_frac_below : forall m k l, m <> 0%Z -> 0 <= k -> 0 <= l -> ivic_frac m k l < 1.
Proof.
  intros m k l N K L. pose proof (start_den m k l N K L) as D. destruct (square_cases m N) as [A B]. unfold ivic_frac. apply Qlt_shift_div_r; [exact D|]. set (M := inject_Z m) in *.
  assert (0 <= k * (2 * (M * M) - 2 * M)) by (apply Qmult_le_0_compat; Lqa.lra). assert (0 <= l * (2 * (M * M) - 2 * M)) by (apply Qmult_le_0_compat; Lqa.lra). Lqa.nra.
Qed.
Lemma ivic_search_spec : forall m, m <> 0%Z -> forall eps s dep,
  (forall h, In h eps -> exists k l, says_pair h k l /\ 0 <= k /\ 0 <= l) ->
  exists s' dep', ivic_search m eps s dep = Ret (s', dep') /\ s' <= s /\
    (forall h k l, In h eps -> says_pair h k l -> s' <= ivic_frac m k l) /\
    ((s' = s /\ dep' = dep) \/ exists h k l, In h eps /\ says_pair h k l /\ dep' = Some h /\ s' = ivic_frac m k l).
Proof.
  intros m N. induction eps as [|h eps IH]; intros s dep P.
  - exists s, dep. split; [reflexivity|]. split; [apply Qle_refl|]. split; [intros h k l []|]. now left.
  - destruct (P h (or_introl eq_refl)) as (k & l & S & K & L). cbn [ivic_search]. unfold pair_of. rewrite S. cbn [bind fst snd].
    unfold ivic_start. cbv zeta. rewrite (frac_div_pos _ _ (start_den m k l N K L)). cbn [bind]. fold (ivic_frac m k l).
    assert (P' : forall h, In h eps -> exists k l, says_pair h k l /\ 0 <= k /\ 0 <= l) by (intros; apply P; now right).
    assert (U : forall k' l', says_pair h k' l' -> k' = k /\ l' = l) by (intros k' l' S'; unfold says_pair in *; rewrite S in S'; now injection S' as -> ->).
    destruct (Qltb (ivic_frac m k l) s) eqn:C.
    + apply Qltb_true in C. destruct (IH (ivic_frac m k l) (Some h) P') as (s' & d' & E & Le & A & B). exists s', d'. split; [exact E|]. split; [Lqa.lra|]. split.
      * intros g k' l' [<-|I] G; [destruct (U _ _ G) as [-> ->]; exact Le|exact (A g k' l' I G)].
      * right. destruct B as [[-> ->]|(g & k' & l' & I & G & -> & ->)]; [exists h, k, l; repeat split; auto; now left|exists g, k', l'; repeat split; auto; now right].
    + apply Qltb_false in C. destruct (IH s dep P') as (s' & d' & E & Le & A & B). exists s', d'. split; [exact E|]. split; [exact Le|]. split.
      * intros g k' l' [<-|I] G; [destruct (U _ _ G) as [-> ->]; Lqa.lra|exact (A g k' l' I G)].
      * destruct B as [B|(g & k' & l' & I & G & -> & ->)]; [now left|]. right. exists g, k', l'. repeat split; auto. now right.
Qed.

(** The text of the estimate, zero_density_estimate.py 555 *)
Definition ivic_text (m : Z) : str := z_str (3 * m) ++ s_of "/(" ++ z_str (3 * m - 2) ++ s_of "x + " ++ z_str (2 - m) ++ s_of ")".

Lemma clip_is : forall m k l, m <> 0%Z -> 0 <= k -> 0 <= l -> let M := inject_Z m in
  qmin (qmax (ivic_frac m k l) ((9 * M * M - 4 * M + 2) / (12 * M * M - 6 * M + 2))) ((6 * M * M - 5 * M + 2) / (8 * M * M - 7 * M + 2)) == ivic_lower m k l.
Proof.
  intros m k l N K L M. unfold ivic_lower. cbv zeta. fold M. unfold ivic_frac. fold M.
  assert (E1 : (9 * M * M - 4 * M + 2) / (12 * M * M - 6 * M + 2) == (9 * (M * M) - 4 * M + 2) / (12 * (M * M) - 6 * M + 2)) by (rewrite !Qmult_assoc; reflexivity).
  assert (E2 : (6 * M * M - 5 * M + 2) / (8 * M * M - 7 * M + 2) == (6 * (M * M) - 5 * M + 2) / (8 * (M * M) - 7 * M + 2)) by (rewrite !Qmult_assoc; reflexivity).
  assert (E3 : (3 * M * M * (1 + 2 * k + 2 * l) - (4 * k + 2 * l) * M + 2 * k + 2 * l) / (4 * M * M * (1 + 2 * k + 2 * l) - (6 * k + 4 * l) * M + 2 * k + 2 * l) ==
    (3 * (M * M) * (1 + 2 * k + 2 * l) - (4 * k + 2 * l) * M + 2 * k + 2 * l) / (4 * (M * M) * (1 + 2 * k + 2 * l) - (6 * k + 4 * l) * M + 2 * k + 2 * l)) by (rewrite !Qmult_assoc; reflexivity).
  revert E1 E2 E3. 
  generalize ((9 * M * M - 4 * M + 2) / (12 * M * M - 6 * M + 2)), ((9 * (M * M) - 4 * M + 2) / (12 * (M * M) - 6 * M + 2)), ((6 * M * M - 5 * M + 2) / (8 * M * M - 7 * M + 2)), ((6 * (M * M) - 5 * M + 2) / (8 * (M * M) - 7 * M + 2)),
    ((3 * M * M * (1 + 2 * k + 2 * l) - (4 * k + 2 * l) * M + 2 * k + 2 * l) / (4 * M * M * (1 + 2 * k + 2 * l) - (6 * k + 4 * l) * M + 2 * k + 2 * l)),
    ((3 * (M * M) * (1 + 2 * k + 2 * l) - (4 * k + 2 * l) * M + 2 * k + 2 * l) / (4 * (M * M) * (1 + 2 * k + 2 * l) - (6 * k + 4 * l) * M + 2 * k + 2 * l)).
  intros a a' b b' c c' Ea Eb Ec. qmm.
Qed.

(** The start of the range is the least one that the lemma of Ivic allows for a pair
    in the list; the estimate depends on such a pair. *)
Theorem ivic_ep_to_zd_value : forall m eps, m <> 0%Z -> eps <> [] ->
  (forall h, In h eps -> exists k l, says_pair h k l /\ 0 <= k /\ 0 <= l) ->
  exists h k l s0 p r, In h eps /\ says_pair h k l /\ s0 == ivic_lower m k l /\
    (forall h' k' l', In h' eps -> says_pair h' k' l' -> s0 <= ivic_lower m k' l') /\
    ivic_ep_to_zd eps m = Ret (ZNode (s_of "Derived zero density estimate") (mkZ (ivic_text m) (mkV (Q2R s0) (Q2R 1) true false) None) p r [ZBase (EBase (LBase h))]).
Proof.
  intros m eps N NE P. destruct (ivic_search_spec m N eps 1 None P) as (s & dep & E & Le & A & B).
  assert (B' : exists h k l, In h eps /\ says_pair h k l /\ dep = Some h /\ s = ivic_frac m k l).
  { destruct B as [[-> ->]|B]; [|exact B]. exfalso. destruct eps as [|h eps]; [now apply NE|]. destruct (P h (or_introl eq_refl)) as (k & l & S & K & L).
    specialize (A h k l (or_introl eq_refl) S). pose proof (ivic_frac_below m k l N K L). Lqa.lra. }
  clear B. destruct B' as (h & k & l & Ih & S & -> & ->). destruct (P h Ih) as (k0 & l0 & S0 & K & L). unfold says_pair in S0. rewrite S in S0. injection S0 as <- <-.
  destruct (square_cases m N) as [Q1 Q2]. unfold ivic_ep_to_zd. cbv zeta. rewrite E. cbn [bind]. set (M := inject_Z m) in *.
  rewrite (frac_div_pos _ (12 * M * M - 6 * M + 2)) by Lqa.lra. cbn [bind]. rewrite (frac_div_pos _ (8 * M * M - 7 * M + 2)) by Lqa.lra. cbn [bind].
  pose proof (fun k l K L => clip_is m k l N K L) as CL. cbv zeta in CL. fold M in CL. pose proof (CL k l K L) as CS.
  remember (qmin (qmax (ivic_frac m k l) ((9 * M * M - 4 * M + 2) / (12 * M * M - 6 * M + 2))) ((6 * M * M - 5 * M + 2) / (8 * M * M - 7 * M + 2))) as s0 eqn:Es.
  assert (S1 : s0 <= 1).
  { rewrite Es. apply Qle_trans with ((6 * M * M - 5 * M + 2) / (8 * M * M - 7 * M + 2)); [|apply Qle_shift_div_r; Lqa.lra].
    qmm. }
  unfold frac_interval. destruct (Qltb 1 s0) eqn:C; [apply Qltb_true in C; Lqa.lra|]. cbn [bind]. unfold pair_of. rewrite S. cbn [bind fst snd].
  assert (Y : exists y, max_year (map zn_ref [as_dep h]) = Ret y).
  { cbn [map]. unfold max_year. cbn [existsb map]. destruct (val_eqb (r_year (zn_ref (as_dep h))) unknown_date || false); [eauto|]. cbn. eauto. }
  destruct Y as (y & Y). unfold derived_zero_density_estimate. rewrite Y. cbn [bind].
  exists h, k, l, s0. do 2 eexists. split; [exact Ih|]. split; [exact S|]. split; [exact CS|]. split.
  - intros h' k' l' I' S'. destruct (P h' I') as (k0 & l0 & S0 & K' & L'). unfold says_pair in S0. rewrite S' in S0. injection S0 as <- <-.
    rewrite <- (CL k' l' K' L'), Es. specialize (A h' k' l' I' S'). clear - A.
    qmm.
  - reflexivity.
Qed.
Print Assumptions ivic_ep_to_zd_value.

(** Where the lemma of Ivic holds, the bound that the text stands for holds on the
    whole interval. *)
Theorem ivic_ep_to_zd_sound : forall W m eps, ivic_theorem W -> (2 <= m)%Z ->
  (forall h, In h eps -> exists k l, says_pair h k l /\ exp_pair (pairs_of W) k l) ->
  forall n d p r ds, ivic_ep_to_zd eps m = Ret (ZNode n d p r ds) ->
  forall s, 1#2 < s -> s < 1 -> Spec_RationalFunction.inside (z_int d) (Q2R s) -> zd W s (ivic_value m (Q2R s)).
Proof.
  intros W m eps T M P n d p r ds E s S1 S2 I. assert (N : m <> 0%Z) by lia.
  assert (P' : forall h, In h eps -> exists k l, says_pair h k l /\ 0 <= k /\ 0 <= l).
  { intros h Ih. destruct (P h Ih) as (k & l & S & (K1 & K2 & K3 & K4 & K5) & _). exists k, l. repeat split; auto. Lqa.lra. }
  destruct eps as [|h0 eps0] eqn:Ee.
  { exfalso. revert E. unfold ivic_ep_to_zd. cbn [ivic_search bind]. cbv zeta.
    repeat match goal with |- context [frac_div ?a ?b] => destruct (frac_div a b); cbn [bind]; [|discriminate] end.
    match goal with |- context [frac_interval ?a ?b] => destruct (frac_interval a b); cbn [bind]; discriminate end. }
  rewrite <- Ee in *. destruct (ivic_ep_to_zd_value m eps N ltac:(rewrite Ee; discriminate) P') as (h & k & l & s0 & p0 & r0 & Ih & Sh & E0 & _ & E1).
  rewrite E in E1. injection E1 as -> -> -> -> ->. destruct (P h Ih) as (k' & l' & S' & X). unfold says_pair in *. rewrite Sh in S'. injection S' as <- <-.
  apply (T m k l); auto. rewrite <- E0. cbn [z_int] in I. destruct I as [I _]. cbn in I. now apply Rle_Qle.
Qed.
Print Assumptions ivic_ep_to_zd_sound.

(** The text lacks a product sign (zero_density_estimate.py 555): the estimate that
    is returned can be evaluated nowhere, and the best estimate cannot be taken in
    any set that contains it. *)
Theorem ivic_estimate_unreadable_refuted : forall m eps o, m <> 0%Z -> eps <> [] ->
  (forall h, In h eps -> exists k l, says_pair h k l /\ 0 <= k /\ 0 <= l) -> ivic_ep_to_zd eps m = Ret o ->
  (exists n d p r ds, o = ZNode n d p r ds /\ forall x, Spec_RationalFunction.inside (z_int d) x -> zde_at parse_formula d x = Raise SyntaxError) /\
  forall rf_str solve hs, In o hs -> forall out, best_zero_density_estimate parse_formula rf_str solve hs <> Ret out.
Proof.
  intros m eps o N NE P E. destruct (ivic_ep_to_zd_value m eps N NE P) as (h & k & l & s0 & p & r & _ & _ & _ & _ & E1). rewrite E in E1. injection E1 as ->.
  assert (X : ensure_bound parse_formula (mkZ (ivic_text m) (mkV (Q2R s0) (Q2R 1) true false) None) = Raise SyntaxError).
  { unfold ensure_bound. cbn [z_bound z_expr]. unfold ivic_text. rewrite ivic_text_rejected. reflexivity. }
  split.
  - do 5 eexists. split; [reflexivity|]. intros x I. unfold zde_at. apply contains_inside in I. rewrite I. cbn [negb]. rewrite X. reflexivity.
  - intros rf_str solve hs I out B. unfold best_zero_density_estimate in B. cbv zeta in B.
    destruct (mapM (fun h => ensure_bound parse_formula (snd (fst (fst h)))) (zero_density_estimates hs)) as [ds|] eqn:D; [|discriminate].
    assert (J : In (s_of "Derived zero density estimate", mkZ (ivic_text m) (mkV (Q2R s0) (Q2R 1) true false) None, p, r) (zero_density_estimates hs)).
    { unfold zero_density_estimates. apply in_flat_map. eexists. split; [exact I|]. now left. }
    revert D J. generalize (zero_density_estimates hs) as zs. clear - X. intro zs. revert ds. induction zs as [|z zs IH]; intros ds D J; [destruct J|]. destruct J as [->|J].
    + cbn [mapM fst snd] in D. rewrite X in D. discriminate.
    + cbn [mapM] in D. destruct (ensure_bound parse_formula (snd (fst (fst z)))); [|discriminate]. cbn [bind] in D.
      destruct (mapM (fun h => ensure_bound parse_formula (snd (fst (fst h)))) zs) as [ds'|]; [|discriminate]. exact (IH ds' eq_refl J).
Qed.
Print Assumptions ivic_estimate_unreadable_refuted.

(** Without pairs there is no result. *)
Theorem ivic_no_pairs : forall m, ivic_ep_to_zd [] m = Raise AttributeError.
Proof.
  intro m. destruct (Z.eq_dec m 0) as [->|N]; [reflexivity|]. unfold ivic_ep_to_zd. cbv zeta. cbn [ivic_search bind]. destruct (square_cases m N) as [A B]. set (M := inject_Z m) in *.
  rewrite (frac_div_pos _ (12 * M * M - 6 * M + 2)) by Lqa.lra. cbn [bind]. rewrite (frac_div_pos _ (8 * M * M - 7 * M + 2)) by Lqa.lra. cbn [bind].
  unfold frac_interval. match goal with |- context [Qltb 1 ?s] => destruct (Qltb 1 s) eqn:C end; [exfalso|reflexivity]. apply Qltb_true in C.
  assert ((6 * M * M - 5 * M + 2) / (8 * M * M - 7 * M + 2) <= 1) by (apply Qle_shift_div_r; Lqa.lra). revert C. apply Qle_not_lt. qmm.
Qed.
Print Assumptions ivic_no_pairs.

(** ** Bourgain *)
Definition rf_of (kl : Q * Q) : rfun := RationalFunction [4 * fst kl] (Some [2 * (1 + fst kl); -(1) - snd kl]).
Definition dn (kl : Q * Q) (s : R) : R := (2 * (1 + Q2R (fst kl)) * s - 1 - Q2R (snd kl))%R.
Lemma Q2R_4 : Q2R 4 = 4%R. Proof. unfold Q2R; cbn; lra. Qed.
Lemma Q2R_2' : Q2R 2 = 2%R. Proof. unfold Q2R; cbn; lra. Qed.
Lemma rf_parts : forall kl x, reval (Model_RationalFunction.num (rf_of kl)) x = (4 * Q2R (fst kl))%R /\ reval (den (rf_of kl)) x = dn kl x.
Proof.
  intros [k l] x. unfold rf_of, dn, RationalFunction, expr_of_coeffs. cbn [fst snd]. cbn. repeat rewrite ?Q2R_plus, ?Q2R_mult, ?Q2R_minus, ?Q2R_opp, ?Q2R_0, ?Q2R_1, ?Q2R_4, ?Q2R_2'.
  unfold Qminus. repeat rewrite ?Q2R_plus, ?Q2R_mult, ?Q2R_minus, ?Q2R_opp, ?Q2R_0, ?Q2R_1, ?Q2R_4, ?Q2R_2'. split; ring.
Qed.
Lemma pole_dn : forall kl s, 0 <= fst kl -> (Q2R (bourgain_pole (fst kl) (snd kl)) < s -> 0 < dn kl s)%R /\ (Q2R (bourgain_pole (fst kl) (snd kl)) <= s -> 0 <= dn kl s)%R.
Proof.
  intros [k l] s K. cbn [fst snd] in *. unfold dn, bourgain_pole. cbn [fst snd].
  assert (E : Q2R ((l + 1) / (2 * (k + 1))) = ((Q2R l + 1) / (2 * (Q2R k + 1)))%R).
  { rewrite Q2R_div by Lqa.lra. now rewrite Q2R_mult, !Q2R_plus, Q2R_1, Q2R_2'. }
  rewrite E. apply Qle_Rle in K. rewrite Q2R_0 in K.
  assert (F : (Q2R l + 1 = (Q2R l + 1) / (2 * (Q2R k + 1)) * (2 * (Q2R k + 1)))%R) by (field; lra).
  set (v := ((Q2R l + 1) / (2 * (Q2R k + 1)))%R) in *. split; intro H; nra.
Qed.
Lemma pole_zero : forall kl s, 0 <= fst kl -> s = Q2R (bourgain_pole (fst kl) (snd kl)) -> dn kl s = 0%R.
Proof.
  intros [k l] s K. cbn [fst snd] in *. unfold dn, bourgain_pole. cbn [fst snd].
  assert (E : Q2R ((l + 1) / (2 * (k + 1))) = ((Q2R l + 1) / (2 * (Q2R k + 1)))%R).
  { rewrite Q2R_div by Lqa.lra. now rewrite Q2R_mult, !Q2R_plus, Q2R_1, Q2R_2'. }
  rewrite E. intros ->. apply Qle_Rle in K. rewrite Q2R_0 in K. field. lra.
Qed.
Lemma dn_pole : forall kl s, 0 <= fst kl -> (0 < dn kl s)%R -> (Q2R (bourgain_pole (fst kl) (snd kl)) < s)%R.
Proof.
  intros kl s K D. pose proof (pole_zero kl _ K eq_refl) as Z. unfold dn in *. apply Qle_Rle in K. rewrite Q2R_0 in K. nra.
Qed.
Lemma pole_le_start : forall kl, bourgain_pole (fst kl) (snd kl) <= start kl.
Proof. intros [k l]. cbn [fst snd]. unfold start. destruct (Qlt_le_dec (11#85) k); qmm. Qed.
Lemma half_le_start : forall kl, 1#2 <= start kl.
Proof. intros [k l]. unfold start. destruct (Qlt_le_dec (11#85) k); qmm. Qed.

Definition is_bound (kl : Q * Q) (b : pair_bound) : Prop :=
  exists s0 h, b = (rf_of kl, mkV (Q2R s0) 1%R true false, h) /\ s0 == start kl /\ says_pair h (fst kl) (snd kl) /\ n_deps h = [] /\ 0 <= fst kl.

Lemma bourgain_bound_spec : forall kl, 0 <= fst kl -> exists bs, bourgain_bound kl = Ret bs /\
  ((in_scope kl /\ start kl < 1 /\ exists b, bs = [b] /\ is_bound kl b) \/ (~ (in_scope kl /\ start kl < 1) /\ bs = [])).
Proof.
  intros [k l] K. cbn [fst] in K. unfold bourgain_bound. unfold derived_exp_pair, derived_node. cbn [map]. cbn [max_year bind].
  set (h := HNode _ _ _ _). assert (D : frac_div (l + 1) (2 * (k + 1)) = Ret (bourgain_pole k l)) by (apply frac_div_pos; Lqa.lra).
  destruct (Qleb k (1#5) && Qleb (3#5) l && Qleb 13 (15 * l + 20 * k)) eqn:S.
  - assert (IS : in_scope (k, l)). { apply andb_true_iff in S as [S S3]. apply andb_true_iff in S as [S1 S2]. unfold in_scope. cbn [fst snd]. repeat split; now apply Qleb_true. }
    clear S. rewrite D. cbn [bind].
    assert (G : forall s0, s0 == start (k, l) -> exists bs, (if Qleb 1 s0 then Ret [] else let! i := frac_interval s0 1 in Ret [(rf_of (k, l), i, h)]) = Ret bs /\
      ((in_scope (k, l) /\ start (k, l) < 1 /\ exists b, bs = [b] /\ is_bound (k, l) b) \/ (~ (in_scope (k, l) /\ start (k, l) < 1) /\ bs = []))).
    { intros s0 Es. destruct (Qleb 1 s0) eqn:C.
      - apply Qleb_true in C. exists []. split; [reflexivity|]. right. split; [|reflexivity]. intros [_ Lt]. Lqa.lra.
      - apply Qleb_false in C. unfold frac_interval. destruct (Qltb 1 s0) eqn:C2; [apply Qltb_true in C2; Lqa.lra|]. cbn [bind]. eexists. split; [reflexivity|]. left.
        split; [exact IS|]. split; [Lqa.lra|]. eexists. split; [reflexivity|]. exists s0, h. split; [unfold real_interval; cbn [fst snd]; now rewrite Q2R_1|]. split; [exact Es|]. split; [reflexivity|]. split; [reflexivity|exact K]. }
    destruct (Qleb k (11#85)) eqn:C.
    + apply Qleb_true in C. apply G. unfold start. destruct (Qlt_le_dec (11#85) k); [Lqa.lra|reflexivity].
    + apply Qleb_false in C. rewrite frac_div_pos by Lqa.lra. cbn [bind]. apply G. unfold start. destruct (Qlt_le_dec (11#85) k); [reflexivity|Lqa.lra].
  - exists []. split; [reflexivity|]. right. split; [|reflexivity]. intros [(A & B & C) _]. cbn [fst snd] in *. apply andb_false_iff in S as [S|S]; [apply andb_false_iff in S as [S|S]|]; apply Qleb_false in S; Lqa.lra.
Qed.

(** The list of bounds *)
Lemma bounds_spec : forall eps, (forall kl, In kl eps -> 0 <= fst kl) -> exists bs, mapM bourgain_bound eps = Ret bs /\
  (forall b, In b (concat bs) -> exists kl, used eps kl /\ is_bound kl b) /\
  (forall l1 kl l2, eps = l1 ++ kl :: l2 -> in_scope kl -> start kl < 1 -> exists c1 b c2, concat bs = c1 ++ b :: c2 /\ is_bound kl b).
Proof.
  induction eps as [|kl eps IH]; intro P.
  - exists []. split; [reflexivity|]. split; [intros b []|]. intros [|] kl l2; discriminate.
  - destruct (bourgain_bound_spec kl (P kl (or_introl eq_refl))) as (bs & Eb & H). destruct (IH (fun kl I => P kl (or_intror I))) as (bss & Es & A & B).
    exists (bs :: bss). cbn [mapM]. rewrite Eb. cbn [bind]. rewrite Es. cbn [bind]. split; [reflexivity|]. cbn [concat]. split.
    + intros b I. apply in_app_iff in I as [I|I].
      * destruct H as [(S & L & b' & -> & Hb)|[_ ->]]; [|destruct I]. destruct I as [<-|[]]. exists kl. split; [|exact Hb]. repeat split; auto; try apply S. now left.
      * destruct (A b I) as (kl' & (U1 & U2) & Hb). exists kl'. split; [|exact Hb]. split; [now right|exact U2].
    + intros l1 kl' l2 E S L. destruct l1 as [|x l1]; injection E as -> E.
      * destruct H as [(_ & _ & b' & -> & Hb)|[N _]]; [|exfalso; apply N; auto]. exists [], b', (concat bss). auto.
      * destruct (B l1 kl' l2 E S L) as (c1 & b & c2 & E' & Hb). exists (bs ++ c1), b, c2. split; [|exact Hb]. rewrite E'. now rewrite app_assoc.
Qed.
Lemma bounds_two : forall eps, (forall kl, In kl eps -> 0 <= fst kl) -> two_used eps -> exists bs, mapM bourgain_bound eps = Ret bs /\ exists c1 b c2 b' c3, concat bs = c1 ++ b :: c2 ++ b' :: c3.
Proof.
  intros eps P (l1 & kl & l2 & kl' & l3 & E & U & U'). 
  destruct (bounds_spec (l1 ++ [kl]) ltac:(intros x I; apply P; rewrite E; apply in_app_iff in I as [I|[<-|[]]]; apply in_or_app; [now left|right; now left])) as (bs1 & E1 & _ & B1).
  destruct (bounds_spec (l2 ++ kl' :: l3) ltac:(intros x I; apply P; rewrite E; apply in_or_app; right; now right)) as (bs2 & E2 & _ & B2).
  exists (bs1 ++ bs2). assert (X : forall a b ra rb, mapM bourgain_bound a = Ret ra -> mapM bourgain_bound b = Ret rb -> mapM bourgain_bound (a ++ b) = Ret (ra ++ rb)).
  { clear. induction a as [|x a IH]; intros b ra rb Ea Eb; [injection Ea as <-; exact Eb|]. cbn [mapM app] in *. destruct (bourgain_bound x); [|discriminate]. cbn [bind] in *.
    destruct (mapM bourgain_bound a) as [ra'|]; [|discriminate]. cbn [bind] in Ea. injection Ea as <-. rewrite (IH b ra' rb eq_refl Eb). reflexivity. }
  split. { rewrite E. change (kl :: l2 ++ kl' :: l3) with ([kl] ++ l2 ++ kl' :: l3). rewrite app_assoc. now apply X. }
  destruct (B1 l1 kl [] eq_refl (proj1 (proj2 U)) (proj2 (proj2 U))) as (c1 & b & c2 & F1 & _). destruct (B2 l2 kl' l3 eq_refl (proj1 (proj2 U')) (proj2 (proj2 U'))) as (c3 & b' & c4 & F2 & _).
  exists c1, b, (c2 ++ c3), b', c4. rewrite concat_app, F1, F2. cbn [app]. now rewrite <- !app_assoc.
Qed.

Section Run.
Context (roots : expr -> list R) (RC : roots_complete roots).
(** The points that two bounds contribute *)
Definition cross (b1 b2 : pair_bound) (x : R) : Prop :=
  In x (intersections R Rltb roots (fst (fst b1)) (fst (fst b2)) (mkV (Rmax (lo (snd (fst b1))) (lo (snd (fst b2)))) 1%R true false)) \/
  x = lo (snd (fst b1)) \/ x = hi (snd (fst b1)) \/ x = lo (snd (fst b2)) \/ x = hi (snd (fst b2)).
Definition shaped (b : pair_bound) : Prop := exists a, snd (fst b) = mkV a 1%R true false /\ (a < 1)%R.
Lemma shaped_intersect : forall a b, (a < 1)%R -> (b < 1)%R -> real_intersect (mkV a 1%R true false) (mkV b 1%R true false) = Ret (mkV (Rmax a b) 1%R true false).
Proof.
  intros a b A B. unfold real_intersect. cbn [lo hi ilo ihi]. rewrite Rmin_left by lra.
  destruct (Rltb 1 (Rmax a b)) eqn:C; [exfalso; apply Rltb_true in C; pose proof (Rmax_case a b (fun x => x < 1)%R A B) as H; cbv beta in H; lra|].
  destruct (Rltb b a), (Rltb a b), (Rltb 1 1); reflexivity.
Qed.
Lemma crits_with_spec : forall b before, shaped b -> Forall shaped before -> exists l, crits_with roots b before = Ret l /\
  forall x, In x l <-> exists b2, In b2 before /\ cross b b2 x.
Proof.
  intros b before S F. induction F as [|b2 before S2 F IH].
  - exists []. split; [reflexivity|]. intro x. split; [intros []|intros (? & [] & _)].
  - destruct IH as (l & El & H). destruct b as [[f1 i1] h1], b2 as [[f2 i2] h2]. destruct S as (a1 & Ea & La), S2 as (a2 & Ea2 & La2). cbn [fst snd] in *. subst i1 i2.
    cbn [crits_with]. rewrite shaped_intersect by assumption. cbn [bind]. rewrite El. cbn [bind]. eexists. split; [reflexivity|]. intro x. rewrite in_app_iff. cbn [lo hi app In]. rewrite H.
    split.
    + intros [I|[I|[I|[I|[I|(b2 & I & C)]]]]]; try (exists (f2, mkV a2 1%R true false, h2); split; [now left|unfold cross; cbn [fst snd lo hi]; auto; intuition; fail]). exists b2. split; [now right|exact C].
    + intros (b2 & [<-|I] & C); [unfold cross in C; cbn [fst snd lo hi] in C; intuition|]. do 5 right. exists b2. auto.
Qed.
Lemma bound_crits_spec : forall bounds before, Forall shaped bounds -> Forall shaped before -> exists pts, bound_crits roots before bounds = Ret pts /\
  forall x, In x pts <-> exists l1 b l2 b2, bounds = l1 ++ b :: l2 /\ In b2 (before ++ l1) /\ cross b b2 x.
Proof.
  induction bounds as [|b bounds IH]; intros before F G.
  - exists []. split; [reflexivity|]. intro x. split; [intros []|intros ([|] & ? & ? & ? & E & _); discriminate].
  - pose proof (Forall_inv F) as S. pose proof (Forall_inv_tail F) as F'. destruct (crits_with_spec b before S G) as (l & El & H).
    destruct (IH (before ++ [b]) F' ltac:(apply Forall_app; split; [exact G|now constructor])) as (pts & Ep & K). cbn [bound_crits]. rewrite El. cbn [bind]. rewrite Ep. cbn [bind].
    eexists. split; [reflexivity|]. intro x. rewrite in_app_iff, H, K. split.
    + intros [(b2 & I & C)|(l1 & c & l2 & b2 & E & I & C)].
      * exists [], b, bounds, b2. rewrite app_nil_r. auto.
      * exists (b :: l1), c, l2, b2. split; [now rewrite E|]. split; [|exact C]. rewrite <- app_assoc in I. exact I.
    + intros (l1 & c & l2 & b2 & E & I & C). destruct l1 as [|y l1]; injection E as -> E.
      * left. rewrite app_nil_r in I. eauto.
      * right. exists l1, c, l2, b2. split; [exact E|]. split; [|exact C]. rewrite <- app_assoc. exact I.
Qed.

(** A bound that is least where it is used *)
Definition least_on (eps : list (Q * Q)) (kl : Q * Q) (a b : R) : Prop :=
  forall s, (a <= s < b)%R -> forall kl', used eps kl' -> (Q2R (start kl') <= s)%R -> (Q2R (fst kl) * dn kl' s <= Q2R (fst kl') * dn kl s)%R.
Definition good (eps : list (Q * Q)) (b : pair_bound) : Prop :=
  exists kl, fst (fst b) = rf_of kl /\ used eps kl /\ says_pair (snd b) (fst kl) (snd kl) /\ n_deps (snd b) = [] /\ 0 <= fst kl /\
    (Q2R (start kl) <= lo (snd (fst b)))%R /\ ilo (snd (fst b)) = true /\ ihi (snd (fst b)) = false /\ (lo (snd (fst b)) < hi (snd (fst b)) <= 1)%R /\
    least_on eps kl (lo (snd (fst b))) (hi (snd (fst b))).
Fixpoint bound_tiles (l : list pair_bound) (a b : R) : Prop :=
  match l with
  | [] => a = b
  | (_, i, _) :: l' => lo i = a /\ (lo i < hi i)%R /\ ilo i = true /\ ihi i = false /\ bound_tiles l' (hi i) b
  end.

Lemma least_at_spec : forall s bounds sup am,
  (forall f i h, In (f, i, h) bounds -> Spec_RationalFunction.inside i s -> reval (den f) s <> 0%R) ->
  match sup, am with
  | None, None => True
  | Some v, Some (f, i, h) => v = rfval f s
  | _, _ => False
  end ->
  exists am', least_at s bounds sup am = Ret am' /\
    match am' with
    | None => am = None /\ forall f i h, In (f, i, h) bounds -> ~ Spec_RationalFunction.inside i s
    | Some (f, i, h) => (am = Some (f, i, h) \/ (In (f, i, h) bounds /\ Spec_RationalFunction.inside i s)) /\
        (forall v, sup = Some v -> rfval f s <= v)%R /\
        (forall f' i' h', In (f', i', h') bounds -> Spec_RationalFunction.inside i' s -> (rfval f s <= rfval f' s)%R)
    end.
Proof.
  intros s. induction bounds as [|[[f i] h] bounds IH]; intros sup am N C; cbn [least_at].
  - exists am. split; [reflexivity|]. destruct am as [[[f i] h]|]; [|split; [reflexivity|intros ? ? ? []]]. split; [now left|]. split; [|intros ? ? ? []].
    intros v E. subst sup. rewrite C. lra.
  - assert (N' : forall f i h, In (f, i, h) bounds -> Spec_RationalFunction.inside i s -> reval (den f) s <> 0%R) by (intros f' i' h' I; exact (N f' i' h' (or_intror I))).
    destruct (icontains R Rltb i s) eqn:Ci.
    + pose proof (proj1 (contains_inside i s) Ci) as Is. unfold rf_atR. destruct (Req_EM_T (reval (den f) s) 0) as [Z|Z]; [exfalso; exact (N f i h (or_introl eq_refl) Is Z)|]. cbn [bind].
      change (reval (Model_RationalFunction.num f) s / reval (den f) s)%R with (rfval f s).
      destruct (match sup with None => true | Some v => Rltb (rfval f s) v end) eqn:B.
      * destruct (IH (Some (rfval f s)) (Some (f, i, h)) N' eq_refl) as (am' & E & H). exists am'. split; [exact E|]. destruct am' as [[[f' i'] h']|]; [|destruct H; discriminate].
        destruct H as (H1 & H2 & H3). split.
        { destruct H1 as [H1|[H1 H1']]; [right; injection H1 as <- <- <-; split; [now left|exact Is]|right; split; [now right|exact H1']]. }
        split.
        { intros v Ev. subst sup. apply Rltb_true in B. specialize (H2 _ eq_refl). lra. }
        { intros g j k [Eq|I] J; [injection Eq as <- <- <-; exact (H2 _ eq_refl)|exact (H3 g j k I J)]. }
      * destruct (IH sup am N' C) as (am' & E & H). exists am'. split; [exact E|]. destruct sup as [v|]; [|discriminate]. apply Rltb_false in B.
        destruct am' as [[[f' i'] h']|]; [|destruct H as [-> _]; destruct C]. destruct H as (H1 & H2 & H3). split; [destruct H1 as [H1|[H1 H1']]; [now left|right; split; [now right|exact H1']]|]. split; [exact H2|].
        intros g j k [Eq|I] J; [injection Eq as <- <- <-; specialize (H2 v eq_refl); lra|exact (H3 g j k I J)].
    + assert (Ni : ~ Spec_RationalFunction.inside i s) by (intro I; apply contains_inside in I; rewrite I in Ci; discriminate).
      destruct (IH sup am N' C) as (am' & E & H). exists am'. split; [exact E|]. destruct am' as [[[f' i'] h']|].
      * destruct H as (H1 & H2 & H3). split; [destruct H1 as [H1|[H1 H1']]; [now left|right; split; [now right|exact H1']]|]. split; [exact H2|].
        intros g j k [Eq|I] J; [injection Eq as <- <- <-; contradiction|exact (H3 g j k I J)].
      * destruct H as [H1 H2]. split; [exact H1|]. intros g j k [Eq|I] J; [injection Eq as <- <- <-; contradiction|exact (H2 g j k I J)].
Qed.

Context (eps : list (Q * Q)) (bounds : list pair_bound).
Hypothesis BA : forall b, In b bounds -> exists kl, used eps kl /\ is_bound kl b.
Hypothesis BB : forall kl, used eps kl -> exists b, In b bounds /\ is_bound kl b.
Hypothesis BC : forall b1 b2, In b1 bounds -> In b2 bounds -> b1 = b2 \/ (forall x, cross b1 b2 x -> exists l1 b l2 c, bounds = l1 ++ b :: l2 /\ In c l1 /\ cross b c x) \/ (forall x, cross b2 b1 x -> exists l1 b l2 c, bounds = l1 ++ b :: l2 /\ In c l1 /\ cross b c x).
Definition is_point (x : R) : Prop := exists l1 b l2 c, bounds = l1 ++ b :: l2 /\ In c l1 /\ cross b c x.
Hypothesis ENDS : forall b, In b bounds -> is_point (lo (snd (fst b))).

Lemma used_nonneg : forall kl, used eps kl -> 0 <= fst kl.
Proof. intros kl U. destruct (BB kl U) as (b & I & s0 & h & _ & _ & _ & _ & K). exact K. Qed.
Lemma start_point : forall kl, used eps kl -> is_point (Q2R (start kl)).
Proof. intros kl U. destruct (BB kl U) as (b & I & s0 & h & -> & E & _). specialize (ENDS _ I). cbn [fst snd lo] in ENDS. now rewrite <- (Qeq_eqR _ _ E). Qed.
Lemma start_below : forall kl, used eps kl -> (Q2R (start kl) < 1)%R.
Proof. intros kl (_ & _ & L). apply Qlt_Rlt in L. now rewrite Q2R_1 in L. Qed.
Lemma dn_pos : forall kl s, used eps kl -> (Q2R (start kl) < s -> 0 < dn kl s)%R /\ (Q2R (start kl) <= s -> 0 <= dn kl s)%R.
Proof.
  intros kl s U. pose proof (pole_le_start kl) as P. apply Qle_Rle in P. destruct (pole_dn kl s (used_nonneg kl U)) as [A B]. split; intro H; [apply A|apply B]; lra.
Qed.
(** Where two used bounds cross, there is a point. *)
Lemma crossing_point : forall kl kl' z, used eps kl -> used eps kl' -> (Q2R (start kl) < z < 1)%R -> (Q2R (start kl') < z)%R ->
  (Q2R (fst kl) * dn kl' z = Q2R (fst kl') * dn kl z)%R -> is_point z \/ forall y, (Q2R (fst kl) * dn kl' y = Q2R (fst kl') * dn kl y)%R.
Proof.
  intros kl kl' z U U' Z Z' E. destruct (BB kl U) as (b & I & B). destruct (BB kl' U') as (b' & I' & B').
  destruct B as (s0 & h & -> & Es & _), B' as (s0' & h' & -> & Es' & _).
  assert (X : forall kl kl' s0 s0' h h', used eps kl -> used eps kl' -> s0 == start kl -> s0' == start kl' -> (Q2R (start kl) < z < 1)%R -> (Q2R (start kl') < z)%R ->
     (Q2R (fst kl) * dn kl' z = Q2R (fst kl') * dn kl z)%R ->
     cross (rf_of kl, mkV (Q2R s0) 1%R true false, h) (rf_of kl', mkV (Q2R s0') 1%R true false, h') z \/ forall y, (Q2R (fst kl) * dn kl' y = Q2R (fst kl') * dn kl y)%R).
  { clear - RC BB. intros kl kl' s0 s0' h h' U U' Es Es' Z Z' E.
    destruct (rf_parts kl z) as [N1 D1], (rf_parts kl' z) as [N2 D2]. unfold cross. cbn [fst snd lo hi]. unfold intersections.
    set (e := ESub (EMul (Model_RationalFunction.num (rf_of kl)) (den (rf_of kl'))) (EMul (den (rf_of kl)) (Model_RationalFunction.num (rf_of kl')))).
    assert (V : forall y, reval e y = (4 * (Q2R (fst kl) * dn kl' y - Q2R (fst kl') * dn kl y))%R).
    { intro y. unfold e. cbn [reval]. destruct (rf_parts kl y) as [-> ->], (rf_parts kl' y) as [-> ->]. ring. }
    destruct (expr_is_constant e) eqn:C.
    - right. intro y. pose proof (Prop_RationalFunction.const_R e C y z) as K. rewrite !V in K. lra.
    - left. left. apply filter_In. split; [apply RC; [exact C|rewrite V; lra]|]. apply contains_inside. unfold Spec_RationalFunction.inside. cbn [lo hi ilo ihi].
      rewrite (Qeq_eqR _ _ Es), (Qeq_eqR _ _ Es'). split; [|lra]. apply Rmax_lub; lra. }
  destruct (BC _ _ I I') as [Eq|[H|H]].
  - assert (EQ : rf_of kl = rf_of kl') by congruence. right. intro y. destruct (rf_parts kl y) as [N1 D1], (rf_parts kl' y) as [N2 D2].
    rewrite EQ in N1, D1. rewrite <- D1, <- D2. assert (K : Q2R (fst kl) = Q2R (fst kl')) by lra. rewrite K. reflexivity.
  - destruct (X kl kl' s0 s0' h h' U U' Es Es' Z Z' E) as [C|C]; [left; now apply H|now right].
  - destruct (X kl' kl s0' s0 h' h U' U Es' Es ltac:(lra) ltac:(lra) ltac:(lra)) as [C|C]; [left; now apply H|right; intro y; symmetry; apply C].
Qed.

Lemma cell_spec : forall s1 s2, (s1 < s2 <= 1)%R -> (forall x, is_point x -> (x <= s1 \/ s2 <= x)%R) -> (exists kl, used eps kl /\ (Q2R (start kl) <= s1)%R) ->
  exists f i h, least_at (Rmid s1 s2) bounds None None = Ret (Some (f, i, h)) /\ good eps (f, mkV s1 s2 true false, h).
Proof.
  intros s1 s2 S NP (kl0 & U0 & L0). set (mid := Rmid s1 s2). assert (M : (s1 < mid < s2)%R) by (unfold mid, Rmid; lra).
  assert (St : forall kl s, used eps kl -> (s < s2)%R -> (Q2R (start kl) <= s)%R -> (Q2R (start kl) <= s1)%R).
  { intros kl s U L H. destruct (NP _ (start_point kl U)); lra. }
  assert (IN : forall f i h, In (f, i, h) bounds -> exists kl, used eps kl /\ f = rf_of kl /\ says_pair h (fst kl) (snd kl) /\ n_deps h = [] /\ 0 <= fst kl /\ (Spec_RationalFunction.inside i mid <-> (Q2R (start kl) <= s1)%R)).
  { intros f i h I. destruct (BA _ I) as (kl & U & s0 & h0 & Eq & Es & P & D & K). injection Eq as -> -> ->. exists kl. repeat (split; [assumption || reflexivity|]).
    unfold Spec_RationalFunction.inside. cbn [lo hi ilo ihi]. rewrite (Qeq_eqR _ _ Es). split; [intros [A _]; exact (St kl mid U ltac:(lra) A)|intro; split; lra]. }
  assert (VAL : forall kl, used eps kl -> (Q2R (start kl) <= s1)%R -> (0 < dn kl mid)%R /\ rfval (rf_of kl) mid = (4 * Q2R (fst kl) / dn kl mid)%R).
  { intros kl U L. split; [apply (dn_pos kl mid U); lra|]. unfold rfval. destruct (rf_parts kl mid) as [-> ->]. reflexivity. }
  destruct (least_at_spec mid bounds None None) as (am & E & H); [|exact Logic.I|].
  { intros f i h I J. destruct (IN f i h I) as (kl & U & -> & _ & _ & _ & X). apply X in J. destruct (rf_parts kl mid) as [_ ->]. destruct (VAL kl U J). lra. }
  destruct am as [[[f i] h]|]; [|exfalso].
  2:{ destruct H as [_ H]. destruct (BB kl0 U0) as (b & I & B). destruct b as [[f i] h]. destruct (IN f i h I) as (kl & U & Ef & P & _ & _ & X). destruct B as (s0 & h0 & Eq & Es & P' & _).
      apply (H f i h I). injection Eq as -> -> ->. unfold Spec_RationalFunction.inside. cbn [lo hi ilo ihi]. rewrite (Qeq_eqR _ _ Es). lra. }
  exists f, i, h. split; [exact E|]. destruct H as (H1 & _ & H3). destruct H1 as [H1|[H1 H1']]; [discriminate|]. destruct (IN f i h H1) as (kl & U & -> & P & D & K & X). apply X in H1'.
  exists kl. cbn [fst snd lo hi ilo ihi]. repeat (split; [assumption || reflexivity || lra|]).
  intros s Bs kl' U' L'. pose proof (St kl' s U' ltac:(lra) L') as L1. destruct (BB kl' U') as (b' & I' & B'). destruct b' as [[f' i'] h']. destruct B' as (s0' & h0' & Eq & Es' & _). injection Eq as -> -> ->.
  assert (Le : (rfval (rf_of kl) mid <= rfval (rf_of kl') mid)%R).
  { apply (H3 _ _ _ I'). unfold Spec_RationalFunction.inside. cbn [lo hi ilo ihi]. rewrite (Qeq_eqR _ _ Es'). lra. }
  destruct (VAL kl U H1') as [D1 V1], (VAL kl' U' L1) as [D2 V2]. rewrite V1, V2 in Le.
  assert (G : (Q2R (fst kl) * dn kl' mid <= Q2R (fst kl') * dn kl mid)%R).
  { apply (Rmult_le_compat_r (dn kl mid * dn kl' mid)) in Le; [|apply Rlt_le; now apply Rmult_lt_0_compat].
    replace (4 * Q2R (fst kl) / dn kl mid * (dn kl mid * dn kl' mid))%R with (4 * (Q2R (fst kl) * dn kl' mid))%R in Le by (field; lra).
    replace (4 * Q2R (fst kl') / dn kl' mid * (dn kl mid * dn kl' mid))%R with (4 * (Q2R (fst kl') * dn kl mid))%R in Le by (field; lra). lra. }
  destruct (Rle_or_lt (Q2R (fst kl) * dn kl' s) (Q2R (fst kl') * dn kl s)) as [|Gt]; [assumption|exfalso].
  set (c := (2 * (Q2R (fst kl) * (1 + Q2R (fst kl')) - Q2R (fst kl') * (1 + Q2R (fst kl))))%R). set (d := (- (Q2R (fst kl) * (1 + Q2R (snd kl'))) + Q2R (fst kl') * (1 + Q2R (snd kl)))%R).
  assert (L : forall y, (Q2R (fst kl) * dn kl' y - Q2R (fst kl') * dn kl y = c * y + d)%R) by (intro y; unfold dn, c, d; ring).
  assert (Gm : (c * mid + d <= 0)%R) by (rewrite <- L; lra). assert (Gs : (0 < c * s + d)%R) by (rewrite <- L; lra).
  assert (Nc : c <> 0%R) by nra. set (z := (- d / c)%R). assert (Ez : (c * z + d = 0)%R) by (unfold z; field; exact Nc).
  assert (Bz : (s1 < z < s2)%R).
  { destruct (Rlt_or_le 0 c) as [Pc|Pc].
    - assert (mid <= z)%R by (apply (Rmult_le_reg_l c); lra). assert (z < s)%R by (apply (Rmult_lt_reg_l c); lra). lra.
    - assert (z <= mid)%R by (apply (Rmult_le_reg_l (- c)); lra). assert (s < z)%R by (apply (Rmult_lt_reg_l (- c)); lra). lra. }
  destruct (crossing_point kl kl' z U U' ltac:(lra) ltac:(lra)) as [Pt|Al]; [specialize (L z); lra| |].
  - destruct (NP z Pt); lra.
  - specialize (Al s). lra.
Qed.

Lemma last_cons : forall rest (y s : R), last (y :: rest) s = last rest y.
Proof. induction rest as [|z rest IH]; intros y s; [reflexivity|]. change (last (y :: z :: rest) s) with (last (z :: rest) s). now rewrite !IH. Qed.
Lemma cells_spec : forall rest s1, ssorted (s1 :: rest) -> (forall x, is_point x -> (s1 <= x)%R -> In x (s1 :: rest)) -> (forall x, In x rest -> (x <= 1)%R) -> (Q2R (1#2) <= s1)%R ->
  (exists kl, used eps kl /\ (Q2R (start kl) <= s1)%R) ->
  exists l, bound_cells bounds s1 rest = Ret l /\ bound_tiles l s1 (last rest s1) /\ Forall (good eps) l.
Proof.
  induction rest as [|s2 rest IH]; intros s1 S A T H K.
  - exists []. repeat split. constructor.
  - destruct S as [S1 S2]. pose proof (Forall_inv S1) as L. cbn beta in L. cbn [bound_cells].
    destruct (Reqb s2 s1) eqn:C1; [unfold Reqb in C1; destruct (Req_EM_T s2 s1); [lra|discriminate]|]. destruct (Rltb s1 (Q2R (1#2))) eqn:C2; [apply Rltb_true in C2; lra|]. cbn [orb].
    unfold mk_interval. destruct (Rltb s2 s1) eqn:C3; [apply Rltb_true in C3; lra|]. cbn [bind].
    destruct (cell_spec s1 s2) as (f & i & h & E & G).
    { split; [exact L|]. apply T. now left. }
    { intros x P. destruct (Rle_or_lt x s1) as [|Lt]; [now left|right]. destruct (A x P ltac:(lra)) as [<-|[<-|I]]; [lra|lra|]. destruct S2 as [S2 _]. rewrite Forall_forall in S2. specialize (S2 x I). lra. }
    { exact K. }
    rewrite E. cbn [bind]. destruct (IH s2 S2) as (l & El & Tl & Gl).
    { intros x P Lx. destruct (A x P ltac:(lra)) as [<-|I]; [lra|exact I]. }
    { intros x I. apply T. now right. }
    { lra. }
    { destruct K as (kl & U & Lk). exists kl. split; [exact U|lra]. }
    rewrite El. cbn [bind]. eexists. split; [reflexivity|]. split; [|now constructor]. cbn [bound_tiles lo hi ilo ihi]. repeat split; auto. rewrite last_cons. exact Tl.
Qed.

Lemma eqb_same : forall kl kl', rf_eqb (rf_of kl) (rf_of kl') = true -> Q2R (fst kl) = Q2R (fst kl') /\ (Q2R (fst kl) = 0%R \/ forall s, dn kl s = dn kl' s).
Proof.
  intros kl kl' E. unfold rf_eqb in E. assert (H : forall y, (Q2R (fst kl) * dn kl' y = Q2R (fst kl') * dn kl y)%R).
  { intro y. pose proof (expr_zero_R _ y E) as Z. cbn [reval] in Z. destruct (rf_parts kl y) as [N1 D1], (rf_parts kl' y) as [N2 D2]. rewrite N1, D1, N2, D2 in Z. lra. }
  pose proof (H 0%R) as H0. pose proof (H 1%R) as H1. unfold dn in H0, H1 |- *. assert (K : Q2R (fst kl) = Q2R (fst kl')) by nra. split; [exact K|].
  destruct (Req_dec (Q2R (fst kl)) 0) as [Z|Z]; [now left|right]. intro s. rewrite <- K in *. assert (Q2R (snd kl) = Q2R (snd kl')); [|rewrite H2; ring].
  apply (Rmult_eq_reg_l (Q2R (fst kl))); [lra|exact Z].
Qed.
Lemma merge_spec : forall l a b, bound_tiles l a b -> Forall (good eps) l -> bound_tiles (merge_bounds l) a b /\ Forall (good eps) (merge_bounds l).
Proof.
  induction l as [|[[f i] h] l IH]; intros a b T G; [split; [exact T|constructor]|]. destruct T as (T1 & T2 & T3 & T4 & T5). destruct (IH _ _ T5 (Forall_inv_tail G)) as [MT MG].
  pose proof (Forall_inv G) as Gb. cbn [merge_bounds]. destruct (merge_bounds l) as [|[[f2 i2] h2] rest] eqn:E.
  - split; [cbn; repeat split; auto|now constructor].
  - destruct MT as (M1 & M2 & M3 & M4 & M5). destruct (rf_eqb f f2 && Reqb (hi i) (lo i2)) eqn:C.
    + apply andb_true_iff in C as [C _]. destruct Gb as (kl & Ef & U & P & D & K & B1 & B2 & B3 & B4 & B5). pose proof (Forall_inv MG) as (kl2 & Ef2 & U2 & P2 & D2 & K2 & X1 & X2 & X3 & X4 & X5).
      cbn [fst snd] in *. subst f f2. destruct (eqb_same kl kl2 C) as [Ek El]. split.
      * cbn [bound_tiles lo hi ilo ihi]. repeat split; auto. lra.
      * constructor; [|exact (Forall_inv_tail MG)]. exists kl. cbn [fst snd lo hi ilo ihi]. repeat (split; [assumption || reflexivity || lra|]).
        intros s Bs kl' U' L'. destruct (Rlt_or_le s (hi i)) as [Lt|Ge]; [apply (B5 s); auto; lra|]. specialize (X5 s ltac:(lra) kl' U' L').
        destruct El as [Z|El]; [|rewrite El, Ek; exact X5]. rewrite Z, Rmult_0_l. apply Rmult_le_pos; [pose proof (Qle_Rle _ _ (used_nonneg kl' U')); now rewrite Q2R_0 in *|].
        apply (dn_pos kl s U). lra.
    + split; [cbn [bound_tiles]; repeat split; auto|]. constructor; [exact Gb|exact MG].
Qed.
End Run.

Lemma last_max : forall rest (s : R), ssorted (s :: rest) -> In (last rest s) (s :: rest) /\ forall x, In x (s :: rest) -> (x <= last rest s)%R.
Proof.
  induction rest as [|y rest IH]; intros s S; [split; [now left|]; intros x [<-|[]]; cbn [last]; lra|]. destruct S as [S1 S2]. destruct (IH y S2) as [A B].
  rewrite last_cons. split; [now right|].
  intros x [<-|I]; [|now apply B]. pose proof (Forall_inv S1). cbn beta in H. specialize (B y (or_introl eq_refl)). lra.
Qed.

Lemma pack_tiles : forall rf_str l a b, bound_tiles l a b -> exists out, mapM (pack_bound rf_str) l = Ret out /\ estimates_tile out a b /\
  forall o, In o out -> exists f i h p r, In (f, i, h) l /\ o = ZNode (s_of "Derived zero density estimate") (mkZ (rf_str f) i (Some f)) p r [as_dep h].
Proof.
  intros rf_str. induction l as [|[[f i] h] l IH]; intros a b T; [exists []; repeat split; [exact T|intros ? []]|]. destruct T as (T1 & T2 & T3 & T4 & T5). destruct (IH _ _ T5) as (out & E & Ti & H).
  assert (Y : exists y, max_year (map zn_ref [as_dep h]) = Ret y).
  { cbn [map]. unfold max_year. cbn [existsb map]. destruct (val_eqb (r_year (zn_ref (as_dep h))) unknown_date || false); [eauto|]. cbn. eauto. }
  destruct Y as (y & Y). cbn [mapM]. unfold pack_bound at 1. unfold derived_zero_density_estimate. rewrite Y. cbn [bind]. rewrite E. cbn [bind]. eexists. split; [reflexivity|]. split.
  - cbn [estimates_tile z_int from_rational_func]. repeat split; auto.
  - intros o [<-|I]; [exists f, i, h; do 2 eexists; split; [now left|reflexivity]|]. destruct (H o I) as (f' & i' & h' & p & r & J & Eo). exists f', i', h', p, r. split; [now right|exact Eo].
Qed.

(** Each used pair gives the bound A(s) <= 4k / (2(1+k)s - 1 - l) from its start on; the
    result tiles the range from the first start to 1, and on each piece it is the least
    of these bounds. *)
Theorem bourgain_from_value : forall rf_str roots eps, roots_complete roots -> (forall kl, In kl eps -> 0 <= fst kl) -> two_used eps ->
  exists out kl0, bourgain_from rf_str roots eps = Ret out /\ used eps kl0 /\ (forall kl, used eps kl -> start kl0 <= start kl) /\
    estimates_tile out (Q2R (start kl0)) 1 /\
    forall o, In o out -> exists k l h f i p r, used eps (k, l) /\ says_pair h k l /\ n_deps h = [] /\
      o = ZNode (s_of "Derived zero density estimate") (mkZ (rf_str f) i (Some f)) p r [as_dep h] /\
      forall s, Spec_RationalFunction.inside i s -> (Q2R (start (k, l)) <= s)%R /\
        ((Q2R (bourgain_pole k l) < s)%R -> rf_atR f s = Ret (bourgain_value k l s) /\
          forall k' l', used eps (k', l') -> (Q2R (start (k', l')) <= s)%R -> (Q2R (bourgain_pole k' l') < s)%R -> (bourgain_value k l s <= bourgain_value k' l' s)%R) /\
        (s = Q2R (bourgain_pole k l) -> rf_atR f s = Raise ZeroDivisionError) /\
        (0 < k -> forall k' l', used eps (k', l') -> (Q2R (start (k', l')) <= s)%R -> (Q2R (bourgain_pole k' l') < s)%R -> (Q2R (bourgain_pole k l) < s)%R).
Proof.
  intros rf_str roots eps RC P TU. destruct (bounds_spec eps P) as (bs & E & A & B). destruct (bounds_two eps P TU) as (bs' & E' & c1 & b1 & c2 & b2 & c3 & TW). rewrite E in E'. injection E' as <-.
  set (bounds := concat bs) in *.
  assert (BB : forall kl, used eps kl -> exists b, In b bounds /\ is_bound kl b).
  { intros kl (I & S & L). apply in_split in I as (l1 & l2 & Eq). destruct (B l1 kl l2 Eq S L) as (d1 & b & d2 & Eb & Hb). exists b. split; [|exact Hb]. rewrite Eb. apply in_or_app. right. now left. }
  assert (SH : Forall shaped bounds).
  { apply Forall_forall. intros b I. destruct (A b I) as (kl & (_ & _ & L) & s0 & h & -> & Es & _). exists (Q2R s0). split; [reflexivity|]. rewrite <- Q2R_1. apply Qlt_Rlt. now rewrite Es. }
  assert (BC : forall b1 b2, In b1 bounds -> In b2 bounds -> b1 = b2 \/ (forall x, cross roots b1 b2 x -> is_point roots bounds x) \/ (forall x, cross roots b2 b1 x -> is_point roots bounds x)).
  { intros x y Ix Iy. apply in_split in Ix as (l1 & l2 & Eq). rewrite Eq in Iy. apply in_app_iff in Iy as [Iy|[<-|Iy]]; [right; left|now left|right; right].
    - intros z C. exists l1, x, l2, y. auto.
    - intros z C. apply in_split in Iy as (m1 & m2 & Eq2). exists (l1 ++ x :: m1), y, m2, x. split; [rewrite Eq, Eq2, <- app_assoc; reflexivity|]. split; [apply in_or_app; right; now left|exact C]. }
  assert (ENDS : forall b, In b bounds -> is_point roots bounds (lo (snd (fst b))) /\ is_point roots bounds (hi (snd (fst b)))).
  { intros b I. apply in_split in I as (l1 & l2 & Eq). destruct l1 as [|c l1].
    - destruct l2 as [|c l2]; [rewrite Eq in TW; destruct c1 as [|? [|]]; [destruct c2|..]; discriminate|].
      split; exists [b], c, l2, b; (split; [exact Eq|]); (split; [now left|]); unfold cross; auto 6.
    - split; exists (c :: l1), b, l2, c; (split; [exact Eq|]); (split; [now left|]); unfold cross; auto 6. }
  assert (PT : forall x, is_point roots bounds x -> (x <= 1)%R /\ exists kl, used eps kl /\ (Q2R (start kl) <= x)%R).
  { intros x (l1 & b & l2 & c & Eq & I & C). assert (Ib : In b bounds) by (rewrite Eq; apply in_or_app; right; now left). assert (Ic : In c bounds) by (rewrite Eq; apply in_or_app; now left).
    destruct (A b Ib) as (kl & U & s0 & h & -> & Es & _). destruct (A c Ic) as (kl' & U' & s0' & h' & -> & Es' & _). unfold cross in C. cbn [fst snd lo hi] in C.
    pose proof (Qlt_Rlt _ _ (proj2 (proj2 U))) as L. pose proof (Qlt_Rlt _ _ (proj2 (proj2 U'))) as L'. rewrite Q2R_1 in L, L'. rewrite (Qeq_eqR _ _ Es), (Qeq_eqR _ _ Es') in C.
    destruct C as [C|[->|[->|[->| ->]]]]; [|split; [lra|exists kl; split; [exact U|lra]]|split; [lra|exists kl; split; [exact U|lra]]|split; [lra|exists kl'; split; [exact U'|lra]]|split; [lra|exists kl; split; [exact U|lra]]].
    unfold intersections in C. assert (G : Spec_RationalFunction.inside (mkV (Rmax (Q2R (start kl)) (Q2R (start kl'))) 1%R true false) x).
    { destruct (expr_is_constant _) in C; [destruct C|]. apply filter_In in C as [_ C]. now apply contains_inside. }
    destruct G as [G1 G2]. cbn [lo hi ilo ihi] in G1, G2. split; [lra|]. exists kl. split; [exact U|]. pose proof (Rmax_l (Q2R (start kl)) (Q2R (start kl'))). lra. }
  destruct (bound_crits_spec roots bounds [] SH (Forall_nil _)) as (pts & Ep & Hp).
  assert (HP : forall x, In x (sorted_set R Rltb pts) <-> is_point roots bounds x).
  { intro x. split; [intro I; apply (proj1 (sorted_set_in _ _)) in I|intro I; apply (proj2 (sorted_set_in _ _))]; now apply Hp. }
  pose proof (sorted_set_sorted pts) as SS. unfold bourgain_from. rewrite E. cbn [bind]. fold bounds. rewrite Ep. cbn [bind].
  destruct TU as (_ & klu & _ & _ & _ & _ & UU & _). destruct (BB klu UU) as (bu & Iu & Bu). pose proof (ENDS bu Iu) as [_ PH].
  assert (HU : hi (snd (fst bu)) = 1%R) by (destruct Bu as (? & ? & -> & _); reflexivity). rewrite HU in PH. clear Bu HU.
  destruct (sorted_set R Rltb pts) as [|s rest] eqn:ES; [apply HP in PH; destruct PH|].
  assert (Ps : is_point roots bounds s) by (apply HP; now left). destruct (PT s Ps) as [_ (kl0 & U0 & L0)].
  assert (Min : forall kl, used eps kl -> (s <= Q2R (start kl))%R).
  { intros kl U. destruct (BB kl U) as (b & I & Hb). destruct (ENDS b I) as [X _]. apply HP in X. destruct Hb as (s0 & h & -> & Es & _). cbn [fst snd lo] in X. rewrite (Qeq_eqR _ _ Es) in X.
    destruct X as [->|X]; [lra|]. destruct SS as [SS _]. rewrite Forall_forall in SS. specialize (SS _ X). lra. }
  assert (Es : s = Q2R (start kl0)) by (specialize (Min kl0 U0); lra).
  destruct (cells_spec roots RC eps bounds) with (rest := rest) (s1 := s) as (soln & Ec & Tc & Gc).
  { exact A. } { exact BB. } { exact BC. } { intros b I. exact (proj1 (ENDS b I)). } { exact SS. } { intros x X _. now apply HP. } { intros x X. apply PT. apply HP. now right. }
  { rewrite Es. apply Qle_Rle, half_le_start. } { eauto. }
  rewrite Ec. cbn [bind]. destruct (last_max rest s SS) as [LI LM]. apply HP in PH. apply HP, PT in LI. destruct LI as [LI _]. specialize (LM _ PH). assert (EL : last rest s = 1%R) by lra. rewrite EL in Tc.
  destruct (merge_spec eps bounds) with (l := soln) (a := s) (b := 1%R) as [Tm Gm]; try assumption.
  destruct (pack_tiles rf_str (merge_bounds soln) s 1 Tm) as (out & Eo & To & Ho).
  exists out, kl0. split; [exact Eo|]. split; [exact U0|]. split; [intros kl U; apply Rle_Qle; rewrite <- Es; now apply Min|]. split; [rewrite <- Es; exact To|].
  intros o I. destruct (Ho o I) as (f & i & h & p & r & J & ->). rewrite Forall_forall in Gm. destruct (Gm _ J) as ([k l] & Ef & U & SP & ND & K & G1 & G2 & G3 & G4 & G5). cbn [fst snd] in *.
  exists k, l, h, f, i, p, r. split; [exact U|]. split; [exact SP|]. split; [exact ND|]. split; [reflexivity|]. intros x [X1 X2]. rewrite G2 in X1. rewrite G3 in X2. split; [lra|]. destruct (rf_parts (k, l) x) as [N1 D1]. split.
  2:{ split.
      2:{ intros K0 k' l' U' S' PO'. pose proof (proj1 (pole_dn (k', l') x (P _ (proj1 U'))) PO') as D'. specialize (G5 x ltac:(lra) _ U' S'). apply (dn_pole (k, l) x K). apply Qlt_Rlt in K0. rewrite Q2R_0 in K0.
          cbn [fst snd] in G5. pose proof (Qle_Rle _ _ (P _ (proj1 U'))) as K'. cbn [fst] in K'. rewrite Q2R_0 in K'. assert (0 < Q2R k * dn (k', l') x)%R by now apply Rmult_lt_0_compat. nra. }
      intro PO. unfold rf_atR. subst f. rewrite D1. destruct (Req_EM_T (dn (k, l) x) 0) as [|N]; [reflexivity|exfalso; apply N]. now apply pole_zero. }
  intro PO. pose proof (proj1 (pole_dn (k, l) x K) PO) as D. split.
  - unfold rf_atR. subst f. rewrite N1, D1. destruct (Req_EM_T (dn (k, l) x) 0); [lra|]. reflexivity.
  - intros k' l' U' S' PO'. pose proof (proj1 (pole_dn (k', l') x (P _ (proj1 U'))) PO') as D'. specialize (G5 x ltac:(lra) _ U' S'). unfold bourgain_value, dn in *. cbn [fst snd] in *.
    apply (Rmult_le_reg_r ((2 * (1 + Q2R k) * x - 1 - Q2R l) * (2 * (1 + Q2R k') * x - 1 - Q2R l'))); [now apply Rmult_lt_0_compat|].
    replace (4 * Q2R k / (2 * (1 + Q2R k) * x - 1 - Q2R l) * ((2 * (1 + Q2R k) * x - 1 - Q2R l) * (2 * (1 + Q2R k') * x - 1 - Q2R l')))%R with (4 * (Q2R k * (2 * (1 + Q2R k') * x - 1 - Q2R l')))%R by (field; lra).
    replace (4 * Q2R k' / (2 * (1 + Q2R k') * x - 1 - Q2R l') * ((2 * (1 + Q2R k) * x - 1 - Q2R l) * (2 * (1 + Q2R k') * x - 1 - Q2R l')))%R with (4 * (Q2R k' * (2 * (1 + Q2R k) * x - 1 - Q2R l)))%R by (field; lra).
    lra.
Qed.
Print Assumptions bourgain_from_value.

(** ** The eight pairs *)
Lemma pairs_used : forall kl, In kl bourgain_pairs -> used bourgain_pairs kl /\ 0 <= fst kl /\ fst kl <= 11#85 /\ start kl == bourgain_pole (fst kl) (snd kl).
Proof.
  intros kl I. assert (B : forallb (fun kl => Qleb (fst kl) (11#85) && Qleb 0 (fst kl) && Qleb (3#5) (snd kl) && Qleb 13 (15 * snd kl + 20 * fst kl) && Qltb (start kl) 1 && Qeqb (start kl) (bourgain_pole (fst kl) (snd kl))) bourgain_pairs = true) by (vm_compute; reflexivity).
  rewrite forallb_forall in B. specialize (B kl I). repeat (apply andb_true_iff in B as [B ?]). repeat match goal with H : Qleb _ _ = true |- _ => apply Qleb_true in H | H : Qltb _ _ = true |- _ => apply Qltb_true in H end.
  unfold used, in_scope. repeat (apply conj); try assumption; [Lqa.lra|now apply Qeqb_true].
Qed.
Lemma pairs_two : two_used bourgain_pairs.
Proof.
  exists [], (11#85, 59#85), [], (391#4595, 3461#4595). eexists. split; [reflexivity|]. split; apply pairs_used; [now left|right; now left].
Qed.
Lemma div_le : forall a b c d : R, (0 < b)%R -> (0 < d)%R -> (a * d <= c * b)%R -> (a / b <= c / d)%R.
Proof.
  intros a b c d B D H. apply (Rmult_le_reg_r (b * d)); [now apply Rmult_lt_0_compat|]. replace (a / b * (b * d))%R with (a * d)%R by (field; lra). replace (c / d * (b * d))%R with (c * b)%R by (field; lra). exact H.
Qed.
Ltac consts := unfold dn, Q2R in *; cbn [fst snd Qnum Qden] in *.

Lemma row_pair : forall s, (3/4 < s < 1)%R -> exists kl, In kl bourgain_pairs /\ (0 < dn kl s)%R /\ corollary_value s = bourgain_value (fst kl) (snd kl) s /\
  forall kl', In kl' bourgain_pairs -> (0 < dn kl' s)%R -> (corollary_value s <= bourgain_value (fst kl') (snd kl') s)%R.
Proof.
  intros s S. unfold corollary_value, corollary_table. cbn [fold_right]. unfold table_row.
  assert (X : forall (k l n p q c : Q), In (k, l) bourgain_pairs -> 4 * k == c * n -> 2 * (1 + k) == c * p -> 1 + l == c * q -> 0 < c -> 0 <= n -> (0 < dn (k, l) s)%R ->
    (forall kl', In kl' bourgain_pairs -> (0 < dn kl' s)%R -> (Q2R k * dn kl' s <= Q2R (fst kl') * dn (k, l) s)%R) ->
    exists kl, In kl bourgain_pairs /\ (0 < dn kl s)%R /\ (Q2R n / (Q2R p * s - Q2R q))%R = bourgain_value (fst kl) (snd kl) s /\
      forall kl', In kl' bourgain_pairs -> (0 < dn kl' s)%R -> (Q2R n / (Q2R p * s - Q2R q) <= bourgain_value (fst kl') (snd kl') s)%R).
  { intros k l n p q c I E1 E2 E3 C N D L. apply Qeq_eqR in E1, E2, E3. apply Qlt_Rlt in C. rewrite ?Q2R_mult, ?Q2R_plus, ?Q2R_1, ?Q2R_4, ?Q2R_2', Q2R_0 in *.
    assert (V : (Q2R n / (Q2R p * s - Q2R q))%R = bourgain_value k l s).
    { unfold bourgain_value. unfold dn in D. cbn [fst snd] in D. replace (2 * (1 + Q2R k) * s - 1 - Q2R l)%R with (Q2R c * (Q2R p * s - Q2R q))%R in * by (rewrite E2; lra). rewrite E1.
      assert ((Q2R p * s - Q2R q)%R <> 0%R) by (intro Z; rewrite Z in D; lra). field. split; [assumption|lra]. }
    exists (k, l). split; [exact I|]. split; [exact D|]. split; [exact V|]. intros kl' I' D'. rewrite V. specialize (L kl' I' D'). unfold bourgain_value. cbn [fst snd].
    apply div_le; [exact D|exact D'|]. unfold dn in L. cbn [fst snd] in L. lra. }
  destruct (Rle_dec s (Q2R (14#15))).
  { apply (X (11#85) (59#85) _ _ _ (4#85)); try (vm_compute; (reflexivity || discriminate)); [now left|consts; lra|].
    intros kl' I' D'. repeat destruct I' as [<-|I']; try destruct I'; consts; lra. }
  destruct (Rle_dec s (Q2R (2841#3016))).
  { apply (X (391#4595) (3461#4595) _ _ _ (4#4595)); try (vm_compute; (reflexivity || discriminate)); [right; now left|consts; lra|].
    intros kl' I' D'. repeat destruct I' as [<-|I']; try destruct I'; consts; lra. }
  destruct (Rle_dec s (Q2R (859#908))).
  { apply (X (2779#38033) (58699#76066) _ _ _ (1#76066)); try (vm_compute; (reflexivity || discriminate)); [do 2 right; now left|consts; lra|].
    intros kl' I' D'. repeat destruct I' as [<-|I']; try destruct I'; consts; lra. }
  destruct (Rle_dec s (Q2R (635113#655952))).
  { apply (X (1101653#15854002) (12327829#15854002) _ _ _ (1#15854002)); try (vm_compute; (reflexivity || discriminate)); [do 3 right; now left|consts; lra|].
    intros kl' I' D'. repeat destruct I' as [<-|I']; try destruct I'; consts; lra. }
  destruct (Rle_dec s (Q2R (637457#656512))).
  { apply (X (1959#47230) (3975#4723) _ _ _ (1#23615)); try (vm_compute; (reflexivity || discriminate)); [do 4 right; now left|consts; lra|].
    intros kl' I' D'. repeat destruct I' as [<-|I']; try destruct I'; consts; lra. }
  destruct (Rle_dec s (Q2R (39#40))).
  { apply (X (1175779#38456886) (16690288#19228443) _ _ _ (1#19228443)); try (vm_compute; (reflexivity || discriminate)); [do 5 right; now left|consts; lra|].
    intros kl' I' D'. repeat destruct I' as [<-|I']; try destruct I'; consts; lra. }
  destruct (Rle_dec s (Q2R (59#60))).
  { apply (X (89#3478) (15327#17390) _ _ _ (1#17390)); try (vm_compute; (reflexivity || discriminate)); [do 6 right; now left|consts; lra|].
    intros kl' I' D'. repeat destruct I' as [<-|I']; try destruct I'; consts; lra. }
  destruct (Rle_dec s (Q2R 1)) as [|N]; [|exfalso; rewrite Q2R_1 in N; lra].
  apply (X (1#100) (14#15) _ _ _ (1#150)); try (vm_compute; (reflexivity || discriminate)); [do 7 right; now left|consts; lra|].
  intros kl' I' D'. repeat destruct I' as [<-|I']; try destruct I'; consts; lra.
Qed.

(** The eight pairs give the table of the corollary "Optimized Bourgain zero density
    bound", on (3/4, 1). *)
Theorem bourgain_ep_to_zd_table : forall rf_str roots, roots_complete roots -> exists out, bourgain_ep_to_zd rf_str roots = Ret out /\ estimates_tile out (Q2R (3#4)) 1 /\
  forall o, In o out -> exists f i p r h, o = ZNode (s_of "Derived zero density estimate") (mkZ (rf_str f) i (Some f)) p r [as_dep h] /\
    forall s, Spec_RationalFunction.inside i s -> (Q2R (3#4) < s < 1)%R -> rf_atR f s = Ret (corollary_value s).
Proof.
  intros rf_str roots RC. destruct (bourgain_from_value rf_str roots bourgain_pairs RC (fun kl I => proj1 (proj2 (pairs_used kl I))) pairs_two) as (out & kl0 & E & U0 & Min & T & H).
  exists out. split; [exact E|]. split.
  - assert (S0 : start kl0 == 3#4).
    { assert (A : start kl0 <= 3#4). { specialize (Min (11#85, 59#85) (proj1 (pairs_used _ (or_introl eq_refl)))). assert (F : start (11#85, 59#85) == 3#4) by (vm_compute; reflexivity). rewrite F in Min. exact Min. }
      assert (B : forallb (fun kl => Qleb (3#4) (start kl)) bourgain_pairs = true) by (vm_compute; reflexivity). rewrite forallb_forall in B. specialize (B kl0 (proj1 U0)). apply Qleb_true in B. Lqa.lra. }
    rewrite (Qeq_eqR _ _ S0) in T. exact T.
  - intros o I. destruct (H o I) as (k & l & h & f & i & p & r & U & SP & ND & -> & V). exists f, i, p, r, h. split; [reflexivity|]. intros s Is S.
    assert (C : Q2R (3#4) = (3/4)%R) by (unfold Q2R; cbn; lra). rewrite C in S. destruct (V s Is) as (V1 & V2 & _ & V5).
    destruct (row_pair s S) as ([k' l'] & J & D & EV & L). cbn [fst snd] in EV. destruct (pairs_used _ J) as (U' & K' & _ & Es). pose proof (dn_pole _ s K' D) as PO'. cbn [fst snd] in PO', Es.
    assert (S' : (Q2R (start (k', l')) <= s)%R) by (rewrite (Qeq_eqR _ _ Es); lra).
    assert (B : forallb (fun kl => Qltb 0 (fst kl)) bourgain_pairs = true) by (vm_compute; reflexivity). rewrite forallb_forall in B. specialize (B (k, l) (proj1 U)). apply Qltb_true in B. cbn [fst] in B.
    pose proof (V5 B k' l' U' S' PO') as PO. destruct (V2 PO) as [V3 V4]. rewrite V3. f_equal. apply Rle_antisym.
    + rewrite EV. now apply V4.
    + apply (L (k, l) (proj1 U)). apply (pole_dn (k, l) s); [cbn [fst]; Lqa.lra|exact PO].
Qed.
Print Assumptions bourgain_ep_to_zd_table.

(** ** Soundness *)
Lemma small_rational : forall x : R, (0 < x)%R -> exists u : Q, 0 < u /\ (Q2R u <= x)%R.
Proof.
  intros x X. destruct (archimed (/ x)) as [A _]. set (n := up (/ x)) in *. assert (P : (0 < / x)%R) by now apply Rinv_0_lt_compat. assert (N : (0 < n)%Z) by (apply lt_IZR; lra).
  destruct n as [|n|n]; try lia. exists (1 # n). split; [reflexivity|]. unfold Q2R. cbn [Qnum Qden]. rewrite Rmult_1_l. apply Rlt_le. rewrite <- (Rinv_inv x). apply Rinv_lt_contravar; [|exact A].
  apply Rmult_lt_0_compat; [exact P|lra].
Qed.
Lemma moved_pair : forall W k l u, upper (beta_le W) -> exp_pair W 0 1 -> exp_pair W k l -> 0 < u -> exp_pair W (k / (1 + u)) ((l + u) / (1 + u)).
Proof.
  intros W k l u UP (_ & T) ((K1 & K2 & K3 & K4 & K5) & E) U. set (t := / (1 + u)). assert (Et : t * (1 + u) == 1) by (unfold t; field; Lqa.lra).
  assert (T0 : 0 < t) by (unfold t; apply Qinv_lt_0_compat; Lqa.lra). assert (Ek : k / (1 + u) == k * t) by reflexivity. assert (El : (l + u) / (1 + u) == (l + u) * t) by reflexivity.
  assert (Eu : u * t == 1 - t) by Lqa.lra. assert (T1 : t < 1) by Lqa.nra. assert (El' : (l + u) * t == l * t + 1 - t) by Lqa.lra. split.
  - unfold Spec_ExponentPair.triangle. rewrite Ek, El, El'. repeat split; Lqa.nra.
  - intros a A0 A1. specialize (E a A0 A1). specialize (T a A0 A1). destruct (Qlt_le_dec (k + (l - k) * a) (0 + (1 - 0) * a)) as [L|L].
    + apply (UP a a (k + (l - k) * a)); [reflexivity| |exact E]. rewrite Ek, El, El'. setoid_replace (k * t + (l * t + 1 - t - k * t) * a) with ((k + (l - k) * a) * t + a * (1 - t)) by ring. Lqa.nra.
    + apply (UP a a (0 + (1 - 0) * a)); [reflexivity| |exact T]. rewrite Ek, El, El'. setoid_replace (k * t + (l * t + 1 - t - k * t) * a) with ((k + (l - k) * a) * t + a * (1 - t)) by ring. Lqa.nra.
Qed.

Lemma bourgain_limit_case : forall W k l s, bourgain_facts W -> exp_pair (pairs_of W) k l -> in_scope (k, l) -> 1#2 < s -> s < 1 -> start (k, l) < s -> zd W s (bourgain_value k l (Q2R s)).
Proof.
  intros W k l s F E (S1 & S2 & S3) H1 H2 St. cbn [fst snd] in *. apply (bf_closed W F). intros w Lw. pose proof E as ((K1 & K2 & K3 & K4 & K5) & _).
  pose proof (pole_le_start (k, l)) as PS. cbn [fst snd] in PS. assert (PO : bourgain_pole k l < s) by Lqa.lra. pose proof (proj1 (pole_dn (k, l) (Q2R s) K1) (Qlt_Rlt _ _ PO)) as D.
  pose proof (Qle_Rle _ _ K1) as RK. rewrite Q2R_0 in RK. pose proof (Qlt_Rlt _ _ H2) as RS. rewrite Q2R_1 in RS.
  set (d := dn (k, l) (Q2R s)) in *. assert (V : bourgain_value k l (Q2R s) = (4 * Q2R k / d)%R) by reflexivity. rewrite V in Lw.
  assert (Lw' : (4 * Q2R k < w * d)%R) by (apply (Rmult_lt_compat_r d) in Lw; [|exact D]; replace (4 * Q2R k / d * d)%R with (4 * Q2R k)%R in Lw by (field; lra); exact Lw).
  assert (W0 : (0 < w)%R) by (assert (0 <= 4 * Q2R k / d)%R by (apply Rmult_le_pos; [lra|]; apply Rlt_le, Rinv_0_lt_compat, D); lra).
  assert (X : exists u : Q, 0 < u /\ (Q2R u * (2 * (1 - Q2R s)) < d)%R /\ (Q2R u * (2 * (1 - Q2R s) * w) <= w * d - 4 * Q2R k)%R /\ (11#85 < k -> (11#85) * (1 + u) < k)).
  { assert (P1 : (0 < 2 * (1 - Q2R s))%R) by lra. assert (P2 : (0 < 2 * (1 - Q2R s) * w)%R) by now apply Rmult_lt_0_compat.
    set (m := if Qlt_le_dec (11#85) k then Q2R ((85#11) * k - 1) else 1%R). assert (M : (0 < m)%R).
    { unfold m. destruct (Qlt_le_dec (11#85) k); [|lra]. rewrite <- Q2R_0. apply Qlt_Rlt. Lqa.lra. }
    destruct (small_rational (Rmin (Rmin (d / (2 * (1 - Q2R s)) / 2) ((w * d - 4 * Q2R k) / (2 * (1 - Q2R s) * w))) (m / 2))) as (u & U & L).
    { repeat apply Rmin_glb_lt; try lra; unfold Rdiv; repeat (apply Rmult_lt_0_compat); try lra; now apply Rinv_0_lt_compat. }
    exists u. split; [exact U|]. pose proof (Rmin_l (Rmin (d / (2 * (1 - Q2R s)) / 2) ((w * d - 4 * Q2R k) / (2 * (1 - Q2R s) * w))) (m / 2)). pose proof (Rmin_r (Rmin (d / (2 * (1 - Q2R s)) / 2) ((w * d - 4 * Q2R k) / (2 * (1 - Q2R s) * w))) (m / 2)).
    pose proof (Rmin_l (d / (2 * (1 - Q2R s)) / 2) ((w * d - 4 * Q2R k) / (2 * (1 - Q2R s) * w))). pose proof (Rmin_r (d / (2 * (1 - Q2R s)) / 2) ((w * d - 4 * Q2R k) / (2 * (1 - Q2R s) * w))). split; [|split].
    - assert (A : (Q2R u <= d / (2 * (1 - Q2R s)) / 2)%R) by lra. apply (Rmult_le_compat_r (2 * (1 - Q2R s))) in A; [|lra]. replace (d / (2 * (1 - Q2R s)) / 2 * (2 * (1 - Q2R s)))%R with (d / 2)%R in A by (field; lra). lra.
    - assert (A : (Q2R u <= (w * d - 4 * Q2R k) / (2 * (1 - Q2R s) * w))%R) by lra. apply (Rmult_le_compat_r (2 * (1 - Q2R s) * w)) in A; [|lra].
      replace ((w * d - 4 * Q2R k) / (2 * (1 - Q2R s) * w) * (2 * (1 - Q2R s) * w))%R with (w * d - 4 * Q2R k)%R in A by (field; lra). lra.
    - intro Kk. unfold m in *. destruct (Qlt_le_dec (11#85) k); [|Lqa.lra]. assert (A : (Q2R u < Q2R ((85#11) * k - 1))%R) by lra. apply Rlt_Qlt in A. Lqa.lra. }
  destruct X as (u & U & U1 & U2 & U3). set (k' := k / (1 + u)). set (l' := (l + u) / (1 + u)).
  assert (E' : exp_pair (pairs_of W) k' l') by (apply moved_pair; [apply (bf_upper W F)|apply (bf_trivial W F)|exact E|exact U]).
  assert (Ek : k' * (1 + u) == k) by (unfold k'; field; Lqa.lra). assert (El : l' * (1 + u) == l + u) by (unfold l'; field; Lqa.lra).
  assert (D' : ((1 + Q2R u) * dn (k', l') (Q2R s) = d - Q2R u * (2 * (1 - Q2R s)))%R).
  { apply Qeq_eqR in Ek, El. rewrite ?Q2R_mult, ?Q2R_plus, Q2R_1 in Ek, El. unfold d, dn. cbn [fst snd]. 
    replace ((1 + Q2R u) * (2 * (1 + Q2R k') * Q2R s - 1 - Q2R l'))%R with (2 * ((1 + Q2R u) + Q2R k' * (1 + Q2R u)) * Q2R s - (1 + Q2R u) - Q2R l' * (1 + Q2R u))%R by ring. rewrite Ek, El, Q2R_plus. ring. }
  pose proof (Qlt_Rlt _ _ U) as RU. rewrite Q2R_0 in RU. assert (DP : (0 < dn (k', l') (Q2R s))%R) by (apply (Rmult_lt_reg_l (1 + Q2R u)); lra).
  assert (K' : 0 <= k') by (destruct E' as ((? & _) & _); assumption).
  apply (bf_mono W F s (bourgain_value k' l' (Q2R s))).
  - change (bourgain_value k' l' (Q2R s)) with (4 * Q2R k' / dn (k', l') (Q2R s))%R. apply (Rmult_le_reg_r (dn (k', l') (Q2R s))); [exact DP|].
    replace (4 * Q2R k' / dn (k', l') (Q2R s) * dn (k', l') (Q2R s))%R with (4 * Q2R k')%R by (field; lra). apply (Rmult_le_reg_l (1 + Q2R u)); [lra|].
    replace ((1 + Q2R u) * (w * dn (k', l') (Q2R s)))%R with (w * ((1 + Q2R u) * dn (k', l') (Q2R s)))%R by ring. rewrite D'.
    apply Qeq_eqR in Ek. rewrite ?Q2R_mult, ?Q2R_plus, Q2R_1 in Ek. replace ((1 + Q2R u) * (4 * Q2R k'))%R with (4 * (Q2R k' * (1 + Q2R u)))%R by ring. rewrite Ek. lra.
  - apply (bf_theorem W F); [exact E'|exact H1|exact H2|]. assert (Lk : k' == 0 \/ k' < k).
    { destruct (Qlt_le_dec 0 k'); [right; Lqa.nra|left; Lqa.lra]. }
    unfold bourgain_applies. split; [destruct Lk; Lqa.lra|]. split; [Lqa.nra|]. split; [Lqa.nra|]. split; [apply Rlt_Qlt, (dn_pole (k', l') (Q2R s) K' DP)|].
    destruct (Qlt_le_dec (11#85) k) as [Gk|Gk]; [right|left; destruct Lk; Lqa.lra]. specialize (U3 Gk). assert (Gk' : 11#85 < k') by Lqa.nra. split; [exact Gk'|].
    assert (LI : bourgain_limit k l < s). { revert St. unfold start. destruct (Qlt_le_dec (11#85) k); [|Lqa.lra]. intro St. qmm. }
    unfold bourgain_limit in LI |- *. apply Qlt_shift_div_r; [Lqa.lra|]. assert (LI' : 144 * k - 11 * l - 11 < s * (170 * k - 22)).
    { assert (Z : (144 * k - 11 * l - 11) / (170 * k - 22) * (170 * k - 22) == 144 * k - 11 * l - 11) by (field; Lqa.lra). rewrite <- Z. apply Qmult_lt_r; [Lqa.lra|exact LI]. }
    apply (Qmult_lt_r _ _ (1 + u)); [Lqa.lra|]. setoid_replace ((144 * k' - 11 * l' - 11) * (1 + u)) with (144 * (k' * (1 + u)) - 11 * (l' * (1 + u)) - 11 * (1 + u)) by ring.
    setoid_replace (s * (170 * k' - 22) * (1 + u)) with (s * (170 * (k' * (1 + u)) - 22 * (1 + u))) by ring. rewrite Ek, El. assert (0 <= (1 - s) * u) by (apply Qmult_le_0_compat; Lqa.lra). Lqa.lra.
Qed.

(** If the pair that an estimate names as its dependency is an exponent pair, the
    estimate holds. *)
Theorem bourgain_from_sound : forall W rf_str roots eps out, bourgain_facts W -> roots_complete roots -> (forall kl, In kl eps -> 0 <= fst kl) -> two_used eps ->
  bourgain_from rf_str roots eps = Ret out -> forall n d p r ds, In (ZNode n d p r ds) out ->
  exists h k l f, ds = [as_dep h] /\ says_pair h k l /\ z_bound d = Some f /\
    (exp_pair (pairs_of W) k l -> forall s, 1#2 < s -> s < 1 -> Spec_RationalFunction.inside (z_int d) (Q2R s) -> start (k, l) < s -> zd W s (rfval f (Q2R s))).
Proof.
  intros W rf_str roots eps out F RC P TU E n d p r ds I. destruct (bourgain_from_value rf_str roots eps RC P TU) as (out' & kl0 & E' & _ & _ & _ & H). rewrite E in E'. injection E' as <-.
  destruct (H _ I) as (k & l & h & f & i & p' & r' & U & SP & _ & Eq & V). injection Eq as -> -> -> -> ->. exists h, k, l, f. cbn [z_bound z_int]. split; [reflexivity|]. split; [exact SP|]. split; [reflexivity|].
  intros X s S1 S2 Is St. destruct (V _ Is) as (_ & V2 & _). pose proof (pole_le_start (k, l)) as PS. cbn [fst snd] in PS. destruct (V2 (Qlt_Rlt _ _ (Qle_lt_trans _ _ _ PS St))) as [V3 _].
  assert (Ev : rfval f (Q2R s) = bourgain_value k l (Q2R s)) by (revert V3; unfold rf_atR, rfval; destruct (Req_EM_T _ _); congruence). rewrite Ev.
  apply bourgain_limit_case; auto. apply U.
Qed.
Print Assumptions bourgain_from_sound.

(** The first of the estimates is recorded on an interval that contains 3/4, where the
    bound is infinite: evaluating it there fails. *)
Theorem bourgain_pole_included_refuted : forall rf_str roots, roots_complete roots -> exists out n d p r ds f, bourgain_ep_to_zd rf_str roots = Ret out /\ In (ZNode n d p r ds) out /\
  z_bound d = Some f /\ Spec_RationalFunction.inside (z_int d) (Q2R (3#4)) /\ rf_atR f (Q2R (3#4)) = Raise ZeroDivisionError.
Proof.
  intros rf_str roots RC. destruct (bourgain_from_value rf_str roots bourgain_pairs RC (fun kl I => proj1 (proj2 (pairs_used kl I))) pairs_two) as (out & _ & E & _ & _ & _ & H).
  destruct (bourgain_ep_to_zd_table rf_str roots RC) as (out' & E' & T & _). unfold bourgain_ep_to_zd in E'. rewrite E in E'. injection E' as <-.
  destruct out as [|[n d p r ds|] out]; [exfalso; cbn in T; unfold Q2R in T; cbn in T; lra| |destruct T]. destruct T as (T1 & T2 & T3 & T4 & _).
  destruct (H _ (or_introl eq_refl)) as (k & l & h & f & i & p' & r' & U & SP & _ & Eq & V). injection Eq as -> -> -> -> ->. cbn [z_int] in *.
  assert (Is : Spec_RationalFunction.inside i (Q2R (3#4))). { split; rewrite ?T3, ?T4; lra. }
  eexists _, _, _, _, _, _, f. split; [exact E|]. split; [now left|]. split; [reflexivity|]. cbn [z_int]. split; [exact Is|]. destruct (V _ Is) as (V1 & _ & V3 & _). apply V3.
  apply Rle_Qle in V1. destruct (pairs_used _ (proj1 U)) as (_ & _ & _ & Es). cbn [fst snd] in Es. apply Qeq_eqR. rewrite <- Es.
  assert (B : forallb (fun kl => Qleb (3#4) (start kl)) bourgain_pairs = true) by (vm_compute; reflexivity). rewrite forallb_forall in B. specialize (B (k, l) (proj1 U)). apply Qleb_true in B. Lqa.lra.
Qed.
Print Assumptions bourgain_pole_included_refuted.

Lemma weak_world_facts : bourgain_facts weak_world.
Proof.
  constructor; cbn.
  - intros x x' v v' E L H. Lqa.lra.
  - split; [unfold Spec_ExponentPair.triangle; Lqa.lra|]. intros a _ _. cbn. Lqa.lra.
  - intros s v H. apply Rnot_lt_le. intro L. specialize (H ((v + 100) / 2)%R ltac:(lra)). lra.
  - intros s v w A B. lra.
  - intros k l s ((K1 & K2 & K3 & K4 & K5) & X) _ S (_ & _ & _ & PO & _). exfalso. specialize (X 1 ltac:(Lqa.lra) ltac:(Lqa.lra)). cbn in X. assert (L : l == 1) by Lqa.lra. assert (K : k == 0) by Lqa.lra.
    unfold bourgain_pole in PO. rewrite L, K in PO. assert (Z : (1 + 1) / (2 * (0 + 1)) == 1) by reflexivity. rewrite Z in PO. Lqa.lra.
Qed.
(** The eight pairs are written into the code and recorded as hypotheses without
    dependencies; nothing that the caller supplies supports them.  In a world in which
    Bourgain's theorem holds but they are not exponent pairs, the estimates are false. *)
Theorem bourgain_unsupported_refuted : forall rf_str roots, roots_complete roots -> exists W out n d p r ds f s, bourgain_facts W /\ bourgain_ep_to_zd rf_str roots = Ret out /\ In (ZNode n d p r ds) out /\
  (forall h, In h ds -> zn_deps h = []) /\ z_bound d = Some f /\ 3#4 < s /\ s < 1 /\ Spec_RationalFunction.inside (z_int d) (Q2R s) /\ ~ zd W s (rfval f (Q2R s)).
Proof.
  intros rf_str roots RC. destruct (bourgain_from_value rf_str roots bourgain_pairs RC (fun kl I => proj1 (proj2 (pairs_used kl I))) pairs_two) as (out & _ & E & _ & _ & _ & H).
  destruct (bourgain_ep_to_zd_table rf_str roots RC) as (out' & E' & T & V). unfold bourgain_ep_to_zd in E'. rewrite E in E'. injection E' as <-.
  destruct (tile_cover out _ _ (Q2R (4#5)) T) as (n & d & p0 & r0 & ds & I & Io).
  { unfold Q2R; cbn; lra. }
  destruct (V _ I) as (f & i & p & r & h & Eo & G). injection Eo as -> -> -> -> ->. destruct (H _ I) as (k & l & h' & f' & i' & p' & r' & U & SP & ND & Eq & _). assert (Eh : as_dep h = as_dep h') by congruence. clear Eq. cbn [z_int] in Io.
  exists weak_world, out. eexists _, _, _, _, _, f, (4#5). split; [exact weak_world_facts|]. split; [exact E|]. split; [exact I|]. split.
  { intros h0 [<-|[]]. rewrite Eh. cbn. rewrite ND. reflexivity. }
  split; [reflexivity|]. split; [reflexivity|]. split; [reflexivity|]. split; [exact Io|]. cbn [z_int zd weak_world]. specialize (G _ Io ltac:(unfold Q2R; cbn; lra)).
  assert (Ev : rfval f (Q2R (4#5)) = corollary_value (Q2R (4#5))) by (revert G; unfold rf_atR, rfval; destruct (Req_EM_T _ _); congruence). rewrite Ev.
  unfold corollary_value, corollary_table. cbn [fold_right]. unfold table_row at 1. destruct (Rle_dec (Q2R (4#5)) (Q2R (14#15))) as [_|N]; [|exfalso; apply N; unfold Q2R; cbn; lra].
  unfold Q2R. cbn [Qnum Qden]. lra.
Qed.
Print Assumptions bourgain_unsupported_refuted.

(** [ep_to_zd] never returns: it calls [bourgain_ep_to_zd] with an argument. *)
Theorem ep_to_zd_refuted : forall find_pairs hs r, ep_to_zd find_pairs hs <> Ret r.
Proof. intros find_pairs hs r. unfold ep_to_zd. destruct (find_pairs hs); discriminate. Qed.
Print Assumptions ep_to_zd_refuted.

(** ** The hypotheses are met *)
Lemma best_world_pairs : forall k l, Spec_ExponentPair.triangle k l -> exp_pair (pairs_of best_world) k l.
Proof. intros k l T. split; [exact T|]. intros a A0 A1. cbn. destruct T as (K1 & K2 & K3 & K4 & K5). Lqa.nra. Qed.
Example ex_best_world : bourgain_facts best_world /\ ivic_theorem best_world /\ forall kl, In kl bourgain_pairs -> exp_pair (pairs_of best_world) (fst kl) (snd kl).
Proof.
  split; [constructor; cbn|split].
  - intros x x' v v' E L H. Lqa.lra.
  - apply best_world_pairs. unfold Spec_ExponentPair.triangle; Lqa.lra.
  - intros s v H. apply Rnot_lt_le. intro L. specialize (H (v / 2)%R ltac:(lra)). lra.
  - intros s v w A B. lra.
  - intros k l s ((K1 & _) & _) _ _ (_ & _ & _ & PO & _). pose proof (proj1 (pole_dn (k, l) (Q2R s) K1) (Qlt_Rlt _ _ PO)) as D. apply Qle_Rle in K1. rewrite Q2R_0 in K1.
    apply Rmult_le_pos; [lra|]. apply Rlt_le, Rinv_0_lt_compat. exact D.
  - intros m k l s M _ S1 S2 _. cbn. unfold ivic_value. apply Rmult_le_pos; [apply IZR_le; lia|]. apply Rlt_le, Rinv_0_lt_compat. rewrite minus_IZR, minus_IZR, mult_IZR. apply IZR_le in M. apply Qlt_Rlt in S1.
    assert (H : Q2R (1#2) = (1/2)%R) by (unfold Q2R; cbn; lra). rewrite H in S1. nra.
  - intros kl I. apply best_world_pairs. assert (B : forallb (fun kl => Qleb 0 (fst kl) && Qleb (fst kl) (1#2) && Qleb (1#2) (snd kl) && Qleb (snd kl) 1 && Qleb (fst kl + snd kl) 1) bourgain_pairs = true) by (vm_compute; reflexivity).
    rewrite forallb_forall in B. specialize (B kl I). repeat (apply andb_true_iff in B as [B ?]). unfold Spec_ExponentPair.triangle. repeat split; now apply Qleb_true.
Qed.
Example ex_pairs : two_used bourgain_pairs /\ (forall kl, In kl bourgain_pairs -> 0 <= fst kl) /\ exists roots, roots_complete roots.
Proof. split; [exact pairs_two|]. split; [intros kl I; exact (proj1 (proj2 (pairs_used kl I)))|]. exact Prop_Roots.root_finder_exists. Qed.
Example ex_ivic : exists d p r, ivic_ep_to_zd [HNode [] (DPair (1#6) (2#3)) ref_trivial []] 2 = Ret (ZNode (s_of "Derived zero density estimate") d p r [as_dep (HNode [] (DPair (1#6) (2#3)) ref_trivial [])]) /\
  z_expr d = s_of "6/(4x + 0)" /\ lo (z_int d) = Q2R (4#5).
Proof. eexists _, _, _. split; [reflexivity|]. split; [reflexivity|]. cbn [lo z_int]. apply Qeq_eqR. vm_compute. reflexivity. Qed.
