(** C63: the zero density estimates of the literature. *)
From Verif Require Import Base Model_Text Model_Reference Model_Interval Proof_Interval Model_ExponentPair Spec_ExponentPair Model_LargeValues Spec_LargeValues
  Model_AdditiveEnergy Spec_AdditiveEnergy Model_RationalFunction Spec_RationalFunction
  Model_ZetaLargeValues Model_DensityEstimate Spec_DensityEstimate Model_DensityEnergy Spec_DensityEnergy Model_Formula Spec_Formula Proof_Formula Prop_Formula Spec_PairDensity Prop_PairDensity Model_LiteratureZD Spec_LiteratureZD.
From Coq Require Import Reals Qreals Qround Lra Lia.
Open Scope list_scope.
Local Open Scope Q_scope.

(** ** The texts *)
Lemma means_fun : forall e x u, means e x u -> forall v, means e x v -> u = v.
Proof.
  induction 1; intros v' M'; inversion M'; subst; try reflexivity;
    repeat match goal with IH : forall v, means ?a ?x v -> _ = v, M : means ?a ?x _ |- _ => apply IH in M end; subst; try reflexivity; try congruence.
  match goal with E : IZR _ = IZR _ |- _ => apply eq_IZR in E; now subst end.
Qed.
(** The texts with a root are formulas without a value. *)
Definition root_formula (c : Q) : formula := FMul (FNum c) (FPow (FSub (FNum 1) FX) (FDiv (FNum 1) (FNum 2))).
Lemma root_text : forall c w, spells (TNum c) w -> formula_text (w ++ s_of " * (1 - x) ** (1/2)") (root_formula c).
Proof.
  intros c w Sp. exists (TNum c :: TTimes :: TLeft :: TNum 1 :: TMinus :: TX :: TRight :: TPow :: TLeft :: TNum 1 :: TDiv :: TNum 2 :: [TRight]). split.
  - apply text_token; [exact Sp| |exact (proj1 (digit_none " "%char) eq_refl)]. apply (lex_sound _ PNone _ []); [constructor|vm_compute; reflexivity].
  - apply w_term. apply (w_mul (FNum c) _ [TNum c]); [apply w_factor, w_atom, w_num|]. apply (w_pow (FSub (FNum 1) FX) (FDiv (FNum 1) (FNum 2)) [TLeft; TNum 1; TMinus; TX; TRight]).
    + apply (w_parens _ [TNum 1; TMinus; TX]). apply (w_sub _ _ [TNum 1] [TX]); repeat constructor.
    + apply w_atom. apply (w_parens _ [TNum 1; TDiv; TNum 2]). apply w_term. apply (w_div _ _ [TNum 1] [TNum 2]); repeat constructor.
Qed.
Lemma root_meaningless : forall c x v, ~ means (root_formula c) x v.
Proof.
  intros c x v M. inversion M; subst. match goal with H : means (FPow _ _) _ _ |- _ => inversion H; subst end.
  match goal with H : means (FDiv (FNum 1) (FNum 2)) _ (IZR ?k) |- _ => assert (E : (Q2R 1 / Q2R 2)%R = IZR k) by (apply (means_fun (FDiv (FNum 1) (FNum 2)) x); [|exact H];
    constructor; [constructor|constructor|unfold Q2R; cbn; lra]); assert (E2 : IZR 1 = IZR (2 * k)) by (rewrite mult_IZR, <- E; unfold Q2R; cbn; lra) end.
  apply eq_IZR in E2. lia.
Qed.
Lemma says_formula : forall t e x v, formula_text t e -> means e x v -> forall w, says t x w <-> w = v.
Proof.
  intros t e x v T M w. split.
  - intros [(e' & T' & M')|(c & n & Sp & -> & ->)]; [rewrite (formula_text_unique _ _ _ T T') in M; exact (means_fun _ _ _ M' _ M)|].
    exfalso. rewrite (formula_text_unique _ _ _ T (root_text c n Sp)) in M. exact (root_meaningless _ _ _ M).
  - intros ->. left. eauto.
Qed.
Lemma says_root : forall c n x, spells (TNum c) n -> forall w, says (n ++ s_of " * (1 - x) ** (1/2)") x w <-> w = root (Q2R c) x.
Proof.
  intros c n x Sp w. split.
  - intros [(e' & T' & M')|(c' & n' & Sp' & Eq & ->)].
    + exfalso. rewrite (formula_text_unique _ _ _ T' (root_text c n Sp)) in M'. exact (root_meaningless _ _ _ M').
    + pose proof (root_text _ _ Sp') as T'. rewrite <- Eq in T'. pose proof (formula_text_unique _ _ _ T' (root_text c n Sp)) as E. injection E as ->. reflexivity.
  - intros ->. right. eauto.
Qed.

(** Fixed texts. *)
Definition text_formula (t : str) : res formula := let! ts := lex PNone t in read_tokens ts.
Lemma says_fixed : forall t e x v, text_formula t = Ret e -> means e x v -> forall w, says t x w <-> w = v.
Proof.
  intros t e x v E M. unfold text_formula in E. destruct (lex PNone t) as [ts|] eqn:L; [|discriminate]. apply (says_formula t e); auto.
  exists ts. split; [exact (lex_sound t PNone ts [] eq_refl L)|now apply read_exact].
Qed.
Lemma means_eq : forall e x u v, means e x u -> u = v -> means e x v.
Proof. intros; now subst. Qed.
Ltac q_values := repeat match goal with |- context [Q2R (inject_Z ?n)] => change (Q2R (inject_Z n)) with (IZR n * / 1)%R | |- context [Q2R (?n # ?d)] => change (Q2R (n # d)) with (IZR n * / IZR (Zpos d))%R end; rewrite ?Rinv_1, ?Rmult_1_r.
Ltac q_bounds := repeat match goal with H : context [Q2R (?n # ?d)] |- _ => change (Q2R (n # d)) with (IZR n * / IZR (Zpos d))%R in H | H : context [Q2R 1] |- _ => change (Q2R 1) with (1 * / 1)%R in H end; rewrite ?Rinv_1, ?Rmult_1_r in *.
Ltac fixed_text := match goal with |- forall v, says ?t ?x v <-> v = ?r => let e := eval vm_compute in (text_formula t) in
  match e with Ret ?e => apply (says_fixed t e); [vm_compute; reflexivity|] end end;
  eapply means_eq; [repeat first [apply m_num | apply m_x | apply m_add | apply m_sub | apply m_mul | apply m_div]|]; q_values; unfold ratio, selberg; first [lra|field; lra|field|idtac].

(** The loops. *)
Lemma ivic_formula : forall k, formula_text (ivic_text k) (FDiv (number_formula (3 * k)) (FAdd (FMul (number_formula (3 * k - 2)) FX) (number_formula (2 - k)))).
Proof.
  intro k. unfold ivic_text. exists (number_tokens (3 * k) ++ TDiv :: TLeft :: (number_tokens (3 * k - 2) ++ TTimes :: [TX]) ++ TPlus :: number_tokens (2 - k) ++ [TRight]). split.
  - apply text_number; [|number_end]. apply (text_token TDiv (s_of "/")); [exact spells_div| |exact Logic.I]. apply (text_token TLeft (s_of "(")); [exact spells_left| |destruct (z_str (3 * k - 2) ++ s_of " * x + " ++ z_str (2 - k) ++ s_of ")"); exact Logic.I].
    rewrite <- app_assoc. apply text_number; [|number_end]. apply text_space. apply (text_token TTimes (s_of "*")); [exact spells_times| |cbn; discriminate]. apply text_space.
    apply (text_token TX (s_of "x")); [exact spells_x| |split; [apply (proj1 (digit_none _)); reflexivity|discriminate]]. apply text_space. apply (text_token TPlus (s_of "+")); [exact spells_plus| |exact Logic.I]. apply text_space.
    apply text_number; [|number_end]. apply (text_token TRight (s_of ")") [] []); [exact spells_right|constructor|exact Logic.I].
  - apply w_term. apply w_div; [apply w_factor, written_number|]. apply w_atom.
    replace (TLeft :: (number_tokens (3 * k - 2) ++ [TTimes; TX]) ++ TPlus :: number_tokens (2 - k) ++ [TRight])
      with (TLeft :: ((number_tokens (3 * k - 2) ++ [TTimes; TX]) ++ TPlus :: number_tokens (2 - k)) ++ [TRight]) by (now rewrite <- !app_assoc).
    apply w_parens, w_add; [apply w_term, w_mul|apply w_factor]; auto using written_number. apply w_factor, written_number. apply w_atom, w_x.
Qed.
Lemma says_ivic : forall k x, (IZR (3 * k - 2) * x + IZR (2 - k) <> 0)%R -> forall v, says (ivic_text k) x v <-> v = ivic_value k x.
Proof.
  intros k x N. apply (says_formula _ _ _ _ (ivic_formula k)). unfold ivic_value. apply m_div; auto using means_number. repeat constructor; apply means_number.
Qed.
Lemma number_plain : forall k, (0 <= k)%Z -> number_tokens k = [TNum (inject_Z k)] /\ number_formula k = FNum (inject_Z k).
Proof. intros k P. unfold number_tokens, number_formula. replace (0 <=? k)%Z with true by (symmetry; now apply Z.leb_le). auto. Qed.
Lemma pintz_formula : forall k, (0 <= k)%Z -> formula_text (pintz_text k)
  (FDiv (FNum 3) (FMul (FNum (inject_Z k)) (FSub (FNum 1) (FMul (FMul (FNum 2) (FSub (FNum (inject_Z k)) (FNum 1))) (FSub (FNum 1) FX))))).
Proof.
  intros k P. unfold pintz_text. destruct (number_plain k P) as (Tk & _).
  exists (TNum 3 :: TDiv :: TLeft :: TNum (inject_Z k) :: TTimes :: TLeft :: TNum 1 :: TMinus :: TNum 2 :: TTimes :: TLeft :: TNum (inject_Z k) :: TMinus :: TNum 1 :: TRight :: TTimes :: TLeft :: TNum 1 :: TMinus :: TX :: [TRight; TRight; TRight]). split.
  - apply (text_token (TNum 3) (s_of "3") _ (s_of " / (" ++ z_str k ++ s_of " * (1 - 2 * (" ++ z_str k ++ s_of " - 1) * (1 - x)))")); [apply (spells_whole _ 3%Z), whole_digit; split; [lia|reflexivity]| |exact (proj1 (digit_none " "%char) eq_refl)].
    apply text_space. apply (text_token TDiv (s_of "/") _ (s_of " (" ++ z_str k ++ s_of " * (1 - 2 * (" ++ z_str k ++ s_of " - 1) * (1 - x)))")); [exact spells_div| |exact Logic.I]. apply text_space.
    apply (text_token TLeft (s_of "(") _ (z_str k ++ s_of " * (1 - 2 * (" ++ z_str k ++ s_of " - 1) * (1 - x)))")); [exact spells_left| |destruct (z_str k ++ _); exact Logic.I].
    pose proof (text_number k) as N. rewrite Tk in N. apply N; [|number_end].
    assert (T2 : text (TNum (inject_Z k) :: TMinus :: TNum 1 :: TRight :: TTimes :: TLeft :: TNum 1 :: TMinus :: TX :: [TRight; TRight; TRight]) (z_str k ++ s_of " - 1) * (1 - x)))")).
    { apply N; [|number_end]. apply (lex_sound _ PNone _ [] eq_refl). vm_compute; reflexivity. }
    assert (Sw : forall n c, whole [c] n -> spells (TNum (inject_Z n)) [c]) by (intros; now apply spells_whole).
    apply text_space, (text_token TTimes (s_of "*")); [exact spells_times| |cbn; discriminate]. apply text_space, (text_token TLeft (s_of "(")); [exact spells_left| |exact Logic.I].
    apply (text_token (TNum 1) (s_of "1")); [apply (Sw 1%Z), whole_digit; split; [lia|reflexivity]| |exact (proj1 (digit_none " "%char) eq_refl)].
    apply text_space, (text_token TMinus (s_of "-")); [exact spells_minus| |exact Logic.I]. apply text_space.
    apply (text_token (TNum 2) (s_of "2")); [apply (Sw 2%Z), whole_digit; split; [lia|reflexivity]| |exact (proj1 (digit_none " "%char) eq_refl)].
    apply text_space, (text_token TTimes (s_of "*")); [exact spells_times| |cbn; discriminate]. apply text_space, (text_token TLeft (s_of "(")); [exact spells_left|exact T2|destruct (z_str k ++ _); exact Logic.I].
  - apply w_term. apply (w_div _ _ [TNum 3]); [repeat constructor|]. apply w_atom.
    apply (w_parens _ (TNum (inject_Z k) :: TTimes :: TLeft :: TNum 1 :: TMinus :: TNum 2 :: TTimes :: TLeft :: TNum (inject_Z k) :: TMinus :: TNum 1 :: TRight :: TTimes :: TLeft :: TNum 1 :: TMinus :: TX :: [TRight; TRight])).
    apply w_term. apply (w_mul _ _ [TNum (inject_Z k)]); [repeat constructor|]. apply w_atom.
    apply (w_parens _ (TNum 1 :: TMinus :: TNum 2 :: TTimes :: TLeft :: TNum (inject_Z k) :: TMinus :: TNum 1 :: TRight :: TTimes :: TLeft :: TNum 1 :: TMinus :: TX :: [TRight])).
    apply (w_sub _ _ [TNum 1]); [repeat constructor|].
    apply (w_mul _ _ (TNum 2 :: TTimes :: TLeft :: TNum (inject_Z k) :: TMinus :: TNum 1 :: [TRight])).
    + apply (w_mul _ _ [TNum 2]); [repeat constructor|]. apply w_atom. apply (w_parens _ [TNum (inject_Z k); TMinus; TNum 1]). apply (w_sub _ _ [TNum (inject_Z k)]); repeat constructor.
    + apply w_atom. apply (w_parens _ [TNum 1; TMinus; TX]). apply (w_sub _ _ [TNum 1]); repeat constructor.
Qed.
Lemma says_pintz : forall k x, (0 <= k)%Z -> (IZR k * (1 - 2 * (IZR k - 1) * (1 - x)) <> 0)%R -> forall v, says (pintz_text k) x v <-> v = pintz_first k x.
Proof.
  intros k x P N. apply (says_formula _ _ _ _ (pintz_formula k P)). unfold pintz_first.
  assert (V : forall n, Q2R (inject_Z n) = IZR n) by (intro; unfold Q2R, inject_Z; cbn; lra).
  eapply means_eq; [repeat first [apply m_num | apply m_x | apply m_add | apply m_sub | apply m_mul | apply m_div]|];
  change 3 with (inject_Z 3); change 2 with (inject_Z 2); change 1 with (inject_Z 1); rewrite ?V; [exact N|reflexivity].
Qed.

(** ** The table *)
Definition entry_node (e : entry) : znode :=
  ZNode (value_str (r_author (x_ref e)) ++ s_of " (" ++ value_str (r_year (x_ref e)) ++ s_of ") zero density estimate" ++ [])
    (Zero_Density_Estimate (x_text e) (mkV (Q2R (x_lo e)) (Q2R (x_hi e)) (x_ilo e) (x_ihi e)))
    (s_of "See [" ++ value_str (r_author (x_ref e)) ++ s_of ", " ++ value_str (r_year (x_ref e)) ++ s_of "]") (x_ref e) [].
Lemma add_entries : forall l hs, fold_left add_entry l hs = hs ++ map entry_node l.
Proof. induction l as [|e l IH]; intro hs; cbn [fold_left map]; [now rewrite app_nil_r|]. rewrite IH. unfold add_entry, add_zero_density. rewrite <- app_assoc. reflexivity. Qed.
Definition recorded (e : entry) (r : row) : Prop :=
  x_lo e == r_lo r /\ x_hi e == r_hi r /\ x_ilo e = true /\ x_ihi e = r_end r /\ x_ref e = r_source r /\
  forall x, in_row r x -> forall v, says (x_text e) x v <-> v = r_value r x.
Lemma recorded_records : forall e r, recorded e r -> records (entry_node e) r.
Proof.
  intros e r (L & H & Il & Ih & Rf & S). unfold records, entry_node. rewrite Rf. eexists _, _, _, _. split; [reflexivity|]. cbn [lo hi ilo ihi].
  repeat split; auto using Qeq_eqR; apply S; auto.
Qed.
Lemma f2_map : forall (l : list entry) (rs : list row), Forall2 recorded l rs -> Forall2 records (map entry_node l) rs.
Proof. induction 1; cbn [map]; constructor; auto using recorded_records. Qed.

Lemma from_to_S : forall k n, from_to k (S n) = Z.of_nat k :: from_to (S k) n.
Proof. reflexivity. Qed.
Definition ivic_row (get : str -> reference) (k : Z) : row :=
  mkRow (ivic_value k) (inject_Z (6 * k * k - 5 * k + 2) / inject_Z (8 * k * k - 7 * k + 2)) 1 false false (get (s_of "ivic")).
Lemma inject_pos : forall n, (0 < n)%Z -> 0 < inject_Z n.
Proof. intros n P. change 0 with (inject_Z 0). now rewrite <- Zlt_Qlt. Qed.
Lemma frac_le : forall a b c d, (0 < b)%Z -> (0 < d)%Z -> (a * d <= c * b)%Z -> inject_Z a / inject_Z b <= inject_Z c / inject_Z d.
Proof.
  intros a b c d B D L. pose proof (inject_pos b B). pose proof (inject_pos d D). apply Qle_shift_div_r; auto. setoid_replace (inject_Z c / inject_Z d * inject_Z b) with (inject_Z c * inject_Z b / inject_Z d) by (field; intro E; rewrite E in *; Lqa.lra).
  apply Qle_shift_div_l; auto. rewrite <- !inject_Z_mult, <- Zle_Qle. exact L.
Qed.
Lemma ivic_start : forall k, (3 <= k)%Z -> ivic_sigma_lower k == inject_Z (6 * k * k - 5 * k + 2) / inject_Z (8 * k * k - 7 * k + 2).
Proof.
  intros k K. unfold ivic_sigma_lower. destruct (k =? 3)%Z eqn:E; [apply Z.eqb_eq in E; subst; vm_compute; reflexivity|]. apply Z.eqb_neq in E.
  replace (k ^ 2)%Z with (k * k)%Z by ring. replace (6 * (k * k))%Z with (6 * k * k)%Z by ring. replace (8 * (k * k))%Z with (8 * k * k)%Z by ring.
  unfold py_min. destruct (Qltb _ _) eqn:C; [|reflexivity]. apply Qltb_true in C. exfalso. apply (Qlt_not_le _ _ C). apply frac_le; nia.
Qed.
Lemma ivic_recorded : forall get n k, (3 <= k)%nat -> Forall2 recorded (ivic_loop get n (Z.of_nat k)) (map (ivic_row get) (from_to k n)).
Proof.
  intros get. induction n as [|n IH]; intros k K; [constructor|]. rewrite from_to_S. cbn [ivic_loop map].
  assert (K3 : (3 <= Z.of_nat k)%Z) by lia. set (z := Z.of_nat k) in *.
  assert (B : ivic_sigma_lower z <= 4#5) by (rewrite (ivic_start z K3); change (4#5) with (inject_Z 4 / inject_Z 5); apply frac_le; nia).
  assert (A : 3#4 <= ivic_sigma_lower z) by (rewrite (ivic_start z K3); change (3#4) with (inject_Z 3 / inject_Z 4); apply frac_le; nia).
  destruct (Qltb _ _) eqn:C; [apply Qltb_true in C; exfalso; unfold ZERO_DENSITY_SIGMA_LIMIT in C; Lqa.lra|]. constructor.
  - split; [now apply ivic_start|]. do 4 (split; [reflexivity|]). intros x (L & _). cbn [x_text ivic_row r_value r_lo] in *. apply says_ivic.
    rewrite <- (Qeq_eqR _ _ (ivic_start z K3)) in L. apply Qle_Rle in A. assert (3 / 4 <= x)%R by (unfold Q2R in A at 1; cbn in A; lra).
    rewrite !minus_IZR, mult_IZR. apply IZR_le in K3. assert (0 < (3 * IZR z - 2) * x + (2 - IZR z))%R by nra. lra.
  - replace (z + 1)%Z with (Z.of_nat (S k)) by lia. apply IH. lia.
Qed.
Definition pintz_row (get : str -> reference) (k : Z) : row :=
  mkRow (pintz_first k) (1 - 1 / inject_Z (2 * k * (k - 1))) (1 - 1 / inject_Z (2 * k * (k + 1))) true false (get (s_of "pintz_density_2023")).
Lemma pintz_lower : forall k, (6 <= k)%Z -> (Qltb ZERO_DENSITY_SIGMA_LIMIT (pintz_sigma_lower k) = true <-> (23 <= k)%Z).
Proof.
  intros k K. unfold pintz_sigma_lower, ZERO_DENSITY_SIGMA_LIMIT. rewrite Qltb_true. set (d := (2 * k * (k - 1))%Z). assert (D : (0 < d)%Z) by (unfold d; nia). pose proof (inject_pos d D) as P.
  assert (X : 999#1000 < 1 - 1 / inject_Z d <-> (1000 < d)%Z).
  { rewrite Zlt_Qlt. change (inject_Z 1000) with 1000. assert (Y : 1 / inject_Z d < 1#1000 <-> 1000 < inject_Z d).
    { split; intro H; [|apply Qlt_shift_div_r; auto; Lqa.lra]. apply Qnot_le_lt. intro N. apply (Qlt_not_le _ _ H). apply Qle_shift_div_l; auto. Lqa.lra. }
    rewrite <- Y. split; intro; Lqa.lra. }
  rewrite X. unfold d. split; intro; nia.
Qed.
Lemma pintz_recorded : forall get m n k, (6 <= k)%nat -> (k + m = 23)%nat -> (m < n)%nat -> Forall2 recorded (pintz_loop get n (Z.of_nat k)) (map (pintz_row get) (from_to k m)).
Proof.
  intros get. induction m as [|m IH]; intros n k K Km Mn; (destruct n as [|n]; [lia|]); cbn [pintz_loop].
  - assert (C : Qltb ZERO_DENSITY_SIGMA_LIMIT (pintz_sigma_lower (Z.of_nat k)) = true) by (apply pintz_lower; lia). rewrite C. constructor.
  - destruct (Qltb _ _) eqn:C; [apply pintz_lower in C; lia|]. rewrite from_to_S. cbn [map]. constructor.
    + do 5 (split; [reflexivity|]). intros x (L & _). cbn [x_text pintz_row r_value r_lo] in *. apply says_pintz; [lia|]. set (z := Z.of_nat k) in *. assert (Z6 : (6 <= z)%Z) by (unfold z; lia).
      assert (E : Q2R (1 - 1 / inject_Z (2 * z * (z - 1))) = (1 - 1 / (2 * IZR z * (IZR z - 1)))%R).
      { assert (P : 0 < inject_Z (2 * z * (z - 1))) by (apply inject_pos; nia). rewrite Q2R_minus, Q2R_div by (intro E; rewrite E in P; Lqa.lra).
        replace (Q2R (inject_Z (2 * z * (z - 1)))) with (2 * IZR z * (IZR z - 1))%R by (unfold Q2R, inject_Z; cbn [Qnum Qden]; rewrite !mult_IZR, minus_IZR; lra). replace (Q2R 1) with 1%R by (unfold Q2R; cbn; lra). reflexivity. }
      rewrite E in L. apply IZR_le in Z6. assert (0 < 2 * IZR z * (IZR z - 1))%R by nra. assert (H2 : (2 * (IZR z - 1) * (1 - x) <= / IZR z)%R).
      { assert (1 - x <= 1 / (2 * IZR z * (IZR z - 1)))%R by lra. apply (Rmult_le_compat_l (2 * (IZR z - 1))) in H0; [|lra]. replace (2 * (IZR z - 1) * (1 / (2 * IZR z * (IZR z - 1))))%R with (/ IZR z)%R in H0 by (field; split; lra). lra. }
      assert (/ IZR z < 1)%R by (rewrite <- Rinv_1; apply Rinv_lt_contravar; lra). apply Rmult_integral_contrapositive_currified; lra.
    + replace (Z.of_nat k + 1)%Z with (Z.of_nat (S k)) by lia. apply IH; lia.
Qed.
Lemma says_1600 : forall x v, says (s_of "1600 * (1 - x) ** (1/2)") x v <-> v = root 1600 x.
Proof.
  intros x v. assert (D : spells (TNum (inject_Z 1600)) (s_of "1600")) by (apply spells_whole, (whole_z_str 1600); lia).
  rewrite (says_root _ (s_of "1600") x D v). replace (Q2R (inject_Z 1600)) with 1600%R by (unfold Q2R; cbn; lra). tauto.
Qed.
Ltac dig := split; [lia|reflexivity].
Lemma says_5805 : forall x v, says (s_of "58.05 * (1 - x) ** (1/2)") x v <-> v = root (5805 / 100) x.
Proof.
  intros x v. assert (D : spells (TNum (5805 # 100)) (s_of "58.05")).
  { apply spells_decimal. apply (decimal_more (s_of "58.0") 580 10 "5" 5); [|dig]. apply (decimal_more (s_of "58.") 58 1 "0" 0); [|dig]. apply (decimal_point (s_of "58") 58). apply (whole_z_str 58); lia. }
  rewrite (says_root _ (s_of "58.05") x D v). unfold Q2R, Rdiv. tauto.
Qed.
Lemma says_642 : forall x v, says (s_of "6.42 * (1 - x) ** (1/2)") x v <-> v = root (642 / 100) x.
Proof.
  intros x v. assert (D : spells (TNum (642 # 100)) (s_of "6.42")).
  { apply spells_decimal. apply (decimal_more (s_of "6.4") 64 10 "2" 2); [|dig]. apply (decimal_more (s_of "6.") 6 1 "4" 4); [|dig]. apply (decimal_point (s_of "6") 6). apply (whole_z_str 6); lia. }
  rewrite (says_root _ (s_of "6.42") x D v). unfold Q2R, Rdiv. tauto.
Qed.
Ltac fixed_row := split; [reflexivity|]; split; [reflexivity|]; split; [reflexivity|]; split; [reflexivity|]; split; [reflexivity|];
  let x := fresh "x" in let L := fresh "L" in let H := fresh "H" in intros x (L & H); cbn [r_lo r_hi r_end r_value x_text] in *; q_bounds;
  first [exact (says_1600 x)|exact (says_5805 x)|exact (says_642 x)|solve [fixed_text]|idtac].
Theorem zd_table_recorded : forall get hs, exists hs', add_zero_densities get hs = hs ++ hs' /\ Forall2 records hs' (rows get).
Proof.
  intros get hs. exists (map entry_node (zero_density_table get)). split; [apply add_entries|]. apply f2_map.
  unfold zero_density_table, add_zero_density_carlson_1921, add_zero_density_ingham_1940, add_zero_density_montgomery_1971, add_zero_density_huxley_1972, huxley_1973_1975, add_zero_density_heathbrown_1979, ivic_1979, add_zero_density_ivic_1980, jutila_1982_ivic_1984,
    conrey_1989, add_zero_density_bourgain_1995, add_zero_density_bourgain_2000, ford_2002, add_zero_density_bourgain_2002, heathbrown_2017, add_zero_density_pintz_2023, add_zero_density_chen_debruyne_vindas_2024, add_zero_density_guth_maynard_2024, rows.
  cbn [app]. do 29 (apply Forall2_cons; [fixed_row|]).
  apply Forall2_app; [exact (ivic_recorded get 97 3 ltac:(lia))|].
  do 10 (apply Forall2_cons; [fixed_row|]).
  apply Forall2_app; [exact (pintz_recorded get 17 94 6 ltac:(lia) eq_refl ltac:(lia))|].
  do 2 (apply Forall2_cons; [fixed_row|]). constructor.
Qed.
Print Assumptions zd_table_recorded.

(** ** The rows follow from the published results *)
Lemma row_range : forall (r : row) s, in_row r (Q2R s) -> r_lo r <= s /\ (s < r_hi r \/ (r_end r = true /\ s <= r_hi r)).
Proof. intros r s (L & H). split; [now apply Rle_Qle|]. destruct (r_end r); [right; split; auto; now apply Rle_Qle|left; now apply Rlt_Qlt]. Qed.
Lemma plain_row : forall W f a b e src, bound_on W f a b -> row_true W (mkRow f a b false e src).
Proof. intros W f a b e src B s S1 S2 I _. destruct (row_range _ _ I) as (L & H). cbn [r_value r_lo r_hi r_end] in *. apply B; auto. destruct H as [H|(_ & H)]; auto using Qlt_le_weak. Qed.
Lemma bound_sub : forall W f a b a' b', bound_on W f a b -> a <= a' -> b' <= b -> bound_on W f a' b'.
Proof. intros W f a b a' b' B A C s S1 S2 L H. apply B; auto; eapply Qle_trans; eauto. Qed.
Lemma q_real : forall s a b, a <= s -> s <= b -> (Q2R a <= Q2R s <= Q2R b)%R.
Proof. intros; split; now apply Qle_Rle. Qed.
Lemma bound_weaker : forall W f g a b, zd_basic W -> bound_on W f a b -> (forall x, (Q2R a <= x <= Q2R b)%R -> (x < 1)%R -> (f x <= g x)%R) -> bound_on W g a b.
Proof.
  intros W f g a b B F L s S1 S2 A C. apply (zb_mono W B s (f (Q2R s))); [|now apply F]. apply L; [now apply q_real|]. apply Qlt_Rlt in S2. unfold Q2R in S2 at 2. cbn in S2. lra.
Qed.
Lemma bound_join : forall W f a b c, bound_on W f a b -> bound_on W f b c -> bound_on W f a c.
Proof. intros W f a b c F G s S1 S2 A C. destruct (Qlt_le_dec b s) as [N|N]; [apply G|apply F]; auto using Qlt_le_weak. Qed.
Lemma ratio_le : forall n p q n' p' q' x, (0 < p * x + q)%R -> (0 < p' * x + q')%R -> (n * (p' * x + q') <= n' * (p * x + q))%R -> (ratio n p q x <= ratio n' p' q' x)%R.
Proof.
  intros n p q n' p' q' x D D' L. unfold ratio. apply (Rmult_le_reg_r (p * x + q)); auto. apply (Rmult_le_reg_r (p' * x + q')); auto.
  replace (n / (p * x + q) * (p * x + q) * (p' * x + q'))%R with (n * (p' * x + q'))%R by (field; lra). replace (n' / (p' * x + q') * (p * x + q) * (p' * x + q'))%R with (n' * (p * x + q))%R by (field; lra). exact L.
Qed.

Lemma bound_selberg : forall W c, zd_basic W -> (0 < c)%R -> (forall t, (0 < t < c)%R -> bound_on W (selberg t) (1#2) 1) -> bound_on W (selberg c) (1#2) 1.
Proof.
  intros W c B C F s S1 S2 L H. apply (zb_closed W B). intros w Hw. set (x := Q2R s) in *.
  assert (X : (1/2 < x < 1)%R) by (apply Qlt_Rlt in S1; apply Qlt_Rlt in S2; unfold x; unfold Q2R in S1 at 1; unfold Q2R in S2 at 2; cbn in *; lra).
  set (d := ((w - selberg c x) * (1 - x))%R). assert (D : (0 < d)%R) by (unfold d; nra).
  set (t := Rmax (c / 2) (c - d)). assert (T : (0 < t < c)%R) by (unfold t; unfold Rmax; destruct (Rle_dec _ _); lra).
  apply (zb_mono W B s (selberg t x)); [|now apply F]. assert (T2 : (c - d <= t)%R) by (unfold t; apply Rmax_r).
  unfold selberg in *. apply (Rmult_le_reg_r (1 - x)); [lra|]. replace ((1 - t * (2 * x - 1)) / (1 - x) * (1 - x))%R with (1 - t * (2 * x - 1))%R by (field; lra).
  assert (E : ((1 - c * (2 * x - 1)) / (1 - x) * (1 - x) = 1 - c * (2 * x - 1))%R) by (field; lra). assert (DE : (d = w * (1 - x) - (1 - c * (2 * x - 1)))%R) by (unfold d; lra). nra.
Qed.
Lemma pub_ivic : forall W k, published W -> (3 <= k)%Z -> bound_on W (ivic_value k) (inject_Z (6 * k * k - 5 * k + 2) / inject_Z (8 * k * k - 7 * k + 2)) 1.
Proof.
  intros W k P K s S1 S2 L H. apply (pb_ivic_general W P k 0 1); auto; [lia|exact (zb_pair W (pb_basic W (pb_1980 W P)))|]. eapply Qle_trans; [|exact L].
  unfold ivic_lower. eapply Qle_trans; [exact (proj1 (qmin_spec _ _))|]. set (M := inject_Z k). setoid_replace (inject_Z (6 * k * k - 5 * k + 2)) with (6 * (M * M) - 5 * M + 2) by (unfold Z.sub, M; rewrite !inject_Z_plus, !inject_Z_opp, !inject_Z_mult; ring).
  setoid_replace (inject_Z (8 * k * k - 7 * k + 2)) with (8 * (M * M) - 7 * M + 2) by (unfold Z.sub, M; rewrite !inject_Z_plus, !inject_Z_opp, !inject_Z_mult; ring). apply Qle_refl.
Qed.
(** A value of k for every eta. *)
Lemma pintz_k : forall N n, 12 < N -> N <= inject_Z ((4 + Z.of_nat n) * (5 + Z.of_nat n)) -> exists k, (4 <= k)%Z /\ inject_Z (k * (k - 1)) < N /\ N <= inject_Z (k * (k + 1)).
Proof.
  intros N n L. induction n as [|n IH]; intro U; [exists 4%Z; split; [lia|]; split; [exact L|exact U]|].
  destruct (Qlt_le_dec (inject_Z ((4 + Z.of_nat n) * (5 + Z.of_nat n))) N) as [C|C]; [|auto]. exists (5 + Z.of_nat n)%Z. split; [lia|].
  replace ((5 + Z.of_nat n) * (5 + Z.of_nat n - 1))%Z with ((4 + Z.of_nat n) * (5 + Z.of_nat n))%Z by ring. split; [exact C|]. replace ((5 + Z.of_nat n) * (5 + Z.of_nat n + 1))%Z with ((4 + Z.of_nat (S n)) * (5 + Z.of_nat (S n)))%Z by lia. exact U.
Qed.
Lemma find_k : forall N, 12 < N -> exists k, (4 <= k)%Z /\ inject_Z (k * (k - 1)) < N /\ N <= inject_Z (k * (k + 1)).
Proof.
  intros N L. apply (pintz_k N (Z.to_nat (Qceiling N)) L). eapply Qle_trans; [apply Qle_ceiling|]. rewrite <- Zle_Qle.
  assert (0 <= Qceiling N)%Z by (change 0%Z with (Qceiling 0); apply Qceiling_resp_le; Lqa.lra). nia.
Qed.

Lemma above : forall d s, (0 < d)%Z -> s < 1 -> (1 - 1 / inject_Z d < s <-> inject_Z d * (1 - s) < 1).
Proof.
  intros d s D S. pose proof (inject_pos d D) as P. assert (Y : 1 - s < 1 / inject_Z d <-> inject_Z d * (1 - s) < 1).
  { split; intro H; [|apply Qlt_shift_div_l; auto; Lqa.lra]. apply Qnot_le_lt. intro N. apply (Qlt_not_le _ _ H). apply Qle_shift_div_r; auto. Lqa.lra. }
  rewrite <- Y. split; intro; Lqa.lra.
Qed.
Lemma below : forall d s, (0 < d)%Z -> s < 1 -> (s <= 1 - 1 / inject_Z d <-> 1 <= inject_Z d * (1 - s)).
Proof. intros d s D S. pose proof (above d s D S) as A. split; intro H; apply Qnot_lt_le; intro N; apply A in N; Lqa.lra. Qed.
Lemma pintz_at : forall W s l, pintz_theorem W -> (3 <= l)%Z -> 1#2 < s -> s < 1 -> 12 * (1 - s) < 1 ->
  inject_Z (2 * l * (l - 1)) * (1 - s) < 1 -> 1 <= inject_Z (2 * l * (l + 1)) * (1 - s) ->
  exists k, (4 <= k)%Z /\ (IZR k * (IZR k - 1) * (1 - Q2R s) < 1 <= IZR k * (IZR k + 1) * (1 - Q2R s))%R /\ zd W s (Rmax (pintz_first l (Q2R s)) (pintz_second k (Q2R s))).
Proof.
  intros W s l T L S1 S2 U A B. assert (Eta : 0 < 1 - s) by Lqa.lra. assert (E : (1 / (1 - s)) * (1 - s) == 1) by (field; Lqa.lra).
  destruct (find_k (1 / (1 - s))) as (k & K & K1 & K2); [apply Qlt_shift_div_l; auto|].
  assert (X1 : inject_Z (k * (k - 1)) * (1 - s) < 1) by (apply (Qmult_lt_r _ _ (1 - s)) in K1; auto; now rewrite E in K1).
  assert (X2 : 1 <= inject_Z (k * (k + 1)) * (1 - s)) by (apply (Qmult_le_r _ _ (1 - s)) in K2; auto; now rewrite E in K2).
  exists k. split; [exact K|]. split.
  - assert (V : forall n, Q2R (inject_Z n) = IZR n) by (intro; unfold Q2R, inject_Z; cbn; lra). assert (V1 : Q2R (1 - s) = (1 - Q2R s)%R) by (rewrite Q2R_minus; unfold Q2R at 1; cbn; lra). assert (O : Q2R 1 = 1%R) by (unfold Q2R; cbn; lra).
    apply Qlt_Rlt in X1. apply Qle_Rle in X2. rewrite Q2R_mult, V, V1, O in X1, X2. rewrite mult_IZR, minus_IZR in X1. rewrite mult_IZR, plus_IZR in X2. lra.
  - apply above in X1; auto; [|nia]. apply below in X2; auto; [|nia]. apply above in A; auto; [|nia]. apply below in B; auto; [|nia].
    apply (T k l s); auto; try lia; Lqa.lra.
Qed.
(** The two bounds compared, where K and l are the values for the same eta. *)
Lemma pintz_compare : forall l k e, (6 <= l)%Z -> (4 <= k)%Z -> (0 < e)%R -> (2 * IZR l * (IZR l - 1) * e < 1)%R -> (IZR k * (IZR k - 1) * e < 1 <= IZR k * (IZR k + 1) * e)%R ->
  (4 * (IZR l * (1 - 2 * (IZR l - 1) * e)) <= 3 * (IZR k * (1 - (IZR k - 1) * e)))%R.
Proof.
  intros l k e L K E A (B & C).
  assert (Z1 : (2 * l * (l - 1) < k * (k + 1))%Z).
  { apply lt_IZR. rewrite !mult_IZR, minus_IZR, plus_IZR. apply (Rmult_lt_reg_r e); auto. lra. }
  assert (Z2 : (4 * l - 1 <= 3 * k)%Z).
  { destruct (Z_lt_le_dec (3 * k) (4 * l - 1)) as [N|N]; auto. exfalso. assert (9 * (k * (k + 1)) <= (4 * l - 2) * (4 * l + 1))%Z by nia. destruct (Z.eq_dec l 6) as [->|N6]; [assert (k <= 7)%Z by lia; nia|]. nia. }
  apply IZR_le in L, K. set (N := (/ e)%R). assert (NE : (N * e = 1)%R) by (unfold N; field; lra). assert (Np : (0 < N)%R) by (unfold N; now apply Rinv_0_lt_compat).
  set (x := IZR l) in *. set (y := IZR k) in *.
  assert (B' : (y * (y - 1) < N)%R) by (apply (Rmult_lt_reg_r e); auto; lra). assert (C' : (N <= y * (y + 1))%R) by (apply (Rmult_le_reg_r e); auto; lra). assert (A' : (2 * x * (x - 1) < N)%R) by (apply (Rmult_lt_reg_r e); auto; lra).
  assert (F : (0 <= (3 * y - 4 * x) * N - 3 * y * (y - 1) + 8 * x * (x - 1))%R).
  { destruct (Z.eq_dec (3 * k) (4 * l - 1)) as [Q|Q].
    - assert (Y : (3 * y = 4 * x - 1)%R) by (unfold x, y; apply IZR_eq in Q; rewrite minus_IZR, !mult_IZR in Q; lra). assert ((3 * y - 4 * x) = -1)%R as -> by lra.
      assert (y = (4 * x - 1) / 3)%R by lra. subst y. clearbody N x. rewrite H in C' |- *. nra.
    - assert (Z3 : (4 * l <= 3 * k)%Z) by lia. destruct (Z_lt_le_dec (3 * k) (4 * l + 3)) as [Q2|Q2].
      + assert (Y : (4 * x <= 3 * y)%R) by (unfold x, y; rewrite <- !mult_IZR; now apply IZR_le). assert (Y2 : (3 * y <= 4 * x + 2)%R) by (unfold x, y; rewrite <- !mult_IZR, <- plus_IZR; apply IZR_le; lia).
        assert (0 <= (3 * y - 4 * x) * N)%R by nra. nra.
      + assert (Y : (4 * x + 3 <= 3 * y)%R) by (unfold x, y; rewrite <- !mult_IZR, <- plus_IZR; now apply IZR_le). assert ((3 * y - 4 * x) * N >= (3 * y - 4 * x) * (y * (y - 1)))%R by (apply Rle_ge, Rmult_le_compat_l; lra). assert (0 <= y * (y - 1))%R by nra. nra. }
  replace e with (/ N)%R by (unfold N; field; lra). apply (Rmult_le_reg_r N); auto.
  replace (4 * (x * (1 - 2 * (x - 1) * / N)) * N)%R with (4 * x * (N - 2 * (x - 1)))%R by (field; lra). replace (3 * (y * (1 - (y - 1) * / N)) * N)%R with (3 * y * (N - (y - 1)))%R by (field; lra). nra.
Qed.
Lemma rmax_le : forall a b c, (a <= c)%R -> (b <= c)%R -> (Rmax a b <= c)%R.
Proof. intros. now apply Rmax_lub. Qed.
Lemma div_le : forall a b c d, (0 < b)%R -> (0 < d)%R -> (a * d <= c * b)%R -> (a / b <= c / d)%R.
Proof. intros a b c d B D L. apply (Rmult_le_reg_r b); auto. apply (Rmult_le_reg_r d); auto. replace (a / b * b * d)%R with (a * d)%R by (field; lra). replace (c / d * b * d)%R with (c * b)%R by (field; lra). exact L. Qed.
Lemma q_eta : forall s, s < 1 -> (0 < 1 - Q2R s)%R.
Proof. intros s S. apply Qlt_Rlt in S. unfold Q2R in S at 2. cbn in S. lra. Qed.
Lemma q_times : forall (d : Z) s, inject_Z d * (1 - s) < 1 -> (IZR d * (1 - Q2R s) < 1)%R.
Proof.
  intros d s H. apply Qlt_Rlt in H. rewrite Q2R_mult, Q2R_minus in H. replace (Q2R (inject_Z d)) with (IZR d) in H by (unfold Q2R, inject_Z; cbn; lra). replace (Q2R 1) with 1%R in H by (unfold Q2R; cbn; lra). exact H.
Qed.
Lemma pintz_rows_true : forall W get k, zd_basic W -> pintz_theorem W -> (6 <= k)%Z -> row_true W (pintz_row get k).
Proof.
  intros W get l B T L s S1 S2 I Le. destruct (row_range _ _ I) as (_ & H). specialize (Le eq_refl). cbn [pintz_row r_lo r_hi r_end r_value] in *. destruct H as [H|(H & _)]; [|discriminate].
  apply above in Le; auto; [|nia]. apply Qlt_le_weak, below in H; auto; [|nia].
  assert (P60 : inject_Z 60 * (1 - s) < 1). { eapply Qle_lt_trans; [|exact Le]. apply Qmult_le_compat_r; [|Lqa.lra]. rewrite <- Zle_Qle. nia. }
  destruct (pintz_at W s l T) as (k & K & Kb & Zd); auto; [lia|change (inject_Z 60) with 60 in P60; Lqa.lra|].
  apply (zb_mono W B s _ _) with (2 := Zd). pose proof (q_eta s S2) as E. apply q_times in Le. rewrite !mult_IZR, minus_IZR in Le.
  pose proof (pintz_compare l k _ L K E ltac:(lra) Kb) as Cmp. apply IZR_le in L, K.
  apply rmax_le; [lra|]. unfold pintz_second, pintz_first. set (e := (1 - Q2R s)%R) in *. set (x := IZR l) in *. set (y := IZR k) in *.
  assert (D1 : (0 < 1 - 2 * (x - 1) * e)%R) by nra. assert (D2 : (0 < 1 - (y - 1) * e)%R) by nra.
  apply div_le; [nra|nra|lra].
Qed.
(** The three rows before the loop: l is 4 or 5. *)
Lemma small_k : forall k e (m : Z), (4 <= k)%Z -> (0 <= m)%Z -> (0 < e)%R -> (IZR k * (IZR k - 1) * e < 1)%R -> (1 <= IZR ((m + 1) * m) * e)%R -> (k <= m)%Z.
Proof.
  intros k e m K M E A B. assert (L : (k * (k - 1) < (m + 1) * m)%Z) by (apply lt_IZR; rewrite (mult_IZR k), minus_IZR; apply (Rmult_lt_reg_r e); auto; lra). nia.
Qed.
Lemma large_k : forall k e (m : Z), (4 <= k)%Z -> (0 <= m)%Z -> (0 < e)%R -> (1 <= IZR k * (IZR k + 1) * e)%R -> (IZR (m * (m + 1)) * e < 1)%R -> (m < k)%Z.
Proof.
  intros k e m K M E A B. assert (L : (m * (m + 1) < k * (k + 1))%Z) by (apply lt_IZR; rewrite (mult_IZR k), plus_IZR; apply (Rmult_lt_reg_r e); auto; lra). nia.
Qed.
Lemma q_times_le : forall (d : Z) s, 1 <= inject_Z d * (1 - s) -> (1 <= IZR d * (1 - Q2R s))%R.
Proof.
  intros d s H. apply Qle_Rle in H. rewrite Q2R_mult, Q2R_minus in H. replace (Q2R (inject_Z d)) with (IZR d) in H by (unfold Q2R, inject_Z; cbn; lra). replace (Q2R 1) with 1%R in H by (unfold Q2R; cbn; lra). exact H.
Qed.
Lemma pintz_4 : forall W src, zd_basic W -> pintz_theorem W -> row_true W (mkRow (ratio 3 24 (-20)) (23#24) (39#40) true false src).
Proof.
  intros W src B T s S1 S2 I Le. destruct (row_range _ _ I) as (_ & H). specialize (Le eq_refl). cbn [r_lo r_hi r_end r_value] in *. destruct H as [H|(H & _)]; [|discriminate].
  destruct (pintz_at W s 4 T) as (k & K & Kb & Zd); auto; [lia|Lqa.lra|change (inject_Z (2 * 4 * (4 - 1))) with 24; Lqa.lra|change (inject_Z (2 * 4 * (4 + 1))) with 40; Lqa.lra|].
  apply (zb_mono W B s _ _) with (2 := Zd). pose proof (q_eta s S2) as E. set (e := (1 - Q2R s)%R) in *.
  assert (E1 : (24 * e < 1)%R) by (apply (q_times 24); change (inject_Z 24) with 24; Lqa.lra). assert (E2 : (1 <= 40 * e)%R) by (apply (q_times_le 40); change (inject_Z 40) with 40; Lqa.lra).
  assert (K6 : (k <= 6)%Z) by (apply (small_k k e 6); auto; try lia; try tauto; change (IZR ((6 + 1) * 6)) with 42%R; lra).
  assert (K5 : (4 < k)%Z) by (apply (large_k k e 4); auto; try lia; try tauto; change (IZR (4 * (4 + 1))) with 20%R; lra).
  unfold pintz_first, pintz_second, ratio. fold e. replace (Q2R s) with (1 - e)%R by (unfold e; lra). apply rmax_le; [apply div_le; lra|].
  assert (C : (k = 5 \/ k = 6)%Z) by lia. destruct C as [-> | ->]; apply div_le; lra.
Qed.
Lemma pintz_5 : forall W src, zd_basic W -> pintz_theorem W -> row_true W (mkRow (ratio 2 15 (-12)) (39#40) (41#42) true false src) /\ row_true W (mkRow (ratio 3 40 (-35)) (41#42) (59#60) true false src).
Proof.
  intros W src B T. split; intros s S1 S2 I Le; destruct (row_range _ _ I) as (_ & H); specialize (Le eq_refl); cbn [r_lo r_hi r_end r_value] in *; (destruct H as [H|(H & _)]; [|discriminate]).
  - destruct (pintz_at W s 5 T) as (k & K & Kb & Zd); auto; [lia|Lqa.lra|change (inject_Z (2 * 5 * (5 - 1))) with 40; Lqa.lra|change (inject_Z (2 * 5 * (5 + 1))) with 60; Lqa.lra|].
    apply (zb_mono W B s _ _) with (2 := Zd). pose proof (q_eta s S2) as E. set (e := (1 - Q2R s)%R) in *.
    assert (E1 : (40 * e < 1)%R) by (apply (q_times 40); change (inject_Z 40) with 40; Lqa.lra). assert (E2 : (1 <= 42 * e)%R) by (apply (q_times_le 42); change (inject_Z 42) with 42; Lqa.lra).
    assert (K6 : (k <= 6)%Z) by (apply (small_k k e 6); auto; try lia; try tauto; change (IZR ((6 + 1) * 6)) with 42%R; lra).
    assert (K5 : (5 < k)%Z) by (apply (large_k k e 5); auto; try lia; try tauto; change (IZR (5 * (5 + 1))) with 30%R; lra).
    assert (k = 6%Z) by lia. subst k. unfold pintz_first, pintz_second, ratio. fold e. replace (Q2R s) with (1 - e)%R by (unfold e; lra). apply rmax_le; apply div_le; lra.
  - destruct (pintz_at W s 5 T) as (k & K & Kb & Zd); auto; [lia|Lqa.lra|change (inject_Z (2 * 5 * (5 - 1))) with 40; Lqa.lra|change (inject_Z (2 * 5 * (5 + 1))) with 60; Lqa.lra|].
    apply (zb_mono W B s _ _) with (2 := Zd). pose proof (q_eta s S2) as E. set (e := (1 - Q2R s)%R) in *.
    assert (E1 : (42 * e < 1)%R) by (apply (q_times 42); change (inject_Z 42) with 42; Lqa.lra). assert (E2 : (1 <= 60 * e)%R) by (apply (q_times_le 60); change (inject_Z 60) with 60; Lqa.lra).
    assert (K8 : (k <= 8)%Z) by (apply (small_k k e 8); auto; try lia; try tauto; change (IZR ((8 + 1) * 8)) with 72%R; lra).
    assert (K6 : (6 < k)%Z) by (apply (large_k k e 6); auto; try lia; try tauto; change (IZR (6 * (6 + 1))) with 42%R; lra).
    unfold pintz_first, pintz_second, ratio. fold e. replace (Q2R s) with (1 - e)%R by (unfold e; lra). apply rmax_le; [apply div_le; lra|].
    assert (C : (k = 7 \/ k = 8)%Z) by lia. destruct C as [-> | ->]; apply div_le; lra.
Qed.

Ltac qdec := solve [apply Qle_refl | vm_compute; discriminate].
Ltac real_range := let x := fresh "x" in let X := fresh "X" in let X1 := fresh "X" in intros x X X1; unfold Q2R in X; cbn [Qnum Qden] in X.
Ltac old_row := match goal with
  | H : bound_on ?W ?f ?a ?b |- row_true ?W (mkRow ?f _ _ false _ _) => apply plain_row; apply (bound_sub W f a b); [exact H|qdec|qdec]  end.
Theorem zd_table_follows : forall get W, published W -> Forall (row_true W) (rows get).
Proof.
  intros get W P. destruct (pb_1980 W P) as [B Ca In (Mo & Mo2) H72 H73 (H75a & H75b & H75c) H75 Ju (Hb & Hb2) (Ia & Ib & Ic & Id & Ie) (Ja & Jb & Jc & Jd & Je)].
  destruct P as [P1980 J83 (Ka & Kb & Kc) Ig Co (Ba & Bb) B00 Bi Fo B02 H17 Pi Ch Gm]. pose proof (Build_published W P1980 J83 (conj Ka (conj Kb Kc)) Ig Co (conj Ba Bb) B00 Bi Fo B02 H17 Pi Ch Gm) as P.
  assert (F1 : bound_on W (root 1600) (1#2) 1).
  { apply (bound_join W _ _ (152#155)); [|exact Mo2]. apply (bound_weaker W (fun x => 1 / (1 - x))%R); [exact B|apply (bound_sub W _ (1#2) 1); [exact (zb_trivial W B)|qdec|qdec]|].
    real_range. unfold root. assert (Y : (3 / 155 <= 1 - x)%R) by lra. set (y := (1 - x)%R) in *. assert (S : (1 / 10 <= sqrt y)%R) by (rewrite <- (sqrt_square (1 / 10)) by lra; apply sqrt_le_1; lra).
    apply (Rmult_le_reg_r y); [lra|]. replace (1 / y * y)%R with 1%R by (field; lra). nra. }
  assert (F2 : bound_on W (ratio 4 4 (-1)) (25#28) 1).
  { apply (bound_weaker W (fun x => Rmax (ratio 3 10 (-7) x) (ratio 4 4 (-1) x))); [exact B|apply (bound_sub W _ (3#4) 1); [exact Hb2|qdec|qdec]|]. real_range. apply rmax_le; [apply ratio_le; lra|lra]. }
  assert (F3 : bound_on W (ratio 3 10 (-7)) (3#4) (25#28)).
  { apply (bound_weaker W (fun x => Rmax (ratio 3 10 (-7) x) (ratio 4 4 (-1) x))); [exact B|apply (bound_sub W _ (3#4) 1); [exact Hb2|qdec|qdec]|]. real_range. apply rmax_le; [lra|apply ratio_le; lra]. }
  assert (F4 : bound_on W (ratio 24 30 (-11)) (155#174) 1).
  { apply (bound_join W _ _ (17#18)); [exact Je|]. apply (bound_weaker W (ratio 4 30 (-25))); [exact B|apply (bound_sub W _ (15#16) 1); [exact Ba|qdec|qdec]|]. real_range. apply ratio_le; lra. }
  assert (F5 : bound_on W (selberg (1 / 2)) (1#2) 1) by (apply bound_selberg; auto; lra).
  assert (F6 : bound_on W (selberg (4 / 7)) (1#2) 1) by (apply bound_selberg; auto; lra).
  assert (F7 : bound_on W (ratio 2 7 (-5)) (17#19) 1).
  { apply (bound_join W _ _ (15#16)); [exact Bb|]. apply (bound_weaker W (ratio 4 30 (-25))); [exact B|exact Ba|]. real_range. apply ratio_le; lra. }
  assert (F8 : bound_on W (fun _ => 2%R) (25#32) 1).
  { apply (bound_join W _ _ (4#5)); [|exact H75]. apply (bound_weaker W (fun x => Rmax (ratio 2 9 (-6) x) (ratio 9 16 (-8) x))); [exact B|apply (bound_sub W _ (17#22) (4#5)); [exact Bi|qdec|qdec]|]. real_range.
    assert (E2 : ratio 2 0 1 x = 2%R) by (unfold ratio; field). apply rmax_le; (eapply Rle_trans; [|right; exact E2]); apply ratio_le; lra. }
  unfold rows. cbn [app]. do 29 (apply Forall_cons; [old_row|]). apply Forall_app. split.
  { apply Forall_map, Forall_forall. intros k Ik. apply plain_row, pub_ivic; [exact P|]. apply in_map_iff in Ik. destruct Ik as (n & <- & Ik). apply in_seq in Ik. lia. }
  do 7 (apply Forall_cons; [old_row|]). apply Forall_cons; [now apply pintz_4|]. apply Forall_cons; [now apply pintz_5|]. apply Forall_cons; [now apply pintz_5|]. apply Forall_app. split.
  { apply Forall_map, Forall_forall. intros k Ik. apply (pintz_rows_true W get k B Pi). apply in_map_iff in Ik. destruct Ik as (n & <- & Ik). apply in_seq in Ik. lia. }
  do 2 (apply Forall_cons; [old_row|]). constructor.
Qed.
Print Assumptions zd_table_follows.

(** ** What does not follow *)
Lemma q_below : forall s s0, s <= s0 -> (Q2R s <= Q2R s0)%R.
Proof. intros. now apply Qle_Rle. Qed.
Lemma q_real_range : forall s, 1#2 < s -> s < 1 -> (1 / 2 < Q2R s < 1)%R.
Proof. intros s S1 S2. apply Qlt_Rlt in S1, S2. unfold Q2R in S1 at 1. unfold Q2R in S2 at 2. cbn in *. lra. Qed.
Lemma step_basic : forall s0 c, 1#2 < s0 -> s0 < 1 -> (0 <= c <= 1)%R -> zd_basic (step_world s0 c).
Proof.
  intros s0 c A0 B0 C. constructor; cbn [zd step_world].
  - intros s v w L (V & H). split; [lra|]. intro Le. specialize (H Le). destruct (Rle_lt_dec 0 (1 - Q2R s)) as [N|N]; [nra|]. exfalso. apply Qle_Rle in Le. apply Qlt_Rlt in B0. unfold Q2R in B0 at 2. cbn in B0. lra.
  - intros s v H. split.
    + apply Rnot_lt_le. intro N. destruct (H (v / 2)%R) as (X & _); lra.
    + intro Le. assert (S : (0 < 1 - Q2R s)%R) by (apply Qle_Rle in Le; apply Qlt_Rlt in B0; unfold Q2R in B0 at 2; cbn in B0; lra).
      apply Rnot_lt_le. intro N. set (w := ((v + c / (1 - Q2R s)) / 2)%R). assert (E : (c / (1 - Q2R s) * (1 - Q2R s) = c)%R) by (field; lra). assert (Vw : (v < w)%R).
      { unfold w. assert (v < c / (1 - Q2R s))%R by (apply (Rmult_lt_reg_r (1 - Q2R s)); lra). lra. }
      destruct (H w Vw) as (_ & X). specialize (X Le). unfold w in X. nra.
  - intros s s' v S1 L S2 (V & H). pose proof (q_below _ _ L). pose proof (q_real_range s' ltac:(Lqa.lra) S2). split.
    + apply Rmult_le_pos; [apply Rmult_le_pos; lra|left; apply Rinv_0_lt_compat; lra].
    + intro Le. replace (v * (1 - Q2R s) / (1 - Q2R s') * (1 - Q2R s'))%R with (v * (1 - Q2R s))%R by (field; lra). apply H. Lqa.lra.
  - intros s v w S1 S2 (V & H) Vw. pose proof (q_real_range s S1 S2). destruct (Qlt_le_dec s0 s) as [N|N].
    + exists ((s0 + s) * (1#2)). split; [Lqa.lra|]. split; [Lqa.lra|]. pose proof (q_real_range ((s0 + s) * (1#2)) ltac:(Lqa.lra) ltac:(Lqa.lra)). split; [|intro; exfalso; Lqa.lra].
      apply Rmult_le_pos; [apply Rmult_le_pos; lra|left; apply Rinv_0_lt_compat; lra].
    + exists (((1#2) + s) * (1#2)). split; [Lqa.lra|]. split; [Lqa.lra|]. pose proof (q_real_range (((1#2) + s) * (1#2)) ltac:(Lqa.lra) ltac:(Lqa.lra)). split; [apply Rmult_le_pos; [apply Rmult_le_pos; lra|left; apply Rinv_0_lt_compat; lra]|].
      intros _. set (y := Q2R (((1#2) + s) * (1#2))) in *. replace (w * (1 - Q2R s) / (1 - y) * (1 - y))%R with (w * (1 - Q2R s))%R by (field; lra). specialize (H N). nra.
  - intros s S1 S2 _ _. pose proof (q_real_range s S1 S2). cbn [zd step_world]. split; [left; apply Rdiv_lt_0_compat; lra|]. intros _. replace (1 / (1 - Q2R s) * (1 - Q2R s))%R with 1%R by (field; lra). lra.
  - exact (best_world_pairs 0 1 ltac:(unfold Spec_ExponentPair.triangle; Lqa.lra)).
Qed.
(** A bound holds in such a world if it is not below it up to the step. *)
Lemma step_bound : forall s0 c f a b, (forall x, (1 / 2 < x < 1)%R -> (Q2R a <= x <= Q2R b)%R -> (0 <= f x)%R /\ ((x <= Q2R s0)%R -> (c <= f x * (1 - x))%R)) -> bound_on (step_world s0 c) f a b.
Proof. intros s0 c f a b F s S1 S2 A B. destruct (F (Q2R s) (q_real_range s S1 S2) (q_real s a b A B)) as (P & Q). split; [exact P|]. intro L. apply Q. now apply Qle_Rle. Qed.
Lemma step_ratio : forall c n p q x, (0 <= n)%R -> (0 < p * x + q)%R -> (c * (p * x + q) <= n * (1 - x))%R -> (0 <= ratio n p q x)%R /\ (c <= ratio n p q x * (1 - x))%R.
Proof.
  intros c n p q x N D L. unfold ratio. split; [apply Rmult_le_pos; [exact N|left; now apply Rinv_0_lt_compat]|]. apply (Rmult_le_reg_r (p * x + q)); auto.
  replace (n / (p * x + q) * (1 - x) * (p * x + q))%R with (n * (1 - x))%R by (field; lra). exact L.
Qed.
Lemma ratio_pos : forall n p q x, (0 <= n)%R -> (0 < p * x + q)%R -> (0 <= ratio n p q x)%R.
Proof. intros. unfold ratio. apply Rmult_le_pos; [auto|left; now apply Rinv_0_lt_compat]. Qed.
Ltac ratio_step := apply step_bound; let x := fresh "x" in let X := fresh "X" in let Y := fresh "Y" in intros x X Y; unfold Q2R in Y; cbn [Qnum Qden] in Y;
  split; [apply ratio_pos; lra|let Z := fresh "Z" in intro Z; unfold Q2R in Z; cbn [Qnum Qden] in Z; apply step_ratio; lra].
Ltac const_step := apply step_bound; let x := fresh "x" in let X := fresh "X" in let Y := fresh "Y" in intros x X Y; unfold Q2R in Y; cbn [Qnum Qden] in Y;
  split; [lra|let Z := fresh "Z" in intro Z; unfold Q2R in Z; cbn [Qnum Qden] in Z; nra].
Lemma ivic_world : published_1980 (step_world (19#20) (2 / 29)).
Proof.
  constructor.
  - apply step_basic; [Lqa.lra|Lqa.lra|lra].
  - apply step_bound. intros x X Y. split; [lra|]. intro Z. unfold Q2R in Z; cbn in Z. nra.
  - ratio_step.
  - split; [const_step|]. apply step_bound. intros x X Y. split; [unfold root; apply Rmult_le_pos; [lra|apply sqrt_pos]|]. intro Z. unfold Q2R in Y, Z. cbn in Y, Z. lra.
  - ratio_step.
  - ratio_step.
  - split; [ratio_step|]. split; [ratio_step|const_step].
  - const_step.
  - const_step.
  - split; [ratio_step|]. apply step_bound. intros x X Y. unfold Q2R in Y; cbn [Qnum Qden] in Y. destruct (step_ratio (if Rle_dec x (19 / 20) then 2 / 29 else 0)%R 4 4 (-1) x) as (R1 & R2); [lra|lra|destruct (Rle_dec _ _); lra|].
    pose proof (Rmax_r (ratio 3 10 (-7) x) (ratio 4 4 (-1) x)) as M. split; [lra|]. intro Z. unfold Q2R in Z; cbn in Z. destruct (Rle_dec x (19 / 20)); [nra|lra].
  - repeat (split; [ratio_step|]). ratio_step.
  - repeat (split; [ratio_step|]). ratio_step.
Qed.
(** Ivic's bound 24 / (30 s - 11), which was published up to 17/18, is recorded up to 1,
    where it does not follow from what was published by then. *)
Theorem ivic_1980_refuted : forall get, exists W r, published_1980 W /\ In r (rows get) /\ r_source r = ref_make (s_of "Ivic") 1980 /\ ~ row_true W r.
Proof.
  intro get. exists (step_world (19#20) (2 / 29)), (mkRow (ratio 24 30 (-11)) (155#174) 1 false false (ref_make (s_of "Ivic") 1980)).
  split; [exact ivic_world|]. split; [unfold rows; do 24 (apply in_cons); now left|]. split; [reflexivity|]. intro T.
  destruct (T (19#20)) as (_ & H); [Lqa.lra|Lqa.lra|unfold in_row; cbn [r_lo r_hi r_end]; unfold Q2R; cbn; lra|discriminate|].
  specialize (H ltac:(Lqa.lra)). cbn [r_value] in H. unfold ratio, Q2R in H. cbn [Qnum Qden] in H. lra.
Qed.
Print Assumptions ivic_1980_refuted.

Section Step.
Variables (s0 : Q) (c : R).
Let x0 := Q2R s0.
Hypothesis S0 : 23#24 <= s0.
Hypothesis S1 : s0 < 1.
Hypothesis C0 : (0 <= c)%R.
Hypothesis C1 : (c * (30 * x0 - 25) <= 4 * (1 - x0))%R.
Hypothesis C2 : (c * c <= 41 * ((1 - x0) * (1 - x0) * (1 - x0)))%R.
Lemma x0_range : (23 / 24 <= x0 < 1)%R.
Proof. unfold x0. apply Qle_Rle in S0. apply Qlt_Rlt in S1. unfold Q2R in S0 at 1. unfold Q2R in S1 at 2. cbn in *. lra. Qed.
Lemma c_small : (c <= 16 / 15 * (1 - x0))%R /\ (c <= 2 / 45)%R.
Proof. pose proof x0_range. assert (c * (15 / 4) <= 4 * (1 - x0))%R by nra. lra. Qed.
Lemma step_far : forall n p q x, (0 <= p)%R -> (0 < p * x + q)%R -> (0 <= n)%R -> (x <= x0)%R -> (4 * (p * x0 + q) <= n * (30 * x0 - 25))%R -> (c * (p * x + q) <= n * (1 - x))%R.
Proof.
  intros n p q x P D N X H. pose proof x0_range. assert (D0 : (p * x + q <= p * x0 + q)%R) by nra. assert (A : (c * (p * x + q) <= c * (p * x0 + q))%R) by nra.
  assert (B : (c * (p * x0 + q) <= n * (1 - x0))%R).
  { apply (Rmult_le_reg_r (30 * x0 - 25)); [lra|]. assert (c * (30 * x0 - 25) * (p * x0 + q) <= 4 * (1 - x0) * (p * x0 + q))%R by (apply Rmult_le_compat_r; lra).
    assert (4 * (p * x0 + q) * (1 - x0) <= n * (30 * x0 - 25) * (1 - x0))%R by (apply Rmult_le_compat_r; lra). lra. }
  assert (n * (1 - x0) <= n * (1 - x))%R by (apply Rmult_le_compat_l; lra). lra.
Qed.
Lemma step_near : forall n p q x, (0 < p * x + q)%R -> (2 / 45 * (p * x + q) <= n * (1 - x))%R -> (c * (p * x + q) <= n * (1 - x))%R.
Proof. intros n p q x D H. destruct c_small as (_ & K). assert (c * (p * x + q) <= 2 / 45 * (p * x + q))%R by (apply Rmult_le_compat_r; lra). lra. Qed.
Ltac far_step := pose proof x0_range; apply step_bound; let x := fresh "x" in let X := fresh "X" in let Y := fresh "Y" in intros x X Y; unfold Q2R in Y; cbn [Qnum Qden] in Y;
  split; [apply ratio_pos; lra|let Z := fresh "Z" in intro Z; fold x0 in Z; apply step_ratio; [lra|lra|first [apply step_far; lra|apply step_near; lra]]].
Ltac two_step := pose proof x0_range; pose proof c_small; apply step_bound; let x := fresh "x" in let X := fresh "X" in let Y := fresh "Y" in intros x X Y; unfold Q2R in Y; cbn [Qnum Qden] in Y;
  split; [lra|let Z := fresh "Z" in intro Z; fold x0 in Z; lra].
Lemma step_max : forall f n p q a b, (forall x, (1 / 2 < x < 1)%R -> (Q2R a <= x <= Q2R b)%R -> (0 <= ratio n p q x)%R /\ ((x <= x0)%R -> (c <= ratio n p q x * (1 - x))%R)) ->
  bound_on (step_world s0 c) (fun x => Rmax (f x) (ratio n p q x)) a b.
Proof.
  intros f n p q a b H. apply step_bound. intros x X Y. destruct (H x X Y) as (P & Q). pose proof (Rmax_r (f x) (ratio n p q x)). split; [lra|]. intro Z. fold x0 in Z. specialize (Q Z). nra.
Qed.
Lemma step_root : forall d a b, (642 / 100 <= d)%R -> bound_on (step_world s0 c) (root d) a b.
Proof.
  intros d a b D. apply step_bound. intros x X Y. unfold root. pose proof (sqrt_pos (1 - x)) as P. split; [nra|]. intro Z. fold x0 in Z. pose proof x0_range. pose proof (sqrt_sqrt (1 - x) ltac:(lra)) as Q. set (r := sqrt (1 - x)) in *. set (y := (1 - x)%R) in *. set (y0 := (1 - x0)%R) in *.
  assert (L : (c <= 642 / 100 * r * y)%R); [|assert (0 <= r * y)%R by (apply Rmult_le_pos; unfold y; lra); nra]. assert (Y0 : (0 < y0 <= y)%R) by (unfold y0, y; lra).
  assert (C : (y0 * y0 * y0 <= y * y * y)%R) by (apply Rmult_le_compat; [nra|lra|apply Rmult_le_compat; lra|lra]).
  apply Rnot_lt_le. intro N. set (u := (642 / 100 * r * y)%R) in *. assert (U : (0 <= u)%R) by (unfold u; apply Rmult_le_pos; nra). assert (S : (u * u < c * c)%R) by nra.
  assert (E : (u * u = 642 / 100 * (642 / 100) * (y * y * y))%R) by (unfold u; transitivity (642 / 100 * (642 / 100) * (r * r) * (y * y))%R; [ring|rewrite Q; ring]). assert (0 < y * y * y)%R by nra. lra.
Qed.
Lemma step_selberg : forall t, (0 < t < 4 / 7)%R -> bound_on (step_world s0 c) (selberg t) (1#2) 1.
Proof.
  intros t T. apply step_bound. intros x X Y. destruct c_small as (_ & K). unfold selberg. assert (A : (3 / 7 <= 1 - t * (2 * x - 1))%R) by nra. split; [left; apply Rdiv_lt_0_compat; lra|]. intros _.
  replace ((1 - t * (2 * x - 1)) / (1 - x) * (1 - x))%R with (1 - t * (2 * x - 1))%R by (field; lra). lra.
Qed.
Lemma step_ivic : ivic_theorem (step_world s0 c).
Proof.
  intros m k l s M _ A B _. pose proof (q_real_range s A B) as X. cbn [zd step_world]. set (x := Q2R s) in *. unfold ivic_value. rewrite !minus_IZR, !mult_IZR. apply IZR_le in M. set (y := IZR m) in *.
  assert (D : (0 < (3 * y - 2) * x + (2 - y))%R) by nra. split; [left; apply Rdiv_lt_0_compat; lra|]. intro L. apply Qle_Rle in L. fold x x0 in L. destruct c_small as (K & _). pose proof x0_range.
  apply (Rmult_le_reg_r ((3 * y - 2) * x + (2 - y))); auto. replace (3 * y / ((3 * y - 2) * x + (2 - y)) * (1 - x) * ((3 * y - 2) * x + (2 - y)))%R with (3 * y * (1 - x))%R by (field; lra).
  assert (E : ((3 * y - 2) * x + (2 - y) <= 2 * y)%R) by nra. assert (c * ((3 * y - 2) * x + (2 - y)) <= c * (2 * y))%R by (apply Rmult_le_compat_l; lra).
  assert (c * (2 * y) <= 16 / 15 * (1 - x) * (2 * y))%R by (apply Rmult_le_compat_r; lra). nra.
Qed.
Hypothesis CP : forall k l x, (4 <= k)%Z -> (3 <= l)%Z -> (1 / 2 < x <= x0)%R ->
  (IZR k * (IZR k - 1) * (1 - x) < 1 <= IZR k * (IZR k + 1) * (1 - x))%R -> (2 * IZR l * (IZR l - 1) * (1 - x) < 1 <= 2 * IZR l * (IZR l + 1) * (1 - x))%R ->
  (c <= pintz_first l x * (1 - x) \/ c <= pintz_second k x * (1 - x))%R.
Lemma step_pintz : pintz_theorem (step_world s0 c).
Proof.
  intros k l s K L A B H1 H2 H3 H4. pose proof (q_real_range s A B) as X. cbn [zd step_world]. set (x := Q2R s) in *.
  assert (Y1 : 1 <= inject_Z (k * (k + 1)) * (1 - s)) by (refine (proj1 (below _ s _ B) _); [clear - K; nia|clear - H1; Lqa.lra]). assert (Y2 : inject_Z (k * (k - 1)) * (1 - s) < 1) by (refine (proj1 (above _ s _ B) _); [clear - K; nia|clear - H2; Lqa.lra]).
  assert (Y3 : 1 <= inject_Z (2 * l * (l + 1)) * (1 - s)) by (refine (proj1 (below _ s _ B) _); [clear - L; nia|clear - H3; Lqa.lra]). assert (Y4 : inject_Z (2 * l * (l - 1)) * (1 - s) < 1) by (refine (proj1 (above _ s _ B) _); [clear - L; nia|clear - H4; Lqa.lra]).
  apply q_times_le in Y1, Y3. apply q_times in Y2, Y4. fold x in Y1, Y2, Y3, Y4. rewrite !mult_IZR, plus_IZR in Y1. rewrite !mult_IZR, minus_IZR in Y2. rewrite !mult_IZR, plus_IZR in Y3. rewrite !mult_IZR, minus_IZR in Y4.
  pose proof (IZR_le _ _ K) as K'. pose proof (IZR_le _ _ L) as L'.
  assert (P1 : (0 <= pintz_first l x)%R).
  { assert (W0 : (0 <= (IZR l - 1) * (1 - x))%R) by (apply Rmult_le_pos; lra). assert (W1 : (2 * ((IZR l - 1) * (1 - x)) < 1)%R) by (clear - Y4 W0 L'; nra).
    unfold pintz_first; left; apply Rdiv_lt_0_compat; [lra|]; apply Rmult_lt_0_compat; lra. }
  pose proof (Rmax_l (pintz_first l x) (pintz_second k x)) as M1. pose proof (Rmax_r (pintz_first l x) (pintz_second k x)) as M2. split; [lra|]. intro Le. apply Qle_Rle in Le. fold x x0 in Le.
  destruct (CP k l x K L ltac:(lra) ltac:(lra) ltac:(lra)) as [C|C]; nra.
Qed.
Lemma step_published : published (step_world s0 c).
Proof.
  pose proof c_small as (K1 & K2). pose proof x0_range as X0.
  assert (Nine : bound_on (step_world s0 c) (ratio 9 7 (-1)) (41#53) 1) by far_step.
  assert (Three : bound_on (step_world s0 c) (ratio 3 2 0) (3#4) 1) by far_step.
  assert (Six : bound_on (step_world s0 c) (ratio 6 5 (-1)) (3#4) 1) by far_step.
  assert (Two : bound_on (step_world s0 c) (fun _ => 2%R) (3#4) 1) by two_step.
  constructor.
  - constructor.
    + apply step_basic; auto; [eapply Qlt_le_trans; [|exact S0]; Lqa.lra|lra].
    + apply step_bound. intros x X Y. split; [lra|]. intro Z. fold x0 in Z. nra.
    + apply step_bound. intros x X Y. split; [apply ratio_pos; lra|]. intro Z. fold x0 in Z. apply step_ratio; [lra|lra|]. nra.
    + split; [|apply step_root; lra]. apply step_bound. intros x X Y. unfold Q2R in Y; cbn [Qnum Qden] in Y. split; [lra|]. intro Z. fold x0 in Z. assert (c * (105 / 100 * 4) <= 4 * (1 - x0))%R by nra. lra.
    + far_step.
    + far_step.
    + split; [apply (bound_sub _ _ _ _ _ _ Three); qdec|]. split; [far_step|apply (bound_sub _ _ _ _ _ _ Two); qdec].
    + apply (bound_sub _ _ _ _ _ _ Two); qdec.
    + apply (bound_sub _ _ _ _ _ _ Two); qdec.
    + split; [apply (bound_sub _ _ _ _ _ _ Nine); qdec|]. apply step_max. intros x X Y. unfold Q2R in Y; cbn [Qnum Qden] in Y. split; [apply ratio_pos; lra|]. intro Z. apply step_ratio; [lra|lra|]. apply step_far; lra.
    + split; [apply (bound_sub _ _ _ _ _ _ Six); qdec|]. split; [far_step|]. split; [apply (bound_sub _ _ _ _ _ _ Nine); qdec|]. split; [apply (bound_sub _ _ _ _ _ _ Three); qdec|far_step].
    + split; [apply (bound_sub _ _ _ _ _ _ Three); qdec|]. split; [exact Nine|]. split; [apply (bound_sub _ _ _ _ _ _ Six); qdec|]. split; far_step.
  - intros t T. apply step_selberg. lra.
  - split; [far_step|]. split; far_step.
  - exact step_ivic.
  - intros t T. apply step_selberg. lra.
  - split; far_step.
  - intros s A B. apply Two; auto; Lqa.lra.
  - apply step_max. intros x X Y. unfold Q2R in Y; cbn [Qnum Qden] in Y. split; [apply ratio_pos; lra|]. intro Z. apply step_ratio; [lra|lra|]. apply step_near; lra.
  - apply step_root. lra.
  - apply (bound_sub _ _ _ _ _ _ Three); qdec.
  - apply step_root. lra.
  - exact step_pintz.
  - far_step.
  - far_step.
Qed.
End Step.

(** The left ends of the rows from Pintz's theorem. *)
Lemma first_type : forall L c k l x, (4 <= L)%Z -> (0 <= c)%R -> (c * (2 * (IZR L - 1) * ((IZR L - 1) * (IZR L - 1) + 1)) <= 3)%R -> (1 <= 2 * IZR L * (IZR L - 1) * (1 - x))%R -> (3 <= l)%Z -> (x < 1)%R ->
  (2 * IZR l * (IZR l - 1) * (1 - x) < 1 <= 2 * IZR l * (IZR l + 1) * (1 - x))%R -> (c <= pintz_first l x * (1 - x) \/ c <= pintz_second k x * (1 - x))%R.
Proof.
  intros L c k l x HL C0 C Lx Hl X (A & B). left. assert (E : (0 < 1 - x)%R) by lra. unfold pintz_first. set (e := (1 - x)%R) in *.
  assert (Z1 : (l <= L - 1)%Z).
  { assert (l * (l - 1) < L * (L - 1))%Z by (apply lt_IZR; rewrite !mult_IZR, !minus_IZR; apply (Rmult_lt_reg_r e); auto; lra). nia. }
  apply IZR_le in Z1, Hl, HL. rewrite minus_IZR in Z1. set (a := IZR l) in *. set (b := IZR L) in *. assert (D : (0 < 1 - 2 * (a - 1) * e)%R) by (assert (0 <= (a - 1) * e)%R by nra; nra).
  set (d := (a * (1 - 2 * (a - 1) * e))%R). assert (Dd : (0 < d)%R) by (unfold d; apply Rmult_lt_0_compat; lra).
  assert (U : (d <= 2 * a * (a * a + 1) * e)%R) by (unfold d; nra). assert (M : (2 * a * (a * a + 1) <= 2 * (b - 1) * ((b - 1) * (b - 1) + 1))%R) by (apply Rmult_le_compat; nra).
  apply (Rmult_le_reg_r d); auto. replace (3 / d * e * d)%R with (3 * e)%R by (field; lra).
  assert (c * d <= c * (2 * a * (a * a + 1) * e))%R by (apply Rmult_le_compat_l; lra). assert (c * (2 * a * (a * a + 1)) <= 3)%R by (eapply Rle_trans; [apply Rmult_le_compat_l; [exact C0|exact M]|exact C]). nra.
Qed.
Lemma second_type : forall c k l x, (0 <= c)%R -> (c * 222 <= 4)%R -> (1 <= 42 * (1 - x))%R -> (4 <= k)%Z -> (x < 1)%R ->
  (IZR k * (IZR k - 1) * (1 - x) < 1 <= IZR k * (IZR k + 1) * (1 - x))%R -> (c <= pintz_first l x * (1 - x) \/ c <= pintz_second k x * (1 - x))%R.
Proof.
  intros c k l x C0 C Lx Hk X (A & B). right. assert (E : (0 < 1 - x)%R) by lra. unfold pintz_second. set (e := (1 - x)%R) in *.
  assert (Z1 : (k <= 6)%Z) by (apply (small_k k e 6); auto; try lia; change (IZR ((6 + 1) * 6)) with 42%R; lra).
  apply IZR_le in Z1, Hk. set (a := IZR k) in *. assert (D : (0 < 1 - (a - 1) * e)%R) by (assert (0 <= (a - 1) * e)%R by nra; nra).
  set (d := (a * (1 - (a - 1) * e))%R). assert (Dd : (0 < d)%R) by (unfold d; apply Rmult_lt_0_compat; lra).
  assert (U : (d <= a * (a * a + 1) * e)%R) by (unfold d; nra). assert (M : (a * (a * a + 1) <= 222)%R) by (replace 222%R with (6 * 37)%R by lra; apply Rmult_le_compat; nra).
  apply (Rmult_le_reg_r d); auto. replace (4 / d * e * d)%R with (4 * e)%R by (field; lra).
  assert (c * d <= c * (a * (a * a + 1) * e))%R by (apply Rmult_le_compat_l; lra). assert (c * (a * (a * a + 1)) <= 4)%R by (eapply Rle_trans; [apply Rmult_le_compat_l; [exact C0|exact M]|lra]). nra.
Qed.
Definition left_open (r : row) : Prop := r_left r = true -> exists W, published W /\ 1#2 < r_lo r /\ r_lo r < 1 /\ ~ zd W (r_lo r) (r_value r (Q2R (r_lo r))).
Ltac qr := unfold Q2R; cbn [Qnum Qden].
Lemma left_fixed : forall src, left_open (mkRow (ratio 3 24 (-20)) (23#24) (39#40) true false src) /\ left_open (mkRow (ratio 2 15 (-12)) (39#40) (41#42) true false src) /\ left_open (mkRow (ratio 3 40 (-35)) (41#42) (59#60) true false src).
Proof.
  intro src. unfold left_open. cbn [r_left r_lo r_value]. repeat split; intros _.
  - exists (step_world (23#24) (2 / 45)). split; [|split; [Lqa.lra|]; split; [Lqa.lra|]; intros (_ & H); specialize (H (Qle_refl _)); revert H; unfold ratio; qr; lra].
    apply step_published; [qdec|reflexivity|lra|qr; lra|qr; lra|]. intros k l x K L X Hk Hl. apply (first_type 4); auto; try lia; try lra; revert X; qr; lra.
  - exists (step_world (39#40) (3 / 136)). split; [|split; [Lqa.lra|]; split; [Lqa.lra|]; intros (_ & H); specialize (H (Qle_refl _)); revert H; unfold ratio; qr; lra].
    apply step_published; [qdec|reflexivity|lra|qr; lra|qr; lra|]. intros k l x K L X Hk Hl. apply (first_type 5); auto; try lia; try lra; revert X; qr; lra.
  - exists (step_world (41#42) (4 / 222)). split; [|split; [Lqa.lra|]; split; [Lqa.lra|]; intros (_ & H); specialize (H (Qle_refl _)); revert H; unfold ratio; qr; lra].
    apply step_published; [qdec|reflexivity|lra|qr; lra|qr; lra|]. intros k l x K L X Hk Hl. apply second_type; auto; try lra; revert X; qr; lra.
Qed.
Lemma left_loop : forall get L, (6 <= L)%Z -> left_open (pintz_row get L).
Proof.
  intros get L HL _. cbn [pintz_row r_lo r_value]. set (s0 := 1 - 1 / inject_Z (2 * L * (L - 1))). assert (D : (60 <= 2 * L * (L - 1))%Z) by nia.
  assert (P : 0 < inject_Z (2 * L * (L - 1))) by (apply inject_pos; lia). assert (B1 : 1 / inject_Z (2 * L * (L - 1)) <= 1#60).
  { apply Qle_shift_div_r; auto. rewrite Zle_Qle in D. change (inject_Z 60) with 60 in D. Lqa.lra. }
  assert (B0 : 0 < 1 / inject_Z (2 * L * (L - 1))) by (apply Qlt_shift_div_l; auto; Lqa.lra).
  assert (E : (1 - Q2R s0 = 1 / (2 * IZR L * (IZR L - 1)))%R).
  { unfold s0. rewrite Q2R_minus, Q2R_div by (intro E; rewrite E in P; Lqa.lra). replace (Q2R (inject_Z (2 * L * (L - 1)))) with (2 * IZR L * (IZR L - 1))%R by (unfold Q2R, inject_Z; cbn [Qnum Qden]; rewrite !mult_IZR, minus_IZR; lra). replace (Q2R 1) with 1%R by (unfold Q2R; cbn; lra). lra. }
  apply IZR_le in HL as HR. set (b := IZR L) in *. set (m := (2 * (b - 1) * ((b - 1) * (b - 1) + 1))%R). assert (M : (0 < m)%R) by (unfold m; apply Rmult_lt_0_compat; nra). assert (N : (0 < 2 * b * (b - 1))%R) by nra.
  set (e0 := (1 / (2 * b * (b - 1)))%R) in *. assert (E0 : (0 < e0)%R) by (unfold e0; apply Rdiv_lt_0_compat; lra). assert (EN : (2 * b * (b - 1) * e0 = 1)%R) by (unfold e0; field; nra).
  set (c := (3 / m)%R). assert (C : (c * m = 3)%R) by (unfold c; field; lra). assert (C0 : (0 < c)%R) by (unfold c; apply Rdiv_lt_0_compat; lra).
  exists (step_world s0 c). split; [|split; [unfold s0; Lqa.lra|]; split; [unfold s0; Lqa.lra|]].
  - apply step_published; [unfold s0; Lqa.lra|unfold s0; Lqa.lra|lra|..].
    + replace (Q2R s0) with (1 - e0)%R by lra. apply (Rmult_le_reg_r (m * (2 * b * (b - 1)))); [nra|].
      replace (c * (30 * (1 - e0) - 25) * (m * (2 * b * (b - 1))))%R with (c * m * (5 * (2 * b * (b - 1)) - 30 * (2 * b * (b - 1) * e0)))%R by ring. rewrite C, EN.
      replace (4 * (1 - (1 - e0)) * (m * (2 * b * (b - 1))))%R with (4 * m * (2 * b * (b - 1) * e0))%R by ring. rewrite EN. unfold m. nra.
    + rewrite E. apply (Rmult_le_reg_r (m * m * ((2 * b * (b - 1)) * (2 * b * (b - 1)) * (2 * b * (b - 1))))); [apply Rmult_lt_0_compat; [nra|]; apply Rmult_lt_0_compat; nra|].
      set (n := (2 * b * (b - 1))%R) in *. replace (c * c * (m * m * (n * n * n)))%R with ((c * m) * (c * m) * (n * n * n))%R by ring. replace (41 * (e0 * e0 * e0) * (m * m * (n * n * n)))%R with (41 * (m * m) * ((n * e0) * (n * e0) * (n * e0)))%R by ring.
      rewrite C, EN. assert (Q1 : (m = 2 * (b - 1) * (b * b - 2 * b + 2))%R) by (unfold m; ring). assert (Q2 : (n = 2 * b * (b - 1))%R) by reflexivity. clearbody n m. subst n m.
      replace (3 * 3 * (2 * b * (b - 1) * (2 * b * (b - 1)) * (2 * b * (b - 1))))%R with (4 * ((b - 1) * (b - 1)) * (18 * (b * b * b) * (b - 1)))%R by ring.
      replace (41 * (2 * (b - 1) * (b * b - 2 * b + 2) * (2 * (b - 1) * (b * b - 2 * b + 2))) * (1 * 1 * 1))%R with (4 * ((b - 1) * (b - 1)) * (41 * ((b * b - 2 * b + 2) * (b * b - 2 * b + 2))))%R by ring.
      apply Rmult_le_compat_l; [nra|]. set (t := (b - 6)%R). assert (T : (0 <= t)%R) by (unfold t; lra). replace b with (t + 6)%R by (unfold t; ring).
      apply Rminus_le. ring_simplify. assert (0 <= t ^ 2)%R by nra. assert (0 <= t ^ 3)%R by (apply pow_le; lra). assert (0 <= t ^ 4)%R by (apply pow_le; lra). lra.
    + intros k l x K Hl X Hk Hll. assert (e0 <= 1 - x)%R by lra. apply (first_type L); auto; try lia; try lra; fold b; fold m; try lra. nra.
  - intros (_ & H). specialize (H (Qle_refl _)). unfold pintz_first in H. rewrite E in H. fold b in H. set (d := (b * (1 - 2 * (b - 1) * e0))%R) in *. assert (Dv : (d = b - 1)%R) by (unfold d; nra). rewrite Dv in H.
    assert (c * (m * (b - 1)) <= 3 / (b - 1) * e0 * (m * (b - 1)))%R by (apply Rmult_le_compat_r; [nra|exact H]). replace (3 / (b - 1) * e0 * (m * (b - 1)))%R with (3 * e0 * m)%R in H0 by (field; lra).
    replace (c * (m * (b - 1)))%R with (c * m * (b - 1))%R in H0 by ring. rewrite C in H0. assert (b * (b - 1) * 2 * (3 * (b - 1)) <= 3 * m)%R by nra. unfold m in *. nra.
Qed.
(** Every row from Pintz's theorem starts at a point at which the theorem gives less,
    and nothing else that was published helps. *)
Theorem pintz_left_ends_refuted : forall get r, In r (rows get) -> r_left r = true ->
  exists W, published W /\ 1#2 < r_lo r /\ r_lo r < 1 /\ ~ zd W (r_lo r) (r_value r (Q2R (r_lo r))).
Proof.
  intros get. assert (F : Forall left_open (rows get)); [|rewrite Forall_forall in F; intros r I; exact (F r I)].
  assert (O : forall f a b e src, left_open (mkRow f a b false e src)) by (intros f a b e src; discriminate).
  unfold rows. cbn [app]. do 29 (apply Forall_cons; [apply O|]). apply Forall_app. split; [apply Forall_map, Forall_forall; intros k _; apply O|].
  do 7 (apply Forall_cons; [apply O|]). do 3 (apply Forall_cons; [apply left_fixed|]). apply Forall_app. split; [|do 2 (apply Forall_cons; [apply O|]); constructor].
  apply Forall_map, Forall_forall. intros k Ik. apply (left_loop get k). apply in_map_iff in Ik. destruct Ik as (n & <- & Ik). apply in_seq in Ik. lia.
Qed.
Print Assumptions pintz_left_ends_refuted.

(** Each hypothesis added states what was published, and with the texts as the parser
    reads them. *)
Theorem zd_table_true : forall get W hs, published W -> exists hs', add_zero_densities get hs = hs ++ hs' /\
  forall h, In h hs' -> exists r t i, In r (rows get) /\ zn_ref h = r_source r /\ zero_density_estimates [h] = [(zn_name h, Zero_Density_Estimate t i, zn_proof h, zn_ref h)] /\
    forall s v, 1#2 < s -> s < 1 -> Spec_RationalFunction.inside i (Q2R s) -> (r_left r = true -> (lo i < Q2R s)%R) -> says t (Q2R s) v -> zd W s v.
Proof.
  intros get W hs P. destruct (zd_table_recorded get hs) as (hs' & E & F). exists hs'. split; [exact E|]. pose proof (zd_table_follows get W P) as T. clear E. revert T.
  induction F as [|h r l rs R F IH]; intros T h' I; [destruct I|]. inversion T; subst. destruct I as [<-|I].
  - destruct R as (name & t & i & proof & -> & L & H & Il & Ih & S). exists r, t, i. split; [now left|]. split; [reflexivity|]. split; [reflexivity|]. intros s v S1 S2 In Le Sv.
    assert (In' : in_row r (Q2R s)). { destruct In as (A & B). rewrite Il in A. rewrite Ih in B. rewrite L in A. rewrite H in B. split; [exact A|exact B]. }
    apply (S _ In') in Sv. subst v. match goal with X : row_true W r |- _ => apply X; auto end. intro O. specialize (Le O). rewrite L in Le. now apply Rlt_Qlt.
  - match goal with X : Forall (row_true W) rs |- _ => destruct (IH X h' I) as (r' & t & i & Ir & Rest) end. exists r', t, i. split; [now right|exact Rest].
Qed.
Print Assumptions zd_table_true.

(** ** The energy estimates *)
Lemma parse_at : forall t e f x v, text_formula t = Ret e -> parse_formula t = Ret f -> means e x v -> ~ has_pole f x /\ rfval f x = v.
Proof.
  intros t e f x v E Pf M. unfold text_formula in E. destruct (lex PNone t) as [ts|] eqn:L; [|discriminate]. assert (T : formula_text t e) by (exists ts; split; [exact (lex_sound t PNone ts [] eq_refl L)|now apply read_exact]).
  destruct (parse_only_formulas _ _ Pf) as (e' & T' & V). rewrite (formula_text_unique _ _ _ T' T) in V. now apply V.
Qed.
Lemma parse_some : forall t e x v, text_formula t = Ret e -> means e x v -> exists f, parse_formula t = Ret f.
Proof.
  intros t e x v E M. unfold text_formula in E. destruct (lex PNone t) as [ts|] eqn:L; [|discriminate]. assert (T : formula_text t e) by (exists ts; split; [exact (lex_sound t PNone ts [] eq_refl L)|now apply read_exact]).
  destruct (parse_reads t e T (ex_intro _ x (ex_intro _ v M))) as (f & Ef & _). eauto.
Qed.
Lemma energy_entry : forall tr btr W t (g : R -> R) a b r e, text_formula t = Ret e ->
  (forall x, (1 / 2 < x < 1)%R -> (Q2R a <= x <= Q2R b)%R -> means e x (g x)) -> (exists x, (1 / 2 < x < 1)%R /\ (Q2R a <= x <= Q2R b)%R) ->
  aholds parse_formula tr btr W (literature_zero_density_energy_estimate t (mkV (Q2R a) (Q2R b) true true) r []) <-> forall s, 1#2 < s -> s < 1 -> a <= s -> s <= b -> ze W s (g (Q2R s)).
Proof.
  intros tr btr W t g a b r e E M (x & X & Y). destruct (parse_some t e x _ E (M x X Y)) as (f & Pf). cbn [aholds literature_zero_density_energy_estimate Zero_Density_Estimate z_int]. split.
  - intros H s S1 S2 A B. specialize (H f). assert (Rd : reads parse_formula (Zero_Density_Estimate t (mkV (Q2R a) (Q2R b) true true)) f) by (right; split; [reflexivity|exact Pf]).
    destruct (parse_at t e f (Q2R s) _ E Pf (M (Q2R s) (q_real_range s S1 S2) (q_real s a b A B))) as (NP & V). rewrite <- V. apply (H Rd); auto. apply (q_real s a b A B).
  - intros H f' Rd s S1 S2 In _. destruct Rd as [Rd|(_ & Rd)]; [discriminate|]. cbn [Zero_Density_Estimate z_expr] in Rd. rewrite Pf in Rd. injection Rd as <-.
    destruct In as (A & B). cbn [lo hi ilo ihi] in A, B. destruct (parse_at t e f (Q2R s) _ E Pf (M (Q2R s) (q_real_range s S1 S2) (conj A B))) as (NP & V). rewrite V. apply H; auto; now apply Rle_Qle.
Qed.
Ltac energy_text g := match goal with |- aholds _ ?tr ?btr ?W (literature_zero_density_energy_estimate ?t _ _ _) <-> _ => let e := eval vm_compute in (text_formula t) in
  match e with Ret ?e0 => refine (energy_entry tr btr W t g _ _ _ e0 _ _ _); [vm_compute; reflexivity| |] end end.
Theorem energy_table_exact : forall get tr btr W, Forall (aholds parse_formula tr btr W) (add_zero_density_energy_heath_brown_1979 get) <-> heath_brown_energy W.
Proof.
  intros get tr btr W. unfold add_zero_density_energy_heath_brown_1979. set (ref := get _). clearbody ref.
  assert (A1 : aholds parse_formula tr btr W (literature_zero_density_energy_estimate (s_of "(10 - 11 * x) / ((2 - x) * (1 - x))") (mkV (Q2R (1#2)) (Q2R (2#3)) true true) ref []) <->
    forall s, 1#2 < s -> s < 1 -> 1#2 <= s -> s <= 2#3 -> ze W s ((fun x => (10 - 11 * x) / ((2 - x) * (1 - x))) (Q2R s))%R).
  { energy_text (fun x : R => (10 - 11 * x) / ((2 - x) * (1 - x)))%R; [|exists (6 / 10)%R; qr; lra]. intros x X Y. eapply means_eq; [repeat first [apply m_num | apply m_x | apply m_add | apply m_sub | apply m_mul | apply m_div]|]; q_values; [nra|reflexivity]. }
  assert (A2 : aholds parse_formula tr btr W (literature_zero_density_energy_estimate (s_of "(18 - 19 * x) / ((4 - 2 * x) * (1 - x))") (mkV (Q2R (2#3)) (Q2R (3#4)) true true) ref []) <->
    forall s, 1#2 < s -> s < 1 -> 2#3 <= s -> s <= 3#4 -> ze W s ((fun x => (18 - 19 * x) / ((4 - 2 * x) * (1 - x))) (Q2R s))%R).
  { energy_text (fun x : R => (18 - 19 * x) / ((4 - 2 * x) * (1 - x)))%R; [|exists (7 / 10)%R; qr; lra]. intros x X Y. eapply means_eq; [repeat first [apply m_num | apply m_x | apply m_add | apply m_sub | apply m_mul | apply m_div]|]; q_values; [nra|reflexivity]. }
  assert (A3 : aholds parse_formula tr btr W (literature_zero_density_energy_estimate (s_of "12 / (4 * x - 1)") (mkV (Q2R (3#4)) (Q2R 1) true true) ref []) <->
    forall s, 1#2 < s -> s < 1 -> 3#4 <= s -> s <= 1 -> ze W s ((fun x => 12 / (4 * x - 1)) (Q2R s))%R).
  { energy_text (fun x : R => 12 / (4 * x - 1))%R; [|exists (8 / 10)%R; qr; lra]. intros x X Y. eapply means_eq; [repeat first [apply m_num | apply m_x | apply m_add | apply m_sub | apply m_mul | apply m_div]|]; q_values; [lra|reflexivity]. }
  split.
  - intro F. inversion F as [|? ? F1 Fa]; subst. inversion Fa as [|? ? F2 Fb]; subst. inversion Fb as [|? ? F3 _]; subst. intros s S1 S2 x. split; [intro H; apply (proj1 A1 F1); auto using Qlt_le_weak|]. split; [intros H H'; now apply (proj1 A2 F2)|intro H; apply (proj1 A3 F3); auto using Qlt_le_weak].
  - intro H. repeat apply Forall_cons; [apply A1|apply A2|apply A3|constructor]; intros s S1 S2 L U; destruct (H s S1 S2) as (H1 & H2 & H3); auto.
Qed.
Print Assumptions energy_table_exact.

(** ** Examples *)
(** The published results are consistent with A being positive up to 41/42. *)
Example ex_published : exists W, published W /\ ~ zd W (3#4) 0.
Proof.
  assert (L : forall src, left_open (mkRow (ratio 3 40 (-35)) (41#42) (59#60) true false src)) by (intro src; apply left_fixed).
  exists (step_world (41#42) (4 / 222)). split; [|intros (_ & H); specialize (H ltac:(Lqa.lra)); lra].
  apply step_published; [qdec|reflexivity|lra|qr; lra|qr; lra|]. intros k l x K L' X Hk Hl. apply second_type; auto; try lra; revert X; qr; lra.
Qed.
(** The rows of the loops are among those recorded. *)
Example ex_rows : forall get, List.length (rows get) = 155%nat /\ exists r, In r (rows get) /\ r_value r = pintz_first 22 /\ r_lo r == 923#924 /\ r_hi r == 1011#1012.
Proof.
  intro get. split; [reflexivity|]. exists (pintz_row get 22). split; [|split; [reflexivity|split; vm_compute; reflexivity]].
  unfold rows. apply in_or_app. right. apply in_or_app. right. apply in_or_app. right. apply in_or_app. left. apply in_map_iff. exists 22%Z. split; [reflexivity|]. vm_compute. tauto.
Qed.
(** At 19/20 the text of Ivic's row stands for 48/35. *)
Example ex_says : says (s_of "24/(30 * x - 11)") (19 / 20) (48 / 35).
Proof.
  assert (H : forall v, says (s_of "24/(30 * x - 11)") (19 / 20) v <-> v = ratio 24 30 (-11) (19 / 20)) by fixed_text. apply H. unfold ratio. lra.
Qed.
