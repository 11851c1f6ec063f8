(** Proofs about additive energy. *)
From Coq Require Import Permutation.
From Verif Require Import Base Model_Text Model_Reference LinAlg FM_Ext Model_Polytope Spec_Polytope Proof_Polytope
  Proof_PolytopeMaps Proof_PolytopeLP Model_Region Spec_Region Proof_Region Proof_RegionSolid Model_ExponentPair Spec_ExponentPair
  Model_LargeValues Spec_LargeValues Proof_LargeValues Model_AdditiveEnergy Spec_AdditiveEnergy.
Open Scope list_scope.

Lemma derived_e_one : forall n d h, derived_e n d [h] = Ret (ENode n d (ref_derived (r_year (e_ref h))) [h]).
Proof. intros. unfold derived_e. cbn [map]. rewrite max_year_one. reflexivity. Qed.

Lemma derived_e_inv : forall n d deps h, derived_e n d deps = Ret h ->
  e_data h = d /\ e_deps h = deps /\ exists y, max_year (map e_ref deps) = Ret y /\ e_ref h = ref_derived y.
Proof.
  intros n d deps h H. unfold derived_e in H. destruct (max_year (map e_ref deps)) as [y|e] eqn:E; [|discriminate].
  cbn in H. injection H as <-. cbn. eauto.
Qed.

Lemma rowval6 : forall a b c d e f s t r u z,
  rowval [a; b; c; d; e; f] [s; t; r; u; z] == a + b * s + c * t + d * r + e * u + f * z.
Proof. intros. unfold rowval. cbn. lra. Qed.

Lemma len5 : forall x : list Q, List.length x = 5%nat -> exists s t r e z, x = [s; t; r; e; z].
Proof. intros [|s [|t [|r [|e [|z [|]]]]]] H; try discriminate. do 5 eexists. reflexivity. Qed.

Lemma len6 : forall x : list Q, List.length x = 6%nat -> exists a b c d e f, x = [a; b; c; d; e; f].
Proof. intros [|a [|b [|c [|d [|e [|f [|]]]]]]] H; try discriminate. do 6 eexists. reflexivity. Qed.

Lemma denote5 : forall R s t r e z s' t' r' e' z', s == s' -> t == t' -> r == r' -> e == e' -> z == z' ->
  denote R [s; t; r; e; z] -> denote R [s'; t'; r'; e'; z'].
Proof.
  intros R s t r e z s' t' r' e' z' A B C D F. apply denote_peq; [reflexivity|]. apply peq_Forall2; [reflexivity|].
  repeat (constructor; [assumption || (symmetry; assumption)|]). constructor.
Qed.

Lemma box5_iff : forall s t r e z, Forall (fun row => 0 <= rowval row [s; t; r; e; z]) default_constraints <-> in_range5 s t r e z.
Proof.
  intros s t r e z. unfold default_constraints, limits, unit_row, in_range5, in_range. cbn [flat_map combine seq List.length map fst snd Nat.eqb app].
  rewrite !Forall_cons_iff, !rowval6.
  split; [intros (A1 & A2 & A3 & A4 & A5 & A6 & A7 & A8 & A9 & A10 & _)|intros ((A1 & A2 & A3 & A4 & A5 & A6) & A7 & A8 & A9 & A10)]; repeat split; try lra; constructor.
Qed.

Lemma default_len : Forall (fun r => List.length r = 6%nat) default_constraints.
Proof. repeat constructor. Qed.

Lemma default_nz : exists r, In r default_constraints /\ ~ zero_row r.
Proof.
  exists (unit_row 5 0 1 (-1)). split; [right; left; reflexivity|]. intro Z. inversion Z; subst. lra.
Qed.

(** ** Scaling *)

Lemma scale5_iff : forall k R, sized 5 R -> ~ k == 0 ->
  exists q, rscale_all [1; k; k; k; k] R = Ret q /\ sized 5 q /\ (leaves (solid 5) R -> leaves (solid 5) q) /\
    forall s t r e z, denote q [s; t; r; e; z] <-> denote R [s; t / k; r / k; e / k; z / k].
Proof.
  intros k R HL K.
  assert (NZ : Forall (fun f => ~ f == 0) [1; k; k; k; k]) by (constructor; [lra|]; repeat (constructor; [exact K|]); constructor).
  destruct (rscale_sized 5 [1; k; k; k; k] R eq_refl NZ HL) as (q & Eq & Sq & Hq).
  exists q. split; [exact Eq|]. split; [exact Sq|]. split.
  { intro SR. destruct (rscale_solid 5 [1; k; k; k; k] R ltac:(lia) eq_refl SR NZ) as (q' & Eq' & Sq' & _). rewrite Eq in Eq'. injection Eq' as <-. exact Sq'. }
  intros s t r e z. rewrite Hq by reflexivity. split.
  - intros (x & (L & A) & D). apply len5 in L as (a & b & c & d & f & ->). cbn in A.
    inversion A as [|? ? ? ? A1 B]; subst. inversion B as [|? ? ? ? A2 B2]; subst. inversion B2 as [|? ? ? ? A3 B3]; subst.
    inversion B3 as [|? ? ? ? A4 B4]; subst. inversion B4 as [|? ? ? ? A5 _]; subst.
    revert D. apply denote5; [rewrite A1; ring|rewrite A2; field; auto|rewrite A3; field; auto|rewrite A4; field; auto|rewrite A5; field; auto].
  - intro D. exists [s; t / k; r / k; e / k; z / k]. split; [|exact D]. split; [reflexivity|]. cbn.
    constructor; [ring|]. repeat (constructor; [field; auto|]). constructor.
Qed.

Lemma scale5_form : forall k R q, rscale_all [1; k; k; k; k] R = Ret q -> disjoint_form R -> disjoint_form q.
Proof. intros k R q E. rewrite rscale_all_rmap in E. exact (rmap_disjoint_form _ _ _ E). Qed.

(** Sizes of powers. *)
Lemma recorded_div : forall k s t r e z, 1 <= k -> recorded s t r e z -> recorded s (t / k) (r / k) (e / k) (z / k).
Proof.
  intros k s t r e z K (((A1 & A2 & A3 & A4 & A5 & A6) & A7 & A8 & A9 & A10) & A11).
  assert (Q1 : forall x B, 0 <= x -> x <= B -> 0 <= x / k /\ x / k <= B).
  { intros x B Hx HB. split; [apply Qle_shift_div_l; lra|]. apply Qle_shift_div_r; [lra|]. nra. }
  destruct (Q1 t TAU_UPPER_LIMIT A3 A4), (Q1 r LV_DEFAULT_UPPER_BOUND A5 A6), (Q1 e LV_DEFAULT_UPPER_BOUND A7 A8), (Q1 z LV_DEFAULT_UPPER_BOUND A9 A10).
  destruct (Q1 r r A5 ltac:(lra)). unfold recorded, in_range5, in_range. repeat split; auto. lra.
Qed.

(** A true region to which the power rule applies, raised to a power. *)
Lemma raised_true : forall W k R q, en_admissible W -> natural_power k -> power_closed R -> lver_estimate W R ->
  (forall s t r e z, denote q [s; t; r; e; z] <-> denote R [s; t / k; r / k; e / k; z / k]) -> lver_estimate W q.
Proof.
  intros W k R q Ad (n & N & Kn) PC T Hq s t r e z IR L. apply Hq.
  assert (K1 : 1 <= k) by (rewrite Kn; change 1 with (inject_Z 1); rewrite <- Zle_Qle; lia).
  pose proof (recorded_div k s t r e z K1 IR) as IR'.
  destruct (en_power W Ad s t r e z n N L) as ((e' & z1 & Le & L1) & (r' & z2 & Lr & L2)).
  assert (Q1 : forall x, x / inject_Z n == x / k) by (intro x; rewrite Kn; reflexivity).
  rewrite Q1 in Le, Lr.
  assert (P1 : en W [s; t / k; r / k; e'; z1]).
  { revert L1. apply (en_proper W Ad). repeat (constructor; [rewrite ?Q1; reflexivity|]). constructor. }
  assert (P2 : en W [s; t / k; r'; e / k; z2]).
  { revert L2. apply (en_proper W Ad). repeat (constructor; [rewrite ?Q1; reflexivity|]). constructor. }
  pose proof IR' as (((A1 & A2 & A3 & A4 & A5 & A6) & A7 & A8 & A9 & A10) & A11).
  destruct (en_sizes W Ad _ _ _ _ _ P1) as (S1 & S2 & S3 & S4 & S5).
  destruct (en_sizes W Ad _ _ _ _ _ P2) as (U1 & U2 & U3 & U4 & U5).
  apply (PC s (t / k) (r / k) (e / k) (z / k) r' e' z1 z2 IR' Lr Le); apply T; auto; unfold recorded, in_range5, in_range; repeat split; auto; lra.
Qed.

(** ** The inequality for exponent pairs *)

Lemma qmax_le_iff : forall a b c, c <= qmax a b <-> c <= a \/ c <= b.
Proof.
  intros a b c. unfold qmax. destruct (Qltb a b) eqn:L; [apply Qltb_true in L|apply Qltb_false in L]; split; intro H; try lra; auto.
Qed.
Lemma max3_le_iff : forall a b c d, d <= max3 a b c <-> d <= a \/ d <= b \/ d <= c.
Proof. intros. unfold max3. rewrite !qmax_le_iff. tauto. Qed.
Lemma max3_in : forall a b c, max3 a b c == a \/ max3 a b c == b \/ max3 a b c == c.
Proof.
  intros. unfold max3, qmax. destruct (Qltb b c); [destruct (Qltb a c)|destruct (Qltb a b)]; lra || (left; reflexivity) || (right; left; reflexivity) || (right; right; reflexivity).
Qed.
Lemma max3_sum : forall a b c a' b' c' d,
  d <= (1#2) * max3 a b c + (1#2) * max3 a' b' c' <->
  exists x y, In x [a; b; c] /\ In y [a'; b'; c'] /\ d <= (1#2) * (x + y).
Proof.
  intros. split.
  - intro H. destruct (max3_in a b c) as [E|[E|E]], (max3_in a' b' c') as [F|[F|F]]; rewrite E, F in H;
      do 2 eexists; (split; [|split]); cycle 2; try (apply Qle_trans with (1 := H); apply Qle_lteq; right;
        match goal with |- (1#2) * ?u + (1#2) * ?v == _ => instantiate (1 := v); instantiate (1 := u) end; ring); cbn; auto.
  - intros (x & y & Hx & Hy & H).
    assert (X : x <= max3 a b c) by (apply max3_le_iff; cbn in Hx; decompose [or] Hx; subst; try tauto; [left|right; left|right; right]; lra).
    assert (Y : y <= max3 a' b' c') by (apply max3_le_iff; cbn in Hy; decompose [or] Hy; subst; try tauto; [left|right; left|right; right]; lra).
    lra.
Qed.

Definition lin6 (m : list Q) (s t r e z : Q) : Q := rowval m [s; t; r; e; z].

Lemma energy_row_ok : forall m1 m2, List.length m1 = 6%nat -> List.length m2 = 6%nat ->
  -1 + (1#2) * (nth 4 m1 0 + nth 4 m2 0) < 0 ->
  exists row, energy_row m1 m2 = Ret row /\ List.length row = 6%nat /\ ~ zero_row row /\
    forall s t r e z, 0 <= rowval row [s; t; r; e; z] <->
      e <= 1 - 2 * s + (1#2) * (lin6 m1 s t r e z + lin6 m2 s t r e z).
Proof.
  intros m1 m2 L1 L2 C. apply len6 in L1 as (a & b & c & d & f & g & ->). apply len6 in L2 as (a' & b' & c' & d' & f' & g' & ->).
  cbn [nth] in C. unfold energy_row. cbn [seq map nth]. unfold qdiv.
  destruct (Qeqb (-1 + (1#2) * (f + f')) 0) eqn:Z; [apply Qeqb_true in Z; lra|]. cbn [bind map].
  eexists. split; [reflexivity|]. split; [reflexivity|].
  set (w := -1 + (1#2) * (f + f')) in *.
  assert (P : 0 < - (1 / w)).
  { assert (X : - (1 / w) == 1 / - w) by (field; lra). rewrite X. apply Qlt_shift_div_l; lra. }
  split.
  - intro Zr. inversion Zr as [|? ? _ Z1]; subst. inversion Z1 as [|? ? _ Z2]; subst. inversion Z2 as [|? ? _ Z3]; subst.
    inversion Z3 as [|? ? _ Z4]; subst. inversion Z4 as [|? ? Z5 _]; subst. nra.
  - intros s t r e z. unfold lin6. rewrite !rowval6. set (F := - (1 / w)) in *.
    setoid_replace ((1 + (1 # 2) * (a + a')) * F + (- (2) + (1 # 2) * (b + b')) * F * s + (0 + (1 # 2) * (c + c')) * F * t +
      (0 + (1 # 2) * (d + d')) * F * r + w * F * e + (0 + (1 # 2) * (g + g')) * F * z)
      with (F * (1 - 2 * s + (1 # 2) * (a + b * s + c * t + d * r + f * e + g * z + (a' + b' * s + c' * t + d' * r + f' * e + g' * z)) - e))
      by (unfold w; ring).
    split; intro H; nra.
Qed.

Lemma energy_rows_ok : forall k l, ~ 1 + 2 * k + 2 * l == 0 ->
  exists rows, energy_rows k l = Ret rows /\ Forall (fun h => List.length h = 6%nat /\ ~ zero_row h) rows /\
    forall s t r e z, Exists (fun h => 0 <= rowval h [s; t; r; e; z]) rows <-> energy_bound k l s t r e.
Proof.
  intros k l NZ. unfold energy_rows, first_max, qdiv.
  destruct (Qeqb (1 + 2 * k + 2 * l) 0) eqn:Z; [apply Qeqb_true in Z; contradiction|]. cbn [bind].
  set (F1 := [[1; 0; 0; 1; 0; 0]; [0; 0; 1 # 3; 5 # 3; 0; 0]; [0; 0; (k + l) / (1 + 2 * k + 2 * l); (2 + 3 * k + 4 * l) / (1 + 2 * k + 2 * l); 0; 0]]).
  assert (R1 : forall m1, In m1 F1 -> List.length m1 = 6%nat /\ nth 4 m1 0 = 0).
  { intros m1 H. cbn in H. destruct H as [<- | [<- | [<- | []]]]; split; reflexivity. }
  assert (R2 : forall m2, In m2 second_max -> List.length m2 = 6%nat /\ nth 4 m2 0 <= 1).
  { intros m1 H. cbn in H. destruct H as [<- | [<- | [<- | []]]]; (split; [reflexivity|]); cbn [nth]; lra. }
  assert (ONE : forall m1, In m1 F1 -> exists rows, mapM (energy_row m1) second_max = Ret rows /\
    Forall (fun h => List.length h = 6%nat /\ ~ zero_row h) rows /\
    forall s t r e z, Exists (fun h => 0 <= rowval h [s; t; r; e; z]) rows <->
      exists m2, In m2 second_max /\ e <= 1 - 2 * s + (1#2) * (lin6 m1 s t r e z + lin6 m2 s t r e z)).
  { intros m1 H1. destruct (R1 m1 H1) as [L1 N1]. clear - R2 L1 N1. induction second_max as [|m2 sm IH].
    - exists []. split; [reflexivity|]. split; [constructor|]. intros. split; [intro X; inversion X|intros (m2 & [] & _)].
    - destruct (R2 m2 ltac:(now left)) as [L2 N2].
      destruct (energy_row_ok m1 m2 L1 L2 ltac:(rewrite N1; lra)) as (row & Er & Lr & Zr & Hr).
      destruct IH as (rows & Ers & F & H); [intros m H; apply R2; now right|].
      exists (row :: rows). cbn [mapM]. rewrite Er. cbn [bind]. rewrite Ers. split; [reflexivity|]. split; [constructor; auto|].
      intros s t r e z. rewrite Exists_cons, H, Hr. split.
      + intros [X|(m & I & X)]; [exists m2; split; [now left|exact X]|exists m; split; [now right|exact X]].
      + intros (m & [<- | I] & X); [left; exact X|right; exists m; auto]. }
  assert (ALL : forall ms, (forall m, In m ms -> In m F1) -> exists rows, mapM (fun m1 => mapM (energy_row m1) second_max) ms = Ret rows /\
    Forall (fun h => List.length h = 6%nat /\ ~ zero_row h) (concat rows) /\
    forall s t r e z, Exists (fun h => 0 <= rowval h [s; t; r; e; z]) (concat rows) <->
      exists m1 m2, In m1 ms /\ In m2 second_max /\ e <= 1 - 2 * s + (1#2) * (lin6 m1 s t r e z + lin6 m2 s t r e z)).
  { induction ms as [|m1 ms IH]; intro I.
    - exists []. split; [reflexivity|]. split; [constructor|]. intros. split; [intro X; inversion X|intros (m1 & m2 & [] & _)].
    - destruct (ONE m1 (I m1 ltac:(now left))) as (r1 & E1 & F1' & H1). destruct IH as (rs & E2 & F2 & H2); [intros m Hm; apply I; now right|].
      exists (r1 :: rs). cbn [mapM]. rewrite E1. cbn [bind]. rewrite E2. split; [reflexivity|]. cbn [concat]. split; [apply Forall_app; auto|].
      intros s t r e z. rewrite Exists_app, H1, H2. split.
      + intros [(m2 & I2 & X)|(m & m2 & Im & I2 & X)]; [exists m1, m2; split; [now left|auto]|exists m, m2; split; [now right|auto]].
      + intros (m & m2 & [<- | Im] & I2 & X); [left; exists m2; auto|right; exists m, m2; auto]. }
  destruct (ALL F1 ltac:(auto)) as (rows & Er & Fr & Hr). rewrite Er. cbn [bind].
  eexists. split; [reflexivity|]. split; [exact Fr|]. intros s t r e z. rewrite Hr. unfold energy_bound.
  assert (V1 : forall m1, In m1 F1 -> exists x, In x [r + 1; (5 * r + t) / 3; ((2 + 3 * k + 4 * l) * r + (k + l) * t) / (1 + 2 * k + 2 * l)] /\ lin6 m1 s t r e z == x).
  { intros m1 H. cbn in H. unfold lin6. destruct H as [<- | [<- | [<- | []]]].
    - exists (r + 1). split; [now left|]. rewrite rowval6. ring.
    - exists ((5 * r + t) / 3). split; [right; now left|]. rewrite rowval6. field.
    - exists (((2 + 3 * k + 4 * l) * r + (k + l) * t) / (1 + 2 * k + 2 * l)). split; [right; right; now left|]. rewrite rowval6. field. exact NZ. }
  assert (V1' : forall x, In x [r + 1; (5 * r + t) / 3; ((2 + 3 * k + 4 * l) * r + (k + l) * t) / (1 + 2 * k + 2 * l)] -> exists m1, In m1 F1 /\ lin6 m1 s t r e z == x).
  { intros x H. cbn in H. unfold lin6. destruct H as [<- | [<- | [<- | []]]].
    - exists (nth 0 F1 []). split; [now left|]. cbn [nth F1]. rewrite rowval6. ring.
    - exists (nth 1 F1 []). split; [right; now left|]. cbn [nth F1]. rewrite rowval6. field.
    - exists (nth 2 F1 []). split; [right; right; now left|]. cbn [nth F1]. rewrite rowval6. field. exact NZ. }
  assert (V2 : forall m2, In m2 second_max -> exists x, In x [e + 1; 4 * r; (3#4) * e + r + t / 2] /\ lin6 m2 s t r e z == x).
  { intros m1 H. cbn in H. unfold lin6. destruct H as [<- | [<- | [<- | []]]].
    - exists (e + 1). split; [now left|]. rewrite rowval6. ring.
    - exists (4 * r). split; [right; now left|]. rewrite rowval6. ring.
    - exists ((3#4) * e + r + t / 2). split; [right; right; now left|]. rewrite rowval6. field. }
  assert (V2' : forall x, In x [e + 1; 4 * r; (3#4) * e + r + t / 2] -> exists m2, In m2 second_max /\ lin6 m2 s t r e z == x).
  { intros x H. cbn in H. unfold lin6, second_max. destruct H as [<- | [<- | [<- | []]]].
    - eexists. split; [now left|]. rewrite rowval6. ring.
    - eexists. split; [right; now left|]. rewrite rowval6. ring.
    - eexists. split; [right; right; now left|]. rewrite rowval6. field. }
  set (P1 := [_; _; _]) in V1, V1'. set (P2 := [_; _; _]) in V2, V2'.
  split.
  - intros (m1 & m2 & I1 & I2 & X). destruct (V1 m1 I1) as (x & Ix & Ex). destruct (V2 m2 I2) as (y & Iy & Ey). rewrite Ex, Ey in X.
    enough (e - (1 - 2 * s) <= (1 # 2) * max3 (r + 1) ((5 * r + t) / 3) (((2 + 3 * k + 4 * l) * r + (k + l) * t) / (1 + 2 * k + 2 * l)) +
      (1 # 2) * max3 (e + 1) (4 * r) ((3 # 4) * e + r + t / 2)) by lra.
    apply max3_sum. exists x, y. split; [exact Ix|]. split; [exact Iy|]. lra.
  - intro X.
    assert (Y : e - (1 - 2 * s) <= (1 # 2) * max3 (r + 1) ((5 * r + t) / 3) (((2 + 3 * k + 4 * l) * r + (k + l) * t) / (1 + 2 * k + 2 * l)) +
      (1 # 2) * max3 (e + 1) (4 * r) ((3 # 4) * e + r + t / 2)) by lra.
    apply max3_sum in Y as (x & y & Ix & Iy & Y).
    destruct (V1' x Ix) as (m1 & I1 & E1). destruct (V2' y Iy) as (m2 & I2 & E2). exists m1, m2. split; [exact I1|]. split; [exact I2|]. rewrite E1, E2. lra.
Qed.

(** Monotone in the number of large values. *)
Lemma energy_bound_mono : forall k l s t r r' e, 0 < k -> 0 <= l -> r' <= r -> energy_bound k l s t r' e -> energy_bound k l s t r e.
Proof.
  intros k l s t r r' e K L R H. unfold energy_bound in *.
  assert (M : forall a b c a' b' c', a <= a' -> b <= b' -> c <= c' -> max3 a b c <= max3 a' b' c').
  { intros. apply max3_le_iff. destruct (max3_in a b c) as [E|[E|E]]; rewrite E; auto. }
  assert (D : 0 < / (1 + 2 * k + 2 * l)) by (apply Qinv_lt_0_compat; lra).
  pose proof (M (r' + 1) ((5 * r' + t) / 3) (((2 + 3 * k + 4 * l) * r' + (k + l) * t) / (1 + 2 * k + 2 * l))
    (r + 1) ((5 * r + t) / 3) (((2 + 3 * k + 4 * l) * r + (k + l) * t) / (1 + 2 * k + 2 * l)) ltac:(lra)) as M1.
  assert (X1 : (5 * r' + t) / 3 <= (5 * r + t) / 3) by (unfold Qdiv; apply Qmult_le_compat_r; [lra|discriminate]).
  assert (X2 : ((2 + 3 * k + 4 * l) * r' + (k + l) * t) / (1 + 2 * k + 2 * l) <= ((2 + 3 * k + 4 * l) * r + (k + l) * t) / (1 + 2 * k + 2 * l)).
  { unfold Qdiv. apply Qmult_le_compat_r; [|lra]. nra. }
  specialize (M1 X1 X2).
  pose proof (M (e + 1) (4 * r') ((3 # 4) * e + r' + t / 2) (e + 1) (4 * r) ((3 # 4) * e + r + t / 2) ltac:(lra) ltac:(lra) ltac:(lra)). lra.
Qed.

(** ** Lifting *)

Lemma lv_lift_ok : forall r, sized 3 r -> positive r ->
  exists q, rlift lv_lift r = Ret q /\
    (leaves (solid 3) r -> leaves (solid 5) q) /\ (disjoint_form r -> disjoint_form q) /\
    (forall x, denote q x -> List.length x = 5%nat) /\
    forall s t u e z, denote q [s; t; u; e; z] <->
      denote r [s; t; u] /\ 0 <= e /\ e <= LV_DEFAULT_UPPER_BOUND /\ 0 <= z /\ z <= LV_DEFAULT_UPPER_BOUND.
Proof.
  intros r S P. destruct (rlift_ok lv_lift 3 r) as (q & Eq & Hq); [|exact P|apply Permutation_refl|].
  { revert S. apply leaves_mono. intros p (G & _ & N). split; [exact G|]. split; [exact N|]. right. do 2 eexists. right. right. right. now left. }
  exists q. split; [exact Eq|]. split; [|split; [|split]].
  - intro SR. destruct (rlift_solid 3 lv_lift r ltac:(lia) SR P (Permutation_refl _)) as (q' & Eq' & Sq' & _).
    + intros lo up H. cbn in H. decompose [or] H; try discriminate; try tauto; match goal with H : Box _ _ = _ |- _ => injection H as <- <- end; reflexivity.
    + do 2 eexists. right. right. right. now left.
    + rewrite Eq in Eq'. injection Eq' as <-. exact Sq'.
  - rewrite (rlift_rmap _ _ P) in Eq. exact (rmap_disjoint_form _ _ _ Eq).
  - intros x Dx. apply Hq in Dx. apply Dx.
  - intros s t u e z. rewrite Hq. split.
    + intros (_ & B & x & Lx & Lf & D). pose proof (B 3%nat _ _ eq_refl) as B3. pose proof (B 4%nat _ _ eq_refl) as B4. cbn [nth] in B3, B4.
      apply len3 in Lx as (a & b & c & ->). pose proof (Lf 0%nat _ eq_refl) as L0. pose proof (Lf 1%nat _ eq_refl) as L1. pose proof (Lf 2%nat _ eq_refl) as L2.
      cbn [nth] in L0, L1, L2. split; [|tauto]. revert D. apply denote3; assumption.
    + intros (D & B1 & B2 & B3 & B4). split; [reflexivity|]. split.
      * intros [|[|[|[|[|i]]]]] lo up H; try discriminate; [| |destruct i; discriminate]; injection H as <- <-; cbn [nth]; auto.
      * exists [s; t; u]. split; [reflexivity|]. split; [|exact D].
        intros [|[|[|[|[|i]]]]] k H; try discriminate; [| | |destruct i; discriminate]; injection H as <-; reflexivity.
Qed.

Lemma domain_lift_ok : forall r, leaves (solid 2) r -> disjoint_form r ->
  exists q, rlift domain_lift r = Ret q /\ leaves (solid 5) q /\ disjoint_form q /\
    (forall x, denote q x -> List.length x = 5%nat) /\
    forall s t u e z, denote q [s; t; u; e; z] <->
      denote r [s; t] /\ 0 <= u /\ u <= LV_DEFAULT_UPPER_BOUND /\ 0 <= e /\ e <= LV_DEFAULT_UPPER_BOUND /\ 0 <= z /\ z <= LV_DEFAULT_UPPER_BOUND.
Proof.
  intros r S DF. pose proof (disjoint_form_positive _ DF) as P.
  destruct (rlift_solid 2 domain_lift r ltac:(lia) S P (Permutation_refl _)) as (q & Eq & Sq & _ & Hq).
  { intros lo up H. cbn in H. decompose [or] H; try discriminate; try tauto; match goal with H : Box _ _ = _ |- _ => injection H as <- <- end; reflexivity. }
  { do 2 eexists. right. right. now left. }
  exists q. split; [exact Eq|]. split; [exact Sq|]. split; [|split].
  - rewrite (rlift_rmap _ _ P) in Eq. exact (rmap_disjoint_form _ _ _ Eq DF).
  - intros x Dx. apply Hq in Dx. apply Dx.
  - intros s t u e z. rewrite Hq. split.
    + intros (_ & B & x & Lx & Lf & D). pose proof (B 2%nat _ _ eq_refl) as B2. pose proof (B 3%nat _ _ eq_refl) as B3. pose proof (B 4%nat _ _ eq_refl) as B4. cbn [nth] in B2, B3, B4.
      destruct x as [|a [|b [|]]]; try discriminate. pose proof (Lf 0%nat _ eq_refl) as L0. pose proof (Lf 1%nat _ eq_refl) as L1.
      cbn [nth] in L0, L1. split; [|tauto]. revert D. apply denote_peq; [reflexivity|]. apply peq_Forall2; [reflexivity|].
      constructor; [assumption || (symmetry; assumption)|]. constructor; [assumption || (symmetry; assumption)|constructor].
    + intros (D & B1 & B2 & B3 & B4 & B5 & B6). split; [reflexivity|]. split.
      * intros [|[|[|[|[|i]]]]] lo up H; try discriminate; [| | |destruct i; discriminate]; injection H as <- <-; cbn [nth]; auto.
      * exists [s; t]. split; [reflexivity|]. split; [|exact D].
        intros [|[|[|[|[|i]]]]] k H; try discriminate; [| |destruct i; discriminate]; injection H as <-; reflexivity.
Qed.

(** ** The consistency of the facts *)

Lemma conj_lv_div : forall s t r k, 1 <= k -> 0 <= r -> conj_lv s t r -> conj_lv s (t / k) (r / k).
Proof.
  intros s t r k K R (A & B). split.
  - unfold Qdiv. apply Qmult_le_compat_r; [exact A|]. apply Qinv_le_0_compat. lra.
  - destruct B as [B|B]; [now left|right]. apply Qle_trans with r; [|exact B]. apply Qle_shift_div_r; [lra|]. nra.
Qed.

Lemma max3_ge : forall a b c, a <= max3 a b c /\ b <= max3 a b c /\ c <= max3 a b c.
Proof.
  intros. split; [|split]; apply max3_le_iff; [left|right; left|right; right]; lra.
Qed.

Lemma conj_pair : forall k l s t r e z, conj_en s t r e z -> energy_bound k l s t r e.
Proof.
  intros k l s t r e z ((A & B) & S1 & S2 & R & E1 & E2 & _). unfold energy_bound.
  destruct (max3_ge (r + 1) ((5 * r + t) / 3) (((2 + 3 * k + 4 * l) * r + (k + l) * t) / (1 + 2 * k + 2 * l))) as (M1 & M2 & _).
  destruct (max3_ge (e + 1) (4 * r) ((3 # 4) * e + r + t / 2)) as (N1 & N2 & _).
  assert (X : 2 * r <= (5 * r + t) / 3) by (apply Qle_shift_div_l; lra).
  destruct B as [B|B]; lra.
Qed.

Lemma zeta_open_proper : forall Z s t s' t', admissible Z -> s == s' -> t == t' -> zeta_open Z s t -> zeta_open Z s' t'.
Proof.
  intros Z s t s' t' Ad A B (H2 & H3). split.
  - intros v T Hv. assert (X : s <= t * v). { apply H2; [lra|]. revert Hv. apply (beta_upper Z Ad); [rewrite B; reflexivity|lra]. } rewrite <- A, <- B. exact X.
  - intros s0 m T S0 S1 Hm. rewrite <- A, <- B. apply H3; auto. lra.
Qed.

Lemma conj_admissible : forall Z b, admissible Z -> (forall s m, 1 <= s -> mu_le Z s m -> 0 <= m) -> en_admissible (conj_world Z b).
Proof.
  intros Z b Ad M.
  assert (PR : forall s t r e z y, Forall2 Qeq [s; t; r; e; z] y -> exists s' t' r' e' z', y = [s'; t'; r'; e'; z'] /\ s == s' /\ t == t' /\ r == r' /\ e == e' /\ z == z').
  { intros s t r e z y H. inversion H as [|? ? ? ? A1 H1]; subst. inversion H1 as [|? ? ? ? A2 H2]; subst. inversion H2 as [|? ? ? ? A3 H3]; subst.
    inversion H3 as [|? ? ? ? A4 H4]; subst. inversion H4 as [|? ? ? ? A5 H5]; subst. inversion H5; subst. do 5 eexists. split; [reflexivity|]. auto. }
  assert (CP : forall s t r e z s' t' r' e' z', s == s' -> t == t' -> r == r' -> e == e' -> z == z' -> conj_en s t r e z -> conj_en s' t' r' e' z').
  { unfold conj_en, conj_lv. intros. lra. }
  constructor.
  - constructor; cbn.
    + exact Ad.
    + unfold conj_lv. intros. lra.
    + intros s s' t t' r r' A B C (Zb & H1 & H2). split; [exact Zb|]. split; [unfold conj_lv in *; lra|]. exact (zeta_open_proper Z s t s' t' Ad A B H2).
    + intros s t r k K S1 S2 T (H1 & H2). assert (K1 : 1 <= inject_Z k) by (change 1 with (inject_Z 1); rewrite <- Zle_Qle; lia).
      split; [nra|]. destruct H2 as [H2|H2]; [now left|right]. destruct (Qlt_le_dec r 0); [lra|]. nra.
    + intros s t r _ _ _ (_ & H & _). exact H.
    + intros s t r _ _ _ (_ & (H & _) & _). exact H.
    + intros s t r v T Hv L (_ & _ & H & _). specialize (H v T Hv). lra.
    + intros s t r s0 m T S0 S1 Hm L (_ & _ & _ & H). specialize (H s0 m T S0 S1 Hm). lra.
    + exact M.
  - intros x y H (s & t & r & e & z & -> & C). apply PR in H as (s' & t' & r' & e' & z' & -> & A1 & A2 & A3 & A4 & A5).
    exists s', t', r', e', z'. split; [reflexivity|]. eapply CP; [exact A1|exact A2|exact A3|exact A4|exact A5|exact C].
  - intros x y H (s & t & r & e & z & -> & Zb & C & O). apply PR in H as (s' & t' & r' & e' & z' & -> & A1 & A2 & A3 & A4 & A5).
    exists s', t', r', e', z'. split; [reflexivity|]. split; [exact Zb|]. split; [eapply CP; [exact A1|exact A2|exact A3|exact A4|exact A5|exact C]|].
    exact (zeta_open_proper Z s t s' t' Ad A1 A2 O).
  - intros s t r e z (? & ? & ? & ? & ? & E & C). injection E as <- <- <- <- <-. apply C.
  - intros s t r e z _ (? & ? & ? & ? & ? & E & Zb & C & O). injection E as <- <- <- <- <-. cbn. split; [exact Zb|]. split; [apply C|exact O].
  - intros s t r e z _ _ _ (? & ? & ? & ? & ? & E & Zb & C & O). injection E as <- <- <- <- <-. cbn. do 5 eexists. split; [reflexivity|]. exact C.
  - intros s t r S1 S2 T R L. exists (2 * r), (r + 2). do 5 eexists. split; [reflexivity|]. cbn in L. unfold conj_en. repeat split; try apply L; lra.
  - intros s t r S1 S2 T R (Zb & L & O). exists (2 * r), (r + 2). do 5 eexists. split; [reflexivity|]. split; [exact Zb|]. split; [|exact O].
    unfold conj_en. repeat split; try apply L; lra.
  - intros s t r e z (? & ? & ? & ? & ? & E & C). injection E as <- <- <- <- <-. unfold conj_en in C. lra.
  - intros s t r e z k K (? & ? & ? & ? & ? & E & C). injection E as <- <- <- <- <-.
    assert (K1 : 1 <= inject_Z k) by (change 1 with (inject_Z 1); rewrite <- Zle_Qle; lia). set (q := inject_Z k) in *. clearbody q.
    destruct C as (L & S1 & S2 & R & E1 & E2 & Z1 & Z2). pose proof (conj_lv_div s t r q K1 R L) as L'.
    assert (I : 0 < / q) by (apply Qinv_lt_0_compat; lra).
    assert (X : conj_en s (t / q) (r / q) (e / q) (r / q + 2)).
    { unfold conj_en. split; [exact L'|]. unfold Qdiv. repeat split; try lra; nra. }
    split; [exists (e / q), (r / q + 2)|exists (r / q), (r / q + 2)]; (split; [lra|]); do 5 eexists; (split; [reflexivity|exact X]).
  - intros k l s t r e z _ _ (? & ? & ? & ? & ? & E & C). injection E as <- <- <- <- <-. exact (conj_pair k l s t r e z C).
Qed.

(** ** Regions given by half-spaces *)

Lemma rows_interior : forall n rows p x, Forall (fun r => List.length r = S n) rows -> ncol (pmat p) = S n -> List.length x = n ->
  Forall (fun r => 0 < rowval r x) rows -> (forall y, List.length y = n -> Forall (fun r => 0 <= rowval r y) rows -> member p y) ->
  interior p x.
Proof.
  intros n rows p x F N L S M.
  assert (I : minterior (mkMat (map (fun r => (r, false)) rows) (Datatypes.S n)) x).
  { apply strict_interior.
    - cbn. lia.
    - cbn [mrows]. apply Forall_map. apply Forall_forall. intros; reflexivity.
    - cbn [mrows]. apply Forall_map. exact S. }
  assert (MM : forall y, mmember (mkMat (map (fun r => (r, false)) rows) (Datatypes.S n)) y -> member p y).
  { intros y H. apply mmember_iff in H as [Ly H]. cbn [mrows ncol] in *. apply M; [lia|]. apply Forall_forall. intros r Hr.
    apply (H (r, false)). apply in_map_iff. eauto. }
  destruct I as [I1 (e & He & I2)]. split; [now apply MM|]. exists e. split; [exact He|]. intros y Hy. apply MM, I2, Hy.
Qed.

Section Ext.
Context (E : ext) (OK : ext_ok E).

Lemma halfplanes5 : forall hps, Forall (fun h => List.length h = 6%nat /\ ~ zero_row h) hps ->
  exists ps, from_union_of_halfplanes E hps default_constraints = Ret (RDisj (map (fun p => RPoly (plain p)) ps)) /\
    List.length ps = List.length hps /\
    Forall (fun p => good p /\ bounded p /\ ncol (pmat p) = 6%nat) ps /\
    sized 5 (RDisj (map (fun p => RPoly (plain p)) ps)) /\
    disj_only (RDisj (map (fun p => RPoly (plain p)) ps)) /\
    (forall x, denote (RDisj (map (fun p => RPoly (plain p)) ps)) x <-> in_union ps x) /\
    (forall x, denote (RDisj (map (fun p => RPoly (plain p)) ps)) x <->
       exists s t r e z, x = [s; t; r; e; z] /\ in_range5 s t r e z /\ Exists (fun h => 0 <= rowval h [s; t; r; e; z]) hps) /\
    ForallOrdPairs (fun p q => forall x, ~ (interior p x /\ interior q x)) ps.
Proof.
  intros hps FH.
  destruct (halfplane_polys_ok E OK 6 default_constraints ltac:(lia) default_len default_nz hps [] FH ltac:(constructor)) as (ps & Eps & F1 & F2 & _ & F4).
  exists ps. unfold from_union_of_halfplanes. rewrite Eps. cbn [bind]. split; [reflexivity|].
  assert (LP : forall box hps neg qs, halfplane_polys E box neg hps = Ret qs -> List.length qs = List.length hps).
  { clear. induction hps as [|h hps IH]; cbn [halfplane_polys]; intros neg qs H; [injection H as <-; reflexivity|].
    destruct (Polytope E _ false true); [|discriminate]. cbn [bind] in H.
    destruct (halfplane_polys E box (neg ++ [vopp h]) hps) as [l|] eqn:El; [|discriminate]. injection H as <-. cbn. f_equal. eauto. }
  split; [apply LP in Eps; now rewrite !map_length in Eps|].
  assert (IU : forall x, denote (RDisj (map (fun p => RPoly (plain p)) ps)) x <-> in_union ps x).
  { intro x. cbn [denote]. rewrite anyP_iff. unfold in_union. split.
    - intros (a & Ha & D). apply in_map_iff in Ha as (p & <- & Hp). exists p. auto.
    - intros (p & Hp & M). eexists. split; [apply in_map; exact Hp|exact M]. }
  assert (X : forall x, denote (RDisj (map (fun p => RPoly (plain p)) ps)) x <->
       exists s t r e z, x = [s; t; r; e; z] /\ in_range5 s t r e z /\ Exists (fun h => 0 <= rowval h [s; t; r; e; z]) hps).
  { intro x. rewrite IU, F2. split.
    - intros (L & B & _ & X). destruct (len5 x ltac:(lia)) as (s & t & r & e & z & ->). exists s, t, r, e, z. split; [reflexivity|].
      rewrite <- box5_iff. auto.
    - intros (s & t & r & e & z & -> & B & X). rewrite box5_iff. split; [reflexivity|]. split; [exact B|]. split; [constructor|exact X]. }
  assert (BX : forall p, In p ps -> forall x, member p x -> exists s t r e z, x = [s; t; r; e; z] /\ in_range5 s t r e z).
  { intros p Hp x M. assert (U : denote (RDisj (map (fun p => RPoly (plain p)) ps)) x) by (apply IU; exists p; auto).
    apply X in U as (s & t & r & e & z & Ex & B & _). eauto 10. }
  split; [|split; [|split; [|split; [exact IU|split; [exact X|exact F4]]]]].
  - apply Forall_forall. intros p Hp. rewrite Forall_forall in F1. destruct (F1 p Hp) as [G N]. split; [exact G|]. split; [|exact N].
    exists LV_DEFAULT_UPPER_BOUND. intros x i M. destruct (BX p Hp x M) as (s & t & r & e & z & -> & ((A1 & A2 & A3 & A4 & A5 & A6) & A7 & A8 & A9 & A10)).
    unfold TAU_UPPER_LIMIT, LV_DEFAULT_UPPER_BOUND in *.
    destruct i as [|[|[|[|[|i]]]]]; cbn [nth]; try (destruct i; cbn [nth]); apply Qabs_Qle_condition; lra.
  - cbn [sized leaves]. apply allP_iff. intros a Ha. apply in_map_iff in Ha as (p & <- & Hp). cbn [leaves].
    rewrite Forall_forall in F1. destruct (F1 p Hp) as [G N]. split; [exact G|].
    assert (D : has_dim 5 (plain p)) by exact N. split; [|exact D].
    apply (has_rows p 5 D). exists [2; 0; 0; 0; 0]. split; [reflexivity|]. intro M.
    destruct (BX p Hp _ M) as (s & t & r & e & z & E0 & ((_ & B & _) & _)). injection E0 as <- <- <- <- <-. lra.
  - cbn [disj_only]. apply allP_iff. intros a Ha. apply in_map_iff in Ha as (p & <- & Hp). exact Logic.I.
Qed.

End Ext.
