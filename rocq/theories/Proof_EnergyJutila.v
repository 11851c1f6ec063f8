(** C73: the largest rho* / tau in the fifth and the sixth derivation. *)
From Coq Require Import Reals Qreals Permutation Classical.
From Verif Require Import Base LinAlg Model_Polytope Spec_Polytope Proof_Polytope Proof_PolytopeLP Proof_Interval Proof_Piecewise Model_Region Spec_Region Model_LargeValues Spec_LargeValues Model_AdditiveEnergy Spec_AdditiveEnergy Prop_AdditiveEnergy
  Model_EnergyDerivation Spec_EnergyDerivation Model_LiteratureLV Spec_LiteratureEnergy Spec_DerivedDensity Prop_DerivedDensity Spec_EnergyProofs Proof_EnergyProofs Proof_EnergyTwoValue.
From Coq Require Import Lra.
Open Scope list_scope.
Local Open Scope Q_scope.

(** The nine ways in which the k-th power of the Heath-Brown relation can hold. *)
Lemma hb_ways : forall k s t r e z rm, 0 < k -> hb_relation s (t / k) (r / k) (e / k) z -> r <= rm -> exists X, (X <= rm + k \/ X <= 2 * rm \/ X <= (5#4) * rm + (1#2) * t) /\
  (e <= 3 * k - 4 * (k * s) + X \/ e <= k - 2 * (k * s) + (1#2) * X + 2 * rm \/ (5#8) * e <= k - 2 * (k * s) + (1#2) * X + (1#2) * rm + (1#4) * t).
Proof.
  intros k s t r e z rm K H R. exists (max3 (rm + k) (2 * rm) ((5#4) * rm + (1#2) * t)). split.
  - destruct (max3_cases (rm + k) (2 * rm) ((5#4) * rm + (1#2) * t)) as [A|[A|A]]; rewrite A; [left|right; left|right; right]; apply Qle_refl.
  - destruct (max3_ge (rm + k) (2 * rm) ((5#4) * rm + (1#2) * t)) as (A & B & C). exact (hb_upper k s t r e z rm _ K H R A B C).
Qed.
Lemma ratio9 : forall k s t r e z rm D N, 0 < k -> hb_relation s (t / k) (r / k) (e / k) z -> r <= rm -> 0 < D ->
  (forall X, X <= rm + k \/ X <= 2 * rm \/ X <= (5#4) * rm + (1#2) * t ->
    (3 * k - 4 * (k * s) + X) * D <= N * t /\ (k - 2 * (k * s) + (1#2) * X + 2 * rm) * D <= N * t /\ (8#5) * (k - 2 * (k * s) + (1#2) * X + (1#2) * rm + (1#4) * t) * D <= N * t) -> e * D <= N * t.
Proof.
  intros k s t r e z rm D N K H R D0 Y. destruct (hb_ways k s t r e z rm K H R) as (X & HX & HE). destruct (Y X HX) as (Y1 & Y2 & Y3).
  destruct HE as [HE|[HE|HE]]; [eapply ratio_le; eassumption|eapply ratio_le; eassumption|eapply ratio_le58; eassumption].
Qed.
(** The same with the nine bounds *)
Lemma ratio_all : forall k s t r e z rm D N, 0 < k -> hb_relation s (t / k) (r / k) (e / k) z -> r <= rm -> 0 < D ->
  Forall (fun X => (3 * k - 4 * (k * s) + X) * D <= N * t /\ (k - 2 * (k * s) + (1#2) * X + 2 * rm) * D <= N * t /\ (8#5) * (k - 2 * (k * s) + (1#2) * X + (1#2) * rm + (1#4) * t) * D <= N * t)
    [rm + k; 2 * rm; (5#4) * rm + (1#2) * t] -> e * D <= N * t.
Proof.
  intros k s t r e z rm D N K H R D0 F. apply (ratio9 k s t r e z rm D N K H R D0). intros X HX.
  inversion F as [|? ? F1 F']; subst. inversion F' as [|? ? F2 F'']; subst. inversion F'' as [|? ? F3 _]; subst. clear F F' F''.
  assert (M : forall Y, X <= Y -> (3 * k - 4 * (k * s) + X) * D <= (3 * k - 4 * (k * s) + Y) * D /\ (k - 2 * (k * s) + (1#2) * X + 2 * rm) * D <= (k - 2 * (k * s) + (1#2) * Y + 2 * rm) * D /\
    (8#5) * (k - 2 * (k * s) + (1#2) * X + (1#2) * rm + (1#4) * t) * D <= (8#5) * (k - 2 * (k * s) + (1#2) * Y + (1#2) * rm + (1#4) * t) * D).
  { intros Y L. repeat split; apply Qmult_le_compat_r; Lqa.lra. }
  destruct HX as [L|[L|L]]; destruct (M _ L) as (M1 & M2 & M3); [destruct F1 as (G1 & G2 & G3)|destruct F2 as (G1 & G2 & G3)|destruct F3 as (G1 & G2 & G3)]; repeat split; eapply Qle_trans; eassumption.
Qed.
Ltac nine := repeat constructor; Lqa.nra.

Definition rels_j (k : Z) : list Spec_LiteratureEnergy.relation := [hb_relation; lv_relation (jutila_bounds k)].
Definition ks3 : list Q := [1; 2; 3].
Lemma jutila_six : forall s t r e z k, obeyed (rels_j 6) ks3 s t r e z -> In k ks3 -> 0 < k -> r <= k * (2 - 2 * s) \/ r <= t + k * ((11#3) - (17#3) * s) \/ r <= t + k * (36 - 48 * s).
Proof.
  intros s t r e z k O Ik K. pose proof (lv_in _ _ (jutila_bounds 6) k _ _ _ _ _ O ltac:(right; now left) Ik K) as X. unfold jutila_bounds in X. change (inject_Z 6) with 6 in X.
  assert (J : 2 / 6 == 1#3) by reflexivity. exs X; [left|right; left|right; right]; rewrite ?J in X; Lqa.lra.
Qed.
Lemma jutila_five : forall s t r e z k, obeyed (rels_j 5) ks3 s t r e z -> In k ks3 -> 0 < k -> r <= k * (2 - 2 * s) \/ r <= t + k * ((18#5) - (28#5) * s) \/ r <= t + k * (30 - 40 * s).
Proof.
  intros s t r e z k O Ik K. pose proof (lv_in _ _ (jutila_bounds 5) k _ _ _ _ _ O ltac:(right; now left) Ik K) as X. unfold jutila_bounds in X. change (inject_Z 5) with 5 in X.
  assert (J : 2 / 5 == 2#5) by reflexivity. exs X; [left|right; left|right; right]; rewrite ?J in X; Lqa.lra.
Qed.

(** The ways in which Jutila's estimate can hold. *)
Definition j_ways (q K s t r : Q) : Prop := forall k, In k ks3 -> r <= k * (2 - 2 * s) \/ r <= t + k * ((4 - q) - (6 - q) * s) \/ r <= t + k * (6 * K - 8 * K * s).
Definition h_ways (s t r e : Q) : Prop := forall k z, In k ks3 -> hb_relation s (t / k) (r / k) (e / k) z.
Lemma ways_j : forall n q K k s t r e z, inject_Z n == K -> 2 / inject_Z n == q -> In k ks3 -> (r <= k * (2 - 2 * s) \/ r <= t + k * ((4 - q) - (6 - q) * s) \/ r <= t + k * (6 * K - 8 * K * s)) -> lv_relation (jutila_bounds n) s (t / k) (r / k) e z.
Proof.
  intros n q K k s t r e z EK Eq Ik H. assert (K0 : 0 < k) by (destruct Ik as [<- | [<- | [<- | []]]]; reflexivity). apply lv_power; [exact K0|]. unfold jutila_bounds.
  destruct H as [H|[H|H]]; [apply Exists_cons_hd|apply Exists_cons_tl, Exists_cons_hd|apply Exists_cons_tl, Exists_cons_tl, Exists_cons_hd]; cbn [nth]; rewrite ?Eq, ?EK; Lqa.lra.
Qed.
Lemma tiny : forall eps c, 0 < eps -> 0 < c -> exists d, 0 < d /\ d <= 1#100000 /\ 100 * d <= eps /\ 2 * d <= c.
Proof.
  intros eps c P1 P2. destruct (qmin_spec (eps * (1#100)) (c * (1#2))) as (A1 & A2 & A3). set (m := qmin _ _) in *. destruct (qmin_spec m (1#100000)) as (B1 & B2 & B3). exists (qmin m (1#100000)).
  assert (0 < m) by (destruct A3 as [-> | ->]; Lqa.lra). repeat split; try Lqa.lra. destruct B3 as [-> | ->]; Lqa.lra.
Qed.
Definition below5 (s t e : Q) : Prop := e * (6 * (15 * s - 11)) <= (18 - 19 * s) * t \/ e * (4 * (4 * s - 1)) <= 3 * (18 - 19 * s) * t.
Lemma upper5 : forall s t r e z, 42#55 <= s -> s <= 79#103 -> 2 <= t -> t <= 4 -> obeyed (rels_j 6) ks3 s t r e z -> below5 s t e.
Proof.
  intros s t r e z S1 S2 T1 T2 O. unfold below5.
  assert (D1 : 0 < 6 * (15 * s - 11)) by Lqa.lra. assert (D2 : 0 < 4 * (4 * s - 1)) by Lqa.lra.
  assert (I1 : In 1 ks3) by now left. assert (I2 : In 2 ks3) by (right; now left). assert (I3 : In 3 ks3) by (do 2 right; now left).
  assert (H : In hb_relation (rels_j 6)) by now left. assert (H1 := O _ _ H I1). assert (H2 := O _ _ H I2). assert (H3 := O _ _ H I3).
  pose proof (jutila_six _ _ _ _ _ 2 O I2 ltac:(reflexivity)) as J2. pose proof (jutila_six _ _ _ _ _ 3 O I3 ltac:(reflexivity)) as J3. clear O H I1 I2 I3.
  destruct J2 as [J2|J2].
  { right. apply (ratio_all 1 s t r e (z / 1) (4 - 4 * s)); [reflexivity|exact H1|Lqa.lra|exact D2|]. nine. }
  destruct J3 as [J3|J3].
  2:{ right. destruct J3 as [B|B]; destruct (Qlt_le_dec t (7#2)).
      - apply (ratio_all 2 s t r e (z / 2) (t + 11 - 17 * s)); [reflexivity|exact H2|Lqa.lra|exact D2|]. nine.
      - apply (ratio_all 3 s t r e (z / 3) (t + 11 - 17 * s)); [reflexivity|exact H3|Lqa.lra|exact D2|]. nine.
      - apply (ratio_all 2 s t r e (z / 2) (t + 108 - 144 * s)); [reflexivity|exact H2|Lqa.lra|exact D2|]. nine.
      - apply (ratio_all 3 s t r e (z / 3) (t + 108 - 144 * s)); [reflexivity|exact H3|Lqa.lra|exact D2|]. nine. }
  destruct J2 as [J2|J2].
  - right. destruct (Qlt_le_dec t (11#5)); [|destruct (Qlt_le_dec (3 * t) (4 * (4 * s - 1)))].
    + apply (ratio_all 1 s t r e (z / 1) (t + (22#3) - (34#3) * s)); [reflexivity|exact H1|Lqa.lra|exact D2|]. nine.
    + apply (ratio_all 2 s t r e (z / 2) (t + (22#3) - (34#3) * s)); [reflexivity|exact H2|Lqa.lra|exact D2|]. nine.
    + apply (ratio_all 2 s t r e (z / 2) (6 - 6 * s)); [reflexivity|exact H2|Lqa.lra|exact D2|]. nine.
  - left. destruct (Qlt_le_dec t (23#10)); [|destruct (Qlt_le_dec t (6 * (15 * s - 11)))].
    + apply (ratio_all 1 s t r e (z / 1) (t + 72 - 96 * s)); [reflexivity|exact H1|Lqa.lra|exact D1|]. nine.
    + apply (ratio_all 2 s t r e (z / 2) (t + 72 - 96 * s)); [reflexivity|exact H2|Lqa.lra|exact D1|]. nine.
    + apply (ratio_all 2 s t r e (z / 2) (6 - 6 * s)); [reflexivity|exact H2|Lqa.lra|exact D1|]. nine.
Qed.

Lemma up5 : forall s t r e z, (42#55) <= s <= (79#103) -> 2 <= t <= 4 -> 0 <= r -> 0 <= e -> obeyed (rels_j 6) ks3 s t r e z -> e <= energy_5 s * t.
Proof.
  intros s t r e z [S1 S2] [T1 T2] _ _ O. unfold energy_5. destruct (qmax_spec ((18 - 19 * s) / (6 * (15 * s - 11))) (3 * (18 - 19 * s) / (4 * (4 * s - 1)))) as (M1 & M2 & _). set (m := qmax _ _) in *. clearbody m.
  destruct (upper5 s t r e z S1 S2 T1 T2 O) as [X|X].
  - apply Qle_trans with ((18 - 19 * s) / (6 * (15 * s - 11)) * t); [|apply Qmult_le_compat_r; Lqa.lra].
    apply Qmult_lt_0_le_reg_r with (6 * (15 * s - 11)); [Lqa.lra|]. eapply Qle_trans; [exact X|]. apply Qle_lteq. right. field. Lqa.lra.
  - apply Qle_trans with (3 * (18 - 19 * s) / (4 * (4 * s - 1)) * t); [|apply Qmult_le_compat_r; Lqa.lra].
    apply Qmult_lt_0_le_reg_r with (4 * (4 * s - 1)); [Lqa.lra|]. eapply Qle_trans; [exact X|]. apply Qle_lteq. right. field. Lqa.lra.
Qed.
Section Low5.
Context (S : point -> Prop) (HS : forall s t r e z, S [s; t; r; e; z] <-> seen (rels_j 6) ks3 (42#55) (79#103) s t r e z).
Lemma inside5 : forall s t r e z d, 0 < d -> (forall s' t' r' e' z', - d <= s' - s <= d -> - d <= t' - t <= d -> - d <= r' - r <= d -> - d <= e' - e <= d -> - d <= z' - z <= d ->
  (42#55) <= s' <= (79#103) /\ 2 <= t' <= 4 /\ 0 <= r' <= 100 /\ 0 <= e' <= 100 /\ 0 <= z' <= 100 /\ j_ways (2#6) 6 s' t' r' /\ h_ways s' t' r' e') -> Spec_Region.inside S [s; t; r; e; z].
Proof.
  intros s t r e z d D0 H. exists d. split; [exact D0|]. intros y Ny. destruct (near5 _ _ _ _ _ _ _ Ny) as (s' & t' & r' & e' & z' & -> & N0 & N1 & N2 & N3 & N4).
  destruct (H s' t' r' e' z' N0 N1 N2 N3 N4) as (A1 & A2 & A3 & A4 & A5 & A6 & A7). apply HS. unfold seen, LV_DEFAULT_UPPER_BOUND. split; [exact A1|]. split; [exact A2|]. repeat (split; [split; Lqa.lra|]). intros rel k Ir Ik.
  destruct Ir as [<- | [<- | []]]; [exact (A7 k _ Ik)|]. apply (ways_j 6 (2#6) 6); [reflexivity|reflexivity|exact Ik|now apply A6].
Qed.
Lemma peak5 : forall s t d, 0 < d -> d <= 1#100000 -> (42#55) + d <= s -> s + d <= (79#103) -> t == 6 * (15 * s - 11) \/ t == (4#3) * (4 * s - 1) -> Spec_Region.inside S [s; t; 6 - 6 * s - d; 18 - 19 * s - 10 * d; 1].
Proof.
  intros s t d D0 D1 S1 S2 T. apply (inside5 _ _ _ _ _ (d * (1#1000))); [Lqa.lra|]. intros s' t' r' e' z' N0 N1 N2 N3 N4.
  split; [split; Lqa.lra|]. split; [split; destruct T; Lqa.lra|]. split; [split; Lqa.lra|]. split; [split; Lqa.lra|]. split; [split; Lqa.lra|]. split.
  - intros k [<- | [<- | [<- | []]]].
    + right; left. destruct T; Lqa.lra.
    + destruct T as [T|T]; [right; right|right; left]; Lqa.lra.
    + left. Lqa.lra.
  - intros k z0 [<- | [<- | [<- | []]]]; apply hb_lower; try reflexivity.
    + right; right. destruct T; Lqa.lra.
    + right; left. Lqa.lra.
    + left. Lqa.lra.
Qed.
Lemma low5 : forall s, (42#55) <= s -> s < (79#103) -> exists t0 e0, 0 < t0 /\ e0 == energy_5 s * t0 /\ 0 <= e0 /\ forall eps, 0 < eps -> exists s' t' r' e' z', near eps [s; t0; e0] [s'; t'; e'] /\ s < s' /\ Spec_Region.inside S [s'; t'; r'; e'; z'].
Proof.
  intros s S1 S2. unfold energy_5. destruct (qmax_spec ((18 - 19 * s) / (6 * (15 * s - 11))) (3 * (18 - 19 * s) / (4 * (4 * s - 1)))) as (_ & _ & [-> | ->]).
  - exists (6 * (15 * s - 11)), (18 - 19 * s). split; [Lqa.lra|]. split; [field; Lqa.lra|]. split; [Lqa.lra|]. intros eps Pe. destruct (tiny eps ((79#103) - s) Pe ltac:(Lqa.lra)) as (d & E0 & E1 & E2 & E3).
    exists (s + d), (6 * (15 * (s + d) - 11)), (6 - 6 * (s + d) - d), (18 - 19 * (s + d) - 10 * d), 1. split; [apply near3; split; Lqa.lra|]. split; [Lqa.lra|]. apply peak5; try Lqa.lra; left; reflexivity.
  - exists ((4#3) * (4 * s - 1)), (18 - 19 * s). split; [Lqa.lra|]. split; [field; Lqa.lra|]. split; [Lqa.lra|]. intros eps Pe. destruct (tiny eps ((79#103) - s) Pe ltac:(Lqa.lra)) as (d & E0 & E1 & E2 & E3).
    exists (s + d), ((4#3) * (4 * (s + d) - 1)), (6 - 6 * (s + d) - d), (18 - 19 * (s + d) - 10 * d), 1. split; [apply near3; split; Lqa.lra|]. split; [Lqa.lra|]. apply peak5; try Lqa.lra; right; reflexivity.
Qed.
Lemma two5 : exists x y, Spec_Region.inside S x /\ Spec_Region.inside S y /\ List.length x = List.length y /\ ~ S (mix (1#2) x y).
Proof.
  exists [(153#200); 2 + (1#100); 4 - 4 * (153#200) - (1#100); 1; 1], [(153#200); (11#4); 6 - 6 * (153#200) - (1#100); 1; 1]. split; [|split; [|split; [reflexivity|]]].
  - apply (inside5 _ _ _ _ _ (1#10000)); [reflexivity|]. intros s' t' r' e' z' N0 N1 N2 N3 N4. repeat (split; [split; Lqa.lra|]). split.
    + intros k [<- | [<- | [<- | []]]]; [right; left|left|left]; Lqa.lra.
    + intros k z0 [<- | [<- | [<- | []]]]; apply hb_lower; try reflexivity; left; Lqa.lra.
  - apply (inside5 _ _ _ _ _ (1#10000)); [reflexivity|]. intros s' t' r' e' z' N0 N1 N2 N3 N4. repeat (split; [split; Lqa.lra|]). split.
    + intros k [<- | [<- | [<- | []]]]; [right; left|right; left|left]; Lqa.lra.
    + intros k z0 [<- | [<- | [<- | []]]]; apply hb_lower; try reflexivity; left; Lqa.lra.
  - cbn. intro W. apply HS in W as (_ & _ & _ & _ & _ & O). pose proof (jutila_six _ _ _ _ _ 2 O ltac:(right; now left) ltac:(reflexivity)) as X. destruct X as [X|[X|X]]; Lqa.lra.
Qed.
End Low5.
Definition below6 (s t e : Q) : Prop := e * (2 * (37 * s - 27)) <= (18 - 19 * s) * t \/ e * (2 * (13 * s - 3)) <= 5 * (18 - 19 * s) * t.
Lemma upper6 : forall s t r e z, 79#103 <= s -> s <= 84#109 -> 2 <= t -> t <= 4 -> obeyed (rels_j 5) ks3 s t r e z -> below6 s t e.
Proof.
  intros s t r e z S1 S2 T1 T2 O. unfold below6.
  assert (D1 : 0 < 2 * (37 * s - 27)) by Lqa.lra. assert (D2 : 0 < 2 * (13 * s - 3)) by Lqa.lra.
  assert (I1 : In 1 ks3) by now left. assert (I2 : In 2 ks3) by (right; now left). assert (I3 : In 3 ks3) by (do 2 right; now left).
  assert (H : In hb_relation (rels_j 5)) by now left. assert (H1 := O _ _ H I1). assert (H2 := O _ _ H I2). assert (H3 := O _ _ H I3).
  pose proof (jutila_five _ _ _ _ _ 2 O I2 ltac:(reflexivity)) as J2. pose proof (jutila_five _ _ _ _ _ 3 O I3 ltac:(reflexivity)) as J3. clear O H I1 I2 I3.
  destruct J2 as [J2|J2].
  { right. apply (ratio_all 1 s t r e (z / 1) (4 - 4 * s)); [reflexivity|exact H1|Lqa.lra|exact D2|]. nine. }
  destruct J3 as [J3|J3].
  2:{ right. destruct J3 as [B|B]; destruct (Qlt_le_dec t (7#2)).
      - apply (ratio_all 2 s t r e (z / 2) (t + (54#5) - (84#5) * s)); [reflexivity|exact H2|Lqa.lra|exact D2|]. nine.
      - apply (ratio_all 3 s t r e (z / 3) (t + (54#5) - (84#5) * s)); [reflexivity|exact H3|Lqa.lra|exact D2|]. nine.
      - apply (ratio_all 2 s t r e (z / 2) (t + 90 - 120 * s)); [reflexivity|exact H2|Lqa.lra|exact D2|]. nine.
      - apply (ratio_all 3 s t r e (z / 3) (t + 90 - 120 * s)); [reflexivity|exact H3|Lqa.lra|exact D2|]. nine. }
  destruct J2 as [J2|J2].
  - right. destruct (Qlt_le_dec t (11#5)); [|destruct (Qlt_le_dec (5 * t) (2 * (13 * s - 3)))].
    + apply (ratio_all 1 s t r e (z / 1) (t + (36#5) - (56#5) * s)); [reflexivity|exact H1|Lqa.lra|exact D2|]. nine.
    + apply (ratio_all 2 s t r e (z / 2) (t + (36#5) - (56#5) * s)); [reflexivity|exact H2|Lqa.lra|exact D2|]. nine.
    + apply (ratio_all 2 s t r e (z / 2) (6 - 6 * s)); [reflexivity|exact H2|Lqa.lra|exact D2|]. nine.
  - left. destruct (Qlt_le_dec t (23#10)); [|destruct (Qlt_le_dec t (2 * (37 * s - 27)))].
    + apply (ratio_all 1 s t r e (z / 1) (t + 60 - 80 * s)); [reflexivity|exact H1|Lqa.lra|exact D1|]. nine.
    + apply (ratio_all 2 s t r e (z / 2) (t + 60 - 80 * s)); [reflexivity|exact H2|Lqa.lra|exact D1|]. nine.
    + apply (ratio_all 2 s t r e (z / 2) (6 - 6 * s)); [reflexivity|exact H2|Lqa.lra|exact D1|]. nine.
Qed.

Lemma up6 : forall s t r e z, (79#103) <= s <= (84#109) -> 2 <= t <= 4 -> 0 <= r -> 0 <= e -> obeyed (rels_j 5) ks3 s t r e z -> e <= energy_6 s * t.
Proof.
  intros s t r e z [S1 S2] [T1 T2] _ _ O. unfold energy_6. destruct (qmax_spec ((18 - 19 * s) / (2 * (37 * s - 27))) (5 * (18 - 19 * s) / (2 * (13 * s - 3)))) as (M1 & M2 & _). set (m := qmax _ _) in *. clearbody m.
  destruct (upper6 s t r e z S1 S2 T1 T2 O) as [X|X].
  - apply Qle_trans with ((18 - 19 * s) / (2 * (37 * s - 27)) * t); [|apply Qmult_le_compat_r; Lqa.lra].
    apply Qmult_lt_0_le_reg_r with (2 * (37 * s - 27)); [Lqa.lra|]. eapply Qle_trans; [exact X|]. apply Qle_lteq. right. field. Lqa.lra.
  - apply Qle_trans with (5 * (18 - 19 * s) / (2 * (13 * s - 3)) * t); [|apply Qmult_le_compat_r; Lqa.lra].
    apply Qmult_lt_0_le_reg_r with (2 * (13 * s - 3)); [Lqa.lra|]. eapply Qle_trans; [exact X|]. apply Qle_lteq. right. field. Lqa.lra.
Qed.
Section Low6.
Context (S : point -> Prop) (HS : forall s t r e z, S [s; t; r; e; z] <-> seen (rels_j 5) ks3 (79#103) (84#109) s t r e z).
Lemma inside6 : forall s t r e z d, 0 < d -> (forall s' t' r' e' z', - d <= s' - s <= d -> - d <= t' - t <= d -> - d <= r' - r <= d -> - d <= e' - e <= d -> - d <= z' - z <= d ->
  (79#103) <= s' <= (84#109) /\ 2 <= t' <= 4 /\ 0 <= r' <= 100 /\ 0 <= e' <= 100 /\ 0 <= z' <= 100 /\ j_ways (2#5) 5 s' t' r' /\ h_ways s' t' r' e') -> Spec_Region.inside S [s; t; r; e; z].
Proof.
  intros s t r e z d D0 H. exists d. split; [exact D0|]. intros y Ny. destruct (near5 _ _ _ _ _ _ _ Ny) as (s' & t' & r' & e' & z' & -> & N0 & N1 & N2 & N3 & N4).
  destruct (H s' t' r' e' z' N0 N1 N2 N3 N4) as (A1 & A2 & A3 & A4 & A5 & A6 & A7). apply HS. unfold seen, LV_DEFAULT_UPPER_BOUND. split; [exact A1|]. split; [exact A2|]. repeat (split; [split; Lqa.lra|]). intros rel k Ir Ik.
  destruct Ir as [<- | [<- | []]]; [exact (A7 k _ Ik)|]. apply (ways_j 5 (2#5) 5); [reflexivity|reflexivity|exact Ik|now apply A6].
Qed.
Lemma peak6 : forall s t d, 0 < d -> d <= 1#100000 -> (79#103) + d <= s -> s + d <= (84#109) -> t == 2 * (37 * s - 27) \/ t == (2#5) * (13 * s - 3) -> Spec_Region.inside S [s; t; 6 - 6 * s - d; 18 - 19 * s - 10 * d; 1].
Proof.
  intros s t d D0 D1 S1 S2 T. apply (inside6 _ _ _ _ _ (d * (1#1000))); [Lqa.lra|]. intros s' t' r' e' z' N0 N1 N2 N3 N4.
  split; [split; Lqa.lra|]. split; [split; destruct T; Lqa.lra|]. split; [split; Lqa.lra|]. split; [split; Lqa.lra|]. split; [split; Lqa.lra|]. split.
  - intros k [<- | [<- | [<- | []]]].
    + right; left. destruct T; Lqa.lra.
    + destruct T as [T|T]; [right; right|right; left]; Lqa.lra.
    + left. Lqa.lra.
  - intros k z0 [<- | [<- | [<- | []]]]; apply hb_lower; try reflexivity.
    + right; right. destruct T; Lqa.lra.
    + right; left. Lqa.lra.
    + left. Lqa.lra.
Qed.
Lemma low6 : forall s, (79#103) <= s -> s < (84#109) -> exists t0 e0, 0 < t0 /\ e0 == energy_6 s * t0 /\ 0 <= e0 /\ forall eps, 0 < eps -> exists s' t' r' e' z', near eps [s; t0; e0] [s'; t'; e'] /\ s < s' /\ Spec_Region.inside S [s'; t'; r'; e'; z'].
Proof.
  intros s S1 S2. unfold energy_6. destruct (qmax_spec ((18 - 19 * s) / (2 * (37 * s - 27))) (5 * (18 - 19 * s) / (2 * (13 * s - 3)))) as (_ & _ & [-> | ->]).
  - exists (2 * (37 * s - 27)), (18 - 19 * s). split; [Lqa.lra|]. split; [field; Lqa.lra|]. split; [Lqa.lra|]. intros eps Pe. destruct (tiny eps ((84#109) - s) Pe ltac:(Lqa.lra)) as (d & E0 & E1 & E2 & E3).
    exists (s + d), (2 * (37 * (s + d) - 27)), (6 - 6 * (s + d) - d), (18 - 19 * (s + d) - 10 * d), 1. split; [apply near3; split; Lqa.lra|]. split; [Lqa.lra|]. apply peak6; try Lqa.lra; left; reflexivity.
  - exists ((2#5) * (13 * s - 3)), (18 - 19 * s). split; [Lqa.lra|]. split; [field; Lqa.lra|]. split; [Lqa.lra|]. intros eps Pe. destruct (tiny eps ((84#109) - s) Pe ltac:(Lqa.lra)) as (d & E0 & E1 & E2 & E3).
    exists (s + d), ((2#5) * (13 * (s + d) - 3)), (6 - 6 * (s + d) - d), (18 - 19 * (s + d) - 10 * d), 1. split; [apply near3; split; Lqa.lra|]. split; [Lqa.lra|]. apply peak6; try Lqa.lra; right; reflexivity.
Qed.
Lemma two6 : exists x y, Spec_Region.inside S x /\ Spec_Region.inside S y /\ List.length x = List.length y /\ ~ S (mix (1#2) x y).
Proof.
  exists [(769#1000); 2 + (1#100); 4 - 4 * (769#1000) - (1#100); 1; 1], [(769#1000); (281#100); 6 - 6 * (769#1000) - (1#100); 1; 1]. split; [|split; [|split; [reflexivity|]]].
  - apply (inside6 _ _ _ _ _ (1#10000)); [reflexivity|]. intros s' t' r' e' z' N0 N1 N2 N3 N4. repeat (split; [split; Lqa.lra|]). split.
    + intros k [<- | [<- | [<- | []]]]; [right; left|left|left]; Lqa.lra.
    + intros k z0 [<- | [<- | [<- | []]]]; apply hb_lower; try reflexivity; left; Lqa.lra.
  - apply (inside6 _ _ _ _ _ (1#10000)); [reflexivity|]. intros s' t' r' e' z' N0 N1 N2 N3 N4. repeat (split; [split; Lqa.lra|]). split.
    + intros k [<- | [<- | [<- | []]]]; [right; left|right; left|left]; Lqa.lra.
    + intros k z0 [<- | [<- | [<- | []]]]; apply hb_lower; try reflexivity; left; Lqa.lra.
  - cbn. intro W. apply HS in W as (_ & _ & _ & _ & _ & O). pose proof (jutila_five _ _ _ _ _ 2 O ltac:(right; now left) ltac:(reflexivity)) as X. destruct X as [X|[X|X]]; Lqa.lra.
Qed.
End Low6.
