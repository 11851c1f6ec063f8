(** C73: the largest rho* / tau in the fourth, the eighth and the tenth derivation. *)
From Coq Require Import Reals Qreals Permutation Classical.
From Verif Require Import Base LinAlg Model_Polytope Spec_Polytope Proof_Polytope Proof_PolytopeLP Proof_Interval Proof_Piecewise Model_Region Spec_Region Model_LargeValues Spec_LargeValues Model_AdditiveEnergy Spec_AdditiveEnergy Prop_AdditiveEnergy
  Model_EnergyDerivation Spec_EnergyDerivation Model_LiteratureLV Spec_LiteratureEnergy Spec_DerivedDensity Prop_DerivedDensity Spec_EnergyProofs Proof_EnergyProofs Proof_EnergyTwoValue Proof_EnergyJutila.
From Coq Require Import Lra.
Open Scope list_scope.
Local Open Scope Q_scope.

(** Each of the nine bounds may be below one or the other of two. *)
Lemma ratio_pair : forall k s t r e z rm D1 N1 D2 N2, 0 < k -> hb_relation s (t / k) (r / k) (e / k) z -> r <= rm -> 0 < D1 -> 0 < D2 ->
  Forall (fun X => Forall (fun y => y * D1 <= N1 * t \/ y * D2 <= N2 * t) [3 * k - 4 * (k * s) + X; k - 2 * (k * s) + (1#2) * X + 2 * rm; (8#5) * (k - 2 * (k * s) + (1#2) * X + (1#2) * rm + (1#4) * t)])
    [rm + k; 2 * rm; (5#4) * rm + (1#2) * t] -> e * D1 <= N1 * t \/ e * D2 <= N2 * t.
Proof.
  intros k s t r e z rm D1 N1 D2 N2 K H R P1 P2 F. destruct (hb_ways k s t r e z rm K H R) as (X & HX & HE). rewrite Forall_forall in F.
  assert (Y : exists Y, In Y [rm + k; 2 * rm; (5#4) * rm + (1#2) * t] /\ X <= Y) by (destruct HX as [L|[L|L]]; eexists; (split; [|exact L]); cbn; tauto).
  destruct Y as (Y & IY & L). specialize (F Y IY). rewrite Forall_forall in F.
  assert (V : exists y, In y [3 * k - 4 * (k * s) + Y; k - 2 * (k * s) + (1#2) * Y + 2 * rm; (8#5) * (k - 2 * (k * s) + (1#2) * Y + (1#2) * rm + (1#4) * t)] /\ e <= y).
  { destruct HE as [HE|[HE|HE]]; [exists (3 * k - 4 * (k * s) + Y)|exists (k - 2 * (k * s) + (1#2) * Y + 2 * rm)|exists ((8#5) * (k - 2 * (k * s) + (1#2) * Y + (1#2) * rm + (1#4) * t))]; (split; [cbn; tauto|Lqa.lra]). }
  destruct V as (y & Iy & Ly). destruct (F y Iy) as [G|G]; [left|right]; eapply ratio_le; eassumption.
Qed.
Lemma hb_lower53 : forall k s t r e z, 0 < k -> 5 * e <= 8 * k - 16 * (k * s) + 9 * r + 4 * t -> hb_relation s (t / k) (r / k) (e / k) z.
Proof.
  intros k s t r e z K H. assert (NZ : ~ k == 0) by (intro Z; rewrite Z in K; now apply Qlt_irrefl in K). unfold hb_relation.
  assert (Rk : k * (r / k) == r) by (field; exact NZ). assert (Tk : k * (t / k) == t) by (field; exact NZ). assert (Ek : k * (e / k) == e) by (field; exact NZ).
  set (x := r / k) in *. set (y := t / k) in *. set (w := e / k) in *. clearbody x y w.
  pose proof (max3_ge (x + 1) (2 * x) ((5#4) * x + y * (1#2))) as (M1 & M2 & M3). pose proof (max3_ge (w + 1) (4 * x) ((3#4) * w + x + y * (1#2))) as (M4 & M5 & M6).
  set (P := max3 (x + 1) _ _) in *. set (S := max3 (w + 1) _ _) in *. clearbody P S.
  assert (Y : 5 * w <= 8 - 16 * s + 9 * x + 4 * y) by (apply (Qmult_le_l _ _ k K); Lqa.lra). Lqa.lra.
Qed.
Definition rels_g (k : Z) : list Spec_LiteratureEnergy.relation := [hb_relation; lv_relation gm_bounds; lv_relation (jutila_bounds k)].
Definition g_ways (s t r : Q) : Prop := forall k, In k ks3 -> r <= k * (2 - 2 * s) \/ r <= k * ((18#5) - 4 * s) \/ r <= t + k * ((12#5) - 4 * s).
Lemma gm_in : forall n s t r e z k, obeyed (rels_g n) ks3 s t r e z -> In k ks3 -> 0 < k -> r <= k * (2 - 2 * s) \/ r <= k * ((18#5) - 4 * s) \/ r <= t + k * ((12#5) - 4 * s).
Proof.
  intros n s t r e z k O Ik K. pose proof (lv_in _ _ gm_bounds k _ _ _ _ _ O ltac:(right; now left) Ik K) as X. unfold gm_bounds in X. exs X; [left|right; left|right; right]; Lqa.lra.
Qed.
Lemma jut_in : forall n q K s t r e z k, inject_Z n == K -> 2 / inject_Z n == q -> obeyed (rels_g n) ks3 s t r e z -> In k ks3 -> 0 < k -> r <= k * (2 - 2 * s) \/ r <= t + k * ((4 - q) - (6 - q) * s) \/ r <= t + k * (6 * K - 8 * K * s).
Proof.
  intros n q K s t r e z k EK Eq O Ik K0. pose proof (lv_in _ _ (jutila_bounds n) k _ _ _ _ _ O ltac:(do 2 right; now left) Ik K0) as X. unfold jutila_bounds in X.
  exs X; rewrite ?Eq, ?EK in X; [left|right; left|right; right]; Lqa.lra.
Qed.
Lemma ways_g : forall k s t r e z, In k ks3 -> (r <= k * (2 - 2 * s) \/ r <= k * ((18#5) - 4 * s) \/ r <= t + k * ((12#5) - 4 * s)) -> lv_relation gm_bounds s (t / k) (r / k) e z.
Proof.
  intros k s t r e z Ik H. assert (K0 : 0 < k) by (destruct Ik as [<- | [<- | [<- | []]]]; reflexivity). apply lv_power; [exact K0|]. unfold gm_bounds.
  destruct H as [H|[H|H]]; [apply Exists_cons_hd|apply Exists_cons_tl, Exists_cons_hd|apply Exists_cons_tl, Exists_cons_tl, Exists_cons_hd]; cbn [nth]; Lqa.lra.
Qed.
Ltac only_st := match goal with H : hb_relation _ (_ / 1) (?r / 1) (?e / 1) _ |- _ => repeat match goal with X : context [r] |- _ => clear X end; repeat match goal with X : context [e] |- _ => clear X end end; repeat match goal with X : 0 < _ |- _ => clear X end.
Ltac nine' := only_st; repeat constructor; timeout 20 Lqa.nra.
Ltac use_k k rm := eapply (ratio_all k _ _ _ _ _ rm); [reflexivity|lazymatch goal with H : hb_relation _ (_ / k) _ _ _ |- _ => exact H end|Lqa.lra|Lqa.lra|nine'].
Ltac pair_k k rm := eapply (ratio_pair k _ _ _ _ _ rm); [reflexivity|lazymatch goal with H : hb_relation _ (_ / k) _ _ _ |- _ => exact H end|Lqa.lra|Lqa.lra|Lqa.lra|].
Lemma by_ratio : forall e D N t m, 0 < D -> 0 < t -> e * D <= N * t -> N / D <= m -> e <= m * t.
Proof.
  intros e D N t m D0 T X M. apply Qle_trans with (N / D * t); [|apply Qmult_le_compat_r; Lqa.lra]. apply Qmult_lt_0_le_reg_r with D; [exact D0|]. eapply Qle_trans; [exact X|]. apply Qle_lteq. right. field. Lqa.lra.
Qed.
Lemma ratio_order : forall N1 D1 N2 D2, 0 < D1 -> 0 < D2 -> N1 * D2 <= N2 * D1 -> N1 / D1 <= N2 / D2.
Proof. intros. apply Qle_shift_div_l; [assumption|]. setoid_replace (N1 / D1 * D2) with (N1 * D2 / D1) by (field; Lqa.lra). now apply Qle_shift_div_r. Qed.
Lemma order_ratio : forall N1 D1 N2 D2, 0 < D1 -> 0 < D2 -> N1 / D1 <= N2 / D2 -> N1 * D2 <= N2 * D1.
Proof.
  intros N1 D1 N2 D2 P1 P2 H. apply (Qmult_le_compat_r _ _ (D1 * D2)) in H; [|apply Qlt_le_weak, Qmult_lt_0_compat; assumption].
  setoid_replace (N1 / D1 * (D1 * D2)) with (N1 * D2) in H by (field; Lqa.lra). setoid_replace (N2 / D2 * (D1 * D2)) with (N2 * D1) in H by (field; Lqa.lra). exact H.
Qed.

Definition below8 (s t e : Q) : Prop := e * (16 * (125 * s - 93)) <= (270 * s - 173) * t \/ e * (10 * (125 * s - 93)) <= (890 * s - 653) * t \/ e * (20 * (15 * s - 2)) <= (1151 - 1190 * s) * t.
Lemma upper8 : forall s t r e z, (37#49) <= s -> s <= (443#586) -> 2 <= t -> t <= 4 -> obeyed (rels_g 13) ks3 s t r e z -> below8 s t e.
Proof.
  intros s t r e z S1 S2 T1 T2 O.
  assert (V3 : e * (20 * (15 * s - 2)) <= (1151 - 1190 * s) * t -> below8 s t e) by (unfold below8; tauto).
  assert (P1 : 0 < 16 * (125 * s - 93)) by Lqa.lra. assert (P2 : 0 < 10 * (125 * s - 93)) by Lqa.lra. assert (P3 : 0 < 20 * (15 * s - 2)) by Lqa.lra.
  assert (I1 : In 1 ks3) by now left. assert (I2 : In 2 ks3) by (right; now left). assert (I3 : In 3 ks3) by (do 2 right; now left).
  assert (H : In hb_relation (rels_g 13)) by now left. assert (H1 := O _ _ H I1). assert (H2 := O _ _ H I2). assert (H3 := O _ _ H I3).
  pose proof (jut_in 13 (2#13) 13 _ _ _ _ _ 2 ltac:(reflexivity) ltac:(reflexivity) O I2 ltac:(reflexivity)) as J2. pose proof (jut_in 13 (2#13) 13 _ _ _ _ _ 3 ltac:(reflexivity) ltac:(reflexivity) O I3 ltac:(reflexivity)) as J3.
  pose proof (gm_in _ _ _ _ _ _ 2 O I2 ltac:(reflexivity)) as G2. pose proof (gm_in _ _ _ _ _ _ 3 O I3 ltac:(reflexivity)) as G3. clear O H I1 I2 I3.
  destruct (Qlt_le_dec (4 - 4 * s) r) as [A2|A2]; [|apply V3; use_k 1 (4 - 4 * s)].
  destruct J2 as [J2|J2]; [exfalso; Lqa.lra|]. destruct G2 as [G2|G2]; [exfalso; Lqa.lra|].
  destruct (Qlt_le_dec t (12#5)) as [T|T].
  - assert (B2 : r <= (36#5) - 8 * s) by (destruct G2; Lqa.lra). clear G2 J3 G3.
    destruct (Qlt_le_dec t ((16#65) * (15 * s - 2))) as [U|U]; [|apply V3; use_k 1 ((36#5) - 8 * s)].
    destruct J2 as [J2|J2]; [apply V3; use_k 1 (t + (100#13) - (152#13) * s)|].
    assert (V12 : e * (16 * (125 * s - 93)) <= (270 * s - 173) * t \/ e * (10 * (125 * s - 93)) <= (890 * s - 653) * t -> below8 s t e) by (unfold below8; tauto). apply V12.
    destruct (Qlt_le_dec t ((8#5) * (125 * s - 93))) as [W|W].
    + pair_k 1 (t + 156 - 208 * s). only_st; repeat (apply Forall_cons || apply Forall_nil); first [left; timeout 5 Lqa.nra|right; timeout 20 Lqa.nra].
    + pair_k 1 ((36#5) - 8 * s). only_st; repeat (apply Forall_cons || apply Forall_nil); first [left; timeout 5 Lqa.nra|right; timeout 20 Lqa.nra].
  - assert (C2 : r <= t + (24#5) - 8 * s) by (destruct G2; Lqa.lra). clear G2 J2. apply V3.
    destruct (Qlt_le_dec t ((6#5) + 2 * s)) as [U|U]; [use_k 2 (t + (24#5) - 8 * s)|].
    destruct (Qlt_le_dec (6 - 6 * s) r) as [A3|A3]; [|use_k 2 (6 - 6 * s)].
    destruct J3 as [J3|J3]; [exfalso; Lqa.lra|]. destruct G3 as [G3|G3]; [exfalso; Lqa.lra|].
    destruct (Qlt_le_dec t (33#10)) as [T3|T3]; [destruct J3 as [J3|J3]; [use_k 2 (t + (150#13) - (228#13) * s)|use_k 2 (t + 234 - 312 * s)]|].
    destruct (Qlt_le_dec t (18#5)) as [T4|T4].
    + assert (B3 : r <= (54#5) - 12 * s) by (destruct G3; Lqa.lra). use_k 2 ((54#5) - 12 * s).
    + assert (C3 : r <= t + (36#5) - 12 * s) by (destruct G3; Lqa.lra). use_k 3 (t + (36#5) - 12 * s).
Qed.
Lemma up8 : forall s t r e z, (37#49) <= s <= (443#586) -> 2 <= t <= 4 -> 0 <= r -> 0 <= e -> obeyed (rels_g 13) ks3 s t r e z -> e <= energy_8 s * t.
Proof.
  intros s t r e z [S1 S2] [T1 T2] _ _ O. unfold energy_8. destruct (qmax_spec ((890 * s - 653) / (10 * (125 * s - 93))) ((1151 - 1190 * s) / (20 * (15 * s - 2)))) as (M2 & M3 & _). set (m' := qmax ((890 * s - 653) / (10 * (125 * s - 93))) ((1151 - 1190 * s) / (20 * (15 * s - 2)))) in *. destruct (qmax_spec ((270 * s - 173) / (16 * (125 * s - 93))) m') as (M1 & M' & _). set (m := qmax ((270 * s - 173) / (16 * (125 * s - 93))) m') in *. clearbody m m'.
  destruct (upper8 s t r e z S1 S2 T1 T2 O) as [X|[X|X]]; (eapply by_ratio; [| |exact X|]; [Lqa.lra|Lqa.lra|]); Lqa.lra.
Qed.
Section Low8.
Context (S : point -> Prop) (HS : forall s t r e z, S [s; t; r; e; z] <-> seen (rels_g 13) ks3 (37#49) (443#586) s t r e z).
Lemma inside8 : forall s t r e z d, 0 < d -> (forall s' t' r' e' z', - d <= s' - s <= d -> - d <= t' - t <= d -> - d <= r' - r <= d -> - d <= e' - e <= d -> - d <= z' - z <= d ->
  (37#49) <= s' <= (443#586) /\ 2 <= t' <= 4 /\ 0 <= r' <= 100 /\ 0 <= e' <= 100 /\ 0 <= z' <= 100 /\ j_ways (2#13) 13 s' t' r' /\ g_ways s' t' r' /\ h_ways s' t' r' e') -> Spec_Region.inside S [s; t; r; e; z].
Proof.
  intros s t r e z d D0 H. exists d. split; [exact D0|]. intros y Ny. destruct (near5 _ _ _ _ _ _ _ Ny) as (s' & t' & r' & e' & z' & -> & N0 & N1 & N2 & N3 & N4).
  destruct (H s' t' r' e' z' N0 N1 N2 N3 N4) as (A1 & A2 & A3 & A4 & A5 & A6 & A7 & A8). apply HS. unfold seen, LV_DEFAULT_UPPER_BOUND. split; [exact A1|]. split; [exact A2|]. repeat (split; [split; Lqa.lra|]). intros rel k Ir Ik.
  destruct Ir as [<- | [<- | [<- | []]]]; [exact (A8 k _ Ik)|apply ways_g; [exact Ik|now apply A7]|]. apply (ways_j 13 (2#13) 13); [reflexivity|reflexivity|exact Ik|now apply A6].
Qed.
Lemma peak8_1 : forall s d, 0 < d -> d <= 1#100000 -> (37#49) + d <= s -> s + d <= (443#586) -> s <= (7555#10000) + d -> Spec_Region.inside S [s; (8#5) * (125 * s - 93); (36#5) - 8 * s - d; 27 * s - (173#10) - 300 * d; 1].
Proof.
  intros s d D0 D1 S1 S2 C. apply (inside8 _ _ _ _ _ (d * (1#1000))); [Lqa.lra|]. intros s' t' r' e' z' N0 N1 N2 N3 N4.
  repeat (split; [split; Lqa.lra|]). split; [|split].
  - intros k [<- | [<- | [<- | []]]]; [right; left|right; right|left]; Lqa.lra.
  - intros k [<- | [<- | [<- | []]]]; [right; right|right; left|left]; Lqa.lra.
  - intros k z0 [<- | [<- | [<- | []]]]; [apply hb_lower; [reflexivity|right; right; Lqa.lra]|apply hb_lower; [reflexivity|left; Lqa.lra]|apply hb_lower; [reflexivity|left; Lqa.lra]].
Qed.
Lemma peak8_2 : forall s d, 0 < d -> d <= 1#100000 -> (37#49) + d <= s -> s + d <= (443#586) -> s <= (7555#10000) + d -> Spec_Region.inside S [s; (8#5) * (125 * s - 93); (36#5) - 8 * s - d; (712#5) * s - (2612#25) - 300 * d; 1].
Proof.
  intros s d D0 D1 S1 S2 C. apply (inside8 _ _ _ _ _ (d * (1#1000))); [Lqa.lra|]. intros s' t' r' e' z' N0 N1 N2 N3 N4.
  repeat (split; [split; Lqa.lra|]). split; [|split].
  - intros k [<- | [<- | [<- | []]]]; [right; left|right; right|left]; Lqa.lra.
  - intros k [<- | [<- | [<- | []]]]; [right; right|right; left|left]; Lqa.lra.
  - intros k z0 [<- | [<- | [<- | []]]]; [apply hb_lower53; [reflexivity|Lqa.lra]|apply hb_lower; [reflexivity|left; Lqa.lra]|apply hb_lower; [reflexivity|left; Lqa.lra]].
Qed.
Lemma peak8_3 : forall s d, 0 < d -> d <= 1#100000 -> (37#49) + d <= s -> s + d <= (443#586) -> 0 < d -> Spec_Region.inside S [s; (16#65) * (15 * s - 2); (36#5) - 8 * s - d; (1#5) * ((364#5) - 88 * s + (64#65) * (15 * s - 2)) - 300 * d; 1].
Proof.
  intros s d D0 D1 S1 S2 C. apply (inside8 _ _ _ _ _ (d * (1#1000))); [Lqa.lra|]. intros s' t' r' e' z' N0 N1 N2 N3 N4.
  repeat (split; [split; Lqa.lra|]). split; [|split].
  - intros k [<- | [<- | [<- | []]]]; [right; left|right; left|left]; Lqa.lra.
  - intros k [<- | [<- | [<- | []]]]; [right; right|right; left|left]; Lqa.lra.
  - intros k z0 [<- | [<- | [<- | []]]]; [apply hb_lower53; [reflexivity|Lqa.lra]|apply hb_lower; [reflexivity|left; Lqa.lra]|apply hb_lower; [reflexivity|left; Lqa.lra]].
Qed.
Lemma low8 : forall s, (37#49) <= s -> s < (443#586) -> exists t0 e0, 0 < t0 /\ e0 == energy_8 s * t0 /\ 0 <= e0 /\ forall eps, 0 < eps -> exists s' t' r' e' z', near eps [s; t0; e0] [s'; t'; e'] /\ s < s' /\ Spec_Region.inside S [s'; t'; r'; e'; z'].
Proof.
  intros s S1 S2. unfold energy_8. destruct (qmax_spec ((890 * s - 653) / (10 * (125 * s - 93))) ((1151 - 1190 * s) / (20 * (15 * s - 2)))) as (M2 & M3 & M23). set (m' := qmax ((890 * s - 653) / (10 * (125 * s - 93))) ((1151 - 1190 * s) / (20 * (15 * s - 2)))) in *. destruct (qmax_spec ((270 * s - 173) / (16 * (125 * s - 93))) m') as (M1 & M' & [Eq|Eq]); rewrite Eq in *.
  - assert (L : ((890 * s - 653) / (10 * (125 * s - 93))) <= ((270 * s - 173) / (16 * (125 * s - 93)))) by (eapply Qle_trans; [exact M2|exact M']).
    apply order_ratio in L; try Lqa.lra. assert (C : s <= (7555#10000)) by (assert (0 < 16 * (125 * s - 93)) by Lqa.lra; Lqa.nra). clear Eq M1 M' M2 M3 M23 m' L.
    exists ((8#5) * (125 * s - 93)), (27 * s - (173#10)). split; [Lqa.lra|]. split; [field; Lqa.lra|]. split; [Lqa.lra|]. intros eps Pe. destruct (tiny (eps * (1#1000)) ((443#586) - s) ltac:(Lqa.lra) ltac:(Lqa.lra)) as (d & E0 & E1 & E2 & E3).
    exists (s + d), ((8#5) * (125 * (s + d) - 93)), ((36#5) - 8 * (s + d) - d), (27 * (s + d) - (173#10) - 300 * d), 1. split; [apply near3; split; Lqa.lra|]. split; [Lqa.lra|]. apply peak8_1; Lqa.lra.
  - destruct M23 as [Eq'|Eq']; rewrite Eq' in *.
    + apply order_ratio in M3; try Lqa.lra. assert (C : s <= (7555#10000)) by (assert (0 < 10 * (125 * s - 93)) by Lqa.lra; Lqa.nra). clear Eq Eq' M1 M' M2 M3 m'.
    exists ((8#5) * (125 * s - 93)), ((712#5) * s - (2612#25)). split; [Lqa.lra|]. split; [field; Lqa.lra|]. split; [Lqa.lra|]. intros eps Pe. destruct (tiny (eps * (1#1000)) ((443#586) - s) ltac:(Lqa.lra) ltac:(Lqa.lra)) as (d & E0 & E1 & E2 & E3).
    exists (s + d), ((8#5) * (125 * (s + d) - 93)), ((36#5) - 8 * (s + d) - d), ((712#5) * (s + d) - (2612#25) - 300 * d), 1. split; [apply near3; split; Lqa.lra|]. split; [Lqa.lra|]. apply peak8_2; Lqa.lra.
    + clear Eq Eq' M1 M' M2 M3 m'.
    exists ((16#65) * (15 * s - 2)), ((1#5) * ((364#5) - 88 * s + (64#65) * (15 * s - 2))). split; [Lqa.lra|]. split; [field; Lqa.lra|]. split; [Lqa.lra|]. intros eps Pe. destruct (tiny (eps * (1#1000)) ((443#586) - s) ltac:(Lqa.lra) ltac:(Lqa.lra)) as (d & E0 & E1 & E2 & E3).
    exists (s + d), ((16#65) * (15 * (s + d) - 2)), ((36#5) - 8 * (s + d) - d), ((1#5) * ((364#5) - 88 * (s + d) + (64#65) * (15 * (s + d) - 2)) - 300 * d), 1. split; [apply near3; split; Lqa.lra|]. split; [Lqa.lra|]. apply peak8_3; Lqa.lra.
Qed.
Lemma two8 : exists x y, Spec_Region.inside S x /\ Spec_Region.inside S y /\ List.length x = List.length y /\ ~ S (mix (1#2) x y).
Proof.
  exists [(7556#10000); (2001#1000); (9766#10000); 1; 1], [(7556#10000); (230#100); (1153#1000); 1; 1]. split; [|split; [|split; [reflexivity|]]].
  - apply (inside8 _ _ _ _ _ (1#100000)); [reflexivity|]. intros s' t' r' e' z' N0 N1 N2 N3 N4. repeat (split; [split; Lqa.lra|]). split; [|split].
    + intros k [<- | [<- | [<- | []]]]; [right; left|left|left]; Lqa.lra.
    + intros k [<- | [<- | [<- | []]]]; [right; right|left|left]; Lqa.lra.
    + intros k z0 [<- | [<- | [<- | []]]]; apply hb_lower; try reflexivity; left; Lqa.lra.
  - apply (inside8 _ _ _ _ _ (1#100000)); [reflexivity|]. intros s' t' r' e' z' N0 N1 N2 N3 N4. repeat (split; [split; Lqa.lra|]). split; [|split].
    + intros k [<- | [<- | [<- | []]]]; [right; left|right; left|left]; Lqa.lra.
    + intros k [<- | [<- | [<- | []]]]; [right; right|right; left|left]; Lqa.lra.
    + intros k z0 [<- | [<- | [<- | []]]]; apply hb_lower; try reflexivity; left; Lqa.lra.
  - cbn. intro W. apply HS in W as (_ & _ & _ & _ & _ & O). pose proof (jut_in 13 (2#13) 13 _ _ _ _ _ 2 ltac:(reflexivity) ltac:(reflexivity) O ltac:(right; now left) ltac:(reflexivity)) as X. destruct X as [X|[X|X]]; Lqa.lra.
Qed.
End Low8.

Definition below10 (s t e : Q) : Prop := s <= (314#415) /\ e * (30 * (35 * s - 26)) <= (730 * s - 533) * t \/ (314#415) <= s /\ e * (85 * s - 62) <= (3 * (26 - 33 * s)) * t \/ e * (31 * s + 2) <= (174 - 185 * s) * t.
Lemma upper10 : forall s t r e z, (373#493) <= s -> s <= (103#136) -> 2 <= t -> t <= 4 -> obeyed (rels_g 11) ks3 s t r e z -> below10 s t e.
Proof.
  intros s t r e z S1 S2 T1 T2 O.
  assert (V3 : e * (31 * s + 2) <= (174 - 185 * s) * t -> below10 s t e) by (unfold below10; tauto).
  assert (P1 : 0 < 30 * (35 * s - 26)) by Lqa.lra. assert (P2 : 0 < 85 * s - 62) by Lqa.lra. assert (P3 : 0 < 31 * s + 2) by Lqa.lra.
  assert (I1 : In 1 ks3) by now left. assert (I2 : In 2 ks3) by (right; now left). assert (I3 : In 3 ks3) by (do 2 right; now left).
  assert (H : In hb_relation (rels_g 11)) by now left. assert (H1 := O _ _ H I1). assert (H2 := O _ _ H I2). assert (H3 := O _ _ H I3).
  pose proof (jut_in 11 (2#11) 11 _ _ _ _ _ 2 ltac:(reflexivity) ltac:(reflexivity) O I2 ltac:(reflexivity)) as J2. pose proof (jut_in 11 (2#11) 11 _ _ _ _ _ 3 ltac:(reflexivity) ltac:(reflexivity) O I3 ltac:(reflexivity)) as J3.
  pose proof (gm_in _ _ _ _ _ _ 2 O I2 ltac:(reflexivity)) as G2. pose proof (gm_in _ _ _ _ _ _ 3 O I3 ltac:(reflexivity)) as G3. clear O H I1 I2 I3.
  destruct (Qlt_le_dec (4 - 4 * s) r) as [A2|A2]; [|apply V3; use_k 1 (4 - 4 * s)].
  destruct J2 as [J2|J2]; [exfalso; Lqa.lra|]. destruct G2 as [G2|G2]; [exfalso; Lqa.lra|].
  destruct (Qlt_le_dec t (12#5)) as [T|T].
  - assert (B2 : r <= (36#5) - 8 * s) by (destruct G2; Lqa.lra). clear G2 J3 G3.
    destruct J2 as [J2|J2]; [apply V3; destruct (Qlt_le_dec t ((1#11) * (31 * s + 2))); [use_k 1 (t + (84#11) - (128#11) * s)|use_k 2 (t + (84#11) - (128#11) * s)]|].
    unfold below10. destruct (Qlt_le_dec s (314#415)) as [L|L].
    + left. split; [Lqa.lra|]. destruct (Qlt_le_dec t ((24#5) * (35 * s - 26))) as [W|W]; [use_k 1 (t + 132 - 176 * s)|use_k 1 ((36#5) - 8 * s)].
    + right; left. split; [Lqa.lra|]. destruct (Qlt_le_dec t (85 * s - 62)) as [W|W]; [use_k 1 (t + 132 - 176 * s)|use_k 2 (t + 132 - 176 * s)].
  - assert (C2 : r <= t + (24#5) - 8 * s) by (destruct G2; Lqa.lra). clear G2 J2. apply V3.
    destruct (Qlt_le_dec t ((6#5) + 2 * s)) as [U|U]; [use_k 2 (t + (24#5) - 8 * s)|].
    destruct (Qlt_le_dec (6 - 6 * s) r) as [A3|A3]; [|use_k 2 (6 - 6 * s)].
    destruct J3 as [J3|J3]; [exfalso; Lqa.lra|]. destruct G3 as [G3|G3]; [exfalso; Lqa.lra|].
    destruct (Qlt_le_dec t (33#10)) as [T3|T3]; [destruct J3 as [J3|J3]; [use_k 2 (t + (126#11) - (192#11) * s)|use_k 2 (t + 198 - 264 * s)]|].
    destruct (Qlt_le_dec t (18#5)) as [T4|T4].
    + assert (B3 : r <= (54#5) - 12 * s) by (destruct G3; Lqa.lra). use_k 2 ((54#5) - 12 * s).
    + assert (C3 : r <= t + (36#5) - 12 * s) by (destruct G3; Lqa.lra). use_k 3 (t + (36#5) - 12 * s).
Qed.
Lemma up10 : forall s t r e z, (373#493) <= s <= (103#136) -> 2 <= t <= 4 -> 0 <= r -> 0 <= e -> obeyed (rels_g 11) ks3 s t r e z -> e <= energy_10 s * t.
Proof.
  intros s t r e z [S1 S2] [T1 T2] _ _ O. unfold energy_10. destruct (qmin_spec ((730 * s - 533) / (30 * (35 * s - 26))) ((3 * (26 - 33 * s)) / (85 * s - 62))) as (_ & _ & Mm). set (m' := qmin ((730 * s - 533) / (30 * (35 * s - 26))) ((3 * (26 - 33 * s)) / (85 * s - 62))) in *. destruct (qmax_spec m' ((174 - 185 * s) / (31 * s + 2))) as (M1 & M3 & _). set (m := qmax m' ((174 - 185 * s) / (31 * s + 2))) in *. clearbody m.
  destruct (upper10 s t r e z S1 S2 T1 T2 O) as [[L X]|[[L X]|X]].
  - apply (by_ratio e (30 * (35 * s - 26)) (730 * s - 533)); [Lqa.lra|Lqa.lra|exact X|]. eapply Qle_trans; [|exact M1]. destruct Mm as [-> | ->]; [apply Qle_refl|]. apply ratio_order; [Lqa.lra|Lqa.lra|Lqa.nra].
  - apply (by_ratio e (85 * s - 62) (3 * (26 - 33 * s))); [Lqa.lra|Lqa.lra|exact X|]. eapply Qle_trans; [|exact M1]. destruct Mm as [-> | ->]; [|apply Qle_refl]. apply ratio_order; [Lqa.lra|Lqa.lra|Lqa.nra].
  - apply (by_ratio e (31 * s + 2) (174 - 185 * s)); [Lqa.lra|Lqa.lra|exact X|exact M3].
Qed.
Section Low10.
Context (S : point -> Prop) (HS : forall s t r e z, S [s; t; r; e; z] <-> seen (rels_g 11) ks3 (373#493) (103#136) s t r e z).
Lemma inside10 : forall s t r e z d, 0 < d -> (forall s' t' r' e' z', - d <= s' - s <= d -> - d <= t' - t <= d -> - d <= r' - r <= d -> - d <= e' - e <= d -> - d <= z' - z <= d ->
  (373#493) <= s' <= (103#136) /\ 2 <= t' <= 4 /\ 0 <= r' <= 100 /\ 0 <= e' <= 100 /\ 0 <= z' <= 100 /\ j_ways (2#11) 11 s' t' r' /\ g_ways s' t' r' /\ h_ways s' t' r' e') -> Spec_Region.inside S [s; t; r; e; z].
Proof.
  intros s t r e z d D0 H. exists d. split; [exact D0|]. intros y Ny. destruct (near5 _ _ _ _ _ _ _ Ny) as (s' & t' & r' & e' & z' & -> & N0 & N1 & N2 & N3 & N4).
  destruct (H s' t' r' e' z' N0 N1 N2 N3 N4) as (A1 & A2 & A3 & A4 & A5 & A6 & A7 & A8). apply HS. unfold seen, LV_DEFAULT_UPPER_BOUND. split; [exact A1|]. split; [exact A2|]. repeat (split; [split; Lqa.lra|]). intros rel k Ir Ik.
  destruct Ir as [<- | [<- | [<- | []]]]; [exact (A8 k _ Ik)|apply ways_g; [exact Ik|now apply A7]|]. apply (ways_j 11 (2#11) 11); [reflexivity|reflexivity|exact Ik|now apply A6].
Qed.
Lemma peak10_1 : forall s d, 0 < d -> d <= 1#100000 -> (373#493) + d <= s -> s + d <= (103#136) -> s <= (314#415) + d -> Spec_Region.inside S [s; (24#5) * (35 * s - 26); (36#5) - 8 * s - d; (1#5) * (584 * s - (2132#5)) - 300 * d; 1].
Proof.
  intros s d D0 D1 S1 S2 C. apply (inside10 _ _ _ _ _ (d * (1#1000))); [Lqa.lra|]. intros s' t' r' e' z' N0 N1 N2 N3 N4.
  repeat (split; [split; Lqa.lra|]). split; [|split].
  - intros k [<- | [<- | [<- | []]]]; [right; left|right; right|left]; Lqa.lra.
  - intros k [<- | [<- | [<- | []]]]; [right; right|right; left|left]; Lqa.lra.
  - intros k z0 [<- | [<- | [<- | []]]]; [apply hb_lower53; [reflexivity|Lqa.lra]|apply hb_lower; [reflexivity|left; Lqa.lra]|apply hb_lower; [reflexivity|left; Lqa.lra]].
Qed.
Lemma peak10_2 : forall s d, 0 < d -> d <= 1#100000 -> (373#493) + d <= s -> s + d <= (103#136) -> (314#415) <= s /\ s <= (7568#10000) + d -> Spec_Region.inside S [s; 85 * s - 62; 70 - 91 * s - d; 78 - 99 * s - 300 * d; 1].
Proof.
  intros s d D0 D1 S1 S2 C. apply (inside10 _ _ _ _ _ (d * (1#1000))); [Lqa.lra|]. intros s' t' r' e' z' N0 N1 N2 N3 N4.
  repeat (split; [split; Lqa.lra|]). split; [|split].
  - intros k [<- | [<- | [<- | []]]]; [right; left|right; right|left]; Lqa.lra.
  - intros k [<- | [<- | [<- | []]]]; [right; right|right; left|left]; Lqa.lra.
  - intros k z0 [<- | [<- | [<- | []]]]; [apply hb_lower53; [reflexivity|Lqa.lra]|apply hb_lower; [reflexivity|left; Lqa.lra]|apply hb_lower; [reflexivity|left; Lqa.lra]].
Qed.
Lemma peak10_3 : forall s d, 0 < d -> d <= 1#100000 -> (373#493) + d <= s -> s + d <= (103#136) -> 0 < d -> Spec_Region.inside S [s; (1#11) * (31 * s + 2); (1#11) * (86 - 97 * s) - d; (1#11) * (174 - 185 * s) - 300 * d; 1].
Proof.
  intros s d D0 D1 S1 S2 C. apply (inside10 _ _ _ _ _ (d * (1#1000))); [Lqa.lra|]. intros s' t' r' e' z' N0 N1 N2 N3 N4.
  repeat (split; [split; Lqa.lra|]). split; [|split].
  - intros k [<- | [<- | [<- | []]]]; [right; left|right; left|left]; Lqa.lra.
  - intros k [<- | [<- | [<- | []]]]; [right; right|right; left|left]; Lqa.lra.
  - intros k z0 [<- | [<- | [<- | []]]]; [apply hb_lower53; [reflexivity|Lqa.lra]|apply hb_lower; [reflexivity|left; Lqa.lra]|apply hb_lower; [reflexivity|left; Lqa.lra]].
Qed.
Lemma low10 : forall s, (373#493) <= s -> s < (103#136) -> exists t0 e0, 0 < t0 /\ e0 == energy_10 s * t0 /\ 0 <= e0 /\ forall eps, 0 < eps -> exists s' t' r' e' z', near eps [s; t0; e0] [s'; t'; e'] /\ s < s' /\ Spec_Region.inside S [s'; t'; r'; e'; z'].
Proof.
  intros s S1 S2. unfold energy_10. destruct (qmin_spec ((730 * s - 533) / (30 * (35 * s - 26))) ((3 * (26 - 33 * s)) / (85 * s - 62))) as (M1 & M2 & M12). set (m' := qmin ((730 * s - 533) / (30 * (35 * s - 26))) ((3 * (26 - 33 * s)) / (85 * s - 62))) in *. destruct (qmax_spec m' ((174 - 185 * s) / (31 * s + 2))) as (M' & M3 & [Eq | ->]); [rewrite Eq in *|].
  - assert (X1 : m' == ((730 * s - 533) / (30 * (35 * s - 26))) \/ m' == ((3 * (26 - 33 * s)) / (85 * s - 62))) by (destruct M12 as [-> | ->]; [left|right]; reflexivity). assert (Y3 : ((174 - 185 * s) / (31 * s + 2)) <= ((3 * (26 - 33 * s)) / (85 * s - 62))) by (eapply Qle_trans; [exact M3|exact M2]).
    destruct M12 as [Em|Em]; rewrite Em.
    + rewrite Em in M2. apply order_ratio in M2; try Lqa.lra. assert (C : s <= (314#415)) by Lqa.nra. clear Eq M1 M2 M' M3 m' Em X1 Y3.
    exists ((24#5) * (35 * s - 26)), ((1#5) * (584 * s - (2132#5))). split; [Lqa.lra|]. split; [field; Lqa.lra|]. split; [Lqa.lra|]. intros eps Pe. destruct (tiny (eps * (1#1000)) ((103#136) - s) ltac:(Lqa.lra) ltac:(Lqa.lra)) as (d & E0 & E1 & E2 & E3).
    exists (s + d), ((24#5) * (35 * (s + d) - 26)), ((36#5) - 8 * (s + d) - d), ((1#5) * (584 * (s + d) - (2132#5)) - 300 * d), 1. split; [apply near3; split; Lqa.lra|]. split; [Lqa.lra|]. apply peak10_1; Lqa.lra.
    + rewrite Em in M1. apply order_ratio in M1; try Lqa.lra. apply order_ratio in Y3; try Lqa.lra. assert (C0 : (314#415) <= s) by Lqa.nra. assert (C1 : s <= (7568#10000)) by Lqa.nra. clear Eq M1 M2 M' M3 m' Em X1 Y3.
    exists (85 * s - 62), (78 - 99 * s). split; [Lqa.lra|]. split; [field; Lqa.lra|]. split; [Lqa.lra|]. intros eps Pe. destruct (tiny (eps * (1#1000)) ((103#136) - s) ltac:(Lqa.lra) ltac:(Lqa.lra)) as (d & E0 & E1 & E2 & E3).
    exists (s + d), (85 * (s + d) - 62), (70 - 91 * (s + d) - d), (78 - 99 * (s + d) - 300 * d), 1. split; [apply near3; split; Lqa.lra|]. split; [Lqa.lra|]. apply peak10_2; Lqa.lra.
  - clear M1 M2 M' M3 M12 m'.
    exists ((1#11) * (31 * s + 2)), ((1#11) * (174 - 185 * s)). split; [Lqa.lra|]. split; [field; Lqa.lra|]. split; [Lqa.lra|]. intros eps Pe. destruct (tiny (eps * (1#1000)) ((103#136) - s) ltac:(Lqa.lra) ltac:(Lqa.lra)) as (d & E0 & E1 & E2 & E3).
    exists (s + d), ((1#11) * (31 * (s + d) + 2)), ((1#11) * (86 - 97 * (s + d)) - d), ((1#11) * (174 - 185 * (s + d)) - 300 * d), 1. split; [apply near3; split; Lqa.lra|]. split; [Lqa.lra|]. apply peak10_3; Lqa.lra.
Qed.
Lemma two10 : exists x y, Spec_Region.inside S x /\ Spec_Region.inside S y /\ List.length x = List.length y /\ ~ S (mix (1#2) x y).
Proof.
  exists [(757#1000); (2001#1000); (971#1000); 1; 1], [(757#1000); (232#100); (1140#1000); 1; 1]. split; [|split; [|split; [reflexivity|]]].
  - apply (inside10 _ _ _ _ _ (1#100000)); [reflexivity|]. intros s' t' r' e' z' N0 N1 N2 N3 N4. repeat (split; [split; Lqa.lra|]). split; [|split].
    + intros k [<- | [<- | [<- | []]]]; [right; left|left|left]; Lqa.lra.
    + intros k [<- | [<- | [<- | []]]]; [right; right|left|left]; Lqa.lra.
    + intros k z0 [<- | [<- | [<- | []]]]; apply hb_lower; try reflexivity; left; Lqa.lra.
  - apply (inside10 _ _ _ _ _ (1#100000)); [reflexivity|]. intros s' t' r' e' z' N0 N1 N2 N3 N4. repeat (split; [split; Lqa.lra|]). split; [|split].
    + intros k [<- | [<- | [<- | []]]]; [right; left|right; left|left]; Lqa.lra.
    + intros k [<- | [<- | [<- | []]]]; [right; right|right; left|left]; Lqa.lra.
    + intros k z0 [<- | [<- | [<- | []]]]; apply hb_lower; try reflexivity; left; Lqa.lra.
  - cbn. intro W. apply HS in W as (_ & _ & _ & _ & _ & O). pose proof (jut_in 11 (2#11) 11 _ _ _ _ _ 2 ltac:(reflexivity) ltac:(reflexivity) O ltac:(right; now left) ltac:(reflexivity)) as X. destruct X as [X|[X|X]]; Lqa.lra.
Qed.
End Low10.

Definition below4 (s t e : Q) : Prop := s <= (284#375) /\ e * (5 * (190 * s - 141)) <= (650 * s - 473) * t \/ (284#375) <= s /\ e * (7 * (11 * s - 8)) <= (72 - 91 * s) * t \/ e * (2 * (5 * s + 3)) <= (5 * (18 - 19 * s)) * t.
Lemma upper4 : forall s t r e z, (664#877) <= s -> s <= (31#40) -> 2 <= t -> t <= 4 -> obeyed (rels_g 10) ks3 s t r e z -> below4 s t e.
Proof.
  intros s t r e z S1 S2 T1 T2 O.
  assert (V3 : e * (2 * (5 * s + 3)) <= (5 * (18 - 19 * s)) * t -> below4 s t e) by (unfold below4; tauto).
  assert (P1 : 0 < 5 * (190 * s - 141)) by Lqa.lra. assert (P2 : 0 < 7 * (11 * s - 8)) by Lqa.lra. assert (P3 : 0 < 2 * (5 * s + 3)) by Lqa.lra.
  assert (I1 : In 1 ks3) by now left. assert (I2 : In 2 ks3) by (right; now left). assert (I3 : In 3 ks3) by (do 2 right; now left).
  assert (H : In hb_relation (rels_g 10)) by now left. assert (H1 := O _ _ H I1). assert (H2 := O _ _ H I2). assert (H3 := O _ _ H I3).
  pose proof (jut_in 10 (1#5) 10 _ _ _ _ _ 2 ltac:(reflexivity) ltac:(reflexivity) O I2 ltac:(reflexivity)) as J2. pose proof (jut_in 10 (1#5) 10 _ _ _ _ _ 3 ltac:(reflexivity) ltac:(reflexivity) O I3 ltac:(reflexivity)) as J3.
  pose proof (gm_in _ _ _ _ _ _ 2 O I2 ltac:(reflexivity)) as G2. pose proof (gm_in _ _ _ _ _ _ 3 O I3 ltac:(reflexivity)) as G3. clear O H I1 I2 I3.
  destruct (Qlt_le_dec (4 - 4 * s) r) as [A2|A2]; [|apply V3; use_k 1 (4 - 4 * s)].
  destruct J2 as [J2|J2]; [exfalso; Lqa.lra|]. destruct G2 as [G2|G2]; [exfalso; Lqa.lra|].
  destruct (Qlt_le_dec t (12#5)) as [T|T].
  - assert (B2 : r <= (36#5) - 8 * s) by (destruct G2; Lqa.lra). clear G2 J3 G3.
    destruct (Qlt_le_dec s (281#371)) as [L'|L']; [|assert (J2' : r <= t + (38#5) - (58#5) * s) by (destruct J2; Lqa.lra); apply V3; destruct (Qlt_le_dec t ((1#5) + (14#5) * s)); [use_k 1 (t + (38#5) - (58#5) * s)|use_k 2 (t + (38#5) - (58#5) * s)]].
    destruct J2 as [J2|J2]; [apply V3; destruct (Qlt_le_dec t ((1#5) + (14#5) * s)); [use_k 1 (t + (38#5) - (58#5) * s)|use_k 2 (t + (38#5) - (58#5) * s)]|].
    unfold below4. destruct (Qlt_le_dec s (284#375)) as [L|L].
    + left. split; [Lqa.lra|]. destruct (Qlt_le_dec t ((4#5) * (190 * s - 141))) as [W|W]; [use_k 1 (t + 120 - 160 * s)|use_k 1 ((36#5) - 8 * s)].
    + right; left. split; [Lqa.lra|]. destruct (Qlt_le_dec t (7 * (11 * s - 8))) as [W|W]; [use_k 1 (t + 120 - 160 * s)|use_k 2 (t + 120 - 160 * s)].
  - assert (C2 : r <= t + (24#5) - 8 * s) by (destruct G2; Lqa.lra). clear G2 J2. apply V3.
    destruct (Qlt_le_dec t ((6#5) + 2 * s)) as [U|U]; [use_k 2 (t + (24#5) - 8 * s)|].
    destruct (Qlt_le_dec (6 - 6 * s) r) as [A3|A3]; [|use_k 2 (6 - 6 * s)].
    destruct J3 as [J3|J3]; [exfalso; Lqa.lra|]. destruct G3 as [G3|G3]; [exfalso; Lqa.lra|].
    destruct (Qlt_le_dec t (33#10)) as [T3|T3]; [destruct J3 as [J3|J3]; [use_k 2 (t + (57#5) - (87#5) * s)|use_k 2 (t + 180 - 240 * s)]|].
    destruct (Qlt_le_dec t (18#5)) as [T4|T4].
    + assert (B3 : r <= (54#5) - 12 * s) by (destruct G3; Lqa.lra). use_k 2 ((54#5) - 12 * s).
    + assert (C3 : r <= t + (36#5) - 12 * s) by (destruct G3; Lqa.lra). use_k 3 (t + (36#5) - 12 * s).
Qed.
Lemma up4 : forall s t r e z, (664#877) <= s <= (31#40) -> 2 <= t <= 4 -> 0 <= r -> 0 <= e -> obeyed (rels_g 10) ks3 s t r e z -> e <= energy_4 s * t.
Proof.
  intros s t r e z [S1 S2] [T1 T2] _ _ O. unfold energy_4. destruct (qmin_spec ((650 * s - 473) / (5 * (190 * s - 141))) ((72 - 91 * s) / (7 * (11 * s - 8)))) as (_ & _ & Mm). set (m' := qmin ((650 * s - 473) / (5 * (190 * s - 141))) ((72 - 91 * s) / (7 * (11 * s - 8)))) in *. destruct (qmax_spec m' ((5 * (18 - 19 * s)) / (2 * (5 * s + 3)))) as (M1 & M3 & _). set (m := qmax m' ((5 * (18 - 19 * s)) / (2 * (5 * s + 3)))) in *. clearbody m.
  destruct (upper4 s t r e z S1 S2 T1 T2 O) as [[L X]|[[L X]|X]].
  - apply (by_ratio e (5 * (190 * s - 141)) (650 * s - 473)); [Lqa.lra|Lqa.lra|exact X|]. eapply Qle_trans; [|exact M1]. destruct Mm as [-> | ->]; [apply Qle_refl|]. apply ratio_order; [Lqa.lra|Lqa.lra|Lqa.nra].
  - apply (by_ratio e (7 * (11 * s - 8)) (72 - 91 * s)); [Lqa.lra|Lqa.lra|exact X|]. eapply Qle_trans; [|exact M1]. destruct Mm as [-> | ->]; [|apply Qle_refl]. apply ratio_order; [Lqa.lra|Lqa.lra|Lqa.nra].
  - apply (by_ratio e (2 * (5 * s + 3)) (5 * (18 - 19 * s))); [Lqa.lra|Lqa.lra|exact X|exact M3].
Qed.
Section Low4.
Context (S : point -> Prop) (HS : forall s t r e z, S [s; t; r; e; z] <-> seen (rels_g 10) ks3 (664#877) (31#40) s t r e z).
Lemma inside4 : forall s t r e z d, 0 < d -> (forall s' t' r' e' z', - d <= s' - s <= d -> - d <= t' - t <= d -> - d <= r' - r <= d -> - d <= e' - e <= d -> - d <= z' - z <= d ->
  (664#877) <= s' <= (31#40) /\ 2 <= t' <= 4 /\ 0 <= r' <= 100 /\ 0 <= e' <= 100 /\ 0 <= z' <= 100 /\ j_ways (1#5) 10 s' t' r' /\ g_ways s' t' r' /\ h_ways s' t' r' e') -> Spec_Region.inside S [s; t; r; e; z].
Proof.
  intros s t r e z d D0 H. exists d. split; [exact D0|]. intros y Ny. destruct (near5 _ _ _ _ _ _ _ Ny) as (s' & t' & r' & e' & z' & -> & N0 & N1 & N2 & N3 & N4).
  destruct (H s' t' r' e' z' N0 N1 N2 N3 N4) as (A1 & A2 & A3 & A4 & A5 & A6 & A7 & A8). apply HS. unfold seen, LV_DEFAULT_UPPER_BOUND. split; [exact A1|]. split; [exact A2|]. repeat (split; [split; Lqa.lra|]). intros rel k Ir Ik.
  destruct Ir as [<- | [<- | [<- | []]]]; [exact (A8 k _ Ik)|apply ways_g; [exact Ik|now apply A7]|]. apply (ways_j 10 (1#5) 10); [reflexivity|reflexivity|exact Ik|now apply A6].
Qed.
Lemma peak4_1 : forall s d, 0 < d -> d <= 1#100000 -> (664#877) + d <= s -> s + d <= (31#40) -> s <= (284#375) + d -> Spec_Region.inside S [s; (4#5) * (190 * s - 141); (36#5) - 8 * s - d; (4#25) * (650 * s - 473) - 300 * d; 1].
Proof.
  intros s d D0 D1 S1 S2 C. apply (inside4 _ _ _ _ _ (d * (1#1000))); [Lqa.lra|]. intros s' t' r' e' z' N0 N1 N2 N3 N4.
  repeat (split; [split; Lqa.lra|]). split; [|split].
  - intros k [<- | [<- | [<- | []]]]; [right; left|right; right|left]; Lqa.lra.
  - intros k [<- | [<- | [<- | []]]]; [right; right|right; left|left]; Lqa.lra.
  - intros k z0 [<- | [<- | [<- | []]]]; [apply hb_lower53; [reflexivity|Lqa.lra]|apply hb_lower; [reflexivity|left; Lqa.lra]|apply hb_lower; [reflexivity|left; Lqa.lra]].
Qed.
Lemma peak4_2 : forall s d, 0 < d -> d <= 1#100000 -> (664#877) + d <= s -> s + d <= (31#40) -> (284#375) <= s /\ s <= (758#1000) + d -> Spec_Region.inside S [s; 7 * (11 * s - 8); 64 - 83 * s - d; 72 - 91 * s - 300 * d; 1].
Proof.
  intros s d D0 D1 S1 S2 C. apply (inside4 _ _ _ _ _ (d * (1#1000))); [Lqa.lra|]. intros s' t' r' e' z' N0 N1 N2 N3 N4.
  repeat (split; [split; Lqa.lra|]). split; [|split].
  - intros k [<- | [<- | [<- | []]]]; [right; left|right; right|left]; Lqa.lra.
  - intros k [<- | [<- | [<- | []]]]; [right; right|right; left|left]; Lqa.lra.
  - intros k z0 [<- | [<- | [<- | []]]]; [apply hb_lower53; [reflexivity|Lqa.lra]|apply hb_lower; [reflexivity|left; Lqa.lra]|apply hb_lower; [reflexivity|left; Lqa.lra]].
Qed.
Lemma peak4_3 : forall s d, 0 < d -> d <= 1#100000 -> (664#877) + d <= s -> s + d <= (31#40) -> 0 < d -> Spec_Region.inside S [s; (6#5) + 2 * s; 6 - 6 * s - d; 18 - 19 * s - 300 * d; 1].
Proof.
  intros s d D0 D1 S1 S2 C. apply (inside4 _ _ _ _ _ (d * (1#1000))); [Lqa.lra|]. intros s' t' r' e' z' N0 N1 N2 N3 N4.
  repeat (split; [split; Lqa.lra|]). split; [|split].
  - intros k [<- | [<- | [<- | []]]]; [right; left|right; left|left]; Lqa.lra.
  - intros k [<- | [<- | [<- | []]]]; [right; right|right; right|left]; Lqa.lra.
  - intros k z0 [<- | [<- | [<- | []]]]; [apply hb_lower53; [reflexivity|Lqa.lra]|apply hb_lower; [reflexivity|right; left; Lqa.lra]|apply hb_lower; [reflexivity|left; Lqa.lra]].
Qed.
Lemma low4 : forall s, (664#877) <= s -> s < (31#40) -> exists t0 e0, 0 < t0 /\ e0 == energy_4 s * t0 /\ 0 <= e0 /\ forall eps, 0 < eps -> exists s' t' r' e' z', near eps [s; t0; e0] [s'; t'; e'] /\ s < s' /\ Spec_Region.inside S [s'; t'; r'; e'; z'].
Proof.
  intros s S1 S2. unfold energy_4. destruct (qmin_spec ((650 * s - 473) / (5 * (190 * s - 141))) ((72 - 91 * s) / (7 * (11 * s - 8)))) as (M1 & M2 & M12). set (m' := qmin ((650 * s - 473) / (5 * (190 * s - 141))) ((72 - 91 * s) / (7 * (11 * s - 8)))) in *. destruct (qmax_spec m' ((5 * (18 - 19 * s)) / (2 * (5 * s + 3)))) as (M' & M3 & [Eq | ->]); [rewrite Eq in *|].
  - assert (X1 : m' == ((650 * s - 473) / (5 * (190 * s - 141))) \/ m' == ((72 - 91 * s) / (7 * (11 * s - 8)))) by (destruct M12 as [-> | ->]; [left|right]; reflexivity). assert (Y3 : ((5 * (18 - 19 * s)) / (2 * (5 * s + 3))) <= ((72 - 91 * s) / (7 * (11 * s - 8)))) by (eapply Qle_trans; [exact M3|exact M2]).
    destruct M12 as [Em|Em]; rewrite Em.
    + rewrite Em in M2. apply order_ratio in M2; try Lqa.lra. assert (C : s <= (284#375)) by Lqa.nra. clear Eq M1 M2 M' M3 m' Em X1 Y3.
    exists ((4#5) * (190 * s - 141)), ((4#25) * (650 * s - 473)). split; [Lqa.lra|]. split; [field; Lqa.lra|]. split; [Lqa.lra|]. intros eps Pe. destruct (tiny (eps * (1#1000)) ((31#40) - s) ltac:(Lqa.lra) ltac:(Lqa.lra)) as (d & E0 & E1 & E2 & E3).
    exists (s + d), ((4#5) * (190 * (s + d) - 141)), ((36#5) - 8 * (s + d) - d), ((4#25) * (650 * (s + d) - 473) - 300 * d), 1. split; [apply near3; split; Lqa.lra|]. split; [Lqa.lra|]. apply peak4_1; Lqa.lra.
    + rewrite Em in M1. apply order_ratio in M1; try Lqa.lra. apply order_ratio in Y3; try Lqa.lra. assert (C0 : (284#375) <= s) by Lqa.nra. assert (C1 : s <= (758#1000)) by Lqa.nra. clear Eq M1 M2 M' M3 m' Em X1 Y3.
    exists (7 * (11 * s - 8)), (72 - 91 * s). split; [Lqa.lra|]. split; [field; Lqa.lra|]. split; [Lqa.lra|]. intros eps Pe. destruct (tiny (eps * (1#1000)) ((31#40) - s) ltac:(Lqa.lra) ltac:(Lqa.lra)) as (d & E0 & E1 & E2 & E3).
    exists (s + d), (7 * (11 * (s + d) - 8)), (64 - 83 * (s + d) - d), (72 - 91 * (s + d) - 300 * d), 1. split; [apply near3; split; Lqa.lra|]. split; [Lqa.lra|]. apply peak4_2; Lqa.lra.
  - clear M1 M2 M' M3 M12 m'.
    exists ((6#5) + 2 * s), (18 - 19 * s). split; [Lqa.lra|]. split; [field; Lqa.lra|]. split; [Lqa.lra|]. intros eps Pe. destruct (tiny (eps * (1#1000)) ((31#40) - s) ltac:(Lqa.lra) ltac:(Lqa.lra)) as (d & E0 & E1 & E2 & E3).
    exists (s + d), ((6#5) + 2 * (s + d)), (6 - 6 * (s + d) - d), (18 - 19 * (s + d) - 300 * d), 1. split; [apply near3; split; Lqa.lra|]. split; [Lqa.lra|]. apply peak4_3; Lqa.lra.
Qed.
Lemma two4 : exists x y, Spec_Region.inside S x /\ Spec_Region.inside S y /\ List.length x = List.length y /\ ~ S (mix (1#2) x y).
Proof.
  exists [(77#100); (2001#1000); (919#1000); 1; 1], [(77#100); (236#100); (1020#1000); 1; 1]. split; [|split; [|split; [reflexivity|]]].
  - apply (inside4 _ _ _ _ _ (1#100000)); [reflexivity|]. intros s' t' r' e' z' N0 N1 N2 N3 N4. repeat (split; [split; Lqa.lra|]). split; [|split].
    + intros k [<- | [<- | [<- | []]]]; [right; left|left|left]; Lqa.lra.
    + intros k [<- | [<- | [<- | []]]]; [right; right|left|left]; Lqa.lra.
    + intros k z0 [<- | [<- | [<- | []]]]; apply hb_lower; try reflexivity; left; Lqa.lra.
  - apply (inside4 _ _ _ _ _ (1#100000)); [reflexivity|]. intros s' t' r' e' z' N0 N1 N2 N3 N4. repeat (split; [split; Lqa.lra|]). split; [|split].
    + intros k [<- | [<- | [<- | []]]]; [right; left|right; left|left]; Lqa.lra.
    + intros k [<- | [<- | [<- | []]]]; [right; right|right; left|left]; Lqa.lra.
    + intros k z0 [<- | [<- | [<- | []]]]; apply hb_lower; try reflexivity; left; Lqa.lra.
  - cbn. intro W. apply HS in W as (_ & _ & _ & _ & _ & O). pose proof (jut_in 10 (1#5) 10 _ _ _ _ _ 2 ltac:(reflexivity) ltac:(reflexivity) O ltac:(right; now left) ltac:(reflexivity)) as X. destruct X as [X|[X|X]]; Lqa.lra.
Qed.
End Low4.
