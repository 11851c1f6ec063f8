(** Which exponent pairs the published bounds on beta give. *)
From Verif Require Import Base Model_Text Model_Reference Model_Interval Spec_Interval Proof_Interval Model_Affine Spec_Affine Model_Hull Model_ExponentPair Spec_ExponentPair
  Proof_BoundMu Model_ZetaLargeValues Spec_LiteratureBeta Model_LiteraturePairs Spec_LiteraturePairs.
Open Scope list_scope.
Local Open Scope Q_scope.
From Coq Require Import Qround.
Import Lqa.

(** By the reflection law the first half of the range is enough. *)
Lemma half_enough : forall W k l, admissible W -> triangle k l -> k + (1#2) <= l ->
  (forall a, 0 <= a -> a <= 1#2 -> beta_le W a (k + (l - k) * a)) -> exp_pair W k l.
Proof.
  intros W k l A T S H. split; [exact T|]. intros a A0 A1. destruct (Qlt_le_dec (1#2) a) as [L|L]; [|now apply H].
  assert (B : 0 <= 1 - a /\ 1 - a <= 1#2) by lra. destruct B as (B0 & B1).
  pose proof (proj1 (beta_reflect W A (1 - a) _ B0 B1) (H (1 - a) B0 B1)) as R.
  refine (beta_upper W A _ _ _ _ _ _ R); [lra|]. nra.
Qed.

Section Uses.
Variable W : zworld.
Hypothesis Up : upper (beta_le W).
Lemma raise_to : forall a u v, beta_le W a u -> u <= v -> beta_le W a v.
Proof. intros a u v H L. exact (Up a a u v (Qeq_refl a) L H). Qed.
Lemma max_le : forall x y z, x <= z -> y <= z -> qmax x y <= z.
Proof. intros x y z X Y. destruct (qmax_spec x y) as (_ & _ & [E|E]); now rewrite E. Qed.

Lemma use_table : forall t i lo hi f a v, table_holds W t -> nth_error t i = Some (lo, hi, f) -> lo <= a -> a <= hi -> f a <= v -> beta_le W a v.
Proof. intros t i lo hi f a v T N A B F. eapply raise_to; [|exact F]. apply (T lo hi f); [|exact A|exact B]. now apply nth_error_In in N. Qed.
Lemma use_pair : forall k l a v, exp_pair W k l -> 0 <= a -> a <= 1#2 -> k + (l - k) * a <= v -> beta_le W a v.
Proof. intros k l a v (_ & H) A B F. eapply raise_to; [|exact F]. apply H; lra. Qed.
Lemma use_hb : forall k a v, (forall k, (3 <= k)%Z -> positive W (heath_brown_2017 k)) -> (3 <= k)%Z -> 0 < a ->
  let q := inject_Z k in
  a + (1 - q * a) / (q * (q - 1)) <= v -> a - a / (q * (q - 1)) <= v -> a - 2 / (q * q * (q - 1)) <= v -> beta_le W a v.
Proof.
  intros k a v H K A q L1 L2 L3. eapply raise_to; [apply (H k K a A)|].
  assert (P : 3 <= q) by (unfold q; change 3 with (inject_Z 3); now rewrite <- Zle_Qle).
  unfold heath_brown_2017. cbv zeta. unfold Z.sub. rewrite !inject_Z_mult, !inject_Z_plus. change (inject_Z (Z.opp 1)) with (-(1)). fold q.
  assert (E : forall x y z w, x + y <= z -> w == y -> x + w <= z) by (intros; lra).
  destruct (qmax_spec ((1 - q * a) / (q * (q + - (1)))) (qmax (- (a / (q * (q + - (1))))) (- (2 * a / (q * (q + - (1)))) - 2 * (1 - q * a) / (q * q * (q + - (1)))))) as (_ & _ & [X|X]); rewrite X; clear X.
  - exact L1.
  - match goal with |- context[qmax ?x ?y] => destruct (qmax_spec x y) as (_ & _ & [X|X]); rewrite X; clear X end.
    + exact L2.
    + unfold Qminus in L3. apply (E _ _ _ _ L3). field. repeat split; intro; nra.
Qed.
Lemma use_rs02 : forall a v, positive W robert_sargos_2002 -> 0 < a -> (1#13) + (9#13) * a <= v -> (28#13) * a - (7#13) <= v -> beta_le W a v.
Proof. intros a v H A L1 L2. eapply raise_to; [apply (H a A)|]. unfold robert_sargos_2002. apply max_le; unfold Qdiv; cbn [Qinv Qnum Qden]; lra. Qed.
Lemma use_s95a : forall a v, on W 0 1 sargos_1995_first -> 0 <= a -> a <= 1 -> (3#40) + (28#40) * a <= v -> (7#8) * a <= v -> a - (1#6) <= v -> 0 <= v -> beta_le W a v.
Proof. intros a v H A B L1 L2 L3 L4. eapply raise_to; [apply (H a A B)|]. unfold sargos_1995_first. repeat apply max_le; unfold Qdiv; cbn [Qinv Qnum Qden]; lra. Qed.
Lemma use_hk01 : forall a v, on W (2#5) (1#2) huxley_kolesnik_2001 -> 2#5 <= a -> a <= 1#2 -> fn (7#80) (79#120) a <= v -> fn (3#32) (103#160) a <= v -> fn (9#40) (13#40) a <= v -> beta_le W a v.
Proof. intros a v H A B L1 L2 L3. eapply raise_to; [apply (H a A B)|]. unfold huxley_kolesnik_2001. now repeat apply max_le. Qed.
End Uses.

(** ** Heath-Brown's sequence *)
Definition corner (k : Q) : Q := k / (k * k - 2 * k + 2).
Lemma square : forall x : Q, 0 <= x * x.
Proof. intro x. destruct (Qlt_le_dec x 0); nra. Qed.
Lemma corner_pos : forall k, 0 < k * k - 2 * k + 2.
Proof. intro k. pose proof (square (k - 1)). lra. Qed.


(** The line of the pair number [m] against the bound at the corner [k]. *)
Definition hb_p (m : Q) : Q := 2 / ((m - 1) * (m - 1) * (m + 2)).
Definition hb_r (m : Q) : Q := (3 * m * m - 3 * m + 2) / (m * (m - 1) * (m - 1) * (m + 2)).
Definition hb_c (k : Q) : Q := - (1 / ((k - 1) * (k * k - 2 * k + 2))).
Lemma gap_identity : forall m k, 3 <= m -> 3 <= k ->
  hb_p m - hb_r m * corner k - hb_c k == ((k - m) * (k - m - 1)) * ((2 * m * k + (m - 2) * (m + 1)) / (m * ((m - 1) * (m - 1)) * (m + 2) * (k - 1) * (k * k - 2 * k + 2))).
Proof.
  intros m k M K. pose proof (corner_pos k). unfold hb_p, hb_r, hb_c, corner. field.
  repeat split; intro; lra.
Qed.
Lemma gap : forall m k, (3 <= m)%Z -> (3 <= k)%Z -> hb_c (inject_Z k) <= hb_p (inject_Z m) - hb_r (inject_Z m) * corner (inject_Z k).
Proof.
  intros m k M K. assert (M' : 3 <= inject_Z m) by (change 3 with (inject_Z 3); now rewrite <- Zle_Qle). assert (K' : 3 <= inject_Z k) by (change 3 with (inject_Z 3); now rewrite <- Zle_Qle).
  assert (X : 0 <= hb_p (inject_Z m) - hb_r (inject_Z m) * corner (inject_Z k) - hb_c (inject_Z k)); [|lra]. rewrite gap_identity by assumption.
  apply Qmult_le_0_compat.
  - setoid_replace ((inject_Z k - inject_Z m) * (inject_Z k - inject_Z m - 1)) with (inject_Z ((k - m) * (k - m - 1))).
    + change 0 with (inject_Z 0). rewrite <- Zle_Qle. set (d := (k - m)%Z). clearbody d. destruct (Z.le_gt_cases d 0); nia.
    + unfold Z.sub. rewrite !inject_Z_mult, !inject_Z_plus, !inject_Z_opp. change (inject_Z 1) with 1. ring.
  - set (x := inject_Z m) in *. set (y := inject_Z k) in *. pose proof (corner_pos y).
    assert (D : 0 < x * ((x - 1) * (x - 1)) * (x + 2) * (y - 1) * (y * y - 2 * y + 2)).
    { repeat apply Qmult_lt_0_compat; lra. }
    apply Qle_shift_div_l; [exact D|]. rewrite Qmult_0_l. assert (0 <= (x - 2) * (x + 1)) by (apply Qmult_le_0_compat; lra). assert (0 <= x * y) by (apply Qmult_le_0_compat; lra). lra.
Qed.
Lemma between : forall s t x y a, x <= a -> a <= y -> 0 <= s + t * x -> 0 <= s + t * y -> 0 <= s + t * a.
Proof. intros s t x y a A B X Y. destruct (Qlt_le_dec t 0); nra. Qed.

Lemma corner_le : forall k, 3 <= k -> 1 / (k - 1) <= corner k /\ corner (k + 1) <= 1 / (k - 1) /\ corner k <= 2 / k /\ corner (k + 1) <= corner k.
Proof.
  intros k K. pose proof (corner_pos k) as C. pose proof (corner_pos (k + 1)) as C'.
  assert (X : forall p q r s, 0 < q -> 0 < s -> p * s <= r * q -> p / q <= r / s).
  { intros p q r s Q S H. apply Qle_shift_div_r; [exact Q|]. setoid_replace (r / s * q) with (r * q / s) by (field; lra). apply Qle_shift_div_l; assumption. }
  assert (A1 : 1 / (k - 1) <= corner k) by (apply X; [lra|exact C|nra]).
  assert (A2 : corner (k + 1) <= 1 / (k - 1)) by (apply X; [exact C'|lra|nra]).
  repeat split; try assumption; [apply X; [exact C|lra|]; pose proof (square (k - 2)); lra|lra].
Qed.

(** Between two corners the bound is below the line of the pair. *)
Lemma hb_segment : forall m k a, (3 <= m)%Z -> (3 <= k)%Z -> let q := inject_Z k in let p := inject_Z m in corner (q + 1) <= a -> a <= corner q ->
  a + (1 - q * a) / (q * (q - 1)) <= hb_p p + (1 - hb_r p) * a /\ a - a / (q * (q - 1)) <= hb_p p + (1 - hb_r p) * a /\ a - 2 / (q * q * (q - 1)) <= hb_p p + (1 - hb_r p) * a.
Proof.
  intros m k a M K q p A B. pose proof (gap m k M K) as G1. pose proof (gap m (k + 1) M ltac:(lia)) as G2.
  rewrite inject_Z_plus in G2. change (inject_Z 1) with 1 in G2. fold q p in G1, G2.
  assert (K' : 3 <= q) by (unfold q; change 3 with (inject_Z 3); now rewrite <- Zle_Qle).
  destruct (corner_le q K') as (C1 & C2 & C3 & C4). pose proof (corner_pos q) as D1. pose proof (corner_pos (q + 1)) as D2.
  set (P := hb_p p) in *. set (R := hb_r p) in *. clearbody P R.
  assert (Z0 : 0 < q * (q - 1)) by (apply Qmult_lt_0_compat; lra).
  assert (Zi : 0 < / (q * (q - 1))) by (now apply Qinv_lt_0_compat).
  (* the two lines at the corners *)
  assert (E1 : hb_c q == - (corner q / (q * (q - 1)))).
  { unfold hb_c, corner. field. repeat split; intro; lra. }
  assert (E2 : hb_c (q + 1) == (1 - q * corner (q + 1)) / (q * (q - 1))).
  { unfold hb_c, corner. field. repeat split; intro; lra. }
  assert (F1 : (1 - q * corner q) / (q * (q - 1)) <= - (corner q / (q * (q - 1)))).
  { unfold Qdiv. assert (X : 1 / (q - 1) * (q - 1) == 1) by (field; lra). assert (Y : 1 <= corner q * (q - 1)) by (apply Qle_trans with (1 / (q - 1) * (q - 1)); [lra|apply Qmult_le_compat_r; lra]).
    setoid_replace (- (corner q * / (q * (q - 1)))) with ((- corner q) * / (q * (q - 1))) by ring. apply Qmult_le_compat_r; lra. }
  assert (F2 : - (corner (q + 1) / (q * (q - 1))) <= (1 - q * corner (q + 1)) / (q * (q - 1))).
  { unfold Qdiv. assert (X : 1 / (q - 1) * (q - 1) == 1) by (field; lra). assert (Y : corner (q + 1) * (q - 1) <= 1) by (apply Qle_trans with (1 / (q - 1) * (q - 1)); [apply Qmult_le_compat_r; lra|lra]).
    setoid_replace (- (corner (q + 1) * / (q * (q - 1)))) with ((- corner (q + 1)) * / (q * (q - 1))) by ring. apply Qmult_le_compat_r; lra. }
  assert (S3 : 2 / (q * q * (q - 1)) == (2 / q) * / (q * (q - 1))) by (field; split; intro; lra).
  unfold Qdiv in E1, E2, F1, F2, C3 |- *. unfold Qdiv in S3. rewrite S3. clear S3.
  set (i := / (q * (q - 1))) in *. set (j := 2 * / q) in *. set (x := corner (q + 1)) in *. set (y := corner q) in *. clearbody i j x y.
  assert (S1 : (1 - q * a) * i <= P - R * a).
  { pose proof (between (P - i) (q * i - R) x y a A B) as X. assert (0 <= P - i + (q * i - R) * a); [|lra]. apply X; lra. }
  assert (S2 : - (a * i) <= P - R * a).
  { pose proof (between P (i - R) x y a A B) as X. assert (0 <= P + (i - R) * a); [|lra]. apply X; lra. }
  assert (S3 : a * i <= j * i) by (apply Qmult_le_compat_r; lra).
  repeat split; lra.
Qed.

Lemma corner_found : forall a n, (3 <= n)%Z -> a <= 3#5 -> corner (inject_Z n) <= a -> exists k, (3 <= k)%Z /\ corner (inject_Z k + 1) <= a /\ a <= corner (inject_Z k).
Proof.
  intros a n N A. replace n with (3 + Z.of_nat (Z.to_nat (n - 3)))%Z by lia. generalize (Z.to_nat (n - 3)). clear n N. induction n as [|n IH]; intro C.
  - exists 3%Z. split; [lia|]. assert (E : corner (inject_Z 3) == 3#5) by reflexivity. change (inject_Z (3 + Z.of_nat 0)) with (inject_Z 3) in C.
    assert (E' : corner (inject_Z 3 + 1) == 2#5) by reflexivity. lra.
  - destruct (Qlt_le_dec a (corner (inject_Z (3 + Z.of_nat n)))) as [L|L]; [|now apply IH].
    exists (3 + Z.of_nat n)%Z. split; [lia|]. split; [|lra]. replace (3 + Z.of_nat (S n))%Z with (3 + Z.of_nat n + 1)%Z in C by lia. now rewrite inject_Z_plus in C.
Qed.
Lemma corner_small : forall a, 0 < a -> exists n, (3 <= n)%Z /\ corner (inject_Z n) <= a.
Proof.
  intros a A. exists (Z.max 3 (Qceiling (2 / a))). split; [lia|]. set (n := Z.max 3 (Qceiling (2 / a))).
  assert (N3 : 3 <= inject_Z n) by (change 3 with (inject_Z 3); rewrite <- Zle_Qle; lia).
  assert (N : 2 / a <= inject_Z n). { apply Qle_trans with (1 := Qle_ceiling _). rewrite <- Zle_Qle. lia. }
  destruct (corner_le _ N3) as (_ & _ & C & _). apply Qle_trans with (1 := C). apply Qle_shift_div_r; [lra|].
  assert (X : 2 / a * a <= inject_Z n * a) by (apply Qmult_le_compat_r; lra). assert (E : 2 / a * a == 2) by (field; lra). lra.
Qed.

Lemma hb_triangle : forall m, (3 <= m)%Z -> let p := heath_brown_pair m in triangle (fst p) (snd p) /\ fst p + (1#2) <= snd p.
Proof.
  intros m M. assert (M' : 3 <= inject_Z m) by (change 3 with (inject_Z 3); now rewrite <- Zle_Qle). unfold heath_brown_pair. cbv zeta. cbn [fst snd]. set (x := inject_Z m) in *. clearbody x.
  assert (D : 20 <= (x - 1) * (x - 1) * (x + 2)). { assert (4 <= (x - 1) * (x - 1)) by nra. nra. }
  assert (D' : 0 < x * (x - 1) * (x + 2)) by (repeat apply Qmult_lt_0_compat; lra).
  assert (K0 : 0 <= 2 / ((x - 1) * (x - 1) * (x + 2))) by (apply Qle_shift_div_l; lra).
  assert (K1 : 2 / ((x - 1) * (x - 1) * (x + 2)) <= 1#10) by (apply Qle_shift_div_r; lra).
  assert (L0 : 0 <= (3 * x - 2) / (x * (x - 1) * (x + 2))) by (apply Qle_shift_div_l; lra).
  assert (L1 : (3 * x - 2) / (x * (x - 1) * (x + 2)) <= 7#30).
  { apply Qle_shift_div_r; [exact D'|]. assert (0 <= (x - 3) * x) by (apply Qmult_le_0_compat; lra). assert (0 <= (x - 3) * x * x) by (apply Qmult_le_0_compat; lra). nra. }
  assert (S : 2 / ((x - 1) * (x - 1) * (x + 2)) <= (3 * x - 2) / (x * (x - 1) * (x + 2))).
  { setoid_replace (2 / ((x - 1) * (x - 1) * (x + 2))) with ((2 * x / (x - 1)) / (x * (x - 1) * (x + 2))) by (field; repeat split; intro; lra).
    unfold Qdiv at 1 3. apply Qmult_le_compat_r; [|apply Qinv_le_0_compat; lra]. apply Qle_shift_div_r; [lra|]. nra. }
  repeat split; lra.
Qed.
(** Heath-Brown's bounds on beta give Heath-Brown's pairs. *)
Lemma hb_pairs : forall W m, admissible W -> beta_le W 0 0 -> (forall k, (3 <= k)%Z -> positive W (heath_brown_2017 k)) -> (3 <= m)%Z ->
  exp_pair W (fst (heath_brown_pair m)) (snd (heath_brown_pair m)).
Proof.
  intros W m A Z H M. destruct (hb_triangle m M) as (T & S). apply half_enough; [exact A|exact T|exact S|]. intros a A0 A1.
  assert (E : fst (heath_brown_pair m) + (snd (heath_brown_pair m) - fst (heath_brown_pair m)) * a == hb_p (inject_Z m) + (1 - hb_r (inject_Z m)) * a).
  { assert (M' : 3 <= inject_Z m) by (change 3 with (inject_Z 3); now rewrite <- Zle_Qle). unfold heath_brown_pair, hb_p, hb_r. cbv zeta. cbn [fst snd]. field. repeat split; intro; lra. }
  destruct (Qlt_le_dec 0 a) as [P|P].
  - destruct (corner_small a P) as (n & N & C). destruct (corner_found a n N ltac:(lra) C) as (k & K & C1 & C2).
    destruct (hb_segment m k a M K C1 C2) as (L1 & L2 & L3). apply (use_hb W (beta_upper W A) k); try assumption; rewrite E; assumption.
  - assert (X : a == 0) by lra. refine (beta_upper W A 0 a 0 _ _ _ Z); [now symmetry|]. rewrite X. destruct T as (T & _). lra.
Qed.

(** ** The other pairs, from tables of bounds *)
Lemma use_hb_num : forall W, upper (beta_le W) -> forall k a v c d, (forall k, (3 <= k)%Z -> positive W (heath_brown_2017 k)) -> (3 <= k)%Z ->
  1 / (inject_Z k * (inject_Z k - 1)) == c -> 2 / (inject_Z k * inject_Z k * (inject_Z k - 1)) == d ->
  0 < a -> a + (1 - inject_Z k * a) * c <= v -> a - a * c <= v -> a - d <= v -> beta_le W a v.
Proof.
  intros W U k a v c d H K C D A L1 L2 L3. assert (C' : / (inject_Z k * (inject_Z k - 1)) == c) by (rewrite <- C; unfold Qdiv; now rewrite Qmult_1_l).
  apply (use_hb W U k); try assumption; unfold Qdiv in *; rewrite ?C', ?D; assumption.
Qed.
Ltac numbers := unfold fn, quot, Qdiv, inject_Z; cbn -[Qplus Qmult Qopp Qminus Qle Qlt]; lra.
Lemma pair_eq : forall W, upper (beta_le W) -> forall k l k' l', exp_pair W k l -> k == k' -> l == l' -> exp_pair W k' l'.
Proof.
  intros W U k l k' l' ((T1 & T2 & T3 & T4 & T5) & H) K L. split; [repeat split; lra|]. intros a A0 A1. refine (U a a _ _ (Qeq_refl a) _ (H a A0 A1)). rewrite K, L. apply Qle_refl.
Qed.
Ltac first_half a := apply half_enough; [assumption|repeat split; lra|lra|]; intros a A0 A1;
  destruct (Qlt_le_dec 0 a) as [Ap|Az]; [|match goal with U := _ : upper _ |- beta_le ?W a ?v => refine (U 0 a 0 v _ _ _); [lra|nra|assumption] end].
Section Covers.
Variable W : zworld.
Hypothesis A : admissible W.
Hypothesis T : beta_le W 0 0.
Hypothesis B : beta_published W.
Hypothesis PA : process_A W.
Let Up : upper (beta_le W) := beta_upper W A.
Lemma hb_pair : forall m, (3 <=? m)%Z = true -> exp_pair W (fst (heath_brown_pair m)) (snd (heath_brown_pair m)).
Proof. intros m M. apply hb_pairs; [exact A|exact T|exact (bp_heath_brown_2017 W B)|]. now apply Z.leb_le. Qed.
Lemma hb_pair_5 : exp_pair W (1#56) (127#140).
Proof. apply (pair_eq W Up _ _ _ _ (hb_pair 5 eq_refl)); vm_compute; reflexivity. Qed.
Lemma hb_pair_8 : exp_pair W (1#245) (269#280).
Proof. apply (pair_eq W Up _ _ _ _ (hb_pair 8 eq_refl)); vm_compute; reflexivity. Qed.
Lemma hb_pair_10 : exp_pair W (1#486) (263#270).
Proof. apply (pair_eq W Up _ _ _ _ (hb_pair 10 eq_refl)); vm_compute; reflexivity. Qed.
Lemma hb_pair_11 : exp_pair W (1#650) (1399#1430).
Proof. apply (pair_eq W Up _ _ _ _ (hb_pair 11 eq_refl)); vm_compute; reflexivity. Qed.
Lemma hb_pair_12 : exp_pair W (1#847) (907#924).
Proof. apply (pair_eq W Up _ _ _ _ (hb_pair 12 eq_refl)); vm_compute; reflexivity. Qed.
Lemma hb_pair_13 : exp_pair W (1#1080) (2303#2340).
Proof. apply (pair_eq W Up _ _ _ _ (hb_pair 13 eq_refl)); vm_compute; reflexivity. Qed.
Lemma pair_1 : exp_pair W (9#56) (37#56).
Proof.
  first_half a.
  destruct (Qlt_le_dec a (3#7)); [apply (use_s95a W Up); [exact (proj1 (bp_sargos_1995 W B))|lra|lra|lra|lra|lra|lra]|].
  apply (use_table W Up combined_table 19 (3#7) (1#2) (fn (13#84) (1#2)) a _ (bp_combined W B) eq_refl); [lra|lra|numbers].
Qed.
Lemma pair_2 : exp_pair W (89#560) (369#560).
Proof.
  first_half a.
  destruct (Qlt_le_dec a (5077#12040)); [apply (use_rs02 W Up); [exact (bp_robert_sargos_2002 W B)|lra|lra|lra]|].
  destruct (Qlt_le_dec a (60#133)); [apply (use_hk01 W Up); [exact (bp_huxley_kolesnik_2001 W B)|lra|lra|numbers|numbers|numbers]|].
  apply (use_table W Up huxley_table_1 13 (49#114) (65#114) (quot 89 285 570) a _ (proj1 (bp_huxley_1996 W B)) eq_refl); [lra|lra|numbers].
Qed.
Lemma pair_3 : exp_pair W (17#108) (71#108).
Proof.
  first_half a.
  destruct (Qlt_le_dec a (113#270)); [apply (use_rs02 W Up); [exact (bp_robert_sargos_2002 W B)|lra|lra|lra]|].
  destruct (Qlt_le_dec a (151#342)); [apply (use_hk01 W Up); [exact (bp_huxley_kolesnik_2001 W B)|lra|lra|numbers|numbers|numbers]|].
  apply (use_table W Up huxley_table_1 13 (49#114) (65#114) (quot 89 285 570) a _ (proj1 (bp_huxley_1996 W B)) eq_refl); [lra|lra|numbers].
Qed.
Lemma pair_4 : exp_pair W (89#570) (187#285).
Proof.
  first_half a.
  destruct (Qlt_le_dec a (587#1425)); [apply (use_rs02 W Up); [exact (bp_robert_sargos_2002 W B)|lra|lra|lra]|].
  destruct (Qlt_le_dec a (313#722)); [apply (use_hk01 W Up); [exact (bp_huxley_kolesnik_2001 W B)|lra|lra|numbers|numbers|numbers]|].
  apply (use_table W Up huxley_table_1 13 (49#114) (65#114) (quot 89 285 570) a _ (proj1 (bp_huxley_1996 W B)) eq_refl); [lra|lra|numbers].
Qed.
Lemma pair_5 : exp_pair W (32#205) (269#410).
Proof.
  first_half a.
  destruct (Qlt_le_dec a (422#1025)); [apply (use_rs02 W Up); [exact (bp_robert_sargos_2002 W B)|lra|lra|lra]|].
  destruct (Qlt_le_dec a (675#1558)); [apply (use_hk01 W Up); [exact (bp_huxley_kolesnik_2001 W B)|lra|lra|numbers|numbers|numbers]|].
  apply (use_table W Up combined_table 19 (3#7) (1#2) (fn (13#84) (1#2)) a _ (bp_combined W B) eq_refl); [lra|lra|numbers].
Qed.
Lemma pair_6 : exp_pair W (13#84) (55#84).
Proof.
  first_half a.
  destruct (Qlt_le_dec a (17#42)); [apply (use_rs02 W Up); [exact (bp_robert_sargos_2002 W B)|lra|lra|lra]|].
  destruct (Qlt_le_dec a (205#483)); [apply (use_hk01 W Up); [exact (bp_huxley_kolesnik_2001 W B)|lra|lra|numbers|numbers|numbers]|].
  destruct (Qlt_le_dec a (3#7)); [apply (use_table W Up combined_table 18 (5#12) (3#7) (fn (1#12) (2#3)) a _ (bp_combined W B) eq_refl); [lra|lra|numbers]|].
  apply (use_table W Up combined_table 19 (3#7) (1#2) (fn (13#84) (1#2)) a _ (bp_combined W B) eq_refl); [lra|lra|numbers].
Qed.
Lemma pair_7 : exp_pair W (2#13) (35#52).
Proof.
  first_half a.
  destruct (Qlt_le_dec a (16#37)); [apply (use_s95a W Up); [exact (proj1 (bp_sargos_1995 W B))|lra|lra|lra|lra|lra|lra]|].
  apply (use_table W Up huxley_table_1 13 (49#114) (65#114) (quot 89 285 570) a _ (proj1 (bp_huxley_1996 W B)) eq_refl); [lra|lra|numbers].
Qed.
Lemma pair_8 : exp_pair W (6299#43860) (29507#43860).
Proof.
  first_half a.
  destruct (Qlt_le_dec a (38027#93036)); [apply (use_rs02 W Up); [exact (bp_robert_sargos_2002 W B)|lra|lra|lra]|].
  destruct (Qlt_le_dec a (9845#22666)); [apply (use_hk01 W Up); [exact (bp_huxley_kolesnik_2001 W B)|lra|lra|numbers|numbers|numbers]|].
  apply (use_table W Up huxley_table_1 13 (49#114) (65#114) (quot 89 285 570) a _ (proj1 (bp_huxley_1996 W B)) eq_refl); [lra|lra|numbers].
Qed.
Lemma pair_9 : exp_pair W (771#8116) (1499#2029).
Proof.
  first_half a.
  destruct (Qlt_le_dec a (1907#5119)); [apply (use_rs02 W Up); [exact (bp_robert_sargos_2002 W B)|lra|lra|lra]|].
  destruct (Qlt_le_dec a (227#601)); [apply (use_table W Up huxley_1993_table 2 (423#1295) (227#601) (quot 89 908 1282) a _ (bp_huxley_1993_3 W B) eq_refl); [lra|lra|numbers]|].
  destruct (Qlt_le_dec a (12#31)); [apply (use_table W Up huxley_1993_table 3 (227#601) (12#31) (quot 29 173 280) a _ (bp_huxley_1993_3 W B) eq_refl); [lra|lra|numbers]|].
  destruct (Qlt_le_dec a (16556#41787)); [apply (use_table W Up huxley_1993_table 4 (12#31) 1 (quot 4 103 128) a _ (bp_huxley_1993_3 W B) eq_refl); [lra|lra|numbers]|].
  destruct (Qlt_le_dec a (62831#155153)); [apply (use_table W Up combined_table 13 (1508#3825) (62831#155153) (fn (18#199) (521#796)) a _ (bp_combined W B) eq_refl); [lra|lra|numbers]|].
  destruct (Qlt_le_dec a (143#349)); [apply (use_table W Up huxley_table_2 3 (307#761) (143#349) (quot 569 1053 2800) a _ (proj2 (bp_huxley_1996 W B)) eq_refl); [lra|lra|numbers]|].
  apply (use_hk01 W Up); [exact (bp_huxley_kolesnik_2001 W B)|lra|lra|numbers|numbers|numbers].
Qed.
Lemma pair_10 : exp_pair W (21#232) (173#232).
Proof.
  first_half a.
  destruct (Qlt_le_dec a (41#112)); [apply (use_rs02 W Up); [exact (bp_robert_sargos_2002 W B)|lra|lra|lra]|].
  destruct (Qlt_le_dec a (227#601)); [apply (use_table W Up huxley_1993_table 2 (423#1295) (227#601) (quot 89 908 1282) a _ (bp_huxley_1993_3 W B) eq_refl); [lra|lra|numbers]|].
  destruct (Qlt_le_dec a (12#31)); [apply (use_table W Up huxley_1993_table 3 (227#601) (12#31) (quot 29 173 280) a _ (bp_huxley_1993_3 W B) eq_refl); [lra|lra|numbers]|].
  destruct (Qlt_le_dec a (44#111)); [apply (use_table W Up huxley_1993_table 4 (12#31) 1 (quot 4 103 128) a _ (bp_huxley_1993_3 W B) eq_refl); [lra|lra|numbers]|].
  destruct (Qlt_le_dec a (62831#155153)); [apply (use_table W Up combined_table 13 (1508#3825) (62831#155153) (fn (18#199) (521#796)) a _ (bp_combined W B) eq_refl); [lra|lra|numbers]|].
  destruct (Qlt_le_dec a (143#349)); [apply (use_table W Up huxley_table_2 3 (307#761) (143#349) (quot 569 1053 2800) a _ (proj2 (bp_huxley_1996 W B)) eq_refl); [lra|lra|numbers]|].
  apply (use_hk01 W Up); [exact (bp_huxley_kolesnik_2001 W B)|lra|lra|numbers|numbers|numbers].
Qed.
Lemma pair_11 : exp_pair W (1959#21656) (16135#21656).
Proof.
  first_half a.
  destruct (Qlt_le_dec a (3811#10616)); [apply (use_rs02 W Up); [exact (bp_robert_sargos_2002 W B)|lra|lra|lra]|].
  destruct (Qlt_le_dec a (227#601)); [apply (use_table W Up huxley_1993_table 2 (423#1295) (227#601) (quot 89 908 1282) a _ (bp_huxley_1993_3 W B) eq_refl); [lra|lra|numbers]|].
  destruct (Qlt_le_dec a (12#31)); [apply (use_table W Up huxley_1993_table 3 (227#601) (12#31) (quot 29 173 280) a _ (bp_huxley_1993_3 W B) eq_refl); [lra|lra|numbers]|].
  destruct (Qlt_le_dec a (20516#52005)); [apply (use_table W Up huxley_1993_table 4 (12#31) 1 (quot 4 103 128) a _ (bp_huxley_1993_3 W B) eq_refl); [lra|lra|numbers]|].
  destruct (Qlt_le_dec a (62831#155153)); [apply (use_table W Up combined_table 13 (1508#3825) (62831#155153) (fn (18#199) (521#796)) a _ (bp_combined W B) eq_refl); [lra|lra|numbers]|].
  destruct (Qlt_le_dec a (143#349)); [apply (use_table W Up huxley_table_2 3 (307#761) (143#349) (quot 569 1053 2800) a _ (proj2 (bp_huxley_1996 W B)) eq_refl); [lra|lra|numbers]|].
  apply (use_hk01 W Up); [exact (bp_huxley_kolesnik_2001 W B)|lra|lra|numbers|numbers|numbers].
Qed.
Lemma pair_12 : exp_pair W (516247#6629696) (5080955#6629696).
Proof.
  first_half a.
  destruct (Qlt_le_dec a (2581235#8667516)); [apply (use_hb_num W Up 5 a _ (1#20) (1#50)); [exact (bp_heath_brown_2017 W B)|lia|reflexivity|reflexivity|lra|numbers|lra|lra]|].
  destruct (Qlt_le_dec a (1548741#4537540)); [apply (use_hb_num W Up 4 a _ (1#12) (1#24)); [exact (bp_heath_brown_2017 W B)|lia|reflexivity|reflexivity|lra|numbers|lra|lra]|].
  destruct (Qlt_le_dec a (227#601)); [apply (use_table W Up huxley_1993_table 2 (423#1295) (227#601) (quot 89 908 1282) a _ (bp_huxley_1993_3 W B) eq_refl); [lra|lra|numbers]|].
  destruct (Qlt_le_dec a (12#31)); [apply (use_table W Up huxley_1993_table 3 (227#601) (12#31) (quot 29 173 280) a _ (bp_huxley_1993_3 W B) eq_refl); [lra|lra|numbers]|].
  destruct (Qlt_le_dec a (68682#171139)); [apply (use_table W Up huxley_1993_table 4 (12#31) 1 (quot 4 103 128) a _ (bp_huxley_1993_3 W B) eq_refl); [lra|lra|numbers]|].
  destruct (Qlt_le_dec a (62831#155153)); [apply (use_table W Up combined_table 13 (1508#3825) (62831#155153) (fn (18#199) (521#796)) a _ (bp_combined W B) eq_refl); [lra|lra|numbers]|].
  apply (use_hk01 W Up); [exact (bp_huxley_kolesnik_2001 W B)|lra|lra|numbers|numbers|numbers].
Qed.
Lemma pair_13 : exp_pair W (1#13) (10#13).
Proof.
  first_half a.
  destruct (Qlt_le_dec a (8#19)); [apply (use_rs02 W Up); [exact (bp_robert_sargos_2002 W B)|lra|lra|lra]|].
  apply (use_hk01 W Up); [exact (bp_huxley_kolesnik_2001 W B)|lra|lra|numbers|numbers|numbers].
Qed.
Lemma pair_14 : exp_pair W (1#204) (197#204).
Proof.
  first_half a.
  apply (use_pair W Up (1#245) (269#280) a _ hb_pair_8); [lra|lra|lra].
Qed.
Lemma pair_15 : exp_pair W (1#360) (44#45).
Proof.
  first_half a.
  apply (use_pair W Up (1#486) (263#270) a _ hb_pair_10); [lra|lra|lra].
Qed.
Lemma pair_16 : exp_pair W (7#2640) (323#330).
Proof.
  first_half a.
  apply (use_pair W Up (1#486) (263#270) a _ hb_pair_10); [lra|lra|lra].
Qed.
Lemma pair_17 : exp_pair W (1#716) (707#716).
Proof.
  first_half a.
  apply (use_pair W Up (1#847) (907#924) a _ hb_pair_12); [lra|lra|lra].
Qed.
Lemma pair_18 : exp_pair W (1#649) (640#649).
Proof.
  first_half a.
  apply (use_pair W Up (1#650) (1399#1430) a _ hb_pair_11); [lra|lra|lra].
Qed.
Lemma pair_19 : exp_pair W (7#4540) (4477#4540).
Proof.
  first_half a.
  apply (use_pair W Up (1#650) (1399#1430) a _ hb_pair_11); [lra|lra|lra].
Qed.
Lemma pair_20 : exp_pair W (1#615) (202#205).
Proof.
  first_half a.
  apply (use_pair W Up (1#650) (1399#1430) a _ hb_pair_11); [lra|lra|lra].
Qed.
Lemma pair_21 : exp_pair W (1#915) (181#183).
Proof.
  first_half a.
  apply (use_pair W Up (1#1080) (2303#2340) a _ hb_pair_13); [lra|lra|lra].
Qed.
Lemma pair_22 : exp_pair W (4742#38463) (35731#51284).
Proof.
  first_half a.
  destruct (Qlt_le_dec a (92732#237743)); [apply (use_rs02 W Up); [exact (bp_robert_sargos_2002 W B)|lra|lra|lra]|].
  destruct (Qlt_le_dec a (453124#1138489)); [apply (use_table W Up huxley_1993_table 4 (12#31) 1 (quot 4 103 128) a _ (bp_huxley_1993_3 W B) eq_refl); [lra|lra|numbers]|].
  destruct (Qlt_le_dec a (62831#155153)); [apply (use_table W Up combined_table 13 (1508#3825) (62831#155153) (fn (18#199) (521#796)) a _ (bp_combined W B) eq_refl); [lra|lra|numbers]|].
  destruct (Qlt_le_dec a (143#349)); [apply (use_table W Up huxley_table_2 3 (307#761) (143#349) (quot 569 1053 2800) a _ (proj2 (bp_huxley_1996 W B)) eq_refl); [lra|lra|numbers]|].
  destruct (Qlt_le_dec a (181775#432689)); [apply (use_hk01 W Up); [exact (bp_huxley_kolesnik_2001 W B)|lra|lra|numbers|numbers|numbers]|].
  destruct (Qlt_le_dec a (3#7)); [apply (use_table W Up combined_table 18 (5#12) (3#7) (fn (1#12) (2#3)) a _ (bp_combined W B) eq_refl); [lra|lra|numbers]|].
  apply (use_table W Up combined_table 19 (3#7) (1#2) (fn (13#84) (1#2)) a _ (bp_combined W B) eq_refl); [lra|lra|numbers].
Qed.
Lemma pair_23 : exp_pair W (18#199) (593#796).
Proof.
  first_half a.
  destruct (Qlt_le_dec a (140#391)); [apply (use_rs02 W Up); [exact (bp_robert_sargos_2002 W B)|lra|lra|lra]|].
  destruct (Qlt_le_dec a (227#601)); [apply (use_table W Up huxley_1993_table 2 (423#1295) (227#601) (quot 89 908 1282) a _ (bp_huxley_1993_3 W B) eq_refl); [lra|lra|numbers]|].
  destruct (Qlt_le_dec a (12#31)); [apply (use_table W Up huxley_1993_table 3 (227#601) (12#31) (quot 29 173 280) a _ (bp_huxley_1993_3 W B) eq_refl); [lra|lra|numbers]|].
  destruct (Qlt_le_dec a (1508#3825)); [apply (use_table W Up huxley_1993_table 4 (12#31) 1 (quot 4 103 128) a _ (bp_huxley_1993_3 W B) eq_refl); [lra|lra|numbers]|].
  destruct (Qlt_le_dec a (62831#155153)); [apply (use_table W Up combined_table 13 (1508#3825) (62831#155153) (fn (18#199) (521#796)) a _ (bp_combined W B) eq_refl); [lra|lra|numbers]|].
  destruct (Qlt_le_dec a (143#349)); [apply (use_table W Up huxley_table_2 3 (307#761) (143#349) (quot 569 1053 2800) a _ (proj2 (bp_huxley_1996 W B)) eq_refl); [lra|lra|numbers]|].
  apply (use_hk01 W Up); [exact (bp_huxley_kolesnik_2001 W B)|lra|lra|numbers|numbers|numbers].
Qed.
Lemma pair_24 : exp_pair W (2779#38033) (58699#76066).
Proof.
  first_half a.
  destruct (Qlt_le_dec a (55580#191217)); [apply (use_hb_num W Up 5 a _ (1#20) (1#50)); [exact (bp_heath_brown_2017 W B)|lia|reflexivity|reflexivity|lra|numbers|lra|lra]|].
  destruct (Qlt_le_dec a (1424#4747)); [apply (use_table W Up huxley_table_1 5 (120#419) (1424#4747) (quot 4 235 264) a _ (proj1 (bp_huxley_1996 W B)) eq_refl); [lra|lra|numbers]|].
  destruct (Qlt_le_dec a (87#275)); [apply (use_table W Up huxley_1993_table 0 0 (87#275) (quot 13 94 146) a _ (bp_huxley_1993_3 W B) eq_refl); [lra|lra|numbers]|].
  destruct (Qlt_le_dec a (423#1295)); [apply (use_table W Up huxley_1993_table 1 (87#275) (423#1295) (quot 11 191 244) a _ (bp_huxley_1993_3 W B) eq_refl); [lra|lra|numbers]|].
  destruct (Qlt_le_dec a (227#601)); [apply (use_table W Up huxley_1993_table 2 (423#1295) (227#601) (quot 89 908 1282) a _ (bp_huxley_1993_3 W B) eq_refl); [lra|lra|numbers]|].
  destruct (Qlt_le_dec a (12#31)); [apply (use_table W Up huxley_1993_table 3 (227#601) (12#31) (quot 29 173 280) a _ (bp_huxley_1993_3 W B) eq_refl); [lra|lra|numbers]|].
  destruct (Qlt_le_dec a (1508#3825)); [apply (use_table W Up huxley_1993_table 4 (12#31) 1 (quot 4 103 128) a _ (bp_huxley_1993_3 W B) eq_refl); [lra|lra|numbers]|].
  destruct (Qlt_le_dec a (62831#155153)); [apply (use_table W Up combined_table 13 (1508#3825) (62831#155153) (fn (18#199) (521#796)) a _ (bp_combined W B) eq_refl); [lra|lra|numbers]|].
  destruct (Qlt_le_dec a (143#349)); [apply (use_table W Up huxley_table_2 3 (307#761) (143#349) (quot 569 1053 2800) a _ (proj2 (bp_huxley_1996 W B)) eq_refl); [lra|lra|numbers]|].
  apply (use_hk01 W Up); [exact (bp_huxley_kolesnik_2001 W B)|lra|lra|numbers|numbers|numbers].
Qed.
Lemma pair_25 : exp_pair W (715#10238) (7955#10238).
Proof.
  first_half a.
  destruct (Qlt_le_dec a (7150#24861)); [apply (use_hb_num W Up 5 a _ (1#20) (1#50)); [exact (bp_heath_brown_2017 W B)|lia|reflexivity|reflexivity|lra|numbers|lra|lra]|].
  destruct (Qlt_le_dec a (73904#247285)); [apply (use_table W Up huxley_table_1 5 (120#419) (1424#4747) (quot 4 235 264) a _ (proj1 (bp_huxley_1996 W B)) eq_refl); [lra|lra|numbers]|].
  destruct (Qlt_le_dec a (104#343)); [apply (use_table W Up combined_table 7 (1328#4447) (104#343) (fn (13#194) (139#194)) a _ (bp_combined W B) eq_refl); [lra|lra|numbers]|].
  destruct (Qlt_le_dec a (87#275)); [apply (use_table W Up huxley_1993_table 0 0 (87#275) (quot 13 94 146) a _ (bp_huxley_1993_3 W B) eq_refl); [lra|lra|numbers]|].
  destruct (Qlt_le_dec a (423#1295)); [apply (use_table W Up huxley_1993_table 1 (87#275) (423#1295) (quot 11 191 244) a _ (bp_huxley_1993_3 W B) eq_refl); [lra|lra|numbers]|].
  destruct (Qlt_le_dec a (227#601)); [apply (use_table W Up huxley_1993_table 2 (423#1295) (227#601) (quot 89 908 1282) a _ (bp_huxley_1993_3 W B) eq_refl); [lra|lra|numbers]|].
  destruct (Qlt_le_dec a (12#31)); [apply (use_table W Up huxley_1993_table 3 (227#601) (12#31) (quot 29 173 280) a _ (bp_huxley_1993_3 W B) eq_refl); [lra|lra|numbers]|].
  destruct (Qlt_le_dec a (8428#21299)); [apply (use_table W Up huxley_1993_table 4 (12#31) 1 (quot 4 103 128) a _ (bp_huxley_1993_3 W B) eq_refl); [lra|lra|numbers]|].
  destruct (Qlt_le_dec a (62831#155153)); [apply (use_table W Up combined_table 13 (1508#3825) (62831#155153) (fn (18#199) (521#796)) a _ (bp_combined W B) eq_refl); [lra|lra|numbers]|].
  destruct (Qlt_le_dec a (143#349)); [apply (use_table W Up huxley_table_2 3 (307#761) (143#349) (quot 569 1053 2800) a _ (proj2 (bp_huxley_1996 W B)) eq_refl); [lra|lra|numbers]|].
  apply (use_hk01 W Up); [exact (bp_huxley_kolesnik_2001 W B)|lra|lra|numbers|numbers|numbers].
Qed.
Lemma huxley_first : exp_pair W (169#2510) (1400279#1787120).
Proof.
  first_half a.
  destruct (Qlt_le_dec a (120328#417813)); [apply (use_hb_num W Up 5 a _ (1#20) (1#50)); [exact (bp_heath_brown_2017 W B)|lia|reflexivity|reflexivity|lra|numbers|lra|lra]|].
  destruct (Qlt_le_dec a (1424#4747)); [apply (use_table W Up huxley_table_1 5 (120#419) (1424#4747) (quot 4 235 264) a _ (proj1 (bp_huxley_1996 W B)) eq_refl); [lra|lra|numbers]|].
  destruct (Qlt_le_dec a (87#275)); [apply (use_table W Up huxley_1993_table 0 0 (87#275) (quot 13 94 146) a _ (bp_huxley_1993_3 W B) eq_refl); [lra|lra|numbers]|].
  destruct (Qlt_le_dec a (423#1295)); [apply (use_table W Up huxley_1993_table 1 (87#275) (423#1295) (quot 11 191 244) a _ (bp_huxley_1993_3 W B) eq_refl); [lra|lra|numbers]|].
  destruct (Qlt_le_dec a (227#601)); [apply (use_table W Up huxley_1993_table 2 (423#1295) (227#601) (quot 89 908 1282) a _ (bp_huxley_1993_3 W B) eq_refl); [lra|lra|numbers]|].
  destruct (Qlt_le_dec a (12#31)); [apply (use_table W Up huxley_1993_table 3 (227#601) (12#31) (quot 29 173 280) a _ (bp_huxley_1993_3 W B) eq_refl); [lra|lra|numbers]|].
  destruct (Qlt_le_dec a (356#873)); [apply (use_table W Up huxley_1993_table 4 (12#31) 1 (quot 4 103 128) a _ (bp_huxley_1993_3 W B) eq_refl); [lra|lra|numbers]|].
  apply (use_hk01 W Up); [exact (bp_huxley_kolesnik_2001 W B)|lra|lra|numbers|numbers|numbers].
Qed.
Lemma A_pair_22 : exp_pair W (2371#43205) (280013#345640).
Proof. apply (pair_eq W Up _ _ _ _ (PA _ _ pair_22)); vm_compute; reflexivity. Qed.
Lemma A_pair_23 : exp_pair W (9#217) (1461#1736).
Proof. apply (pair_eq W Up _ _ _ _ (PA _ _ pair_23)); vm_compute; reflexivity. Qed.
Lemma A_pair_24 : exp_pair W (2779#81624) (140323#163248).
Proof. apply (pair_eq W Up _ _ _ _ (PA _ _ pair_24)); vm_compute; reflexivity. Qed.
Lemma A_pair_25 : exp_pair W (715#21906) (9454#10953).
Proof. apply (pair_eq W Up _ _ _ _ (PA _ _ pair_25)); vm_compute; reflexivity. Qed.
Lemma new_1 : exp_pair W (89#1282) (997#1282).
Proof.
  first_half a.
  destruct (Qlt_le_dec a (3222492#10409285)); [apply (use_pair W Up (2371#43205) (280013#345640) a _ A_pair_22); [lra|lra|lra]|].
  destruct (Qlt_le_dec a (87#275)); [apply (use_table W Up huxley_1993_table 0 0 (87#275) (quot 13 94 146) a _ (bp_huxley_1993_3 W B) eq_refl); [lra|lra|numbers]|].
  destruct (Qlt_le_dec a (423#1295)); [apply (use_table W Up huxley_1993_table 1 (87#275) (423#1295) (quot 11 191 244) a _ (bp_huxley_1993_3 W B) eq_refl); [lra|lra|numbers]|].
  destruct (Qlt_le_dec a (227#601)); [apply (use_table W Up huxley_1993_table 2 (423#1295) (227#601) (quot 89 908 1282) a _ (bp_huxley_1993_3 W B) eq_refl); [lra|lra|numbers]|].
  apply (use_pair W Up (2779#38033) (58699#76066) a _ pair_24); [lra|lra|lra].
Qed.
Lemma new_2 : exp_pair W (652397#9713986) (7599781#9713986).
Proof.
  first_half a.
  destruct (Qlt_le_dec a (861996#2811205)); [apply (use_pair W Up (2371#43205) (280013#345640) a _ A_pair_22); [lra|lra|lra]|].
  destruct (Qlt_le_dec a (87#275)); [apply (use_table W Up huxley_1993_table 0 0 (87#275) (quot 13 94 146) a _ (bp_huxley_1993_3 W B) eq_refl); [lra|lra|numbers]|].
  destruct (Qlt_le_dec a (423#1295)); [apply (use_table W Up huxley_1993_table 1 (87#275) (423#1295) (quot 11 191 244) a _ (bp_huxley_1993_3 W B) eq_refl); [lra|lra|numbers]|].
  destruct (Qlt_le_dec a (227#601)); [apply (use_table W Up huxley_1993_table 2 (423#1295) (227#601) (quot 89 908 1282) a _ (bp_huxley_1993_3 W B) eq_refl); [lra|lra|numbers]|].
  apply (use_pair W Up (2779#38033) (58699#76066) a _ pair_24); [lra|lra|lra].
Qed.
Lemma new_3 : exp_pair W (10769#351096) (609317#702192).
Proof.
  first_half a.
  destruct (Qlt_le_dec a (314960#1283461)); [apply (use_pair W Up (1#56) (127#140) a _ hb_pair_5); [lra|lra|lra]|].
  destruct (Qlt_le_dec a (890#3277)); [apply (use_hb_num W Up 5 a _ (1#20) (1#50)); [exact (bp_heath_brown_2017 W B)|lia|reflexivity|reflexivity|lra|numbers|lra|lra]|].
  destruct (Qlt_le_dec a (199#716)); [apply (use_table W Up huxley_table_1 2 (19#74) (199#716) (quot 89 2243 2706) a _ (proj1 (bp_huxley_1996 W B)) eq_refl); [lra|lra|numbers]|].
  destruct (Qlt_le_dec a (967#3428)); [apply (use_table W Up huxley_table_1 3 (199#716) (967#3428) (quot 29 464 600) a _ (proj1 (bp_huxley_1996 W B)) eq_refl); [lra|lra|numbers]|].
  destruct (Qlt_le_dec a (120#419)); [apply (use_table W Up huxley_table_1 4 (967#3428) (120#419) (quot 49 1351 1614) a _ (proj1 (bp_huxley_1996 W B)) eq_refl); [lra|lra|numbers]|].
  destruct (Qlt_le_dec a (754#2579)); [apply (use_table W Up huxley_table_1 5 (120#419) (1424#4747) (quot 4 235 264) a _ (proj1 (bp_huxley_1996 W B)) eq_refl); [lra|lra|numbers]|].
  apply (use_pair W Up (9#217) (1461#1736) a _ A_pair_23); [lra|lra|lra].
Qed.
Lemma new_4 : exp_pair W (89#3478) (15327#17390).
Proof.
  first_half a.
  destruct (Qlt_le_dec a (3#13)); [apply (use_pair W Up (1#56) (127#140) a _ hb_pair_5); [lra|lra|lra]|].
  destruct (Qlt_le_dec a (890#3277)); [apply (use_hb_num W Up 5 a _ (1#20) (1#50)); [exact (bp_heath_brown_2017 W B)|lia|reflexivity|reflexivity|lra|numbers|lra|lra]|].
  destruct (Qlt_le_dec a (199#716)); [apply (use_table W Up huxley_table_1 2 (19#74) (199#716) (quot 89 2243 2706) a _ (proj1 (bp_huxley_1996 W B)) eq_refl); [lra|lra|numbers]|].
  destruct (Qlt_le_dec a (967#3428)); [apply (use_table W Up huxley_table_1 3 (199#716) (967#3428) (quot 29 464 600) a _ (proj1 (bp_huxley_1996 W B)) eq_refl); [lra|lra|numbers]|].
  apply (use_pair W Up (2779#81624) (140323#163248) a _ A_pair_24); [lra|lra|lra].
Qed.
End Covers.
