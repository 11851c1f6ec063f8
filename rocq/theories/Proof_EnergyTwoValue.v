(** C73: the largest rho* / tau in the second derivation. *)
From Coq Require Import Reals Qreals Permutation Classical.
From Verif Require Import Base LinAlg Model_Polytope Spec_Polytope Proof_Polytope Proof_PolytopeLP Proof_Interval Proof_Piecewise Model_Region Spec_Region Model_LargeValues Spec_LargeValues Model_AdditiveEnergy Spec_AdditiveEnergy Prop_AdditiveEnergy
  Model_EnergyDerivation Spec_EnergyDerivation Spec_LiteratureEnergy Spec_DerivedDensity Prop_DerivedDensity Spec_EnergyProofs Proof_EnergyProofs.
From Coq Require Import Lra.
Open Scope list_scope.
Local Open Scope Q_scope.

Lemma lv_power : forall B k s t r e z, 0 < k -> lv_relation B s (t / k) (r / k) e z <-> Exists (fun b => r <= k * (nth 0 b 0 + nth 1 b 0 * s) + nth 2 b 0 * t) B.
Proof.
  intros B k s t r e z K. unfold lv_relation. assert (NZ : ~ k == 0) by (intro Z; rewrite Z in K; now apply Qlt_irrefl in K).
  assert (X : forall b, r / k <= bound_at b s (t / k) <-> r <= k * (nth 0 b 0 + nth 1 b 0 * s) + nth 2 b 0 * t).
  { intro b. unfold bound_at. assert (R : k * (r / k) == r) by (field; exact NZ). assert (T : k * (t / k) == t) by (field; exact NZ). set (x := r / k) in *. set (y := t / k) in *. clearbody x y.
    set (c0 := nth 0 b 0). set (c1 := nth 1 b 0). set (c2 := nth 2 b 0). split; intro H; [rewrite <- R, <- T; Lqa.nra|].
    apply (Qmult_le_l _ _ k K). rewrite <- R, <- T in H. Lqa.lra. }
  rewrite !Exists_exists. split; intros (b & Ib & Hb); exists b; (split; [exact Ib|]); now apply X.
Qed.
Lemma lv_proper : forall B, rel_proper (lv_relation B).
Proof.
  intros B s t r e z s' t' r' e' z' A1 A2 A3 _ _. unfold lv_relation. apply Exists_impl. intros b H. unfold bound_at in *. rewrite <- A1, <- A2, <- A3. exact H.
Qed.
Lemma max3_cases : forall a b c, max3 a b c == a \/ max3 a b c == b \/ max3 a b c == c.
Proof. intros a b c. unfold max3. destruct (qmax_spec b c) as (_ & _ & [A|A]); destruct (qmax_spec a (qmax b c)) as (_ & _ & [C|C]); rewrite ?C, ?A; auto using Qeq_refl; left; now rewrite C. Qed.
Lemma max3_ge : forall a b c, a <= max3 a b c /\ b <= max3 a b c /\ c <= max3 a b c.
Proof. intros a b c. unfold max3. destruct (qmax_spec b c) as (A & B & _); destruct (qmax_spec a (qmax b c)) as (C & D & _). repeat split; Lqa.lra. Qed.
Lemma hb_proper : rel_proper hb_relation.
Proof.
  intros s t r e z s' t' r' e' z' A1 A2 A3 A4 _. unfold hb_relation. intro H.
  pose proof (max3_ge (r' + 1) (2 * r') ((5#4) * r' + t' * (1#2))) as (M1 & M2 & M3). pose proof (max3_ge (e' + 1) (4 * r') ((3#4) * e' + r' + t' * (1#2))) as (M4 & M5 & M6).
  destruct (max3_cases (r + 1) (2 * r) ((5#4) * r + t * (1#2))) as [X|[X|X]]; destruct (max3_cases (e + 1) (4 * r) ((3#4) * e + r + t * (1#2))) as [Y|[Y|Y]]; rewrite X, Y in H; Lqa.lra.
Qed.

(** What the k-th power of the Heath-Brown relation says if rho <= rm. *)
Lemma hb_upper : forall k s t r e z rm X, 0 < k -> hb_relation s (t / k) (r / k) (e / k) z -> r <= rm -> rm + k <= X -> 2 * rm <= X -> (5#4) * rm + (1#2) * t <= X ->
  e <= 3 * k - 4 * (k * s) + X \/ e <= k - 2 * (k * s) + (1#2) * X + 2 * rm \/ (5#8) * e <= k - 2 * (k * s) + (1#2) * X + (1#2) * rm + (1#4) * t.
Proof.
  intros k s t r e z rm X K H R X1 X2 X3. assert (NZ : ~ k == 0) by (intro Z; rewrite Z in K; now apply Qlt_irrefl in K). unfold hb_relation in H.
  assert (Rk : k * (r / k) == r) by (field; exact NZ). assert (Tk : k * (t / k) == t) by (field; exact NZ). assert (Ek : k * (e / k) == e) by (field; exact NZ).
  set (x := r / k) in *. set (y := t / k) in *. set (w := e / k) in *. clearbody x y w. apply (Qmult_le_l _ _ k K) in H.
  destruct (max3_cases (x + 1) (2 * x) ((5#4) * x + y * (1#2))) as [A|[A|A]]; destruct (max3_cases (w + 1) (4 * x) ((3#4) * w + x + y * (1#2))) as [B|[B|B]]; rewrite A, B in H;
    [left|right; left|right; right|left|right; left|right; right|left|right; left|right; right]; Lqa.lra.
Qed.
(** Three of the nine ways to satisfy it. *)
Lemma hb_lower : forall k s t r e z, 0 < k ->
  e <= 4 * k - 4 * (k * s) + r \/ e <= (3#2) * k - 2 * (k * s) + (5#2) * r \/ e <= k - 2 * (k * s) + (21#8) * r + (1#4) * t -> hb_relation s (t / k) (r / k) (e / k) z.
Proof.
  intros k s t r e z K H. assert (NZ : ~ k == 0) by (intro Z; rewrite Z in K; now apply Qlt_irrefl in K). unfold hb_relation.
  assert (Rk : k * (r / k) == r) by (field; exact NZ). assert (Tk : k * (t / k) == t) by (field; exact NZ). assert (Ek : k * (e / k) == e) by (field; exact NZ).
  set (x := r / k) in *. set (y := t / k) in *. set (w := e / k) in *. clearbody x y w.
  pose proof (max3_ge (x + 1) (2 * x) ((5#4) * x + y * (1#2))) as (M1 & M2 & M3). pose proof (max3_ge (w + 1) (4 * x) ((3#4) * w + x + y * (1#2))) as (M4 & M5 & M6).
  set (P := max3 (x + 1) _ _) in *. set (S := max3 (w + 1) _ _) in *. clearbody P S.
  assert (Y : w <= 4 - 4 * s + x \/ w <= (3#2) - 2 * s + (5#2) * x \/ w <= 1 - 2 * s + (21#8) * x + (1#4) * y).
  { destruct H as [H|[H|H]]; [left|right; left|right; right]; apply (Qmult_le_l _ _ k K); Lqa.lra. }
  destruct Y as [Y|[Y|Y]]; Lqa.lra.
Qed.

Definition rels2 : list Spec_LiteratureEnergy.relation := [hb_relation; lv_relation l2_bounds; lv_relation gm_bounds].
Definition ks2 : list Q := [1; 2; 3; 4].

Lemma lv_in : forall rels ks B k s t r e z, obeyed rels ks s t r e z -> In (lv_relation B) rels -> In k ks -> 0 < k -> Exists (fun b => r <= k * (nth 0 b 0 + nth 1 b 0 * s) + nth 2 b 0 * t) B.
Proof. intros rels ks B k s t r e z O Ir Ik K. apply (lv_power B k s t r (e / k) (z / k) K). now apply O. Qed.

Ltac exs H := repeat (apply Exists_cons in H; destruct H as [H|H]); try (apply Exists_nil in H; destruct H); cbn [nth] in H.
Lemma ratio_le : forall e L D N t, e <= L -> 0 < D -> L * D <= N * t -> e * D <= N * t.
Proof. intros. apply Qle_trans with (L * D); [|assumption]. apply Qmult_le_compat_r; Lqa.lra. Qed.
Lemma ratio_le58 : forall e L D N t, (5#8) * e <= L -> 0 < D -> (8#5) * L * D <= N * t -> e * D <= N * t.
Proof. intros. apply Qle_trans with ((8#5) * L * D); [|assumption]. apply Qmult_le_compat_r; Lqa.lra. Qed.

Definition below2 (s t e : Q) : Prop := e * (2 * (5 * s + 3)) <= 5 * (18 - 19 * s) * t \/ e * (2 * s + 15) <= 2 * (45 - 44 * s) * t.
Lemma upper2 : forall s t r e z, 7#10 <= s -> s <= 3#4 -> 2 <= t -> t <= 4 -> obeyed rels2 ks2 s t r e z -> below2 s t e.
Proof.
  intros s t r e z S1 S2 T1 T2 O. unfold below2.
  assert (D1 : 0 < 2 * (5 * s + 3)) by Lqa.lra. assert (D2 : 0 < 2 * s + 15) by Lqa.lra.
  assert (I1 : In 1 ks2) by now left. assert (I2 : In 2 ks2) by (right; now left). assert (I3 : In 3 ks2) by (do 2 right; now left). assert (I4 : In 4 ks2) by (do 3 right; now left).
  assert (L : In (lv_relation l2_bounds) rels2) by (right; now left). assert (G : In (lv_relation gm_bounds) rels2) by (do 2 right; now left). assert (H : In hb_relation rels2) by now left.
  assert (R2 : r <= t + 2 - 4 * s). { pose proof (lv_in _ _ _ _ _ _ _ _ _ O L I2 ltac:(reflexivity)) as X. unfold l2_bounds in X. exs X; Lqa.lra. }
  assert (H1 := O _ _ H I1). assert (H2 := O _ _ H I2). assert (H3 := O _ _ H I3).
  destruct (Qlt_le_dec (2 * s + 15) ((15#2) * t)) as [TA|TA].
  2:{ (* tau <= (2 sigma + 15) / 7.5 *)
    right. destruct (hb_upper 1 s t r e (z / 1) (t + 2 - 4 * s) ((5#4) * (t + 2 - 4 * s) + (1#2) * t) ltac:(reflexivity) H1 R2) as [X|[X|X]]; try Lqa.lra.
    - apply (ratio_le _ _ _ _ _ X D2). Lqa.nra.
    - apply (ratio_le _ _ _ _ _ X D2). Lqa.nra.
    - apply (ratio_le58 _ _ _ _ _ X D2). Lqa.nra. }
  destruct (Qlt_le_dec t (2 * s + (6#5))) as [TB|TB].
  { (* up to 2 sigma + 6/5 *)
    assert (G2 : r <= (36#5) - 8 * s \/ r <= t + (24#5) - 8 * s). { pose proof (lv_in _ _ _ _ _ _ _ _ _ O G I2 ltac:(reflexivity)) as X. unfold gm_bounds in X. exs X; [left|left|right]; Lqa.lra. }
    destruct G2 as [G2|G2].
    - destruct (Qlt_le_dec t ((26#5) - 4 * s)) as [TC|TC].
      + destruct (hb_upper 2 s t r e (z / 2) (t + 2 - 4 * s) (t + 2 - 4 * s + 2) ltac:(reflexivity) H2 R2) as [X|[X|X]]; try Lqa.lra.
        * right. apply (ratio_le _ _ _ _ _ X D2). Lqa.nra.
        * left. apply (ratio_le _ _ _ _ _ X D1). Lqa.nra.
        * right. apply (ratio_le58 _ _ _ _ _ X D2). Lqa.nra.
      + destruct (hb_upper 2 s t r e (z / 2) ((36#5) - 8 * s) ((36#5) - 8 * s + 2) ltac:(reflexivity) H2 G2) as [X|[X|X]]; try Lqa.lra.
        * right. apply (ratio_le _ _ _ _ _ X D2). Lqa.nra.
        * left. apply (ratio_le _ _ _ _ _ X D1). Lqa.nra.
        * right. apply (ratio_le58 _ _ _ _ _ X D2). Lqa.nra.
    - destruct (hb_upper 2 s t r e (z / 2) (t + (24#5) - 8 * s) (t + (24#5) - 8 * s + 2) ltac:(reflexivity) H2 G2) as [X|[X|X]]; try Lqa.lra.
      + left. apply (ratio_le _ _ _ _ _ X D1). Lqa.nra.
      + left. apply (ratio_le _ _ _ _ _ X D1). Lqa.nra.
      + left. apply (ratio_le58 _ _ _ _ _ X D1). Lqa.nra. }
  assert (R3 : r <= 6 - 6 * s \/ r <= t + 3 - 6 * s). { pose proof (lv_in _ _ _ _ _ _ _ _ _ O L I3 ltac:(reflexivity)) as X. unfold l2_bounds in X. exs X; [left|right]; Lqa.lra. }
  destruct (Qlt_le_dec t 3) as [TC|TC].
  { (* up to 3 *)
    assert (R3' : r <= 6 - 6 * s) by Lqa.lra.
    destruct (hb_upper 2 s t r e (z / 2) (6 - 6 * s) (6 - 6 * s + 2) ltac:(reflexivity) H2 R3') as [X|[X|X]]; try Lqa.lra; left.
    - apply (ratio_le _ _ _ _ _ X D1). Lqa.nra.
    - apply (ratio_le _ _ _ _ _ X D1). Lqa.nra.
    - apply (ratio_le58 _ _ _ _ _ X D1). Lqa.nra. }
  assert (R3' : r <= t + 3 - 6 * s) by Lqa.lra.
  destruct (Qlt_le_dec t (173#50)) as [TE|TE].
  { destruct (Qlt_le_dec (t + 3 - 6 * s + 2) ((5#4) * (t + 3 - 6 * s) + (1#2) * t)) as [XX|XX].
    - destruct (hb_upper 2 s t r e (z / 2) (t + 3 - 6 * s) ((5#4) * (t + 3 - 6 * s) + (1#2) * t) ltac:(reflexivity) H2 R3') as [X|[X|X]]; try Lqa.lra.
      + left. apply (ratio_le _ _ _ _ _ X D1). Lqa.nra.
      + destruct (Qlt_le_dec s (1451#2000)); [left; apply (ratio_le _ _ _ _ _ X D1)|right; apply (ratio_le _ _ _ _ _ X D2)]; Lqa.nra.
      + left. apply (ratio_le58 _ _ _ _ _ X D1). Lqa.nra.
    - destruct (hb_upper 2 s t r e (z / 2) (t + 3 - 6 * s) (t + 3 - 6 * s + 2) ltac:(reflexivity) H2 R3') as [X|[X|X]]; try Lqa.lra.
      + left. apply (ratio_le _ _ _ _ _ X D1). Lqa.nra.
      + left. apply (ratio_le _ _ _ _ _ X D1). Lqa.nra.
      + left. apply (ratio_le58 _ _ _ _ _ X D1). Lqa.nra. }
  assert (R4 : r <= 8 - 8 * s). { pose proof (lv_in _ _ _ _ _ _ _ _ _ O L I4 ltac:(reflexivity)) as X. unfold l2_bounds in X. exs X; Lqa.lra. }
  destruct (Qlt_le_dec t (5 - 2 * s)) as [TF|TF].
  - destruct (hb_upper 3 s t r e (z / 3) (t + 3 - 6 * s) (t + 3 - 6 * s + 3) ltac:(reflexivity) H3 R3') as [X|[X|X]]; try Lqa.lra.
    + destruct (Qlt_le_dec s (1451#2000)); [left; apply (ratio_le _ _ _ _ _ X D1)|right; apply (ratio_le _ _ _ _ _ X D2)]; Lqa.nra.
    + destruct (Qlt_le_dec s (1451#2000)); [left; apply (ratio_le _ _ _ _ _ X D1)|right; apply (ratio_le _ _ _ _ _ X D2)]; Lqa.nra.
    + destruct (Qlt_le_dec s (1451#2000)); [left; apply (ratio_le58 _ _ _ _ _ X D1)|right; apply (ratio_le58 _ _ _ _ _ X D2)]; Lqa.nra.
  - destruct (hb_upper 3 s t r e (z / 3) (8 - 8 * s) (8 - 8 * s + 3) ltac:(reflexivity) H3 R4) as [X|[X|X]]; try Lqa.lra.
    + destruct (Qlt_le_dec s (1451#2000)); [left; apply (ratio_le _ _ _ _ _ X D1)|right; apply (ratio_le _ _ _ _ _ X D2)]; Lqa.nra.
    + destruct (Qlt_le_dec s (1451#2000)); [left; apply (ratio_le _ _ _ _ _ X D1)|right; apply (ratio_le _ _ _ _ _ X D2)]; Lqa.nra.
    + destruct (Qlt_le_dec s (1451#2000)); [left; apply (ratio_le58 _ _ _ _ _ X D1)|right; apply (ratio_le58 _ _ _ _ _ X D2)]; Lqa.nra.
Qed.

Ltac lvtac := apply lv_power; [reflexivity|]; unfold l2_bounds, gm_bounds;
  first [apply Exists_cons_hd; cbn [nth]; Lqa.lra | apply Exists_cons_tl; first [apply Exists_cons_hd; cbn [nth]; Lqa.lra | apply Exists_cons_tl; apply Exists_cons_hd; cbn [nth]; Lqa.lra]].
Ltac hbtac := apply hb_lower; [reflexivity|]; first [left; Lqa.lra | right; left; Lqa.lra | right; right; Lqa.lra].
Lemma near5 : forall eta s t r e z y, near eta [s; t; r; e; z] y -> exists s' t' r' e' z', y = [s'; t'; r'; e'; z'] /\ - eta <= s' - s <= eta /\ - eta <= t' - t <= eta /\ - eta <= r' - r <= eta /\ - eta <= e' - e <= eta /\ - eta <= z' - z <= eta.
Proof.
  intros eta s t r e z y [Ly Ny]. destruct y as [|s' [|t' [|r' [|e' [|z' [|]]]]]]; try discriminate Ly. exists s', t', r', e', z'. split; [reflexivity|].
  pose proof (Ny 0%nat) as N0. pose proof (Ny 1%nat) as N1. pose proof (Ny 2%nat) as N2. pose proof (Ny 3%nat) as N3. pose proof (Ny 4%nat) as N4. cbn [nth] in *.
  apply Qabs_Qle_condition in N0, N1, N2, N3, N4. auto.
Qed.
Lemma near3 : forall eta s t e s' t' e', - eta <= s' - s <= eta -> - eta <= t' - t <= eta -> - eta <= e' - e <= eta -> near eta [s; t; e] [s'; t'; e'].
Proof.
  intros eta s t e s' t' e' A B C. split; [reflexivity|]. intro i. destruct i as [|[|[|i]]]; cbn [nth]; apply Qabs_Qle_condition; auto. destruct i; cbn [nth]; Lqa.lra.
Qed.

(** The tuples that the second derivation looks at. *)
Definition seen (rels : list Spec_LiteratureEnergy.relation) (ks : list Q) (a b s t r e z : Q) : Prop :=
  a <= s <= b /\ 2 <= t <= 4 /\ 0 <= r <= LV_DEFAULT_UPPER_BOUND /\ 0 <= e <= LV_DEFAULT_UPPER_BOUND /\ 0 <= z <= LV_DEFAULT_UPPER_BOUND /\ obeyed rels ks s t r e z.

Section Low.
Context (S : point -> Prop) (HS : forall s t r e z, S [s; t; r; e; z] <-> seen rels2 ks2 (7#10) (3#4) s t r e z).
Lemma inside_first : forall s d, 0 < d -> d <= 1#100 -> (7#10) + d <= s -> s + d <= 3#4 -> Spec_Region.inside S [s; 2 * s + (6#5); 6 - 6 * s - d; 18 - 19 * s - 10 * d; 1].
Proof.
  intros s d D0 D1 S1 S2. exists (d * (1#100)). split; [Lqa.lra|]. intros y Ny. destruct (near5 _ _ _ _ _ _ _ Ny) as (s' & t' & r' & e' & z' & -> & N0 & N1 & N2 & N3 & N4).
  apply HS. unfold seen, LV_DEFAULT_UPPER_BOUND. repeat (split; [split; Lqa.lra|]). intros rel k Ir Ik.
  destruct Ir as [<- | [<- | [<- | []]]]; destruct Ik as [<- | [<- | [<- | [<- | []]]]]; try lvtac; hbtac.
Qed.
Lemma inside_second : forall s d, 0 < d -> d <= 1#100 -> (7#10) + d <= s -> s + d <= 3#4 -> Spec_Region.inside S [s; (4#15) * s + 2; 4 - (56#15) * s - d; 12 - (176#15) * s - 10 * d; 1].
Proof.
  intros s d D0 D1 S1 S2. exists (d * (1#100)). split; [Lqa.lra|]. intros y Ny. destruct (near5 _ _ _ _ _ _ _ Ny) as (s' & t' & r' & e' & z' & -> & N0 & N1 & N2 & N3 & N4).
  apply HS. unfold seen, LV_DEFAULT_UPPER_BOUND. repeat (split; [split; Lqa.lra|]). intros rel k Ir Ik.
  destruct Ir as [<- | [<- | [<- | []]]]; destruct Ik as [<- | [<- | [<- | [<- | []]]]]; try lvtac; hbtac.
Qed.
Lemma small : forall eps c, 0 < eps -> 0 < c -> exists d, 0 < d /\ d <= 1#100 /\ 40 * d <= eps /\ 2 * d <= c.
Proof.
  intros eps c P1 P2. destruct (qmin_spec (eps * (1#40)) (c * (1#2))) as (A1 & A2 & A3). set (m := qmin _ _) in *. destruct (qmin_spec m (1#100)) as (B1 & B2 & B3). exists (qmin m (1#100)).
  assert (0 < m) by (destruct A3 as [-> | ->]; Lqa.lra). repeat split; try Lqa.lra. destruct B3 as [-> | ->]; Lqa.lra.
Qed.
Lemma low2 : forall s, 7#10 <= s -> s < 3#4 -> exists t0 e0, 0 < t0 /\ e0 == energy_2 s * t0 /\ 0 <= e0 /\ forall eps, 0 < eps -> exists s' t' r' e' z', near eps [s; t0; e0] [s'; t'; e'] /\ s < s' /\ Spec_Region.inside S [s'; t'; r'; e'; z'].
Proof.
  intros s S1 S2. unfold energy_2. destruct (qmax_spec (5 * (18 - 19 * s) / (2 * (5 * s + 3))) (2 * (45 - 44 * s) / (2 * s + 15))) as (_ & _ & [-> | ->]).
  - exists (2 * s + (6#5)), (18 - 19 * s). split; [Lqa.lra|]. split; [field; Lqa.lra|]. split; [Lqa.lra|]. intros eps Pe. destruct (small eps ((3#4) - s) Pe ltac:(Lqa.lra)) as (d & D0 & D1 & D2 & D3).
    exists (s + d), (2 * (s + d) + (6#5)), (6 - 6 * (s + d) - d), (18 - 19 * (s + d) - 10 * d), 1. split; [apply near3; split; Lqa.lra|]. split; [Lqa.lra|]. apply inside_first; Lqa.lra.
  - exists ((4#15) * s + 2), (12 - (176#15) * s). split; [Lqa.lra|]. split; [field; Lqa.lra|]. split; [Lqa.lra|]. intros eps Pe. destruct (small eps ((3#4) - s) Pe ltac:(Lqa.lra)) as (d & D0 & D1 & D2 & D3).
    exists (s + d), ((4#15) * (s + d) + 2), (4 - (56#15) * (s + d) - d), (12 - (176#15) * (s + d) - 10 * d), 1. split; [apply near3; split; Lqa.lra|]. split; [Lqa.lra|]. apply inside_second; Lqa.lra.
Qed.
Lemma two2 : exists x y, Spec_Region.inside S x /\ Spec_Region.inside S y /\ List.length x = List.length y /\ ~ S (mix (1#2) x y).
Proof.
  exists [18#25; 66#25; 167#100; 42#10; 1], [18#25; 11#5; 131#100; 35#10; 1]. split; [|split; [|split; [reflexivity|]]].
  - exists (1#10000). split; [reflexivity|]. intros y Ny. destruct (near5 _ _ _ _ _ _ _ Ny) as (s' & t' & r' & e' & z' & -> & N0 & N1 & N2 & N3 & N4).
    apply HS. unfold seen, LV_DEFAULT_UPPER_BOUND. repeat (split; [split; Lqa.lra|]). intros rel k Ir Ik.
    destruct Ir as [<- | [<- | [<- | []]]]; destruct Ik as [<- | [<- | [<- | [<- | []]]]]; try lvtac; hbtac.
  - exists (1#10000). split; [reflexivity|]. intros y Ny. destruct (near5 _ _ _ _ _ _ _ Ny) as (s' & t' & r' & e' & z' & -> & N0 & N1 & N2 & N3 & N4).
    apply HS. unfold seen, LV_DEFAULT_UPPER_BOUND. repeat (split; [split; Lqa.lra|]). intros rel k Ir Ik.
    destruct Ir as [<- | [<- | [<- | []]]]; destruct Ik as [<- | [<- | [<- | [<- | []]]]]; try lvtac; hbtac.
  - cbn. intro K. apply HS in K as (_ & _ & _ & _ & _ & O).
    pose proof (lv_in _ _ gm_bounds 2 _ _ _ _ _ O ltac:(do 2 right; now left) ltac:(right; now left) ltac:(reflexivity)) as X. unfold gm_bounds in X. exs X; Lqa.lra.
Qed.
End Low.
Lemma up2 : forall s t r e z, 7#10 <= s <= 3#4 -> 2 <= t <= 4 -> 0 <= r -> 0 <= e -> obeyed rels2 ks2 s t r e z -> e <= energy_2 s * t.
Proof.
  intros s t r e z [S1 S2] [T1 T2] _ _ O. unfold energy_2. destruct (qmax_spec (5 * (18 - 19 * s) / (2 * (5 * s + 3))) (2 * (45 - 44 * s) / (2 * s + 15))) as (M1 & M2 & _). set (m := qmax _ _) in *. clearbody m.
  destruct (upper2 s t r e z S1 S2 T1 T2 O) as [X|X].
  - apply Qle_trans with (5 * (18 - 19 * s) / (2 * (5 * s + 3)) * t); [|apply Qmult_le_compat_r; Lqa.lra].
    apply Qmult_lt_0_le_reg_r with (2 * (5 * s + 3)); [Lqa.lra|]. eapply Qle_trans; [exact X|]. apply Qle_lteq. right. field. Lqa.lra.
  - apply Qle_trans with (2 * (45 - 44 * s) / (2 * s + 15) * t); [|apply Qmult_le_compat_r; Lqa.lra].
    apply Qmult_lt_0_le_reg_r with (2 * s + 15); [Lqa.lra|]. eapply Qle_trans; [exact X|]. apply Qle_lteq. right. field. Lqa.lra.
Qed.
(** Every relation leaves out something. *)
Lemma miss_hb : forall k a, 1 <= k -> k <= 10 -> 1#2 <= a -> a <= 1 -> exists r e z, 0 <= r <= LV_DEFAULT_UPPER_BOUND /\ 0 <= e <= LV_DEFAULT_UPPER_BOUND /\ 0 <= z <= LV_DEFAULT_UPPER_BOUND /\ ~ hb_relation a (2 / k) (r / k) (e / k) (z / k).
Proof.
  intros k a K1 K2 A1 A2. exists 0, LV_DEFAULT_UPPER_BOUND, 0. unfold LV_DEFAULT_UPPER_BOUND. repeat (split; [split; Lqa.lra|]). intro H.
  assert (P : 0 <= k * (2 * a - 1)) by (apply Qmult_le_0_compat; Lqa.lra).
  destruct (hb_upper k a 2 0 _ _ 0 (k + 1) ltac:(Lqa.lra) H) as [X|[X|X]]; Lqa.lra.
Qed.
Lemma miss_lv : forall B k a, 1 <= k -> k <= 10 -> Forall (fun b => k * (nth 0 b 0 + nth 1 b 0 * a) + nth 2 b 0 * 2 < LV_DEFAULT_UPPER_BOUND) B ->
  exists r e z, 0 <= r <= LV_DEFAULT_UPPER_BOUND /\ 0 <= e <= LV_DEFAULT_UPPER_BOUND /\ 0 <= z <= LV_DEFAULT_UPPER_BOUND /\ ~ lv_relation B a (2 / k) (r / k) (e / k) (z / k).
Proof.
  intros B k a K1 K2 F. exists LV_DEFAULT_UPPER_BOUND, 0, 0. repeat (split; [unfold LV_DEFAULT_UPPER_BOUND; split; Lqa.lra|]). intro H. apply lv_power in H; [|Lqa.lra].
  apply Exists_exists in H as (b & Ib & H). rewrite Forall_forall in F. specialize (F b Ib). cbv beta in F, H. Lqa.lra.
Qed.
