(** Property C66: the exponent pairs from the literature. *)
From Verif Require Import Base Model_Text Model_Reference Model_Interval Spec_Interval Proof_Interval Model_Affine Spec_Affine Model_Hull Model_ExponentPair Spec_ExponentPair
  Proof_ExpProof Proof_BoundMu Model_ZetaLargeValues Spec_LiteratureBeta Prop_LiteratureBeta Model_LiteraturePairs Spec_LiteraturePairs Proof_LiteraturePairs.
Open Scope list_scope.
Local Open Scope Q_scope.
Import Lqa.

Lemma frac_ok : forall a b, b <> 0%Z -> frac a b = Ret (inject_Z a / inject_Z b).
Proof.
  intros a b N. unfold frac, qdiv. destruct (Qeqb (inject_Z b) 0) eqn:E; [|reflexivity]. apply Qeqb_true in E. unfold Qeq in E. cbn in E. lia.
Qed.
Lemma mapM_rows : forall {A B} (f : A -> res hnode) (w : A -> B) (R : hnode -> B -> Prop) l, (forall x, In x l -> exists h, f x = Ret h /\ R h (w x)) ->
  exists hs, mapM f l = Ret hs /\ Forall2 R hs (map w l).
Proof.
  intros A B f w R. induction l as [|x l IH]; intro H; [exists []; split; [reflexivity|constructor]|].
  destruct (H x (or_introl eq_refl)) as (h & E & X). destruct IH as (hs & Es & F); [intros y I; apply H; now right|].
  exists (h :: hs). cbn [mapM map bind]. rewrite E. cbn [bind]. rewrite Es. split; [reflexivity|now constructor].
Qed.
Lemma pow2_pos : forall m, (0 <= m)%Z -> (1 <= 2 ^ m)%Z.
Proof. intros m M. pose proof (Z.pow_pos_nonneg 2 m). lia. Qed.
Lemma pow2_two : forall m, (1 <= m)%Z -> (2 <= 2 ^ m)%Z.
Proof. intros m M. replace m with (Z.succ (m - 1)) by lia. rewrite Z.pow_succ_r by lia. pose proof (pow2_pos (m - 1)). lia. Qed.

(** The database contains exactly the published pairs, each under its reference. *)
Theorem pairs_recorded : forall get M, exists hs, add_exponent_pairs get M = Ret hs /\ Forall2 (records_pair get) hs (pair_rows M).
Proof.
  intros get M. unfold add_exponent_pairs, pair_rows.
  destruct (mapM_rows (fun m => let! k := frac 169 (1424 * 2 ^ m - 338) in let! c := frac 1577 712 in Ret (literature_exp_pair k (1 - k * (inject_Z m + c)) (get (s_of "huxley_area_1996"))))
    (fun m => ("huxley_area_1996"%string, huxley_pair m)) (records_pair get) (zrange 1 M)) as (hx & Ex & Fx).
  { intros m I. apply zrange_in in I. pose proof (pow2_two m ltac:(lia)). rewrite !frac_ok by lia. cbn [bind]. eexists. split; [reflexivity|].
    split; [reflexivity|]. split; [reflexivity|]. split; [reflexivity|]. eexists _, _. split; [reflexivity|]. unfold huxley_pair. cbv zeta. cbn [fst snd].
    assert (E : inject_Z 169 / inject_Z (1424 * 2 ^ m - 338) == 169 / (1424 * inject_Z (2 ^ m) - 338)).
    { unfold Z.sub. rewrite inject_Z_plus, inject_Z_mult. reflexivity. }
    split; [exact E|]. rewrite E. reflexivity. }
  destruct (mapM_rows (fun m => let! k := frac 2 ((m - 1) * (m - 1) * (m + 2)) in let! c := frac (3 * m - 2) (m * (m - 1) * (m + 2)) in Ret (literature_exp_pair k (1 - c) (get (s_of "heathbrown_new_2017"))))
    (fun m => ("heathbrown_new_2017"%string, heath_brown_pair m)) (records_pair get) (zrange 3 M)) as (hb & Eb & Fb).
  { intros m I. apply zrange_in in I. rewrite !frac_ok by nia. cbn [bind]. eexists. split; [reflexivity|].
    split; [reflexivity|]. split; [reflexivity|]. split; [reflexivity|]. eexists _, _. split; [reflexivity|]. unfold heath_brown_pair. cbv zeta. cbn [fst snd].
    unfold Z.sub. rewrite !inject_Z_mult, !inject_Z_plus, !inject_Z_mult. split; reflexivity. }
  unfold add_huxley_exponent_pairs, add_heath_brown_exponent_pairs. rewrite Ex. cbn [bind]. rewrite Eb. cbn [bind]. eexists. split; [reflexivity|].
  apply Forall2_app; [|now apply Forall2_app].
  unfold add_literature_exponent_pairs, listed_pairs.
  repeat (apply Forall2_cons; [split; [reflexivity|]; split; [reflexivity|]; split; [reflexivity|]; eexists _, _; split; [reflexivity|]; split; reflexivity|]). apply Forall2_nil.
Qed.
Print Assumptions pairs_recorded.

Lemma huxley_small : forall m, (1 <= m)%Z -> 2510 <= 1424 * inject_Z (2 ^ m) - 338 /\ 1139 * inject_Z (2 ^ m) <= 1424 * inject_Z (2 ^ m) - 338 /\ inject_Z m + 1 <= inject_Z (2 ^ m).
Proof.
  intros m M. pose proof (pow2_two m M) as P. assert (Q : 2 <= inject_Z (2 ^ m)) by (change 2 with (inject_Z 2); now rewrite <- Zle_Qle).
  assert (X : (m + 1 <= 2 ^ m)%Z). { pose proof (Z.pow_gt_lin_r 2 m). lia. }
  assert (Y : inject_Z m + 1 <= inject_Z (2 ^ m)) by (change 1 with (inject_Z 1); rewrite <- inject_Z_plus, <- Zle_Qle; exact X). repeat split; lra.
Qed.
Lemma huxley_triangle : forall m, (1 <= m)%Z -> let p := huxley_pair m in triangle (fst p) (snd p) /\ fst p + (1#2) <= snd p.
Proof.
  intros m M. destruct (huxley_small m M) as (A & B & C). unfold huxley_pair. cbv zeta. cbn [fst snd].
  assert (M' : 1 <= inject_Z m) by (change 1 with (inject_Z 1); now rewrite <- Zle_Qle).
  set (d := 1424 * inject_Z (2 ^ m) - 338) in *. set (x := inject_Z m) in *. set (y := inject_Z (2 ^ m)) in *. clearbody d x y.
  assert (K0 : 0 <= 169 / d) by (apply Qle_shift_div_l; lra). assert (K1 : 169 / d <= 169#2510) by (apply Qle_shift_div_r; lra).
  assert (L0 : 169 / d <= 169 / d * (x + (1577#712))) by nra.
  assert (L1 : 169 / d * (x + (1577#712)) <= 1#3). { setoid_replace (169 / d * (x + (1577#712))) with (169 * (x + (1577#712)) / d) by (field; lra). apply Qle_shift_div_r; lra. }
  repeat split; lra.
Qed.

(** Every recorded pair lies in the triangle, on the side l >= k + 1/2 that the database
    keeps to, however long the two sequences are. *)
Theorem pairs_in_triangle : forall get M hs h, add_exponent_pairs get M = Ret hs -> In h hs ->
  exists k l, n_data h = DPair k l /\ triangle k l /\ k + (1#2) <= l.
Proof.
  intros get M hs h E I. destruct (pairs_recorded get M) as (hs' & E' & F). rewrite E in E'. injection E' as <-.
  assert (X : exists w, In w (pair_rows M) /\ records_pair get h w).
  { clear E. induction F as [|x y xs ys P F IH]; [destruct I|]. destruct I as [<-|I]; [exists y; split; [now left|exact P]|]. destruct (IH I) as (w & J & R). exists w. split; [now right|exact R]. }
  destruct X as (w & J & _ & _ & _ & k & l & D & K & L). exists k, l. split; [exact D|].
  assert (Y : triangle (fst (snd w)) (snd (snd w)) /\ fst (snd w) + (1#2) <= snd (snd w)).
  { unfold pair_rows in J. apply in_app_or in J as [J|J]; [|apply in_app_or in J as [J|J]].
    - unfold listed_pairs in J. repeat (destruct J as [<-|J]; [cbn [fst snd symmetric test]; repeat split; vm_compute; discriminate|]). destruct J.
    - apply in_map_iff in J as (m & <- & J). apply zrange_in in J. cbn [snd]. apply huxley_triangle. lia.
    - apply in_map_iff in J as (m & <- & J). apply zrange_in in J. cbn [snd]. apply hb_triangle. lia. }
  destruct Y as ((T1 & T2 & T3 & T4 & T5) & S). rewrite <- K, <- L in *. repeat split; lra.
Qed.
Print Assumptions pairs_in_triangle.

(** Heath-Brown's bounds on beta, for all k, give every pair of Heath-Brown's sequence. *)
Theorem heath_brown_pairs_follow : forall W, admissible W -> beta_le W 0 0 -> (forall k, (3 <= k)%Z -> positive W (heath_brown_2017 k)) ->
  forall m, (3 <= m)%Z -> exp_pair W (fst (heath_brown_pair m)) (snd (heath_brown_pair m)).
Proof. intros W A Z H m M. now apply hb_pairs. Qed.
Print Assumptions heath_brown_pairs_follow.

(** Each pair of Huxley's sequence is the A process of the one before. *)
Theorem huxley_pairs_step : forall m, (1 <= m)%Z -> fst (A_map (huxley_pair m)) == fst (huxley_pair (m + 1)) /\ snd (A_map (huxley_pair m)) == snd (huxley_pair (m + 1)).
Proof.
  intros m M. destruct (huxley_small m M) as (A & _ & _). unfold A_map, huxley_pair. cbv zeta. cbn [fst snd]. rewrite Z.pow_add_r by lia. rewrite inject_Z_mult, inject_Z_plus. change (inject_Z (2 ^ 1)) with 2. change (inject_Z 1) with 1.
  set (y := inject_Z (2 ^ m)) in *. set (x := inject_Z m). clearbody x y. split; field; repeat split; intro; lra.
Qed.
Print Assumptions huxley_pairs_step.

Lemma listed_hold : forall W, admissible W -> beta_le W 0 0 -> beta_published W -> Forall (fun w => exp_pair W (fst (snd w)) (snd (snd w))) listed_pairs.
Proof.
  intros W A T B. unfold listed_pairs.
  repeat (apply Forall_cons; [cbn [fst snd]; match goal with |- exp_pair _ ?k ?l => idtac end|]); [..|apply Forall_nil].
  all: cbn [symmetric test fst snd].
  - apply (pair_eq W (beta_upper W A) _ _ _ _ (pair_1 W A T B)); reflexivity.
  - apply (pair_eq W (beta_upper W A) _ _ _ _ (pair_2 W A T B)); reflexivity.
  - apply (pair_eq W (beta_upper W A) _ _ _ _ (pair_3 W A T B)); reflexivity.
  - apply (pair_eq W (beta_upper W A) _ _ _ _ (pair_4 W A T B)); reflexivity.
  - apply (pair_eq W (beta_upper W A) _ _ _ _ (pair_5 W A T B)); reflexivity.
  - apply (pair_eq W (beta_upper W A) _ _ _ _ (pair_6 W A T B)); reflexivity.
  - exact (pair_7 W A T B).
  - exact (pair_8 W A T B).
  - exact (pair_9 W A T B).
  - exact (pair_10 W A T B).
  - exact (pair_11 W A T B).
  - exact (pair_12 W A T B).
  - apply (pair_eq W (beta_upper W A) _ _ _ _ (pair_13 W A T B)); reflexivity.
  - apply (pair_eq W (beta_upper W A) _ _ _ _ (pair_14 W A T B)); reflexivity.
  - apply (pair_eq W (beta_upper W A) _ _ _ _ (pair_15 W A T B)); reflexivity.
  - apply (pair_eq W (beta_upper W A) _ _ _ _ (pair_16 W A T B)); reflexivity.
  - apply (pair_eq W (beta_upper W A) _ _ _ _ (pair_17 W A T B)); reflexivity.
  - apply (pair_eq W (beta_upper W A) _ _ _ _ (pair_18 W A T B)); reflexivity.
  - apply (pair_eq W (beta_upper W A) _ _ _ _ (pair_19 W A T B)); reflexivity.
  - apply (pair_eq W (beta_upper W A) _ _ _ _ (pair_20 W A T B)); reflexivity.
  - apply (pair_eq W (beta_upper W A) _ _ _ _ (pair_21 W A T B)); reflexivity.
  - exact (pair_22 W A T B).
  - exact (pair_23 W A T B).
  - exact (pair_24 W A T B).
  - exact (pair_25 W A T B).
Qed.
Lemma huxley_hold : forall W, admissible W -> beta_le W 0 0 -> beta_published W -> process_A W -> forall m, (1 <= m)%Z -> exp_pair W (fst (huxley_pair m)) (snd (huxley_pair m)).
Proof.
  intros W A T B PA m M. replace m with (1 + Z.of_nat (Z.to_nat (m - 1)))%Z by lia. generalize (Z.to_nat (m - 1)). clear m M. induction n as [|n IH].
  - apply (pair_eq W (beta_upper W A) _ _ _ _ (huxley_first W A T B)); vm_compute; reflexivity.
  - replace (1 + Z.of_nat (S n))%Z with (1 + Z.of_nat n + 1)%Z by lia. apply PA in IH. destruct (huxley_pairs_step (1 + Z.of_nat n) ltac:(lia)) as (K & L).
    rewrite <- surjective_pairing in IH. exact (pair_eq W (beta_upper W A) _ _ _ _ IH K L).
Qed.

(** The recorded pairs are no more than the recorded bounds on beta allow: where the
    published bounds on beta and the A process hold, all of them are exponent pairs. *)
Theorem pairs_follow : forall tr btr W get M hs, admissible W -> beta_le W 0 0 -> beta_published W -> process_A W ->
  add_exponent_pairs get M = Ret hs -> Forall (holds tr btr W) hs.
Proof.
  intros tr btr W get M hs A T B PA E. destruct (pairs_recorded get M) as (hs' & E' & F). rewrite E in E'. injection E' as <-.
  assert (G : Forall (fun w => exp_pair W (fst (snd w)) (snd (snd w))) (pair_rows M)).
  { unfold pair_rows. apply Forall_app. split; [now apply listed_hold|]. apply Forall_app. split; apply Forall_map, Forall_forall; intros m I; apply zrange_in in I; cbn [snd].
    - apply huxley_hold; try assumption. lia.
    - apply hb_pairs; try assumption; [exact (bp_heath_brown_2017 W B)|lia]. }
  clear E. induction F as [|h w hs ws (_ & _ & _ & k & l & D & K & L) F IH]; [constructor|]. inversion G as [|? ? G1 G2]; subst. constructor; [|now apply IH].
  unfold holds. rewrite D. apply (pair_eq W (beta_upper W A) _ _ _ _ G1); now symmetry.
Qed.
Print Assumptions pairs_follow.

(** And they are true exactly where the published pairs are. *)
Theorem pairs_exact : forall tr btr W get M hs, upper (beta_le W) -> add_exponent_pairs get M = Ret hs ->
  (Forall (holds tr btr W) hs <-> Forall (fun w => exp_pair W (fst (snd w)) (snd (snd w))) (pair_rows M)).
Proof.
  intros tr btr W get M hs U E. destruct (pairs_recorded get M) as (hs' & E' & F). rewrite E in E'. injection E' as <-. clear E.
  induction F as [|h w hs ws (_ & _ & _ & k & l & D & K & L) F IH]; [split; constructor|]. rewrite !Forall_cons_iff, IH. unfold holds at 1. rewrite D.
  split; intros (H1 & H2); (split; [|exact H2]); apply (pair_eq W U _ _ _ _ H1); first [assumption|now symmetry].
Qed.
Print Assumptions pairs_exact.

(** The four pairs that the database proves anew follow from the same facts. *)
Theorem new_pairs_follow : forall W, admissible W -> beta_le W 0 0 -> beta_published W -> process_A W -> Forall (fun p => exp_pair W (fst p) (snd p)) new_pairs.
Proof.
  intros W A T B PA. unfold new_pairs. repeat apply Forall_cons; cbn [fst snd]; [exact (new_1 W A T B PA)|exact (new_2 W A T B PA)|exact (new_3 W A T B PA)|exact (new_4 W A T B PA)|apply Forall_nil].
Qed.
Print Assumptions new_pairs_follow.

(** ** A world that meets the hypotheses *)
Lemma lindelof_pair : forall k l, triangle k l -> exp_pair lindelof_world k l.
Proof.
  intros k l T. split; [exact T|]. destruct T as (T1 & T2 & T3 & T4 & T5). intros a A0 A1. split; intro; [nra|lra].
Qed.
Example ex_world : admissible lindelof_world /\ beta_le lindelof_world 0 0 /\ beta_published lindelof_world /\ process_A lindelof_world /\ ~ exp_pair lindelof_world 0 (2#5).
Proof.
  split; [|split; [|split; [|split]]].
  - constructor.
    + intros x x' v v' E L (H1 & H2). split; intro; [assert (x * (1#2) <= v) by (apply H1; lra)|assert (x - 1 <= v) by (apply H2; lra)]; lra.
    + intros x x' v v' E L (H1 & H2). split; lra.
    + intros a v A0 A1. split; intros (H1 & H2); split; intro; try lra.
    + intros s S. split; lra.
    + intros s1 m1 s2 m2 t (A1 & A2) (B1 & B2) T0 T1. split; nra.
    + intros s m (H1 & H2). split; lra.
    + intros k l ((T1 & T2 & T3 & T4 & T5) & _). split; lra.
  - split; intro; lra.
  - destruct ex_published as (_ & P). destruct P. constructor; assumption.
  - intros k l (T & _). apply lindelof_pair. destruct T as (T1 & T2 & T3 & T4 & T5). unfold A_map. cbn [fst snd].
    assert (D : 0 < 2 * k + 2) by lra.
    assert (K0 : 0 <= k / (2 * k + 2)) by (apply Qle_shift_div_l; lra). assert (K1 : k / (2 * k + 2) <= 1#2) by (apply Qle_shift_div_r; lra).
    assert (L0 : 0 <= l / (2 * k + 2)) by (apply Qle_shift_div_l; lra). assert (L1 : l / (2 * k + 2) <= 1#2) by (apply Qle_shift_div_r; lra).
    assert (S : k / (2 * k + 2) + l / (2 * k + 2) <= 1#2). { setoid_replace (k / (2 * k + 2) + l / (2 * k + 2)) with ((k + l) / (2 * k + 2)) by (field; lra). apply Qle_shift_div_r; lra. }
    repeat split; lra.
  - intros ((_ & _ & X & _) & _). lra.
Qed.
Example ex_sequences : fst (huxley_pair 1) == 169#2510 /\ heath_brown_pair 3 = (2 / ((inject_Z 3 - 1) * (inject_Z 3 - 1) * (inject_Z 3 + 2)), 1 - (3 * inject_Z 3 - 2) / (inject_Z 3 * (inject_Z 3 - 1) * (inject_Z 3 + 2))) /\
  fst (heath_brown_pair 3) == 1#10 /\ snd (heath_brown_pair 3) == 23#30.
Proof. repeat split; vm_compute; reflexivity. Qed.
