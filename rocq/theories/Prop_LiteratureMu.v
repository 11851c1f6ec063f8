(** Property C67: the bounds on mu from the literature, and what the functions that copy
    pairs and bounds into a set of hypotheses select. *)
From Verif Require Import Base Model_Text Model_Reference Model_Interval Spec_Interval Proof_Interval Model_Affine Spec_Affine Model_Hull Model_ExponentPair Spec_ExponentPair
  Proof_ExpProof Proof_BoundMu Model_ZetaLargeValues Spec_LiteratureBeta Model_LiteraturePairs Spec_LiteraturePairs Proof_LiteraturePairs Prop_LiteraturePairs.
From Coq Require Import Permutation.
Open Scope list_scope.
Local Open Scope Q_scope.
Import Lqa.

(** The database contains exactly the listed bounds and the two sequences. *)
Theorem mu_recorded : forall get M, exists hs, add_bounds_mu get M = Ret hs /\ Forall2 (records_mu get) hs (mu_rows M).
Proof.
  intros get M. unfold add_bounds_mu, mu_rows.
  destruct (mapM_rows (fun n => let! x := frac n (2 ^ n - 2) in let! m := frac 1 (2 ^ n - 2) in Ret (literature_bound_mu (1 - x) m (ref_make (s_of "van der Corput") 1920)))
    (fun n => (Author "van der Corput" (VInt 1920), vdc_mu n)) (records_mu get) (zrange 4 M)) as (hx & Ex & Fx).
  { intros m I. apply zrange_in in I. pose proof (Z.pow_gt_lin_r 2 m ltac:(lia)). rewrite !frac_ok by lia. cbn [bind]. eexists. split; [reflexivity|].
    split; [repeat split; reflexivity|]. split; [reflexivity|]. eexists _, _. split; [reflexivity|]. unfold vdc_mu. cbv zeta. cbn [fst snd]. unfold Z.sub. rewrite inject_Z_plus.
    split; [reflexivity|]. split; reflexivity. }
  destruct (mapM_rows (fun n => let! x := frac 1 (2 ^ (n - 1)) in let! m := frac 1 ((n + 1) * 2 ^ (n - 1)) in Ret (literature_bound_mu (1 - x) m (ref_make_text (s_of "Hardy--Littlewood") (s_of "Unknown date"))))
    (fun n => (Author "Hardy--Littlewood" unknown_date, hl_mu n)) (records_mu get) (zrange 4 M)) as (hb & Eb & Fb).
  { intros m I. apply zrange_in in I. pose proof (pow2_pos (m - 1) ltac:(lia)). rewrite !frac_ok by nia. cbn [bind]. eexists. split; [reflexivity|].
    split; [repeat split; reflexivity|]. split; [reflexivity|]. eexists _, _. split; [reflexivity|]. unfold hl_mu. cbv zeta. cbn [fst snd]. rewrite inject_Z_mult. split; [reflexivity|]. split; reflexivity. }
  unfold add_van_der_corput_mu, add_hardy_littlewood_mu. rewrite Ex. cbn [bind]. rewrite Eb. cbn [bind]. eexists. split; [reflexivity|].
  apply Forall2_app; [|now apply Forall2_app].
  unfold add_literature_bounds_mu, listed_mu.
  repeat (apply Forall2_cons; [split; [cbn [fst cites]; first [reflexivity|repeat split; reflexivity]|]; split; [reflexivity|]; eexists _, _; split; [reflexivity|]; split; [reflexivity|]; split; reflexivity|]). apply Forall2_nil.
Qed.
Print Assumptions mu_recorded.

(** ** Where they come from *)
Section Follow.
Variable W : zworld.
Hypothesis A : admissible W.
Hypothesis T : forall a, 0 <= a -> a <= 1 -> beta_le W a a.
Hypothesis B : beta_published W.
Hypothesis PA : process_A W.
Let T0 : beta_le W 0 0 := T 0 ltac:(lra) ltac:(lra).
Lemma mu_raise : forall s m s' m', mu_le W s m -> s == s' -> m <= m' -> mu_le W s' m'.
Proof. intros s m s' m' H E L. exact (mu_upper W A _ _ _ _ E L H). Qed.
Lemma mu_pair : forall k l s m, exp_pair W k l -> l - k == s -> k <= m -> mu_le W s m.
Proof. intros k l s m H E L. eapply mu_raise; [exact (mu_from_pair W A k l H)|exact E|exact L]. Qed.
Lemma mu_mix : forall s1 m1 s2 m2 s m, mu_le W s1 m1 -> mu_le W s2 m2 -> s1 <= s -> s <= s2 -> s1 < s2 -> m1 * (s2 - s) + m2 * (s - s1) <= m * (s2 - s1) -> mu_le W s m.
Proof.
  intros s1 m1 s2 m2 s m H1 H2 L1 L2 L H. set (t := (s - s1) / (s2 - s1)).
  assert (X0 : 0 <= t) by (apply Qle_shift_div_l; lra). assert (X1 : t <= 1) by (apply Qle_shift_div_r; lra).
  eapply mu_raise; [exact (mu_convex W A _ _ _ _ t H1 H2 X0 X1)|unfold t; field; lra|].
  setoid_replace ((1 - t) * m1 + t * m2) with ((m1 * (s2 - s) + m2 * (s - s1)) / (s2 - s1)) by (unfold t; field; lra). apply Qle_shift_div_r; lra.
Qed.
Lemma mu_one : mu_le W 1 0.
Proof. apply (mu_right W A). lra. Qed.

Definition vdc_pair (n : Z) : pt := let d := inject_Z (2 ^ n) - 2 in (1 / d, 1 - inject_Z (n - 1) / d).
Lemma vdc_hold : forall n, (2 <= n)%Z -> exp_pair W (fst (vdc_pair n)) (snd (vdc_pair n)).
Proof.
  intros n N. replace n with (2 + Z.of_nat (Z.to_nat (n - 2)))%Z by lia. generalize (Z.to_nat (n - 2)). clear n N. induction n as [|n IH].
  - assert (H : exp_pair W (1#2) (1#2)); [|apply (pair_eq W (beta_upper W A) _ _ _ _ H); vm_compute; reflexivity].
    split; [repeat split; lra|]. intros a A0 A1. destruct (Qlt_le_dec (1#2) a).
    + assert (X0 : 0 <= 1 - a) by lra. assert (X1 : 1 - a <= 1#2) by lra. pose proof (proj1 (beta_reflect W A (1 - a) (1 - a) X0 X1) (T _ X0 ltac:(lra))) as R.
      refine (beta_upper W A _ _ _ _ _ _ R); lra.
    + refine (beta_upper W A _ _ _ _ (Qeq_refl a) _ (T a A0 A1)). lra.
  - apply PA in IH. rewrite <- surjective_pairing in IH. replace (2 + Z.of_nat (S n))%Z with (2 + Z.of_nat n + 1)%Z by lia. set (m := (2 + Z.of_nat n)%Z) in *.
    assert (M : (2 <= m)%Z) by lia. assert (P : (4 <= 2 ^ m)%Z) by (change 4%Z with (2 ^ 2)%Z; apply Z.pow_le_mono_r; lia). assert (Q : 4 <= inject_Z (2 ^ m)) by (change 4 with (inject_Z 4); now rewrite <- Zle_Qle).
    clearbody m. apply (pair_eq W (beta_upper W A) _ _ _ _ IH); unfold A_map, vdc_pair; cbv zeta; cbn [fst snd]; rewrite Z.pow_add_r by lia; unfold Z.sub; rewrite !inject_Z_mult, ?inject_Z_plus; change (inject_Z (2 ^ 1)) with 2; change (inject_Z 1) with 1; change (inject_Z (Z.opp 1)) with (-(1)); field; repeat split; intro; lra.
Qed.
Lemma vdc_mu_hold : forall n, (2 <= n)%Z -> mu_le W (fst (vdc_mu n)) (snd (vdc_mu n)).
Proof.
  intros n N. assert (P : (4 <= 2 ^ n)%Z) by (change 4%Z with (2 ^ 2)%Z; apply Z.pow_le_mono_r; lia). assert (Q : 4 <= inject_Z (2 ^ n)) by (change 4 with (inject_Z 4); now rewrite <- Zle_Qle).
  apply (mu_pair _ _ _ _ (vdc_hold n N)); unfold vdc_pair, vdc_mu; cbv zeta; cbn [fst snd]; [|lra]. unfold Z.sub. rewrite inject_Z_plus. change (inject_Z (Z.opp 1)) with (-(1)). field. lra.
Qed.
Lemma hl_mu_hold : forall n, (3 <= n)%Z -> mu_le W (fst (hl_mu n)) (snd (hl_mu n)).
Proof.
  intros n N. pose proof (vdc_mu_hold (n + 1) ltac:(lia)) as V. unfold vdc_mu in V. unfold hl_mu. cbv zeta in *. cbn [fst snd] in *.
  assert (Pw : (2 ^ (n + 1) = 2 ^ (n - 1) * 4)%Z) by (replace (n + 1)%Z with (n - 1 + 2)%Z by lia; now rewrite Z.pow_add_r by lia). rewrite Pw in V. rewrite !inject_Z_mult in V. change (inject_Z 4) with 4 in V.
  assert (P : (4 <= 2 ^ (n - 1))%Z) by (change 4%Z with (2 ^ 2)%Z; apply Z.pow_le_mono_r; lia). assert (Q : 4 <= inject_Z (2 ^ (n - 1))) by (change 4 with (inject_Z 4); now rewrite <- Zle_Qle).
  assert (R : 4 <= inject_Z (n + 1)) by (change 4 with (inject_Z 4); rewrite <- Zle_Qle; lia).
  set (d := inject_Z (2 ^ (n - 1))) in *. set (x := inject_Z (n + 1)) in *. clearbody d x.
  assert (I : 0 < 1 / d) by (apply Qlt_shift_div_l; lra). assert (J : 1 / d <= x / (d * 4 - 2)).
  { apply Qle_shift_div_r; [lra|]. setoid_replace (x / (d * 4 - 2) * d) with (x * d / (d * 4 - 2)) by (field; lra). apply Qle_shift_div_l; [lra|]. nra. }
  apply (mu_mix _ _ _ _ _ _ V mu_one); [lra|lra|lra|]. apply Qle_lteq. right. field. repeat split; intro; lra.
Qed.
Lemma listed_mu_hold : Forall (fun w => mu_le W (fst (snd w)) (snd (snd w))) listed_mu.
Proof.
  unfold listed_mu, critical. do 16 (apply Forall_cons; [cbn [fst snd]; apply (mu_pair _ _ _ _ (pair_6 W A T0 B)); [reflexivity|lra]|]).
  apply Forall_cons; [cbn [fst snd]; apply (mu_pair _ _ _ _ (pair_8 W A T0 B)); [reflexivity|lra]|].
  apply Forall_cons; [cbn [fst snd]; apply (mu_pair _ _ _ _ (pair_14 W A T0 B)); [reflexivity|lra]|].
  apply Forall_cons; [cbn [fst snd]|].
  { pose proof (mu_from_pair W A _ _ (hb_pair_10 W A T0 B)) as H. apply (mu_mix _ _ _ _ _ _ H mu_one); lra. }
  apply Forall_cons; [cbn [fst snd]|].
  { pose proof (mu_from_pair W A _ _ (pair_22 W A T0 B)) as H1. pose proof (mu_from_pair W A _ _ (pair_23 W A T0 B)) as H2. apply (mu_mix _ _ _ _ _ _ H1 H2); lra. }
  apply Forall_cons; [cbn [fst snd]|].
  { pose proof (mu_from_pair W A _ _ (A_pair_22 W A T0 B PA)) as H1. pose proof (mu_from_pair W A _ _ (A_pair_23 W A T0 B PA)) as H2. apply (mu_mix _ _ _ _ _ _ H1 H2); lra. }
  apply Forall_cons; [cbn [fst snd]|].
  { pose proof (mu_from_pair W A _ _ (pair_25 W A T0 B)) as H1. pose proof (mu_from_pair W A _ _ (A_pair_22 W A T0 B PA)) as H2. apply (mu_mix _ _ _ _ _ _ H1 H2); lra. }
  apply Forall_nil.
Qed.
Lemma rows_hold : forall M, Forall (fun w => mu_le W (fst (snd w)) (snd (snd w))) (mu_rows M).
Proof.
  intro M. unfold mu_rows. apply Forall_app. split; [exact listed_mu_hold|]. apply Forall_app. split; apply Forall_map, Forall_forall; intros n I; apply zrange_in in I; cbn [snd]; [apply vdc_mu_hold|apply hl_mu_hold]; lia.
Qed.
End Follow.

(** They are true exactly where the listed bounds are. *)
Theorem mu_exact : forall tr btr W get M hs, upper (mu_le W) -> add_bounds_mu get M = Ret hs ->
  (Forall (holds tr btr W) hs <-> Forall (fun w => mu_le W (fst (snd w)) (snd (snd w))) (mu_rows M)).
Proof.
  intros tr btr W get M hs U E. destruct (mu_recorded get M) as (hs' & E' & F). rewrite E in E'. injection E' as <-. clear E.
  induction F as [|h w hs ws (_ & _ & s & m & D & S & Mu & _) F IH]; [split; constructor|]. rewrite !Forall_cons_iff, IH. unfold holds at 1. rewrite D.
  split; intros (H1 & H2); (split; [|exact H2]); (eapply U; [| |exact H1]); first [assumption|now symmetry|lra].
Qed.
Print Assumptions mu_exact.

(** The published bounds on beta and the A process give every recorded bound on mu, so
    none of them claims more than the rest of the database supports. *)
Theorem mu_follow : forall tr btr W get M hs, admissible W -> (forall a, 0 <= a -> a <= 1 -> beta_le W a a) -> beta_published W -> process_A W ->
  add_bounds_mu get M = Ret hs -> Forall (holds tr btr W) hs.
Proof. intros tr btr W get M hs A T B PA E. apply (mu_exact tr btr W get M hs (mu_upper W A) E). now apply rows_hold. Qed.
Print Assumptions mu_follow.

(** Every recorded bound is positive, is stated in [1/2, 1) and is better than the convexity bound. *)
Theorem mu_nontrivial : forall get M hs h, add_bounds_mu get M = Ret hs -> In h hs ->
  exists s m, n_data h = DMu s m /\ 1#2 <= s /\ s < 1 /\ 0 < m /\ m < (1 - s) / 2.
Proof.
  intros get M hs h E I. destruct (mu_recorded get M) as (hs' & E' & F). rewrite E in E'. injection E' as <-. clear E.
  assert (X : exists w, In w (mu_rows M) /\ records_mu get h w).
  { induction F as [|x y xs ys P F IH]; [destruct I|]. destruct I as [<-|I]; [exists y; split; [now left|exact P]|]. destruct (IH I) as (w & J & R). exists w. split; [now right|exact R]. }
  destruct X as (w & J & _ & _ & s & m & D & S & Mu & _). exists s, m. split; [exact D|].
  assert (Y : let s := fst (snd w) in let m := snd (snd w) in 1#2 <= s /\ s < 1 /\ 0 < m /\ m < (1 - s) / 2).
  { cbv zeta. unfold mu_rows in J. apply in_app_or in J as [J|J]; [|apply in_app_or in J as [J|J]].
    - unfold listed_mu, critical in J. repeat (destruct J as [<-|J]; [repeat split; vm_compute; first [reflexivity|discriminate]|]). destruct J.
    - apply in_map_iff in J as (n & <- & J). apply zrange_in in J. unfold vdc_mu. cbv zeta. cbn [fst snd].
      assert (P : (2 * n + 2 <= 2 ^ n)%Z). { replace n with (4 + Z.of_nat (Z.to_nat (n - 4)))%Z by lia. generalize (Z.to_nat (n - 4)). clear. induction n as [|n IH]; [discriminate|]. replace (4 + Z.of_nat (S n))%Z with (Z.succ (4 + Z.of_nat n)) by lia. rewrite Z.pow_succ_r by lia. lia. }
      assert (Q : 2 * inject_Z n + 2 <= inject_Z (2 ^ n)) by (change 2 with (inject_Z 2) at 1 2; rewrite <- inject_Z_mult, <- inject_Z_plus, <- Zle_Qle; exact P).
      assert (R : 4 <= inject_Z n) by (change 4 with (inject_Z 4); rewrite <- Zle_Qle; lia).
      set (d := inject_Z (2 ^ n)) in *. set (x := inject_Z n) in *. clearbody d x.
      assert (X1 : x / (d - 2) <= 1#2) by (apply Qle_shift_div_r; lra). assert (X2 : 0 < x / (d - 2)) by (apply Qlt_shift_div_l; lra). assert (X3 : 0 < 1 / (d - 2)) by (apply Qlt_shift_div_l; lra).
      assert (X4 : 1 / (d - 2) < (1#2) * (x / (d - 2))). { setoid_replace ((1#2) * (x / (d - 2))) with ((x / 2) / (d - 2)) by (field; lra). unfold Qdiv at 1 2. apply Qmult_lt_compat_r; [apply Qinv_lt_0_compat; lra|]. apply Qlt_shift_div_l; lra. }
      repeat split; try lra. setoid_replace ((1 - (1 - x / (d - 2))) / 2) with ((1#2) * (x / (d - 2))) by (field; lra). exact X4.
    - apply in_map_iff in J as (n & <- & J). apply zrange_in in J. unfold hl_mu. cbv zeta. cbn [fst snd].
      assert (P : (4 <= 2 ^ (n - 1))%Z) by (change 4%Z with (2 ^ 2)%Z; apply Z.pow_le_mono_r; lia). assert (Q : 4 <= inject_Z (2 ^ (n - 1))) by (change 4 with (inject_Z 4); now rewrite <- Zle_Qle).
      assert (R : 5 <= inject_Z (n + 1)) by (change 5 with (inject_Z 5); rewrite <- Zle_Qle; lia).
      set (d := inject_Z (2 ^ (n - 1))) in *. set (x := inject_Z (n + 1)) in *. clearbody d x.
      assert (X1 : 1 / d <= 1#2) by (apply Qle_shift_div_r; lra). assert (X2 : 0 < 1 / d) by (apply Qlt_shift_div_l; lra). assert (X3 : 0 < 1 / (x * d)) by (apply Qlt_shift_div_l; [nra|lra]).
      assert (X4 : 1 / (x * d) < (1#2) * (1 / d)). { setoid_replace (1 / (x * d)) with ((1 / x) * (1 / d)) by (field; split; intro; lra). apply Qmult_lt_compat_r; [exact X2|]. apply Qlt_shift_div_r; lra. }
      repeat split; try lra. setoid_replace ((1 - (1 - 1 / d)) / 2) with ((1#2) * (1 / d)) by (field; lra). exact X4. }
  cbv zeta in Y. destruct Y as (Y1 & Y2 & Y3 & Y4). rewrite <- S in Y1, Y2, Y4. rewrite <- Mu in Y3, Y4. repeat split; assumption.
Qed.
Print Assumptions mu_nontrivial.

(** ** What is copied into a set of hypotheses *)
Lemma year_all : forall p hs, list_hypotheses p None hs = Ret (filter p hs).
Proof. intros p hs. induction hs as [|h hs IH]; [reflexivity|]. cbn [list_hypotheses filter]. rewrite IH. destruct (p h); reflexivity. Qed.
Lemma year_some : forall y h, dated (n_ref h) -> exists b, year_match h (Some (VInt y)) = Ret b /\ (b = true <-> known_by y h).
Proof.
  intros y h (L & D). unfold year_match. unfold r_is_literature, r_is_classical, r_is_derived, r_is_conjectured in L. apply negb_true_iff in L. apply orb_false_iff in L as (L & L3). apply orb_false_iff in L as (L1 & L2).
  rewrite L1, L2, L3. cbn [orb]. unfold known_by. destruct D as [D|(n & D)]; rewrite D.
  - exists false. split; [reflexivity|]. split; [discriminate|]. intros (n & X & _). discriminate X.
  - cbn. destruct (n <=? y)%Z eqn:C; (eexists; split; [reflexivity|]).
    + split; [|reflexivity]. intros _. exists n. split; [reflexivity|now apply Z.leb_le].
    + split; [discriminate|]. intros (n' & X & Y). injection X as <-. apply Z.leb_gt in C. lia.
Qed.
Lemma year_list : forall p y hs, (forall h, In h hs -> p h = true -> dated (n_ref h)) ->
  exists out, list_hypotheses p (Some (VInt y)) hs = Ret out /\ forall h, In h out <-> In h hs /\ p h = true /\ known_by y h.
Proof.
  intros p y hs. induction hs as [|h hs IH]; intro D; [exists []; split; [reflexivity|]; intro; cbn; tauto|].
  destruct IH as (out & E & S); [intros x I; apply D; now right|]. cbn [list_hypotheses]. destruct (p h) eqn:P.
  - destruct (year_some y h (D h (or_introl eq_refl) P)) as (b & Eb & Sb). rewrite Eb. cbn [bind]. rewrite E. cbn [bind]. eexists. split; [reflexivity|]. intro x. destruct b.
    + cbn [In]. rewrite S. split; [intros [<-|(I & X)]; [split; [now left|]; split; [exact P|now apply Sb]|tauto]|]. intros ([<-|I] & X); [now left|right; tauto].
    + rewrite S. split; [intros (I & X); split; [now right|exact X]|]. intros ([<-|I] & X & K); [apply Sb in K; discriminate K|tauto].
  - cbn [bind]. rewrite E. cbn [bind]. eexists. split; [reflexivity|]. intro x. rewrite S. cbn [In]. split; [intros (I & X); tauto|]. intros ([<-|I] & X & K); [congruence|tauto].
Qed.
Lemma forall2_in : forall {A B} (R : A -> B -> Prop) l l' x, Forall2 R l l' -> In x l -> exists y, In y l' /\ R x y.
Proof. intros A B R l l' x F. induction F as [|a b l l' P F IH]; intro I; [destruct I|]. destruct I as [<-|I]; [exists b; split; [now left|exact P]|]. destruct (IH I) as (y & J & Q). exists y. split; [now right|exact Q]. Qed.
Lemma forall2_in' : forall {A B} (R : A -> B -> Prop) l l' y, Forall2 R l l' -> In y l' -> exists x, In x l /\ R x y.
Proof. intros A B R l l' y F. induction F as [|a b l l' P F IH]; intro I; [destruct I|]. destruct I as [<-|I]; [exists a; split; [now left|exact P]|]. destruct (IH I) as (x & J & Q). exists x. split; [now right|exact Q]. Qed.
Lemma mu_of_type : forall get M hs h, add_bounds_mu get M = Ret hs -> In h hs -> is_mu h = true.
Proof. intros get M hs h E I. destruct (mu_nontrivial get M hs h E I) as (s & m & D & _). unfold is_mu. now rewrite D. Qed.
Lemma pair_of_type : forall get M hs h, add_exponent_pairs get M = Ret hs -> In h hs -> is_pair h = true.
Proof. intros get M hs h E I. destruct (pairs_in_triangle get M hs h E I) as (s & m & D & _). unfold is_pair. now rewrite D. Qed.
Lemma mu_dated : forall get M hs h, (forall k, dated (get k)) -> add_bounds_mu get M = Ret hs -> In h hs -> dated (n_ref h).
Proof.
  intros get M hs h G E I. destruct (mu_recorded get M) as (hs' & E' & F). rewrite E in E'. injection E' as <-. destruct (forall2_in _ _ _ _ F I) as (w & J & C & _).
  unfold cites in C. destruct (fst w) as [k|a y] eqn:W; [rewrite C; apply G|]. destruct C as (_ & Y & L). split; [exact L|]. rewrite Y.
  assert (X : y = unknown_date \/ exists n, y = VInt n); [|destruct X as [->|(n & ->)]; [now left|right; now exists n]].
  unfold mu_rows in J. apply in_app_or in J as [J|J]; [|apply in_app_or in J as [J|J]].
  - unfold listed_mu in J. repeat (destruct J as [<-|J]; [cbn [fst] in W; first [discriminate W|injection W as <- <-; right; eexists; reflexivity]|]). destruct J.
  - apply in_map_iff in J as (n & <- & J). injection W as <- <-. right. eexists. reflexivity.
  - apply in_map_iff in J as (n & <- & J). injection W as <- <-. now left.
Qed.
Lemma pair_dated : forall get M hs h, (forall k, dated (get k)) -> add_exponent_pairs get M = Ret hs -> In h hs -> dated (n_ref h).
Proof. intros get M hs h G E I. destruct (pairs_recorded get M) as (hs' & E' & F). rewrite E in E'. injection E' as <-. destruct (forall2_in _ _ _ _ F I) as (w & J & -> & _). apply G. Qed.

(** Whatever else the literature contains, and in whatever order it is gone through, the
    bounds that are copied are the recorded ones; with a year, those that were known by then.
    The bounds of unknown date are never among these. *)
Theorem mu_selected : forall get M hs other lit old y, (forall k, dated (get k)) -> add_bounds_mu get M = Ret hs -> Forall (fun h => is_mu h = false) other -> Permutation lit (other ++ hs) ->
  (exists new, add_bounds_mu_all lit old = Ret (old ++ new) /\ Permutation new hs) /\
  (exists new, add_bounds_mu_as_of lit old (VInt y) = Ret (old ++ new) /\ forall h, In h new <-> In h hs /\ known_by y h).
Proof.
  intros get M hs other lit old y G E O P. rewrite Forall_forall in O. split.
  - unfold add_bounds_mu_all. rewrite year_all. cbn [bind]. eexists. split; [reflexivity|].
    assert (X : filter is_mu (other ++ hs) = hs).
    { rewrite filter_app. replace (filter is_mu other) with (@nil hnode). 2:{ symmetry. clear - O. induction other as [|x l IH]; [reflexivity|]. cbn. rewrite (O x (or_introl eq_refl)). apply IH. intros; apply O; now right. }
      pose proof (mu_of_type get M hs) as T. clear - E T. cbn. assert (T' : forall h, In h hs -> is_mu h = true) by (intros; now apply T). clear T E. induction hs as [|x l IH]; [reflexivity|]. cbn. rewrite (T' x (or_introl eq_refl)). f_equal. apply IH. intros; apply T'; now right. }
    apply Permutation_trans with (filter is_mu (other ++ hs)); [|rewrite X; reflexivity]. clear X. induction P as [|x l l' P IH|x z l|l l' l'' P1 IH1 P2 IH2]; [constructor| | |now transitivity (filter is_mu l')].
    + cbn. destruct (is_mu x); [now constructor|exact IH].
    + cbn. destruct (is_mu x), (is_mu z); try reflexivity. apply perm_swap.
  - destruct (year_list is_mu y lit) as (out & Eo & S).
    { intros h I T. apply (Permutation_in _ P) in I. apply in_app_or in I as [I|I]; [rewrite (O h I) in T; discriminate T|]. exact (mu_dated get M hs h G E I). }
    unfold add_bounds_mu_as_of. rewrite Eo. cbn [bind]. eexists. split; [reflexivity|]. intro h. rewrite S. split.
    + intros (I & T & K). apply (Permutation_in _ P) in I. apply in_app_or in I as [I|I]; [rewrite (O h I) in T; discriminate T|]. now split.
    + intros (I & K). split; [apply (Permutation_in _ (Permutation_sym P)), in_or_app; now right|]. split; [exact (mu_of_type get M hs h E I)|exact K].
Qed.
Print Assumptions mu_selected.

(** The same for exponent pairs; the trivial pair is always added. *)
Theorem pairs_selected : forall get M hs other lit old y, (forall k, dated (get k)) -> add_exponent_pairs get M = Ret hs -> Forall (fun h => is_pair h = false) other -> Permutation lit (other ++ hs) ->
  (exists new, add_exp_pairs_all lit old = Ret (old ++ new) /\ forall h, In h new <-> h = trivial_exp_pair \/ In h hs) /\
  (exists new, add_exp_pairs_up_to lit old (VInt y) = Ret (old ++ new) /\ forall h, In h new <-> h = trivial_exp_pair \/ In h hs /\ known_by y h).
Proof.
  intros get M hs other lit old y G E O P. rewrite Forall_forall in O. split.
  - unfold add_exp_pairs_all. rewrite year_all. cbn [bind]. eexists. split; [reflexivity|]. intro h. cbn [app In]. rewrite filter_In. split.
    + intros [<-|(I & T)]; [now left|]. right. apply (Permutation_in _ P) in I. apply in_app_or in I as [I|I]; [rewrite (O h I) in T; discriminate T|exact I].
    + intros [->|I]; [now left|]. right. split; [apply (Permutation_in _ (Permutation_sym P)), in_or_app; now right|exact (pair_of_type get M hs h E I)].
  - destruct (year_list is_pair y lit) as (out & Eo & S).
    { intros h I T. apply (Permutation_in _ P) in I. apply in_app_or in I as [I|I]; [rewrite (O h I) in T; discriminate T|]. exact (pair_dated get M hs h G E I). }
    unfold add_exp_pairs_up_to. rewrite Eo. cbn [bind]. eexists. split; [reflexivity|]. intro h. cbn [app In]. rewrite S. split.
    + intros [<-|(I & T & K)]; [now left|]. right. apply (Permutation_in _ P) in I. apply in_app_or in I as [I|I]; [rewrite (O h I) in T; discriminate T|]. now split.
    + intros [->|(I & K)]; [now left|]. right. split; [apply (Permutation_in _ (Permutation_sym P)), in_or_app; now right|]. split; [exact (pair_of_type get M hs h E I)|exact K].
Qed.
Print Assumptions pairs_selected.

(** The classical bound is the one of Hardy and Littlewood, in every order. *)
Theorem mu_classic : forall get M hs other lit old, add_bounds_mu get M = Ret hs -> Forall (fun h => is_mu h = false) other -> Permutation lit (other ++ hs) ->
  exists h, add_bounds_mu_classic lit old = old ++ [Some h] /\ In h hs /\ records_mu get h (Key "hardy_littlewood_1923", (1#2, 1#6)).
Proof.
  intros get M hs other lit old E O P. rewrite Forall_forall in O. destruct (mu_recorded get M) as (hs' & E' & F). rewrite E in E'. injection E' as <-.
  unfold add_bounds_mu_classic.
  assert (X : forall h, In h hs -> mu_is (1#2) (1#6) h = true -> records_mu get h (Key "hardy_littlewood_1923", (1#2, 1#6))).
  { intros h I T. destruct (forall2_in _ _ _ _ F I) as (w & J & R). pose proof R as (_ & _ & s & m & D & S & Mu & _). unfold mu_is in T. rewrite D in T. apply andb_true_iff in T as (T1 & T2). apply Qeqb_true in T1, T2. rewrite S in T1. rewrite Mu in T2. clear S Mu D.
    unfold mu_rows in J. apply in_app_or in J as [J|J]; [|apply in_app_or in J as [J|J]].
    - unfold listed_mu in J. destruct J as [<-|J]; [exact R|]. repeat (destruct J as [<-|J]; [exfalso; cbn [fst snd] in T2; revert T2; vm_compute; discriminate|]). destruct J.
    - exfalso. apply in_map_iff in J as (n & <- & J). apply zrange_in in J. unfold vdc_mu in T2. cbv zeta in T2. cbn [fst snd] in T2.
      assert (B : (16 <= 2 ^ n)%Z) by (change 16%Z with (2 ^ 4)%Z; apply Z.pow_le_mono_r; lia). assert (Q : 16 <= inject_Z (2 ^ n)) by (change 16 with (inject_Z 16); now rewrite <- Zle_Qle).
      assert (1 / (inject_Z (2 ^ n) - 2) <= 1#14) by (apply Qle_shift_div_r; lra). lra.
    - exfalso. apply in_map_iff in J as (n & <- & J). apply zrange_in in J. unfold hl_mu in T1. cbv zeta in T1. cbn [fst snd] in T1.
      assert (B : (8 <= 2 ^ (n - 1))%Z) by (change 8%Z with (2 ^ 3)%Z; apply Z.pow_le_mono_r; lia). assert (Q : 8 <= inject_Z (2 ^ (n - 1))) by (change 8 with (inject_Z 8); now rewrite <- Zle_Qle).
      assert (1 / inject_Z (2 ^ (n - 1)) <= 1#8) by (apply Qle_shift_div_r; lra). lra. }
  destruct (find (mu_is (1#2) (1#6)) lit) as [h|] eqn:Fi.
  - apply find_some in Fi as (I & T). exists h. split; [reflexivity|]. apply (Permutation_in _ P) in I. apply in_app_or in I as [I|I].
    + exfalso. specialize (O h I). unfold mu_is in T. unfold is_mu in O. destruct (n_data h); discriminate.
    + split; [exact I|now apply X].
  - exfalso. assert (I : exists h, In h hs /\ mu_is (1#2) (1#6) h = true).
    { destruct (forall2_in' _ _ _ (Key "hardy_littlewood_1923", (critical, 1#6)) F) as (h & I & _ & _ & s & m & D & S & Mu & _); [now left|]. exists h. split; [exact I|].
      unfold mu_is. rewrite D. apply andb_true_iff. split; now apply Qeqb_true. }
    destruct I as (h & I & T). pose proof (find_none _ _ Fi h) as N. rewrite N in T; [discriminate T|]. apply (Permutation_in _ (Permutation_sym P)), in_or_app. now right.
Qed.
Print Assumptions mu_classic.

(** ** An instance *)
Definition ex_get (k : str) : reference := ref_make k 1950.
Example ex_dated : forall k, dated (ex_get k).
Proof. intro k. split; [reflexivity|]. right. exists 1950%Z. reflexivity. Qed.
Example ex_as_of : exists hs new, add_bounds_mu ex_get 6 = Ret hs /\ List.length hs = 26%nat /\ add_bounds_mu_as_of (trivial_exp_pair :: rev hs) [] (VInt 1930) = Ret new /\ List.length new = 2%nat /\
  option_map (fun h => n_data h) (nth_error new 1) = Some (DMu (1 - (4#14)) (1 # 14)).
Proof.
  let e := eval vm_compute in (add_bounds_mu ex_get 6) in match e with Ret ?h => exists h end.
  match goal with |- exists new, _ /\ _ /\ ?a = Ret new /\ _ => let e := eval vm_compute in a in match e with Ret ?h => exists h end end.
  repeat split; vm_compute; reflexivity.
Qed.
