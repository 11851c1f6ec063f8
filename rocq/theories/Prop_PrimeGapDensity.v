(** C75: the zero density estimates entered for the prime gap computation. *)
From Verif Require Import Base Model_Text Model_Reference Model_Interval Proof_Interval Model_ExponentPair Spec_ExponentPair Model_LargeValues Spec_LargeValues
  Model_AdditiveEnergy Spec_AdditiveEnergy Model_RationalFunction Spec_RationalFunction
  Model_ZetaLargeValues Model_DensityEstimate Spec_DensityEstimate Model_DensityEnergy Spec_DensityEnergy Model_Formula Spec_Formula Proof_Formula Prop_Formula Spec_PairDensity Prop_PairDensity Model_LiteratureZD Spec_LiteratureZD.
From Coq Require Import Reals Qreals Qround Lra Lia.
Open Scope list_scope.
Local Open Scope Q_scope.

From Verif Require Import Model_PairDensity Spec_PairDensity Prop_LiteratureZD Model_PrimeGapDensity Spec_PrimeGapDensity.
From Verif Require Prop_PairDensity.

(** The hypotheses are added in this order, and each states the bound of its row on its
    range; between them stand those from the eight exponent pairs. *)
Theorem gap_density_recorded : forall rf_str roots, roots_complete roots -> forall hs, exists first pairs last,
  add_gap_density rf_str roots hs = Ret (hs ++ first ++ pairs ++ last) /\ bourgain_ep_to_zd rf_str roots = Ret pairs /\
  Forall2 records first (gap_rows_first (ref_make (s_of "Tao--Trudgian--Yang") 2024)) /\ Forall2 records last (gap_rows_last (ref_make (s_of "Tao--Trudgian--Yang") 2024)).
Proof.
  intros rf_str roots RC hs. destruct (Prop_PairDensity.bourgain_ep_to_zd_table rf_str roots RC) as (bs & Eb & _).
  exists (map entry_node gap_density_first), bs, (map entry_node gap_density_last). unfold add_gap_density. rewrite Eb. cbn [bind]. rewrite !add_entries, <- !app_assoc.
  split; [reflexivity|]. split; [reflexivity|]. split; apply f2_map; unfold gap_density_first, gap_density_last, gap_rows_first, gap_rows_last; repeat (apply Forall2_cons; [fixed_row|]); constructor.
Qed.
Print Assumptions gap_density_recorded.

(** The first two follow from what was published, and the third does up to 9/10 and from
    47/50. *)
Theorem gap_density_published : forall W, published W -> forall r, 
  row_true W (mkRow (ratio 2 9 (-6)) (17#22) (38#49) false true r) /\ row_true W (mkRow (fun x => 9 / (8 * (2 * x - 1)))%R (38#49) (4#5) false true r) /\
  row_true W (mkRow (ratio 3 10 (-7)) (701#1000) (9#10) false true r) /\ row_true W (mkRow (ratio 3 10 (-7)) (47#50) 1 false true r).
Proof.
  intros W P r. pose proof (pb_basic W (pb_1980 W P)) as B. pose proof (pb_bourgain_improved W P) as Bi. destruct (pb_bourgain_1995 W P) as (Ba & Bb).
  destruct (pb_heathbrown_1979 W (pb_1980 W P)) as (_ & Hb). pose proof (pb_ingham W (pb_1980 W P)) as In. destruct (pb_ivic_1980 W (pb_1980 W P)) as (_ & _ & _ & _ & Iv).
  split; [|split; [|split]]; apply plain_row.
  - apply (bound_weaker W (fun x => Rmax (ratio 2 9 (-6) x) (ratio 9 16 (-8) x))); [exact B|apply (bound_sub W _ (17#22) (4#5)); [exact Bi|qdec|qdec]|]. real_range. apply rmax_le; [lra|apply ratio_le; lra].
  - apply (bound_weaker W (fun x => Rmax (ratio 2 9 (-6) x) (ratio 9 16 (-8) x))); [exact B|apply (bound_sub W _ (17#22) (4#5)); [exact Bi|qdec|qdec]|]. real_range.
    replace (9 / (8 * (2 * x - 1)))%R with (ratio 9 16 (-8) x) by (unfold ratio; f_equal; ring). apply rmax_le; [apply ratio_le; lra|lra].
  - apply (bound_join W _ _ (3#4)).
    + apply (bound_weaker W (ratio 3 (-1) 2)); [exact B|apply (bound_sub W _ (1#2) 1); [exact In|qdec|qdec]|]. real_range. apply ratio_le; lra.
    + apply (bound_join W _ _ (25#28)).
      * apply (bound_weaker W (fun x => Rmax (ratio 3 10 (-7) x) (ratio 4 4 (-1) x))); [exact B|apply (bound_sub W _ (3#4) 1); [exact Hb|qdec|qdec]|]. real_range. apply rmax_le; [lra|apply ratio_le; lra].
      * apply (bound_weaker W (ratio 24 30 (-11))); [exact B|apply (bound_sub W _ (155#174) (17#18)); [exact Iv|qdec|qdec]|]. real_range. apply ratio_le; lra.
  - apply (bound_weaker W (ratio 4 30 (-25))); [exact B|apply (bound_sub W _ (15#16) 1); [exact Ba|qdec|qdec]|]. real_range. apply ratio_le; lra.
Qed.
Print Assumptions gap_density_published.

Lemma second_type_4 : forall k l x, (4 <= k)%Z -> (1 / 2 < x <= 1951 / 2000)%R -> (IZR k * (IZR k - 1) * (1 - x) < 1 <= IZR k * (IZR k + 1) * (1 - x))%R ->
  (98 / 5265 <= pintz_first l x * (1 - x) \/ 98 / 5265 <= pintz_second k x * (1 - x))%R.
Proof.
  intros k l x K X (A & B). right. assert (K7 : (k <= 6)%Z).
  { destruct (Z_le_gt_dec k 6) as [H|H]; [exact H|exfalso]. assert (H' : (7 <= k)%Z) by lia. apply IZR_le in H'. assert (42 <= IZR k * (IZR k - 1))%R by nra. nra. }
  unfold pintz_second. assert (C : (k = 4 \/ k = 5 \/ k = 6)%Z) by lia. destruct C as [->|[->| ->]].
  - apply (Rmult_le_reg_r (4 * (1 - (4 - 1) * (1 - x)))); [lra|]. replace (4 / (4 * (1 - (4 - 1) * (1 - x))) * (1 - x) * (4 * (1 - (4 - 1) * (1 - x))))%R with (4 * (1 - x))%R by (field; lra). lra.
  - apply (Rmult_le_reg_r (5 * (1 - (5 - 1) * (1 - x)))); [lra|]. replace (4 / (5 * (1 - (5 - 1) * (1 - x))) * (1 - x) * (5 * (1 - (5 - 1) * (1 - x))))%R with (4 * (1 - x))%R by (field; lra). lra.
  - apply (Rmult_le_reg_r (6 * (1 - (6 - 1) * (1 - x)))); [lra|]. replace (4 / (6 * (1 - (6 - 1) * (1 - x))) * (1 - x) * (6 * (1 - (6 - 1) * (1 - x))))%R with (4 * (1 - x))%R by (field; lra). lra.
Qed.
(** A world in which A(s) (1 - s) is 11/100 up to 23/25. *)
Lemma third_root : forall d a b, (642 / 100 <= d)%R -> bound_on (step_world (23#25) (11 / 100)) (root d) a b.
Proof.
  intros d a b D. apply step_bound. intros x X _. unfold root. pose proof (sqrt_pos (1 - x)) as P. split; [nra|]. intro Z. unfold Q2R in Z; cbn [Qnum Qden] in Z.
  assert (S : (1 / 4 <= sqrt (1 - x))%R). { replace (1 / 4)%R with (sqrt (1 / 16)) by (replace (1 / 16)%R with ((1 / 4) * (1 / 4))%R by lra; apply sqrt_square; lra). apply sqrt_le_1; lra. }
  assert (A : (642 / 100 * (1 / 4) <= d * sqrt (1 - x))%R) by (apply Rmult_le_compat; lra). nra.
Qed.
Lemma third_ivic : ivic_theorem (step_world (23#25) (11 / 100)).
Proof.
  intros m k l s M _ A B _. pose proof (q_real_range s A B) as X. cbn [zd step_world]. set (x := Q2R s) in *. unfold ivic_value. rewrite !minus_IZR, !mult_IZR. apply IZR_le in M. set (y := IZR m) in *.
  assert (D : (0 < (3 * y - 2) * x + (2 - y))%R) by nra. split; [left; apply Rdiv_lt_0_compat; lra|]. intro L. apply Qle_Rle in L. fold x in L. unfold Q2R in L at 1; cbn [Qnum Qden] in L. 
  apply (Rmult_le_reg_r ((3 * y - 2) * x + (2 - y))); auto. replace (3 * y / ((3 * y - 2) * x + (2 - y)) * (1 - x) * ((3 * y - 2) * x + (2 - y)))%R with (3 * y * (1 - x))%R by (field; lra).
  assert (E : ((3 * y - 2) * x + (2 - y) <= 2 * y)%R) by nra. assert (X' : (x <= 23 / 25)%R) by (unfold x, Q2R in *; cbn [Qnum Qden] in *; lra). nra.
Qed.
Lemma third_pintz : pintz_theorem (step_world (23#25) (11 / 100)).
Proof.
  intros k l s K L A B H1 H2 H3 H4. pose proof (q_real_range s A B) as X. cbn [zd step_world].
  assert (Y4 : inject_Z (2 * l * (l - 1)) * (1 - s) < 1) by (refine (proj1 (above _ s _ B) _); [clear - L; nia|clear - H4; Lqa.lra]).
  apply q_times in Y4. rewrite !mult_IZR, minus_IZR in Y4. set (x := Q2R s) in *. pose proof (IZR_le _ _ L) as L'.
  assert (P1 : (0 <= pintz_first l x)%R).
  { assert (W0 : (0 <= (IZR l - 1) * (1 - x))%R) by (apply Rmult_le_pos; lra). assert (W1 : (2 * ((IZR l - 1) * (1 - x)) < 1)%R) by (clear - Y4 W0 L'; nra).
    unfold pintz_first; left; apply Rdiv_lt_0_compat; [lra|]; apply Rmult_lt_0_compat; lra. }
  pose proof (Rmax_l (pintz_first l x) (pintz_second k x)) as M1. split; [lra|]. intro Le. apply Qle_Rle in Le. fold x in Le. replace (Q2R (23#25)) with (23 / 25)%R in Le by (unfold Q2R; cbn; lra).
  assert (l = 3%Z). { destruct (Z.eq_dec l 3) as [->|N]; [reflexivity|exfalso]. assert (4 <= l)%Z by lia. apply IZR_le in H. assert (12 <= IZR l * (IZR l - 1))%R by nra. nra. } subst l.
  assert (Q : (11 / 100 <= pintz_first 3 x * (1 - x))%R).
  { unfold pintz_first in *. assert (D : (0 < 3 * (1 - 2 * (3 - 1) * (1 - x)))%R) by lra. apply (Rmult_le_reg_r (3 * (1 - 2 * (3 - 1) * (1 - x)))); auto.
    replace (3 / (3 * (1 - 2 * (3 - 1) * (1 - x))) * (1 - x) * (3 * (1 - 2 * (3 - 1) * (1 - x))))%R with (3 * (1 - x))%R by (field; lra). lra. }
  assert (0 < 1 - x)%R by lra. nra.
Qed.
Lemma third_selberg : forall t, (0 < t < 4 / 7)%R -> bound_on (step_world (23#25) (11 / 100)) (selberg t) (1#2) 1.
Proof.
  intros t T. apply step_bound. intros x X Y. unfold selberg. assert (A : (3 / 7 <= 1 - t * (2 * x - 1))%R) by nra. split; [left; apply Rdiv_lt_0_compat; lra|]. intros _.
  replace ((1 - t * (2 * x - 1)) / (1 - x) * (1 - x))%R with (1 - t * (2 * x - 1))%R by (field; lra). lra.
Qed.
Ltac max_step := apply step_bound; let x := fresh "x" in let X := fresh "X" in let Y := fresh "Y" in intros x X Y; unfold Q2R in Y; cbn [Qnum Qden] in Y;
  match goal with |- context [Rmax ?u (ratio ?n ?p ?q x)] => pose proof (Rmax_r u (ratio n p q x)); pose proof (ratio_pos n p q x ltac:(lra) ltac:(lra));
    split; [lra|let Z := fresh "Z" in intro Z; unfold Q2R in Z; cbn [Qnum Qden] in Z; destruct (step_ratio (11 / 100) n p q x ltac:(lra) ltac:(lra) ltac:(lra)); nra] end.
Lemma third_world : published (step_world (23#25) (11 / 100)).
Proof.
  constructor.
  - constructor.
    + apply step_basic; [reflexivity|reflexivity|lra].
    + apply step_bound. intros x X Y. split; [lra|]. intro Z. unfold Q2R in Z; cbn in Z. nra.
    + ratio_step.
    + split; [const_step|apply third_root; lra].
    + ratio_step.
    + ratio_step.
    + split; [ratio_step|]. split; [ratio_step|const_step].
    + const_step.
    + const_step.
    + split; [ratio_step|max_step].
    + repeat (split; [ratio_step|]). ratio_step.
    + repeat (split; [ratio_step|]). ratio_step.
  - intros t T. apply third_selberg. lra.
  - repeat (split; [ratio_step|]). ratio_step.
  - exact third_ivic.
  - intros t T. apply third_selberg. lra.
  - split; ratio_step.
  - assert (Two : bound_on (step_world (23#25) (11 / 100)) (fun _ => 2%R) (3#4) 1) by const_step. intros s A B. apply Two; Lqa.lra.
  - max_step.
  - apply third_root. lra.
  - ratio_step.
  - apply third_root. lra.
  - exact third_pintz.
  - ratio_step.
  - ratio_step.
Qed.
(** On the rest of its range the third does not, nor do the last two: they are smaller
    than what was published. *)
Theorem gap_density_published_refuted : forall r,
  (exists W, published W /\ ~ row_true W (mkRow (ratio 3 10 (-7)) (701#1000) 1 false true r)) /\
  (exists W, published W /\ ~ row_true W (mkRow (ratio 3 40 (-35)) (39#40) (40#41) false false r)) /\
  (exists W, published W /\ ~ row_true W (mkRow (ratio 2 13 (-10)) (40#41) (41#42) false false r)).
Proof.
  intro r. split; [|split].
  - exists (step_world (23#25) (11 / 100)). split; [exact third_world|].
    intros H. specialize (H (23#25) ltac:(reflexivity) ltac:(reflexivity)). cbn [r_lo r_hi r_left r_value] in H.
    destruct H as (_ & H); [split; cbn [r_lo r_hi r_end]; qr; lra|discriminate|]. specialize (H ltac:(discriminate)). revert H. unfold ratio. qr. lra.
  - exists (step_world (1951#2000) (98 / 5265)). split.
    + apply step_published; [qdec|reflexivity|lra|qr; lra|qr; lra|]. intros k l x K L' X Hk Hl. apply second_type_4; auto; revert X; qr; lra.
    + intros H. specialize (H (1951#2000) ltac:(reflexivity) ltac:(reflexivity)). cbn [r_lo r_hi r_left r_value] in H.
      destruct H as (_ & H); [split; cbn [r_lo r_hi r_end]; qr; lra|discriminate|]. specialize (H ltac:(discriminate)). revert H. unfold ratio. qr. lra.
  - exists (step_world (41#42) (4 / 222)). split.
    + apply step_published; [qdec|reflexivity|lra|qr; lra|qr; lra|]. intros k l x K L' X Hk Hl. apply second_type; auto; try lra; revert X; qr; lra.
    + intros H. specialize (H (976#1000) ltac:(reflexivity) ltac:(reflexivity)). cbn [r_lo r_hi r_left r_value] in H.
      destruct H as (_ & H); [split; cbn [r_lo r_hi r_end]; qr; lra|discriminate|]. specialize (H ltac:(discriminate)). revert H. unfold ratio. qr. lra.
Qed.
Print Assumptions gap_density_published_refuted.

(** ** Examples *)
(** In a world of the published results the first entry bounds A(31/40) by 80/39, and A is
    not zero there. *)
Example gap_density_case : exists W, published W /\ zd W (31#40) (80 / 39) /\ ~ zd W (31#40) 0.
Proof.
  exists (step_world (41#42) (4 / 222)).
  assert (P : published (step_world (41#42) (4 / 222))) by (apply step_published; [qdec|reflexivity|lra|qr; lra|qr; lra|]; intros k l x K L' X Hk Hl; apply second_type; auto; try lra; revert X; qr; lra).
  split; [exact P|]. split.
  - destruct (gap_density_published _ P gap_reference) as (H & _). specialize (H (31#40) ltac:(reflexivity) ltac:(reflexivity)). cbn [r_lo r_hi r_left r_value] in H.
    replace (80 / 39)%R with (ratio 2 9 (-6) (Q2R (31#40))) by (unfold ratio; qr; lra). apply H; [split; cbn [r_lo r_hi r_end]; qr; lra|discriminate].
  - intros (_ & H). specialize (H ltac:(discriminate)). lra.
Qed.
(** The function that finds the roots can be one that meets what is asked of it. *)
Example gap_density_run : exists rf_str roots hs, roots_complete roots /\ add_gap_density rf_str roots [] = Ret hs /\ (5 <= List.length hs)%nat.
Proof.
  destruct Prop_PairDensity.ex_pairs as (_ & _ & roots & RC).
  destruct (gap_density_recorded (fun _ => []) roots RC []) as (f & p & l & E & _ & F & L). exists (fun _ => []), roots, (f ++ p ++ l). split; [exact RC|]. split; [exact E|].
  assert (LE : forall (A B : Type) (R : A -> B -> Prop) l m, Forall2 R l m -> List.length l = List.length m) by (induction 1; cbn; congruence).
  apply LE in F. apply LE in L. rewrite !app_length, F, L. cbn [List.length gap_rows_first gap_rows_last]. lia.
Qed.
