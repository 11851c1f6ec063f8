(** The table of bounds that is recorded for Bourgain's large value theorem is the best
    choice of its parameters, everywhere. *)
From Verif Require Import Base LinAlg Model_Text Model_Reference Model_Polytope Spec_Polytope Model_Region Spec_Region Model_ExponentPair Model_LargeValues Spec_LargeValues
  Spec_AdditiveEnergy Proof_Interval Model_LiteratureLV Spec_LiteratureLV Prop_LiteratureLV Model_BourgainOptimum Spec_BourgainOptimum.
From Coq Require Import Lqa Lia.
Open Scope list_scope.
Local Open Scope Q_scope.

Lemma largest_unique : forall l v w, largest l v -> largest l w -> v == w.
Proof.
  intros l v w [E1 F1] [E2 F2]. apply Exists_exists in E1 as (x & Ix & Ex). apply Exists_exists in E2 as (y & Iy & Ey). rewrite Forall_forall in F1, F2.
  pose proof (F1 y Iy). pose proof (F2 x Ix). lra.
Qed.
Lemma largest_exists : forall x l, exists v, largest (x :: l) v.
Proof.
  intros x l. revert x. induction l as [|y l IH]; intro x; [exists x; split; [left; reflexivity|constructor; [apply Qle_refl|constructor]]|].
  destruct (IH y) as (v & E & F). destruct (Qlt_le_dec v x) as [L|L].
  - exists x. split; [left; reflexivity|]. constructor; [apply Qle_refl|]. eapply Forall_impl; [|exact F]. cbn. intros; lra.
  - exists v. split; [now right|]. constructor; [exact L|exact F].
Qed.
Lemma best_unique : forall s t v w, best_exponent s t v -> best_exponent s t w -> v == w.
Proof.
  intros s t v w ((a1 & a2 & A1 & A2 & L) & M) ((b1 & b2 & B1 & B2 & L') & M').
  pose proof (M b1 b2 w B1 B2 L'). pose proof (M' a1 a2 v A1 A2 L). lra.
Qed.

(** ** The seven rows *)
(** Any parameters give at least a mean of the six numbers in which they do not appear with
    a negative coefficient. *)
Ltac lower_bound := let a1 := fresh "a1" in let a2 := fresh "a2" in let w := fresh "w" in intros a1 a2 w A1 A2 [_ F]; unfold with_parameters in F; rewrite !Forall_cons_iff in F; lra.
Ltac attained n := unfold largest, with_parameters; rewrite !Exists_cons, !Forall_cons_iff; split; [first [left; lra|right; left; lra|do 2 right; left; lra|do 3 right; left; lra|do 4 right; left; lra|do 5 right; left; lra]|repeat split; try lra; constructor].

(** A choice from the list of candidates that is best at the point. *)
Definition best_choice (s t v : Q) (d : list Q * list Q) : Prop :=
  0 <= affine_at (fst d) s t /\ 0 <= affine_at (snd d) s t /\ largest (with_parameters (affine_at (fst d) s t) (affine_at (snd d) s t) s t) v.
Ltac candidate n := exists (nth n choices ([], [])); split; [apply nth_In; apply Nat.ltb_lt; vm_compute; reflexivity|];
  let d := eval vm_compute in (nth n choices ([], [])) in change (nth n choices ([], [])) with d; unfold best_choice, affine_at; cbn [fst snd nth]; split; [lra|split; [lra|attained n]].

Lemma row_choice : forall i s t, (i < 7)%nat -> tr_set (row_at i) s t -> 1#2 <= s -> s <= 1 -> 1 <= t -> exists d, In d choices /\ best_choice s t (tr_bound (row_at i) s t) d.
Proof.
  intros i s t Hi S S1 S2 T. unfold row_at in *.
  destruct i as [|i]; [cbn [nth bourgain_table tr_set tr_bound] in *; candidate 27%nat|].
  destruct i as [|i]; [cbn [nth bourgain_table tr_set tr_bound] in *; candidate 19%nat|].
  destruct i as [|i]; [cbn [nth bourgain_table tr_set tr_bound] in *; destruct (Qlt_le_dec 0 ((9#2) - (11#2) * s)); [candidate 6%nat|candidate 9%nat]|].
  destruct i as [|i]; [cbn [nth bourgain_table tr_set tr_bound] in *; candidate 9%nat|].
  destruct i as [|i]; [cbn [nth bourgain_table tr_set tr_bound] in *; destruct (Qlt_le_dec (2 - 6 * s + (5#3) * t) 0); [candidate 25%nat|candidate 11%nat]|].
  destruct i as [|i]; [cbn [nth bourgain_table tr_set tr_bound] in *; candidate 4%nat|].
  destruct i as [|i]; [cbn [nth bourgain_table tr_set tr_bound] in *; destruct (Qlt_le_dec 0 (-(5) + 4 * s + (4#3) * t)); [candidate 24%nat|candidate 42%nat]|].
  lia.
Qed.

Lemma row_best : forall i s t, (i < 7)%nat -> tr_set (row_at i) s t -> 1#2 <= s -> s <= 1 -> 1 <= t -> best_exponent s t (tr_bound (row_at i) s t).
Proof.
  intros i s t Hi S S1 S2 T. split.
  - destruct (row_choice i s t Hi S S1 S2 T) as ((d1 & d2) & _ & A1 & A2 & L). eauto.
  - unfold row_at in *. do 7 (destruct i as [|i]; [cbn [nth bourgain_table tr_set tr_bound] in *; lower_bound|]). lia.
Qed.

(** Every bound of the table is the best exponent over its set. *)
Theorem bourgain_table_optimal : forall row, In row bourgain_table -> forall s t, 1#2 <= s -> s <= 1 -> 1 <= t -> tr_set row s t -> best_exponent s t (tr_bound row s t).
Proof.
  intros row I s t S1 S2 T S. apply (In_nth _ _ (mkTR (fun _ _ => 0) (fun _ _ => 0) (fun _ _ => 0) (fun _ _ => True))) in I as (i & Hi & <-). exact (row_best i s t Hi S S1 S2 T).
Qed.
Print Assumptions bourgain_table_optimal.

(** So there is a best exponent everywhere, and one of the candidates that the search
    enumerates attains it: three of the equations determine the best parameters. *)
Theorem bourgain_choices_optimal : forall s t, 1#2 <= s -> s <= 1 -> 1 <= t -> exists v, best_exponent s t v /\ exists d, In d choices /\
  0 <= affine_at (fst d) s t /\ 0 <= affine_at (snd d) s t /\ largest (with_parameters (affine_at (fst d) s t) (affine_at (snd d) s t) s t) v.
Proof.
  intros s t S1 S2 T. destruct (table_covers s t S1 S2 T) as (i & row & Hi & S). assert (L : (i < 7)%nat) by (change 7%nat with (List.length bourgain_table); apply nth_error_Some; congruence).
  assert (Er : row = row_at i) by (unfold row_at; symmetry; now apply nth_error_nth). subst row. exists (tr_bound (row_at i) s t). split; [now apply row_best|]. now apply row_choice.
Qed.
Print Assumptions bourgain_choices_optimal.

(** The recorded region: for tau > 1 and off the fifth set, exactly what the theorem gives
    with the best parameters. *)
Theorem bourgain_recorded_optimal : forall E get, ext_ok E -> exists h reg, add_bourgain_large_values_estimate E get = Ret h /\ l_data h = DLV reg None /\
  forall s t u, in_range s t u -> 1 < t -> ~ tr_set (row_at 4) s t -> (denote reg [s; t; u] <-> exists v, best_exponent s t v /\ u <= v).
Proof.
  intros E get OK. destruct (bourgain_region_exact E get OK) as (h & reg & Eh & Ed & _ & _ & _ & X). exists h, reg. split; [exact Eh|]. split; [exact Ed|].
  intros s t u R T N. rewrite (X s t u R). destruct R as (R1 & R2 & _). split.
  - intros [H|(i & row & Hi & S & H)]; [lra|]. assert (L : (i < 7)%nat) by (change 7%nat with (List.length bourgain_table); apply nth_error_Some; congruence).
    assert (Er : row = row_at i) by (unfold row_at; symmetry; now apply nth_error_nth). subst row. destruct H as [->|H]; [contradiction|]. exists (tr_bound (row_at i) s t). split; [apply row_best; try assumption; lra|exact H].
  - intros (v & B & U). right. destruct (table_covers s t R1 R2 ltac:(lra)) as (i & row & Hi & S). assert (L : (i < 7)%nat) by (change 7%nat with (List.length bourgain_table); apply nth_error_Some; congruence).
    assert (Er : row = row_at i) by (unfold row_at; symmetry; now apply nth_error_nth). subst row. exists i, (row_at i). split; [exact Hi|]. split; [exact S|]. right.
    rewrite <- (best_unique s t v _ B (row_best i s t L S R1 R2 ltac:(lra))). exact U.
Qed.
Print Assumptions bourgain_recorded_optimal.

(** The search itself does not get that far: for the first three equations it already
    calls [Polytope.lift] with the wrong number of arguments, on every call. *)
Theorem optimize_bourgain_refuted : optimize_bourgain_large_value_estimate = Raise TypeError.
Proof. vm_compute. reflexivity. Qed.
Print Assumptions optimize_bourgain_refuted.

(** ** The comparison with the linear program *)
Lemma check_raises : forall linprog ps, (forall p, In p ps -> check_point linprog (Raise AttributeError) (fst p) (snd p) = Ret true \/ check_point linprog (Raise AttributeError) (fst p) (snd p) = Raise AttributeError) ->
  (exists p, In p ps /\ skipped (fst p) (snd p) = false) -> check_points linprog (Raise AttributeError) ps = Raise AttributeError.
Proof.
  intros linprog ps. induction ps as [|p ps IH]; intros H (q & Iq & S); [destruct Iq|]. cbn [check_points]. destruct (H p (or_introl eq_refl)) as [H1|H1]; rewrite H1; cbn [bind]; [|reflexivity].
  apply IH; [intros; apply H; now right|]. destruct Iq as [<-|Iq]; [|eauto]. unfold check_point in H1. rewrite S in H1. discriminate.
Qed.
Lemma grid_in : forall N i j, (i <= N)%nat -> (j <= N)%nat -> In (sigma_at N i, tau_at N j) (grid N).
Proof. intros N i j I J. unfold grid. apply in_flat_map. exists i. split; [apply in_seq; lia|]. apply in_map_iff. exists j. split; [reflexivity|apply in_seq; lia]. Qed.
Lemma in_grid : forall N p, In p (grid N) -> exists i j, p = (sigma_at N i, tau_at N j) /\ (i <= N)%nat /\ (j <= N)%nat.
Proof. intros N p H. unfold grid in H. apply in_flat_map in H as (i & Ii & H). apply in_map_iff in H as (j & <- & Ij). apply in_seq in Ii, Ij. exists i, j. split; [reflexivity|lia]. Qed.

(** The comparison cannot be made for any large value estimate, whatever it says and
    whatever the solver returns: it asks for an attribute that estimates do not have. *)
Theorem check_bourgain_refuted : forall linprog h N, (0 < N)%nat -> is_lv h = true -> check_bourgain_large_value_estimate linprog h N = Raise AttributeError.
Proof.
  intros linprog h N HN L. unfold check_bourgain_large_value_estimate. assert (D : data_bound h = Raise AttributeError) by (unfold is_lv, data_bound in *; destruct (l_data h); [reflexivity|discriminate..]).
  rewrite D. unfold check_with. apply check_raises.
  - intros p _. unfold check_point. destruct (skipped (fst p) (snd p)); [now left|now right].
  - exists (sigma_at N N, tau_at N 0). split; [apply grid_in; lia|]. cbn [fst snd]. unfold skipped. rewrite Qltb_false.
    assert (NZ : ~ inject_Z (Z.of_nat N) == 0) by (intro Z; unfold Qeq, inject_Z in Z; cbn in Z; lia).
    assert (Es : sigma_at N N == 1) by (unfold sigma_at; field; exact NZ). assert (Et : tau_at N 0 == 1001#1000) by (unfold tau_at; change (inject_Z (Z.of_nat 0)) with 0; field; exact NZ).
    destruct (qmax_spec (2 - 2 * sigma_at N N) (tau_at N 0 + 18 - 24 * sigma_at N N)) as (_ & _ & [M|M]); destruct (qmin_spec 1 (4 - 2 * tau_at N 0)) as (_ & _ & [M'|M']); rewrite M, M', ?Es, ?Et; lra.
Qed.
Print Assumptions check_bourgain_refuted.

Lemma lp_feasible : forall s t a1 a2 v, s <= 1 -> 0 <= a1 -> 0 <= a2 -> largest (with_parameters a1 a2 s t) v -> satisfies (lp_rows s t) [a1; a2; v].
Proof.
  intros s t a1 a2 v S1 A1 A2 [_ Lv]. unfold with_parameters in Lv. rewrite !Forall_cons_iff in Lv. destruct Lv as (L1 & L2 & L3 & L4 & L5 & L6 & _).
  unfold satisfies, lp_rows. destruct (qmax_spec 1 (2 * t - 2)) as (_ & _ & [Q|Q]); rewrite Q;
    (split; repeat (apply Forall_cons; [cbn [fst snd dot]; lra|]); apply Forall_nil).
Qed.
(** The linear program has the best exponent as its minimum. *)
Lemma lp_best : forall s t x v, s <= 1 -> minimiser [0; 0; 1] (lp_rows s t) x -> best_exponent s t v -> nth 2 x 0 == v.
Proof.
  intros s t x v S1 (Lx & [F P] & M) ((a1 & a2 & A1 & A2 & Lv) & B). destruct x as [|x1 [|x2 [|x3 [|]]]]; try discriminate Lx. cbn [nth].
  apply Qle_antisym.
  - assert (Y : satisfies (lp_rows s t) [a1; a2; v]).
    { now apply lp_feasible. }
    specialize (M [a1; a2; v] eq_refl Y). cbn [dot] in M. lra.
  - unfold lp_rows in F. rewrite !Forall_cons_iff in F. cbn [fst snd dot] in F. rewrite !Forall_cons_iff in P.
    destruct (largest_exists (x2 + 2 - 2 * s) (tl (with_parameters x1 x2 s t))) as (w & Lw). pose proof (B x1 x2 w ltac:(lra) ltac:(lra) Lw) as Bw.
    destruct Lw as [Ew _]. cbn [tl with_parameters] in Ew. rewrite !Exists_cons in Ew. destruct (qmax_spec 1 (2 * t - 2)) as (Q1 & Q2 & _).
    destruct Ew as [Ew|[Ew|[Ew|[Ew|[Ew|[Ew|Ew]]]]]]; try lra. inversion Ew.
Qed.

Lemma sigma_in : forall N i, (0 < N)%nat -> (i <= N)%nat -> 1#2 <= sigma_at N i /\ sigma_at N i <= 1.
Proof.
  intros N i HN Hi. unfold sigma_at. assert (P : 0 < inject_Z (Z.of_nat N)) by (unfold Qlt, inject_Z; cbn; lia). assert (I0 : 0 <= inject_Z (Z.of_nat i)) by (unfold Qle, inject_Z; cbn; lia).
  assert (IN : inject_Z (Z.of_nat i) <= inject_Z (Z.of_nat N)) by (unfold Qle, inject_Z; cbn; lia).
  split.
  - assert (0 <= (1 - (1#2)) * inject_Z (Z.of_nat i) / inject_Z (Z.of_nat N)) by (apply Qle_shift_div_l; [exact P|lra]). lra.
  - assert ((1 - (1#2)) * inject_Z (Z.of_nat i) / inject_Z (Z.of_nat N) <= 1#2) by (apply Qle_shift_div_r; [exact P|lra]). lra.
Qed.
Lemma tau_in : forall N j, (0 < N)%nat -> 1 <= tau_at N j.
Proof.
  intros N j HN. unfold tau_at. assert (P : 0 < inject_Z (Z.of_nat N)) by (unfold Qlt, inject_Z; cbn; lia). assert (I0 : 0 <= inject_Z (Z.of_nat j)) by (unfold Qle, inject_Z; cbn; lia).
  assert (0 <= (5 - (1001#1000)) * inject_Z (Z.of_nat j) / inject_Z (Z.of_nat N)) by (apply Qle_shift_div_l; [exact P|lra]). lra.
Qed.

(** If estimates did have their bound at hand, the comparison would be the right one: with
    a solver that finds the minimum, on a grid of any size, a bound that is the best
    exponent passes. *)
Theorem check_accepts : forall linprog, (forall s t, 1#2 <= s -> s <= 1 -> 1 <= t -> minimiser [0; 0; 1] (lp_rows s t) (linprog [0; 0; 1] (lp_rows s t))) ->
  forall bound N, (0 < N)%nat -> (forall s t, 1#2 <= s -> s <= 1 -> 1 <= t -> best_exponent s t (bound s t)) -> check_with linprog (Ret bound) N = Ret true.
Proof.
  intros linprog LP bound N HN B. unfold check_with. assert (G : forall p, In p (grid N) -> check_point linprog (Ret bound) (fst p) (snd p) = Ret true).
  { intros p Ip. destruct (in_grid N p Ip) as (i & j & -> & Hi & Hj). cbn [fst snd]. unfold check_point. destruct (skipped _ _); [reflexivity|]. cbn [bind]. f_equal. apply Qltb_true.
    destruct (sigma_in N i HN Hi) as [S1 S2]. pose proof (tau_in N j HN) as T. specialize (B _ _ S1 S2 T).
    pose proof (LP _ _ S1 S2 T) as X.
    pose proof (lp_best _ _ _ _ S2 X B) as Eq. assert (Z : nth 2 (linprog [0; 0; 1] (lp_rows (sigma_at N i) (tau_at N j))) 0 - bound (sigma_at N i) (tau_at N j) == 0) by (rewrite Eq; ring).
    rewrite Z. reflexivity. }
  revert G. generalize (grid N) as ps. induction ps as [|p ps IH]; intro G; [reflexivity|]. cbn [check_points]. rewrite (G p (or_introl eq_refl)). cbn [bind]. apply IH. intros; apply G; now right.
Qed.
Print Assumptions check_accepts.

(** And a bound that is off by the tolerance at some point of the grid is rejected. *)
Theorem check_rejects : forall linprog, (forall s t, 1#2 <= s -> s <= 1 -> 1 <= t -> minimiser [0; 0; 1] (lp_rows s t) (linprog [0; 0; 1] (lp_rows s t))) ->
  forall bound N s t v, (0 < N)%nat -> In (s, t) (grid N) -> skipped s t = false -> best_exponent s t v -> TOL <= Qabs (v - bound s t) -> check_with linprog (Ret bound) N = Ret false.
Proof.
  intros linprog LP bound N s t v HN Ip SK B TO. assert (ST : (1#2 <= s /\ s <= 1) /\ 1 <= t) by (destruct (in_grid N _ Ip) as (i & j & Eq & Hi & _); injection Eq as -> ->; split; [now apply sigma_in|now apply tau_in]). destruct ST as [[S1 S2] T]. unfold check_with.
  assert (X : check_point linprog (Ret bound) s t = Ret false).
  { unfold check_point. rewrite SK. cbn [bind]. f_equal. rewrite Qltb_false.
    pose proof (LP _ _ S1 S2 T) as X.
    rewrite (lp_best s t _ v S2 X B). exact TO. }
  assert (Y : forall p, check_point linprog (Ret bound) (fst p) (snd p) = Ret true \/ check_point linprog (Ret bound) (fst p) (snd p) = Ret false).
  { intro p. unfold check_point. destruct (skipped (fst p) (snd p)); [now left|]. cbv zeta. cbn [bind]. destruct (Qltb _ TOL); [now left|now right]. }
  revert Ip. generalize (grid N) as ps. induction ps as [|p ps IH]; intros Ip; [destruct Ip|]. cbn [check_points]. destruct (Y p) as [H|H]; rewrite H; cbn [bind]; [|reflexivity].
  apply IH. destruct Ip as [->|Ip]; [|exact Ip]. cbn [fst snd] in H. congruence.
Qed.
Print Assumptions check_rejects.

(** ** A solver and a bound that meet the assumptions *)
Local Opaque choices.
Definition feasible (s t : Q) (d : list Q * list Q) : bool := Qleb 0 (affine_at (fst d) s t) && Qleb 0 (affine_at (snd d) s t).
Definition worth (s t : Q) (d : list Q * list Q) : Q :=
  match with_parameters (affine_at (fst d) s t) (affine_at (snd d) s t) s t with x :: l => fold_right qmax x l | [] => 0 end.
Definition least {A} (f : A -> bool) (w : A -> Q) (cs : list A) : Q := match map w (filter f cs) with x :: l => fold_right qmin x l | [] => 0 end.
Definition least_choice {A} (z : A) (f : A -> bool) (w : A -> Q) (cs : list A) : A :=
  match find (fun d => f d && Qeqb (w d) (least f w cs)) cs with Some d => d | None => z end.
Definition sample_bound (s t : Q) : Q := least (feasible s t) (worth s t) choices.
Definition sample_choice (s t : Q) : list Q * list Q := least_choice ([], []) (feasible s t) (worth s t) choices.
(** sigma and tau are read off the first and the third row. *)
Definition sample_linprog (c : list Q) (rows : list (list Q * Q)) : list Q :=
  let s := (snd (nth 0 rows ([], 0)) + 2) / 2 in
  let t := (8 * s - 4 - snd (nth 2 rows ([], 0))) / 2 in
  let d := sample_choice s t in [affine_at (fst d) s t; affine_at (snd d) s t; sample_bound s t].

Lemma fold_max : forall l x, largest (x :: l) (fold_right qmax x l).
Proof.
  induction l as [|y l IH]; intro x; cbn [fold_right]; [split; [left; reflexivity|constructor; [apply Qle_refl|constructor]]|].
  destruct (IH x) as [E F]. destruct (qmax_spec y (fold_right qmax x l)) as (Q1 & Q2 & Q3). apply Forall_cons_iff in F as [F1 F2]. split.
  - destruct Q3 as [Q3|Q3]; rewrite Q3; [right; left; reflexivity|]. apply Exists_cons in E as [E|E]; [now left|right; now right].
  - constructor; [lra|]. constructor; [exact Q1|]. eapply Forall_impl; [|exact F2]. cbn. intros; lra.
Qed.
Lemma fold_min : forall l x, Exists (fun y => y == fold_right qmin x l) (x :: l) /\ Forall (fun y => fold_right qmin x l <= y) (x :: l).
Proof.
  induction l as [|y l IH]; intro x; cbn [fold_right]; [split; [left; reflexivity|constructor; [apply Qle_refl|constructor]]|].
  destruct (IH x) as [E F]. destruct (qmin_spec y (fold_right qmin x l)) as (Q1 & Q2 & Q3). apply Forall_cons_iff in F as [F1 F2]. split.
  - destruct Q3 as [Q3|Q3]; rewrite Q3; [right; left; reflexivity|]. apply Exists_cons in E as [E|E]; [now left|right; now right].
  - constructor; [lra|]. constructor; [exact Q1|]. eapply Forall_impl; [|exact F2]. cbn. intros; lra.
Qed.
Lemma worth_ok : forall s t d, largest (with_parameters (affine_at (fst d) s t) (affine_at (snd d) s t) s t) (worth s t d).
Proof. intros s t d. unfold worth, with_parameters. apply fold_max. Qed.
Lemma feasible_ok : forall s t d, feasible s t d = true <-> 0 <= affine_at (fst d) s t /\ 0 <= affine_at (snd d) s t.
Proof. intros. unfold feasible. rewrite andb_true_iff, !Qleb_true. reflexivity. Qed.

Lemma best_ext : forall s t v w, v == w -> best_exponent s t v -> best_exponent s t w.
Proof.
  intros s t v w H ((a1 & a2 & A1 & A2 & Le & Lf) & M). split; [exists a1, a2; split; [exact A1|]; split; [exact A2|]; split|].
  - eapply Exists_impl; [|exact Le]. cbn. intros; lra.
  - eapply Forall_impl; [|exact Lf]. cbn. intros; lra.
  - intros b1 b2 u B1 B2 L. pose proof (M b1 b2 u B1 B2 L). lra.
Qed.
Lemma least_best : forall A (z : A) f w cs d, In d cs -> f d = true -> (forall d', In d' cs -> f d' = true -> w d <= w d') ->
  w d == least f w cs /\ f (least_choice z f w cs) = true /\ w (least_choice z f w cs) == least f w cs.
Proof.
  intros A z f w cs d Id Fd M. assert (If : In d (filter f cs)) by (now apply filter_In).
  assert (X : w d == least f w cs).
  { unfold least. destruct (map w (filter f cs)) as [|x l] eqn:El; [destruct (filter f cs); [destruct If|discriminate El]|]. destruct (fold_min l x) as [E F]. rewrite <- El in E, F.
    apply Exists_exists in E as (y & Iy & Ey). apply in_map_iff in Iy as (d' & <- & Id'). apply filter_In in Id' as [Ic Fc]. apply Qle_antisym; [rewrite <- Ey; now apply M|].
    rewrite Forall_forall in F. apply F. now apply in_map. }
  split; [exact X|]. unfold least_choice. destruct (find (fun d => f d && Qeqb (w d) (least f w cs)) cs) as [e|] eqn:Ef.
  - apply find_some in Ef as [_ Ef]. apply andb_true_iff in Ef as [F1 F2]. split; [exact F1|]. now apply Qeqb_true.
  - exfalso. pose proof (find_none _ _ Ef d Id) as N. cbv beta in N. rewrite Fd in N. cbn [andb] in N. apply Qeqb_true in X. congruence.
Qed.
Lemma sample_best : forall s t, 1#2 <= s -> s <= 1 -> 1 <= t -> best_exponent s t (sample_bound s t) /\
  feasible s t (sample_choice s t) = true /\ worth s t (sample_choice s t) == sample_bound s t.
Proof.
  intros s t S1 S2 T. destruct (bourgain_choices_optimal s t S1 S2 T) as (v & B & d & Id & A1 & A2 & L).
  assert (Wd : worth s t d == v) by (eapply largest_unique; [apply worth_ok|exact L]).
  destruct (least_best _ ([], []) (feasible s t) (worth s t) choices d Id (proj2 (feasible_ok s t d) (conj A1 A2))) as (L1 & L2 & L3).
  { intros d' _ Fd. apply feasible_ok in Fd as [G1 G2]. rewrite Wd. exact (proj2 B _ _ _ G1 G2 (worth_ok s t d')). }
  split; [|split; [exact L2|exact L3]]. eapply best_ext; [|exact B]. eapply Qeq_trans; [apply Qeq_sym; exact Wd|exact L1].
Qed.
Lemma sample_solves : forall s t, 1#2 <= s -> s <= 1 -> 1 <= t -> minimiser [0; 0; 1] (lp_rows s t) (sample_linprog [0; 0; 1] (lp_rows s t)).
Proof.
  intros s t S1 S2 T. unfold sample_linprog. cbv zeta. set (s' := (snd (nth 0 (lp_rows s t) ([], 0)) + 2) / 2). set (t' := (8 * s' - 4 - snd (nth 2 (lp_rows s t) ([], 0))) / 2).
  assert (Es : s' == s) by (unfold s'; cbn [lp_rows nth snd]; field). assert (Et : t' == t) by (unfold t'; cbn [lp_rows nth snd]; rewrite Es; field). clearbody t'. clearbody s'.
  destruct (sample_best s' t' ltac:(lra) ltac:(lra) ltac:(lra)) as (B & F & W). set (d := sample_choice s' t') in *. apply feasible_ok in F as [F1 F2]. pose proof (worth_ok s' t' d) as L.
  set (a1 := affine_at (fst d) s' t') in *. set (a2 := affine_at (snd d) s' t') in *. set (v := sample_bound s' t') in *. clearbody a1 a2 v.
  assert (L' : largest (with_parameters a1 a2 s t) v).
  { destruct L as [Le Lf]. unfold with_parameters in *. split; [rewrite !Exists_cons in *|rewrite !Forall_cons_iff in *; repeat split; try lra; constructor].
    destruct Le as [Le|[Le|[Le|[Le|[Le|[Le|Le]]]]]]; [left; lra|right; left; lra|do 2 right; left; lra|do 3 right; left; lra|do 4 right; left; lra|do 5 right; left; lra|inversion Le]. }
  split; [reflexivity|]. split; [now apply lp_feasible|].
  intros [|x1 [|x2 [|x3 [|]]]] Ly [G P]; try discriminate Ly. cbn [dot]. unfold lp_rows in G. rewrite !Forall_cons_iff in G. cbn [fst snd dot] in G. rewrite !Forall_cons_iff in P.
  destruct (largest_exists (x2 + 2 - 2 * s') (tl (with_parameters x1 x2 s' t'))) as (w & Lw). pose proof (proj2 B x1 x2 w ltac:(lra) ltac:(lra) Lw) as Bw.
  destruct Lw as [Ew _]. cbn [tl with_parameters] in Ew. rewrite !Exists_cons in Ew. destruct (qmax_spec 1 (2 * t - 2)) as (Q1 & Q2 & _).
  destruct Ew as [Ew|[Ew|[Ew|[Ew|[Ew|[Ew|Ew]]]]]]; try lra. inversion Ew.
Qed.
(** So the comparison accepts the best exponents, and rejects a bound of 1. *)
Example check_case : check_with sample_linprog (Ret sample_bound) 10 = Ret true /\ check_with sample_linprog (Ret (fun _ _ => 1)) 10 = Ret false.
Proof.
  split; [apply check_accepts; [exact sample_solves|lia|intros; now apply sample_best]|].
  eapply (check_rejects sample_linprog sample_solves (fun _ _ => 1) 10 (sigma_at 10 10) (tau_at 10 0) (tr_bound (row_at 5) (sigma_at 10 10) (tau_at 10 0))); [lia|apply grid_in; lia|vm_compute; reflexivity| |].
  - apply row_best; [lia| | | |]; unfold row_at; cbn [nth bourgain_table tr_set]; assert (Es : sigma_at 10 10 == 1) by reflexivity; assert (Et : tau_at 10 0 == 1001#1000) by reflexivity; rewrite ?Es, ?Et; repeat split; lra.
  - unfold row_at. cbn [nth bourgain_table tr_bound]. assert (Es : sigma_at 10 10 == 1) by reflexivity. rewrite Es. vm_compute. discriminate.
Qed.

Local Transparent choices.
(** The best exponent at two points: with both parameters 0, and with neither. *)
Example best_exponent_case : best_exponent (9#10) 1 (1#5) /\ best_exponent (3#4) 2 (5#3) /\
  exists d, In d choices /\ affine_at (fst d) (3#4) 2 == 1#6 /\ affine_at (snd d) (3#4) 2 == 7#6.
Proof.
  assert (A : best_exponent (9#10) 1 (tr_bound (row_at 5) (9#10) 1)) by (apply row_best; [lia|unfold row_at; cbn [nth bourgain_table tr_set]; repeat split; lra|lra|lra|lra]).
  assert (B : best_exponent (3#4) 2 (tr_bound (row_at 4) (3#4) 2)) by (apply row_best; [lia|unfold row_at; cbn [nth bourgain_table tr_set]; repeat split; lra|lra|lra|lra]).
  split; [eapply best_ext; [|exact A]; reflexivity|]. split; [eapply best_ext; [|exact B]; reflexivity|].
  exists (nth 11 choices ([], [])). split; [apply nth_In; apply Nat.ltb_lt; vm_compute; reflexivity|]. split; vm_compute; reflexivity.
Qed.
