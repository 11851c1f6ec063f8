(** Properties C01 and C02. *)
From Verif Require Import Base Model_Interval Spec_Interval Proof_Interval.

(** C02: the constructor accepts exactly x0 <= x1. *)
Theorem interval_constructor : forall a b il iu,
  (a <= b -> Interval a b il iu = Ret (mkI a b il iu)) /\
  (b < a -> Interval a b il iu = Raise ValueError).
Proof.
  intros a b il iu. unfold Interval. split; intros H; destruct (Qltb_spec 0 (a - b)); auto; exfalso; lra.
Qed.
Print Assumptions interval_constructor.

(** [contains] is membership in the interval with the given endpoint flags. *)
Theorem interval_contains : forall i x, contains i x = true <-> in_set i x.
Proof. exact contains_iff. Qed.
Print Assumptions interval_contains.

(** C01: intersect never raises and is set intersection. *)
Theorem interval_intersect : forall i j, exists k,
  intersect i j = Ret k /\ wf k /\
  forall x, contains k x = contains i x && contains j x.
Proof.
  intros i j. destruct (intersect_total i j) as [k [H W]]. exists k. split; auto. split; auto.
  intros x. pose proof (intersect_in_set i j k H x) as E. rewrite <- !contains_iff in E.
  rewrite <- andb_true_iff in E. destruct (contains k x), (contains i x && contains j x); intuition congruence.
Qed.
Print Assumptions interval_intersect.

(** C02: is_empty is emptiness of the point set. *)
Theorem interval_is_empty : forall i, wf i ->
  (is_empty i = true <-> forall x, contains i x = false).
Proof.
  intros i W. rewrite (is_empty_iff i W). split; intros H x.
  - apply contains_false. auto.
  - apply contains_false. auto.
Qed.
Print Assumptions interval_is_empty.

(** C02: equality is equality of point sets. *)
Theorem interval_equality : forall i j, wf i -> wf j ->
  (interval_eqb i j = true <-> forall x, contains i x = contains j x).
Proof.
  intros i j Wi Wj. rewrite (interval_eqb_iff i j Wi Wj). split; intros H x.
  - specialize (H x). rewrite <- !contains_iff in H. destruct (contains i x), (contains j x); intuition congruence.
  - rewrite <- !contains_iff, H. reflexivity.
Qed.
Print Assumptions interval_equality.

(** C02: a non-empty interval contains its midpoint. *)
Theorem interval_midpoint : forall i, wf i -> is_empty i = false -> contains i (midpoint i) = true.
Proof. intros i W E. apply contains_iff. now apply midpoint_in. Qed.
Print Assumptions interval_midpoint.

(** Equality is an equivalence and intersect respects it up to [==]. *)
Theorem interval_intersect_comm : forall i j k l,
  intersect i j = Ret k -> intersect j i = Ret l -> interval_eqb k l = true.
Proof.
  intros i j k l H1 H2.
  destruct (intersect_total i j) as [k' [K1 W1]]. destruct (intersect_total j i) as [l' [L1 W2]].
  rewrite H1 in K1; inversion K1; subst k'. rewrite H2 in L1; inversion L1; subst l'.
  apply interval_eqb_iff; auto. intros x.
  rewrite (intersect_in_set _ _ _ H1), (intersect_in_set _ _ _ H2). tauto.
Qed.
Print Assumptions interval_intersect_comm.

Theorem interval_intersect_assoc : forall a b c ab bc r1 r2,
  intersect a b = Ret ab -> intersect ab c = Ret r1 ->
  intersect b c = Ret bc -> intersect a bc = Ret r2 -> interval_eqb r1 r2 = true.
Proof.
  intros a b c ab bc r1 r2 H1 H2 H3 H4.
  destruct (intersect_total ab c) as [r1' [K1 W1]]. destruct (intersect_total a bc) as [r2' [L1 W2]].
  rewrite H2 in K1; inversion K1; subst r1'. rewrite H4 in L1; inversion L1; subst r2'.
  apply interval_eqb_iff; auto. intros x.
  rewrite (intersect_in_set _ _ _ H2), (intersect_in_set _ _ _ H4), (intersect_in_set _ _ _ H1),
    (intersect_in_set _ _ _ H3). tauto.
Qed.
Print Assumptions interval_intersect_assoc.

(** Non-vacuity. *)
Example wf_example : wf (mkI (1#3) (1#2) true false) /\ is_empty (mkI (1#3) (1#2) true false) = false.
Proof. split; [unfold wf; cbn; lra|reflexivity]. Qed.
Example touching_intervals :
  intersect (mkI 0 (1#2) true true) (mkI (1#2) 1 true false) = Ret (mkI (1#2) (1#2) true true).
Proof. reflexivity. Qed.
Example empty_equal : interval_eqb (mkI 0 0 false true) (mkI 5 5 true false) = true.
Proof. reflexivity. Qed.
