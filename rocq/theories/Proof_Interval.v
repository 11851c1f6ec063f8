From Verif Require Import Base Model_Interval.
From Verif Require Export Spec_Interval.


Arguments Interval : simpl never.

Lemma contains_iff : forall i x, contains i x = true <-> in_set i x.
Proof.
  intros [a b il iu] x. unfold contains, in_set; cbn.
  destruct il, iu; cbn; rewrite andb_true_iff, ?Qleb_true, ?Qltb_true; intuition lra.
Qed.

Lemma contains_false : forall i x, contains i x = false <-> ~ in_set i x.
Proof.
  intros i x. rewrite <- contains_iff. destruct (contains i x); intuition congruence.
Qed.

Lemma contains_comp : forall i x y, x == y -> contains i x = contains i y.
Proof. intros [a b il iu] x y E. unfold contains; cbn. destruct il, iu; now rewrite E. Qed.

Lemma Interval_ok : forall a b il iu i,
  Interval a b il iu = Ret i <-> a <= b /\ i = mkI a b il iu.
Proof.
  intros. unfold Interval. destruct (Qltb_spec 0 (a - b)) as [H|H].
  - split; [discriminate|]. intros [H1 _]. exfalso; lra.
  - split; [intros E; inversion E; split; [lra|auto]|intros [_ ->]; auto].
Qed.

Lemma qmax_spec : forall x y, x <= qmax x y /\ y <= qmax x y /\ (qmax x y = x \/ qmax x y = y).
Proof. intros. unfold qmax. destruct (Qltb_spec x y); repeat split; auto; lra. Qed.
Lemma qmin_spec : forall x y, qmin x y <= x /\ qmin x y <= y /\ (qmin x y = x \/ qmin x y = y).
Proof. intros. unfold qmin. destruct (Qltb_spec y x); repeat split; auto; lra. Qed.

Lemma intersect_total : forall i j, exists k, intersect i j = Ret k /\ wf k.
Proof.
  intros i j. unfold intersect.
  destruct (Qltb_spec (qmin (x1 i) (x1 j)) (qmax (x0 i) (x0 j))) as [H|H].
  - eexists. split; [apply Interval_ok; split; [lra|reflexivity]|]. unfold wf; cbn; lra.
  - eexists. split; [apply Interval_ok; split; [lra|reflexivity]|]. unfold wf; cbn. lra.
Qed.

Lemma intersect_in_set : forall i j k, intersect i j = Ret k ->
  forall x, in_set k x <-> in_set i x /\ in_set j x.
Proof.
  intros [a b il iu] [c d jl ju] k H x. unfold intersect in H; cbn in H.
  revert H. pose proof (qmax_spec a c) as Mx. pose proof (qmin_spec b d) as Mn.
  set (lo := qmax a c) in *. set (hi := qmin b d) in *. clearbody lo hi.
  destruct Mx as [Mx1 [Mx2 Mx3]]. destruct Mn as [Mn1 [Mn2 Mn3]].
  assert (Mx4 : lo == a \/ lo == c) by (destruct Mx3; subst; [left|right]; reflexivity).
  assert (Mn4 : hi == b \/ hi == d) by (destruct Mn3; subst; [left|right]; reflexivity).
  clear Mx3 Mn3.
  repeat (match goal with |- context [Qltb ?x ?y] => destruct (Qltb_spec x y) end; cbn);
  intros K; apply Interval_ok in K; destruct K as [_ ->]; unfold in_set; cbn;
  destruct il, iu, jl, ju; cbn; split; intros; repeat match goal with K : _ /\ _ |- _ => destruct K end;
  destruct Mx4, Mn4; repeat split; lra.
Qed.

Lemma is_empty_iff : forall i, wf i -> (is_empty i = true <-> forall x, ~ in_set i x).
Proof.
  intros [a b il iu] W. unfold wf, is_empty, length, in_set in *; cbn in *.
  destruct (Qeqb_spec (b - a) 0) as [E|E].
  - destruct il, iu; cbn; split; intros H; auto; try discriminate; try (intros x Hx; lra).
    exfalso. apply (H a). lra.
  - split; [discriminate|]. intros H. exfalso. apply (H ((a + b) / 2)).
    assert (a < b) by lra.
    assert (a < (a + b) / 2) by (apply Qlt_shift_div_l; lra).
    assert ((a + b) / 2 < b) by (apply Qlt_shift_div_r; lra).
    destruct il, iu; cbn; lra.
Qed.

Lemma midpoint_in : forall i, wf i -> is_empty i = false -> in_set i (midpoint i).
Proof.
  intros [a b il iu] W. unfold wf, is_empty, length, midpoint, in_set in *; cbn in *.
  destruct (Qeqb_spec (b - a) 0) as [E|E].
  - destruct il, iu; cbn; try discriminate. intros _.
    assert ((a + b) / 2 == a) by (setoid_replace b with a by lra; field). lra.
  - intros _. assert (a < b) by lra.
    assert (a < (a + b) / 2) by (apply Qlt_shift_div_l; lra).
    assert ((a + b) / 2 < b) by (apply Qlt_shift_div_r; lra).
    destruct il, iu; cbn; lra.
Qed.

Lemma Qmid : forall a b, a < b -> a < (a + b) / 2 /\ (a + b) / 2 < b.
Proof. intros. split; [apply Qlt_shift_div_l|apply Qlt_shift_div_r]; lra. Qed.

(** Endpoints of a non-empty interval are determined by its points. *)
Lemma subset_bounds : forall i j, wf i -> is_empty i = false ->
  (forall x, in_set i x -> in_set j x) -> x0 j <= x0 i /\ x1 i <= x1 j.
Proof.
  intros [a b il iu] [c d jl ju] W E H. unfold wf, is_empty, length, in_set in *; cbn in *.
  destruct (Qeqb_spec (b - a) 0) as [E0|E0].
  - destruct il, iu; cbn in E; try discriminate.
    specialize (H a). cbn in H. destruct H as [H1 H2]; [lra|].
    destruct jl, ju; cbn in *; lra.
  - assert (L : a < b) by lra. pose proof (Qmid _ _ L) as [M1 M2].
    set (m := (a + b) / 2) in *.
    split.
    + apply Qnot_lt_le. intro N.
      destruct (Qlt_le_dec c m) as [Hc|Hc].
      * pose proof (Qmid _ _ N) as [N1 N2]. specialize (H ((a + c) / 2)).
        destruct H as [H1 _]; [destruct il, iu; cbn; lra|]. destruct jl; cbn in H1; lra.
      * pose proof (Qmid _ _ M1) as [N1 N2]. specialize (H ((a + m) / 2)).
        destruct H as [H1 _]; [destruct il, iu; cbn; lra|]. destruct jl; cbn in H1; lra.
    + apply Qnot_lt_le. intro N.
      destruct (Qlt_le_dec m d) as [Hc|Hc].
      * pose proof (Qmid _ _ N) as [N1 N2]. specialize (H ((d + b) / 2)).
        destruct H as [_ H1]; [destruct il, iu; cbn; lra|]. destruct ju; cbn in H1; lra.
      * pose proof (Qmid _ _ M2) as [N1 N2]. specialize (H ((m + b) / 2)).
        destruct H as [_ H1]; [destruct il, iu; cbn; lra|]. destruct ju; cbn in H1; lra.
Qed.

Lemma interval_eqb_iff : forall i j, wf i -> wf j ->
  (interval_eqb i j = true <-> forall x, in_set i x <-> in_set j x).
Proof.
  intros i j Wi Wj. unfold interval_eqb.
  destruct (is_empty i) eqn:Ei; destruct (is_empty j) eqn:Ej; cbn.
  - pose proof (proj1 (is_empty_iff i Wi) Ei) as Ni. pose proof (proj1 (is_empty_iff j Wj) Ej) as Nj.
    split; auto. intros _ x. split; intro H; [destruct (Ni x H)|destruct (Nj x H)].
  - split.
    + intros H. exfalso. pose proof (proj1 (is_empty_iff i Wi) Ei) as Ni.
      rewrite !andb_true_iff, !Qeqb_true, !eqb_true_iff in H. destruct H as [[[H1 H2] H3] H4].
      apply (Ni (midpoint j)). pose proof (midpoint_in j Wj Ej) as M.
      destruct i as [a b il iu], j as [c d jl ju]; unfold in_set in *; cbn in *; subst.
      destruct jl, ju; cbn in *; lra.
    + intros H. exfalso. pose proof (proj1 (is_empty_iff i Wi) Ei) as Ni. apply (Ni (midpoint j)).
      apply H. now apply midpoint_in.
  - split.
    + intros H. exfalso. pose proof (proj1 (is_empty_iff j Wj) Ej) as Nj.
      rewrite !andb_true_iff, !Qeqb_true, !eqb_true_iff in H. destruct H as [[[H1 H2] H3] H4].
      apply (Nj (midpoint i)). pose proof (midpoint_in i Wi Ei) as M.
      destruct i as [a b il iu], j as [c d jl ju]; unfold in_set in *; cbn in *; subst.
      destruct jl, ju; cbn in *; lra.
    + intros H. exfalso. pose proof (proj1 (is_empty_iff j Wj) Ej) as Nj. apply (Nj (midpoint i)).
      apply H. now apply midpoint_in.
  - rewrite !andb_true_iff, !Qeqb_true, !eqb_true_iff. split.
    + intros [[[H1 H2] H3] H4] x.
      destruct i as [a b il iu], j as [c d jl ju]; unfold in_set in *; cbn in *; subst.
      destruct jl, ju; cbn; intuition lra.
    + intros H.
      destruct (subset_bounds i j Wi Ei) as [B1 B2]; [intros; now apply H|].
      destruct (subset_bounds j i Wj Ej) as [B3 B4]; [intros; now apply H|].
      assert (X0 : x0 i == x0 j) by lra. assert (X1 : x1 i == x1 j) by lra.
      repeat split; auto.
      * pose proof (H (x0 i)) as Hx.
        destruct i as [a b il iu], j as [c d jl ju]; unfold in_set, wf, is_empty, length in *; cbn in *.
        destruct (Qeqb_spec (b - a) 0), (Qeqb_spec (d - c) 0); try (exfalso; lra);
        destruct il, jl, iu, ju; cbn in *; auto; try discriminate; exfalso; intuition lra.
      * pose proof (H (x1 i)) as Hx.
        destruct i as [a b il iu], j as [c d jl ju]; unfold in_set, wf, is_empty, length in *; cbn in *.
        destruct (Qeqb_spec (b - a) 0), (Qeqb_spec (d - c) 0); try (exfalso; lra);
        destruct il, jl, iu, ju; cbn in *; auto; try discriminate; exfalso; intuition lra.
Qed.

Lemma deep_copy_eq : forall i, wf i -> deep_copy i = Ret i.
Proof. intros [a b il iu] W. unfold deep_copy. apply Interval_ok. auto. Qed.
