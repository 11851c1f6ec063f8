(** Lemmas: evaluation through coefficient lists and arithmetic (over Q). *)
From Verif Require Import Base Model_Polynomial Spec_Polynomial Proof_Polynomial Model_RationalFunction.

Lemma ladd_eval : forall p q x, eval (ladd p q) x == eval p x + eval q x.
Proof.
  induction p as [|a p IH]; intros q x; cbn [ladd eval]; [lra|].
  destruct q as [|b q]; cbn [eval]; [lra|]. rewrite IH. ring.
Qed.
Lemma lscale_eval : forall c p x, eval (lscale c p) x == c * eval p x.
Proof. intros c. induction p as [|a p IH]; intros x; cbn; [lra|]. cbn in IH. rewrite IH. ring. Qed.
Lemma lmul_eval : forall p q x, eval (lmul p q) x == eval p x * eval q x.
Proof.
  induction p as [|a p IH]; intros q x; cbn [lmul]; [cbn; ring|].
  rewrite ladd_eval, lscale_eval. cbn [eval]. rewrite IH. ring.
Qed.
Lemma expand_eval : forall e x, eval (expand e) x == qeval e x.
Proof.
  induction e as [c| |a IHa b IHb|a IHa b IHb|a IHa b IHb]; intros x; cbn [expand qeval].
  - cbn. ring.
  - cbn. ring.
  - now rewrite ladd_eval, IHa, IHb.
  - rewrite ladd_eval, lscale_eval, IHa, IHb. ring.
  - now rewrite lmul_eval, IHa, IHb.
Qed.

Lemma forallb_zero : forall l, forallb (fun c => Qeqb c 0) l = true <-> all_zero l.
Proof.
  intros l. unfold all_zero. rewrite forallb_forall, Forall_forall. split; intros H c Hc; specialize (H c Hc).
  - now destruct (Qeqb_spec c 0).
  - destruct (Qeqb_spec c 0); auto.
Qed.
Lemma all_zero_eval : forall l x, all_zero l -> eval l x == 0.
Proof. intros l x H. induction H as [|c l E H IH]; cbn; [reflexivity|]. rewrite E, IH. ring. Qed.

Lemma expr_is_zero_iff : forall e, expr_is_zero e = true <-> forall x, qeval e x == 0.
Proof.
  intros e. unfold expr_is_zero. rewrite forallb_zero. split.
  - intros H x. rewrite <- expand_eval. now apply all_zero_eval.
  - intros H. apply vanishing_zero. intros x. rewrite expand_eval. auto.
Qed.

Lemma expr_is_constant_iff : forall e, expr_is_constant e = true <-> forall x, qeval e x == qeval e 0.
Proof.
  intros e. unfold expr_is_constant. rewrite forallb_zero. split.
  - intros H x. rewrite <- !expand_eval. destruct (expand e) as [|c l]; [reflexivity|]. cbn in *.
    rewrite (all_zero_eval l x H), (all_zero_eval l 0 H). ring.
  - intros H. set (l := expand e). destruct l as [|c l'] eqn:E; [constructor|]. cbn.
    assert (D : all_zero ((c - qeval e 0) :: l')).
    { apply vanishing_zero. intros x. specialize (H x). rewrite <- expand_eval in H. fold l in H. rewrite E in H.
      cbn in *. lra. }
    now inversion D.
Qed.

(** ** Arithmetic *)
Definition operand_value (o : operand) (x : Q) : res Q :=
  match o with ONum c => Ret c | ORat g => rf_at g x end.

Lemma rf_at_ret : forall f x v, rf_at f x = Ret v ->
  ~ qeval (den f) x == 0 /\ v = qeval (num f) x / qeval (den f) x.
Proof.
  intros f x v H. unfold rf_at in H. destruct (Qeqb_spec (qeval (den f) x) 0) as [E|E]; [discriminate|].
  inversion H. auto.
Qed.
Lemma rf_at_den : forall f x, ~ qeval (den f) x == 0 -> rf_at f x = Ret (qeval (num f) x / qeval (den f) x).
Proof. intros f x H. unfold rf_at. destruct (Qeqb_spec (qeval (den f) x) 0); auto. contradiction. Qed.

Lemma nz_mul : forall a b : Q, ~ a == 0 -> ~ b == 0 -> ~ a * b == 0.
Proof. intros a b Ha Hb H. apply Qmult_integral in H. tauto. Qed.

Lemma rf_add_at : forall f o x v w, rf_at f x = Ret v -> operand_value o x = Ret w ->
  exists r, rf_at (rf_add f o) x = Ret r /\ r == v + w.
Proof.
  intros f o x v w Hf Ho. apply rf_at_ret in Hf. destruct Hf as [D ->]. destruct o as [c|g]; cbn in Ho.
  - inversion Ho; subst w. rewrite rf_at_den by exact D. eexists. split; [reflexivity|]. cbn. field. auto.
  - apply rf_at_ret in Ho. destruct Ho as [D' ->].
    rewrite rf_at_den by (cbn; now apply nz_mul). eexists. split; [reflexivity|]. cbn. field. auto.
Qed.
Lemma rf_subtract_at : forall f o x v w, rf_at f x = Ret v -> operand_value o x = Ret w ->
  exists r, rf_at (rf_subtract f o) x = Ret r /\ r == v - w.
Proof.
  intros f o x v w Hf Ho. apply rf_at_ret in Hf. destruct Hf as [D ->]. destruct o as [c|g]; cbn in Ho.
  - inversion Ho; subst w. rewrite rf_at_den by exact D. eexists. split; [reflexivity|]. cbn. field. auto.
  - apply rf_at_ret in Ho. destruct Ho as [D' ->].
    rewrite rf_at_den by (cbn; now apply nz_mul). eexists. split; [reflexivity|]. cbn. field. auto.
Qed.
Lemma rf_mul_at : forall f o x v w, rf_at f x = Ret v -> operand_value o x = Ret w ->
  exists r, rf_at (rf_mul f o) x = Ret r /\ r == v * w.
Proof.
  intros f o x v w Hf Ho. apply rf_at_ret in Hf. destruct Hf as [D ->]. destruct o as [c|g]; cbn in Ho.
  - inversion Ho; subst w. rewrite rf_at_den by exact D. eexists. split; [reflexivity|]. cbn. field. auto.
  - apply rf_at_ret in Ho. destruct Ho as [D' ->].
    rewrite rf_at_den by (cbn; now apply nz_mul). eexists. split; [reflexivity|]. cbn. field. auto.
Qed.
Lemma rf_div_at : forall f g x v w, rf_at f x = Ret v -> rf_at g x = Ret w -> ~ w == 0 ->
  exists r, rf_at (rf_div f (ORat g)) x = Ret r /\ r == v / w.
Proof.
  intros f g x v w Hf Ho Nz. apply rf_at_ret in Hf. destruct Hf as [D ->].
  apply rf_at_ret in Ho. destruct Ho as [D' ->].
  assert (N : ~ qeval (num g) x == 0).
  { intro E. apply Nz. rewrite E. field. auto. }
  rewrite rf_at_den by (cbn; now apply nz_mul). eexists. split; [reflexivity|]. cbn. field. auto.
Qed.

(** value of the constructed expression *)
Lemma sum_monomials_eval : forall l acc xn x,
  qeval (sum_monomials l acc xn) x == qeval acc x + qeval xn x * eval l x.
Proof.
  induction l as [|c l IH]; intros acc xn x; cbn [sum_monomials]; [cbn; ring|].
  rewrite IH. cbn. ring.
Qed.
Lemma expr_of_coeffs_eval : forall l x, qeval (expr_of_coeffs l) x == eval (rev l) x.
Proof. intros l x. unfold expr_of_coeffs. rewrite sum_monomials_eval. cbn. ring. Qed.

(** ** Equality *)
Lemma trim_nonzero : forall c, ~ all_zero c -> trim_trailing_zeroes c <> [].
Proof.
  intros c H E. apply H. apply vanishing_zero. intros x. rewrite <- trim_eval, E. reflexivity.
Qed.
Lemma product_zero : forall a b, (forall x, qeval a x * qeval b x == 0) ->
  expr_is_zero a = true \/ expr_is_zero b = true.
Proof.
  intros a b H.
  destruct (expr_is_zero a) eqn:Ea; auto. destruct (expr_is_zero b) eqn:Eb; auto. exfalso.
  assert (Na : ~ all_zero (expand a)) by (rewrite <- forallb_zero; unfold expr_is_zero in Ea; congruence).
  assert (Nb : ~ all_zero (expand b)) by (rewrite <- forallb_zero; unfold expr_is_zero in Eb; congruence).
  apply trim_nonzero in Na. apply trim_nonzero in Nb.
  destruct (multiply_ok (trim_trailing_zeroes (expand a)) (trim_trailing_zeroes (expand b)))
    as [r [_ [K [V L]]]]; [apply trim_from_canonical; lia..|].
  specialize (L Na Nb).
  assert (Z : r = []).
  { apply all_zero_canonical; auto. apply vanishing_zero. intros x. rewrite V, !trim_eval, !expand_eval. auto. }
  rewrite Z in L. destruct (trim_trailing_zeroes (expand a)); [congruence|].
  destruct (trim_trailing_zeroes (expand b)); [congruence|]. cbn in L. lia.
Qed.

Lemma rf_eqb_iff : forall f g, expr_is_zero (den f) = false -> expr_is_zero (den g) = false ->
  (rf_eqb f g = true <->
   forall x v w, rf_at f x = Ret v -> rf_at g x = Ret w -> v == w).
Proof.
  intros f g Df Dg. unfold rf_eqb. rewrite expr_is_zero_iff. cbn [qeval]. split.
  - intros H x v w Hf Hg. apply rf_at_ret in Hf. destruct Hf as [Nf ->].
    apply rf_at_ret in Hg. destruct Hg as [Ng ->]. specialize (H x).
    assert (E : qeval (num f) x * qeval (den g) x == qeval (den f) x * qeval (num g) x) by lra.
    apply (Qmult_inj_r _ _ (qeval (den f) x * qeval (den g) x)); [now apply nz_mul|].
    transitivity (qeval (num f) x * qeval (den g) x); [field; auto|]. rewrite E. field. auto.
  - intros H.
    assert (P : forall x, qeval (ESub (EMul (num f) (den g)) (EMul (den f) (num g))) x * qeval (EMul (den f) (den g)) x == 0).
    { intros x. cbn [qeval].
      destruct (Qeq_dec (qeval (den f) x) 0) as [Ef|Nf]; [rewrite Ef; ring|].
      destruct (Qeq_dec (qeval (den g) x) 0) as [Eg|Ng]; [rewrite Eg; ring|].
      specialize (H x _ _ (rf_at_den f x Nf) (rf_at_den g x Ng)).
      assert (E : qeval (num f) x * qeval (den g) x - qeval (den f) x * qeval (num g) x == 0).
      { transitivity ((qeval (num f) x / qeval (den f) x - qeval (num g) x / qeval (den g) x) * (qeval (den f) x * qeval (den g) x)).
        - field. auto.
        - rewrite H. ring. }
      rewrite E. ring. }
    apply product_zero in P. destruct P as [P|P].
    + intros x. exact (proj1 (expr_is_zero_iff _) P x).
    + exfalso. destruct (product_zero (den f) (den g)) as [Z|Z]; try congruence.
      intros x. exact (proj1 (expr_is_zero_iff _) P x).
Qed.
