(** The demands made on the equation solver can be met: a polynomial that is not
    zero has finitely many roots. *)
From Verif Require Import Base Model_RationalFunction Spec_RationalFunction Proof_RationalFunction Proof_RFOptimal.
From Coq Require Import Reals Qreals Lra Classical ClassicalChoice.
Local Open Scope R_scope.

Fixpoint hval (p : list R) (x : R) : R := match p with [] => 0 | a :: p' => a + x * hval p' x end.
Definition allz (p : list R) : Prop := Forall (fun c => c = 0) p.

Fixpoint quot (p : list R) (r : R) : list R :=
  match p with [] => [] | _ :: [] => [] | _ :: p' => hval p' r :: quot p' r end.
Lemma quot_len : forall p r, List.length (quot p r) = pred (List.length p).
Proof. induction p as [|a [|b p] IH]; intro r; auto. cbn [quot List.length pred] in *. now rewrite (IH r). Qed.
Lemma quot_val : forall p r x, hval p x = hval p r + (x - r) * hval (quot p r) x.
Proof.
  induction p as [|a [|b p] IH]; intros r x; [cbn; ring|cbn; ring|].
  change (quot (a :: b :: p) r) with (hval (b :: p) r :: quot (b :: p) r).
  change (hval (a :: b :: p) x) with (a + x * hval (b :: p) x). change (hval (a :: b :: p) r) with (a + r * hval (b :: p) r).
  change (hval (hval (b :: p) r :: quot (b :: p) r) x) with (hval (b :: p) r + x * hval (quot (b :: p) r) x). rewrite (IH r x) at 1. ring.
Qed.
Lemma allz_val : forall p x, allz p -> hval p x = 0.
Proof. induction 1; cbn; auto. rewrite H, IHForall. ring. Qed.
Lemma quot_zero : forall p r, allz (quot p r) -> allz (tl p).
Proof.
  induction p as [|a [|b p] IH]; intros r H; [constructor|constructor|].
  change (quot (a :: b :: p) r) with (hval (b :: p) r :: quot (b :: p) r) in H. inversion H as [|? ? H1 H2]; subst. apply IH in H2. cbn [tl] in *.
  constructor; auto. cbn in H1. rewrite (allz_val p r H2) in H1. lra.
Qed.
Lemma roots_finite : forall n p, List.length p = n -> ~ allz p -> exists l, forall x, hval p x = 0 -> In x l.
Proof.
  induction n as [|n IH]; intros p L N; [destruct p; [exfalso; apply N; constructor|discriminate]|].
  destruct (classic (exists r, hval p r = 0)) as [[r R]|NR].
  - assert (Q : ~ allz (quot p r)).
    { intro Z. apply N. pose proof (quot_zero p r Z) as T. destruct p as [|a p]; [constructor|]. cbn [tl] in T. constructor; auto. cbn in R. rewrite (allz_val p r T) in R. lra. }
    destruct (IH (quot p r)) as [l Hl]; [rewrite quot_len, L; reflexivity|exact Q|]. exists (r :: l). intros x X. rewrite (quot_val p r x), R in X.
    destruct (Req_dec x r) as [->|D]; [now left|]. right. apply Hl. apply Rmult_eq_reg_l with (x - r); [|lra]. lra.
  - exists []. intros x X. apply NR. now exists x.
Qed.
Lemma hval_evalR : forall p x, hval (map Q2R p) x = evalR p x.
Proof. induction p as [|c p IH]; intro x; cbn; auto. now rewrite IH. Qed.
Lemma expr_roots_finite : forall e, expr_is_zero e = false -> exists l, forall x, reval e x = 0 -> In x l.
Proof.
  intros e Z. destruct (roots_finite _ (map Q2R (expand e)) eq_refl) as [l Hl].
  - intro A. apply Bool.not_true_iff_false in Z. apply Z. unfold expr_is_zero. apply forallb_forall. intros c I. apply Qeqb_true.
    unfold allz in A. rewrite Forall_forall in A. apply eqR_Qeq. rewrite (A (Q2R c)) by now apply in_map. now rewrite Q2R_0.
  - exists l. intros x X. apply Hl. now rewrite hval_evalR, expand_evalR.
Qed.

Theorem solver_exists : exists solve, solve_complete solve.
Proof.
  destruct (choice (fun (fg : rfun * rfun) (l : list R) => rf_eqb (fst fg) (snd fg) = false -> forall x, reval (ESub (EMul (Model_RationalFunction.num (fst fg)) (den (snd fg))) (EMul (den (fst fg)) (Model_RationalFunction.num (snd fg)))) x = 0 -> In x l)) as [s S].
  - intros [f g]. cbn [fst snd]. destruct (rf_eqb f g) eqn:E; [exists []; discriminate|]. destruct (expr_roots_finite _ E) as [l Hl]. exists l. auto.
  - exists (fun f g => s (f, g)). intros f g x E Nf Ng V. specialize (S (f, g) E x). apply S. cbn [fst snd reval]. unfold has_pole in *. unfold rfval in V.
    assert (K : reval (Model_RationalFunction.num f) x * reval (den g) x = (reval (Model_RationalFunction.num f) x / reval (den f) x) * (reval (den f) x * reval (den g) x)) by (field; auto). rewrite K, V. field. auto.
Qed.
Print Assumptions solver_exists.
Theorem root_finder_exists : exists roots, roots_complete roots.
Proof.
  destruct (choice (fun e (l : list R) => expr_is_constant e = false -> forall x, reval e x = 0 -> In x l)) as [s S].
  - intro e. destruct (expr_is_constant e) eqn:E; [exists []; discriminate|]. destruct (expr_roots_finite e) as [l Hl]; [|now exists l].
    unfold expr_is_constant, expr_is_zero in *. destruct (expand e) as [|c p]; [discriminate|]. cbn [tl] in E. cbn [forallb]. rewrite E. apply Bool.andb_false_r.
  - exists s. intros e x E X. now apply S.
Qed.
Print Assumptions root_finder_exists.
