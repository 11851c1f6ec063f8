(** The piecewise optimum over the reals (C08) and extrema. *)
From Coq Require Import Reals Lra Ranalysis5 Qreals.
From Verif Require Import Base Model_Polynomial Spec_Polynomial Proof_Polynomial
  Model_RationalFunction Spec_RationalFunction Proof_RationalFunction.
From Coq Require Import Lra.
Local Open Scope R_scope.

(** ** Coefficient lists at real points *)
Fixpoint evalR (p : list Q) (x : R) : R :=
  match p with [] => 0 | c :: p' => Q2R c + x * evalR p' x end.
Lemma Q2R_0 : Q2R 0 = 0. Proof. unfold Q2R. cbn. lra. Qed.
Lemma Q2R_1 : Q2R 1 = 1. Proof. unfold Q2R. cbn. lra. Qed.
Lemma Q2R_m1 : Q2R (-(1)) = -1. Proof. unfold Q2R. cbn. lra. Qed.

Lemma ladd_evalR : forall p q x, evalR (ladd p q) x = evalR p x + evalR q x.
Proof.
  induction p as [|a p IH]; intros q x; cbn [ladd evalR]; [lra|].
  destruct q as [|b q]; cbn [evalR]; [lra|]. rewrite IH, Q2R_plus. ring.
Qed.
Lemma lscale_evalR : forall c p x, evalR (lscale c p) x = Q2R c * evalR p x.
Proof. intros c. induction p as [|a p IH]; intros x; cbn; [lra|]. cbn in IH. rewrite IH, Q2R_mult. ring. Qed.
Lemma lmul_evalR : forall p q x, evalR (lmul p q) x = evalR p x * evalR q x.
Proof.
  induction p as [|a p IH]; intros q x; cbn [lmul]; [cbn; ring|].
  rewrite ladd_evalR, lscale_evalR. cbn [evalR]. rewrite IH, Q2R_0. ring.
Qed.
Lemma expand_evalR : forall e x, evalR (expand e) x = reval e x.
Proof.
  induction e as [c| |a IHa b IHb|a IHa b IHb|a IHa b IHb]; intros x; cbn [expand reval].
  - cbn. ring.
  - cbn. rewrite Q2R_0, Q2R_1. ring.
  - now rewrite ladd_evalR, IHa, IHb.
  - rewrite ladd_evalR, lscale_evalR, IHa, IHb, Q2R_m1. ring.
  - now rewrite lmul_evalR, IHa, IHb.
Qed.
Lemma all_zero_evalR : forall l x, all_zero l -> evalR l x = 0.
Proof.
  intros l x H. induction H as [|c l E H IH]; cbn; [reflexivity|].
  rewrite (Qeq_eqR _ _ E), Q2R_0, IH. ring.
Qed.
Lemma expr_zero_R : forall e x, expr_is_zero e = true -> reval e x = 0.
Proof. intros e x H. rewrite <- expand_evalR. apply all_zero_evalR. now apply forallb_zero. Qed.

Lemma rf_eqb_R : forall f g x, rf_eqb f g = true -> ~ has_pole f x -> ~ has_pole g x -> rfval f x = rfval g x.
Proof.
  intros f g x H Nf Ng. pose proof (expr_zero_R _ x H) as E. cbn in E. unfold has_pole in *. unfold rfval.
  apply (Rmult_eq_reg_r (reval (den f) x * reval (den g) x)).
  - replace (reval (num f) x / reval (den f) x * (reval (den f) x * reval (den g) x))
      with (reval (num f) x * reval (den g) x) by (field; auto).
    replace (reval (num g) x / reval (den g) x * (reval (den f) x * reval (den g) x))
      with (reval (den f) x * reval (num g) x) by (field; auto).
    lra.
  - now apply Rmult_integral_contrapositive_currified.
Qed.

(** ** Continuity *)
Lemma reval_derivable : forall e x, derivable_pt_lim (reval e) x (reval (ediff e) x).
Proof.
  induction e as [c| |a IHa b IHb|a IHa b IHb|a IHa b IHb]; intros x; cbn.
  - rewrite Q2R_0. apply (derivable_pt_lim_const (Q2R c)).
  - rewrite Q2R_1. apply derivable_pt_lim_id.
  - apply (derivable_pt_lim_plus (reval a) (reval b)); auto.
  - apply (derivable_pt_lim_minus (reval a) (reval b)); auto.
  - apply (derivable_pt_lim_mult (reval a) (reval b)); auto.
Qed.
Lemma rfval_derivable : forall f x, ~ has_pole f x ->
  derivable_pt_lim (rfval f) x
    ((reval (ediff (num f)) x * reval (den f) x - reval (ediff (den f)) x * reval (num f) x) / Rsqr (reval (den f) x)).
Proof.
  intros f x H. apply (derivable_pt_lim_div (reval (num f)) (reval (den f))); auto using reval_derivable.
Qed.
Lemma rfval_continuous : forall f x, ~ has_pole f x -> continuity_pt (rfval f) x.
Proof.
  intros f x H. apply derivable_continuous_pt. eexists. apply (rfval_derivable f x H).
Qed.

(** a continuous function without zero on an open interval keeps its sign *)
Lemma no_zero_sign : forall h a b m, (forall x, a < x < b -> continuity_pt h x) ->
  (forall x, a < x < b -> h x <> 0) -> a < m < b -> 0 < h m -> forall x, a < x < b -> 0 < h x.
Proof.
  intros h a b m C N Hm Hpos x Hx.
  destruct (Rtotal_order (h x) 0) as [L|[E|G]]; [|exfalso; apply (N x Hx E)|auto].
  exfalso. destruct (Rtotal_order x m) as [Lt|[->|Gt]]; [| lra |].
  - destruct (IVT_interv h x m) as [z [Hz E]]; auto.
    + intros t Ht. apply C. lra.
    + apply (N z); auto. lra.
  - destruct (IVT_interv (fun t => - h t) m x) as [z [Hz E]]; try lra.
    + intros t Ht. apply (continuity_pt_opp h). apply C. lra.
    + apply (N z); lra.
Qed.

Lemma limit_nonneg : forall h a b, a < b -> continuity_pt h a -> (forall x, a < x < b -> 0 < h x) -> 0 <= h a.
Proof.
  intros h a b Hab C P. destruct (Rle_or_lt 0 (h a)) as [|L]; auto. exfalso.
  destruct (C (- h a)) as [d [Hd H]]; [lra|].
  set (x := a + Rmin (d / 2) ((b - a) / 2)).
  assert (M : 0 < Rmin (d / 2) ((b - a) / 2)) by (apply Rmin_glb_lt; lra).
  assert (M1 : Rmin (d / 2) ((b - a) / 2) <= d / 2) by apply Rmin_l.
  assert (M2 : Rmin (d / 2) ((b - a) / 2) <= (b - a) / 2) by apply Rmin_r.
  assert (Hx : 0 < h x) by (apply P; unfold x; lra).
  assert (K : Rabs (h x - h a) < - h a).
  { apply H. split.
    - split; [exact I|]. unfold x. lra.
    - cbn. unfold R_dist, x. rewrite Rabs_right; lra. }
  rewrite Rabs_right in K; lra.
Qed.

Lemma dominates : forall s f g u v m, (s = 1 \/ s = -1) ->
  (forall x, u < x < v -> ~ has_pole f x) -> (forall x, u < x < v -> ~ has_pole g x) ->
  (forall x, u < x < v -> rfval f x <> rfval g x) ->
  u < m < v -> s * rfval g m < s * rfval f m ->
  (forall x, u < x < v -> s * rfval g x < s * rfval f x) /\
  (~ has_pole f u -> ~ has_pole g u -> s * rfval g u <= s * rfval f u).
Proof.
  intros s f g u v m Hs Pf Pg N Hm L.
  set (h := fun x => s * (rfval f x - rfval g x)).
  assert (Cont : forall x, ~ has_pole f x -> ~ has_pole g x -> continuity_pt h x).
  { intros x Hf Hg. apply (continuity_pt_mult (fun _ => s) (fun x => rfval f x - rfval g x)).
    - apply continuity_pt_const. intros a b. reflexivity.
    - apply (continuity_pt_minus (rfval f) (rfval g)); now apply rfval_continuous. }
  assert (Pos : forall x, u < x < v -> 0 < h x).
  { apply (no_zero_sign h u v m); auto.
    - intros x Hx E. apply (N x Hx). unfold h in E. destruct Hs; subst; lra.
    - unfold h. lra. }
  split.
  - intros x Hx. specialize (Pos x Hx). unfold h in Pos. lra.
  - intros Hf Hg. assert (0 <= h u) by (apply (limit_nonneg h u v); auto; lra). unfold h in H. lra.
Qed.

(** ** Sorted sets of reals *)
Lemma Rltb_true : forall x y, Rltb x y = true <-> x < y.
Proof. intros. unfold Rltb. destruct (Rlt_dec x y); intuition congruence. Qed.
Lemma Rltb_false : forall x y, Rltb x y = false <-> y <= x.
Proof. intros. unfold Rltb. destruct (Rlt_dec x y); split; intros; try congruence; lra. Qed.

Fixpoint ssorted (l : list R) : Prop :=
  match l with [] => True | x :: l' => Forall (fun y => x < y) l' /\ ssorted l' end.
Notation insR := (ins R Rltb).
Notation sorted_setR := (sorted_set R Rltb).
Lemma ins_in : forall x l y, In y (insR x l) <-> y = x \/ In y l.
Proof.
  intros x. induction l as [|z l IH]; intros y; cbn; [intuition|].
  destruct (Rltb x z) eqn:E1; cbn; [intuition|].
  destruct (Rltb z x) eqn:E2; cbn; [rewrite IH; intuition|].
  apply Rltb_false in E1. apply Rltb_false in E2. assert (x = z) by lra. subst. intuition.
Qed.
Lemma ins_sorted : forall x l, ssorted l -> ssorted (insR x l).
Proof.
  intros x. induction l as [|z l IH]; intros H; [cbn; auto|]. destruct H as [H1 H2].
  cbn [ins]. destruct (Rltb x z) eqn:E1.
  - apply Rltb_true in E1. cbn. split; [|split; auto]. constructor; auto.
    eapply Forall_impl; [|exact H1]. cbn. intros. lra.
  - destruct (Rltb z x) eqn:E2; [|now split]. apply Rltb_true in E2. cbn. split; auto.
    rewrite Forall_forall in *. intros y Hy. apply ins_in in Hy. destruct Hy as [->|Hy]; auto.
Qed.
Lemma sorted_set_in : forall l y, In y (sorted_setR l) <-> In y l.
Proof. induction l as [|x l IH]; intros y; cbn; [reflexivity|]. rewrite ins_in, IH. intuition. Qed.
Lemma sorted_set_sorted : forall l, ssorted (sorted_setR l).
Proof. induction l as [|x l IH]; cbn; [exact I|]. now apply ins_sorted. Qed.

Notation containsR := (icontains R Rltb).
Lemma contains_inside : forall i x, containsR i x = true <-> inside i x.
Proof.
  intros [a b il ih] x. unfold icontains, inside. cbn. rewrite andb_true_iff.
  destruct il, ih; cbn; rewrite ?negb_true_iff, ?Rltb_true, ?Rltb_false; reflexivity.
Qed.

(** ** The invariant *)
Section Invariant.
  Variable solve : rfun -> rfun -> list R.
  Hypothesis solve_ok : solve_complete solve.
  Variable s : R.
  Hypothesis s_sign : s = 1 \/ s = -1.
  Variable cmp : R -> R -> bool.
  Hypothesis cmp_true : forall x y, cmp x y = true -> s * y < s * x.
  Hypothesis cmp_false : forall x y, cmp x y = false -> s * x <= s * y.
  Variable default : Q.
  Variable track : bool.
  Variables dlo dhi : R.
  Let d := Q2R default.
  Let fdef := RationalFunction [default] None.

  Definition is_opt (fs : list (rfun * ivl R)) (x v : R) : Prop :=
    (v = d \/ exists f i, In (f, i) fs /\ inside i x /\ v = rfval f x) /\
    s * d <= s * v /\ forall f i, In (f, i) fs -> inside i x -> s * rfval f x <= s * v.

  (** input functions have no pole where they may be used *)
  Definition pole_free (fs : list (rfun * ivl R)) : Prop :=
    forall f i x, In (f, i) fs -> dlo <= x < dhi ->
      (lo i < x < hi i -> ~ has_pole f x) /\
      (track = false -> (lo i <= x < hi i -> ~ has_pole f x) /\ (has_pole f x -> reval (num f) x <> 0)).

  Definition source (fs : list (rfun * ivl R)) (f : rfun) (a b : R) (r : Z) : Prop :=
    (r = (-1)%Z /\ f = fdef) \/
    exists k i', r = Z.of_nat k /\ nth_error fs k = Some (f, i') /\
      (track = true -> lo i' <= a /\ b <= hi i').

  Definition good (fs : list (rfun * ivl R)) (f : rfun) (a b : R) (r : Z) : Prop :=
    dlo <= a /\ b <= dhi /\ source fs f a b r /\
    (track = false -> forall x, a <= x < b -> ~ has_pole f x) /\
    forall x, a <= x < b -> ~ is_endpoint fs x -> is_opt fs x (rfval f x).

  Fixpoint chain (l : list (piece R)) (a b : R) : Prop :=
    match l with
    | [] => a = b
    | (f, i, r) :: l' => lo i = a /\ lo i < hi i /\ chain l' (hi i) b
    end.
  Definition all_good (fs : list (rfun * ivl R)) (l : list (piece R)) : Prop :=
    Forall (fun p => let '(f, i, r) := p in good fs f (lo i) (hi i) r) l.
  Definition half_open (l : list (piece R)) : Prop :=
    Forall (fun p => let '(f, i, r) := p in ilo i = true /\ ihi i = false) l.

  Lemma fdef_val : forall x, rfval fdef x = d.
  Proof. intros x. unfold rfval, fdef, d, RationalFunction, expr_of_coeffs. cbn. rewrite Q2R_0, Q2R_1. field. Qed.
  Lemma fdef_pole : forall x, ~ has_pole fdef x.
  Proof. intros x. unfold has_pole, fdef, RationalFunction, expr_of_coeffs. cbn. rewrite Q2R_0, Q2R_1. lra. Qed.

  Lemma good_defined : forall fs f a b r x, pole_free fs -> good fs f a b r -> a <= x < b ->
    (a < x \/ ~ is_endpoint fs x) -> ~ has_pole f x.
  Proof.
    intros fs f a b r x PF [Ha [Hb [Src [Df _]]]] Hx Hor. destruct track eqn:T; [|now apply Df].
    destruct Src as [[_ ->]|[k [i' [_ [Hn Hi]]]]]; [apply fdef_pole|].
    apply nth_error_In in Hn. specialize (Hi T). destruct Hi as [H1 H2].
    destruct (PF f i' x Hn) as [K _]; [lra|]. apply K.
    destruct Hor as [L|NE]; [lra|].
    assert (x <> lo i') by (intro; apply NE; exists f, i'; auto). lra.
  Qed.

  Lemma mk_interval_ok : forall a b, a < b -> mk_interval R Rltb a b = Ret (mkV a b true false).
  Proof. intros a b H. unfold mk_interval. destruct (Rltb b a) eqn:E; auto. apply Rltb_true in E. lra. Qed.

  (** *** One cell *)
  Section Cell.
    Variable fs : list (rfun * ivl R).
    Variables (f1 : rfun) (in1 : ivl R).
    Variables (f2 : rfun) (in2 : ivl R) (r2 : Z).
    Let fs' := fs ++ [(f1, in1)].
    Hypothesis PF : pole_free fs'.
    Hypothesis G2 : good fs f2 (lo in2) (hi in2) r2.
    Variables u v : R.
    Hypothesis uv : u < v.
    Hypothesis in_u : lo in2 <= u.
    Hypothesis in_v : v <= hi in2.
    Hypothesis no_crit : forall c, In c (solve f1 f2 ++ [lo in1; hi in1]) -> ~ u < c < v.
    Let m := Rmid u v.

    Lemma m_in : u < m < v. Proof. unfold m, Rmid. lra. Qed.

    Lemma PF0 : pole_free fs.
    Proof. intros f i x H. apply (PF f i x). unfold fs'. apply in_or_app. now left. Qed.

    Lemma endpoint_app : forall x, ~ is_endpoint fs' x -> ~ is_endpoint fs x /\ x <> lo in1 /\ x <> hi in1.
    Proof.
      intros x H. split; [|split].
      - intros [f [i [Hin E]]]. apply H. exists f, i. split; auto. unfold fs'. apply in_or_app. now left.
      - intro E. apply H. exists f1, in1. split; auto. unfold fs'. apply in_or_app. right. now left.
      - intro E. apply H. exists f1, in1. split; auto. unfold fs'. apply in_or_app. right. now left.
    Qed.

    Lemma src2 : source fs' f2 u v r2.
    Proof.
      destruct G2 as [_ [_ [Src [_ _]]]]. destruct Src as [L|[k [i' [Hr [Hn Hi]]]]]; [now left|].
      right. exists k, i'. split; auto. split.
      - unfold fs'. rewrite nth_error_app1; auto. apply nth_error_Some. congruence.
      - intros T. specialize (Hi T). lra.
    Qed.
    Lemma src1 : lo in1 <= u -> v <= hi in1 -> source fs' f1 u v (Z.of_nat (length fs)).
    Proof.
      intros H1 H2. right. exists (length fs), in1. split; auto. split; auto.
      unfold fs'. rewrite nth_error_app2, Nat.sub_diag by lia. reflexivity.
    Qed.

    Lemma opt_from_2 : forall x, u <= x < v -> ~ is_endpoint fs' x -> is_opt fs x (rfval f2 x).
    Proof.
      intros x Hx NE. destruct G2 as [_ [_ [_ [_ O]]]]. apply O; [lra|]. now apply endpoint_app.
    Qed.

    Lemma defined_2 : forall x, u <= x < v -> (u < x \/ ~ is_endpoint fs' x) -> ~ has_pole f2 x.
    Proof.
      intros x Hx Hor. apply (good_defined fs f2 (lo in2) (hi in2) r2 x PF0 G2); [lra|].
      destruct Hor as [L|NE]; [left; lra|right; now apply endpoint_app].
    Qed.

    Lemma dom_bounds : dlo <= u /\ v <= dhi.
    Proof. destruct G2 as [Ha [Hb _]]. lra. Qed.

    Lemma def2 : track = false -> forall x, u <= x < v -> ~ has_pole f2 x.
    Proof. intros T x Hx. destruct G2 as [_ [_ [_ [Df _]]]]. apply Df; [exact T|lra]. Qed.

    (** in1 does not cover the cell *)
    Lemma keep_uncovered : containsR in1 m = false -> good fs' f2 u v r2.
    Proof.
      intros H. destruct dom_bounds as [B1 B2]. split; auto. split; auto. split; [apply src2|]. split; [exact def2|].
      intros x Hx NE. pose proof (opt_from_2 x Hx NE) as [O1 [O2 O3]].
      destruct (endpoint_app x NE) as [_ [N1 N2]]. pose proof m_in as M.
      assert (Out : ~ inside in1 x).
      { intros I. destruct I as [I1 I2].
        assert (A : lo in1 <= u).
        { destruct (Rle_or_lt (lo in1) u); auto. destruct (Rlt_or_le (lo in1) v) as [L|L].
          - exfalso. apply (no_crit (lo in1)); [apply in_or_app; right; now left|]. split; auto.
          - exfalso. destruct (ilo in1); lra. }
        assert (B : v <= hi in1).
        { destruct (Rle_or_lt v (hi in1)); auto. destruct (Rlt_or_le u (hi in1)) as [L|L].
          - exfalso. apply (no_crit (hi in1)); [apply in_or_app; right; right; now left|]. split; auto.
          - exfalso. destruct (ihi in1); lra. }
        assert (containsR in1 m = true); [|congruence].
        apply contains_inside. split; [destruct (ilo in1)|destruct (ihi in1)]; lra. }
      split; [|split; auto].
      - destruct O1 as [E|[f [i [Hin [I E]]]]]; [now left|]. right. exists f, i. split; auto.
        unfold fs'. apply in_or_app. now left.
      - intros f i Hin I. unfold fs' in Hin. apply in_app_or in Hin. destruct Hin as [Hin|[E|[]]]; [eauto|].
        inversion E; subst. contradiction.
    Qed.

    Section Covered.
      Hypothesis cov : containsR in1 m = true.
      Lemma cov_bounds : lo in1 <= u /\ v <= hi in1.
      Proof.
        apply contains_inside in cov. destruct cov as [I1 I2]. pose proof m_in as M. split.
        - destruct (Rle_or_lt (lo in1) u); auto. exfalso.
          assert (lo in1 < v) by (destruct (ilo in1); lra).
          apply (no_crit (lo in1)); [apply in_or_app; right; now left|]. split; auto.
        - destruct (Rle_or_lt v (hi in1)); auto. exfalso.
          assert (u < hi in1) by (destruct (ihi in1); lra).
          apply (no_crit (hi in1)); [apply in_or_app; right; right; now left|]. split; auto.
      Qed.
      Lemma defined_1 : forall x, u <= x < v -> (u < x \/ ~ is_endpoint fs' x) -> ~ has_pole f1 x.
      Proof.
        intros x Hx Hor. destruct cov_bounds as [C1 C2]. destruct dom_bounds as [B1 B2].
        destruct (PF f1 in1 x) as [K _]; [unfold fs'; apply in_or_app; right; now left|lra|]. apply K.
        destruct Hor as [L|NE]; [lra|]. destruct (endpoint_app x NE) as [_ [N1 N2]]. lra.
      Qed.
      Lemma inside1 : forall x, u <= x < v -> ~ is_endpoint fs' x -> inside in1 x.
      Proof.
        intros x Hx NE. destruct cov_bounds as [C1 C2]. destruct (endpoint_app x NE) as [_ [N1 N2]].
        split; [destruct (ilo in1)|destruct (ihi in1)]; lra.
      Qed.
      Lemma at1 : rf_atR f1 m = Ret (rfval f1 m).
      Proof.
        unfold rf_atR. destruct (Req_EM_T (reval (den f1) m) 0) as [E|E]; auto.
        exfalso. pose proof m_in. apply (defined_1 m); [lra|left; lra|exact E].
      Qed.
      Lemma at2 : rf_atR f2 m = Ret (rfval f2 m).
      Proof.
        unfold rf_atR. destruct (Req_EM_T (reval (den f2) m) 0) as [E|E]; auto.
        exfalso. pose proof m_in. apply (defined_2 m); [lra|left; lra|exact E].
      Qed.

      (** values of f1 and f2 compared on the cell *)
      Lemma no_cross : rf_eqb f1 f2 = false -> forall x, u < x < v -> rfval f1 x <> rfval f2 x.
      Proof.
        intros N x Hx E. apply (no_crit x); auto. apply in_or_app. left.
        apply solve_ok; auto.
        - apply defined_1; [lra|left; lra].
        - apply defined_2; [lra|left; lra].
      Qed.

      Lemma opt_2 : (forall x, u <= x < v -> ~ is_endpoint fs' x -> s * rfval f1 x <= s * rfval f2 x) ->
        good fs' f2 u v r2.
      Proof.
        intros D. destruct dom_bounds as [B1 B2]. split; auto. split; auto. split; [apply src2|]. split; [exact def2|].
        intros x Hx NE. pose proof (opt_from_2 x Hx NE) as [O1 [O2 O3]]. split; [|split; auto].
        - destruct O1 as [E|[f [i [Hin [I E]]]]]; [now left|]. right. exists f, i. split; auto.
          unfold fs'. apply in_or_app. now left.
        - intros f i Hin I. unfold fs' in Hin. apply in_app_or in Hin. destruct Hin as [Hin|[E|[]]]; [eauto|].
          inversion E; subst. auto.
      Qed.
      Lemma opt_1 : (forall x, u <= x < v -> ~ is_endpoint fs' x -> s * rfval f2 x <= s * rfval f1 x) ->
        good fs' f1 u v (Z.of_nat (length fs)).
      Proof.
        intros D. destruct dom_bounds as [B1 B2]. split; auto. split; auto.
        destruct cov_bounds as [C1 C2]. split; [now apply src1|].
        split; [intros T y Hy; destruct (PF f1 in1 y) as [_ K]; [unfold fs'; apply in_or_app; right; now left|lra|]; apply (proj1 (K T)); lra|].
        intros x Hx NE. pose proof (opt_from_2 x Hx NE) as [O1 [O2 O3]]. pose proof (D x Hx NE) as Dx.
        split; [|split].
        - right. exists f1, in1. split; [unfold fs'; apply in_or_app; right; now left|].
          split; auto. now apply inside1.
        - lra.
        - intros f i Hin I. unfold fs' in Hin. apply in_app_or in Hin. destruct Hin as [Hin|[E|[]]].
          + specialize (O3 f i Hin I). lra.
          + inversion E; subst. lra.
      Qed.

      Lemma keep_2 : cmp (rfval f2 m) (rfval f1 m) = true -> good fs' f2 u v r2.
      Proof.
        intros H. apply cmp_true in H. apply opt_2. intros x Hx NE.
        assert (Neq : rf_eqb f1 f2 = false).
        { destruct (rf_eqb f1 f2) eqn:E; auto. exfalso. pose proof m_in as M.
          rewrite (rf_eqb_R f1 f2 m E) in H; [lra| |].
          - apply defined_1; [lra|left; lra].
          - apply defined_2; [lra|left; lra]. }
        destruct (dominates s f2 f1 u v m s_sign) as [D1 D2]; auto using m_in.
        - intros y Hy. apply defined_2; [lra|left; lra].
        - intros y Hy. apply defined_1; [lra|left; lra].
        - intros y Hy E. apply (no_cross Neq y Hy). auto.
        - destruct (Rlt_or_le u x) as [L|L]; [apply Rlt_le, D1; lra|].
          assert (x = u) by lra. subst x. apply D2; [apply defined_2|apply defined_1]; auto.
      Qed.
      Lemma keep_1 : cmp (rfval f2 m) (rfval f1 m) = false -> good fs' f1 u v (Z.of_nat (length fs)).
      Proof.
        intros H. apply cmp_false in H. apply opt_1. intros x Hx NE. pose proof m_in as M.
        destruct (rf_eqb f1 f2) eqn:Neq.
        - rewrite (rf_eqb_R f1 f2 x Neq); [lra| |]; [apply defined_1|apply defined_2]; auto.
        - destruct (dominates s f1 f2 u v m s_sign) as [D1 D2]; auto.
          + intros y Hy. apply defined_1; [lra|left; lra].
          + intros y Hy. apply defined_2; [lra|left; lra].
          + apply (no_cross Neq).
          + pose proof (no_cross Neq m M). destruct s_sign as [Es|Es]; rewrite Es in H |- *; lra.
          + destruct (Rlt_or_le u x) as [L|L]; [apply Rlt_le, D1; lra|].
            assert (x = u) by lra. subst x. apply D2; [apply defined_1|apply defined_2]; auto.
      Qed.
    End Covered.

    Definition chosen : res bool :=
      if negb (containsR in1 m) then Ret true
      else let! v2 := rf_atR f2 m in let! v1 := rf_atR f1 m in Ret (cmp v2 v1).
    Lemma chosen_ok : exists k, chosen = Ret k /\
      good fs' (if k then f2 else f1) u v (if k then r2 else Z.of_nat (length fs)).
    Proof.
      unfold chosen. destruct (containsR in1 m) eqn:E; cbn [negb].
      - rewrite (at2), (at1 E). cbn [bind]. eexists. split; [reflexivity|].
        destruct (cmp (rfval f2 m) (rfval f1 m)) eqn:C; [now apply keep_2|now apply keep_1].
      - exists true. split; auto. now apply keep_uncovered.
    Qed.
  End Cell.

  (** *** One piece *)
  Lemma last_cons : forall (l : list R) x a, last (x :: l) a = last l x.
  Proof. induction l as [|y l IH]; intros x a; [reflexivity|]. change (last (y :: l) a = last (y :: l) x). now rewrite !IH. Qed.
  Notation cellsR := (cells R Rltb Rmid rf_atR).
  Notation splitR := (split_piece R Rltb Rmid rf_atR solve cmp).

  Lemma cells_ok : forall fs f1 in1 f2 in2 r2, pole_free (fs ++ [(f1, in1)]) ->
    good fs f2 (lo in2) (hi in2) r2 ->
    forall rest a C, ssorted (a :: rest) -> lo in2 <= a ->
      (forall c, In c (a :: rest) -> c <= hi in2) ->
      (forall c, In c C -> lo in2 < c < hi in2 -> c <= a \/ In c rest) ->
      C = solve f1 f2 ++ [lo in1; hi in1] ->
      exists l, cellsR cmp f1 in1 (Z.of_nat (length fs)) f2 r2 a rest = Ret l /\
        chain l a (last rest a) /\ all_good (fs ++ [(f1, in1)]) l /\ half_open l.
  Proof.
    intros fs f1 in1 f2 in2 r2 PF G. induction rest as [|b rest IH]; intros a C S La Hc Hcr EC.
    - exists []. cbn. repeat split; constructor.
    - cbn [cells].
      destruct S as [S1 S2]. assert (ab : a < b) by (inversion S1; auto).
      rewrite mk_interval_ok by auto. cbn [bind].
      assert (Lb : b <= hi in2) by (apply Hc; right; now left).
      destruct (chosen_ok fs f1 in1 f2 in2 r2 PF G a b ab La Lb) as [k [Ek Gk]].
      { intros c Hin Hb. rewrite <- EC in Hin.
        destruct (Hcr c Hin) as [L|[L|L]]; [lra|lra|lra|].
        destruct S2 as [S2 _]. rewrite Forall_forall in S2. specialize (S2 c L). lra. }
      unfold chosen in Ek. rewrite Ek. cbn [bind].
      destruct (IH b C) as [l [El [Ch [Al Ho]]]]; auto.
      + lra.
      + intros c Hin. apply Hc. now right.
      + intros c Hin Hb. destruct (Hcr c Hin Hb) as [L|[L|L]]; [left; lra|left; lra|now right].
      + rewrite El. cbn [bind]. eexists. split; [reflexivity|]. split; [|split].
        * rewrite last_cons. destruct k; cbn [chain lo hi]; auto.
        * constructor; auto. destruct k; cbn; exact Gk.
        * constructor; auto. destruct k; cbn; auto.
  Qed.

  Lemma ssorted_last : forall rest a b, ssorted (a :: rest) -> In b (a :: rest) ->
    (forall c, In c (a :: rest) -> c <= b) -> last rest a = b.
  Proof.
    induction rest as [|c rest IH]; intros a b S Hin Hmax.
    - cbn. destruct Hin as [|[]]; auto.
    - destruct S as [S1 S2]. destruct Hin as [->|Hin].
      + exfalso. inversion S1; subst. specialize (Hmax c). cbn in Hmax. pose proof (Hmax (or_intror (or_introl eq_refl))). lra.
      + rewrite <- (IH c b); auto.
        * apply last_cons.
        * intros e He. apply Hmax. now right.
  Qed.

  Lemma split_ok : forall fs f1 in1 f2 in2 r2, pole_free (fs ++ [(f1, in1)]) ->
    lo in2 < hi in2 -> good fs f2 (lo in2) (hi in2) r2 ->
    exists l, splitR f1 in1 (Z.of_nat (length fs)) (f2, in2, r2) = Ret l /\
      chain l (lo in2) (hi in2) /\ all_good (fs ++ [(f1, in1)]) l /\ half_open l.
  Proof.
    intros fs f1 in1 f2 in2 r2 PF L G. unfold split_piece, crits.
    set (C := solve f1 f2 ++ [lo in1; hi in1]).
    set (X := filter (containsR in2) C ++ [lo in2; hi in2]).
    assert (Bnd : forall c, In c (sorted_setR X) -> lo in2 <= c <= hi in2).
    { intros c Hin. rewrite (sorted_set_in X c) in Hin. unfold X in Hin. apply in_app_or in Hin.
      destruct Hin as [Hin|[<-|[<-|[]]]]; [|lra|lra].
      apply filter_In in Hin. destruct Hin as [_ Hc]. apply contains_inside in Hc.
      destruct Hc as [I1 I2]. destruct (ilo in2), (ihi in2); lra. }
    assert (Ilo : In (lo in2) (sorted_setR X)).
    { rewrite (sorted_set_in X). unfold X. apply in_or_app. right. now left. }
    assert (Ihi : In (hi in2) (sorted_setR X)).
    { rewrite (sorted_set_in X). unfold X. apply in_or_app. right. right. now left. }
    pose proof (sorted_set_sorted X) as S.
    assert (IC : forall c, In c C -> lo in2 < c < hi in2 -> In c (sorted_setR X)).
    { intros c Hin Hb. rewrite (sorted_set_in X). unfold X. apply in_or_app. left.
      apply filter_In. split; auto. apply contains_inside. split; [destruct (ilo in2)|destruct (ihi in2)]; lra. }
    destruct (sorted_setR X) as [|a rest] eqn:E; [destruct Ilo|].
    assert (Ea : a = lo in2).
    { destruct Ilo as [|Hin]; auto. destruct S as [S1 _]. rewrite Forall_forall in S1. specialize (S1 _ Hin).
      specialize (Bnd a (or_introl eq_refl)). lra. }
    destruct (cells_ok fs f1 in1 f2 in2 r2 PF G rest a C S) as [l [El [Ch [Al Ho]]]]; auto.
    - lra.
    - intros c Hin. apply Bnd in Hin. lra.
    - intros c Hin Hb. destruct (IC c Hin Hb) as [<-|]; [left; lra|now right].
    - exists l. split; [exact El|]. rewrite (ssorted_last rest a (hi in2)) in Ch; auto.
      + rewrite Ea in Ch. auto.
      + intros c Hin. apply Bnd in Hin. lra.
  Qed.

  Lemma chain_app : forall l1 l2 a b c, chain l1 a b -> chain l2 b c -> chain (l1 ++ l2) a c.
  Proof.
    induction l1 as [|[[f i] r] l1 IH]; intros l2 a b c H1 H2; cbn in *.
    - now subst.
    - destruct H1 as [E [L H1]]. split; auto. split; auto. eapply IH; eauto.
  Qed.

  Lemma split_all_ok : forall fs f1 in1 best a b, pole_free (fs ++ [(f1, in1)]) ->
    chain best a b -> all_good fs best ->
    exists new, mapM (splitR f1 in1 (Z.of_nat (length fs))) best = Ret new /\
      chain (concat new) a b /\ all_good (fs ++ [(f1, in1)]) (concat new) /\ half_open (concat new).
  Proof.
    intros fs f1 in1 best. induction best as [|[[f i] r] best IH]; intros a b PF Ch Al.
    - exists []. cbn in *. repeat split; auto; constructor.
    - destruct Ch as [E [L Ch]]. inversion Al as [|? ? G Al']; subst.
      destruct (split_ok fs f1 in1 f i r PF L G) as [l [El [C1 [A1 H1]]]].
      destruct (IH (hi i) b PF Ch Al') as [new [En [C2 [A2 H2]]]].
      cbn [mapM]. rewrite El. cbn [bind]. rewrite En. cbn [bind]. eexists. split; [reflexivity|].
      cbn [concat]. split; [eapply chain_app; eauto|]. split; apply Forall_app; auto.
  Qed.

  (** *** Merging *)
  Lemma good_merge : forall fs fi fj a b c ri rj, pole_free fs ->
    a < b -> b < c -> good fs fi a b ri -> good fs fj b c rj -> rf_eqb fi fj = true ->
    (track = true -> ri = rj) -> good fs fi a c ri.
  Proof.
    assert (TD : track = true \/ track = false) by (destruct track; auto). 
    intros fs fi fj a b c ri rj PF ab bc Gi Gj E T.
    assert (Src : source fs fi a c ri).
    { destruct Gi as [_ [_ [Si _]]]. destruct Gj as [_ [_ [Sj _]]].
      destruct Si as [L|[k [i' [Hr [Hn Hi]]]]]; [now left|]. right. exists k, i'. split; auto. split; auto.
      intros Tr. specialize (T Tr). subst rj. destruct Sj as [[Hm _]|[k' [j' [Hr' [Hn' Hj]]]]]; [lia|].
      assert (k' = k) by lia. subst k'. assert (j' = i') by congruence. subst j'.
      specialize (Hi Tr). specialize (Hj Tr). lra. }
    assert (Df : track = false -> forall x, a <= x < c -> ~ has_pole fi x).
    { intros Tf x Hx. destruct Gi as [A1 [_ [Si [Di _]]]]. destruct Gj as [_ [B2 [_ [Dj _]]]].
      destruct (Rlt_or_le x b) as [L|L]; [apply Di; auto; lra|]. intro P.
      assert (Nj : ~ has_pole fj x) by (apply Dj; auto; lra).
      destruct Si as [[_ ->]|[k [i' [_ [Hn _]]]]]; [exact (fdef_pole x P)|]. apply nth_error_In in Hn.
      destruct (PF fi i' x Hn) as [_ K]; [lra|]. destruct (K Tf) as [_ K2]. specialize (K2 P).
      pose proof (expr_zero_R _ x E) as Z. cbn in Z. unfold has_pole in *. rewrite P in Z.
      assert (Z' : reval (num fi) x * reval (den fj) x = 0) by lra. apply Rmult_integral in Z'. tauto. }
    destruct Gi as [A1 [A2 [Si [Di Oi]]]] eqn:EGi. destruct Gj as [B1 [B2 [Sj [Dj Oj]]]] eqn:EGj.
    split; auto. split; auto. split; auto. split; auto. intros x Hx NE.
    destruct (Rlt_or_le x b) as [L|L]; [apply Oi; auto; lra|].
    assert (Oj' : is_opt fs x (rfval fj x)) by (apply Oj; auto; lra).
    assert (Ni : ~ has_pole fi x).
    { destruct TD as [Tr|Tr]; [|apply Df; auto].
      destruct Src as [[_ ->]|[k [i' [_ [Hn Hi]]]]]; [apply fdef_pole|]. apply nth_error_In in Hn.
      specialize (Hi Tr). destruct (PF fi i' x Hn) as [K _]; [lra|]. apply K. lra. }
    assert (Nj : ~ has_pole fj x) by (apply (good_defined fs fj b c rj x PF Gj); auto; lra).
    now rewrite (rf_eqb_R fi fj x E Ni Nj).
  Qed.

  Lemma Reqb_true : forall x y, Reqb x y = true <-> x = y.
  Proof. intros. unfold Reqb. destruct (Req_EM_T x y); intuition congruence. Qed.

  Notation growR := (grow R Rltb Reqb track).
  Lemma grow_ok : forall fs l fi a b ri e, pole_free fs ->
    a < b -> good fs fi a b ri -> chain l b e -> all_good fs l ->
    exists l', growR fi a b ri l = Ret l' /\ chain l' a e /\ all_good fs l' /\ half_open l' /\ l' <> [].
  Proof.
    intros fs l. induction l as [|[[fj ij] rj] l IH]; intros fi a b ri e PF ab G Ch Al; cbn [grow].
    - rewrite mk_interval_ok by auto. cbn [bind]. eexists. split; [reflexivity|]. cbn in Ch. subst e.
      cbn. repeat split; auto; try (constructor; [|constructor]; auto). discriminate.
    - destruct Ch as [E [L Ch]]. inversion Al as [|? ? Gj Al']; subst.
      destruct (rf_eqb fi fj && Reqb (lo ij) (lo ij) && (negb track || Z.eqb ri rj)) eqn:Cnd.
      + apply andb_true_iff in Cnd. destruct Cnd as [Cnd C3]. apply andb_true_iff in Cnd. destruct Cnd as [C1 C2].
        apply IH; auto; [lra|].
        apply (good_merge fs fi fj a (lo ij) (hi ij) ri rj); auto.
        intros Tr. rewrite Tr in C3. cbn in C3. now apply Z.eqb_eq.
      + rewrite mk_interval_ok by auto. cbn [bind].
        destruct (IH fj (lo ij) (hi ij) rj e PF L Gj Ch Al') as [l' [El [C' [A' [H' _]]]]].
        rewrite El. cbn [bind]. eexists. split; [reflexivity|].
        split; [cbn; auto|]. split; [constructor; auto|]. split; [constructor; auto|discriminate].
  Qed.

  Lemma merge_ok : forall fs l a e, pole_free fs -> a < e -> chain l a e -> all_good fs l ->
    exists l', merge_pieces R Rltb Reqb track l = Ret l' /\ chain l' a e /\ all_good fs l' /\ half_open l'.
  Proof.
    intros fs [|[[f i] r] l] a e PF ae Ch Al; cbn [merge_pieces].
    - cbn in Ch. lra.
    - destruct Ch as [E [L Ch]]. inversion Al as [|? ? G Al']; subst.
      destruct (grow_ok fs l f (lo i) (hi i) r e PF L G Ch Al') as [l' [El [C' [A' [H' _]]]]]. eauto.
  Qed.

  Notation optimalR := (optimal_from R Rltb Reqb Rmid rf_atR solve cmp track).
  Lemma optimal_ok : forall fs done best, dlo < dhi -> pole_free (done ++ fs) ->
    chain best dlo dhi -> all_good done best ->
    exists l, optimalR (length done) fs best = Ret l /\ chain l dlo dhi /\ all_good (done ++ fs) l /\
      (fs <> [] -> half_open l).
  Proof.
    induction fs as [|[f1 in1] fs IH]; intros done best D PF Ch Al; cbn [optimal_from].
    - exists best. rewrite app_nil_r. split; auto. split; auto. split; auto. congruence.
    - assert (PF1 : pole_free (done ++ [(f1, in1)])).
      { intros f i x Hin. apply (PF f i x). apply in_app_or in Hin. apply in_or_app.
        destruct Hin as [|[<-|[]]]; [now left|right; now left]. }
      destruct (split_all_ok done f1 in1 best dlo dhi PF1 Ch Al) as [new [En [C1 [A1 H1]]]].
      rewrite En. cbn [bind].
      destruct (merge_ok (done ++ [(f1, in1)]) (concat new) dlo dhi PF1 D C1 A1) as [b' [Eb [C2 [A2 H2]]]].
      rewrite Eb. cbn [bind].
      replace (S (length done)) with (length (done ++ [(f1, in1)])) by (rewrite app_length; cbn; lia).
      destruct (IH (done ++ [(f1, in1)]) b' D) as [l [El [C3 [A3 H3]]]]; auto.
      + now rewrite <- app_assoc.
      + exists l. rewrite <- app_assoc in A3. split; auto. split; auto. split; auto. intros _.
        destruct fs as [|g fs]; [|apply H3; discriminate]. cbn in El. inversion El; subst. auto.
  Qed.

  Lemma compute_ok : forall fs domain, lo domain = dlo -> hi domain = dhi -> dlo < dhi -> pole_free fs ->
    exists l, compute_optimal R Rltb Reqb Rmid rf_atR solve fs domain cmp default track = Ret l /\
      chain l dlo dhi /\ all_good fs l /\ (fs <> [] -> half_open l).
  Proof.
    intros fs domain E1 E2 D PF. unfold compute_optimal.
    destruct (optimal_ok fs [] [(fdef, domain, (-1)%Z)] D PF) as [l H].
    - cbn. rewrite E1, E2. auto.
    - constructor; [|constructor]. rewrite E1, E2. split; [lra|]. split; [lra|]. split; [now left|]. split; [intros; apply fdef_pole|].
      intros x Hx NE. rewrite fdef_val. split; [now left|]. split; [lra|]. intros f i [].
    - exists l. exact H.
  Qed.

  (** pieces and points *)
  Lemma chain_cover : forall l a b x, chain l a b -> half_open l -> a <= x < b ->
    exists f i r, In (f, i, r) l /\ inside i x.
  Proof.
    induction l as [|[[f i] r] l IH]; intros a b x Ch Ho Hx; cbn in Ch; [lra|].
    destruct Ch as [E [L Ch]]. inversion Ho as [|? ? F Ho']; subst. destruct F as [F1 F2].
    destruct (Rlt_or_le x (hi i)) as [Lx|Lx].
    - exists f, i, r. split; [now left|]. unfold inside. rewrite F1, F2. lra.
    - destruct (IH (hi i) b x Ch Ho') as [f' [i' [r' [Hin I]]]]; [lra|].
      exists f', i', r'. split; auto. now right.
  Qed.
  Lemma chain_le : forall l a b, chain l a b -> a <= b.
  Proof.
    induction l as [|[[f i] r] l IH]; intros a b Ch; cbn in Ch; [lra|].
    destruct Ch as [E [L Ch]]. apply IH in Ch. lra.
  Qed.
  Lemma chain_after : forall l a b f i r, chain l a b -> In (f, i, r) l -> a <= lo i /\ lo i < hi i /\ hi i <= b.
  Proof.
    induction l as [|[[f' i'] r'] l IH]; intros a b f i r Ch Hin; [destruct Hin|].
    cbn in Ch. destruct Ch as [E [L Ch]]. pose proof (chain_le _ _ _ Ch). destruct Hin as [Eq|Hin].
    - inversion Eq; subst. lra.
    - destruct (IH _ _ _ _ _ Ch Hin). lra.
  Qed.
End Invariant.

(** ** The lower ends of half-open inputs *)
Lemma right_of_zero : forall h x, continuity_pt h x -> 0 < h x -> exists e, 0 < e /\ forall y, x <= y < x + e -> 0 < h y.
Proof.
  intros h x C P. destruct (C (h x) P) as [e [He H]]. exists e. split; [exact He|]. intros y Hy.
  destruct (Req_dec y x) as [->|N]; [exact P|].
  assert (K : Rabs (h y - h x) < h x).
  { apply H. split; [split; [exact I|]; intro; apply N; auto|]. cbn. unfold R_dist. rewrite Rabs_right; lra. }
  apply Rabs_def2 in K. lra.
Qed.
Lemma no_endpoint_right : forall fs x, exists e, 0 < e /\ forall y, x < y < x + e -> ~ is_endpoint fs y.
Proof.
  induction fs as [|[f i] fs IHfs]; intros x.
  - exists 1. split; [lra|]. intros y _ [f [i [[] _]]].
  - assert (G : forall c, exists e, 0 < e /\ forall y, x < y < x + e -> y <> c).
    { intros c. destruct (Rlt_or_le x c) as [L|L].
      - exists (c - x). split; [lra|]. intros y Hy E. lra.
      - exists 1. split; [lra|]. intros y Hy E. lra. }
    destruct (IHfs x) as [e0 [H0 K0]].
    destruct (G (lo i)) as [e1 [H1 K1]], (G (hi i)) as [e2 [H2 K2]].
    exists (Rmin e0 (Rmin e1 e2)).
    pose proof (Rmin_l e0 (Rmin e1 e2)). pose proof (Rmin_r e0 (Rmin e1 e2)). pose proof (Rmin_l e1 e2). pose proof (Rmin_r e1 e2).
    split; [repeat apply Rmin_glb_lt; auto|]. intros y Hy [f' [i' [[E|Hin] D]]].
    + inversion E; subst. destruct D as [D|D]; [apply (K1 y)|apply (K2 y)]; auto; lra.
    + apply (K0 y); [lra|]. exists f', i'. auto.
Qed.

Lemma classic_inside : forall i x, inside i x \/ ~ inside i x.
Proof.
  intros [a b [] []] x; unfold inside; cbn; destruct (Rle_or_lt a x), (Rle_or_lt x b), (Rlt_or_le a x), (Rlt_or_le x b); try (left; lra); right; lra.
Qed.
Section RightLimit.
  Variable s : R.
  Hypothesis s_sign : s = 1 \/ s = -1.
  Variable default : Q.
  Variable fs : list (rfun * ivl R).
  Hypothesis HO : half_open_inputs fs.
  Notation opt := (is_opt s default fs).

  Lemma inside_right : forall f i x y e, In (f, i) fs -> x < y < x + e -> (forall z, x < z < x + e -> ~ is_endpoint fs z) -> (inside i x <-> inside i y).
  Proof.
    intros f i x y e Hin Hy NE. destruct (HO f i Hin) as [F1 F2]. unfold inside. rewrite F1, F2.
    assert (A : forall c, c = lo i \/ c = hi i -> ~ x < c < x + e) by (intros c Hc Hb; apply (NE c Hb); exists f, i; auto).
    pose proof (A (lo i) (or_introl eq_refl)). pose proof (A (hi i) (or_intror eq_refl)). split; intros [I1 I2]; split; lra.
  Qed.

  Lemma right_limit : forall f x e, 0 < e -> ~ has_pole f x ->
    (forall g j, In (g, j) fs -> inside j x -> ~ has_pole g x) ->
    (forall y, x < y < x + e -> ~ is_endpoint fs y -> opt y (rfval f y)) -> opt x (rfval f x).
  Proof.
    intros f x e He Pf Pg O. destruct (no_endpoint_right fs x) as [e' [He' NE']].
    set (e0 := Rmin e e'). assert (H0 : 0 < e0) by (apply Rmin_glb_lt; auto).
    pose proof (Rmin_l e e') as M1. pose proof (Rmin_r e e') as M2. fold e0 in M1, M2.
    assert (NE : forall y, x < y < x + e0 -> ~ is_endpoint fs y) by (intros; apply NE'; lra).
    assert (O0 : forall y, x < y < x + e0 -> opt y (rfval f y)) by (intros y Hy; apply O; [lra|now apply NE]).
    assert (Cf : continuity_pt (rfval f) x) by now apply rfval_continuous.
    assert (LIM : forall h, continuity_pt h x -> (forall y, x < y < x + e0 -> h y <= s * rfval f y) -> h x <= s * rfval f x).
    { intros h Ch Hh. destruct (Rle_or_lt (h x) (s * rfval f x)) as [L|L]; [exact L|]. exfalso.
      destruct (right_of_zero (fun y => h y - s * rfval f y) x) as [e1 [H1 K1]]; [|lra|].
      - apply continuity_pt_minus; [exact Ch|]. apply (continuity_pt_mult (fun _ => s)); [apply continuity_pt_const; intros a b; reflexivity|exact Cf].
      - set (y := x + Rmin e0 e1 / 2). assert (0 < Rmin e0 e1) by (apply Rmin_glb_lt; auto). pose proof (Rmin_l e0 e1). pose proof (Rmin_r e0 e1).
        specialize (K1 y ltac:(unfold y; lra)). specialize (Hh y ltac:(unfold y; lra)). lra. }
    assert (Cs : forall g, ~ has_pole g x -> continuity_pt (fun y => s * rfval g y) x).
    { intros g Ng. apply (continuity_pt_mult (fun _ => s)); [apply continuity_pt_const; intros a b; reflexivity|now apply rfval_continuous]. }
    assert (D : s * Q2R default <= s * rfval f x).
    { apply (LIM (fun _ => s * Q2R default)); [apply continuity_pt_const; intros a b; reflexivity|]. intros y Hy. apply (O0 y Hy). }
    assert (B : forall g j, In (g, j) fs -> inside j x -> s * rfval g x <= s * rfval f x).
    { intros g j Hin I. apply (LIM (fun y => s * rfval g y)); [apply Cs; eauto|]. intros y Hy. destruct (O0 y Hy) as [_ [_ O3]].
      apply (O3 g j Hin). apply (inside_right g j x y e0 Hin Hy NE). exact I. }
    split; [|split; [exact D|exact B]].
    destruct (Req_dec (rfval f x) (Q2R default)) as [E|E]; [now left|]. right.
    (* otherwise some active input has the value *)
    assert (ST : forall l, (forall g j, In (g, j) l -> In (g, j) fs) ->
      (exists g j, In (g, j) l /\ inside j x /\ rfval f x = rfval g x) \/
      exists e1, 0 < e1 /\ forall y, x < y < x + e1 -> y < x + e0 -> forall g j, In (g, j) l -> inside j y -> rfval f y <> rfval g y).
    { induction l as [|[g j] l IH]; intros Hl.
      - right. exists 1. split; [lra|]. intros y _ _ g j [].
      - destruct IH as [[g' [j' [Hin X]]]|[e1 [H1 K1]]]; [intros; apply Hl; now right|left; exists g', j'; split; [now right|exact X]|].
        destruct (classic_inside j x) as [I|I].
        + destruct (Req_dec (rfval f x) (rfval g x)) as [Eq|Nq]; [left; exists g, j; split; [now left|auto]|]. right.
          pose proof (B g j (Hl g j (or_introl eq_refl)) I) as Bg. assert (Ng : ~ has_pole g x) by (apply (Pg g j); auto; apply Hl; now left).
          destruct (right_of_zero (fun y => s * rfval f y - s * rfval g y) x) as [e2 [H2 K2]].
          * apply continuity_pt_minus; now apply Cs.
          * destruct s_sign as [Es|Es]; rewrite Es in *; lra.
          * exists (Rmin e1 e2). pose proof (Rmin_l e1 e2). pose proof (Rmin_r e1 e2). split; [apply Rmin_glb_lt; auto|].
            intros y Hy Hy0 g' j' [Eq|Hin] I'; [inversion Eq; subst g' j'|apply (K1 y) with j'; auto; lra].
            specialize (K2 y ltac:(lra)). destruct s_sign as [Es|Es]; rewrite Es in *; lra.
        + right. exists e1. split; [exact H1|]. intros y Hy Hy0 g' j' [Eq|Hin] I'; [|apply (K1 y Hy Hy0 g' j'); auto]. inversion Eq; subst g' j'.
          exfalso. apply I. apply (inside_right g j x y e0); auto; [apply Hl; now left|lra]. }
    destruct (ST fs (fun g j H => H)) as [X|[e1 [H1 K1]]]; [exact X|]. exfalso.
    destruct (right_of_zero (fun y => s * rfval f y - s * Q2R default) x) as [e2 [H2 K2]].
    - apply continuity_pt_minus; [now apply Cs|]. apply continuity_pt_const. intros a b. reflexivity.
    - destruct s_sign as [Es|Es]; rewrite Es in *; lra.
    - set (w := Rmin e0 (Rmin e1 e2)). assert (0 < w) by (repeat apply Rmin_glb_lt; auto).
      assert (w <= e0 /\ w <= e1 /\ w <= e2) as [W0 [W1 W2]].
      { unfold w. pose proof (Rmin_l e0 (Rmin e1 e2)). pose proof (Rmin_r e0 (Rmin e1 e2)). pose proof (Rmin_l e1 e2). pose proof (Rmin_r e1 e2). lra. }
      set (y := x + w / 2). specialize (K2 y ltac:(unfold y; lra)).
      destruct (O0 y ltac:(unfold y; lra)) as [[O1|[g [j [Hin [I Eq]]]]] _].
      + rewrite O1 in K2. lra.
      + apply (K1 y ltac:(unfold y; lra) ltac:(unfold y; lra) g j Hin I Eq).
  Qed.
End RightLimit.
