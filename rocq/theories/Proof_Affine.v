From Verif Require Import Base Model_Interval Proof_Interval Model_Affine.
From Verif Require Export Spec_Affine.


Lemma in_domain_intro : forall o e, (forall d, o = Some d -> in_set d e) -> in_domain o e.
Proof. intros [d|] e H; cbn; auto. Qed.

Lemma at_covers : forall f x, covers f x -> at_ f x = Some (value f x).
Proof. intros f x H. unfold at_. apply contains_iff in H. now rewrite H. Qed.
Lemma at_none : forall f x, ~ covers f x -> at_ f x = None.
Proof. intros f x H. unfold at_. apply contains_false in H. now rewrite H. Qed.
Lemma at_some : forall f x v, at_ f x = Some v -> covers f x /\ v = value f x.
Proof.
  intros f x v H. unfold at_ in H. destruct (contains (dom f) x) eqn:E; [|discriminate].
  inversion H. split; auto. now apply contains_iff.
Qed.

Lemma covers_comp : forall f x y, x == y -> covers f x -> covers f y.
Proof.
  intros f x y E H. unfold covers in *. apply contains_iff. apply contains_iff in H.
  now rewrite <- (contains_comp _ x y E).
Qed.

Lemma value_comp : forall f x y, x == y -> value f x == value f y.
Proof. intros f x y E. unfold value. rewrite E. reflexivity. Qed.

Lemma J_in : forall a b x, in_set (mkI a b false false) x <-> a < x /\ x < b.
Proof. intros. unfold in_set; cbn. reflexivity. Qed.

Lemma sgn_pos_le : forall k t, 0 < k -> k * t <= 0 -> t <= 0.
Proof. intros k t K H. apply Qnot_lt_le. intro N. pose proof (Qmult_lt_0_compat k t K N). lra. Qed.
Lemma sgn_pos_lt : forall k t, 0 < k -> 0 < k * t -> 0 < t.
Proof.
  intros k t K H. apply Qnot_le_lt. intro N.
  assert (0 <= k * (- t)) by (apply Qmult_le_0_compat; lra). lra.
Qed.
Lemma sgn_neg_le : forall k t, k <= 0 -> 0 < k * t -> t < 0.
Proof.
  intros k t K H. apply Qnot_le_lt. intro N.
  assert (0 <= (- k) * t) by (apply Qmult_le_0_compat; lra). lra.
Qed.
Lemma sgn_neg_ge : forall k t, k < 0 -> k * t <= 0 -> 0 <= t.
Proof.
  intros k t K H. apply Qnot_lt_le. intro N.
  assert (0 < (- k) * (- t)) by (apply Qmult_lt_0_compat; lra). lra.
Qed.

(** ** One cell *)
Section Cell.
  Variable cmp : Q -> Q -> bool.
  Variable s : Q.
  Hypothesis cmp_spec : forall x y, cmp x y = Qltb (s * x) (s * y).
  Variable self : affine.
  Variable J : interval.
  Hypothesis J_wf : wf J.
  Hypothesis J_ne : is_empty J = false.

  (** [p] is a fresh piece on the cell carrying the function of [g]. *)
  Definition dom_is (i : interval) : Prop :=
    x0 i == x0 J /\ x1 i == x1 J /\ incl_lo i = incl_lo J /\ incl_hi i = incl_hi J.

  Lemma dom_is_in : forall i, dom_is i -> forall x, in_set i x <-> in_set J x.
  Proof.
    intros [a b il iu] [H1 [H2 [H3 H4]]] x. destruct J as [c d jl ju]. unfold in_set; cbn in *. subst.
    destruct jl, ju; cbn; intuition lra.
  Qed.

  Lemma intersect_sub : forall i k, (forall x, in_set J x -> in_set i x) -> wf i ->
    intersect i J = Ret k -> dom_is k.
  Proof.
    intros i k Hsub Wi H.
    destruct (subset_bounds J i J_wf J_ne Hsub) as [B1 B2].
    pose proof (midpoint_in J J_wf J_ne) as M.
    unfold intersect in H.
    pose proof (qmax_spec (x0 i) (x0 J)) as [Mx1 [Mx2 Mx3]].
    pose proof (qmin_spec (x1 i) (x1 J)) as [Mn1 [Mn2 Mn3]].
    set (lo := qmax (x0 i) (x0 J)) in *. set (hi := qmin (x1 i) (x1 J)) in *.
    assert (Hlo : lo == x0 J) by (destruct Mx3 as [->| ->]; [apply Qle_antisym; lra|reflexivity]).
    assert (Hhi : hi == x1 J) by (destruct Mn3 as [->| ->]; [apply Qle_antisym; lra|reflexivity]).
    clearbody lo hi. clear Mx3 Mn3. unfold wf in *.
    destruct (Qltb_spec hi lo) as [L|L]; [exfalso; lra|].
    apply Interval_ok in H. destruct H as [_ ->]. unfold dom_is; cbn.
    repeat split; auto.
    - destruct (Qltb_spec (x0 J) (x0 i)); [exfalso; lra|].
      destruct (Qltb_spec (x0 i) (x0 J)); auto.
      destruct (incl_lo J) eqn:EJ; [|apply andb_false_r].
      rewrite andb_true_r. destruct (incl_lo i) eqn:Ei; auto. exfalso.
      assert (HH : in_set J (x0 J)).
      { unfold in_set. rewrite EJ. cbn. split; [lra|].
        destruct (incl_hi J) eqn:EJ2; cbn; [lra|].
        unfold in_set in M. rewrite EJ, EJ2 in M. cbn in M.
        lra. }
      apply Hsub in HH. destruct HH as [HH _]. rewrite Ei in HH. cbn in HH. lra.
    - destruct (Qltb_spec (x1 i) (x1 J)); [exfalso; lra|].
      destruct (Qltb_spec (x1 J) (x1 i)); auto.
      destruct (incl_hi J) eqn:EJ; [|apply andb_false_r].
      rewrite andb_true_r. destruct (incl_hi i) eqn:Ei; auto. exfalso.
      assert (HH : in_set J (x1 J)).
      { unfold in_set. rewrite EJ. cbn. split; [|lra].
        destruct (incl_lo J) eqn:EJ2; cbn; [lra|].
        unfold in_set in M. rewrite EJ, EJ2 in M. cbn in M.
        lra. }
      apply Hsub in HH. destruct HH as [_ HH]. rewrite Ei in HH. cbn in HH. lra.
  Qed.

  Variable inputs : list affine.  (* self :: f2 *)
  Hypothesis in_wf : Forall (fun g => wf (dom g)) inputs.
  Hypothesis self_in : In self inputs.
  (** a function covering one point of the cell covers the cell *)
  Hypothesis all_or_none : forall g x y, In g inputs -> in_set J x -> in_set J y -> covers g x -> covers g y.
  (** no two functions cross strictly inside the cell *)
  Hypothesis no_cross : forall g h x y, In g inputs -> In h inputs -> in_set J x -> in_set J y ->
    covers g x -> covers h x ->
    s * value g x <= s * value h x -> s * value g y <= s * value h y.

  Definition own_ok (pre : list affine) (p : affine) : Prop :=
    dom_is (dom p) /\
    (exists g, In g (self :: pre) /\ In g inputs /\ label p = label g /\ slope p = slope g /\ icpt p = icpt g /\
       forall x, in_set J x -> covers g x) /\
    (forall g x, In g (self :: pre) -> in_set J x -> covers g x -> s * value p x <= s * value g x).

  Definition acc_ok (pre : list affine) (o : option pref) : Prop :=
    match o with
    | None => forall g x, In g (self :: pre) -> in_set J x -> ~ covers g x
    | Some RSelf => (forall x, in_set J x -> covers self x) /\
                    (forall g x, In g pre -> in_set J x -> ~ covers g x)
    | Some (ROwn p) => own_ok pre p
    end.

  Lemma compare_f_ok : forall pre o q, incl pre inputs -> In q inputs ->
    (forall x, in_set J x -> covers q x) -> acc_ok pre o ->
    exists p, compare_f cmp self o q J = Ret (Some (ROwn p)) /\ own_ok (pre ++ [q]) p.
  Proof.
    intros pre o q Hpre Hq Hcov Hacc.
    assert (Mid : in_set J (midpoint J)) by (apply midpoint_in; auto).
    assert (Key : forall f, In f inputs -> (forall x, in_set J x -> covers f x) ->
      (forall g x, In g (self :: pre ++ [q]) -> in_set J x -> covers g x -> s * value f x <= s * value g x) ->
      In f (self :: pre ++ [q]) ->
      exists p, (let! dd := intersect (dom f) J in
                 Ret (Some (ROwn (mkA (slope f) (icpt f) dd (label f))))) = Ret (Some (ROwn p))
                /\ own_ok (pre ++ [q]) p).
    { intros f Hf Hfc Hbest Hin.
      destruct (intersect_total (dom f) J) as [k [Hk Wk]]. rewrite Hk. cbn.
      eexists. split; [reflexivity|]. unfold own_ok; cbn.
      split; [|split].
      - apply (intersect_sub (dom f) k Hfc); auto. rewrite Forall_forall in in_wf. exact (in_wf f Hf).
      - exists f. split; [exact Hin|]. split; [auto|]. do 3 (split; [reflexivity|]). exact Hfc.
      - intros g x Hg Hx Hgx. exact (Hbest g x Hg Hx Hgx). }
    assert (Hins : forall g, In g (self :: pre ++ [q]) <-> In g (self :: pre) \/ g = q).
    { intros g. cbn. rewrite in_app_iff. cbn. intuition congruence. }
    unfold compare_f. destruct o as [[|p]|]; cbn [acc_ok] in Hacc.
    - destruct Hacc as [Hs Hn]. cbn [deref]. cbn [bind].
      rewrite (at_covers self) by auto. rewrite (at_covers q) by auto. cbn [bind].
      rewrite cmp_spec. destruct (Qltb_spec (s * value self (midpoint J)) (s * value q (midpoint J))) as [L|L].
      + apply Key; auto.
        * intros g x Hg Hx Hgx. apply Hins in Hg. destruct Hg as [[<-|Hg]| ->].
          -- lra.
          -- exfalso. apply (Hn g x); auto.
          -- apply (no_cross self q (midpoint J) x); auto. lra.
        * now left.
      + apply Key; auto.
        * intros g x Hg Hx Hgx. apply Hins in Hg. destruct Hg as [[<-|Hg]| ->].
          -- apply (no_cross q self (midpoint J) x); auto.
          -- exfalso. apply (Hn g x); auto.
          -- lra.
        * apply Hins. now right.
    - destruct Hacc as [Hd [[g0 [Hg0 [Hg0i [Hl [Hs [Hc Hg0c]]]]]] Hbest]]. cbn [deref].
      rewrite (at_covers p) by (apply dom_is_in; auto). rewrite (at_covers q) by auto. cbn [bind].
      rewrite cmp_spec.
      assert (Vp : forall x, value p x = value g0 x) by (intros x; unfold value; now rewrite Hs, Hc).
      destruct (Qltb_spec (s * value p (midpoint J)) (s * value q (midpoint J))) as [L|L].
      + assert (Hbest' : forall g x, In g (self :: pre ++ [q]) -> in_set J x -> covers g x ->
                 s * value p x <= s * value g x).
        { intros g x Hg Hx Hgx. apply Hins in Hg. destruct Hg as [Hg| ->].
          - apply Hbest; auto.
          - rewrite Vp in *. apply (no_cross g0 q (midpoint J) x); auto. lra. }
        destruct (intersect_total (dom p) J) as [k [Hk Wk]].
        rewrite Hk. cbn. eexists. split; [reflexivity|]. unfold own_ok; cbn.
        split; [|split].
        * apply (intersect_sub (dom p) k); auto; [intros x Hx; apply dom_is_in; auto|].
          destruct Hd as [D1 [D2 _]]. unfold wf in *. lra.
        * exists g0. split; [apply Hins; now left|]. split; [auto|]. do 3 (split; [auto|]). exact Hg0c.
        * intros g x Hg Hx Hgx. exact (Hbest' g x Hg Hx Hgx).
      + apply Key; auto.
        * intros g x Hg Hx Hgx. apply Hins in Hg. destruct Hg as [Hg| ->]; [|lra].
          apply Qle_trans with (s * value p x); [|apply Hbest; auto].
          rewrite Vp in *. apply (no_cross q g0 (midpoint J) x); auto.
        * apply Hins. now right.
    - cbn [bind]. apply Key; auto.
      + intros g x Hg Hx Hgx. apply Hins in Hg. destruct Hg as [Hg| ->]; [|lra].
        exfalso. apply (Hacc g x); auto.
      + apply Hins. now right.
  Qed.

  Lemma best_on_ok : forall f2 tx, incl f2 inputs -> in_set J tx ->
    exists o, best_on cmp self f2 J tx = Ret o /\ acc_ok f2 o.
  Proof.
    intros f2 tx Hin Htx. unfold best_on.
    assert (G : forall rest pre o, incl pre inputs -> incl rest inputs -> acc_ok pre o ->
      exists o', fold_left (fun acc f => let! p := acc in
                  if contains (dom f) tx then compare_f cmp self p f J else Ret p) rest (Ret o) = Ret o'
        /\ acc_ok (pre ++ rest) o').
    { induction rest as [|q rest IH]; intros pre o Hp Hr Ho; cbn.
      - exists o. rewrite app_nil_r. auto.
      - assert (Hq : In q inputs) by (apply Hr; now left).
        assert (Hr' : incl rest inputs) by (intros z Hz; apply Hr; now right).
        assert (Hpq : incl (pre ++ [q]) inputs).
        { intros z Hz. apply in_app_or in Hz. destruct Hz as [Hz|[<-|[]]]; auto. }
        replace (pre ++ q :: rest) with ((pre ++ [q]) ++ rest) by (rewrite <- app_assoc; reflexivity).
        destruct (contains (dom q) tx) eqn:E.
        + apply contains_iff in E.
          destruct (compare_f_ok pre o q Hp Hq) as [p [Hp1 Hp2]]; auto.
          { intros x Hx. apply (all_or_none q tx x); auto. }
          rewrite Hp1. apply IH; auto.
        + apply contains_false in E.
          assert (Nq : forall x, in_set J x -> ~ covers q x).
          { intros x Hx Hc. apply E. apply (all_or_none q x tx); auto. }
          apply IH; auto.
          assert (Hins : forall g, In g (pre ++ [q]) -> In g pre \/ g = q).
          { intros g Hg. apply in_app_or in Hg. destruct Hg as [Hg|[<-|[]]]; auto. }
          destruct o as [[|p]|]; cbn [acc_ok] in *.
          * destruct Ho as [Ho1 Ho2]. split; auto. intros g x Hg Hx.
            destruct (Hins g Hg) as [Hg'| ->]; auto.
          * destruct Ho as [D [[g0 [Hg0 R]] B]]. split; auto. split.
            -- exists g0. split; auto. cbn in *. rewrite in_app_iff. tauto.
            -- intros g x Hg Hx Hgx. cbn in Hg. destruct Hg as [Hg|Hg]; [apply B; cbn; auto|].
               destruct (Hins g Hg) as [Hg'| ->]; [apply B; cbn; auto|].
               exfalso. apply (Nq x); auto.
          * intros g x Hg Hx. cbn in Hg. destruct Hg as [Hg|Hg]; [apply Ho; cbn; auto|].
            destruct (Hins g Hg) as [Hg'| ->]; [apply Ho; cbn; auto|]. auto. }
    destruct (contains (dom self) tx) eqn:E.
    - apply contains_iff in E. apply (G f2 [] (Some RSelf)); auto; [intros z []|].
      cbn. split; [|intros g x []]. intros x Hx. apply (all_or_none self tx x); auto.
    - apply contains_false in E. apply (G f2 [] None); auto; [intros z []|].
      cbn. intros g x [<-|[]] Hx Hc. apply E. apply (all_or_none self x tx); auto.
  Qed.
End Cell.

(** ** Critical points *)
Lemma sort_uniq_InQ : forall x l, In x l -> InQ x (sort_uniq l).
Proof. intros. apply InQ_sort_uniq. now apply InQ_In. Qed.

Lemma filter_InQ : forall d e l, InQ e l -> in_set d e -> InQ e (filter (contains d) l).
Proof.
  intros d e l H Hd. apply Exists_exists in H. destruct H as [y [Hy E]].
  apply Exists_exists. exists y. split; auto. apply filter_In. split; auto.
  rewrite <- (contains_comp _ e y E). now apply contains_iff.
Qed.

Definition crosses_at (g h : affine) (z : Q) : Prop :=
  ~ slope g == slope h /\ covers g z /\ covers h z /\ value g z == value h z.

Lemma crossing_unique : forall g h z, ~ slope g == slope h -> value g z == value h z ->
  z == (icpt h - icpt g) / (slope g - slope h).
Proof.
  intros g h z Hs Hv. unfold value in Hv.
  assert (D : ~ slope g - slope h == 0) by lra.
  assert (E : z * (slope g - slope h) == icpt h - icpt g) by lra.
  rewrite <- E. field. auto.
Qed.

Lemma intersection_cross : forall g h z, crosses_at g h z -> exists y, intersection g h = Some y /\ y == z.
Proof.
  intros g h z [Hs [Hg [Hh Hv]]]. unfold intersection.
  destruct (Qeqb_spec (slope g) (slope h)); [contradiction|].
  pose proof (crossing_unique g h z Hs Hv) as E.
  apply (covers_comp g _ _ E) in Hg. apply (covers_comp h _ _ E) in Hh.
  apply contains_iff in Hg. apply contains_iff in Hh. rewrite Hg, Hh. cbn.
  eexists. split; [reflexivity|]. now symmetry.
Qed.

Lemma crosses_sym : forall g h z, crosses_at g h z -> crosses_at h g z.
Proof.
  intros g h z [H1 [H2 [H3 H4]]]. split; [|split; [exact H3|split; [exact H2|now symmetry]]].
  intro E. apply H1. now symmetry.
Qed.

Lemma pair_intersections_In : forall l g h z, In g l -> In h l -> crosses_at g h z ->
  InQ z (pair_intersections l).
Proof.
  induction l as [|f l IH]; intros g h z Hg Hh Hc; [destruct Hg|].
  assert (One : forall k, In k l -> crosses_at k f z ->
     InQ z (flat_map (fun g => match intersection g f with Some x => [x] | None => [] end) l)).
  { intros k Hk Hx. destruct (intersection_cross _ _ _ Hx) as [y [Hy E]].
    apply Exists_exists. exists y. split; [|now symmetry]. apply in_flat_map. exists k. split; auto.
    rewrite Hy. now left. }
  cbn. apply InQ_app. destruct Hg as [<-|Hg], Hh as [<-|Hh].
  - exfalso. destruct Hc as [Hs _]. apply Hs. reflexivity.
  - left. apply (One h); auto. now apply crosses_sym.
  - left. apply (One g); auto.
  - right. exact (IH g h z Hg Hh Hc).
Qed.

Section Compare.
  Variable cmp : Q -> Q -> bool.
  Variable s : Q.
  Hypothesis cmp_spec : forall x y, cmp x y = Qltb (s * x) (s * y).
  Variable self : affine.
  Variable f2 : list affine.
  Variable domain : option interval.
  Let inputs := self :: f2.
  Hypothesis in_wf : Forall (fun g => wf (dom g)) inputs.
  Hypothesis dom_wf : match domain with None => True | Some d => wf d end.
  Let C := critical_points self f2 domain.

  Let base := [x0 (dom self); x1 (dom self)]
    ++ map (fun p => x0 (dom p)) f2 ++ map (fun p => x1 (dom p)) f2
    ++ flat_map (fun p => match intersection self p with Some x => [x] | None => [] end) f2
    ++ pair_intersections f2.

  Lemma base_C : forall e, InQ e base -> in_domain domain e -> InQ e C.
  Proof.
    intros e H Hd. unfold C, critical_points. fold base. apply InQ_sort_uniq.
    destruct domain as [d|]; auto. apply InQ_app. left. apply filter_InQ; auto.
  Qed.

  Lemma ends_base : forall g, In g inputs -> InQ (x0 (dom g)) base /\ InQ (x1 (dom g)) base.
  Proof.
    intros g [<-|Hg]; unfold base; rewrite !InQ_app.
    - split; left; apply InQ_In; cbn; auto.
    - split; right; [left|right; left]; apply InQ_In.
      + apply (in_map (fun p => x0 (dom p))); auto.
      + apply (in_map (fun p => x1 (dom p))); auto.
  Qed.

  Lemma cross_base : forall g h z, In g inputs -> In h inputs -> crosses_at g h z -> InQ z base.
  Proof.
    intros g h z Hg Hh Hc. unfold base. rewrite !InQ_app.
    assert (One : forall k, In k f2 -> crosses_at self k z ->
      InQ z (flat_map (fun p => match intersection self p with Some x => [x] | None => [] end) f2)).
    { intros k Hk Hx. destruct (intersection_cross _ _ _ Hx) as [y [Hy E]].
      apply Exists_exists. exists y. split; [|now symmetry]. apply in_flat_map. exists k. split; auto.
      rewrite Hy. now left. }
    destruct Hg as [<-|Hg], Hh as [<-|Hh].
    - exfalso. destruct Hc as [Hs _]. apply Hs. reflexivity.
    - do 3 right. left. apply (One h); auto.
    - do 3 right. left. apply (One g); auto. now apply crosses_sym.
    - do 4 right. exact (pair_intersections_In f2 g h z Hg Hh Hc).
  Qed.

  Lemma C_in_domain : forall c d, domain = Some d -> InQ c C -> x0 d <= c /\ c <= x1 d.
  Proof.
    intros c d Hd H. unfold C, critical_points in H. rewrite Hd in *. apply (proj1 (InQ_sort_uniq _ _)) in H.
    apply InQ_app in H. unfold wf in dom_wf. destruct H as [H|H].
    - apply Exists_exists in H. destruct H as [y [Hy E]]. apply filter_In in Hy. destruct Hy as [_ Hy].
      apply contains_iff in Hy. destruct Hy as [H1 H2]. unfold respects_lower, respects_upper in *.
      destruct (incl_lo d), (incl_hi d); lra.
    - rewrite !InQ_cons in H. destruct H as [H|[H|H]]; [lra|lra|now apply InQ_nil in H].
  Qed.

  Lemma C_dom_ends : forall d, domain = Some d -> InQ (x0 d) C /\ InQ (x1 d) C.
  Proof.
    intros d Hd. unfold C, critical_points. rewrite Hd. rewrite !InQ_sort_uniq, !InQ_app.
    split; right; apply InQ_In; cbn; auto.
  Qed.

  Lemma C_sorted : strictly_sorted C.
  Proof. unfold C, critical_points. apply sorted_sort_uniq. Qed.

  Lemma strictly_inside : forall e a b, InQ a C -> InQ b C -> a < e -> e < b -> in_domain domain e.
  Proof.
    intros e a b Ha Hb H1 H2. apply in_domain_intro. intros d Ed.
    destruct (C_in_domain a d Ed Ha), (C_in_domain b d Ed Hb).
    unfold in_set, respects_lower, respects_upper. destruct (incl_lo d), (incl_hi d); lra.
  Qed.

  (** the hypotheses of the cell lemma hold on an open cell *)
  Section Open.
    Variables a b : Q.
    Hypothesis Ha : InQ a C.
    Hypothesis Hb : InQ b C.
    Hypothesis Hab : a < b.
    Hypothesis consecutive : forall c, InQ c C -> a < c -> b <= c.
    Let J := mkI a b false false.

    Lemma open_all_or_none : forall g x y, In g inputs -> in_set J x -> in_set J y -> covers g x -> covers g y.
    Proof.
      intros g x y Hg Hx Hy Hc. apply (proj1 (J_in _ _ _)) in Hx. apply (proj1 (J_in _ _ _)) in Hy.
      destruct (ends_base g Hg) as [B0 B1].
      unfold covers, in_set in *. destruct Hc as [Hl Hu].
      assert (L : x0 (dom g) <= a).
      { apply Qnot_lt_le. intro N.
        assert (x0 (dom g) < b) by (destruct (incl_lo (dom g)); cbn in Hl; lra).
        assert (IC : InQ (x0 (dom g)) C) by (apply base_C; auto; eapply strictly_inside; [exact Ha|exact Hb|auto|auto]).
        pose proof (consecutive _ IC N). lra. }
      assert (U : b <= x1 (dom g)).
      { apply Qnot_lt_le. intro N.
        assert (N2 : a < x1 (dom g)) by (destruct (incl_hi (dom g)); cbn in Hu; lra).
        assert (IC : InQ (x1 (dom g)) C) by (apply base_C; auto; eapply strictly_inside; [exact Ha|exact Hb|auto|auto]).
        pose proof (consecutive _ IC N2). lra. }
      destruct (incl_lo (dom g)), (incl_hi (dom g)); cbn; lra.
    Qed.

    Lemma open_no_cross : forall g h x y, In g inputs -> In h inputs -> in_set J x -> in_set J y ->
      covers g x -> covers h x ->
      s * value g x <= s * value h x -> s * value g y <= s * value h y.
    Proof.
      intros g h x y Hg Hh Hx Hy Hgx Hhx Hle.
      apply Qnot_lt_le. intro Hlt.
      destruct (Qeq_dec (slope g) (slope h)) as [E|E].
      { assert (V : forall t, value g t - value h t == icpt g - icpt h).
        { intros t. unfold value. rewrite E. lra. }
        pose proof (V x) as Vx. pose proof (V y) as Vy.
        assert (s * (value g x - value h x) <= 0) by lra.
        assert (0 < s * (value g y - value h y)) by lra.
        rewrite Vx in *. rewrite Vy in *. lra. }
      set (m := slope g - slope h).
      assert (Hm : ~ m == 0) by (unfold m; lra).
      set (z := (icpt h - icpt g) / m).
      assert (Ez : m * z == icpt h - icpt g) by (unfold z; field; auto).
      assert (V : forall t, value g t - value h t == m * (t - z)).
      { intros t. unfold value. assert (m * (t - z) == m * t - m * z) by ring. rewrite H, Ez. unfold m. ring. }
      assert (D1 : (s * m) * (x - z) <= 0).
      { pose proof (V x). assert (s * (value g x - value h x) <= 0) by lra. rewrite H in H0. lra. }
      assert (D2 : 0 < (s * m) * (y - z)).
      { pose proof (V y). assert (0 < s * (value g y - value h y)) by lra. rewrite H in H0. lra. }
      set (k := s * m) in *.
      assert (Zin : in_set J z).
      { apply (proj1 (J_in _ _ _)) in Hx. apply (proj1 (J_in _ _ _)) in Hy. apply (proj2 (J_in _ _ _)).
        destruct (Qlt_le_dec 0 k) as [K|K].
        - pose proof (sgn_pos_le _ _ K D1). pose proof (sgn_pos_lt _ _ K D2). lra.
        - pose proof (sgn_neg_le _ _ K D2).
          assert (K' : k < 0).
          { destruct (Qlt_le_dec k 0) as [K'|K']; auto. assert (K0 : k == 0) by lra.
            exfalso. rewrite K0 in D2. lra. }
          pose proof (sgn_neg_ge _ _ K' D1). lra. }
      assert (Gz : covers g z) by (apply (open_all_or_none g x z); auto).
      assert (Hz : covers h z) by (apply (open_all_or_none h x z); auto).
      assert (IC : InQ z C).
      { apply base_C.
        - apply (cross_base g h); auto. split; auto. split; auto. split; auto.
          pose proof (V z). assert (m * (z - z) == 0) by ring. lra.
        - apply (proj1 (J_in _ _ _)) in Zin. eapply strictly_inside; [exact Ha|exact Hb|tauto|tauto]. }
      apply (proj1 (J_in _ _ _)) in Zin. pose proof (consecutive z IC (proj1 Zin)). lra.
    Qed.
  End Open.

  (** best value at a point *)
  Definition best_at (v x : Q) : Prop := forall h, In h inputs -> covers h x -> s * v <= s * value h x.

  Definition own_props (p : affine) : Prop :=
    wf (dom p) /\ is_empty (dom p) = false /\
    exists g, In g inputs /\ label p = label g /\ slope p = slope g /\ icpt p = icpt g /\
      forall x, covers p x -> covers g x /\ in_domain domain x /\ best_at (value p x) x.

  Lemma own_props_of_cell : forall J p, wf J -> is_empty J = false ->
    own_ok s self J inputs f2 p -> (forall x, in_set J x -> in_domain domain x) ->
    own_props p /\ forall x, covers p x <-> in_set J x.
  Proof.
    intros J p WJ EJ [HD [[g [Hg [_ [Hl [Hs [Hc Hcov]]]]]] Hbest]] Hin.
    assert (I : forall x, covers p x <-> in_set J x) by (intros x; apply dom_is_in; auto).
    split; auto. split; [|split].
    - destruct HD as [D1 [D2 _]]. unfold wf in *. lra.
    - destruct HD as [D1 [D2 [D3 D4]]]. unfold is_empty, length in *.
      destruct (Qeqb_spec (x1 (dom p) - x0 (dom p)) 0), (Qeqb_spec (x1 J - x0 J) 0); auto; try (exfalso; lra).
      now rewrite D3, D4.
    - exists g. split; [exact Hg|]. do 3 (split; [auto|]).
      intros x Hx. apply I in Hx. split; auto. split; auto. intros h Hh Hhx. apply Hbest; auto.
  Qed.

  Definition refs_ok (lo : Q) (r : pref) : Prop :=
    match r with
    | RSelf => exists x, in_domain domain x /\ covers self x /\ forall g, In g f2 -> ~ covers g x
    | ROwn p => own_props p /\ forall x, covers p x -> lo <= x
    end.

  Definition no_self (l : list pref) : Prop := ~ In RSelf l.

  Lemma cell_summary : forall J tx, wf J -> is_empty J = false -> in_set J tx ->
    (forall x, in_set J x -> in_domain domain x) ->
    (forall g x y, In g inputs -> in_set J x -> in_set J y -> covers g x -> covers g y) ->
    (forall g h x y, In g inputs -> In h inputs -> in_set J x -> in_set J y ->
      covers g x -> covers h x -> s * value g x <= s * value h x -> s * value g y <= s * value h y) ->
    exists o, best_on cmp self f2 J tx = Ret o /\
      (forall r, In r (olist o) -> match r with
         | RSelf => exists x, in_domain domain x /\ covers self x /\ forall g, In g f2 -> ~ covers g x
         | ROwn p => own_props p /\ forall x, covers p x <-> in_set J x end) /\
      (forall x, in_set J x -> (exists g, In g inputs /\ covers g x) ->
         exists r, In r (olist o) /\ covers (deref self r) x /\ best_at (value (deref self r) x) x).
  Proof.
    intros J tx WJ EJ Htx Hdom AON NC.
    destruct (best_on_ok cmp s cmp_spec self J WJ EJ inputs in_wf (or_introl eq_refl) AON NC f2 tx)
      as [o [Ho Hacc]]; auto; [intros z Hz; now right|].
    exists o. split; auto. destruct o as [[|p]|]; cbn [olist acc_ok] in *.
    - destruct Hacc as [H1 H2]. split.
      + intros r [<-|[]]. exists tx. repeat split; auto; apply H1 in Htx as H3; apply H3.
      + intros x Hx _. exists RSelf. split; [now left|]. cbn [deref]. split; auto.
        intros h [<-|Hh] Hhx; [lra|]. exfalso. apply (H2 h x); auto.
    - destruct (own_props_of_cell J p WJ EJ Hacc Hdom) as [H1 H2]. split.
      + intros r [<-|[]]. auto.
      + intros x Hx _. exists (ROwn p). split; [now left|]. cbn [deref]. split; [now apply H2|].
        destruct Hacc as [_ [_ B]]. intros h Hh Hhx. apply B; auto.
    - split; [intros r []|]. intros x Hx [g [Hg Hgx]]. exfalso. apply (Hacc g x); auto.
  Qed.

  Lemma point_in : forall x y, in_set (mkI x x true true) y <-> y == x.
  Proof. intros. unfold in_set; cbn. split; intros; [lra|split; lra]. Qed.

  Lemma in_domain_comp : forall x y, x == y -> in_domain domain x -> in_domain domain y.
  Proof.
    intros x y E H. destruct domain as [d|]; auto. cbn in *. apply contains_iff. apply contains_iff in H.
    now rewrite <- (contains_comp _ x y E).
  Qed.

  Lemma point_cell_ok : forall x, exists l, point_cell cmp self f2 domain x = Ret l /\
      (List.length l <= 1)%nat /\
      (forall r, In r l -> match r with
         | RSelf => exists x, in_domain domain x /\ covers self x /\ forall g, In g f2 -> ~ covers g x
         | ROwn p => own_props p /\ forall y, covers p y -> y == x end) /\
      (forall y, y == x -> in_domain domain y -> (exists g, In g inputs /\ covers g y) ->
         exists r, In r l /\ covers (deref self r) y /\ best_at (value (deref self r) y) y).
  Proof.
    intros x. unfold point_cell.
    assert (HI : Interval x x true true = Ret (mkI x x true true)) by (apply Interval_ok; split; [lra|auto]).
    rewrite HI. cbn [bind].
    destruct (match domain with None => true | Some d => contains d x end) eqn:ED.
    - assert (Dx : in_domain domain x) by (destruct domain; [now apply contains_iff|exact I]).
      destruct (cell_summary (mkI x x true true) x) as [o [Ho [H1 H2]]].
      + unfold wf; cbn; lra.
      + unfold is_empty, length; cbn. destruct (Qeqb (x - x) 0); reflexivity.
      + apply point_in. reflexivity.
      + intros y Hy. apply point_in in Hy. apply (in_domain_comp x y); auto. now symmetry.
      + intros g y z _ Hy Hz Hc. apply point_in in Hy. apply point_in in Hz.
        apply (covers_comp g y z); auto. lra.
      + intros g h y z _ _ Hy Hz _ _ Hle. apply point_in in Hy. apply point_in in Hz.
        assert (E : y == z) by lra.
        rewrite (value_comp g y z E), (value_comp h y z E) in Hle. exact Hle.
      + rewrite Ho. cbn [bind]. exists (olist o). split; auto. split; [destruct o; cbn; lia|]. split.
        * intros r Hr. specialize (H1 r Hr). destruct r as [|p]; auto. destruct H1 as [H1 H3].
          split; auto. intros y Hy. apply point_in. now apply H3.
        * intros y Hy _ Hg. apply H2; auto. now apply point_in.
    - exists []. split; auto. split; [cbn; lia|]. split; [intros r []|].
      intros y Hy Dy _. exfalso. apply (in_domain_comp y x Hy) in Dy.
      destruct domain as [d|]; [|discriminate]. cbn in Dy. apply contains_iff in Dy. congruence.
  Qed.

  Lemma open_cell_ok : forall a b, InQ a C -> InQ b C -> a < b ->
    (forall c, InQ c C -> a < c -> b <= c) ->
    exists l, open_cell cmp self f2 a b = Ret l /\
      (List.length l <= 1)%nat /\
      (forall r, In r l -> match r with
         | RSelf => exists x, in_domain domain x /\ covers self x /\ forall g, In g f2 -> ~ covers g x
         | ROwn p => own_props p /\ forall y, covers p y -> a < y /\ y < b end) /\
      (forall y, a < y -> y < b -> (exists g, In g inputs /\ covers g y) ->
         exists r, In r l /\ covers (deref self r) y /\ best_at (value (deref self r) y) y).
  Proof.
    intros a b Ha Hb Hab Hcons. unfold open_cell.
    assert (HI : Interval a b false false = Ret (mkI a b false false)) by (apply Interval_ok; split; [lra|auto]).
    rewrite HI. cbn [bind].
    destruct (cell_summary (mkI a b false false) (midpoint (mkI a b false false))) as [o [Ho [H1 H2]]].
    - unfold wf; cbn; lra.
    - unfold is_empty, length; cbn. destruct (Qeqb_spec (b - a) 0); auto; exfalso; lra.
    - apply (proj2 (J_in _ _ _)). unfold midpoint; cbn. now apply Qmid.
    - intros y Hy. apply (proj1 (J_in _ _ _)) in Hy. eapply strictly_inside; [exact Ha|exact Hb|tauto|tauto].
    - exact (open_all_or_none a b Ha Hb Hcons).
    - exact (open_no_cross a b Ha Hb Hcons).
    - rewrite Ho. cbn [bind]. exists (olist o). split; auto. split; [destruct o; cbn; lia|]. split.
      + intros r Hr. specialize (H1 r Hr). destruct r as [|p]; auto. destruct H1 as [H1 H3].
        split; auto. intros y Hy. apply (proj2 (J_in _ _ _)). now apply H3.
      + intros y Hy1 Hy2 Hg. apply H2; auto. apply (proj2 (J_in _ _ _)). tauto.
  Qed.

  Lemma ordered_app : forall l1 l2, ordered l1 -> ordered l2 ->
    (forall p q x y, In p l1 -> In q l2 -> covers p x -> covers q y -> x < y) -> ordered (l1 ++ l2).
  Proof.
    induction l1 as [|p l1 IH]; cbn; intros l2 H1 H2 H; auto.
    destruct H1 as [H1 H3]. split.
    - intros q x y Hq. apply in_app_or in Hq. destruct Hq as [Hq|Hq]; [now apply H1|].
      apply (H p q); auto.
    - apply IH; auto. intros p' q x y Hp. apply H; auto.
  Qed.

  Lemma short_ordered : forall l, (List.length l <= 1)%nat -> ordered l.
  Proof. intros [|p [|q l]]; cbn; intros H; auto; [split; [intros ? ? ? []|auto]|lia]. Qed.

  Lemma raw_ok : forall l, l <> [] -> strictly_sorted l -> incl l C ->
    (forall c, InQ c C -> c <= hd 0 l \/ InQ c (tl l)) ->
    exists raw, raw_pieces cmp self f2 domain l = Ret raw /\
      (forall r, In r raw -> refs_ok (hd 0 l) r) /\
      (forall x, in_domain domain x -> hd 0 l <= x -> (exists c, InQ c l /\ x <= c) ->
         (exists g, In g inputs /\ covers g x) ->
         exists r, In r raw /\ covers (deref self r) x /\ best_at (value (deref self r) x) x) /\
      (no_self raw -> ordered (map (deref self) raw)).
  Proof.
    induction l as [|a l IH]; intros Hne Hs Hincl Hrest; [congruence|].
    cbn [hd tl] in *. destruct Hs as [Hbelow Hs].
    destruct (point_cell_ok a) as [l1 [E1 [N1 [P1 Q1]]]].
    destruct l as [|b l].
    - exists l1. cbn [raw_pieces]. rewrite E1. cbn [bind]. split; auto. split; [|split].
      + intros r Hr. specialize (P1 r Hr). destruct r as [|p]; cbn; auto. destruct P1 as [P1 P2].
        split; auto. intros x Hx. apply P2 in Hx. lra.
      + intros x Dx Hx [c [Hc Hxc]] Hg. apply InQ_cons in Hc. destruct Hc as [Hc|Hc]; [|now apply InQ_nil in Hc].
        apply Q1; auto. lra.
      + intros _. apply short_ordered. now rewrite map_length.
    - assert (Hab : a < b) by (inversion Hbelow; auto).
      assert (Ha : InQ a C) by (apply InQ_In; apply Hincl; now left).
      assert (Hb : InQ b C) by (apply InQ_In; apply Hincl; right; now left).
      assert (Hcons : forall c, InQ c C -> a < c -> b <= c).
      { intros c Hc Hac. destruct (Hrest c Hc) as [H|H]; [lra|].
        apply InQ_cons in H. destruct H as [H|H]; [lra|]. destruct Hs as [Hs1 _].
        pose proof (below_InQ _ _ _ Hs1 H). lra. }
      destruct (open_cell_ok a b Ha Hb Hab Hcons) as [l2 [E2 [N2 [P2 Q2]]]].
      destruct IH as [raw [E3 [P3 [Q3 O3]]]].
      + discriminate.
      + exact Hs.
      + intros z Hz. apply Hincl. now right.
      + intros c Hc. cbn [hd tl]. destruct (Hrest c Hc) as [H|H]; [left; lra|].
        apply InQ_cons in H. destruct H as [H|H]; [left; lra|now right].
      + cbn [hd tl] in *.
        exists (l1 ++ l2 ++ raw).
        change (raw_pieces cmp self f2 domain (a :: b :: l)) with
          (let! p1 := point_cell cmp self f2 domain a in
           let! p2 := open_cell cmp self f2 a b in
           let! p3 := raw_pieces cmp self f2 domain (b :: l) in Ret (p1 ++ p2 ++ p3)).
        rewrite E1, E2, E3. cbn [bind]. split; auto. split; [|split].
        * intros r Hr. rewrite !in_app_iff in Hr. destruct Hr as [Hr|[Hr|Hr]].
          -- specialize (P1 r Hr). destruct r as [|p]; cbn; auto. destruct P1 as [P1 P1'].
             split; auto. intros x Hx. apply P1' in Hx. lra.
          -- specialize (P2 r Hr). destruct r as [|p]; cbn; auto. destruct P2 as [P2 P2'].
             split; auto. intros x Hx. apply P2' in Hx. lra.
          -- specialize (P3 r Hr). destruct r as [|p]; cbn in *; auto. destruct P3 as [P3 P3'].
             split; auto. intros x Hx. apply P3' in Hx. lra.
        * intros x Dx Hx [c [Hc Hxc]] Hg.
          destruct (Qlt_le_dec a x) as [L|L].
          -- destruct (Qlt_le_dec x b) as [L2|L2].
             ++ destruct (Q2 x L L2 Hg) as [r [Hr R]]. exists r. rewrite !in_app_iff. tauto.
             ++ destruct (Q3 x Dx L2) as [r [Hr R]]; auto.
                { exists c. split; auto. apply InQ_cons in Hc. destruct Hc as [Hc|Hc]; auto. exfalso; lra. }
                exists r. rewrite !in_app_iff. tauto.
          -- destruct (Q1 x) as [r [Hr R]]; auto; [lra|]. exists r. rewrite !in_app_iff. tauto.
        * intros NS. rewrite !map_app.
          assert (S1 : no_self l1) by (intros Z; apply NS; rewrite !in_app_iff; tauto).
          assert (S2 : no_self l2) by (intros Z; apply NS; rewrite !in_app_iff; tauto).
          assert (S3 : no_self raw) by (intros Z; apply NS; rewrite !in_app_iff; tauto).
          assert (B1 : forall p x, In p (map (deref self) l1) -> covers p x -> x == a).
          { intros p x Hp Hx. apply in_map_iff in Hp. destruct Hp as [[|q] [<- Hq]]; [now destruct S1|].
            apply (P1 (ROwn q) Hq). exact Hx. }
          assert (B2 : forall p x, In p (map (deref self) l2) -> covers p x -> a < x /\ x < b).
          { intros p x Hp Hx. apply in_map_iff in Hp. destruct Hp as [[|q] [<- Hq]]; [now destruct S2|].
            apply (P2 (ROwn q) Hq). exact Hx. }
          assert (B3 : forall p x, In p (map (deref self) raw) -> covers p x -> b <= x).
          { intros p x Hp Hx. apply in_map_iff in Hp. destruct Hp as [[|q] [<- Hq]]; [now destruct S3|].
            apply (P3 (ROwn q) Hq). exact Hx. }
          apply ordered_app; [|apply ordered_app|].
          -- apply short_ordered. now rewrite map_length.
          -- apply short_ordered. now rewrite map_length.
          -- auto.
          -- intros p q x y Hp Hq Hx Hy. apply (B2 p x Hp) in Hx. apply (B3 q y Hq) in Hy. lra.
          -- intros p q x y Hp Hq Hx Hy. apply (B1 p x Hp) in Hx. apply in_app_or in Hq.
             destruct Hq as [Hq|Hq]; [apply (B2 q y Hq) in Hy|apply (B3 q y Hq) in Hy]; lra.
  Qed.

  Lemma domain_cases : (exists d, domain = Some d) \/ domain = None.
  Proof. clear. destruct domain; eauto. Qed.

  Lemma C_nonempty : C <> [].
  Proof.
    intro E. destruct domain_cases as [[d Ed]|Ed].
    - destruct (C_dom_ends d) as [H _]; auto. rewrite E in H. now apply InQ_nil in H.
    - destruct (ends_base self (or_introl eq_refl)) as [H _].
      apply base_C in H; [|now rewrite Ed]. rewrite E in H. now apply InQ_nil in H.
  Qed.

  Lemma C_span : forall g x, In g inputs -> covers g x -> in_domain domain x ->
    (exists c, InQ c C /\ c <= x) /\ (exists c, InQ c C /\ x <= c).
  Proof.
    intros g x Hg Hx Dx. destruct domain_cases as [[d Ed]|Ed].
    - destruct (C_dom_ends d) as [H1 H2]; auto. rewrite Ed in Dx. cbn in Dx. destruct Dx as [D1 D2].
      split; [exists (x0 d)|exists (x1 d)]; split; auto;
        [destruct (incl_lo d); cbn in D1; lra|destruct (incl_hi d); cbn in D2; lra].
    - destruct (ends_base g Hg) as [H1 H2].
      apply base_C in H1; [|now rewrite Ed]. apply base_C in H2; [|now rewrite Ed].
      destruct Hx as [D1 D2].
      split; [exists (x0 (dom g))|exists (x1 (dom g))]; split; auto;
        [destruct (incl_lo (dom g)); cbn in D1; lra|destruct (incl_hi (dom g)); cbn in D2; lra].
  Qed.

  Theorem raw_all : exists raw, raw_pieces cmp self f2 domain C = Ret raw /\
      (forall r, In r raw -> match r with
         | RSelf => exists x, in_domain domain x /\ covers self x /\ forall g, In g f2 -> ~ covers g x
         | ROwn p => own_props p end) /\
      (forall x, in_domain domain x -> (exists g, In g inputs /\ covers g x) ->
         exists r, In r raw /\ covers (deref self r) x /\ best_at (value (deref self r) x) x) /\
      (no_self raw -> ordered (map (deref self) raw)).
  Proof.
    pose proof C_nonempty as NE. pose proof C_sorted as Hs. pose proof C_span as Hspan.
    destruct (raw_ok C NE Hs (incl_refl _)) as [raw [E [H1 [H2 H3]]]].
    - destruct C as [|a l]; [congruence|]. cbn. intros c Hc. apply InQ_cons in Hc.
      destruct Hc as [Hc|Hc]; [left; lra|now right].
    - exists raw. split; auto. split; [|split; auto].
      + intros r Hr. specialize (H1 r Hr). destruct r; cbn in H1; tauto.
      + intros x Dx [g [Hg Hx]]. destruct (Hspan g x Hg Hx Dx) as [[c [Hc Hcx]] Hup].
        apply H2; auto; [|exists g; auto].
        destruct C as [|a l]; [congruence|]. cbn. apply InQ_cons in Hc. destruct Hc as [Hc|Hc]; [lra|].
        destruct Hs as [Hb _]. pose proof (below_InQ _ _ _ Hb Hc). lra.
  Qed.
End Compare.
