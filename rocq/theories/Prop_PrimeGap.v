(** Property C58: the bounds for prime gaps. *)
From Verif Require Import Base Model_Text Model_Reference Model_RationalFunction Spec_RationalFunction Proof_RationalFunction Proof_RFOptimal Prop_RationalFunction Prop_Roots
  Model_DensityEstimate Spec_DensityEstimate Prop_DensityEstimate Model_DensityEnergy Spec_DensityEnergy Prop_DensityEnergy Model_PrimeGap Spec_PrimeGap.
From Coq Require Import Reals Qreals Classical ClassicalChoice.
From Coq Require Import Lra.
Open Scope list_scope.
Local Open Scope R_scope.

(** ** The two functions *)
Lemma alpha_value : forall A B x, ~ has_pole A x -> ~ has_pole B x -> rfval B x <> rfval A x ->
  ~ has_pole (alpha A B) x /\ rfval (alpha A B) x = gap_alpha (rfval A x) (rfval B x) x.
Proof.
  intros [an ad] [bn bd] x PA PB N. unfold has_pole, rfval, gap_alpha, alpha, four_x_minus_two, one_minus_x, rf_add, rf_div, rf_mul, rf_subtract, RationalFunction, expr_of_coeffs in *. cbn in *.
  assert (C0 : Q2R 0 = 0) by (unfold Q2R; cbn; lra). assert (C1 : Q2R 1 = 1) by (unfold Q2R; cbn; lra). assert (C2 : Q2R 2 = 2) by (unfold Q2R; cbn; lra).
  assert (C3 : Q2R (-(2)) = -2) by (unfold Q2R; cbn; lra). assert (C4 : Q2R 4 = 4) by (unfold Q2R; cbn; lra). assert (C5 : Q2R (-(1)) = -1) by (unfold Q2R; cbn; lra).
  assert (C6 : Q2R (-2) = -2) by (unfold Q2R; cbn; lra). assert (C7 : Q2R (-1) = -1) by (unfold Q2R; cbn; lra).
  rewrite ?C0, ?C1, ?C2, ?C3, ?C4, ?C5, ?C6, ?C7. set (a := reval an x) in *. set (p := reval ad x) in *. set (b := reval bn x) in *. set (q := reval bd x) in *.
  assert (K : b * p - q * a <> 0). { intro K. apply N. apply (Rmult_eq_reg_r (p * q)); [|now apply Rmult_integral_contrapositive_currified]. field_simplify; auto. lra. }
  split.
  - intro Z. apply K. apply Rmult_integral in Z as [Z|Z]; [lra|]. apply Rmult_integral in Z as [Z|Z]; [|exact Z]. exfalso. apply PB. lra.
  - field. repeat split; auto. intro Z. apply K. lra.
Qed.
Lemma beta_value : forall A B x, ~ has_pole A x -> ~ has_pole B x -> rfval A x <> 0 ->
  ~ has_pole (beta A B) x /\ rfval (beta A B) x = gap_beta (rfval A x) (rfval B x) x.
Proof.
  intros [an ad] [bn bd] x PA PB N. unfold has_pole, rfval, gap_beta, beta, four_x_minus_two, one_minus_x, rf_add, rf_div, rf_mul, rf_subtract, RationalFunction, expr_of_coeffs in *. cbn in *.
  assert (C0 : Q2R 0 = 0) by (unfold Q2R; cbn; lra). assert (C1 : Q2R 1 = 1) by (unfold Q2R; cbn; lra).
  assert (C3 : Q2R (-(2)) = -2) by (unfold Q2R; cbn; lra). assert (C4 : Q2R 4 = 4) by (unfold Q2R; cbn; lra). assert (C5 : Q2R (-(1)) = -1) by (unfold Q2R; cbn; lra).
  assert (C6 : Q2R (-2) = -2) by (unfold Q2R; cbn; lra). assert (C7 : Q2R (-1) = -1) by (unfold Q2R; cbn; lra).
  rewrite ?C0, ?C1, ?C3, ?C4, ?C5, ?C6, ?C7. set (a := reval an x) in *. set (p := reval ad x) in *. set (b := reval bn x) in *. set (q := reval bd x) in *.
  assert (K : a <> 0). { intro K. apply N. rewrite K. unfold Rdiv. ring. }
  split.
  - intro Z. apply K. apply Rmult_integral in Z as [Z|Z]; [lra|]. apply Rmult_integral in Z as [Z|Z]; [|exact Z]. exfalso. apply PB. lra.
  - field. auto.
Qed.

(** ** The largest value on an interval *)
Lemma fold_max : forall l v, (In (fold_left Rmax l v) (v :: l)) /\ forall w, In w (v :: l) -> w <= fold_left Rmax l v.
Proof.
  induction l as [|u l IH]; intro v; cbn [fold_left]; [split; [now left|intros w [->|[]]; lra]|].
  destruct (IH (Rmax v u)) as [I M]. split.
  - destruct I as [I|I]; [|right; now right]. unfold Rmax in I at 1. destruct (Rle_dec v u); [right; left|left]; exact I.
  - pose proof (M _ (or_introl eq_refl)) as M0. pose proof (Rmax_l v u). pose proof (Rmax_r v u). intros w [<-|[<-|I']]; [lra|lra|]. apply M. now right.
Qed.
Lemma float_subs_ok : forall f x, ~ has_pole f x -> float_subs f x = Ret (rfval f x).
Proof. intros f x H. unfold float_subs. destruct (Req_EM_T _ 0); [contradiction|reflexivity]. Qed.
Lemma subs_all : forall f l, (forall x, In x l -> ~ has_pole f x) -> mapM (float_subs f) l = Ret (map (rfval f) l).
Proof. intros f. induction l as [|x l IH]; intro H; [reflexivity|]. cbn [mapM map]. rewrite float_subs_ok by (apply H; now left). cbn [bind]. rewrite IH by (intros; apply H; now right). reflexivity. Qed.

Section Sup.
Context (sp : rfun -> list R) (SS : stationary_spec sp).
Lemma sup_on_points : forall f i, (forall x, In x (filter (icontains R Rltb i) (sp f) ++ [lo i; hi i]) -> ~ has_pole f x) ->
  exists v, sup_on sp f i = Ret v /\ (exists y, In y (filter (icontains R Rltb i) (sp f) ++ [lo i; hi i]) /\ v = rfval f y) /\
    forall y, In y (filter (icontains R Rltb i) (sp f) ++ [lo i; hi i]) -> rfval f y <= v.
Proof.
  intros f i NP. unfold sup_on. rewrite (subs_all f _ NP). cbn [bind]. set (l := filter (icontains R Rltb i) (sp f) ++ [lo i; hi i]) in *.
  destruct (map (rfval f) l) as [|v vs] eqn:E; [unfold l in E; rewrite map_app in E; apply app_eq_nil in E as [_ E]; discriminate|].
  destruct (fold_max vs v) as [I M]. rewrite <- E in I, M. exists (fold_left Rmax vs v). split; [reflexivity|]. split.
  - apply in_map_iff in I as (y & Ey & Iy). exists y. split; [exact Iy|now symmetry].
  - intros y Iy. apply M. now apply in_map.
Qed.
Lemma sup_on_largest : forall f i, lo i < hi i -> ilo i = true -> ihi i = false -> (forall x, lo i <= x <= hi i -> ~ has_pole f x) ->
  exists v, sup_on sp f i = Ret v /\ largest_on (rfval f) (lo i) (hi i) v.
Proof.
  intros f i L F1 F2 NP.
  assert (Bd : forall x, In x (filter (icontains R Rltb i) (sp f) ++ [lo i; hi i]) -> lo i <= x <= hi i).
  { intros x I. apply in_app_iff in I as [I|[<-|[<-|[]]]]; [|lra|lra]. apply filter_In in I as [_ I]. apply contains_inside in I. unfold inside in I. rewrite F1, F2 in I. lra. }
  destruct (sup_on_points f i) as (v & Ev & (y & Iy & Vy) & M); [intros x I; apply NP, Bd, I|].
  exists v. split; [exact Ev|]. split; [exists y; split; [now apply Bd|exact Vy]|].
  assert (Ch : forall x, lo i <= x <= hi i -> continuity_pt (rfval f) x) by (intros x Hx; apply rfval_continuous; now apply NP).
  destruct (continuity_ab_maj (rfval f) (lo i) (hi i) (Rlt_le _ _ L) Ch) as [m [HM BM]].
  assert (G : rfval f m <= v).
  { destruct (Req_dec m (lo i)) as [->|N1]; [apply M, in_or_app; right; now left|]. destruct (Req_dec m (hi i)) as [->|N2]; [apply M, in_or_app; right; right; now left|].
    assert (pr : derivable_pt (rfval f) m) by (eexists; apply rfval_derivable; now apply NP).
    assert (Z : derive_pt (rfval f) m pr = 0) by (apply (deriv_maximum (rfval f) (lo i) (hi i) m pr); try lra; intros x H1 H2; apply HM; lra).
    assert (D : derivable_pt_lim (rfval f) m 0) by (apply derive_pt_eq_1 in Z; exact Z).
    destruct (SS f m (NP m BM) D) as [I|C].
    - apply M. apply in_or_app. left. apply filter_In. split; [exact I|]. apply contains_inside. unfold inside. rewrite F1, F2. lra.
    - assert (pr' : forall x, lo i < x < hi i -> derivable_pt (rfval f) x) by (intros x Hx; exists 0; apply C, NP; lra).
      assert (K : constant_D_eq (rfval f) (fun x => lo i <= x <= hi i) (rfval f (lo i))).
      { apply (null_derivative_loc (rfval f) (lo i) (hi i) pr' Ch). intros x P. apply derive_pt_eq_0. apply C, NP. lra. }
      rewrite (K m BM). apply M. apply in_or_app. right. now left. }
  intros x Hx. specialize (HM x Hx). lra.
Qed.
End Sup.

(** Such a solver exists. *)
Lemma derivative_zero_iff : forall f x, ~ has_pole f x -> (derivable_pt_lim (rfval f) x 0 <-> reval (stationary f) x = 0).
Proof.
  intros f x NP. pose proof (rfval_derivable f x NP) as D.
  assert (St : reval (stationary f) x = - (reval (ediff (Model_RationalFunction.num f)) x * reval (den f) x - reval (ediff (den f)) x * reval (Model_RationalFunction.num f) x)) by (unfold stationary; cbn; ring).
  assert (Sq : Rsqr (reval (den f) x) <> 0) by (intro K; apply Rsqr_0_uniq in K; apply NP; exact K).
  split.
  - intro D0. pose proof (uniqueness_limite _ _ _ _ D0 D) as E. rewrite St. symmetry in E. unfold Rdiv in E. apply Rmult_integral in E as [E|E]; [lra|]. exfalso. revert E. now apply Rinv_neq_0_compat.
  - intro Z. rewrite St in Z. assert (E : reval (ediff (Model_RationalFunction.num f)) x * reval (den f) x - reval (ediff (den f)) x * reval (Model_RationalFunction.num f) x = 0) by lra. rewrite E in D. unfold Rdiv in D. rewrite Rmult_0_l in D. exact D.
Qed.
Lemma stationary_solver_exists : exists sp, stationary_spec sp /\ stationary_no_poles sp.
Proof.
  destruct (choice (fun f (l : list R) => (forall x, In x l -> ~ has_pole f x) /\ forall x, ~ has_pole f x -> derivable_pt_lim (rfval f) x 0 ->
    In x l \/ forall y, ~ has_pole f y -> derivable_pt_lim (rfval f) y 0)) as [sp S].
  - intro f. destruct (expr_is_zero (stationary f)) eqn:Z.
    + exists []. split; [intros x []|]. intros x _ _. right. intros y Py. apply derivative_zero_iff; [exact Py|].
      unfold expr_is_zero in Z. rewrite <- expand_evalR. apply all_zero_evalR. now apply forallb_zero.
    + destruct (expr_roots_finite _ Z) as [l Hl]. exists (filter (fun x => if Req_EM_T (reval (den f) x) 0 then false else true) l). split.
      * intros x I. apply filter_In in I as [_ I]. destruct (Req_EM_T _ 0); [discriminate|assumption].
      * intros x Px D. left. apply filter_In. split; [apply Hl; now apply derivative_zero_iff|]. destruct (Req_EM_T _ 0); [contradiction|reflexivity].
  - exists sp. split; [intros f; apply (S f)|intros f; apply (S f)].
Qed.

(** ** The intervals *)
Fixpoint ztile (l : list zde) (a b : R) : Prop :=
  match l with
  | [] => a = b
  | d :: l' => lo (z_int d) = a /\ lo (z_int d) < hi (z_int d) /\ ilo (z_int d) = true /\ ihi (z_int d) = false /\ ztile l' (hi (z_int d)) b
  end.
Lemma ztile_density : forall l a b, estimates_tile l a b -> ztile (flat_map zn_zde l) a b.
Proof. induction l as [|[n d p r ds|h] l IH]; intros a b T; cbn in *; [exact T| |destruct T]. destruct T as (A & B & C & D & T). repeat split; auto. Qed.
Lemma ztile_energy : forall l a b, bounds_tile l a b -> ztile (flat_map an_zde l) a b.
Proof. induction l as [|[n t d p r ds|h] l IH]; intros a b T; cbn in *; [exact T| |destruct T]. destruct T as (A & B & C & D & T). repeat split; auto. Qed.
Lemma ztile_le : forall l a b, ztile l a b -> a <= b.
Proof. induction l as [|d l IH]; intros a b T; cbn in T; [lra|]. destruct T as (A & B & _ & _ & T). apply IH in T. lra. Qed.
Lemma ztile_within : forall l a b d, ztile l a b -> In d l -> a <= lo (z_int d) /\ hi (z_int d) <= b /\ ilo (z_int d) = true /\ ihi (z_int d) = false.
Proof.
  induction l as [|e l IH]; intros a b d T I; [destruct I|]. cbn in T. destruct T as (A & B & C & D & T). pose proof (ztile_le _ _ _ T). destruct I as [->|I]; [repeat split; auto; lra|].
  destruct (IH _ _ _ T I) as (P & Q & R). repeat split; try apply R; lra.
Qed.
Lemma ztile_find : forall l a b m, ztile l a b -> a <= m < b -> exists d, find (fun d => icontains R Rltb (z_int d) m) l = Some d.
Proof.
  induction l as [|e l IH]; intros a b m T M; cbn in T; [lra|]. destruct T as (A & B & C & D & T). cbn [find]. destruct (icontains R Rltb (z_int e) m) eqn:E; [eauto|].
  apply (IH _ _ _ T). split; [|lra]. destruct (Rle_or_lt (hi (z_int e)) m); [lra|]. exfalso. assert (K : icontains R Rltb (z_int e) m = true) by (apply contains_inside; unfold inside; rewrite C, D; lra). congruence.
Qed.
Lemma ends_in : forall l d, In d l -> In (lo (z_int d)) (ends l) /\ In (hi (z_int d)) (ends l).
Proof. intros l d I. split; apply in_flat_map; exists d; (split; [exact I|cbn; auto]). Qed.

Definition bounded (l : list zde) : Prop := forall d, In d l -> exists f, z_bound d = Some f.
(** The estimate found at a middle holds on the whole cell. *)
Lemma next_ok : forall l h a b, ztile l h 1 -> bounded l -> h <= a -> a < b -> b <= 1 ->
  (forall c, In c (ends l) -> a < c < b -> False) ->
  exists d f, next_bound l (Rmid a b) = Ret f /\ In d l /\ z_bound d = Some f /\ lo (z_int d) <= a /\ b <= hi (z_int d).
Proof.
  intros l h a b T Bd H1 H2 H3 NE. assert (M : a < Rmid a b < b) by (unfold Rmid; lra).
  destruct (ztile_find l h 1 (Rmid a b) T ltac:(lra)) as (d & F). destruct (find_some _ _ F) as [I C]. apply contains_inside in C.
  destruct (ztile_within _ _ _ _ T I) as (_ & _ & F1 & F2). unfold inside in C. rewrite F1, F2 in C. destruct (Bd d I) as (f & Ef).
  exists d, f. unfold next_bound. rewrite F. unfold bound_of. rewrite Ef. repeat split; auto.
  - destruct (Rle_or_lt (lo (z_int d)) a); auto. exfalso. apply (NE _ (proj1 (ends_in _ _ I))). lra.
  - destruct (Rle_or_lt b (hi (z_int d))); auto. exfalso. apply (NE _ (proj2 (ends_in _ _ I))). lra.
Qed.
Lemma largest_max : forall f g a b v w, largest_on f a b v -> largest_on g a b w -> largest_on (fun x => Rmax (f x) (g x)) a b (Rmax v w).
Proof.
  intros f g a b v w ((y & By & Ey) & Fv) ((z & Bz & Ez) & Gw). split.
  - pose proof (Fv z Bz). pose proof (Gw y By). unfold Rmax at 1. destruct (Rle_dec v w).
    + exists z. split; [exact Bz|]. unfold Rmax. destruct (Rle_dec (f z) (g z)); lra.
    + exists y. split; [exact By|]. unfold Rmax. destruct (Rle_dec (f y) (g y)); lra.
  - intros x Bx. specialize (Fv x Bx). specialize (Gw x Bx). unfold Rmax. destruct (Rle_dec (f x) (g x)), (Rle_dec v w); lra.
Qed.
Lemma largest_ext : forall f g a b v, (forall x, a <= x <= b -> f x = g x) -> largest_on f a b v -> largest_on g a b v.
Proof.
  intros f g a b v E ((y & By & Ey) & M). split; [exists y; split; [exact By|]; now rewrite <- E|]. intros x Bx. rewrite <- E by exact Bx. now apply M.
Qed.

Section Cells.
Context (sp : rfun -> list R) (SS : stationary_spec sp).
Lemma gap_cells_ok : forall zds zes h, ztile zds h 1 -> ztile zes h 1 -> bounded zds -> bounded zes -> gap_defined zds zes ->
  forall rest a, ssorted (a :: rest) -> h <= a -> (forall c, In c (a :: rest) -> c <= 1) ->
  (forall c, In c (ends zds) \/ In c (ends zes) -> c <= a \/ In c rest) ->
  exists rows, gap_cells sp zds zes a rest = Ret rows /\ rows_tile rows a (last rest a) /\
    forall i v, In (i, v) rows -> lo i < hi i /\ ilo i = true /\ ihi i = false /\
      exists d e A B, In d zds /\ In e zes /\ z_bound d = Some A /\ z_bound e = Some B /\
        lo (z_int d) <= lo i /\ hi i <= hi (z_int d) /\ lo (z_int e) <= lo i /\ hi i <= hi (z_int e) /\
        largest_on (fun x => gap_max (rfval A x) (rfval B x) x) (lo i) (hi i) v.
Proof.
  intros zds zes h Tz Te Bz Be GD. induction rest as [|b rest IH]; intros a S La Hc He.
  - exists []. split; [reflexivity|]. split; [reflexivity|intros ? ? []].
  - destruct S as [S1 S2]. assert (ab : a < b) by (inversion S1; auto). assert (b1 : b <= 1) by (apply Hc; right; now left).
    assert (NE : forall c, In c (ends zds) \/ In c (ends zes) -> a < c < b -> False).
    { intros c I B. destruct (He c I) as [L|[L|L]]; [lra|lra|]. destruct S2 as [S2 _]. rewrite Forall_forall in S2. specialize (S2 c L). lra. }
    destruct (next_ok zds h a b Tz Bz La ab b1) as (d & A & Ed & Id & Zd & D1 & D2); [intros c I; apply NE; auto|].
    destruct (next_ok zes h a b Te Be La ab b1) as (e & B & Ee & Ie & Ze & E1 & E2); [intros c I; apply NE; auto|].
    assert (Ok : forall x, a <= x <= b -> ~ has_pole A x /\ ~ has_pole B x /\ rfval A x <> 0 /\ rfval B x <> rfval A x) by (intros x Bx; apply (GD d e); auto; lra).
    set (i := mkV a b true false).
    destruct (sup_on_largest sp SS (alpha A B) i ab eq_refl eq_refl) as (v & Ev & Lv). { intros x Bx. destruct (Ok x Bx) as (P1 & P2 & P3 & P4). now apply alpha_value. }
    destruct (sup_on_largest sp SS (beta A B) i ab eq_refl eq_refl) as (w & Ew & Lw). { intros x Bx. destruct (Ok x Bx) as (P1 & P2 & P3 & P4). now apply beta_value. }
    destruct (IH b S2 ltac:(lra)) as (rows & Er & Tr & Hr); [intros c I; apply Hc; now right| |].
    { intros c I. destruct (He c I) as [L|[L|L]]; [left; lra|left; lra|now right]. }
    cbn [gap_cells]. rewrite mk_interval_ok by auto. cbn [bind]. rewrite Ed. cbn [bind]. rewrite Ee. cbn [bind]. fold i. rewrite Ev. cbn [bind]. rewrite Ew. cbn [bind]. rewrite Er. cbn [bind].
    exists ((i, Rmax v w) :: rows). split; [reflexivity|]. split; [rewrite last_cons; cbn; auto|].
    intros j u [E|I]; [|now apply Hr]. injection E as <- <-. cbn [i lo hi ilo ihi]. repeat split; auto. exists d, e, A, B. repeat (split; [assumption|]).
    apply (largest_ext (fun x => Rmax (rfval (alpha A B) x) (rfval (beta A B) x))); [|apply (largest_max _ _ _ _ _ _ Lv Lw)].
    intros x Bx. destruct (Ok x Bx) as (P1 & P2 & P3 & P4). unfold gap_max. now rewrite (proj2 (alpha_value A B x P1 P2 P4)), (proj2 (beta_value A B x P1 P2 P3)).
Qed.
End Cells.

Lemma compute_cells : forall sp zds zes, stationary_spec sp -> ztile zds (1/2) 1 -> ztile zes (1/2) 1 -> bounded zds -> bounded zes -> gap_defined zds zes ->
  exists rows, match sorted_set R Rltb ([Q2R (1#2); Q2R 1] ++ ends zds ++ ends zes) with [] => Ret [] | a :: rest => gap_cells sp zds zes a rest end = Ret rows /\
    rows_tile rows (1/2) 1 /\ forall i v, In (i, v) rows -> lo i < hi i /\ ilo i = true /\ ihi i = false /\
      exists d e A B, In d zds /\ In e zes /\ z_bound d = Some A /\ z_bound e = Some B /\
        lo (z_int d) <= lo i /\ hi i <= hi (z_int d) /\ lo (z_int e) <= lo i /\ hi i <= hi (z_int e) /\
        largest_on (fun x => gap_max (rfval A x) (rfval B x) x) (lo i) (hi i) v.
Proof.
  intros sp zds zes SS Tz Te Bz Be GD. set (X := [Q2R (1#2); Q2R 1] ++ ends zds ++ ends zes). pose proof (sorted_set_sorted X) as S.
  assert (H2 : Q2R (1#2) = 1/2) by (unfold Q2R; cbn; lra). assert (H1 : Q2R 1 = 1) by (unfold Q2R; cbn; lra).
  assert (Bn : forall c, In c (sorted_set R Rltb X) -> 1/2 <= c <= 1).
  { assert (En : forall l c, ztile l (1/2) 1 -> In c (ends l) -> 1/2 <= c <= 1).
    { intros l c T I. apply in_flat_map in I as (d & Id & I). destruct (ztile_within _ _ _ _ T Id) as (P & Q & _).
      assert (lo (z_int d) < hi (z_int d)) by (clear -T Id; revert T; generalize (1/2); induction l as [|e l IH]; [destruct Id|]; intros r T; cbn in T; destruct T as (_ & L & _ & _ & T); destruct Id as [->|Id]; [exact L|exact (IH Id _ T)]).
      destruct I as [<-|[<-|[]]]; lra. }
    intros c I. apply (proj1 (sorted_set_in X c)) in I. unfold X in I. apply in_app_or in I as [[<-|[<-|[]]]|I]; [lra|lra|]. apply in_app_or in I as [I|I]; [exact (En zds c Tz I)|exact (En zes c Te I)]. }
  assert (Ilo : In (1/2) (sorted_set R Rltb X)) by (apply (proj2 (sorted_set_in X _)); left; exact H2).
  assert (Ihi : In 1 (sorted_set R Rltb X)) by (apply (proj2 (sorted_set_in X _)); right; left; exact H1).
  assert (IE : forall c, In c (ends zds) \/ In c (ends zes) -> In c (sorted_set R Rltb X)). { intros c [I|I]; apply (proj2 (sorted_set_in X _)); unfold X; apply in_or_app; right; apply in_or_app; auto. }
  destruct (sorted_set R Rltb X) as [|a rest] eqn:E; [destruct Ilo|].
  assert (Ea : a = 1/2). { destruct Ilo as [|Hin]; auto. destruct S as [S1 _]. rewrite Forall_forall in S1. specialize (S1 _ Hin). specialize (Bn a (or_introl eq_refl)). lra. }
  destruct (gap_cells_ok sp SS zds zes (1/2) Tz Te Bz Be GD rest a S) as (rows & Er & Tr & Hr).
  - lra.
  - intros c I. apply Bn in I. lra.
  - intros c I. destruct (IE c I) as [<-|I']; [left; lra|now right].
  - exists rows. split; [exact Er|]. split; [|exact Hr]. rewrite (ssorted_last rest a 1) in Tr; [rewrite Ea in Tr; exact Tr|exact S|exact Ihi|]. intros c I. apply Bn in I. lra.
Qed.

(** The lines tile [1/2, 1).  The number of a line is the largest value, on its
    closed interval, of the larger one of the two functions of the proposition for
    bounds A and B; in the interval these are the least among all known
    estimates. *)
Theorem gap2_lines : forall parse rf_str solve sp, solve_complete solve -> stationary_spec sp ->
  forall hs fz fe, readable parse (density_nodes hs) -> estimates_in parse (density_nodes hs) fz -> half_open_inputs fz -> defined_inputs unit_interval fz ->
  energy_readable parse hs -> energy_estimates_in parse hs fe -> half_open_inputs fe -> defined_inputs unit_interval fe ->
  exists best_zd best_ze, best_zero_density_estimate parse rf_str solve (density_nodes hs) = Ret best_zd /\ compute_best_energy_bound parse rf_str solve hs = Ret best_ze /\
    (gap_defined (flat_map zn_zde best_zd) (flat_map an_zde best_ze) ->
     exists rows, compute_gap2 parse rf_str solve sp hs = Ret rows /\ rows_tile rows (1/2) 1 /\
       forall i v, In (i, v) rows -> exists A B, largest_on (fun x => gap_max (rfval A x) (rfval B x) x) (lo i) (hi i) v /\
         forall x, inside i x -> is_least fz (Q2R (inject_Z 1000000)) x (rfval A x) /\ is_least fe (Q2R (inject_Z 1000000)) x (rfval B x)).
Proof.
  intros parse rf_str solve sp SC SS hs fz fe RZ EZ HZ DZ RE EE HE DE.
  destruct (best_zero_density_everywhere parse rf_str solve SC _ fz RZ EZ HZ DZ) as (oz & Oz & Tz & Hz).
  destruct (best_energy_everywhere parse rf_str solve SC _ fe RE EE HE DE) as (oe & Oe & Te & He).
  exists oz, oe. split; [exact Oz|]. split; [exact Oe|]. intro GD.
  assert (H2 : Q2R (1#2) = 1/2) by (unfold Q2R; cbn; lra). assert (H1 : Q2R 1 = 1) by (unfold Q2R; cbn; lra). rewrite H1, H2 in Tz, Te.
  assert (Lz : forall d A, In d (flat_map zn_zde oz) -> z_bound d = Some A -> forall x, inside (z_int d) x -> is_least fz (Q2R (inject_Z 1000000)) x (rfval A x)).
  { intros d A I E x Ix. apply in_flat_map in I as (o & Io & I). destruct (Hz o Io) as (n & f & i & p & r & -> & _ & L). destruct I as [<-|[]]. injection E as <-. now apply L. }
  assert (Le : forall d A, In d (flat_map an_zde oe) -> z_bound d = Some A -> forall x, inside (z_int d) x -> is_least fe (Q2R (inject_Z 1000000)) x (rfval A x)).
  { intros d A I E x Ix. apply in_flat_map in I as (o & Io & I). destruct (He o Io) as (n & t & f & i & p & r & -> & _ & L). destruct I as [<-|[]]. injection E as <-. now apply L. }
  assert (Bz : bounded (flat_map zn_zde oz)). { intros d I. apply in_flat_map in I as (o & Io & I). destruct (Hz o Io) as (n & f & i & p & r & -> & _). destruct I as [<-|[]]. now exists f. }
  assert (Be : bounded (flat_map an_zde oe)). { intros d I. apply in_flat_map in I as (o & Io & I). destruct (He o Io) as (n & t & f & i & p & r & -> & _). destruct I as [<-|[]]. now exists f. }
  pose proof (ztile_density _ _ _ Tz) as Yz. pose proof (ztile_energy _ _ _ Te) as Ye.
  destruct (compute_cells sp _ _ SS Yz Ye Bz Be GD) as (rows & Er & Tr & Hr).
  exists rows. split; [unfold compute_gap2; rewrite Oz; cbn [bind]; rewrite Oe; cbn [bind]; exact Er|]. split; [exact Tr|].
  intros i v I. destruct (Hr i v I) as (L & F1 & F2 & d & e & A & B & Id & Ie & Zd & Ze & D1 & D2 & E1 & E2 & G). exists A, B. split; [exact G|].
  intros x Ix. unfold inside in Ix. rewrite F1, F2 in Ix. destruct (ztile_within _ _ _ _ Yz Id) as (_ & _ & P1 & P2). destruct (ztile_within _ _ _ _ Ye Ie) as (_ & _ & Q1 & Q2).
  split; [apply (Lz d A Id Zd)|apply (Le e B Ie Ze)]; unfold inside; [rewrite P1, P2|rewrite Q1, Q2]; lra.
Qed.
Print Assumptions gap2_lines.

Lemma rows_cover : forall l a b x, rows_tile l a b -> a <= x < b -> exists i v, In (i, v) l /\ inside i x /\ lo i <= x <= hi i.
Proof.
  induction l as [|[i v] l IH]; intros a b x T B; cbn in T; [lra|]. destruct T as (L & LH & I1 & I2 & T).
  destruct (Rlt_or_le x (hi i)) as [K|K]; [exists i, v; split; [now left|]; split; [unfold inside; rewrite I1, I2; lra|lra]|].
  destruct (IH _ _ x T ltac:(lra)) as (j & w & P & Q). exists j, w. split; [now right|exact Q].
Qed.

Lemma least_unique : forall fs d x v w, is_least fs d x v -> is_least fs d x w -> v = w.
Proof.
  intros fs d x v w (A & B & C) (A' & B' & C'). apply Rle_antisym.
  - destruct A' as [->|(f & i & I & J & ->)]; [exact B|]. now apply (C f i).
  - destruct A as [->|(f & i & I & J & ->)]; [exact B'|]. now apply (C' f i).
Qed.

(** So at every point the value of the two functions, for the least known bounds,
    is at most the largest of the printed numbers. *)
Theorem gap2_bounds : forall parse rf_str solve sp, solve_complete solve -> stationary_spec sp ->
  forall hs fz fe, readable parse (density_nodes hs) -> estimates_in parse (density_nodes hs) fz -> half_open_inputs fz -> defined_inputs unit_interval fz ->
  energy_readable parse hs -> energy_estimates_in parse hs fe -> half_open_inputs fe -> defined_inputs unit_interval fe ->
  (forall best_zd best_ze, best_zero_density_estimate parse rf_str solve (density_nodes hs) = Ret best_zd -> compute_best_energy_bound parse rf_str solve hs = Ret best_ze ->
    gap_defined (flat_map zn_zde best_zd) (flat_map an_zde best_ze)) ->
  exists rows, compute_gap2 parse rf_str solve sp hs = Ret rows /\
    forall x a b, 1/2 <= x < 1 -> is_least fz (Q2R (inject_Z 1000000)) x a -> is_least fe (Q2R (inject_Z 1000000)) x b ->
      exists i v, In (i, v) rows /\ inside i x /\ gap_alpha a b x <= v /\ gap_beta a b x <= v.
Proof.
  intros parse rf_str solve sp SC SS hs fz fe RZ EZ HZ DZ RE EE HE DE GD.
  destruct (gap2_lines parse rf_str solve sp SC SS hs fz fe RZ EZ HZ DZ RE EE HE DE) as (oz & oe & Oz & Oe & K). destruct (K (GD oz oe Oz Oe)) as (rows & Er & Tr & Hr).
  exists rows. split; [exact Er|]. intros x a b Bx La Lb. destruct (rows_cover _ _ _ x Tr Bx) as (i & v & I & J & Cl). exists i, v. split; [exact I|]. split; [exact J|].
  destruct (Hr i v I) as (A & B & (_ & M) & L). destruct (L x J) as [LA LB]. specialize (M x Cl).
  rewrite (least_unique _ _ _ _ _ La LA), (least_unique _ _ _ _ _ Lb LB). unfold gap_max in M. pose proof (Rmax_l (gap_alpha (rfval A x) (rfval B x) x) (gap_beta (rfval A x) (rfval B x) x)). pose proof (Rmax_r (gap_alpha (rfval A x) (rfval B x) x) (gap_beta (rfval A x) (rfval B x) x)). lra.
Qed.
Print Assumptions gap2_bounds.

(** ** One estimate of each kind *)
Section One.
Context (parse : str -> res rfun) (rf_str : rfun -> str) (solve : rfun -> rfun -> list R).
Lemma unit_ends : lo unit_interval = 1/2 /\ hi unit_interval = 1.
Proof. split; unfold unit_interval, Q2R; cbn; lra. Qed.
Definition small (f : rfun) : Prop := rf_eqb f f = true /\ forall x, 1/2 <= x < 1 -> ~ has_pole f x /\ rfval f x < Q2R (inject_Z 1000000).
Lemma cells_one : forall f rest a, small f -> ssorted (a :: rest) -> 1/2 <= a -> (forall c, In c (a :: rest) -> c <= 1) ->
  exists l, cells R Rltb Rmid rf_atR Rltb f unit_interval 0 (RationalFunction [inject_Z 1000000] None) (-1) a rest = Ret l /\
    (forall left, left <= a -> grow R Rltb Reqb true f left a 0 l = Ret [(f, mkV left (last rest a) true false, 0%Z)]) /\
    (rest <> [] -> merge_pieces R Rltb Reqb true l = Ret [(f, mkV a (last rest a) true false, 0%Z)]).
Proof.
  intros f rest. destruct unit_ends as [U1 U2]. induction rest as [|b rest IH]; intros a Sm S La Hc.
  - exists []. split; [reflexivity|]. split; [|congruence]. intros left Ll. cbn [grow last]. unfold mk_interval. destruct (Rltb a left) eqn:E; [apply Rltb_true in E; lra|]. reflexivity.
  - destruct S as [S1 S2]. assert (ab : a < b) by (inversion S1; auto). assert (b1 : b <= 1) by (apply Hc; right; now left).
    destruct (IH b Sm S2 ltac:(lra)) as (l & El & G & _); [intros c I; apply Hc; now right|].
    assert (M : a < Rmid a b < b) by (unfold Rmid; lra). destruct (proj2 Sm (Rmid a b) ltac:(lra)) as [NP Lt].
    cbn [cells]. rewrite mk_interval_ok by auto. cbn [bind].
    assert (C : icontains R Rltb unit_interval (Rmid a b) = true). { apply contains_inside. unfold inside. cbn [ilo ihi unit_interval]. change (lo unit_interval <= Rmid a b < hi unit_interval). rewrite U1, U2. lra. }
    rewrite C. cbn [negb]. rewrite rf_atR_ok by apply fdef_pole. cbn [bind]. rewrite rf_atR_ok by exact NP. cbn [bind]. rewrite El. cbn [bind].
    assert (N : Rltb (rfval (RationalFunction [inject_Z 1000000] None) (Rmid a b)) (rfval f (Rmid a b)) = false). { rewrite fdef_val. destruct (Rltb _ _) eqn:E; [apply Rltb_true in E; lra|reflexivity]. }
    rewrite N. eexists. split; [reflexivity|]. rewrite last_cons. split.
    + intros left Ll. cbn [grow lo hi]. rewrite (proj1 Sm). unfold Reqb at 1. destruct (Req_EM_T a a); [|congruence]. cbn [andb orb negb]. rewrite Z.eqb_refl. apply G. lra.
    + intros _. cbn [merge_pieces lo hi]. apply G. lra.
Qed.
Lemma min_one : forall f, small f -> rf_min R Rltb Reqb Rmid rf_atR solve [(f, unit_interval)] unit_interval true = Ret [(f, unit_interval, 0%Z)].
Proof.
  intros f Sm. destruct unit_ends as [U1 U2]. unfold rf_min, compute_optimal. cbn [optimal_from mapM split_piece Z.of_nat]. unfold crits.
  set (X := filter (icontains R Rltb unit_interval) (solve f (RationalFunction [inject_Z 1000000] None) ++ [lo unit_interval; hi unit_interval]) ++ [lo unit_interval; hi unit_interval]).
  pose proof (sorted_set_sorted X) as S.
  assert (Bn : forall c, In c (sorted_set R Rltb X) -> 1/2 <= c <= 1).
  { intros c I. apply (proj1 (sorted_set_in X c)) in I. unfold X in I. apply in_app_or in I as [I|[<-|[<-|[]]]]; [|lra|lra]. apply filter_In in I as [_ I]. apply contains_inside in I. unfold inside in I. cbn [ilo ihi unit_interval] in I. fold unit_interval in I. change (lo unit_interval <= c < hi unit_interval) in I. lra. }
  assert (Ilo : In (1/2) (sorted_set R Rltb X)). { apply (proj2 (sorted_set_in X _)). unfold X. apply in_or_app. right. left. exact U1. }
  assert (Ihi : In 1 (sorted_set R Rltb X)). { apply (proj2 (sorted_set_in X _)). unfold X. apply in_or_app. right. right. left. exact U2. }
  destruct (sorted_set R Rltb X) as [|a rest] eqn:E; [destruct Ilo|].
  assert (Ea : a = 1/2). { destruct Ilo as [|Hin]; auto. destruct S as [S1 _]. rewrite Forall_forall in S1. specialize (S1 _ Hin). specialize (Bn a (or_introl eq_refl)). lra. }
  destruct (cells_one f rest a Sm S) as (l & El & _ & M); [lra|intros c I; apply Bn in I; lra|]. rewrite El. cbn [bind concat]. rewrite app_nil_r.
  rewrite M; [|intros ->; destruct Ihi as [?|[]]; lra]. cbn [bind optimal_from]. rewrite (ssorted_last rest a 1); [|exact S|exact Ihi|intros c I; apply Bn in I; lra].
  rewrite Ea. rewrite <- U1, <- U2. reflexivity.
Qed.
Lemma best_one : forall n e f p r ds, small f ->
  best_zero_density_estimate parse rf_str solve [ZNode n (mkZ e unit_interval (Some f)) p r ds] = Ret [ZNode n (mkZ (rf_str f) unit_interval (Some f)) p r []].
Proof.
  intros n e f p r ds Sm. unfold best_zero_density_estimate. cbn [zero_density_estimates flat_map app mapM map fst snd ensure_bound z_bound bind bound_of z_int]. rewrite (min_one f Sm). reflexivity.
Qed.
Lemma best_energy_one : forall h n e f p r ds, energy_in [h] = [] -> small f ->
  compute_best_energy_bound parse rf_str solve [h; ANode n TEnergy (mkZ e unit_interval (Some f)) p r ds] = Ret [ANode n TEnergy (mkZ (rf_str f) unit_interval (Some f)) p r []].
Proof.
  intros h n e f p r ds H Sm. unfold compute_best_energy_bound.
  assert (E : energy_in [h; ANode n TEnergy (mkZ e unit_interval (Some f)) p r ds] = [(n, mkZ e unit_interval (Some f), p, r)]).
  { change ((energy_in [h]) ++ [(n, mkZ e unit_interval (Some f), p, r)] = [(n, mkZ e unit_interval (Some f), p, r)]) || idtac. cbn in H |- *. rewrite app_nil_r in H. rewrite H. reflexivity. }
  rewrite E. cbn [mapM fst snd ensure_bound z_bound bind bound_of z_int]. rewrite (min_one f Sm). reflexivity.
Qed.
End One.

(** A(x) <= 3 and A*(x) <= 9 - 8x, on [1/2, 1). *)
Definition three : rfun := RationalFunction [3]%Q None.
Definition falling : rfun := RationalFunction [-(8); 9]%Q None.
Lemma three_val : forall x, ~ has_pole three x /\ rfval three x = 3.
Proof. intro x. unfold has_pole, rfval, three. cbn. assert (Q2R 3 = 3) by (unfold Q2R; cbn; lra). assert (Q2R 1 = 1) by (unfold Q2R; cbn; lra). assert (Q2R 0 = 0) by (unfold Q2R; cbn; lra). rewrite ?H, ?H0, ?H1. split; [lra|field]. Qed.
Lemma falling_val : forall x, ~ has_pole falling x /\ rfval falling x = 9 - 8 * x.

Proof. intro x. unfold has_pole, rfval, falling. cbn. assert (Q2R 9 = 9) by (unfold Q2R; cbn; lra). assert (Q2R (-8) = -8) by (unfold Q2R; cbn; lra). assert (H9 : Q2R (-(8)) = -8) by (unfold Q2R; cbn; lra). assert (Q2R 1 = 1) by (unfold Q2R; cbn; lra). assert (Q2R 0 = 0) by (unfold Q2R; cbn; lra). rewrite ?H, ?H0, ?H1, ?H2, ?H9. split; [lra|field]. Qed.
Lemma big : Q2R (inject_Z 1000000) = 1000000. Proof. unfold Q2R; cbn; lra. Qed.
Lemma three_small : small three.
Proof. split; [reflexivity|]. intros x Bx. destruct (three_val x) as [P V]. split; [exact P|]. rewrite V, big. lra. Qed.
Lemma falling_small : small falling.
Proof. split; [reflexivity|]. intros x Bx. destruct (falling_val x) as [P V]. split; [exact P|]. rewrite V, big. lra. Qed.
Definition ex_density : anode := ABase (ZNode (s_of "A") (mkZ (s_of "3") unit_interval (Some three)) [] ref_trivial []).
Definition ex_energy (f : rfun) : anode := ANode (s_of "A*") TEnergy (mkZ [] unit_interval (Some f)) [] ref_trivial [].
Lemma unit_point : forall P : R -> Prop, P (1/2) -> P 1 -> forall x, In x [lo unit_interval; hi unit_interval] -> P x.
Proof. destruct unit_ends as [U1 U2]. intros P A B x [<-|[<-|[]]]; rewrite ?U1, ?U2; assumption. Qed.
Lemma two_crits : sorted_set R Rltb ([Q2R (1#2); Q2R 1] ++ [lo unit_interval; hi unit_interval] ++ [lo unit_interval; hi unit_interval]) = [Q2R (1#2); Q2R 1].
Proof.
  assert (H2 : Q2R (1#2) = 1/2) by (unfold Q2R; cbn; lra). assert (H1 : Q2R 1 = 1) by (unfold Q2R; cbn; lra). destruct unit_ends as [U1 U2]. rewrite U1, U2, H1, H2.
  assert (T : Rltb (1/2) 1 = true). { destruct (Rltb (1/2) 1) eqn:E; [reflexivity|apply Rltb_false in E; lra]. }
  assert (F : Rltb 1 (1/2) = false). { destruct (Rltb 1 (1/2)) eqn:E; [apply Rltb_true in E; lra|reflexivity]. }
  assert (Z1 : Rltb 1 1 = false). { destruct (Rltb 1 1) eqn:E; [apply Rltb_true in E; lra|reflexivity]. }
  assert (Z2 : Rltb (1/2) (1/2) = false). { destruct (Rltb (1/2) (1/2)) eqn:E; [apply Rltb_true in E; lra|reflexivity]. }
  unfold sorted_set. cbn [app fold_right ins]. repeat (rewrite ?T, ?F, ?Z1, ?Z2; cbn [ins]). reflexivity.
Qed.

(** A pole of the first function inside an interval is not noticed.  Where the two
    bounds are equal the function is unbounded, and a number is printed. *)
Theorem gap2_pole_refuted : forall parse rf_str solve sp, stationary_no_poles sp ->
  exists v, compute_gap2 parse rf_str solve sp [ex_density; ex_energy falling] = Ret [(unit_interval, v)] /\
    forall m, exists x, 1/2 <= x < 1 /\ m < gap_alpha (rfval three x) (rfval falling x) x.
Proof.
  intros parse rf_str solve sp NP. destruct unit_ends as [U1 U2].
  unfold compute_gap2. change (density_nodes [ex_density; ex_energy falling]) with [ZNode (s_of "A") (mkZ (s_of "3") unit_interval (Some three)) [] ref_trivial []].
  rewrite (best_one parse rf_str solve _ _ _ _ _ _ three_small). cbn [bind]. unfold ex_energy. rewrite (best_energy_one parse rf_str solve ex_density _ _ _ _ _ _ eq_refl falling_small). cbn [bind flat_map zn_zde an_zde app ends z_int].
  pose proof two_crits as TC. cbn [app] in TC. rewrite TC. cbn [gap_cells].
  assert (MK : mk_interval R Rltb (Q2R (1#2)) (Q2R 1) = Ret unit_interval) by (apply mk_interval_ok, half_lt_one). rewrite MK. cbn [bind].
  assert (M : icontains R Rltb unit_interval (Rmid (Q2R (1#2)) (Q2R 1)) = true).
  { apply contains_inside. unfold inside. cbn [ilo ihi unit_interval lo hi]. pose proof half_lt_one. unfold Rmid. lra. }
  unfold next_bound. cbn [find z_int]. rewrite M. cbn [bound_of z_bound bind].
  assert (PA : forall x, x <> 3/4 -> ~ has_pole (alpha three falling) x).
  { intros x N. apply alpha_value; [apply three_val|apply falling_val|]. rewrite (proj2 (three_val x)), (proj2 (falling_val x)). lra. }
  assert (PB : forall x, ~ has_pole (beta three falling) x).
  { intros x. apply beta_value; [apply three_val|apply falling_val|]. rewrite (proj2 (three_val x)). lra. }
  assert (Pt : forall f x, (forall y, y <> 3/4 -> ~ has_pole f y) -> In x (filter (icontains R Rltb unit_interval) (sp f) ++ [lo unit_interval; hi unit_interval]) -> ~ has_pole f x).
  { intros f x H I. apply in_app_or in I as [I|[<-|[<-|[]]]]; [apply filter_In in I; now apply NP|rewrite U1; apply H; lra|rewrite U2; apply H; lra]. }
  destruct (sup_on_points sp (alpha three falling) unit_interval) as (v & Ev & _); [intros x I; exact (Pt _ _ PA I)|].
  destruct (sup_on_points sp (beta three falling) unit_interval) as (w & Ew & _); [intros x I; apply PB|].
  rewrite Ev. cbn [bind]. rewrite Ew. cbn [bind]. exists (Rmax v w). split; [reflexivity|].
  intro m. set (k := Rmax m 0 + 8). assert (K : 8 <= k /\ m < k) by (unfold k; pose proof (Rmax_l m 0); pose proof (Rmax_r m 0); lra).
  exists (3/4 + 1 / (32 * k)). assert (P : 0 < 1 / (32 * k) <= 1/256).
  { split; [apply Rdiv_lt_0_compat; lra|]. unfold Rdiv. rewrite !Rmult_1_l. apply Rinv_le_contravar; lra. }
  split; [lra|]. rewrite (proj2 (three_val _)), (proj2 (falling_val _)). unfold gap_alpha. set (e := 1 / (32 * k)) in *.
  assert (Ek : e * (32 * k) = 1) by (unfold e; field; lra).
  replace (4 * (3/4 + e) - 2 + 2 * ((9 - 8 * (3/4 + e)) * (1 - (3/4 + e)) - 1) / (9 - 8 * (3/4 + e) - 3)) with (1 + 4 * e + (1/4 + 5 * e - 8 * e * e) * (1 / (4 * e))) by (field; lra).
  assert (Inv : 1 / (4 * e) = 8 * k). { apply (Rmult_eq_reg_r (4 * e)); [|lra]. unfold Rdiv. rewrite Rmult_assoc, Rinv_l by lra. lra. }
  rewrite Inv. assert (8 * e * e <= e) by nra. nra.
Qed.
Print Assumptions gap2_pole_refuted.

(** ** Examples *)
Example ex_solvers : exists sp, stationary_spec sp /\ stationary_no_poles sp.
Proof. exact stationary_solver_exists. Qed.
(** A(x) <= 3 and A*(x) <= 6: the result bounds alpha. *)
Definition six : rfun := RationalFunction [6]%Q None.
Lemma six_val : forall x, ~ has_pole six x /\ rfval six x = 6.
Proof. intro x. unfold has_pole, rfval, six. cbn. assert (Q2R 6 = 6) by (unfold Q2R; cbn; lra). assert (Q2R 1 = 1) by (unfold Q2R; cbn; lra). assert (Q2R 0 = 0) by (unfold Q2R; cbn; lra). rewrite ?H, ?H0, ?H1. split; [lra|field]. Qed.
Lemma six_small : small six.
Proof. split; [reflexivity|]. intros x Bx. destruct (six_val x) as [P V]. split; [exact P|]. rewrite V, big. lra. Qed.
Example ex_gap : forall parse rf_str solve sp, solve_complete solve -> stationary_spec sp ->
  exists rows, compute_gap2 parse rf_str solve sp [ex_density; ex_energy six] = Ret rows /\
    forall x, 1/2 <= x < 1 -> exists i v, In (i, v) rows /\ inside i x /\ gap_alpha 3 6 x <= v.
Proof.
  intros parse rf_str solve sp SC SS. destruct unit_ends as [U1 U2].
  destruct (gap2_bounds parse rf_str solve sp SC SS [ex_density; ex_energy six] [(three, unit_interval)] [(six, unit_interval)]) as (rows & Er & H).
  - intros n d p r ds [E|[]]. injection E as <- <- <- <- <-. exists three. now left.
  - intros f i. split; [intros [E|[]]; injection E as <- <-; do 5 eexists; split; [left; reflexivity|]; split; [left; reflexivity|reflexivity]|].
    intros (n & d & p & r & ds & [E|[]] & Rd & ->). injection E as <- <- <- <- <-. left. destruct Rd as [E|[E _]]; [|discriminate]. injection E as <-. reflexivity.
  - intros f i [E|[]]. injection E as <- <-. auto.
  - intros f i x [E|[]] _ _. injection E as <- <-. apply three_val.
  - intros n d p r ds [E|[E|[]]]; [discriminate|]. injection E as <- <- <- <- <-. exists six. now left.
  - intros f i. split; [intros [E|[]]; injection E as <- <-; do 5 eexists; split; [right; left; reflexivity|]; split; [left; reflexivity|reflexivity]|].
    intros (n & d & p & r & ds & [E|[E|[]]] & Rd & ->); [discriminate|]. injection E as <- <- <- <- <-. left. destruct Rd as [E|[E _]]; [|discriminate]. injection E as <-. reflexivity.
  - intros f i [E|[]]. injection E as <- <-. auto.
  - intros f i x [E|[]] _ _. injection E as <- <-. apply six_val.
  - intros oz oe Ez Ee. change (density_nodes [ex_density; ex_energy six]) with [ZNode (s_of "A") (mkZ (s_of "3") unit_interval (Some three)) [] ref_trivial []] in Ez.
    rewrite (best_one parse rf_str solve _ _ _ _ _ _ three_small) in Ez. unfold ex_energy in Ee. rewrite (best_energy_one parse rf_str solve ex_density _ _ _ _ _ _ eq_refl six_small) in Ee. injection Ez as <-. injection Ee as <-.
    intros d e A B x [<-|[]] [<-|[]] EA EB _ _. injection EA as <-. injection EB as <-. rewrite (proj2 (three_val x)), (proj2 (six_val x)). split; [apply three_val|]. split; [apply six_val|]. lra.
  - exists rows. split; [exact Er|]. intros x Bx.
    assert (I : inside unit_interval x) by (unfold inside; cbn [ilo ihi unit_interval]; change (lo unit_interval <= x < hi unit_interval); lra).
    destruct (H x 3 6 Bx) as (i & v & P & Q & R1 & _).
    + split; [right; exists three, unit_interval; split; [now left|]; split; [exact I|symmetry; apply three_val]|]. split; [rewrite big; lra|]. intros f i [E|[]] _. injection E as <- <-. rewrite (proj2 (three_val x)). lra.
    + split; [right; exists six, unit_interval; split; [now left|]; split; [exact I|symmetry; apply six_val]|]. split; [rewrite big; lra|]. intros f i [E|[]] _. injection E as <- <-. rewrite (proj2 (six_val x)). lra.
    + exists i, v. auto.
Qed.
