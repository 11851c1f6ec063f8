(** Properties C07 and C08: rational functions. *)
From Coq Require Import Reals Ranalysis Qreals.
From Verif Require Import Base Model_Polynomial Spec_Polynomial Proof_Polynomial
  Model_RationalFunction Spec_RationalFunction Proof_RationalFunction Proof_RFOptimal.

(** ** C07 (over Q).  [operand_value] is the number itself or the value of the
    other rational function. *)
Theorem rational_add : forall f o x v w, rf_at f x = Ret v -> operand_value o x = Ret w ->
  exists r, rf_at (rf_add f o) x = Ret r /\ r == v + w.
Proof. exact rf_add_at. Qed.
Print Assumptions rational_add.
Theorem rational_subtract : forall f o x v w, rf_at f x = Ret v -> operand_value o x = Ret w ->
  exists r, rf_at (rf_subtract f o) x = Ret r /\ r == v - w.
Proof. exact rf_subtract_at. Qed.
Print Assumptions rational_subtract.
Theorem rational_mul : forall f o x v w, rf_at f x = Ret v -> operand_value o x = Ret w ->
  exists r, rf_at (rf_mul f o) x = Ret r /\ r == v * w.
Proof. exact rf_mul_at. Qed.
Print Assumptions rational_mul.
Theorem rational_div : forall f g x v w, rf_at f x = Ret v -> rf_at g x = Ret w -> ~ w == 0 ->
  exists r, rf_at (rf_div f (ORat g)) x = Ret r /\ r == v / w.
Proof. exact rf_div_at. Qed.
Print Assumptions rational_div.

(** The coefficient constructor: coefficients from the highest degree down. *)
Fixpoint horner (high_first : list Q) (acc x : Q) : Q :=
  match high_first with [] => acc | c :: l => horner l (acc * x + c) x end.
Lemma horner_app : forall l c acc x, horner (l ++ [c]) acc x == horner l acc x * x + c.
Proof. induction l as [|a l IH]; intros c acc x; cbn; [reflexivity|]. apply IH. Qed.
Theorem rational_constructor : forall n d x,
  ~ horner d 0 x == 0 ->
  exists v, rf_at (RationalFunction n (Some d)) x = Ret v /\ v == horner n 0 x / horner d 0 x.
Proof.
  assert (H : forall l x, eval (rev l) x == horner l 0 x).
  { intros l x. rewrite <- (rev_involutive l) at 2. induction (rev l) as [|c m IH]; [reflexivity|].
    cbn [eval rev]. rewrite horner_app, IH. ring. }
  intros n d x N. rewrite rf_at_den.
  - eexists. split; [reflexivity|]. cbn [RationalFunction num den]. rewrite !expr_of_coeffs_eval, !H. reflexivity.
  - cbn [RationalFunction num den]. rewrite expr_of_coeffs_eval, H. exact N.
Qed.
Print Assumptions rational_constructor.

(** Equality is equality of values away from the poles. *)
Theorem rational_equality : forall f g, expr_is_zero (den f) = false -> expr_is_zero (den g) = false ->
  (rf_eqb f g = true <-> forall x v w, rf_at f x = Ret v -> rf_at g x = Ret w -> v == w).
Proof. exact rf_eqb_iff. Qed.
Print Assumptions rational_equality.

(** Finding: dividing by a number multiplies by it. *)
Theorem rational_div_number_refuted : exists f c x v r,
  rf_at f x = Ret v /\ ~ c == 0 /\ rf_at (rf_div f (ONum c)) x = Ret r /\ ~ r == v / c.
Proof.
  exists (RationalFunction [1; 0] None), 2, 3. do 2 eexists.
  split; [vm_compute; reflexivity|]. split; [lra|]. split; [vm_compute; reflexivity|]. intro H. vm_compute in H. discriminate.
Qed.
Print Assumptions rational_div_number_refuted.
(** ... and exactly so at every point; it is right only when v = 0 or c = 1 or -1. *)
Theorem rational_div_number : forall f c x v, rf_at f x = Ret v -> ~ c == 0 ->
  exists r, rf_at (rf_div f (ONum c)) x = Ret r /\ r == v * c /\
    (r == v / c <-> v == 0 \/ c == 1 \/ c == -(1)).
Proof.
  intros f c x v H N. destruct (rf_mul_at f (ONum c) x v c H eq_refl) as [r [E V]].
  exists r. split; [exact E|]. split; auto. rewrite V. split.
  - intros Q0. assert (P : v * ((c - 1) * (c + 1)) == 0).
    { transitivity ((v * c - v / c) * c); [field; auto|]. rewrite Q0. field. auto. }
    apply Qmult_integral in P. destruct P as [P|P]; [now left|]. apply Qmult_integral in P.
    right. destruct P; [left|right]; lra.
  - intros [Z|[Z|Z]]; rewrite Z; field; lra.
Qed.
Print Assumptions rational_div_number.
(** Finding: the [-] operator raises for every argument. *)
Theorem rational_minus_operator_refuted : forall f o r, op_sub f o <> Ret r.
Proof. intros f o r. discriminate. Qed.
Print Assumptions rational_minus_operator_refuted.

Example rational_case : exists r,
  rf_at (rf_add (RationalFunction [1; 1] (Some [1; 0])) (ORat (RationalFunction [2] (Some [1; -(3)])))) 5 = Ret r /\
  r == 11#5.
Proof. eexists. split; [vm_compute; reflexivity|]. reflexivity. Qed.

(** RationalFunction2 predicates are right for coefficients listed from the
    lowest degree ... *)
Theorem rf2_is_constant_low_first : forall f, r2_is_constant f = true ->
  forall x y, eval (num2 f) x * eval (den2 f) y == eval (num2 f) y * eval (den2 f) x.
Proof.
  intros f H x y. unfold r2_is_constant in H. apply andb_true_iff in H. destruct H as [H1 H2].
  apply forallb_zero in H1. apply forallb_zero in H2.
  destruct (num2 f) as [|a n], (den2 f) as [|b d]; cbn in *; try ring.
  rewrite (all_zero_eval n x H1), (all_zero_eval n y H1), (all_zero_eval d x H2), (all_zero_eval d y H2). ring.
Qed.
Print Assumptions rf2_is_constant_low_first.
(** ... while the printing code (functions.py 697-715) lists them from the
    highest degree, under which reading [is_constant] is wrong: x/1 is called
    constant. *)
Theorem rf2_is_constant_high_first_refuted : exists f x y,
  r2_is_constant f = true /\
  ~ horner (num2 f) 0 x / horner (den2 f) 0 x == horner (num2 f) 0 y / horner (den2 f) 0 y.
Proof.
  exists (RationalFunction2_of_pair [1; 0] [1]), 0, 1. split; [vm_compute; reflexivity|].
  vm_compute. discriminate.
Qed.
Print Assumptions rf2_is_constant_high_first_refuted.
(** The documented "list of numbers" form of the constructor fails for every
    polynomial of positive degree. *)
Theorem rf2_list_constructor_refuted : forall a b l r, RationalFunction2_of_list (a :: b :: l) <> Ret r.
Proof. intros. discriminate. Qed.
Print Assumptions rf2_list_constructor_refuted.

(** ** C08 (over R) *)
From Coq Require Import Lra.
Local Open Scope R_scope.

Lemma tiles_of_chain : forall l a b, chain l a b -> half_open l -> tiles l a b.
Proof.
  induction l as [|[[f i] r] l IH]; intros a b C H; cbn in *; auto.
  inversion H as [|? ? F H']; subst. destruct F as [F1 F2]. destruct C as [E [L C]].
  split; [exact E|]. split; [exact L|]. split; [exact F1|]. split; [exact F2|]. now apply IH.
Qed.

Lemma in_half_open : forall i x, ilo i = true -> ihi i = false -> inside i x -> lo i <= x < hi i.
Proof. intros i x E1 E2 [I1 I2]. rewrite E1 in I1. rewrite E2 in I2. lra. Qed.

Theorem rational_max_optimal : forall solve, solve_complete solve ->
  forall fs domain track, lo domain < hi domain -> fs <> [] -> no_poles track domain fs ->
  exists l, rf_max R Rltb Reqb Rmid rf_atR solve fs domain track = Ret l /\
    tiles l (lo domain) (hi domain) /\
    forall f i r, In (f, i, r) l ->
      comes_from track fs (inject_Z (-1000000)) f i r /\
      forall x, inside i x -> ~ is_endpoint fs x ->
        is_greatest fs (Q2R (inject_Z (-1000000))) x (rfval f x).
Proof.
  intros solve S fs domain track D Ne NP.
  destruct (compute_ok solve S 1 (or_introl eq_refl) (fun x y => Rltb y x)
    ltac:(intros x y H; apply Rltb_true in H; lra) ltac:(intros x y H; apply Rltb_false in H; lra)
    (inject_Z (-1000000)) track (lo domain) (hi domain) fs domain eq_refl eq_refl D NP)
    as [l [E [C [A H]]]].
  specialize (H Ne). exists l. split; [exact E|]. split; [now apply tiles_of_chain|].
  intros f i r Hin. unfold all_good in A. rewrite Forall_forall in A. specialize (A _ Hin). cbn in A.
  unfold half_open in H. rewrite Forall_forall in H. specialize (H _ Hin). cbn in H. destruct H as [F1 F2].
  destruct A as [_ [_ [Src [_ O]]]]. split; [exact Src|].
  intros x I NE. destruct (O x (in_half_open i x F1 F2 I) NE) as [O1 [O2 O3]].
  split; [exact O1|]. split; [lra|]. intros g j Hg Ij. specialize (O3 g j Hg Ij). lra.
Qed.
Print Assumptions rational_max_optimal.

Theorem rational_min_optimal : forall solve, solve_complete solve ->
  forall fs domain track, lo domain < hi domain -> fs <> [] -> no_poles track domain fs ->
  exists l, rf_min R Rltb Reqb Rmid rf_atR solve fs domain track = Ret l /\
    tiles l (lo domain) (hi domain) /\
    forall f i r, In (f, i, r) l ->
      comes_from track fs (inject_Z 1000000) f i r /\
      forall x, inside i x -> ~ is_endpoint fs x ->
        is_least fs (Q2R (inject_Z 1000000)) x (rfval f x).
Proof.
  intros solve S fs domain track D Ne NP.
  destruct (compute_ok solve S (-1) (or_intror eq_refl) Rltb
    ltac:(intros x y H; apply Rltb_true in H; lra) ltac:(intros x y H; apply Rltb_false in H; lra)
    (inject_Z 1000000) track (lo domain) (hi domain) fs domain eq_refl eq_refl D NP)
    as [l [E [C [A H]]]].
  specialize (H Ne). exists l. split; [exact E|]. split; [now apply tiles_of_chain|].
  intros f i r Hin. unfold all_good in A. rewrite Forall_forall in A. specialize (A _ Hin). cbn in A.
  unfold half_open in H. rewrite Forall_forall in H. specialize (H _ Hin). cbn in H. destruct H as [F1 F2].
  destruct A as [_ [_ [Src [_ O]]]]. split; [exact Src|].
  intros x I NE. destruct (O x (in_half_open i x F1 F2 I) NE) as [O1 [O2 O3]].
  split; [exact O1|]. split; [lra|]. intros g j Hg Ij. specialize (O3 g j Hg Ij). lra.
Qed.
Print Assumptions rational_min_optimal.

(** For inputs with intervals [a, b) and no pole there, the result is right at
    every point of the domain. *)
Lemma everywhere : forall solve, solve_complete solve -> forall s, s = 1 \/ s = -1 -> forall cmp,
  (forall x y, cmp x y = true -> s * y < s * x) -> (forall x y, cmp x y = false -> s * x <= s * y) ->
  forall default fs domain track, lo domain < hi domain -> fs <> [] -> no_poles track domain fs -> half_open_inputs fs -> defined_inputs domain fs ->
  exists l, compute_optimal R Rltb Reqb Rmid rf_atR solve fs domain cmp default track = Ret l /\
    tiles l (lo domain) (hi domain) /\
    forall f i r, In (f, i, r) l -> comes_from track fs default f i r /\
      forall x, inside i x -> ~ has_pole f x /\ is_opt s default fs x (rfval f x).
Proof.
  intros solve S s Hs cmp C1 C2 default fs domain track D Ne NP HO DI.
  destruct (compute_ok solve S s Hs cmp C1 C2 default track (lo domain) (hi domain) fs domain eq_refl eq_refl D NP) as [l [E [C [A H]]]].
  specialize (H Ne). exists l. split; [exact E|]. split; [now apply tiles_of_chain|]. intros f i r Hin.
  unfold all_good in A. rewrite Forall_forall in A. specialize (A _ Hin). cbn in A.
  unfold half_open in H. rewrite Forall_forall in H. specialize (H _ Hin). cbn in H. destruct H as [F1 F2].
  destruct A as [A1 [A2 [Src [Df O]]]]. split; [exact Src|]. intros x I. pose proof (in_half_open i x F1 F2 I) as B.
  assert (Nf : ~ has_pole f x).
  { destruct track; [|now apply Df]. destruct Src as [[_ ->]|[k [i' [_ [Hn Hi]]]]]; [apply fdef_pole|].
    apply nth_error_In in Hn. specialize (Hi eq_refl). apply (DI f i' x Hn); lra. }
  split; [exact Nf|]. apply (right_limit s Hs default fs HO f x (hi i - x)); [lra|exact Nf| |].
  - intros g j Hg J. destruct (HO g j Hg) as [G1 G2]. unfold inside in J. rewrite G1, G2 in J. apply (DI g j x Hg); [lra|exact J].
  - intros y Hy NE. apply O; [lra|exact NE].
Qed.

Theorem rational_max_everywhere : forall solve, solve_complete solve ->
  forall fs domain track, lo domain < hi domain -> fs <> [] ->
  no_poles track domain fs -> half_open_inputs fs -> defined_inputs domain fs ->
  exists l, rf_max R Rltb Reqb Rmid rf_atR solve fs domain track = Ret l /\
    tiles l (lo domain) (hi domain) /\
    forall f i r, In (f, i, r) l ->
      comes_from track fs (inject_Z (-1000000)) f i r /\
      forall x, inside i x -> ~ has_pole f x /\ is_greatest fs (Q2R (inject_Z (-1000000))) x (rfval f x).
Proof.
  intros solve S fs domain track D Ne NP HO DI.
  destruct (everywhere solve S 1 (or_introl eq_refl) (fun x y => Rltb y x)
    ltac:(intros x y H; apply Rltb_true in H; lra) ltac:(intros x y H; apply Rltb_false in H; lra)
    (inject_Z (-1000000)) fs domain track D Ne NP HO DI) as [l [E [T H]]].
  exists l. split; [exact E|]. split; [exact T|]. intros f i r Hin. destruct (H f i r Hin) as [Src O]. split; [exact Src|].
  intros x I. destruct (O x I) as [Nf [O1 [O2 O3]]]. split; [exact Nf|]. split; [exact O1|]. split; [lra|].
  intros g j Hg Ij. specialize (O3 g j Hg Ij). lra.
Qed.
Print Assumptions rational_max_everywhere.
Theorem rational_min_everywhere : forall solve, solve_complete solve ->
  forall fs domain track, lo domain < hi domain -> fs <> [] ->
  no_poles track domain fs -> half_open_inputs fs -> defined_inputs domain fs ->
  exists l, rf_min R Rltb Reqb Rmid rf_atR solve fs domain track = Ret l /\
    tiles l (lo domain) (hi domain) /\
    forall f i r, In (f, i, r) l ->
      comes_from track fs (inject_Z 1000000) f i r /\
      forall x, inside i x -> ~ has_pole f x /\ is_least fs (Q2R (inject_Z 1000000)) x (rfval f x).
Proof.
  intros solve S fs domain track D Ne NP HO DI.
  destruct (everywhere solve S (-1) (or_intror eq_refl) Rltb
    ltac:(intros x y H; apply Rltb_true in H; lra) ltac:(intros x y H; apply Rltb_false in H; lra)
    (inject_Z 1000000) fs domain track D Ne NP HO DI) as [l [E [T H]]].
  exists l. split; [exact E|]. split; [exact T|]. intros f i r Hin. destruct (H f i r Hin) as [Src O]. split; [exact Src|].
  intros x I. destruct (O x I) as [Nf [O1 [O2 O3]]]. split; [exact Nf|]. split; [exact O1|]. split; [lra|].
  intros g j Hg Ij. specialize (O3 g j Hg Ij). lra.
Qed.
Print Assumptions rational_min_everywhere.

(** Without functions the default is returned on the domain itself. *)
Theorem rational_max_no_functions : forall solve domain track,
  rf_max R Rltb Reqb Rmid rf_atR solve [] domain track =
  Ret [(RationalFunction [inject_Z (-1000000)] None, domain, (-1)%Z)].
Proof. reflexivity. Qed.

(** Tiles cover the half-open domain, each point once. *)
Theorem tiles_partition : forall l a b x, tiles l a b -> a <= x < b ->
  exists l1 f i r l2, l = l1 ++ (f, i, r) :: l2 /\ inside i x /\
    forall g j s, In (g, j, s) (l1 ++ l2) -> ~ inside j x.
Proof.
  induction l as [|[[f i] r] l IH]; intros a b x T Hx; cbn in T; [lra|].
  destruct T as [E [L [F1 [F2 T]]]].
  assert (Later : forall l a b, tiles l a b -> forall g j s, In (g, j, s) l -> a <= lo j /\ ilo j = true /\ ihi j = false /\ lo j < hi j).
  { clear. induction l as [|[[f i] r] l IH]; intros a b T g j s Hin; [destruct Hin|].
    cbn in T. destruct T as [E [L [F1 [F2 T]]]]. destruct Hin as [Eq|Hin].
    - inversion Eq; subst. repeat split; auto. lra.
    - destruct (IH _ _ T _ _ _ Hin) as [H1 H2]. split; [lra|exact H2]. }
  destruct (Rlt_or_le x (hi i)) as [Lx|Lx].
  - exists [], f, i, r, l. split; auto. split; [unfold inside; rewrite F1, F2; lra|].
    intros g j s Hin I. destruct (Later _ _ _ T _ _ _ Hin) as [H1 [H2 [H3 _]]].
    destruct I as [I1 I2]. rewrite H2 in I1. lra.
  - destruct (IH (hi i) b x T) as [l1 [f' [i' [r' [l2 [El [I U]]]]]]]; [lra|].
    exists ((f, i, r) :: l1), f', i', r', l2. split; [cbn; now rewrite El|]. split; auto.
    intros g j s [Eq|Hin]; [|eauto]. inversion Eq; subst. intros [I1 I2]. rewrite F2 in I2. lra.
Qed.
Print Assumptions tiles_partition.

(** Zeros of a non-zero real polynomial are finitely many. *)
Fixpoint evr (p : list R) (x : R) : R := match p with [] => 0 | c :: p' => c + x * evr p' x end.
Fixpoint qt (a : R) (p : list R) : list R :=
  match p with [] => [] | [_] => [] | _ :: p' => evr p' a :: qt a p' end.
Lemma qt_spec : forall a p x, evr p x = (x - a) * evr (qt a p) x + evr p a.
Proof.
  intros a. induction p as [|c p IHp]; intros x; [cbn; ring|]. destruct p as [|d p]; [cbn; ring|].
  change (qt a (c :: d :: p)) with (evr (d :: p) a :: qt a (d :: p)).
  change (evr (c :: d :: p) x) with (c + x * evr (d :: p) x).
  change (evr (c :: d :: p) a) with (c + a * evr (d :: p) a).
  rewrite (IHp x). cbn [evr]. ring.
Qed.
Lemma qt_length : forall a p, length (qt a p) = (length p - 1)%nat.
Proof.
  intros a. induction p as [|c p IHp]; [reflexivity|]. destruct p as [|d p]; [reflexivity|].
  change (qt a (c :: d :: p)) with (evr (d :: p) a :: qt a (d :: p)). cbn [length]. rewrite IHp. cbn. lia.
Qed.
Lemma qt_zero : forall a p, Forall (fun c => c = 0) (qt a p) -> evr p a = 0 -> Forall (fun c => c = 0) p.
Proof.
  intros a. induction p as [|c p IHp]; intros H E; [constructor|]. destruct p as [|d p].
  - constructor; [|constructor]. cbn in E. lra.
  - change (qt a (c :: d :: p)) with (evr (d :: p) a :: qt a (d :: p)) in H.
    change (evr (c :: d :: p) a) with (c + a * evr (d :: p) a) in E.
    remember (d :: p) as p'. inversion H as [|? ? H1 H2]; subst x l.
    constructor; [|now apply IHp]. rewrite H1 in E. lra.
Qed.
Lemma finite_zeros : forall n p, length p = n -> ~ Forall (fun c => c = 0) p ->
  exists roots, forall x, evr p x = 0 -> In x roots.
Proof.
  induction n as [|n IH]; intros p L NZ.
  - destruct p; [|discriminate]. exfalso. apply NZ. constructor.
  - destruct (Classical_Prop.classic (exists a, evr p a = 0)) as [[a Ha]|No].
    2:{ exists []. intros x Hx. apply No. eauto. }
    destruct (IH (qt a p)) as [roots Hr].
    + rewrite qt_length. lia.
    + intro Z. apply NZ. now apply (qt_zero a).
    + exists (a :: roots). intros x Hx. rewrite (qt_spec a p x), Ha in Hx.
      destruct (Req_dec x a) as [->|Nx]; [now left|]. right. apply Hr.
      apply (Rmult_eq_reg_l (x - a)); lra.
Qed.

(** The specification of sympy.solve is satisfiable. *)
Theorem solve_spec_on : forall (f g : rfun), rf_eqb f g = false ->
  exists roots : list R, forall x, ~ has_pole f x -> ~ has_pole g x -> rfval f x = rfval g x -> In x roots.
Proof.
  intros f g H. set (l := expand (ESub (EMul (num f) (den g)) (EMul (den f) (num g)))).
  assert (NZ : ~ all_zero l).
  { intro Z. apply forallb_zero in Z. unfold rf_eqb, expr_is_zero in H. fold l in H. congruence. }
  destruct (finite_zeros (length (map Q2R l)) (map Q2R l) eq_refl) as [roots Hr].
  - intro Z. apply NZ. clear -Z. induction l as [|c l IH]; constructor; inversion Z; subst.
    + apply eqR_Qeq. rewrite Q2R_0. auto.
    + now apply IH.
  - exists roots. intros x Nf Ng E. apply Hr.
    assert (Ev : evr (map Q2R l) x = evalR l x).
    { clear. induction l as [|c l IH]; cbn; [reflexivity|]. now rewrite IH. }
    rewrite Ev. unfold l. rewrite expand_evalR. cbn. unfold rfval, has_pole in *.
    replace (reval (num f) x) with (reval (num f) x / reval (den f) x * reval (den f) x) by (field; auto).
    rewrite E. field. auto.
Qed.
Print Assumptions solve_spec_on.

(** Extrema over a closed interval. *)
Lemma rf_atR_ok : forall f x, ~ has_pole f x -> rf_atR f x = Ret (rfval f x).
Proof. intros f x H. unfold rf_atR. destruct (Req_EM_T (reval (den f) x) 0); auto. contradiction. Qed.

Lemma pick_ok : forall (s : R) better, (forall v w, better v w = true -> s * w < s * v) ->
  (forall v w, better v w = false -> s * v <= s * w) ->
  forall f l bx, (forall x, In x l -> ~ has_pole f x) ->
  exists y, pick R rf_atR better f bx (rfval f bx) l = Ret (y, rfval f y) /\ In y (bx :: l) /\
    forall x, In x (bx :: l) -> s * rfval f x <= s * rfval f y.
Proof.
  intros s better B1 B2 f. induction l as [|x l IH]; intros bx NP; cbn [pick].
  - exists bx. split; auto. split; [now left|]. intros x [->|[]]. lra.
  - rewrite rf_atR_ok by (apply NP; now left). cbn [bind].
    destruct (better (rfval f x) (rfval f bx)) eqn:E.
    + apply B1 in E. destruct (IH x) as [y [Ey [Hin M]]]; [intros z Hz; apply NP; now right|].
      exists y. split; auto. split; [now right|]. intros z [->|Hz]; [|auto].
      specialize (M x (or_introl eq_refl)). lra.
    + apply B2 in E. destruct (IH bx) as [y [Ey [Hin M]]]; [intros z Hz; apply NP; now right|].
      exists y. split; auto. split; [destruct Hin as [|]; [now left|right; now right]|].
      intros z [->|[->|Hz]]; [apply M; now left| |apply M; now right].
      specialize (M bx (or_introl eq_refl)). lra.
Qed.

Lemma const_R : forall e, expr_is_constant e = true -> forall x y, reval e x = reval e y.
Proof.
  intros e H x y. unfold expr_is_constant in H. apply forallb_zero in H.
  rewrite <- !expand_evalR. destruct (expand e) as [|c l]; [reflexivity|]. cbn in *.
  rewrite (all_zero_evalR l x H), (all_zero_evalR l y H). ring.
Qed.

(** some critical point is at least as good as every point *)
Lemma critical_point_dominates : forall roots, roots_complete roots ->
  forall (s : R) f i, (s = 1 \/ s = -1) -> lo i <= hi i ->
  (forall x, lo i <= x <= hi i -> ~ has_pole f x) ->
  exists c, In c (critical_pts R Rltb roots f i) /\
    forall x, lo i <= x <= hi i -> s * rfval f x <= s * rfval f c.
Proof.
  intros roots Rc s f i Hs Hi NP.
  set (h := fun x => s * rfval f x).
  set (D := fun x => (reval (ediff (num f)) x * reval (den f) x - reval (ediff (den f)) x * reval (num f) x)).
  assert (Dh : forall x, lo i <= x <= hi i -> derivable_pt_lim h x (s * (D x / Rsqr (reval (den f) x)))).
  { intros x Hx. apply (derivable_pt_lim_scal (rfval f)). apply rfval_derivable. now apply NP. }
  assert (Ch : forall x, lo i <= x <= hi i -> continuity_pt h x).
  { intros x Hx. apply derivable_continuous_pt. eexists. apply Dh. exact Hx. }
  assert (St : forall x, reval (stationary f) x = - D x).
  { intros x. unfold stationary, D. cbn. ring. }
  destruct (continuity_ab_maj h (lo i) (hi i) Hi Ch) as [M [HM BM]].
  assert (Elo : In (lo i) (critical_pts R Rltb roots f i)) by (unfold critical_pts; now left).
  assert (Ehi : In (hi i) (critical_pts R Rltb roots f i)) by (unfold critical_pts; right; now left).
  destruct (Req_dec M (lo i)) as [E1|N1]; [exists (lo i); split; auto; subst M; exact HM|].
  destruct (Req_dec M (hi i)) as [E2|N2]; [exists (hi i); split; auto; subst M; exact HM|].
  assert (Zero : D M = 0).
  { assert (pr : derivable_pt h M) by (eexists; apply Dh; auto).
    assert (Z : derive_pt h M pr = 0).
    { apply (deriv_maximum h (lo i) (hi i) M pr); try lra. intros x H1 H2. apply HM. lra. }
    assert (E : derive_pt h M pr = s * (D M / Rsqr (reval (den f) M))).
    { apply derive_pt_eq_0. apply Dh. auto. }
    rewrite Z in E. assert (NPM := NP M BM). unfold has_pole in NPM.
    assert (Sq : Rsqr (reval (den f) M) <> 0) by (intro K; apply Rsqr_0_uniq in K; auto).
    assert (D M / Rsqr (reval (den f) M) = 0) by (destruct Hs; subst s; lra).
    apply (Rmult_eq_reg_r (/ Rsqr (reval (den f) M))); [|now apply Rinv_neq_0_compat].
    unfold Rdiv in H. lra. }
  destruct (expr_is_constant (stationary f)) eqn:Cst.
  - assert (AllZ : forall x, D x = 0).
    { intros x. pose proof (const_R _ Cst x M) as E. rewrite !St in E. lra. }
    assert (pr : forall x, lo i < x < hi i -> derivable_pt h x) by (intros x Hx; eexists; apply Dh; lra).
    assert (K : constant_D_eq h (fun x => lo i <= x <= hi i) (h (lo i))).
    { apply (null_derivative_loc h (lo i) (hi i) pr Ch).
      intros x P. apply derive_pt_eq_0. replace 0 with (s * (D x / Rsqr (reval (den f) x))); [apply Dh; lra|].
      rewrite AllZ. unfold Rdiv. ring. }
    exists (lo i). split; auto. intros x Hx. pose proof (K x Hx) as Kx. unfold h in Kx. lra.
  - exists M. split; [|exact HM]. unfold critical_pts. rewrite Cst. apply in_or_app. right.
    apply filter_In. split.
    + apply Rc; auto. rewrite St, Zero. ring.
    + apply contains_inside. split; [destruct (ilo i)|destruct (ihi i)]; lra.
Qed.

Lemma extremum_ok : forall roots, roots_complete roots ->
  forall (s : R) better, (s = 1 \/ s = -1) -> (forall v w, better v w = true -> s * w < s * v) ->
  (forall v w, better v w = false -> s * v <= s * w) ->
  forall f i, lo i <= hi i -> (forall x, lo i <= x <= hi i -> ~ has_pole f x) ->
  exists y, extremum R Rltb rf_atR roots better f i = Ret (y, rfval f y) /\ lo i <= y <= hi i /\
    forall x, lo i <= x <= hi i -> s * rfval f x <= s * rfval f y.
Proof.
  intros roots Rc s better Hs B1 B2 f i Hi NP.
  assert (Bnd : forall c, In c (critical_pts R Rltb roots f i) -> lo i <= c <= hi i).
  { intros c Hin. unfold critical_pts in Hin. apply in_app_or in Hin. destruct Hin as [[<-|[<-|[]]]|Hin]; try lra.
    destruct (expr_is_constant (stationary f)); [destruct Hin|]. apply filter_In in Hin. destruct Hin as [_ I].
    apply contains_inside in I. destruct I as [I1 I2]. destruct (ilo i), (ihi i); lra. }
  destruct (critical_point_dominates roots Rc s f i Hs Hi NP) as [c [Hc Dom]].
  unfold extremum. destruct (critical_pts R Rltb roots f i) as [|x l]; [destruct Hc|].
  rewrite rf_atR_ok by (apply NP, Bnd; now left). cbn [bind].
  destruct (pick_ok s better B1 B2 f l x) as [y [Ey [Hy M]]].
  { intros z Hz. apply NP, Bnd. now right. }
  exists y. split; auto. split; [now apply Bnd|]. intros z Hz. specialize (Dom z Hz). specialize (M c Hc). lra.
Qed.

Theorem rational_maximise : forall roots, roots_complete roots -> forall f i, lo i <= hi i ->
  (forall x, lo i <= x <= hi i -> ~ has_pole f x) ->
  exists y, maximise R Rltb rf_atR roots f i = Ret (y, rfval f y) /\ lo i <= y <= hi i /\
    forall x, lo i <= x <= hi i -> rfval f x <= rfval f y.
Proof.
  intros roots Rc f i Hi NP.
  destruct (extremum_ok roots Rc 1 (fun v w => Rltb w v) (or_introl eq_refl)
    ltac:(intros v w H; apply Rltb_true in H; lra) ltac:(intros v w H; apply Rltb_false in H; lra) f i Hi NP)
    as [y [E [B M]]].
  exists y. split; [exact E|]. split; auto. intros x Hx. specialize (M x Hx). lra.
Qed.
Print Assumptions rational_maximise.
Theorem rational_minimise : forall roots, roots_complete roots -> forall f i, lo i <= hi i ->
  (forall x, lo i <= x <= hi i -> ~ has_pole f x) ->
  exists y, minimise R Rltb rf_atR roots f i = Ret (y, rfval f y) /\ lo i <= y <= hi i /\
    forall x, lo i <= x <= hi i -> rfval f y <= rfval f x.
Proof.
  intros roots Rc f i Hi NP.
  destruct (extremum_ok roots Rc (-1) Rltb (or_intror eq_refl)
    ltac:(intros v w H; apply Rltb_true in H; lra) ltac:(intros v w H; apply Rltb_false in H; lra) f i Hi NP)
    as [y [E [B M]]].
  exists y. split; [exact E|]. split; auto. intros x Hx. specialize (M x Hx). lra.
Qed.
Print Assumptions rational_minimise.

(** intersections: exactly the common values of two distinct functions. *)
Theorem rational_intersections : forall roots, roots_complete roots ->
  forall f g i x, ~ has_pole f x -> ~ has_pole g x -> inside i x -> rfval f x = rfval g x ->
  In x (intersections R Rltb roots f g i) \/
  forall y, ~ has_pole f y -> ~ has_pole g y -> rfval f y = rfval g y.
Proof.
  intros roots Rc f g i x Nf Ng I E. unfold intersections.
  set (e := ESub (EMul (num f) (den g)) (EMul (den f) (num g))).
  assert (Cross : forall y, ~ has_pole f y -> ~ has_pole g y -> (reval e y = 0 <-> rfval f y = rfval g y)).
  { intros y Pf Pg. unfold has_pole, rfval in *. unfold e. cbn. split; intros H.
    - apply (Rmult_eq_reg_r (reval (den f) y * reval (den g) y)).
      + replace (reval (num f) y / reval (den f) y * (reval (den f) y * reval (den g) y))
          with (reval (num f) y * reval (den g) y) by (field; auto).
        replace (reval (num g) y / reval (den g) y * (reval (den f) y * reval (den g) y))
          with (reval (den f) y * reval (num g) y) by (field; auto). lra.
      + now apply Rmult_integral_contrapositive_currified.
    - replace (reval (num f) y) with (reval (num f) y / reval (den f) y * reval (den f) y) by (field; auto).
      rewrite H. field. auto. }
  destruct (expr_is_constant e) eqn:C.
  - right. intros y Pf Pg. apply Cross; auto. rewrite (const_R e C y x). now apply Cross.
  - left. apply filter_In. split; [|now apply contains_inside]. apply Rc; auto. now apply Cross.
Qed.
Print Assumptions rational_intersections.

(** Non-vacuity: max of x and 1-x on [0,1), with the crossing at 1/2. *)
Example rational_everywhere_case :
  let fs := [(RationalFunction [1%Q] (Some [1%Q; 0%Q]), mkV 1 2 true false);
             (RationalFunction [1%Q; 0%Q] None, mkV (-1) 1 true false)] in
  let domain := mkV (-1) 2 true false in
  lo domain < hi domain /\ fs <> [] /\ no_poles false domain fs /\ half_open_inputs fs /\ defined_inputs domain fs /\
  has_pole (RationalFunction [1%Q] (Some [1%Q; 0%Q])) 0.
Proof.
  cbn zeta. split; [cbn; lra|]. split; [discriminate|]. split; [|split; [|split]].
  - intros f i x [E|[E|[]]] _; inversion E; subst; unfold has_pole; cbn; rewrite ?Q2R_0, ?Q2R_1; repeat split; intros; lra.
  - intros f i [E|[E|[]]]; inversion E; subst; auto.
  - intros f i x [E|[E|[]]] _; inversion E; subst; unfold has_pole; cbn; rewrite ?Q2R_0, ?Q2R_1; intros; lra.
  - unfold has_pole; cbn; rewrite ?Q2R_0, ?Q2R_1; lra.
Qed.
Example rational_max_case :
  let fs := [(RationalFunction [1%Q; 0%Q] None, mkV 0 1 true true);
             (RationalFunction [(-(1))%Q; 1%Q] None, mkV 0 1 true true)] in
  let domain := mkV 0 1 true false in
  lo domain < hi domain /\ fs <> [] /\ no_poles true domain fs /\ no_poles false domain fs /\
  is_greatest fs (Q2R (inject_Z (-1000000))) (/4) (3/4).
Proof.
  assert (V1 : forall x, rfval (RationalFunction [1%Q; 0%Q] None) x = x).
  { intros x. unfold rfval. cbn. rewrite ?Q2R_0, ?Q2R_1. field. }
  assert (V2 : forall x, rfval (RationalFunction [(-(1))%Q; 1%Q] None) x = 1 - x).
  { intros x. unfold rfval. cbn. rewrite ?Q2R_0, ?Q2R_1. change (Q2R (-1)) with (Q2R (-(1))). rewrite Q2R_m1. field. }
  cbn zeta. split; [cbn; lra|]. split; [discriminate|].
  assert (P : forall t, no_poles t (mkV 0 1 true false)
     [(RationalFunction [1%Q; 0%Q] None, mkV 0 1 true true);
      (RationalFunction [(-(1))%Q; 1%Q] None, mkV 0 1 true true)]).
  { intros t f i x [E|[E|[]]] _; inversion E; subst; unfold has_pole; cbn; rewrite Q2R_0, Q2R_1; repeat split; intros; lra. }
  split; [apply P|]. split; [apply P|].
  split; [|split].
  - right. eexists _, _. split; [right; left; reflexivity|]. split; [unfold inside; cbn; lra|]. rewrite V2. lra.
  - unfold Q2R. cbn. lra.
  - intros f i [E|[E|[]]] _; inversion E; subst; rewrite ?V1, ?V2; lra.
Qed.

(** Refutations of the unguarded claim, run at Q. *)
Local Open Scope Q_scope.
Definition Qmid (x y : Q) : Q := (x + y) / 2.
Notation rf_maxQ solve := (rf_max Q Qltb Qeqb Qmid rf_at solve).
Notation containsQ := (icontains Q Qltb).
Definition no_solutions (f g : rfun) : list Q := [].
(** a closed right endpoint of an input interval is lost *)
Theorem rational_max_endpoint_refuted :
  let five := RationalFunction [5] None in
  exists l f i r v, rf_maxQ no_solutions [(five, mkV 0 1 true true)] (mkV 0 2 true false) true = Ret l /\
    In (f, i, r) l /\ containsQ i 1 = true /\ rf_at f 1 = Ret v /\ v < 5 /\
    containsQ (mkV 0 1 true true) 1 = true.
Proof.
  cbn zeta. do 5 eexists. split; [vm_compute; reflexivity|].
  split; [right; left; reflexivity|]. split; [vm_compute; reflexivity|]. split; [vm_compute; reflexivity|].
  split; vm_compute; reflexivity.
Qed.
Print Assumptions rational_max_endpoint_refuted.
(** the right end of a closed domain is not covered; a one-point domain gives no piece *)
Theorem rational_max_closed_domain_refuted :
  let five := RationalFunction [5] None in
  (exists l, rf_maxQ no_solutions [(five, mkV 0 1 true true)] (mkV 0 1 true true) true = Ret l /\
     forall f i r, In (f, i, r) l -> containsQ i 1 = false) /\
  rf_maxQ no_solutions [(five, mkV 0 1 true true)] (mkV 1 1 true true) true = Ret [].
Proof.
  cbn zeta. split; [|vm_compute; reflexivity]. eexists. split; [vm_compute; reflexivity|].
  intros f i r [E|[]]; inversion E; subst. vm_compute. reflexivity.
Qed.
Print Assumptions rational_max_closed_domain_refuted.
(** a pole inside an input interval makes the choice wrong: max(1/x, 0) on [-1,2) *)
Definition solve_inv (f g : rfun) : list Q :=
  if rf_eqb f (RationalFunction [1] (Some [1; 0])) then [-(1) / inject_Z 1000000] else [].
Theorem rational_max_pole_refuted :
  let inv := RationalFunction [1] (Some [1; 0]) in
  let zero := RationalFunction [0] None in
  let I := mkV (-(1)) 2 true false in
  exists l f i r v, rf_maxQ solve_inv [(inv, I); (zero, I)] I true = Ret l /\
    In (f, i, r) l /\ containsQ i (-(1)/2) = true /\ rf_at f (-(1)/2) = Ret v /\ v < 0 /\
    rf_at zero (-(1)/2) = Ret 0.
Proof.
  cbn zeta. do 5 eexists. split; [vm_compute; reflexivity|].
  split; [left; reflexivity|]. split; [vm_compute; reflexivity|]. split; [vm_compute; reflexivity|].
  split; vm_compute; reflexivity.
Qed.
Print Assumptions rational_max_pole_refuted.
