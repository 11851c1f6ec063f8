(** Properties of the bounds on mu (C35, C36). *)
From Verif Require Import Base Model_Text Model_Reference Spec_Reference Proof_Reference
  Model_Interval Spec_Interval Model_Affine Spec_Affine
  Model_Hull Spec_Hull Proof_Hull Model_ExponentPair Spec_ExponentPair Proof_ExponentPair Proof_ExpSearch Proof_ExpLit
  Model_BoundMu Spec_BoundMu Proof_BoundMu.
Open Scope list_scope.

(** ** C35: every rule is sound *)

(** The trivial bound holds in every world. *)
Theorem mu_trivial_sound : forall tr btr s h, apply_trivial_mu_bound s = Ret h ->
  (exists v, n_data h = DMu s v) /\ n_deps h = [] /\ supported tr btr h.
Proof.
  intros tr btr s h H. apply derived_mu_inv in H as [D E]. split; [eauto|]. split; [auto|].
  intros W Ad _. unfold holds. rewrite D. now apply trivial_true.
Qed.
Print Assumptions mu_trivial_sound.

(** The functional equation mu(1-s) = mu(s) + s - 1/2. *)
Theorem mu_functional_sound : forall tr btr b h, apply_functional_equation b = Ret h ->
  exists s m, n_data b = DMu s m /\ n_data h = DMu (1 - s) (m + s - (1#2)) /\ n_deps h = [b] /\ supported tr btr h.
Proof.
  intros tr btr b h H. apply fe_inv in H as (s & m & D & D' & E). exists s, m. split; [auto|]. split; [auto|]. split; [auto|].
  intros W Ad F. rewrite E in F. inversion F as [|? ? Hb _]; subst. unfold holds in *. rewrite D in Hb. rewrite D'. now apply (mu_functional W Ad).
Qed.
Print Assumptions mu_functional_sound.

(** Convexity, for theta between 0 and 1. *)
Theorem mu_convexity_sound : forall tr btr b1 b2 t h, 0 <= t -> t <= 1 -> apply_mu_convexity b1 b2 t = Ret h ->
  exists s1 m1 s2 m2, n_data b1 = DMu s1 m1 /\ n_data b2 = DMu s2 m2 /\
    n_data h = DMu ((1 - t) * s1 + t * s2) ((1 - t) * m1 + t * m2) /\ n_deps h = [b1; b2] /\ supported tr btr h.
Proof.
  intros tr btr b1 b2 t h T0 T1 H. apply conv_inv in H as (s1 & m1 & s2 & m2 & D1 & D2 & D & E). exists s1, m1, s2, m2.
  split; [auto|]. split; [auto|]. split; [auto|]. split; [auto|].
  intros W Ad F. rewrite E in F. inversion F as [|? ? H1 F']; subst. inversion F' as [|? ? H2 _]; subst.
  unfold holds in *. rewrite D1 in H1. rewrite D2 in H2. rewrite D. now apply (mu_convex W Ad).
Qed.
Print Assumptions mu_convexity_sound.

(** An exponent pair (k,l) gives mu(l-k) <= k. *)
Theorem mu_from_pair_sound : forall tr btr p h, obtain_mu_bound_from_exponent_pair p = Ret h ->
  exists k l, n_data p = DPair k l /\ n_data h = DMu (l - k) k /\ n_deps h = [p] /\ supported tr btr h.
Proof.
  intros tr btr p h H. apply from_pair_inv in H as (k & l & D & D' & E). exists k, l. split; [auto|]. split; [auto|]. split; [auto|].
  intros W Ad F. rewrite E in F. inversion F as [|? ? Hp _]; subst. unfold holds in *. rewrite D in Hp. rewrite D'. now apply (mu_from_pair W Ad).
Qed.
Print Assumptions mu_from_pair_sound.

(** The collected bounds, the best bound and the proved bounds are true wherever
    the hypotheses are. *)
Theorem mu_bounds_sound : forall ch tr btr W hs out, hull_spec ch -> admissible W -> Forall (holds tr btr W) hs ->
  get_bounds ch tr hs = Ret out -> Forall (holds tr btr W) out.
Proof. intros ch tr btr W hs out Hch. exact (get_bounds_true ch Hch tr btr W hs out). Qed.
Print Assumptions mu_bounds_sound.

Theorem mu_best_sound : forall ch tr btr W s hs r, hull_spec ch -> admissible W -> Forall (holds tr btr W) hs ->
  best_mu_bound ch tr s hs = Ret r -> holds tr btr W r.
Proof. intros ch tr btr W s hs r Hch. exact (best_mu_true ch Hch tr btr W s hs r). Qed.
Print Assumptions mu_best_sound.

(** [prove_mu_bound] answers with the best bound exactly when it is good enough. *)
Theorem mu_prove_sound : forall ch tr btr W s m hs, hull_spec ch -> admissible W -> Forall (holds tr btr W) hs ->
  (forall b, prove_mu_bound ch tr s m hs = Ret (Some b) ->
     best_mu_bound ch tr s hs = Ret b /\ holds tr btr W b /\ snd (mu_key b) <= m) /\
  (prove_mu_bound ch tr s m hs = Ret None -> exists b, best_mu_bound ch tr s hs = Ret b /\ m < snd (mu_key b)).
Proof.
  intros ch tr btr W s m hs Hch Ad Ho. unfold prove_mu_bound. destruct (best_mu_bound ch tr s hs) as [b|] eqn:E; cbn [bind]; [|split; discriminate].
  destruct (Qleb_spec (snd (mu_key b)) m) as [L|L].
  - split; [|discriminate]. intros b' Eb. injection Eb as <-. split; [auto|]. split; [|auto]. exact (best_mu_true ch Hch tr btr W s hs b Ad Ho E).
  - split; [discriminate|]. intros _. exists b. split; [auto|lra].
Qed.
Print Assumptions mu_prove_sound.

(** The rules meet a real constraint: in the world of the trivial bounds mu(-1) is
    3/2, but convexity with theta = 2, which is not refused, concludes mu(-1) <= 1
    from mu(1) <= 0 and mu(0) <= 1/2. *)
Lemma trivial_world_admissible : admissible trivial_world.
Proof.
  assert (H2 : forall x, x / 2 == (1#2) * x) by (intro; field).
  constructor; cbn.
  - intros x x' v v' E L H. destruct (Qleb_spec x (1#2)), (Qleb_spec x' (1#2)); lra.
  - intros x x' v v' E L (H & H' & H0). rewrite H2 in *. lra.
  - intros a v A0 A1. destruct (Qleb_spec a (1#2)) as [_|N]; [|exfalso; lra]. destruct (Qleb_spec (1 - a) (1#2)); split; lra.
  - intros s L. rewrite H2. lra.
  - intros s1 m1 s2 m2 t (A1 & B1 & C1) (A2 & B2 & C2) T0 T1. rewrite H2 in *. split; [nra|]. split; nra.
  - intros s m (A & B & C). rewrite H2 in *. lra.
  - intros k l [T H]. specialize (H (1#2) ltac:(lra) ltac:(lra)). cbn in H. unfold triangle in T. rewrite H2. split; [lra|]. split; lra.
Qed.

Theorem mu_convexity_theta_refuted : exists b1 b2 t h W, admissible W /\
  holds (lit_trans ref_trivial) (fun _ _ => Ret []) W b1 /\ holds (lit_trans ref_trivial) (fun _ _ => Ret []) W b2 /\
  apply_mu_convexity b1 b2 t = Ret h /\ ~ holds (lit_trans ref_trivial) (fun _ _ => Ret []) W h.
Proof.
  exists bound_mu_trivial, (HNode [] (DMu 0 (1#2)) ref_trivial []), 2. eexists. exists trivial_world.
  split; [exact trivial_world_admissible|]. split; [cbn; split; [lra|split; apply Qleb_true; reflexivity]|].
  split; [cbn; split; [lra|split; apply Qleb_true; reflexivity]|]. split; [vm_compute; reflexivity|].
  intros (H & _). vm_compute in H. apply H. reflexivity.
Qed.
Print Assumptions mu_convexity_theta_refuted.

(** ** C36: optimality *)

(** [get_bounds] returns exactly the bounds it is meant to, and is total once the
    search for exponent pairs returns. *)
Theorem mu_bounds_exact : forall ch tr hs out, get_bounds ch tr hs = Ret out ->
  exists pairs, compute_exp_pairs ch tr hs 5 true = Ret pairs /\
    forall s m, (exists b, In b out /\ n_data b = DMu s m) <-> listed_bound hs pairs s m.
Proof. intros ch tr hs out. exact (get_bounds_listed ch tr hs out). Qed.
Print Assumptions mu_bounds_exact.

Theorem mu_bounds_total : forall ch tr hs pairs, compute_exp_pairs ch tr hs 5 true = Ret pairs ->
  Forall proper_node hs -> Forall proper_node pairs -> (forall p, In p pairs -> is_pair p = true) ->
  exists bounds, get_bounds ch tr hs = Ret bounds /\ Forall proper_node bounds.
Proof. intros ch tr hs pairs. exact (get_bounds_total ch tr hs pairs). Qed.
Print Assumptions mu_bounds_total.

(** Between 0 and 1 the answer is the least value that follows from the collected
    bounds by convexity, and never worse than the trivial bound; outside, it is
    the trivial bound. *)
Theorem mu_best_optimal : forall ch tr s hs r bounds, hull_spec ch -> 0 < s -> s < 1 ->
  get_bounds ch tr hs = Ret bounds -> best_mu_bound ch tr s hs = Ret r ->
  exists s' m, n_data r = DMu s' m /\ s' == s /\ least_at bounds s m /\ m <= trivial_mu_bound s.
Proof.
  intros ch tr s hs r bounds Hch S0 S1 Eb H. destruct (best_mu_least ch Hch tr s hs r bounds S0 S1 Eb H) as (M & E & L & T).
  exists (fst (mu_key r)), (snd (mu_key r)). split; [now apply is_mu_data|auto].
Qed.
Print Assumptions mu_best_optimal.

Theorem mu_best_outside : forall ch tr s hs r, s <= 0 \/ 1 <= s -> best_mu_bound ch tr s hs = Ret r ->
  n_data r = DMu s (trivial_mu_bound s) /\ trivial_mu_bound s == (if Qleb s 0 then (1#2) - s else 0).
Proof.
  intros ch tr s hs r Hs H. unfold best_mu_bound in H.
  assert (X : Qleb s 0 || Qleb 1 s = true) by (apply orb_true_iff; destruct Hs; [left|right]; now apply Qleb_true).
  rewrite X in H. apply derived_mu_inv in H as [D _]. split; [auto|].
  unfold trivial_mu_bound. destruct (Qleb_spec s 0); [reflexivity|]. destruct (Qleb_spec 1 s); [reflexivity|lra].
Qed.
Print Assumptions mu_best_outside.

(** The call returns whenever the bounds can be collected (the placeholder keeps
    the points from being collinear). *)
Theorem mu_best_total : forall ch tr s hs bounds, hull_spec ch -> get_bounds ch tr hs = Ret bounds -> Forall proper_node bounds ->
  exists r, best_mu_bound ch tr s hs = Ret r.
Proof. intros ch tr s hs bounds Hch. exact (best_mu_total ch Hch tr s hs bounds). Qed.
Print Assumptions mu_best_total.

(** Collecting the bounds fails when the exponent pairs of the set are collinear:
    the pruning hull has no points to spare. *)
Definition npair (k l : Q) : hnode := HNode [] (DPair k l) ref_trivial [].
Definition nmu (s m : Q) : hnode := HNode [] (DMu s m) ref_trivial [].
Theorem mu_best_collinear_refuted : exists hs, Forall proper_node hs /\
  best_mu_bound wrap_hull (lit_trans ref_trivial) (1#3) hs = Raise ValueError.
Proof.
  exists [npair 0 1; npair (1#4) (3#4); npair (1#2) (1#2)]. split; [repeat (constructor; [left; exact Logic.I|]); constructor|].
  vm_compute. reflexivity.
Qed.
Print Assumptions mu_best_collinear_refuted.

(** The collected bounds are not closed under the functional equation: from
    mu(1/4) <= 1/4 follows mu(3/4) <= 0, but the answer at 3/4 is 1/12. *)
Theorem mu_functional_closure_refuted : exists hs r, best_mu_bound wrap_hull (lit_trans ref_trivial) (3#4) hs = Ret r /\
  snd (mu_key r) == 1#12 /\
  forall W, admissible W -> Forall (holds (lit_trans ref_trivial) (fun _ _ => Ret []) W) hs -> mu_le W (3#4) 0.
Proof.
  exists [nmu (1#4) (1#4)]. eexists. split; [vm_compute; reflexivity|]. split; [reflexivity|].
  intros W Ad F. inversion F as [|? ? H _]; subst. unfold holds in H. cbn in H. apply (mu_functional W Ad) in H.
  eapply (mu_upper W Ad); [| |exact H]; [reflexivity|apply Qleb_true; reflexivity].
Qed.
Print Assumptions mu_functional_closure_refuted.

(** ** The piecewise form *)

(** Whenever the call returns, its affine pieces give the least value that follows
    by convexity, they cover the part of the range in [0,1), and the other entries
    are the trivial formulas. *)
Theorem mu_piecewise_exact : forall ch tr i hs ps bounds, hull_spec ch -> x0 i <= x1 i ->
  get_bounds ch tr hs = Ret bounds -> best_mu_bound_piecewise ch tr i hs = Ret ps ->
  (forall f x, In (MAff f) ps -> covers f x -> x0 i <= x /\ x < x1 i /\ 0 <= x /\ x < 1 /\ least_at bounds x (Spec_Affine.value f x)) /\
  (forall x, x0 i <= x -> x < x1 i -> 0 <= x -> x < 1 -> exists f, In (MAff f) ps /\ covers f x) /\
  (forall t a b, In (MText t a b) ps <->
     (t = s_of "-x + 1/2" /\ a = x0 i /\ b = 0 /\ x0 i < 0) \/ (t = s_of "0" /\ a = 1 /\ b = x1 i /\ 1 < x1 i)).
Proof.
  intros ch tr i hs ps bounds Hch Li Eb H. unfold best_mu_bound_piecewise in H.
  assert (R : forall s0 s1 qs, 0 <= s0 -> piecewise_right ch tr s0 s1 hs = Ret qs ->
    (forall f x, In (MAff f) qs -> covers f x -> s0 <= x /\ x < s1 /\ x < 1 /\ least_at bounds x (Spec_Affine.value f x)) /\
    (forall x, s0 <= x -> x < s1 -> x < 1 -> exists f, In (MAff f) qs /\ covers f x) /\
    (forall t a b, In (MText t a b) qs <-> t = s_of "0" /\ a = 1 /\ b = s1 /\ 1 < s1)).
  { clear H ps. intros s0 s1 qs L0 H. unfold piecewise_right in H. destruct (Qltb_spec s1 s0) as [X|X]; [discriminate|].
    destruct (Qltb_spec 1 s1) as [Y|Y].
    - unfold Interval at 1 in H. destruct (Qltb_spec 0 (s0 - 1)) as [Z|Z]; [discriminate|]. cbn [bind] in H.
      destruct (piecewise_inside ch tr s0 1 hs) as [ps|] eqn:E; [|discriminate]. cbn [bind] in H. injection H as <-.
      destruct (piecewise_inside_spec ch Hch tr s0 1 hs ps bounds ltac:(lra) Eb E) as [A B]. split; [|split].
      + intros f x I C. apply in_app_or in I as [I|[I|[]]]; [|discriminate]. destruct (A _ I) as (g & Eg & G). injection Eg as <-.
        destruct (G x C) as (G1 & G2 & G3). split; [auto|]. split; [lra|]. auto.
      + intros x X0 X1 X2. destruct (B L0 ltac:(lra) x X0 X2) as (f & I & C). exists f. split; [apply in_or_app; auto|auto].
      + intros t a b. split.
        * intros I. apply in_app_or in I as [I|[I|[]]]; [destruct (A _ I) as (g & Eg & _); discriminate|]. injection I as <- <- <-. auto.
        * intros (-> & -> & -> & _). apply in_or_app. right. now left.
    - destruct (piecewise_inside_spec ch Hch tr s0 s1 hs qs bounds ltac:(lra) Eb H) as [A B]. split; [|split].
      + intros f x I C. destruct (A _ I) as (g & Eg & G). injection Eg as <-. destruct (G x C) as (G1 & G2 & G3). split; [auto|]. split; [auto|]. split; [lra|auto].
      + intros x X0 X1 X2. exact (B L0 ltac:(lra) x X0 X1).
      + intros t a b. split; [intros I; destruct (A _ I) as (g & Eg & _); discriminate|]. intros (_ & _ & _ & ?). lra. }
  destruct (Qltb_spec (x1 i) (x0 i)) as [X|X]; [discriminate|]. destruct (Qltb_spec (x0 i) 0) as [Y|Y].
  - unfold Interval at 1 in H. destruct (Qltb_spec 0 (0 - x1 i)) as [Z|Z]; [discriminate|]. cbn [bind] in H.
    destruct (piecewise_right ch tr 0 (x1 i) hs) as [qs|] eqn:E; [|discriminate]. cbn [bind] in H. injection H as <-.
    destruct (R 0 (x1 i) qs ltac:(lra) E) as (A & B & C). split; [|split].
    + intros f x [I|I] Cx; [discriminate|]. destruct (A f x I Cx) as (A1 & A2 & A3 & A4). split; [lra|]. auto.
    + intros x X0 X1 X2 X3. destruct (B x X2 X1 X3) as (f & I & Cf). exists f. split; [now right|auto].
    + intros t a b. split.
      * intros [I|I]; [injection I as <- <- <-; left; auto|]. right. now apply C.
      * intros [(-> & -> & -> & _)|I]; [now left|]. right. now apply C.
  - destruct (R (x0 i) (x1 i) ps ltac:(lra) H) as (A & B & C). split; [|split].
    + intros f x I Cx. destruct (A f x I Cx) as (A1 & A2 & A3 & A4). split; [auto|]. split; [auto|]. split; [lra|auto].
    + intros x X0 X1 X2 X3. exact (B x X0 X1 X3).
    + intros t a b. split; [intros I; right; now apply C|]. intros [(_ & _ & _ & ?)|I]; [lra|now apply C].
Qed.
Print Assumptions mu_piecewise_exact.

(** It returns on a range in which every collected bound beats the trivial one. *)
Theorem mu_piecewise_total : forall ch tr i hs bounds, hull_spec ch -> get_bounds ch tr hs = Ret bounds ->
  0 <= x0 i -> x0 i <= x1 i -> x1 i <= 1 ->
  (forall s m, mu_pts bounds (s, m) -> x0 i <= s -> s <= x1 i -> m < (1 - s) / 2) ->
  (exists s m, mu_pts bounds (s, m) /\ ~ m == (1 - s) / 2) ->
  exists ps, best_mu_bound_piecewise ch tr i hs = Ret ps.
Proof.
  intros ch tr i hs bounds Hch Eb L0 L L1 Beat Ex. unfold best_mu_bound_piecewise, piecewise_right.
  destruct (Qltb_spec (x1 i) (x0 i)); [lra|]. destruct (Qltb_spec (x0 i) 0); [lra|]. destruct (Qltb_spec 1 (x1 i)); [lra|].
  exact (inside_returns ch Hch tr hs bounds (x0 i) (x1 i) Eb L0 L L1 Beat Ex).
Qed.
Print Assumptions mu_piecewise_total.

(** On the whole of [0,1], the range its edge pieces are written for, the call
    never returns: the upper edge of the hull makes an interval with its ends in
    the wrong order. *)
Theorem mu_piecewise_whole_range_refuted : forall ch tr i hs bounds, hull_spec ch -> get_bounds ch tr hs = Ret bounds ->
  (forall s m, mu_pts bounds (s, m) -> 0 <= s /\ s <= 1) ->
  x0 i < 0 /\ 1 < x1 i \/ x0 i = 0 /\ 1 < x1 i \/ x0 i < 0 /\ x1 i = 1 \/ x0 i = 0 /\ x1 i = 1 ->
  best_mu_bound_piecewise ch tr i hs = Raise ValueError.
Proof.
  intros ch tr i hs bounds Hch Eb R Hi.
  assert (In01 : piecewise_inside ch tr 0 1 hs = Raise ValueError).
  { apply (inside_full_raises ch Hch tr hs bounds Eb). intros [s m] P. exact (R s m P). }
  assert (Rt : forall b, 1 < b \/ b = 1 -> piecewise_right ch tr 0 b hs = Raise ValueError).
  { intros b Hb. unfold piecewise_right. destruct (Qltb_spec b 0) as [X|X]; [auto|]. destruct (Qltb_spec 1 b) as [Y|Y].
    - unfold Interval. destruct (Qltb_spec 0 (0 - 1)) as [Z|Z]; [reflexivity|]. cbn [bind]. now rewrite In01.
    - destruct Hb as [Hb| ->]; [lra|auto]. }
  unfold best_mu_bound_piecewise. destruct (Qltb_spec (x1 i) (x0 i)) as [X|X]; [reflexivity|].
  destruct (Qltb_spec (x0 i) 0) as [Y|Y].
  - unfold Interval. destruct (Qltb_spec 0 (0 - x1 i)) as [Z|Z]; [reflexivity|]. cbn [bind]. rewrite Rt; [reflexivity|].
    destruct Hi as [[_ ?]|[[_ ?]|[[_ ?]|[_ ?]]]]; auto.
  - destruct Hi as [[? _]|[[-> ?]|[[? _]|[-> ?]]]]; try (exfalso; lra); apply Rt; auto.
Qed.
Print Assumptions mu_piecewise_whole_range_refuted.

(** Ranges to the left of 0 or to the right of 1 are not answered either. *)
Theorem mu_piecewise_outside_refuted : forall ch tr i hs, x1 i < 0 \/ 1 < x0 i ->
  best_mu_bound_piecewise ch tr i hs = Raise ValueError.
Proof.
  intros ch tr i hs H. unfold best_mu_bound_piecewise. destruct (Qltb_spec (x1 i) (x0 i)) as [X|X]; [reflexivity|].
  destruct (Qltb_spec (x0 i) 0) as [Y|Y].
  - unfold Interval. destruct (Qltb_spec 0 (0 - x1 i)) as [Z|Z]; [reflexivity|lra].
  - unfold piecewise_right. destruct (Qltb_spec (x1 i) (x0 i)); [lra|]. destruct (Qltb_spec 1 (x1 i)); [|lra].
    unfold Interval. destruct (Qltb_spec 0 (x0 i - 1)) as [Z|Z]; [reflexivity|lra].
Qed.
Print Assumptions mu_piecewise_outside_refuted.

(** ** Concrete cases *)
Definition mu_hs : list hnode := [nmu (1#2) (1#6); npair (1#14) (11#14); npair (0) 1; npair (1#6) (2#3)].
Example ex_mu_bounds : match get_bounds wrap_hull (lit_trans ref_trivial) mu_hs with
  | Ret out => map (fun h => (Qred (fst (mu_key h)), Qred (snd (mu_key h)))) out | _ => [] end =
  [(1#2, 1#6); (1, 0); (1, 0); (5#7, 1#14); (1#2, 1#6); (0, 1#2); (0, 1#2); (2#7, 2#7)].
Proof. vm_compute. reflexivity. Qed.
Example ex_mu_best : match best_mu_bound wrap_hull (lit_trans ref_trivial) (3#5) mu_hs with
  | Ret h => (Qred (fst (mu_key h)), Qred (snd (mu_key h))) | _ => (0, 0) end = (3#5, 11#90).
Proof. vm_compute. reflexivity. Qed.
Example ex_mu_piecewise : match best_mu_bound_piecewise wrap_hull (lit_trans ref_trivial) (mkI (1#3) (9#10) true false) mu_hs with
  | Ret ps => map (fun p => match p with MAff f => (Qred (x0 (dom f)), Qred (x1 (dom f)), Qred (slope f), Qred (icpt f)) | _ => (0,0,0,0) end) ps
  | _ => [] end = [(1#3, 1#2, -5#9, 4#9); (1#2, 5#7, -4#9, 7#18); (5#7, 9#10, -1#4, 1#4)].
Proof. vm_compute. reflexivity. Qed.
Example ex_mu_piecewise_whole : best_mu_bound_piecewise wrap_hull (lit_trans ref_trivial) (mkI 0 1 true true) mu_hs = Raise ValueError.
Proof. vm_compute. reflexivity. Qed.
