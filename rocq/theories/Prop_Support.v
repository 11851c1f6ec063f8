(** Recorded dependencies suffice (C48). *)
From Verif Require Import Base Model_Text Model_Reference Spec_Reference Proof_Reference
  Model_Interval Spec_Interval Model_Affine Spec_Affine Model_BoundBeta Model_Polytope Spec_Polytope Proof_Polytope Prop_Polytope
  Model_Hull Spec_Hull Proof_Hull
  Model_ExponentPair Spec_ExponentPair Proof_ExponentPair Proof_ExpSearch Proof_ExpLit Proof_ExpDual
  Proof_Region Proof_BoundBeta FM_Ext Spec_ExpProof Proof_ExpProof Prop_ExpDual Prop_ExpProof
  Model_BoundMu Spec_BoundMu Proof_BoundMu Prop_BoundMu Spec_Support.
Open Scope list_scope.

(** What rests on a set is true when the set is. *)
Theorem grounded_true : forall tr btr W hs h, admissible W -> Forall (holds tr btr W) hs -> grounded tr btr hs h -> holds tr btr W h.
Proof.
  intros tr btr W hs h Ad F G. rewrite Forall_forall in F. induction G as [h I|h S _ IH]; [auto|]. apply S; [auto|]. now apply Forall_forall.
Qed.
Print Assumptions grounded_true.

(** Derivations can be chained: any history of derivations, each from hypotheses
    that rest on the set, yields hypotheses that rest on the set. *)
Theorem grounded_chain : forall tr btr hs hs' h, (forall x, In x hs' -> grounded tr btr hs x) -> grounded tr btr hs' h -> grounded tr btr hs h.
Proof. intros tr btr hs hs' h F G. induction G as [h I|h S _ IH]; [auto|]. now apply grounded_by. Qed.
Print Assumptions grounded_chain.

(** The transforms A, B, C: the pair and the transform suffice. *)
Theorem transform_supported : forall rc btr t h h', In t [A_hyp; B_hyp; C_hyp rc] -> apply_trans (lit_trans rc) t h = Ret h' ->
  n_deps h' = [h; t] /\ supported (lit_trans rc) btr h'.
Proof.
  intros rc btr t h h' I H.
  assert (M : exists k l k' l', n_data h = DPair k l /\ n_data h' = DPair k' l' /\ n_deps h' = [h; t]).
  { destruct I as [<-|[<-|[<-|[]]]]; cbn [apply_trans n_data A_hyp B_hyp C_hyp lit_trans] in H;
      [apply A_inv in H|apply B_inv in H|apply C_inv in H]; destruct H as (k & l & k' & l' & D & D' & _ & E); exists k, l, k', l'; auto. }
  destruct M as (k & l & k' & l' & D & D' & E). split; [auto|]. intros W Ad F. rewrite E in F.
  inversion F as [|? ? Hh F']; subst. inversion F' as [|? ? Ht _]; subst.
  assert (X : exists i, n_data t = DTrans i /\ lit_trans rc i h = Ret h').
  { destruct I as [<-|[<-|[<-|[]]]]; eexists; (split; [reflexivity|exact H]). }
  destruct X as (i & Dt & Ei). unfold holds in Ht, Hh. rewrite Dt in Ht. rewrite D in Hh. destruct (Ht h k l h' D Hh Ei) as (k2 & l2 & D2 & P).
  unfold holds. rewrite D2. exact P.
Qed.
Print Assumptions transform_supported.

Lemma reach_grounded : forall rc btr hs ps ts n h, incl ps hs -> (forall t, In t ts -> In t hs /\ In t [A_hyp; B_hyp; C_hyp rc]) ->
  reach (lit_trans rc) ps ts n h -> grounded (lit_trans rc) btr hs h.
Proof.
  intros rc btr hs ps ts n h Sp St R. induction R as [h I|n h t h' R IH It Et]; [apply grounded_in; auto|].
  destruct (St t It) as [Ih Il]. destruct (transform_supported rc btr t h h' Il Et) as [E S]. apply grounded_by; [auto|].
  intros d Id. rewrite E in Id. destruct Id as [<-|[<-|[]]]; [auto|]. now apply grounded_in.
Qed.

(** The search for pairs. *)
Theorem compute_exp_pairs_grounded : forall ch rc btr hs depth prune out h, hull_spec ch -> lit_transforms rc hs ->
  compute_exp_pairs ch (lit_trans rc) hs depth prune = Ret out -> In h out -> grounded (lit_trans rc) btr hs h.
Proof.
  intros ch rc btr hs depth prune out h Hch L H I. destruct (compute_sound ch _ Hch hs depth prune out h H I) as [_ (n & _ & R)].
  apply (reach_grounded rc btr hs _ _ n h) in R; auto.
  - intros x Ix. now apply filter_In in Ix.
  - intros t It. apply filter_In in It as [It P]. auto.
Qed.
Print Assumptions compute_exp_pairs_grounded.

(** Proofs by convexity over the vertices of the hull. *)
Theorem construct_proof_grounded : forall ch E tr btr k l hs reduce h, hull_spec ch -> ext_ok E ->
  construct_proof ch E k l hs reduce false = Ret (Some h) -> grounded tr btr hs h.
Proof.
  intros ch E tr btr k l hs reduce h Hch OK H.
  destruct (construct_cases ch Hch E OK k l hs reduce false (Some h) H) as (P & K & Hh & [I|C]); [now apply grounded_in|].
  destruct C as (_ & D & F & C). apply grounded_by; [|intros d Id; apply grounded_in; now apply F].
  assert (Hd : hull2 (node_keys (n_deps h)) (k, l)).
  { destruct reduce; [|exact C]. destruct C as (a & b & c & vs & Ed & O & V & T & _).
    destruct (hull_tri_sound ch Hch hs vs a b c (k, l) V O T) as [_ C3].
    rewrite Ed in *. pose proof (F a ltac:(cbn; auto)) as [_ Pa]. pose proof (F b ltac:(cbn; auto)) as [_ Pb]. pose proof (F c ltac:(cbn; auto)) as [_ Pc].
    eapply hull2_sub; [|exact (conv3_hull _ _ _ _ C3)]. intros q [-> |[-> | ->]]; (eapply hull2_in; [|split; reflexivity]); [exists a|exists b|exists c]; cbn; auto 6. }
  intros W Ad Fd. unfold holds. rewrite D. apply (exp_pair_hull W (node_keys (n_deps h)) (k, l) Ad); [|auto].
  intros q (g & I & Pg & ->). rewrite Forall_forall in Fd. specialize (Fd g I). apply is_pair_data in Pg as (k' & l' & Dg).
  unfold holds in Fd. rewrite Dg in Fd. now rewrite (key_data _ _ _ Dg).
Qed.
Print Assumptions construct_proof_grounded.

(** The oldest proof, in a set without bounds on beta. *)
Theorem find_best_proof_date_grounded : forall ch E rc btr ord k l hs h, hull_spec ch -> ext_ok E -> traversal ord ->
  lit_transforms rc hs -> filter is_beta hs = [] ->
  find_best_proof ch (lit_trans rc) E ord k l hs MDate = Ret (Some h) -> grounded (lit_trans rc) btr hs h.
Proof.
  intros ch E rc btr ord k l hs h Hch OK Ho L Nb H. cbn [find_best_proof] in H.
  destruct (val_min _) as [a|]; [|discriminate]. cbn [bind] in H. destruct (val_max _) as [b|]; [|discriminate]. cbn [bind] in H.
  destruct a as [a| |]; try discriminate. destruct b as [b| |]; try discriminate.
  revert H. generalize 0%nat as num. induction (zrange a (b + 1)) as [|y years IH]; intros num H; cbn [by_date] in H; [discriminate|].
  destruct (filterM _ hs) as [hy|] eqn:Fm; [|discriminate]. cbn [bind] in H.
  assert (Sub : incl (ord hy) hs) by (intros x I; apply (proj1 (Ho hy x)) in I; exact (proj1 (proj1 (filterM_in _ _ _ _ Fm x) I))).
  destruct (List.length (ord hy) =? num)%nat; [exact (IH num H)|].
  assert (N1 : beta_bounds_to_exponent_pairs ch (lit_trans rc) (ord hy) = Ret []).
  { assert (N : filter is_beta (ord hy) = []).
    { destruct (filter is_beta (ord hy)) as [|x r] eqn:F; [reflexivity|]. exfalso. assert (I : In x (filter is_beta (ord hy))) by (rewrite F; left; auto).
      apply filter_In in I as [I B]. apply Sub in I. assert (I' : In x (filter is_beta hs)) by (apply filter_In; auto). rewrite Nb in I'. destruct I'. }
    unfold beta_bounds_to_exponent_pairs, best_beta_nodes. rewrite N. reflexivity. }
  rewrite N1 in H. cbn [bind] in H. rewrite app_nil_r in H.
  destruct (compute_exp_pairs ch (lit_trans rc) (ord (ord hy)) 5 true) as [n2|] eqn:E2; [|discriminate]. cbn [bind] in H.
  destruct (construct_proof ch E k l _ true false) as [[p|]|] eqn:Ec; [| |discriminate]; cbn [bind] in H; [|exact (IH _ H)].
  injection H as <-.
  assert (Sub2 : incl (ord (ord hy)) hs) by (intros x I; apply (proj1 (Ho _ x)) in I; auto).
  apply (grounded_chain _ _ hs (ord (ord (ord hy) ++ n2)) p); [|exact (construct_proof_grounded ch E _ btr k l _ true p Hch OK Ec)].
  intros x I. apply (proj1 (Ho _ x)) in I. apply in_app_iff in I as [I|I]; [apply grounded_in; auto|].
  assert (L2 : lit_transforms rc (ord (ord hy))) by (intros t It; apply L; auto).
  apply (grounded_chain _ _ hs (ord (ord hy)) x); [intros z Iz; apply grounded_in; auto|].
  exact (compute_exp_pairs_grounded ch rc btr _ 5 true n2 x Hch L2 E2 I).
Qed.
Print Assumptions find_best_proof_date_grounded.

(** Bounds on beta from pairs, also through Sargos' D, and the best bounds. *)
Theorem pairs_to_beta_grounded : forall tr rd hs out b, (forall t, In t hs -> is_beta_trans t = true -> t = D_hyp rd) ->
  exponent_pairs_to_beta_bounds (lit_beta_trans rd) hs = Ret out -> In b out -> grounded tr (lit_beta_trans rd) hs b.
Proof.
  intros tr rd hs out b L H I. destruct (to_beta_inv _ hs out H) as [A _].
  apply A in I as (h & Ih & [(k & l & D & E)|(P & t & bs & It & Pt & Et & Ib)]).
  - apply derived_node_inv in E as (E1 & E2 & _). apply grounded_by.
    + intros W Ad F. rewrite E2 in F. inversion F as [|? ? Hh _]; subst. unfold holds in *. rewrite E1. rewrite D in Hh.
      apply pair_bound_true; [apply (beta_upper W Ad)|auto].
    + intros d Id. rewrite E2 in Id. destruct Id as [<-|[]]. now apply grounded_in.
  - pose proof (L t It Pt) as ->. cbn [apply_beta_trans n_data D_hyp lit_beta_trans] in Et.
    apply is_pair_data in P as (k & l & D).
    assert (Eb : n_deps b = [h; D_hyp rd] /\ exists f, n_data b = DBeta f).
    { unfold D_fun in Et. rewrite D in Et. destruct (qdiv _ _) as [x|]; [|discriminate]. cbn [bind] in Et. destruct (qdiv _ _) as [y|]; [|discriminate]. cbn [bind] in Et.
      destruct (Model_Affine.max_with _ _ _) as [ps|]; [|discriminate]. cbn [bind] in Et. apply mapM_Forall2 in Et.
      destruct (Forall2_in_r _ _ _ _ _ _ Et Ib) as (p & _ & Ep). apply derived_node_inv in Ep as (D1 & D2 & _). eauto. }
    destruct Eb as [Eb (f & Df)]. apply grounded_by.
    + intros W Ad F. rewrite Eb in F. inversion F as [|? ? Hh F']; subst. inversion F' as [|? ? Ht _]; subst.
      unfold holds in Hh. rewrite D in Hh. cbn [holds n_data D_hyp] in Ht. destruct (Ht h k l bs b D Hh Et Ib) as (f' & Df' & B).
      unfold holds. rewrite Df'. exact B.
    + intros d Id. rewrite Eb in Id. destruct Id as [<-|[<-|[]]]; now apply grounded_in.
Qed.
Print Assumptions pairs_to_beta_grounded.

Theorem best_beta_grounded : forall tr btr hs bb h, Forall (fun h => is_beta h = true -> wf (dom (bound_of h))) hs ->
  best_beta_nodes hs = Ret bb -> In h bb -> grounded tr btr hs h.
Proof.
  intros tr btr hs bb h Wf H I. unfold best_beta_nodes in H. set (bs := filter is_beta hs) in *.
  destruct (compute_best_beta_bounds (map bound_of bs) None) as [out|] eqn:Eo; [|discriminate]. cbn [bind] in H. apply mapM_Forall2 in H.
  assert (Wb : Forall (fun b => wf (dom b)) (map bound_of bs)).
  { apply Forall_map, Forall_forall. intros g Ig. unfold bs in Ig. apply filter_In in Ig as [Ig P]. rewrite Forall_forall in Wf. auto. }
  destruct (best_beta_correct (map bound_of bs) None Wb ltac:(unfold wf; cbn; lra) out Eo) as [S _].
  assert (N : forall i b, nth_error (map bound_of bs) i = Some b ->
    In (nth i bs trivial_exp_pair) hs /\ is_beta (nth i bs trivial_exp_pair) = true /\ bound_of (nth i bs trivial_exp_pair) = b).
  { intros i b Hn. rewrite nth_error_map in Hn. destruct (nth_error bs i) as [g|] eqn:En; [|discriminate]. injection Hn as <-.
    rewrite (nth_error_nth bs i _ En). apply nth_error_In in En. unfold bs in En. apply filter_In in En. tauto. }
  destruct (Forall2_in_r _ _ _ _ _ _ H I) as (o & Io & Ho). destruct (S o Io) as (p & b & Ep & Eb & Hp). destruct o as [i|b' i].
  - injection Ho as <-. cbn in Eb. apply grounded_in. now apply (N i b).
  - apply derived_node_inv in Ho as (D1 & D2 & _). cbn in Eb, Ep. injection Ep as ->. destruct (N i b Eb) as (N1 & N2 & N3).
    apply grounded_by; [|intros d Id; rewrite D2 in Id; destruct Id as [<-|[]]; now apply grounded_in].
    intros W Ad F. rewrite D2 in F. inversion F as [|? ? Hg _]; subst. unfold holds in *. rewrite D1. apply is_beta_data in N2. rewrite N2 in Hg.
    intros a Ca. destruct (Hp a Ca) as [Cg Eg].
    apply (beta_upper W Ad a a (Spec_Affine.value (bound_of (nth i bs trivial_exp_pair)) a)); [reflexivity|rewrite Eg; lra|auto].
Qed.
Print Assumptions best_beta_grounded.

(** Bounds on mu. *)
Theorem mu_bounds_grounded : forall ch rc btr hs out b, hull_spec ch -> lit_transforms rc hs ->
  get_bounds ch (lit_trans rc) hs = Ret out -> In b out -> grounded (lit_trans rc) btr hs b.
Proof.
  intros ch rc btr hs out b Hch L H I. destruct (get_bounds_inv ch _ hs out H) as (pairs & fps & imgs & E & F1 & F2 & ->).
  assert (T : forall x, In x (filter is_mu hs ++ [bound_mu_trivial] ++ fps) -> grounded (lit_trans rc) btr hs x).
  { intros x Ix. apply in_app_or in Ix as [Ix|[<-|Ix]].
    - apply filter_In in Ix as [Ix _]. now apply grounded_in.
    - apply grounded_by; [|intros d []]. intros W Ad _. apply (mu_right W Ad). lra.
    - destruct (Forall2_in_r _ _ _ _ _ _ F1 Ix) as (p & Ip & Ep). destruct (mu_from_pair_sound (lit_trans rc) btr p x Ep) as (k & l & _ & _ & D & S).
      apply grounded_by; [auto|]. intros d Id. rewrite D in Id. destruct Id as [<-|[]]. exact (compute_exp_pairs_grounded ch rc btr hs 5 true pairs p Hch L E Ip). }
  apply in_app_or in I as [I|I]; [auto|]. destruct (Forall2_in_r _ _ _ _ _ _ F2 I) as (x & Ix & Ex).
  destruct (mu_functional_sound (lit_trans rc) btr x b Ex) as (s & m & _ & _ & D & S). apply grounded_by; [auto|].
  intros d Id. rewrite D in Id. destruct Id as [<-|[]]. apply T. now apply filter_In in Ix.
Qed.
Print Assumptions mu_bounds_grounded.

Theorem mu_best_grounded : forall ch rc btr s hs r, hull_spec ch -> lit_transforms rc hs ->
  best_mu_bound ch (lit_trans rc) s hs = Ret r -> grounded (lit_trans rc) btr hs r.
Proof.
  intros ch rc btr s hs r Hch L H. unfold best_mu_bound in H.
  assert (T : forall h, apply_trivial_mu_bound s = Ret h -> grounded (lit_trans rc) btr hs h).
  { intros h E. destruct (mu_trivial_sound (lit_trans rc) btr s h E) as (_ & D & S). apply grounded_by; [auto|]. rewrite D. intros d []. }
  destruct (Qleb s 0 || Qleb 1 s); [auto|]. destruct (apply_trivial_mu_bound s) as [ans|] eqn:Ea; [|discriminate]. cbn [bind] in H.
  destruct (get_bounds ch (lit_trans rc) hs) as [bounds|] eqn:Eb; [|discriminate]. cbn [bind] in H.
  destruct (mu_convex_hull ch (bounds ++ [placeholder])) as [verts|] eqn:Ev; [|discriminate]. cbn [bind] in H.
  destruct (best_of_edges_inv _ _ _ _ H) as ([->|(b1 & b2 & I & E & _)] & _); [auto|].
  assert (Hb : forall b, In b (bounds ++ [placeholder]) -> grounded (lit_trans rc) btr hs b).
  { intros b Ib. apply in_app_or in Ib as [Ib|[<-|[]]]; [exact (mu_bounds_grounded ch rc btr hs bounds b Hch L Eb Ib)|].
    apply grounded_by; [|intros d []]. intros W Ad _. cbn.
    apply (mu_upper W Ad (1#2) (1#2) (trivial_mu_bound (1#2))); [reflexivity|apply Qleb_true; reflexivity|now apply trivial_true]. }
  destruct (mu_hull_inv ch Hch _ _ Ev) as (vs & Hv & _ & Kv & Ev'). destruct (Ev' b1 b2 I) as (i & j & Ie & -> & ->).
  apply cyc_edges_in in Ie as [Ii Ij]. pose proof (Hb _ (proj1 (Kv i Ii))) as G1. pose proof (Hb _ (proj1 (Kv j Ij))) as G2.
  destruct (edge_bound_inv s _ _ _ E) as (s1 & m1 & s2 & m2 & D1 & D2 & C).
  destruct C as [[C _]|[(A & B & C & Er)|(A & B & C & b' & t & Er & Et & Ec)]]; [discriminate| |].
  - injection Er as ->. destruct (Qltb m1 m2); auto.
  - injection Er as <-. destruct (theta_range s s1 s2 t A B C Et) as (T0 & T1 & _).
    destruct (mu_convexity_sound (lit_trans rc) btr _ _ t r T0 T1 Ec) as (? & ? & ? & ? & _ & _ & _ & D & S).
    apply grounded_by; [auto|]. intros d Id. rewrite D in Id. destruct Id as [<-|[<-|[]]]; auto.
Qed.
Print Assumptions mu_best_grounded.

(** ** Where the recorded dependencies do not suffice *)

(** The pairs obtained from bounds on beta record only the pieces that touch a
    vertex of the hull.  The pieces below the hull are used as well: here the pair
    (1/8,5/8) records the first and the last of three pieces, and without the one
    in the middle it does not follow. *)
Theorem beta_to_pairs_dependencies_refuted : exists hs bb out h W, best_beta_nodes hs = Ret bb /\ beta_guard bb /\
  beta_bounds_to_exponent_pairs wrap_hull (lit_trans ref_trivial) hs = Ret out /\ In h out /\ pt_eq (key_of h) (1#8, 5#8) /\
  admissible W /\ Forall (holds (lit_trans ref_trivial) (fun _ _ => Ret []) W) (n_deps h) /\ ~ holds (lit_trans ref_trivial) (fun _ _ => Ret []) W h.
Proof.
  set (g := fun a => if Qltb (1#8) a && Qltb a (3#8) then 1 else if Qleb a (1#8) then (1#8) else a - (1#8)).
  assert (Pg : forall x y, x == y -> g x == g y).
  { intros x y Q. unfold g. destruct (Qltb_spec (1#8) x), (Qltb_spec (1#8) y), (Qltb_spec x (3#8)), (Qltb_spec y (3#8)), (Qleb_spec x (1#8)), (Qleb_spec y (1#8)); cbn [andb]; lra. }
  exists [on01 0 (1#8) 0 (1#8); on01 0 (1#4) 0 (1#8); on01 (1#2) (1#16) (1#8) (3#8); on01 (1#2) (1#8) (1#8) (3#8); on01 1 (-1#8) (3#8) (1#2); on01 1 (0) (3#8) (1#2)].
  do 3 eexists. exists (world_of g). split; [vm_compute; reflexivity|]. split; [|split; [vm_compute; reflexivity|split; [left; reflexivity|split; [split; reflexivity|split; [exact (world_of_admissible g Pg)|split]]]]].
  - constructor.
    + intros h p [<-|[<-|[<-|[]]]] [->| ->]; (split; apply Qleb_true; reflexivity).
    + intros h p [<-|[<-|[<-|[]]]] [->| ->]; (apply Qleb_true; reflexivity).
    + intros h p [<-|[<-|[<-|[]]]] [->| ->] X; try (apply Qleb_true; reflexivity); exfalso; vm_compute in X; discriminate X.
    + eexists _, _. split; [right; right; left; reflexivity|]. split; [right; reflexivity|]. split; [reflexivity|]. split; [apply Qleb_true; reflexivity|].
      intros h p [<-|[<-|[<-|[]]]] [->| ->]; apply Qleb_true; reflexivity.
  - cbn [n_deps]. repeat (apply Forall_cons); [..|apply Forall_nil]; intros a [A0 A1]; cbn in A0, A1; cbn; unfold value; cbn;
      (destruct (Qleb_spec a (1#2)); [|lra]); unfold g; destruct (Qltb_spec (1#8) a), (Qltb_spec a (3#8)), (Qleb_spec a (1#8)); cbn [andb]; lra.
  - intros [_ H]. specialize (H (1#4) ltac:(lra) ltac:(lra)). vm_compute in H. apply H. reflexivity.
Qed.
Print Assumptions beta_to_pairs_dependencies_refuted.

(** ** Non-vacuity *)
Definition ground_hs : list hnode := [dpair 0 1 1900; dpair (1#14) (11#14) 1910; B_hyp].
Example ex_grounded : lit_transforms ref_trivial ground_hs /\ filter is_beta ground_hs = [] /\
  exists h, find_best_proof wrap_hull (lit_trans ref_trivial) fm_ext as_set (5#28) (19#28) ground_hs MDate = Ret (Some h) /\
    complexity h = 6%nat /\ r_year (n_ref h) = VInt 1920.
Proof.
  split; [|split; [reflexivity|]].
  - intros t [<-|[<-|[<-|[]]]] H; [discriminate|discriminate|cbn; auto].
  - eexists. split; [vm_compute; reflexivity|]. split; vm_compute; reflexivity.
Qed.
