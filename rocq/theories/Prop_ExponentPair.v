(** Theorems about exponent pair transforms and the search (C30 - C33). *)
From Verif Require Import Base Model_Text Model_Reference Spec_Reference
  Model_Interval Spec_Interval Model_Affine Spec_Affine
  Model_Hull Spec_Hull Proof_Hull Model_ExponentPair Spec_ExponentPair Proof_ExponentPair Proof_ExpSearch Proof_ExpLit.
Open Scope list_scope.

(** ** C30 *)

(** On a pair in the triangle each of A, B, C returns a derived pair given by the
    classical formula, again in the triangle, that depends on exactly the input
    and the transform. *)
Theorem transforms_preserve_triangle : forall rc h k l t f fn,
  In (t, f, fn) [(A_hyp, A_map, A_fun); (B_hyp, B_map, B_fun); (C_hyp rc, C_map, C_fun rc)] ->
  n_data h = DPair k l -> triangle k l -> proper_node h -> proper_year (r_year rc) ->
  exists h' k' l', fn h = Ret h' /\ n_data h' = DPair k' l' /\ pt_eq (k', l') (f (k, l)) /\
    triangle k' l' /\ n_deps h' = [h; t].
Proof.
  intros rc h k l t f fn I D T P PC.
  assert (G : forall h', maps h h' f t -> triangle (fst (f (k, l))) (snd (f (k, l))) ->
    exists k' l', n_data h' = DPair k' l' /\ pt_eq (k', l') (f (k, l)) /\ triangle k' l' /\ n_deps h' = [h; t]).
  { intros h' (k0 & l0 & k' & l' & D0 & D' & E & Dp) Tf. rewrite D in D0. injection D0 as <- <-.
    exists k', l'. split; [auto|]. split; [auto|]. split; [|auto]. destruct E as [E1 E2]. cbn in E1, E2.
    apply (triangle_eq (fst (f (k, l))) (snd (f (k, l)))); [now symmetry|now symmetry|auto]. }
  destruct I as [I|[I|[I|[]]]]; injection I as <- <- <-.
  - destruct (A_total h k l D (proj1 T) P) as (h' & E & _). exists h'.
    destruct (G h' (A_inv h h' E)) as (k' & l' & H); [apply (A_bounds k l T)|]. exists k', l'. auto.
  - destruct (B_total h k l D P) as (h' & E & _). exists h'.
    destruct (G h' (B_inv h h' E)) as (k' & l' & H); [apply (B_bounds k l T)|]. exists k', l'. auto.
  - destruct (C_total rc h k l D (proj1 T) P PC) as (h' & E & _). exists h'.
    destruct (G h' (C_inv rc h h' E)) as (k' & l' & H); [apply (C_bounds k l T)|]. exists k', l'. auto.
Qed.
Print Assumptions transforms_preserve_triangle.

(** B undoes itself. *)
Theorem transform_B_involution : forall h h1 h2 k l, n_data h = DPair k l ->
  B_fun h = Ret h1 -> B_fun h1 = Ret h2 ->
  exists k2 l2, n_data h2 = DPair k2 l2 /\ k2 == k /\ l2 == l.
Proof.
  intros h h1 h2 k l D H1 H2. apply B_inv in H1 as (k0 & l0 & k1 & l1 & D0 & D1 & [E1 E2] & _).
  apply B_inv in H2 as (k1' & l1' & k2 & l2 & D1' & D2 & [E3 E4] & _).
  rewrite D in D0. injection D0 as <- <-. rewrite D1 in D1'. injection D1' as <- <-. cbn in *.
  exists k2, l2. split; [auto|]. split; lra.
Qed.
Print Assumptions transform_B_involution.

(** A at least halves k. *)
Theorem transform_A_contracts : forall h h' k l, n_data h = DPair k l -> triangle k l -> A_fun h = Ret h' ->
  exists k' l', n_data h' = DPair k' l' /\ 0 <= k' /\ k' <= k / 2.
Proof.
  intros h h' k l D T H. apply A_inv in H as (k0 & l0 & k' & l' & D0 & D' & [E1 E2] & _).
  rewrite D in D0. injection D0 as <- <-. destruct (A_bounds k l T) as [(Z & _) L]. cbn [fst snd] in E1.
  exists k', l'. split; [auto|]. rewrite E1. auto.
Qed.
Print Assumptions transform_A_contracts.

(** The D transform returns bounds on beta covering exactly [0,1/2], whose value
    is the greater of the line of Sargos' pair and 1/12 + 2a/3. *)
Theorem transform_D_max : forall rd h k l, n_data h = DPair k l -> triangle k l -> proper_node h -> proper_year (r_year rd) ->
  tri_set (D_map (k, l)) /\
  exists out, D_fun rd h = Ret out /\
    (forall h', In h' out -> exists b, n_data h' = DBeta b /\ n_deps h' = [h; D_hyp rd]) /\
    (forall a, 0 <= a /\ a <= 1#2 <-> exists h' b, In h' out /\ n_data h' = DBeta b /\ covers b a) /\
    (forall h' b a, In h' out -> n_data h' = DBeta b -> covers b a ->
       let p := D_map (k, l) in
       (value b a == pair_line p a \/ value b a == (1#12) + (2#3) * a) /\
       pair_line p a <= value b a /\ (1#12) + (2#3) * a <= value b a).
Proof. intros rd h k l D T P PD. split; [now apply D_pair_triangle|now apply D_total]. Qed.
Print Assumptions transform_D_max.

(** B only produces true pairs, by the reflection law of beta. *)
Theorem transform_B_sound : forall rc btr W, admissible W -> holds (lit_trans rc) btr W B_hyp.
Proof.
  intros rc btr W Ad h k l h' D H E. cbn [lit_trans] in E. apply B_inv in E as (k0 & l0 & k' & l' & D0 & D' & [E1 E2] & _).
  rewrite D in D0. injection D0 as <- <-. exists k', l'. split; [auto|]. cbn in E1, E2.
  destruct (B_true W k l Ad H) as [T B]. split.
  - apply (triangle_eq (l - (1#2)) (k + (1#2))); [now symmetry|now symmetry|auto].
  - intros a A0 A1. apply (beta_upper W Ad a a (l - (1#2) + (k + (1#2) - (l - (1#2))) * a)); [reflexivity| |auto].
    rewrite E1, E2. lra.
Qed.
Print Assumptions transform_B_sound.

Definition ref0 : reference := ref_make (s_of "Sargos") 2003.
Example ex_C : exists h, C_fun ref0 trivial_exp_pair = Ret h /\ pt_eqb (key_of h) (0, 1) = true.
Proof. eexists. split; reflexivity. Qed.
Example ex_C2 : match (let! h := B_fun trivial_exp_pair in C_fun ref0 h) with
  | Ret h => pt_eqb (key_of h) (1#72, 67#72) && (complexity h =? 5)%nat | _ => false end = true.
Proof. reflexivity. Qed.
Example ex_D : match (let! h := B_fun trivial_exp_pair in D_fun ref0 h) with
  | Ret out => map (fun h => (Qred (slope (bound_of h)), Qred (icpt (bound_of h)))) out | _ => [] end
  = [(5#8, 5#48); (2#3, 1#12)].
Proof. vm_compute. reflexivity. Qed.

(** ** C31 *)
Theorem van_der_corput_closed_form : forall k, (2 <= k)%nat ->
  exists h, van_der_corput_pair k = Ret h /\ is_vdc k h /\ r_year (n_ref h) = VInt 1920 /\
    complexity h = (2 * k - 1)%nat /\ in_tri h.
Proof.
  intros k K. destruct (van_der_corput_ok k K) as (h & E & V & Y & C). exists h. repeat (split; [assumption|]).
  destruct V as (a & b & D & Ea & Eb). unfold in_tri, tri_set. rewrite (key_data _ _ _ D). now apply (vdc_triangle k).
Qed.
Print Assumptions van_der_corput_closed_form.

(** Each pair met on the way is the van der Corput pair of its number: the pair
    for k + 1 is A applied to the pair for k. *)
Theorem van_der_corput_step : forall k h h', (2 <= k)%nat -> van_der_corput_pair k = Ret h ->
  van_der_corput_pair (S k) = Ret h' -> A_fun h = Ret h'.
Proof.
  intros k h h' K E E'. unfold van_der_corput_pair in *.
  destruct (Nat.ltb_spec k 2); [lia|]. destruct (Nat.ltb_spec (S k) 2); [lia|].
  destruct (B_fun trivial_exp_pair) as [h0|]; [|discriminate]. cbn [bind] in *.
  replace (S k - 2)%nat with (S (k - 2)) in E' by lia. revert h0 E E'.
  induction (k - 2)%nat as [|n IH]; intros h0 E E'.
  - cbn in E. injection E as <-. cbn [iterate_A] in E'. destruct (A_fun h0) as [h1|]; [|discriminate]. exact E'.
  - cbn [iterate_A] in E. change (iterate_A (S (S n)) h0) with (let! h' := A_fun h0 in iterate_A (S n) h') in E'.
    destruct (A_fun h0) as [h1|]; [|discriminate]. cbn [bind] in E, E'. now apply (IH h1).
Qed.
Print Assumptions van_der_corput_step.

Theorem van_der_corput_rejects : forall k, (k < 2)%nat -> van_der_corput_pair k = Raise ValueError.
Proof. intros k K. unfold van_der_corput_pair. destruct (Nat.ltb_spec k 2); [auto|lia]. Qed.
Print Assumptions van_der_corput_rejects.

Example ex_vdc4 : match van_der_corput_pair 4 with Ret h => pt_eqb (key_of h) (1#14, 11#14) | _ => false end = true.
Proof. reflexivity. Qed.

(** The pair stored for the exponent pair conjecture is not the one conjectured:
    (0,0) lies outside the triangle, so no world satisfies it. *)
Theorem exponent_pair_conjecture_refuted : forall tr btr W, ~ holds tr btr W exponent_pair_conjecture.
Proof. intros tr btr W [(_ & _ & H & _) _]. lra. Qed.
Print Assumptions exponent_pair_conjecture_refuted.

(** ** C32 *)

(** Every pair returned is obtained from input pairs by input transforms, with at
    most [search_depth] times the number of transforms applications. *)
Theorem exp_pairs_sound : forall ch tr, hull_spec ch -> forall hs depth prune out h,
  compute_exp_pairs ch tr hs depth prune = Ret out -> In h out ->
  is_pair h = true /\
  exists n, (n <= depth * List.length (filter is_trans hs))%nat /\
    reach tr (filter is_pair hs) (filter is_trans hs) n h.
Proof. intros ch tr Hch hs depth prune out h. exact (compute_sound ch tr Hch hs depth prune out h). Qed.
Print Assumptions exp_pairs_sound.

(** ... and is true whenever the hypotheses are. *)
Theorem exp_pairs_true : forall ch tr btr W, hull_spec ch -> forall hs depth prune out h,
  Forall (holds tr btr W) hs -> compute_exp_pairs ch tr hs depth prune = Ret out -> In h out ->
  holds tr btr W h.
Proof.
  intros ch tr btr W Hch hs depth prune out h F E I.
  destruct (compute_sound ch tr Hch hs depth prune out h E I) as [_ (n & _ & R)].
  assert (S : forall g, Forall (holds tr btr W) (filter g hs)).
  { intro g. apply Forall_forall. intros x Ix. apply filter_In in Ix as [Ix _]. rewrite Forall_forall in F. auto. }
  apply (reach_true tr btr W _ _ n h (S is_pair) (S is_trans)); [apply filter_pairs|auto].
Qed.
Print Assumptions exp_pairs_true.

(** Documented is that [search_depth] bounds the number of times a transform is
    applied.  With two transforms one round can apply both in a row. *)
Definition vdc6 : hnode := HNode (s_of "p") (DPair (1#6) (2#3)) ref_trivial [].
Theorem exp_pairs_depth_bound_refuted : exists hs out h,
  compute_exp_pairs wrap_hull (lit_trans ref0) hs 1 false = Ret out /\ In h out /\
  forall n, (n <= 1)%nat -> ~ reach (lit_trans ref0) (filter is_pair hs) (filter is_trans hs) n h.
Proof.
  exists [vdc6; A_hyp; B_hyp].
  destruct (compute_exp_pairs wrap_hull (lit_trans ref0) [vdc6; A_hyp; B_hyp] 1 false) as [out|] eqn:E; [|discriminate].
  exists out. cbv [compute_exp_pairs] in E.
  assert (L : List.length out = 3%nat) by (vm_compute in E; injection E as <-; reflexivity).
  destruct out as [|a [|b [|h [|]]]]; try discriminate L. exists h. split; [reflexivity|]. split; [cbn; auto|].
  assert (K : pt_eqb (key_of h) (2#7, 4#7) = true) by (vm_compute in E; injection E as <- <- <-; reflexivity).
  clear E. intros n N R.
  assert (X : forall h0, reach (lit_trans ref0) [vdc6] [A_hyp; B_hyp] 0 h0 -> h0 = vdc6).
  { intros h0 R0. inversion R0 as [? I|]; subst. destruct I as [<-|[]]. auto. }
  destruct n as [|[|n]]; [| |lia].
  - apply X in R. subst h. discriminate K.
  - inversion R as [|m h0 t h1 R0 It Et]; subst. apply X in R0. subst h0.
    destruct It as [<-|[<-|[]]]; vm_compute in Et; injection Et as <-; vm_compute in K; discriminate K.
Qed.
Print Assumptions exp_pairs_depth_bound_refuted.

(** Without pruning every pair that at most [search_depth] applications can reach
    is returned (possibly as another object for the same pair), in particular
    every input pair; the transforms must depend on the pair only. *)
Theorem exp_pairs_complete : forall ch tr, hull_spec ch -> forall hs depth out n h,
  Forall (determined tr) (filter is_trans hs) ->
  compute_exp_pairs ch tr hs depth false = Ret out ->
  (n <= depth)%nat -> reach tr (filter is_pair hs) (filter is_trans hs) n h ->
  exists h', In h' out /\ same_pair h h'.
Proof. intros ch tr Hch. exact (compute_complete ch tr Hch). Qed.
Print Assumptions exp_pairs_complete.

(** With or without pruning, every such pair is in the convex hull of the pairs
    returned, when each transform acts on a convex domain as a map that respects
    segments. *)
Theorem exp_pairs_pruned_complete : forall ch tr, hull_spec ch -> forall D (f : hnode -> pt -> pt) hs depth prune out n h,
  convex_dom D -> Forall (fun h => D (key_of h)) (filter is_pair hs) ->
  (forall t, In t (filter is_trans hs) -> segment_map D (f t) /\ acts_as tr D t (f t)) ->
  compute_exp_pairs ch tr hs depth prune = Ret out ->
  (n <= depth)%nat -> reach tr (filter is_pair hs) (filter is_trans hs) n h ->
  hull2 (node_keys out) (key_of h).
Proof.
  intros ch tr Hch D f hs depth prune out n h CD F HF E L R.
  now destruct (compute_pruned_complete ch tr Hch D f hs depth prune out n h CD F HF E L R).
Qed.
Print Assumptions exp_pairs_pruned_complete.

(** The transforms of the literature meet these conditions on the triangle. *)
Theorem exp_pairs_literature : forall ch rc, hull_spec ch -> forall hs depth prune out n h,
  Forall in_tri (filter is_pair hs) -> Forall lit_node (filter is_trans hs) ->
  compute_exp_pairs ch (lit_trans rc) hs depth prune = Ret out ->
  (n <= depth)%nat -> reach (lit_trans rc) (filter is_pair hs) (filter is_trans hs) n h ->
  hull2 (node_keys out) (key_of h) /\
  (prune = false -> exists h', In h' out /\ same_pair h h').
Proof.
  intros ch rc Hch hs depth prune out n h F L E N R. rewrite Forall_forall in L. split.
  - apply (exp_pairs_pruned_complete ch (lit_trans rc) Hch tri_set lit_map hs depth prune out n h); auto using tri_convex.
    intros t It. apply lit_segment; auto.
  - intros ->. apply (compute_complete ch (lit_trans rc) Hch hs depth out n h); auto.
    apply Forall_forall. intros t It. apply lit_determined; auto.
Qed.
Print Assumptions exp_pairs_literature.

(** Without pruning the search returns. *)
Theorem exp_pairs_total : forall ch rc hs depth,
  Forall (fun h => in_tri h /\ proper_node h) (filter is_pair hs) -> Forall lit_node (filter is_trans hs) ->
  proper_year (r_year rc) ->
  exists out, compute_exp_pairs ch (lit_trans rc) hs depth false = Ret out /\ Forall in_tri out.
Proof.
  intros ch rc hs depth F L PC. unfold compute_exp_pairs.
  destruct (rounds_total rc ch depth (filter is_trans hs) (e_of (filter is_pair hs)) L PC) as (d & E & Fd).
  { apply Forall_forall. intros e I. apply e_of_in in I as [I _]. rewrite Forall_forall in F. destruct (F _ I) as [T P].
    split; [now apply filter_In in I|auto]. }
  rewrite E. cbn [bind]. eexists. split; [reflexivity|]. apply Forall_map. eapply Forall_impl; [|exact Fd].
  intros e (_ & T & _). exact T.
Qed.
Print Assumptions exp_pairs_total.

(** With pruning it need not: three pairs on a line make the hull routine fail. *)
Theorem exp_pairs_pruned_total_refuted : exists hs, Forall in_tri (filter is_pair hs) /\ Forall lit_node (filter is_trans hs) /\
  forall ch, hull_spec ch -> compute_exp_pairs ch (lit_trans ref0) hs 1 true = Raise ValueError.
Proof.
  exists [trivial_exp_pair; HNode [] (DPair (1#4) (3#4)) ref_trivial []; B_hyp].
  split; [repeat constructor; cbn; lra|]. split; [repeat constructor; right; left; auto|].
  intros ch Hch.
  vm_compute. match goal with |- context [ch ?l] => rewrite (proj1 (Hch l)) end; [reflexivity|].
  apply collinearb_spec. reflexivity.
Qed.
Print Assumptions exp_pairs_pruned_total_refuted.

(** Non-vacuity: the contract of the hull routine is met by [wrap_hull]; three
    rounds of A and B from (0,1), pruned. *)
Theorem hull_contract_met : hull_spec wrap_hull.
Proof. exact wrap_hull_spec. Qed.
Print Assumptions hull_contract_met.
Example ex_search : match compute_exp_pairs wrap_hull (lit_trans ref0) [trivial_exp_pair; A_hyp; B_hyp] 3 true with
  | Ret out => (List.length out, existsb (fun h => pt_eqb (key_of h) (1#14, 11#14)) out) | _ => (0%nat, false) end = (5%nat, true).
Proof. vm_compute. reflexivity. Qed.

(** ** C33 *)
Theorem in_triangle_counterclockwise : forall a b c p, 0 < cross a b c ->
  (in_triangle a b c p = true <-> in_conv3 a b c p).
Proof.
  intros a b c p D. rewrite in_triangle_iff. split.
  - intros (X & Y & Z). now apply cross_conv3.
  - intros H. apply (conv3_cross a b c p H). lra.
Qed.
Print Assumptions in_triangle_counterclockwise.

(** The orientation matters: with the corners named clockwise no point is ever
    accepted, not even the corners. *)
Theorem in_triangle_clockwise : forall a b c p, cross a b c < 0 -> in_triangle a b c p = false.
Proof.
  intros a b c p D. destruct (in_triangle a b c p) eqn:E; [|auto]. exfalso.
  apply in_triangle_iff in E as (X & Y & Z).
  assert (S : cross b c p + cross c a p + cross a b p == cross a b c) by (unfold cross; ring). lra.
Qed.
Print Assumptions in_triangle_clockwise.

(** Degenerate triangles accept every point of their line, also far away. *)
Theorem in_triangle_degenerate_refuted : exists a b c p,
  cross a b c == 0 /\ in_triangle a b c p = true /\ ~ in_conv3 a b c p.
Proof.
  exists (0, 1), (1#4, 3#4), (1#8, 7#8), (1#2, 1#2). split; [reflexivity|]. split; [reflexivity|].
  intros (u & v & w & U & V & W & S & E1 & E2). cbn in *. lra.
Qed.
Print Assumptions in_triangle_degenerate_refuted.
Theorem in_triangle_degenerate : forall a b c p, cross a b c == 0 ->
  (in_triangle a b c p = true <-> cross b c p == 0 /\ cross c a p == 0 /\ cross a b p == 0).
Proof.
  intros a b c p D. rewrite in_triangle_iff.
  assert (S : cross b c p + cross c a p + cross a b p == cross a b c) by (unfold cross; ring).
  split; intros (X & Y & Z); repeat split; lra.
Qed.
Print Assumptions in_triangle_degenerate.

Example ex_in_triangle : in_triangle (0, 1) (0, 1#2) (1#2, 1#2) (1#6, 2#3) = true /\ 0 < cross (0, 1) (0, 1#2) (1#2, 1#2).
Proof. split; reflexivity. Qed.
