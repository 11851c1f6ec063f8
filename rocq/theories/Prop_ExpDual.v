(** Theorems about the duality between exponent pairs and bounds on beta (C34). *)
From Verif Require Import Base Model_Text Model_Reference Spec_Reference Proof_Reference
  Model_Interval Spec_Interval Model_Affine Spec_Affine
  Model_BoundBeta Model_Polytope Model_Hull Spec_Hull Proof_Hull
  Model_ExponentPair Spec_ExponentPair Proof_ExponentPair Proof_ExpSearch Proof_ExpLit Proof_ExpDual Proof_ExpRound.
Open Scope list_scope.

(** Every pair (k,l) of the set yields the bound k + (l-k) a on the closed interval
    [0,1/2], resting on that pair alone; everything else comes from a pair of the
    set through a transform of the set. *)
Theorem pairs_to_beta_exact : forall btr hs out, exponent_pairs_to_beta_bounds btr hs = Ret out ->
  (forall h k l, In h hs -> n_data h = DPair k l -> exists b, In b out /\ n_deps b = [h] /\
     n_data b = DBeta (mkA (l - k) k (mkI 0 (1#2) true true) None)) /\
  (forall b, In b out -> exists h, In h hs /\
     ((exists k l, n_data h = DPair k l /\ n_deps b = [h] /\ n_data b = DBeta (mkA (l - k) k (mkI 0 (1#2) true true) None)) \/
      exists t bs, In t hs /\ is_beta_trans t = true /\ apply_beta_trans btr t h = Ret bs /\ In b bs)).
Proof.
  intros btr hs out H. destruct (to_beta_inv btr hs out H) as [A B]. split.
  - intros h k l I D. destruct (B h I) as (b & Ib & Db & E); [apply is_pair_data; eauto|].
    exists b. rewrite (key_data _ _ _ D) in E. auto.
  - intros b I. apply A in I as (h & Ih & [(k & l & D & E)|(P & t & bs & It & Pt & Et & Ib)]); exists h; (split; [auto|]).
    + left. exists k, l. apply derived_node_inv in E as (E1 & E2 & _). auto.
    + right. exists t, bs. auto.
Qed.
Print Assumptions pairs_to_beta_exact.

(** All bounds obtained are true if the pairs and transforms are. *)
Theorem pairs_to_beta_sound : forall tr btr W hs out, admissible W -> Forall (holds tr btr W) hs ->
  exponent_pairs_to_beta_bounds btr hs = Ret out -> Forall (fun b => is_beta b = true /\ holds tr btr W b) out.
Proof.
  intros tr btr W hs out Ad Ho H. destruct (to_beta_inv btr hs out H) as [A _]. rewrite Forall_forall in Ho.
  apply Forall_forall. intros b I. apply A in I as (h & Ih & [(k & l & D & E)|(P & t & bs & It & Pt & Et & Ib)]); pose proof (Ho h Ih) as Hh.
  - apply derived_node_inv in E as (E1 & E2 & _). unfold is_beta, holds in *. rewrite E1. rewrite D in Hh.
    split; [auto|]. apply pair_bound_true; [apply (beta_upper W Ad)|auto].
  - apply is_pair_data in P as (k & l & D). unfold holds in Hh. rewrite D in Hh. pose proof (Ho t It) as Ht.
    unfold apply_beta_trans in Et. unfold holds in Ht. destruct (n_data t) as [| |t'| |]; try discriminate.
    destruct (Ht h k l bs b D Hh Et Ib) as (b' & Db & Hb). unfold is_beta, holds. rewrite Db. auto.
Qed.
Print Assumptions pairs_to_beta_sound.

(** From bounds to pairs: under the guard every pair returned is true. *)
Theorem beta_to_pairs_sound : forall ch tr btr W hs bb out, hull_spec ch -> admissible W ->
  Forall (fun h => is_beta h = true -> wf (dom (bound_of h))) hs -> Forall (holds tr btr W) hs ->
  (forall a, 0 <= a -> a <= 1#2 -> exists h, In h hs /\ is_beta h = true /\ covers (bound_of h) a) ->
  best_beta_nodes hs = Ret bb -> beta_guard bb ->
  beta_bounds_to_exponent_pairs ch tr hs = Ret out -> Forall (fun h => is_pair h = true /\ holds tr btr W h) out.
Proof.
  intros ch tr btr W hs bb out Hch Ad Wf Ho Cv Eb G H. apply Forall_forall. intros h I.
  exact (from_beta_true ch Hch tr btr W hs bb out Ad Wf Ho Cv Eb G H h I).
Qed.
Print Assumptions beta_to_pairs_sound.

(** From bounds to pairs: no pair that follows from the best bounds is missed.
    If the line of (k,l) lies above the graph of the best bounds, then at each
    alpha some returned pair is at least as good. *)
Theorem beta_to_pairs_optimal : forall ch tr hs bb b0 out, hull_spec ch -> best_beta_nodes hs = Ret bb ->
  (forall h p, In h bb -> piece_end h p -> 0 <= fst p /\ fst p <= 1#2 /\ 0 <= snd p) ->
  hd_error bb = Some b0 -> x0 (dom (bound_of b0)) <= 0 -> 1#2 <= x1 (dom (bound_of (last bb b0))) ->
  beta_bounds_to_exponent_pairs ch tr hs = Ret out ->
  forall k l a, 0 <= a -> a <= 1#2 -> 0 <= k -> 0 <= k + l ->
  (forall h p, In h bb -> piece_end h p -> snd p <= pair_line (k, l) (fst p)) ->
  exists h, In h out /\ is_pair h = true /\ pair_line (key_of h) a <= pair_line (k, l) a.
Proof.
  intros ch tr hs bb b0 out Hch Eb G Hd X0 X1 H k l a A0 A1 K0 K1 Ab.
  exact (from_beta_optimal ch Hch tr hs bb b0 out Eb G H Hd X0 X1 k l a A0 A1 K0 K1 Ab).
Qed.
Print Assumptions beta_to_pairs_optimal.

(** Round trip: from the bounds of any pairs of the triangle the conversion
    returns only those pairs (and their images under B, when B is in the set), and
    for every one of them and every alpha a pair that is at least as good. *)
Theorem pairs_round_trip : forall ch tr hs, hull_spec ch -> Forall proper_node hs ->
  (forall h, In h hs -> is_beta h = true -> exists k l, pair_bound h k l) ->
  (exists h, In h hs /\ is_beta h = true) ->
  (forall B h, find_keyword B_name hs = Some B -> is_pair h = true -> proper_node h ->
     exists h', apply_trans tr B h = Ret h' /\ is_pair h' = true) ->
  exists out, beta_bounds_to_exponent_pairs ch tr hs = Ret out /\
  (forall h, In h out -> is_pair h = true /\
     (In h hs \/ exists g k l h0, In g hs /\ pair_bound g k l /\ is_pair h0 = true /\ pt_eq (key_of h0) (k, l) /\
        (h = h0 \/ exists B, find_keyword B_name hs = Some B /\ apply_trans tr B h0 = Ret h))) /\
  (forall g k l a, In g hs -> pair_bound g k l -> 0 <= a -> a <= 1#2 ->
     exists h, In h out /\ is_pair h = true /\ pair_line (key_of h) a <= pair_line (k, l) a).
Proof. intros ch tr hs Hch Hp Hb He HB. exact (round_trip hs Hp Hb He ch Hch tr HB). Qed.
Print Assumptions pairs_round_trip.

(** ** The guards are needed *)

(** A world with prescribed beta on [0,1/2] and no constraint on mu. *)
Definition world_of (g : Q -> Q) : zworld :=
  mkZ (fun a v => if Qleb a (1#2) then g a <= v else g (1 - a) + (a - (1#2)) <= v) (fun _ _ => True).

Lemma world_of_admissible : forall g, (forall x y, x == y -> g x == g y) -> admissible (world_of g).
Proof.
  intros g Pg. constructor; cbn; try (intros; exact Logic.I).
  - intros x x' v v' E L H. destruct (Qleb_spec x (1#2)), (Qleb_spec x' (1#2)); try (exfalso; lra).
    + rewrite <- (Pg x x' E). lra.
    + rewrite <- (Pg (1 - x) (1 - x')) by (rewrite E; reflexivity). lra.
  - intros x x' v v' _ _ H. exact H.
  - intros a v A0 A1. destruct (Qleb_spec a (1#2)) as [_|N]; [|exfalso; lra]. destruct (Qleb_spec (1 - a) (1#2)) as [L|L].
    + assert (E : a == 1 - a) by lra. rewrite <- (Pg a (1 - a) E). split; lra.
    + rewrite (Pg (1 - (1 - a)) a) by ring. split; lra.
Qed.

Definition on01 (s i : Q) (u v : Q) : hnode := HNode [] (DBeta (mkA s i (mkI u v true true) None)) ref_trivial [].

(** A bound whose slope is below 1/2: the pair (1/3, 7/12) is returned although
    beta(5/9) may exceed its line. *)
Theorem beta_to_pairs_slope_refuted : exists hs out W h, admissible W /\ Forall (holds (lit_trans ref_trivial) (fun _ _ => Ret []) W) hs /\
  (forall a, 0 <= a -> a <= 1#2 -> exists h, In h hs /\ is_beta h = true /\ covers (bound_of h) a) /\
  beta_bounds_to_exponent_pairs wrap_hull (lit_trans ref_trivial) hs = Ret out /\ In h out /\ is_pair h = true /\
  triangle (fst (key_of h)) (snd (key_of h)) /\
  ~ holds (lit_trans ref_trivial) (fun _ _ => Ret []) W h.
Proof.
  set (g := fun a => if Qleb a (4#9) then a else (1#3) + (1#4) * a).
  assert (Pg : forall x y, x == y -> g x == g y).
  { intros x y E. unfold g. destruct (Qleb_spec x (4#9)), (Qleb_spec y (4#9)); lra. }
  exists [on01 (1#4) (1#3) 0 (1#2)]. do 3 eexists. split; [exact (world_of_admissible g Pg)|]. split; [|split; [|split; [vm_compute; reflexivity|split; [left; reflexivity|]]]].
  - constructor; [|constructor]. intros a [A0 A1]. cbn in A0, A1. cbn. unfold value. cbn.
    destruct (Qleb_spec a (1#2)); [|lra]. unfold g. destruct (Qleb_spec a (4#9)); lra.
  - intros a A0 A1. eexists. split; [left; reflexivity|]. split; [auto|]. split; cbn; auto.
  - split; [reflexivity|]. split; [cbn; unfold triangle; lra|]. intros [_ H]. specialize (H (5#9) ltac:(lra) ltac:(lra)). vm_compute in H. apply H. reflexivity.
Qed.
Print Assumptions beta_to_pairs_slope_refuted.

(** Bounds with a hole between them are interpolated across the hole. *)
Theorem beta_to_pairs_gap_refuted : exists hs out W h bb, admissible W /\ Forall (holds (lit_trans ref_trivial) (fun _ _ => Ret []) W) hs /\
  best_beta_nodes hs = Ret bb /\ beta_guard bb /\
  beta_bounds_to_exponent_pairs wrap_hull (lit_trans ref_trivial) hs = Ret out /\ In h out /\ is_pair h = true /\
  ~ holds (lit_trans ref_trivial) (fun _ _ => Ret []) W h.
Proof.
  set (g := fun a => if Qltb (1#8) a && Qltb a (1#4) then a else (1#2) * a).
  assert (Pg : forall x y, x == y -> g x == g y).
  { intros x y E. unfold g. destruct (Qltb_spec (1#8) x), (Qltb_spec (1#8) y), (Qltb_spec x (1#4)), (Qltb_spec y (1#4)); cbn [andb]; lra. }
  exists [on01 (1#2) 0 0 (1#8); on01 (1#2) 1 0 (1#8); on01 (1#2) 1 (1#4) (1#2); on01 (1#2) 0 (1#4) (1#2)]. do 4 eexists. split; [exact (world_of_admissible g Pg)|].
  split; [|split; [vm_compute; reflexivity|split; [|split; [vm_compute; reflexivity|split; [left; reflexivity|]]]]].
  - repeat (constructor; [|]); [| | | |constructor]; intros a [A0 A1]; cbn in A0, A1; cbn; unfold value; cbn;
      (destruct (Qleb_spec a (1#2)); [|lra]); unfold g; destruct (Qltb_spec (1#8) a), (Qltb_spec a (1#4)); cbn [andb]; lra.
  - constructor.
    + intros h p [<-|[<-|[]]] [->| ->]; (split; apply Qleb_true; reflexivity).
    + intros h p [<-|[<-|[]]] [->| ->]; (apply Qleb_true; reflexivity).
    + intros h p [<-|[<-|[]]] [->| ->] _; (apply Qleb_true; reflexivity).
    + eexists _, _. split; [right; left; reflexivity|]. split; [right; reflexivity|]. split; [reflexivity|]. split; [apply Qleb_true; reflexivity|].
      intros h p [<-|[<-|[]]] [->| ->]; apply Qleb_true; reflexivity.
  - split; [reflexivity|]. intros [_ H]. specialize (H (3#16) ltac:(lra) ltac:(lra)). vm_compute in H. apply H. reflexivity.
Qed.
Print Assumptions beta_to_pairs_gap_refuted.

(** A bound stated beyond 1/2, such as the trivial bound beta(a) <= a on [0,1]
    (bound_beta.py 73-80), makes the conversion return (-1, 1), false everywhere. *)
Theorem beta_to_pairs_domain_refuted : exists out h,
  beta_bounds_to_exponent_pairs wrap_hull (lit_trans ref_trivial) [on01 1 0 0 1] = Ret out /\
  In h out /\ is_pair h = true /\ pt_eq (key_of h) (-1, 1).
Proof.
  do 2 eexists. split; [vm_compute; reflexivity|]. split; [left; reflexivity|]. split; [reflexivity|]. split; reflexivity.
Qed.
Print Assumptions beta_to_pairs_domain_refuted.

(** Non-vacuity: the bounds of (0,1), (1/6,2/3) and (1/2,1/2), with B in the set. *)
Definition round_hs : list hnode :=
  [on01 1 0 0 (1#2); on01 ((2#3) - (1#6)) (1#6) 0 (1#2); on01 ((1#2) - (1#2)) (1#2) 0 (1#2); B_hyp].
Example ex_round_trip : Forall proper_node round_hs /\
  (forall h, In h round_hs -> is_beta h = true -> exists k l, pair_bound h k l) /\
  match beta_bounds_to_exponent_pairs wrap_hull (lit_trans ref_trivial) round_hs with
  | Ret out => map (fun h => (Qred (fst (key_of h)), Qred (snd (key_of h)))) out | _ => [] end =
  [(1#6, 2#3); (1#6, 2#3); (0, 1); (1#2, 1#2)].
Proof.
  split; [repeat (constructor; [left; exact Logic.I|]); constructor|]. split.
  - intros h [<-|[<-|[<-|[<-|[]]]]] Hb; [| | |discriminate Hb].
    + exists 0, 1. split; [unfold triangle; lra|reflexivity].
    + exists (1#6), (2#3). split; [unfold triangle; lra|]. reflexivity.
    + exists (1#2), (1#2). split; [unfold triangle; lra|reflexivity].
  - vm_compute. reflexivity.
Qed.
(** Non-vacuity of the guard. *)
Example ex_guard : exists bb, best_beta_nodes round_hs = Ret bb /\ beta_guard bb /\
  (forall a, 0 <= a -> a <= 1#2 -> exists h, In h round_hs /\ is_beta h = true /\ covers (bound_of h) a).
Proof.
  eexists. split; [vm_compute; reflexivity|]. split.
  - constructor.
    + intros h p [<-|[<-|[]]] [->| ->]; (split; apply Qleb_true; reflexivity).
    + intros h p [<-|[<-|[]]] [->| ->]; (apply Qleb_true; reflexivity).
    + intros h p [<-|[<-|[]]] [->| ->] _; (apply Qleb_true; reflexivity).
    + eexists _, _. split; [right; left; reflexivity|]. split; [right; reflexivity|]. split; [reflexivity|]. split; [apply Qleb_true; reflexivity|].
      intros h p [<-|[<-|[]]] [->| ->]; apply Qleb_true; reflexivity.
  - intros a A0 A1. eexists. split; [left; reflexivity|]. split; [reflexivity|]. split; cbn; auto.
Qed.
