(** The transforms of the literature. *)
From Verif Require Import Base Model_Text Model_Reference Spec_Reference Proof_Reference
  Model_Interval Spec_Interval Model_Affine Spec_Affine Prop_Affine Proof_Interval
  Model_Hull Spec_Hull Proof_Hull Model_ExponentPair Spec_ExponentPair Proof_ExponentPair Proof_ExpSearch
  Proof_Region.
Open Scope list_scope.

Lemma tri_convex : convex_dom tri_set.
Proof.
  split.
  - intros p q [E1 E2] T. now apply (triangle_eq (fst p) (snd p)).
  - intros [k l] [k' l'] t (A1 & A2 & A3 & A4 & A5) (B1 & B2 & B3 & B4 & B5) T0 T1. cbn in *.
    assert (M : forall x y, 0 <= x -> 0 <= y -> 0 <= (1 - t) * x + t * y).
    { intros x y X Y. assert (0 <= (1 - t) * x) by (apply Qmult_le_0_compat; lra).
      assert (0 <= t * y) by (apply Qmult_le_0_compat; lra). lra. }
    unfold tri_set, triangle. cbn.
    split; [now apply M|]. split; [|split; [|split]].
    + specialize (M ((1#2) - k) ((1#2) - k') ltac:(lra) ltac:(lra)). lra.
    + specialize (M (l - (1#2)) (l' - (1#2)) ltac:(lra) ltac:(lra)). lra.
    + specialize (M (1 - l) (1 - l') ltac:(lra) ltac:(lra)). lra.
    + specialize (M (1 - k - l) (1 - k' - l') ltac:(lra) ltac:(lra)). lra.
Qed.

(** Projective maps: the image of a segment under (n1/w, n2/w) with affine n1, n2
    and positive affine w. *)
Lemma projective_seg : forall wp wq n1p n1q n2p n2q t, 0 < wp -> 0 < wq -> 0 <= t -> t <= 1 ->
  exists s, 0 <= s /\ s <= 1 /\
    ((1 - t) * n1p + t * n1q) / ((1 - t) * wp + t * wq) == (1 - s) * (n1p / wp) + s * (n1q / wq) /\
    ((1 - t) * n2p + t * n2q) / ((1 - t) * wp + t * wq) == (1 - s) * (n2p / wp) + s * (n2q / wq).
Proof.
  intros wp wq n1p n1q n2p n2q t P Q T0 T1.
  assert (X : 0 <= t * wq) by (apply Qmult_le_0_compat; lra).
  assert (Y : 0 <= (1 - t) * wp) by (apply Qmult_le_0_compat; lra).
  assert (W : 0 < (1 - t) * wp + t * wq).
  { destruct (Qeqb_spec t 0) as [E|E].
    - setoid_replace ((1 - t) * wp + t * wq) with wp by (rewrite E; ring). auto.
    - assert (0 < t * wq) by (apply Qmult_lt_0_compat; [lra|auto]). lra. }
  exists (t * wq / ((1 - t) * wp + t * wq)).
  split; [apply Qle_shift_div_l; lra|]. split; [apply Qle_shift_div_r; lra|].
  split; field; repeat split; lra.
Qed.

Lemma A_segment : segment_map tri_set A_map.
Proof.
  split.
  - intros [k l] [k' l'] _ [E1 E2]. cbn in *. split; cbn; rewrite E1; [|rewrite E2]; reflexivity.
  - intros [k l] T. apply (A_bounds k l T).
  - intros [k l] [k' l'] t T T' T0 T1. destruct T as (K & _), T' as (K' & _). cbn in K, K'.
    destruct (projective_seg (2 * k + 2) (2 * k' + 2) k k' (k + 1 + l) (k' + 1 + l') t) as (s & S0 & S1 & E1 & E2); try lra.
    exists s. split; [auto|]. split; [auto|].
    assert (W : 0 < (1 - t) * (2 * k + 2) + t * (2 * k' + 2)).
    { assert (0 <= (1 - t) * k) by (apply Qmult_le_0_compat; lra).
      assert (0 <= t * k') by (apply Qmult_le_0_compat; lra). lra. }
    assert (W' : 2 * ((1 - t) * k + t * k') + 2 == (1 - t) * (2 * k + 2) + t * (2 * k' + 2)) by ring.
    split; cbn.
    + rewrite W'. exact E1.
    + setoid_replace ((1#2) + ((1 - t) * l + t * l') / (2 * ((1 - t) * k + t * k') + 2))
        with (((1 - t) * (k + 1 + l) + t * (k' + 1 + l')) / ((1 - t) * (2 * k + 2) + t * (2 * k' + 2))).
      * rewrite E2.
        setoid_replace ((k + 1 + l) / (2 * k + 2)) with ((1#2) + l / (2 * k + 2)) by (field; lra).
        setoid_replace ((k' + 1 + l') / (2 * k' + 2)) with ((1#2) + l' / (2 * k' + 2)) by (field; lra). reflexivity.
      * rewrite <- W'. field. rewrite W'. lra.
Qed.

Lemma B_segment : segment_map tri_set B_map.
Proof.
  split.
  - intros [k l] [k' l'] _ [E1 E2]. cbn in *. split; cbn; lra.
  - intros [k l] T. apply (B_bounds k l T).
  - intros [k l] [k' l'] t T T' T0 T1. exists t. split; [auto|]. split; [auto|]. split; cbn; ring.
Qed.

Lemma C_segment : segment_map tri_set C_map.
Proof.
  split.
  - intros [k l] [k' l'] _ [E1 E2]. cbn in *. split; cbn; rewrite E1; [|rewrite E2]; reflexivity.
  - intros [k l] T. apply (C_bounds k l T).
  - intros [k l] [k' l'] t T T' T0 T1. destruct T as (K & _), T' as (K' & _). cbn in K, K'.
    destruct (projective_seg (12 * (1 + 4 * k)) (12 * (1 + 4 * k')) k k' (11 * (1 + 4 * k) + l) (11 * (1 + 4 * k') + l') t)
      as (s & S0 & S1 & E1 & E2); try lra.
    exists s. split; [auto|]. split; [auto|].
    assert (W' : 12 * (1 + 4 * ((1 - t) * k + t * k')) == (1 - t) * (12 * (1 + 4 * k)) + t * (12 * (1 + 4 * k'))) by ring.
    assert (N' : 11 * (1 + 4 * ((1 - t) * k + t * k')) + ((1 - t) * l + t * l') ==
      (1 - t) * (11 * (1 + 4 * k) + l) + t * (11 * (1 + 4 * k') + l')) by ring.
    split; cbn; rewrite W'; [exact E1|]. rewrite N'. exact E2.
Qed.

Section Lit.
Context (rc rd : reference).
Notation tr := (lit_trans rc).

Definition lit_map (t : hnode) : pt -> pt :=
  match n_data t with DTrans 0 => A_map | DTrans 1 => B_map | _ => C_map end.

Lemma lit_acts : forall t h h', lit_node t -> apply_trans tr t h = Ret h' ->
  is_pair h = true /\ is_pair h' = true /\ pt_eq (key_of h') (lit_map t (key_of h)).
Proof.
  intros t h h' L H. unfold apply_trans in H. unfold lit_map.
  destruct L as [E|[E|E]]; rewrite E in H |- *; cbn [lit_trans] in H; [apply A_inv in H|apply B_inv in H|apply C_inv in H];
    destruct H as (k & l & k' & l' & D & D' & K & _);
    rewrite (key_data _ _ _ D), (key_data _ _ _ D'); repeat split; try apply is_pair_data; eauto; apply K.
Qed.

Lemma lit_segment : forall t, lit_node t -> segment_map tri_set (lit_map t) /\ acts_as tr tri_set t (lit_map t).
Proof.
  intros t L. split.
  - unfold lit_map. destruct L as [E|[E|E]]; rewrite E; [apply A_segment|apply B_segment|apply C_segment].
  - intros h h' P D H. destruct (lit_acts t h h' L H) as (_ & P' & K). auto.
Qed.

Lemma lit_map_eq : forall t p q, pt_eq p q -> pt_eq (lit_map t p) (lit_map t q).
Proof.
  intros t [k l] [k' l'] [E1 E2]. cbn in E1, E2. unfold lit_map.
  destruct (n_data t) as [|n| | |]; try (split; cbn; rewrite E1; [|rewrite E2]; reflexivity).
  destruct n as [|[|n]]; try (split; cbn; rewrite E1; [|rewrite E2]; reflexivity). split; cbn; lra.
Qed.

Lemma lit_determined : forall t, lit_node t -> determined tr t.
Proof.
  intros t L h1 h2 a b P1 P2 E Ha Hb.
  destruct (lit_acts t h1 a L Ha) as (_ & Pa & Ka). destruct (lit_acts t h2 b L Hb) as (_ & Pb & Kb).
  split; [congruence|]. rewrite Ka, Kb. now apply lit_map_eq.
Qed.

Lemma lit_total : forall t h, lit_node t -> proper_year (r_year rc) -> is_pair h = true -> in_tri h -> proper_node h ->
  exists h', apply_trans tr t h = Ret h' /\ is_pair h' = true /\ in_tri h' /\ proper_node h'.
Proof.
  intros t h L PC P T Py. apply is_pair_data in P as (k & l & D).
  assert (K : 0 <= k) by (unfold in_tri, tri_set in T; rewrite (key_data _ _ _ D) in T; apply T).
  assert (X : exists h', apply_trans tr t h = Ret h' /\ proper_node h').
  { unfold apply_trans. destruct L as [E|[E|E]]; rewrite E; cbn [lit_trans].
    - now apply (A_total h k l).
    - now apply (B_total h k l).
    - now apply (C_total rc h k l). }
  destruct X as (h' & E & P'). exists h'. split; [auto|].
  destruct (lit_acts t h h' L E) as (_ & Ph & Kh). split; [auto|]. split; [|auto].
  apply (dom_eq _ tri_convex (lit_map t (key_of h))); [now symmetry|].
  apply (sm_dom _ _ (proj1 (lit_segment t L))). exact T.
Qed.

(** Without pruning the search always returns. *)
Definition fine (h : hnode) : Prop := is_pair h = true /\ in_tri h /\ proper_node h.
Lemma apply_all_total : forall t snap d, lit_node t -> proper_year (r_year rc) ->
  Forall (fun e => fine (snd e)) snap -> Forall (fun e => fine (snd e)) d ->
  exists d', apply_all tr t snap d = Ret d' /\ Forall (fun e => fine (snd e)) d'.
Proof.
  intros t. induction snap as [|[k p] snap IH]; intros d L PC Fs Fd; cbn [apply_all]; [eauto|].
  apply Forall_cons_iff in Fs as [(P & T & Y) Fs]. cbn in P, T, Y.
  destruct (lit_total t p L PC P T Y) as (tp & E & P' & T' & Y'). rewrite E. cbn [bind].
  pose proof P' as P''. apply is_pair_data in P'' as (k' & l' & D). unfold pair_of. rewrite D. cbn [bind].
  apply IH; auto. destruct (e_mem _ _); [auto|]. apply Forall_app. split; [auto|]. constructor; [|constructor].
  cbn. split; auto.
Qed.
Lemma one_round_total : forall ts d, Forall lit_node ts -> proper_year (r_year rc) -> Forall (fun e => fine (snd e)) d ->
  exists d', one_round tr ts d = Ret d' /\ Forall (fun e => fine (snd e)) d'.
Proof.
  induction ts as [|t ts IH]; intros d L PC F; cbn [one_round]; [eauto|].
  apply Forall_cons_iff in L as [L1 L]. destruct (apply_all_total t d d L1 PC F F) as (d1 & E & F1). rewrite E. cbn [bind]. auto.
Qed.
Lemma rounds_total : forall ch n ts d, Forall lit_node ts -> proper_year (r_year rc) -> Forall (fun e => fine (snd e)) d ->
  exists d', rounds ch tr n false ts d = Ret d' /\ Forall (fun e => fine (snd e)) d'.
Proof.
  intros ch. induction n as [|n IH]; intros ts d L PC F; cbn [rounds]; [eauto|].
  destruct (one_round_total ts d L PC F) as (d1 & E & F1). rewrite E. cbn [bind]. auto.
Qed.

(** ** The D transform *)
Lemma D_total : forall h k l, n_data h = DPair k l -> triangle k l -> proper_node h -> proper_year (r_year rd) ->
  exists out, D_fun rd h = Ret out /\
    (forall h', In h' out -> exists b, n_data h' = DBeta b /\ n_deps h' = [h; D_hyp rd]) /\
    (forall a, 0 <= a /\ a <= 1#2 <-> exists h' b, In h' out /\ n_data h' = DBeta b /\ covers b a) /\
    (forall h' b a, In h' out -> n_data h' = DBeta b -> covers b a ->
       let p := D_map (k, l) in
       (value b a == pair_line p a \/ value b a == (1#12) + (2#3) * a) /\
       pair_line p a <= value b a /\ (1#12) + (2#3) * a <= value b a).
Proof.
  intros h k l D (T1 & T2 & T3 & T4 & T5) P PD. unfold D_fun. rewrite D. rewrite !qdiv_ok by (intro; lra). cbn [bind].
  set (sl := (6 * k + 5 * l + 2) / (2 * (5 * k + 3 * l + 2))). set (ic := (5 * k + l + 2) / (8 * (5 * k + 3 * l + 2))).
  set (f := mkA sl ic (mkI 0 (1#2) true true) None).
  set (g := mkA (2#3) (1#12) (mkI 0 (1#2) true true) None).
  destruct (max_with_exact f [g] None) as (ps & E & _ & Cv & Mx).
  { repeat constructor; unfold well_formed, wf; cbn; lra. }
  { exact Logic.I. }
  { intros x _ Hx. exists g. split; [now left|]. exact Hx. }
  rewrite E. cbn [bind].
  destruct (mapM_list_ok (fun p => derived_bound_beta p [h; D_hyp rd])
     (fun b h' => n_data h' = DBeta b /\ n_deps h' = [h; D_hyp rd]) ps) as (out & Eo & Fo).
  { apply Forall_forall. intros b _.
    destruct (derived_node_ret (s_of "Derived bound on \beta") (DBeta b) [h; D_hyp rd]) as (h' & Eh & H1 & H2 & _).
    { constructor; [auto|constructor; [exact PD|constructor]]. }
    exists h'. auto. }
  exists out. split; [exact Eo|].
  assert (L1 : forall h', In h' out -> exists b, In b ps /\ n_data h' = DBeta b /\ n_deps h' = [h; D_hyp rd]).
  { clear - Fo. induction Fo as [|b h0 ps out [R1 R2] Fo IH]; intros h' I; [easy|].
    destruct I as [<-|I]; [exists b; split; [now left|auto]|]. destruct (IH h' I) as (b' & Ib & H). exists b'. split; [now right|auto]. }
  assert (L2 : forall b, In b ps -> exists h', In h' out /\ n_data h' = DBeta b).
  { clear - Fo. induction Fo as [|b h0 ps out [R1 R2] Fo IH]; intros b' I; [easy|].
    destruct I as [<-|I]; [exists h0; split; [now left|auto]|]. destruct (IH b' I) as (h' & Ih & H). exists h'. split; [now right|auto]. }
  assert (HD : 0 < 5 * k + 3 * l + 2) by lra.
  assert (VL : forall a, value f a == pair_line (D_map (k, l)) a).
  { intro a. unfold value, f, pair_line, D_map, sl, ic. cbn. field. lra. }
  assert (VG : forall a, value g a == (1#12) + (2#3) * a) by (intro a; unfold value, g; cbn; ring).
  split; [|split].
  - intros h' I. destruct (L1 h' I) as (b & _ & H). eauto.
  - intros a. split.
    + intros R. destruct (proj2 (Cv a)) as (p & Ip & Cp).
      { split; [exact Logic.I|]. exists g. split; [right; now left|]. exact R. }
      destruct (L2 p Ip) as (h' & Ih & Dh). eauto.
    + intros (h' & b & Ih & Dh & Cb). destruct (L1 h' Ih) as (b' & Ib & Db & _). rewrite Dh in Db. injection Db as <-.
      destruct (proj1 (Cv a)) as (_ & q & [<-|[<-|[]]] & Cq); [eauto|exact Cq|exact Cq].
  - intros h' b a Ih Dh Cb. cbv zeta. destruct (L1 h' Ih) as (b' & Ib & Db & _). rewrite Dh in Db. injection Db as <-.
    destruct (Mx b a Ib Cb) as [(q & Iq & Cq & Eq) Hm].
    assert (Ra : 0 <= a /\ a <= 1#2) by (destruct Iq as [<-|[<-|[]]]; exact Cq).
    assert (M1 : value f a <= value b a) by (apply Hm; [now left|exact Ra]).
    assert (M2 : value g a <= value b a) by (apply Hm; [right; now left|exact Ra]).
    rewrite VL in M1. rewrite VG in M2. split; [|split; auto].
    destruct Iq as [<-|[<-|[]]]; [left|right]; rewrite <- Eq; [apply VL|apply VG].
Qed.

Lemma D_pair_triangle : forall k l, triangle k l -> tri_set (D_map (k, l)).
Proof.
  intros k l (T1 & T2 & T3 & T4 & T5). unfold tri_set, triangle, D_map. cbn.
  assert (HD : 0 < 8 * (5 * k + 3 * l + 2)) by lra.
  split; [apply Qle_shift_div_l; lra|]. split; [apply Qle_shift_div_r; lra|].
  split; [apply Qle_shift_div_l; lra|]. split; [apply Qle_shift_div_r; lra|].
  setoid_replace ((5 * k + l + 2) / (8 * (5 * k + 3 * l + 2)) + (29 * k + 21 * l + 10) / (8 * (5 * k + 3 * l + 2)))
    with ((34 * k + 22 * l + 12) / (8 * (5 * k + 3 * l + 2))) by (field; lra).
  apply Qle_shift_div_r; lra.
Qed.
End Lit.

(** ** Truth *)
Lemma line_B : forall k l a, pair_line (B_map (k, l)) a == l - (1#2) + (k + 1 - l) * a.
Proof. intros. unfold pair_line, B_map. cbn. ring. Qed.

Lemma B_true : forall W k l, admissible W -> exp_pair W k l -> exp_pair W (l - (1#2)) (k + (1#2)).
Proof.
  intros W k l Ad [T H]. split; [apply (B_bounds k l T)|]. intros a A0 A1.
  destruct (Qlt_le_dec (1#2) a) as [Hi|Lo].
  - apply (beta_upper W Ad (1 - (1 - a)) a ((1#2) - (1 - a) + (k + (l - k) * (1 - a)))); [ring|ring_simplify; lra|].
    apply (beta_reflect W Ad (1 - a)); [lra|lra|]. apply H; lra.
  - apply (beta_reflect W Ad a); [auto|auto|].
    apply (beta_upper W Ad (1 - a) (1 - a) (k + (l - k) * (1 - a))); [reflexivity|lra|]. apply H; lra.
Qed.

Lemma reach_true : forall tr btr W ps ts n h, Forall (holds tr btr W) ps -> Forall (holds tr btr W) ts ->
  Forall (fun p => is_pair p = true) ps ->
  reach tr ps ts n h -> is_pair h = true /\ holds tr btr W h.
Proof.
  intros tr btr W ps ts n h Fp Ft P R. rewrite Forall_forall in *. induction R as [h I|n h t h' R IH It Et]; [auto|].
  destruct IH as [Ph Hh]. apply is_pair_data in Ph as (k & l & D). pose proof (Ft t It) as Ht.
  unfold holds in Hh, Ht. rewrite D in Hh. unfold apply_trans in Et. destruct (n_data t) as [|i| | |]; try discriminate.
  destruct (Ht h k l h' D Hh Et) as (k' & l' & D' & H'). split; [apply is_pair_data; eauto|]. unfold holds. now rewrite D'.
Qed.
