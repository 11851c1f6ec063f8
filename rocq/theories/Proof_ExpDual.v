(** Duality between exponent pairs and bounds on beta. *)
From Verif Require Import Base Model_Text Model_Reference Spec_Reference Proof_Reference
  Model_Interval Spec_Interval Model_Affine Spec_Affine Proof_Interval Proof_Affine Proof_AffineMerge
  Model_BoundBeta Proof_BoundBeta Model_Polytope
  Model_Hull Spec_Hull Proof_Hull Model_ExponentPair Spec_ExponentPair Proof_ExponentPair Proof_ExpSearch Proof_ExpLit
  Proof_Region.
Open Scope list_scope.

Lemma is_beta_data : forall h, is_beta h = true <-> n_data h = DBeta (bound_of h).
Proof.
  intros h. unfold is_beta, bound_of. destruct (n_data h); split; intro H; try discriminate H; auto.
Qed.

Lemma Forall2_in_r : forall A B (R : A -> B -> Prop) l m b, Forall2 R l m -> In b m -> exists a, In a l /\ R a b.
Proof.
  intros A B R l m b F. induction F as [|a b0 l m H F IH]; intros I; [easy|].
  destruct I as [<-|I]; [exists a; split; [now left|auto]|]. destruct (IH I) as (a' & I' & R'). exists a'. split; [now right|auto].
Qed.
Lemma Forall2_in_l : forall A B (R : A -> B -> Prop) l m a, Forall2 R l m -> In a l -> exists b, In b m /\ R a b.
Proof.
  intros A B R l m a F. induction F as [|a0 b l m H F IH]; intros I; [easy|].
  destruct I as [<-|I]; [exists b; split; [now left|auto]|]. destruct (IH I) as (b' & I' & R'). exists b'. split; [now right|auto].
Qed.

(** ** From pairs to bounds *)
Section ToBeta.
Context (btr : nat -> hnode -> res (list hnode)).
Lemma to_beta_inv : forall hs out, exponent_pairs_to_beta_bounds btr hs = Ret out ->
  (forall b, In b out <-> exists h, In h hs /\
     ((exists k l, n_data h = DPair k l /\ derived_bound_beta (mkA (l - k) k half_interval None) [h] = Ret b) \/
      (is_pair h = true /\ exists t bs, In t hs /\ is_beta_trans t = true /\ apply_beta_trans btr t h = Ret bs /\ In b bs))) /\
  (forall h, In h hs -> is_pair h = true -> exists b, In b out /\ n_deps b = [h] /\
     n_data b = DBeta (mkA (snd (key_of h) - fst (key_of h)) (fst (key_of h)) half_interval None)).
Proof.
  intros hs out H. unfold exponent_pairs_to_beta_bounds in H.
  match type of H with context [mapM ?f ?l] => destruct (mapM f l) as [ls|] eqn:E; [|discriminate]; set (g := f) in * end.
  cbn [bind] in H. injection H as <-. apply mapM_Forall2 in E.
  assert (G : forall h r, In h (filter is_pair hs) -> g h = Ret r -> exists k l b bs,
    n_data h = DPair k l /\ derived_bound_beta (mkA (l - k) k half_interval None) [h] = Ret b /\
    Forall2 (fun t r => apply_beta_trans btr t h = Ret r) (filter is_beta_trans hs) bs /\ r = b :: concat bs).
  { intros h r Ih Hr. unfold g in Hr. destruct (pair_of h) as [[k l]|] eqn:P; [|discriminate]. cbn [bind] in Hr.
    destruct (derived_bound_beta (mkA (l - k) k half_interval None) [h]) as [b|] eqn:Db; [|discriminate]. cbn [bind] in Hr.
    destruct (mapM _ _) as [bs|] eqn:M; [|discriminate]. cbn [bind] in Hr. injection Hr as <-.
    exists k, l, b, bs. split; [now apply pair_of_inv|]. split; [auto|]. split; [now apply mapM_Forall2|auto]. }
  split.
  - intros b. rewrite in_concat. split.
    + intros (r & Ir & Ib). destruct (Forall2_in_r _ _ _ _ _ _ E Ir) as (h & Ih & Hh).
      destruct (G h r Ih Hh) as (k & l & b0 & bs & D & Eb & F & ->). apply filter_In in Ih as [Ih P].
      exists h. split; [auto|]. destruct Ib as [<-|Ib]; [left; eauto|right]. split; [auto|].
      apply in_concat in Ib as (r & Ir' & Ib). destruct (Forall2_in_r _ _ _ _ _ _ F Ir') as (t & It & Et).
      apply filter_In in It as [It Pt]. exists t, r. auto.
    + intros (h & Ih & C). assert (P : is_pair h = true) by (destruct C as [(k & l & D & _)|[P _]]; [apply is_pair_data; eauto|auto]).
      assert (Ih' : In h (filter is_pair hs)) by (now apply filter_In).
      destruct (Forall2_in_l _ _ _ _ _ _ E Ih') as (r & Ir & Hr). exists r. split; [auto|].
      destruct (G h r Ih' Hr) as (k & l & b0 & bs & D & Eb & F & ->). destruct C as [(k' & l' & D' & E')|(_ & t & bs' & It & Pt & Et & Ib)].
      * left. rewrite D in D'. injection D' as <- <-. congruence.
      * right. apply in_concat. assert (It' : In t (filter is_beta_trans hs)) by (now apply filter_In).
        destruct (Forall2_in_l _ _ _ _ _ _ F It') as (r' & Ir' & Hr'). exists r'. split; [auto|]. congruence.
  - intros h Ih P. assert (Ih' : In h (filter is_pair hs)) by (now apply filter_In).
    destruct (Forall2_in_l _ _ _ _ _ _ E Ih') as (r & Ir & Hr).
    destruct (G h r Ih' Hr) as (k & l & b0 & bs & D & Eb & F & ->). exists b0. split; [apply in_concat; exists (b0 :: concat bs); split; [auto|now left]|].
    apply derived_node_inv in Eb as (E1 & E2 & _). rewrite (key_data _ _ _ D). auto.
Qed.

Lemma pair_bound_true : forall W k l, upper (beta_le W) -> exp_pair W k l ->
  beta_bound W (mkA (l - k) k half_interval None).
Proof.
  intros W k l U [_ H] a [A0 A1]. cbn in A0, A1. apply (U a a (k + (l - k) * a)); [reflexivity| |apply H; lra].
  unfold value. cbn. lra.
Qed.
End ToBeta.

(** ** Best bounds *)
Lemma best_nodes : forall hs bb, Forall (fun h => is_beta h = true -> wf (dom (bound_of h))) hs ->
  best_beta_nodes hs = Ret bb ->
  exists out, compute_best_beta_bounds (map bound_of (filter is_beta hs)) None = Ret out /\
    Forall2 (fun o h => is_beta h = true /\ out_bound (map bound_of (filter is_beta hs)) o = Some (bound_of h) /\
      (In h hs \/ exists g, In g hs /\ n_deps h = [g])) out bb.
Proof.
  intros hs bb W H. unfold best_beta_nodes in H. set (bs := filter is_beta hs) in *.
  destruct (compute_best_beta_bounds (map bound_of bs) None) as [out|] eqn:E; [|discriminate]. cbn [bind] in H.
  exists out. split; [auto|]. apply mapM_Forall2 in H.
  assert (Wb : Forall (fun b => wf (dom b)) (map bound_of bs)).
  { apply Forall_map, Forall_forall. intros h I. unfold bs in I. apply filter_In in I as [I P]. rewrite Forall_forall in W. auto. }
  destruct (best_beta_correct (map bound_of bs) None Wb ltac:(unfold wf; cbn; lra) out E) as [S _].
  assert (N : forall i b, nth_error (map bound_of bs) i = Some b ->
    In (nth i bs trivial_exp_pair) hs /\ is_beta (nth i bs trivial_exp_pair) = true /\ bound_of (nth i bs trivial_exp_pair) = b).
  { intros i b Hn. rewrite nth_error_map in Hn. destruct (nth_error bs i) as [h|] eqn:En; [|discriminate]. injection Hn as <-.
    rewrite (nth_error_nth bs i _ En). apply nth_error_In in En. unfold bs in En. apply filter_In in En. tauto. }
  clear E. induction H as [|o h out bb Ho H IH]; constructor.
  - destruct (S o (or_introl eq_refl)) as (p & b & Ep & Eb & _). destruct o as [i|b' i].
    + injection Ho as <-. cbn in Eb |- *. destruct (N i b Eb) as (N1 & N2 & N3). split; [auto|]. split; [now rewrite N3|auto].
    + apply derived_node_inv in Ho as (D1 & D2 & _). cbn in Eb. destruct (N i b Eb) as (N1 & N2 & N3).
      split; [unfold is_beta; now rewrite D1|]. split; [unfold bound_of; now rewrite D1|]. right. eauto.
  - apply IH. intros o' I. apply S. now right.
Qed.

Lemma best_nodes_true : forall tr btr W hs bb, upper (beta_le W) ->
  Forall (fun h => is_beta h = true -> wf (dom (bound_of h))) hs -> Forall (holds tr btr W) hs ->
  best_beta_nodes hs = Ret bb -> Forall (fun h => is_beta h = true /\ beta_bound W (bound_of h)) bb.
Proof.
  intros tr btr W hs bb U Wf Ho H. destruct (best_nodes hs bb Wf H) as (out & E & F).
  assert (Wb : Forall (fun b => wf (dom b)) (map bound_of (filter is_beta hs))).
  { apply Forall_map, Forall_forall. intros h I. apply filter_In in I as [I P]. rewrite Forall_forall in Wf. auto. }
  destruct (best_beta_correct _ None Wb ltac:(unfold wf; cbn; lra) out E) as [S _].
  apply Forall_forall. intros h I. destruct (Forall2_in_r _ _ _ _ _ _ F I) as (o & Io & P & Eb & _).
  split; [auto|]. destruct (S o Io) as (p & b & Ep & En & Hp). rewrite Eb in Ep. injection Ep as <-.
  apply nth_error_In in En. apply in_map_iff in En as (g & <- & Ig). apply filter_In in Ig as [Ig Pg].
  rewrite Forall_forall in Ho. pose proof (Ho g Ig) as Hg. unfold holds in Hg. apply is_beta_data in Pg. rewrite Pg in Hg.
  intros a Ca. destruct (Hp a Ca) as [Cg Eg]. apply (U a a (value (bound_of g) a)); [reflexivity|rewrite Eg; lra|auto].
Qed.

Lemma best_nodes_cover : forall hs bb, Forall (fun h => is_beta h = true -> wf (dom (bound_of h))) hs ->
  best_beta_nodes hs = Ret bb -> forall a, 0 <= a -> a <= 1#2 ->
  (exists h, In h hs /\ is_beta h = true /\ covers (bound_of h) a) -> exists h, In h bb /\ covers (bound_of h) a.
Proof.
  intros hs bb Wf H a A0 A1 (h & Ih & Ph & Ch). destruct (best_nodes hs bb Wf H) as (out & E & F).
  assert (Wb : Forall (fun b => wf (dom b)) (map bound_of (filter is_beta hs))).
  { apply Forall_map, Forall_forall. intros h' I. apply filter_In in I as [I P]. rewrite Forall_forall in Wf. auto. }
  destruct (best_beta_correct _ None Wb ltac:(unfold wf; cbn; lra) out E) as [_ C].
  destruct (C a (bound_of h)) as (o & p & Io & Eo & Cp & _); [split; cbn; lra|apply in_map, filter_In; auto|auto|].
  destruct (Forall2_in_l _ _ _ _ _ _ F Io) as (h' & Ih' & _ & E' & _). rewrite Eo in E'. injection E' as ->. eauto.
Qed.

(** ** Edges of the hull *)
Lemma in_beta_points : forall bb p, In p (beta_points bb) <->
  p = (0, 0) \/ p = (1#2, 0) \/ exists h, In h bb /\ piece_end h p.
Proof.
  intros bb p. unfold beta_points. cbn [In]. rewrite in_flat_map. unfold piece_end. split.
  - intros [<-|[<-|(h & Ih & [<-|[<-|[]]])]]; [auto|auto| |]; right; right; exists h; auto.
  - intros [->|[->|(h & Ih & [-> | ->])]]; [auto|auto| |]; right; right; exists h; (split; [auto|]); cbn; auto.
Qed.

Definition slope_of (p1 p2 : pt) : Q := (snd p2 - snd p1) / (fst p2 - fst p1).
Definition icpt_of (p1 p2 : pt) : Q := (snd p1 * fst p2 - fst p1 * snd p2) / (fst p2 - fst p1).
Definition lineto (p1 p2 : pt) (x : Q) : Q := icpt_of p1 p2 + slope_of p1 p2 * x.

Lemma line_cross : forall p1 p2 q, ~ fst p1 == fst p2 ->
  cross p1 p2 q == (fst p2 - fst p1) * (snd q - lineto p1 p2 (fst q)).
Proof. intros p1 p2 q H. unfold lineto, icpt_of, slope_of, cross. field. intro E. apply H. lra. Qed.

Lemma line_ends : forall p1 p2, ~ fst p1 == fst p2 ->
  lineto p1 p2 (fst p1) == snd p1 /\ lineto p1 p2 (fst p2) == snd p2.
Proof. intros p1 p2 H. unfold lineto, icpt_of, slope_of. split; field; intro E; apply H; lra. Qed.

Lemma pos_factor : forall a b, 0 < a -> 0 <= a * b -> 0 <= b.
Proof.
  intros a b A H. destruct (Qlt_le_dec b 0) as [B|B]; [|auto]. exfalso.
  assert (0 < a * (- b)) by (apply Qmult_lt_0_compat; lra). lra.
Qed.
Lemma neg_factor : forall a b, a < 0 -> 0 <= a * b -> b <= 0.
Proof.
  intros a b A H. assert (0 <= - b); [|lra]. apply (pos_factor (- a)); [lra|]. setoid_replace (- a * - b) with (a * b) by ring. auto.
Qed.

(** An upper edge leaves all points below its line. *)
Lemma upper_edge : forall p1 p2 q, fst p2 < fst p1 -> 0 <= cross p1 p2 q -> snd q <= lineto p1 p2 (fst q).
Proof.
  intros p1 p2 q L C. rewrite line_cross in C by (intro; lra).
  assert (snd q - lineto p1 p2 (fst q) <= 0) by (apply (neg_factor (fst p2 - fst p1)); [lra|auto]). lra.
Qed.

Lemma degenerate_false : forall p1 p2, degenerate p1 p2 = false ->
  ~ (snd p1 == 0 /\ snd p2 == 0) /\ ~ (fst p1 == 0 /\ fst p2 == 0) /\ ~ (fst p1 == (1#2) /\ fst p2 == (1#2)).
Proof.
  intros p1 p2 H. unfold degenerate in H. rewrite !orb_false_iff, !andb_false_iff, !Qeqb_false in H. tauto.
Qed.
Lemma degenerate_intro : forall p1 p2, ~ (snd p1 == 0 /\ snd p2 == 0) -> ~ fst p1 == fst p2 -> degenerate p1 p2 = false.
Proof.
  intros p1 p2 H N. unfold degenerate. rewrite !orb_false_iff, !andb_false_iff, !Qeqb_false.
  split; [split|].
  - destruct (Qeqb_spec (snd p1) 0) as [E|E]; [|auto]. right. intro E'. auto.
  - destruct (Qeqb_spec (fst p1) 0) as [E|E]; [|auto]. right. intro E'. apply N. now rewrite E, E'.
  - destruct (Qeqb_spec (fst p1) (1#2)) as [E|E]; [|auto]. right. intro E'. apply N. now rewrite E, E'.
Qed.

(** In a strip 0 <= x <= 1/2 above the base, the edges that are not skipped run
    from right to left. *)
Lemma edge_direction : forall pts p1 p2,
  (forall p, In p pts -> 0 <= fst p /\ fst p <= (1#2) /\ 0 <= snd p) -> In (0, 0) pts -> In (1#2, 0) pts ->
  In p1 pts -> In p2 pts -> ~ pt_eq p1 p2 ->
  (forall q, In q pts -> 0 <= cross p1 p2 q) -> degenerate p1 p2 = false -> fst p2 < fst p1.
Proof.
  intros pts p1 p2 B O1 O2 I1 I2 N C D. apply degenerate_false in D as (D1 & D2 & D3).
  destruct (Qlt_le_dec (fst p2) (fst p1)) as [L|L]; [auto|]. exfalso.
  pose proof (C _ O1) as C1. pose proof (C _ O2) as C2.
  destruct (B _ I1) as (X1 & X1' & Y1), (B _ I2) as (X2 & X2' & Y2).
  destruct (Qeqb_spec (fst p1) (fst p2)) as [E|E].
  - assert (NY : ~ snd p1 == snd p2) by (intro; apply N; split; auto).
    assert (F1 : 0 <= (snd p2 - snd p1) * fst p1).
    { revert C1. unfold cross. cbn. setoid_replace (fst p2) with (fst p1) by (now symmetry). intro C1. lra. }
    assert (F2 : 0 <= (snd p2 - snd p1) * (fst p1 - (1#2))).
    { revert C2. unfold cross. cbn. setoid_replace (fst p2) with (fst p1) by (now symmetry). intro C2. lra. }
    destruct (Qlt_le_dec (snd p1) (snd p2)) as [Y|Y].
    + apply D3. apply pos_factor in F2; [|lra]. split; lra.
    + apply D2. apply neg_factor in F1; [|lra]. split; lra.
  - assert (LT : fst p1 < fst p2) by lra.
    rewrite line_cross in C1, C2 by auto. apply pos_factor in C1; [|lra]. apply pos_factor in C2; [|lra]. cbn in C1, C2.
    destruct (line_ends p1 p2 E) as [E1 E2]. unfold lineto in *.
    set (c := icpt_of p1 p2) in *. set (m := slope_of p1 p2) in *.
    assert (K : forall x, 0 <= x -> x <= 1#2 -> c + m * x <= 0).
    { intros x H0 H1. setoid_replace (c + m * x) with ((1 - 2 * x) * (c + m * 0) + 2 * x * (c + m * (1#2))) by ring.
      assert (0 <= (1 - 2 * x) * - (c + m * 0)) by (apply Qmult_le_0_compat; lra).
      assert (0 <= 2 * x * - (c + m * (1#2))) by (apply Qmult_le_0_compat; lra). lra. }
    apply D1. pose proof (K _ X1 X1'). pose proof (K _ X2 X2'). split; lra.
Qed.

(** The pair of a line that lies above the graph. *)
Lemma edge_pair_true : forall W bb p1 p2, admissible W -> beta_guard bb ->
  Forall (fun h => beta_bound W (bound_of h)) bb ->
  (forall a, 0 <= a -> a <= 1#2 -> exists h, In h bb /\ covers (bound_of h) a) ->
  In p1 (beta_points bb) -> In p2 (beta_points bb) -> fst p2 < fst p1 ->
  (forall q, In q (beta_points bb) -> snd q <= lineto p1 p2 (fst q)) ->
  forall c m, c == icpt_of p1 p2 -> m == slope_of p1 p2 -> exp_pair W c (m + c).
Proof.
  intros W bb p1 p2 Ad [G1 G2 G3 (hr & pr & Ihr & Epr & Xr & Yr & G4)] Tb Cv I1 I2 L Ab c m Ec Em.
  assert (LN : forall x, lineto p1 p2 x == c + m * x) by (intro x; unfold lineto; rewrite Ec, Em; reflexivity).
  assert (AB : forall q, In q (beta_points bb) -> snd q <= c + m * fst q) by (intros q Iq; rewrite <- LN; auto).
  destruct (line_ends p1 p2) as [E1 E2]; [intro; lra|]. rewrite LN in E1, E2.
  assert (C0 : 0 <= c).
  { assert (In (0, 0) (beta_points bb)) as I0 by (apply in_beta_points; auto). specialize (AB _ I0). cbn in AB. lra. }
  assert (X : forall p, In p (beta_points bb) -> 0 <= fst p /\ fst p <= 1#2).
  { intros p I. apply in_beta_points in I as [->|[->|(h & Ih & Ph)]]; [cbn; lra|cbn; lra|]. apply (G1 h p Ih Ph). }
  assert (Sm : forall p, In p (beta_points bb) -> 0 < fst p -> snd p <= fst p).
  { intros p I P. apply in_beta_points in I as [->|[->|(h & Ih & Ph)]]; [cbn in *; lra|cbn; lra|]. apply (G3 h p Ih Ph P). }
  destruct (X p1 I1) as [X1 X1'], (X p2 I2) as [X2 X2'].
  assert (M1 : 1#2 <= m).
  { assert (Q : snd p2 + ((1#2) - fst p2) / 2 <= snd pr).
    { pose proof I2 as J. apply in_beta_points in J as [E|[E|(h & Ih & Ph)]]; [| |apply (G4 h p2 Ih Ph)];
        rewrite E; (apply Qle_trans with (1#4); [apply Qleb_true; reflexivity|auto]). }
    assert (R : snd pr <= c + m * (1#2)).
    { assert (In pr (beta_points bb)) as Ipr by (apply in_beta_points; eauto). specialize (AB _ Ipr). rewrite Xr in AB. exact AB. }
    assert (P : 0 <= ((1#2) - fst p2) * (m - (1#2))).
    { setoid_replace (((1#2) - fst p2) * (m - (1#2))) with ((c + m * (1#2)) - (c + m * fst p2) - ((1#2) - fst p2) / 2) by field. lra. }
    apply pos_factor in P; lra. }
  assert (K : m + 2 * c <= 1).
  { assert (S1 : snd p1 <= fst p1) by (apply Sm; [auto|lra]).
    assert (P : 0 <= fst p1 * (1 - m - 2 * c)).
    { assert (0 <= c * (1 - 2 * fst p1)) by (apply Qmult_le_0_compat; lra). lra. }
    apply pos_factor in P; lra. }
  split; [unfold triangle; repeat split; lra|].
  assert (Low : forall a, 0 <= a -> a <= 1#2 -> beta_le W a (c + m * a)).
  { intros a A0 A1. destruct (Cv a A0 A1) as (h & Ih & Ca). rewrite Forall_forall in Tb. pose proof (Tb h Ih a Ca) as Hb.
    apply (beta_upper W Ad a a (value (bound_of h) a)); [reflexivity| |exact Hb].
    set (b := bound_of h) in *.
    assert (Q0 : value b (x0 (dom b)) <= c + m * x0 (dom b)).
    { apply (AB (x0 (dom b), value b (x0 (dom b)))). apply in_beta_points. right. right. exists h. split; [auto|]. now left. }
    assert (Q1 : value b (x1 (dom b)) <= c + m * x1 (dom b)).
    { apply (AB (x1 (dom b), value b (x1 (dom b)))). apply in_beta_points. right. right. exists h. split; [auto|]. now right. }
    assert (R : x0 (dom b) <= a /\ a <= x1 (dom b)).
    { destruct Ca as [C1 C2]. destruct (incl_lo (dom b)), (incl_hi (dom b)); cbn in C1, C2; lra. }
    unfold value in *. set (u := x0 (dom b)) in *. set (v := x1 (dom b)) in *. set (s := slope b) in *. set (i := icpt b) in *.
    destruct (Qlt_le_dec u v) as [UV|UV].
    - assert (P : 0 <= (v - u) * ((c + m * a) - (s * a + i))).
      { setoid_replace ((v - u) * ((c + m * a) - (s * a + i))) with
          ((v - a) * ((c + m * u) - (s * u + i)) + (a - u) * ((c + m * v) - (s * v + i))) by ring.
        assert (0 <= (v - a) * ((c + m * u) - (s * u + i))) by (apply Qmult_le_0_compat; lra).
        assert (0 <= (a - u) * ((c + m * v) - (s * v + i))) by (apply Qmult_le_0_compat; lra). lra. }
      apply pos_factor in P; lra.
    - assert (E : a == u) by lra. rewrite E. auto. }
  intros a A0 A1. destruct (Qlt_le_dec (1#2) a) as [Hi|Lo].
  - assert (H := Low (1 - a) ltac:(lra) ltac:(lra)). apply (beta_reflect W Ad (1 - a)) in H; [|lra|lra].
    apply (beta_upper W Ad (1 - (1 - a)) a ((1#2) - (1 - a) + (c + m * (1 - a)))); [ring| |exact H].
    assert (0 <= (2 * a - 1) * (m - (1#2))) by (apply Qmult_le_0_compat; lra). lra.
  - apply (beta_upper W Ad a a (c + m * a)); [reflexivity|lra|]. apply Low; lra.
Qed.

(** ** The conversion *)
Section FromBeta.
Context (ch : hull_routine) (Hch : hull_spec ch) (tr : nat -> hnode -> res hnode).

Lemma e_get_in : forall ps k h, e_get k (e_of ps) = Some h -> In h ps /\ pt_eq k (key_of h).
Proof.
  intros ps k h H. unfold e_get in H. destruct (find _ (e_of ps)) as [e|] eqn:F; [|discriminate]. cbn in H. injection H as <-.
  apply find_some in F as [I E]. apply e_of_in in I as [I K]. apply pt_eqb_true in E. split; [auto|]. now rewrite E.
Qed.

Lemma edge_pairs_inv : forall hs deps p1 p2 new, edge_pairs tr hs deps (e_of (filter is_pair hs)) p1 p2 = Ret new ->
  degenerate p1 p2 = false ->
  ~ fst p1 == fst p2 /\ exists h, is_pair h = true /\ pt_eq (key_of h) (icpt_of p1 p2, slope_of p1 p2 + icpt_of p1 p2) /\
    (In h hs \/ (In h new /\ n_deps h = deps)) /\
    forall x, In x new -> x = h \/ exists B, find_keyword B_name hs = Some B /\ apply_trans tr B h = Ret x /\ is_pair x = true.
Proof.
  intros hs deps p1 p2 new H D. unfold edge_pairs in H. rewrite D in H.
  destruct (qdiv (snd p2 - snd p1) (fst p2 - fst p1)) as [m|] eqn:Em; [|discriminate]. cbn [bind] in H.
  destruct (qdiv (snd p1 * fst p2 - fst p1 * snd p2) (fst p2 - fst p1)) as [c|] eqn:Ec; [|discriminate]. cbn [bind] in H.
  apply qdiv_ret in Em as [Nz Em]. apply qdiv_ret in Ec as [_ Ec].
  split; [intro E; apply Nz; lra|].
  assert (X : forall h new0, is_pair h = true -> pt_eq (key_of h) (c, m + c) ->
     (In h hs /\ new0 = [] \/ new0 = [h] /\ n_deps h = deps) ->
     match find_keyword B_name hs with
     | None => Ret new0
     | Some B => let! Bh := apply_trans tr B h in let! key := pair_of Bh in
         Ret (if e_mem key (e_of (filter is_pair hs)) then new0 else new0 ++ [Bh])
     end = Ret new ->
     exists h, is_pair h = true /\ pt_eq (key_of h) (icpt_of p1 p2, slope_of p1 p2 + icpt_of p1 p2) /\
    (In h hs \/ (In h new /\ n_deps h = deps)) /\
    forall x, In x new -> x = h \/ exists B, find_keyword B_name hs = Some B /\ apply_trans tr B h = Ret x /\ is_pair x = true).
  { intros h new0 Ph Kh Cs Hn. exists h. split; [auto|]. split.
    { rewrite Kh. unfold icpt_of, slope_of. split; cbn; rewrite ?Em, ?Ec; reflexivity. }
    destruct (find_keyword B_name hs) as [B|].
    - destruct (apply_trans tr B h) as [Bh|] eqn:EB; [|discriminate]. cbn [bind] in Hn.
      destruct (pair_of Bh) as [[kb lb]|] eqn:Pb; [|discriminate]. cbn [bind] in Hn. apply pair_of_inv in Pb.
      assert (PB : is_pair Bh = true) by (apply is_pair_data; eauto).
      destruct (e_mem (kb, lb) (e_of (filter is_pair hs))); injection Hn as <-.
      + destruct Cs as [[Ih ->]|[-> Dh]].
        * split; [auto|]. intros x [].
        * split; [right; split; [now left|auto]|]. intros x [<-|[]]. auto.
      + destruct Cs as [[Ih ->]|[-> Dh]].
        * split; [auto|]. intros x [<-|[]]. right. eauto.
        * split; [right; split; [now left|auto]|]. intros x [<-|[<-|[]]]; [auto|]. right. eauto.
    - injection Hn as <-. destruct Cs as [[Ih ->]|[-> Dh]].
      + split; [auto|]. intros x [].
      + split; [right; split; [now left|auto]|]. intros x [<-|[]]. auto. }
  destruct (e_get (c, m + c) (e_of (filter is_pair hs))) as [h|] eqn:G.
  - cbn [bind] in H. apply e_get_in in G as [I K]. apply filter_In in I as [I P]. apply (X h []); auto. now symmetry.
  - destruct (derived_exp_pair c (m + c) deps) as [h|] eqn:Dh; [|discriminate]. cbn [bind] in H.
    apply derived_node_inv in Dh as (D1 & D2 & _). apply (X h [h]); auto.
    + apply is_pair_data. eauto.
    + rewrite (key_data _ _ _ D1). reflexivity.
Qed.

Lemma from_beta_inv : forall hs out, beta_bounds_to_exponent_pairs ch tr hs = Ret out ->
  exists bb, best_beta_nodes hs = Ret bb /\
   (out = [] \/
    exists vs ls, ch (beta_points bb) = Ret vs /\ is_hull (beta_points bb) vs /\
      out = filter is_pair hs ++ concat ls /\
      Forall2 (fun e l => edge_pairs tr hs (filter (on_hull (beta_points bb) vs) bb) (e_of (filter is_pair hs))
         (pts_at (beta_points bb) (fst e)) (pts_at (beta_points bb) (snd e)) = Ret l) (cyc_edges vs) ls).
Proof.
  intros hs out H. unfold beta_bounds_to_exponent_pairs in H. destruct (best_beta_nodes hs) as [bb|]; [|discriminate].
  cbn [bind] in H. exists bb. split; [auto|]. destruct bb as [|b0 bb']; [injection H as <-; auto|].
  set (bb := b0 :: bb') in *. destruct (_ || _) in H; [injection H as <-; auto|].
  destruct (ch (beta_points bb)) as [vs|] eqn:E; [|discriminate]. cbn [bind] in H.
  match type of H with context [mapM ?f ?l] => destruct (mapM f l) as [ls|] eqn:M; [|discriminate] end.
  cbn [bind] in H. injection H as <-. right. exists vs, ls. split; [auto|]. split; [now apply (hull_inv ch Hch)|].
  split; [auto|]. now apply mapM_Forall2 in M.
Qed.

Lemma bounded_points : forall bb, beta_guard bb -> forall p, In p (beta_points bb) ->
  0 <= fst p /\ fst p <= (1#2) /\ 0 <= snd p.
Proof.
  intros bb [G1 G2 _ _] p I. apply in_beta_points in I as [->|[->|(h & Ih & Ph)]]; [cbn; lra|cbn; lra|].
  destruct (G1 h p Ih Ph). specialize (G2 h p Ih Ph). auto.
Qed.

Lemma hull_edge : forall bb vs i j, is_hull (beta_points bb) vs -> In (i, j) (cyc_edges vs) ->
  In (pts_at (beta_points bb) i) (beta_points bb) /\ In (pts_at (beta_points bb) j) (beta_points bb).
Proof.
  intros bb vs i j H I. apply cyc_edges_in in I as [I J]. pose proof (hull_range _ _ H) as R. rewrite Forall_forall in R.
  split; apply pts_at_in; auto.
Qed.

Lemma from_beta_true : forall btr W hs bb out, admissible W ->
  Forall (fun h => is_beta h = true -> wf (dom (bound_of h))) hs -> Forall (holds tr btr W) hs ->
  (forall a, 0 <= a -> a <= 1#2 -> exists h, In h hs /\ is_beta h = true /\ covers (bound_of h) a) ->
  best_beta_nodes hs = Ret bb -> beta_guard bb ->
  beta_bounds_to_exponent_pairs ch tr hs = Ret out -> forall h, In h out -> is_pair h = true /\ holds tr btr W h.
Proof.
  intros btr W hs bb out Ad Wf Ho Cv Eb G H h I.
  destruct (from_beta_inv hs out H) as (bb' & Eb' & C). rewrite Eb in Eb'. injection Eb' as <-.
  destruct C as [->|(vs & ls & Ev & Hv & -> & F)]; [destruct I|]. rewrite Forall_forall in Ho.
  apply in_app_or in I as [I|I]; [apply filter_In in I as [I P]; auto|].
  apply in_concat in I as (l & Il & Ih). destruct (Forall2_in_r _ _ _ _ _ _ F Il) as ([i j] & Ie & El). cbn [fst snd] in El.
  set (p1 := pts_at (beta_points bb) i) in *. set (p2 := pts_at (beta_points bb) j) in *.
  destruct (degenerate p1 p2) eqn:D.
  { unfold edge_pairs in El. rewrite D in El. injection El as <-. destruct Ih. }
  destruct (edge_pairs_inv _ _ _ _ _ El D) as (Nx & g & Pg & Kg & Sg & Xg).
  destruct (hull_edge bb vs i j Hv Ie) as [I1 I2]. fold p1 in I1. fold p2 in I2.
  assert (Lf : forall q, In q (beta_points bb) -> 0 <= cross p1 p2 q) by (intros q Iq; apply (hull_left _ _ Hv i j q Ie Iq)).
  assert (Dir : fst p2 < fst p1).
  { apply (edge_direction (beta_points bb)); auto.
    - now apply bounded_points.
    - apply in_beta_points; auto.
    - apply in_beta_points; auto.
    - apply (hull_proper _ _ Hv i j Ie). }
  assert (Tg : holds tr btr W g).
  { apply is_pair_data in Pg as (k & l0 & Dg). unfold holds. rewrite Dg. rewrite (key_data _ _ _ Dg) in Kg. destruct Kg as [K1 K2]. cbn [fst snd] in K1, K2.
    destruct (edge_pair_true W bb p1 p2 Ad G) with (c := k) (m := l0 - k) as [T1 T2]; auto.
    - eapply Forall_impl; [|apply (best_nodes_true tr btr W hs bb (beta_upper W Ad) Wf); [now apply Forall_forall|auto]].
      now intros x [_ Hx].
    - intros a A0 A1. apply (best_nodes_cover hs bb Wf Eb a A0 A1). auto.
    - intros q Iq. apply upper_edge; auto.
    - lra.
    - split.
      + apply (triangle_eq k (l0 - k + k)); [reflexivity|ring|auto].
      + intros a A0 A1. apply (beta_upper W Ad a a (k + (l0 - k + k - k) * a)); [reflexivity|ring_simplify; lra|auto]. }
  destruct (Xg h Ih) as [->|(B & FB & EB & PB)]; [auto|]. split; [auto|].
  assert (IB : In B hs) by (unfold find_keyword in FB; now apply find_some in FB).
  pose proof (Ho B IB) as HB. unfold apply_trans in EB. unfold holds in HB. destruct (n_data B) as [|t| | |]; try discriminate.
  apply is_pair_data in Pg as (k & l0 & Dg). unfold holds in Tg. rewrite Dg in Tg.
  destruct (HB g k l0 h Dg Tg EB) as (k' & l' & Dh & Th). unfold holds. now rewrite Dh.
Qed.

(** *** Optimality *)
Lemma walk_rest : forall A (f : A -> bool) l h0 rest b, f h0 = true -> In b l -> f b = false ->
  exists x y, In (x, y) (combine (h0 :: l) (l ++ rest)) /\ f x = true /\ f y = false.
Proof.
  intros A f. induction l as [|c l IH]; intros h0 rest b T I F; [easy|]. destruct (f c) eqn:Fc.
  - destruct I as [<-|I]; [congruence|]. destruct (IH c rest b Fc I F) as (x & y & J & H). exists x, y. split; [right; exact J|auto].
  - exists h0, c. split; [left; reflexivity|auto].
Qed.
Lemma walk_end : forall A (f : A -> bool) z, f z = false -> forall l h0, f h0 = true ->
  exists x y, In (x, y) (combine (h0 :: l) (l ++ [z])) /\ f x = true /\ f y = false.
Proof.
  intros A f z Z. induction l as [|c l IH]; intros h0 T.
  - exists h0, z. split; [left; reflexivity|auto].
  - destruct (f c) eqn:Fc; [|exists h0, c; split; [left; reflexivity|auto]].
    destruct (IH c Fc) as (x & y & J & H). exists x, y. split; [right; exact J|auto].
Qed.
Lemma walk_from : forall A (f : A -> bool) z, f z = false -> forall l h0 a, In a (h0 :: l) -> f a = true ->
  exists x y, In (x, y) (combine (h0 :: l) (l ++ [z])) /\ f x = true /\ f y = false.
Proof.
  intros A f z Z. induction l as [|c l IH]; intros h0 a I T.
  - destruct I as [<-|[]]. now apply walk_end.
  - destruct I as [<-|I]; [now apply walk_end|]. destruct (IH c a I T) as (x & y & J & H). exists x, y. split; [right; exact J|auto].
Qed.
Lemma cyc_crossing : forall A (f : A -> bool) l a b, In a l -> In b l -> f a = true -> f b = false ->
  exists x y, In (x, y) (cyc_edges l) /\ f x = true /\ f y = false.
Proof.
  intros A f l a b Ia Ib Fa Fb. destruct l as [|h0 l]; [easy|]. unfold cyc_edges. cbn [tl].
  destruct (f h0) eqn:F0.
  - destruct Ib as [<-|Ib]; [congruence|]. now apply (walk_rest A f l h0 _ b).
  - now apply (walk_from A f h0 F0 l h0 a).
Qed.

Lemma hull_x_bound : forall (S : pt -> Prop) p c d, hull2 S p -> (forall q, S q -> d < c * fst q) -> d < c * fst p.
Proof.
  intros S p c d H HS. induction H as [a p Sa E|a b t p Ha IHa Hb IHb T0 T1 E].
  - destruct E as [E _]. rewrite E. auto.
  - destruct E as [E _]. rewrite E. cbn.
    setoid_replace (c * ((1 - t) * fst a + t * fst b)) with ((1 - t) * (c * fst a) + t * (c * fst b)) by ring.
    destruct (Qlt_le_dec t 1) as [L|L].
    + assert (0 < (1 - t) * (c * fst a - d)) by (apply Qmult_lt_0_compat; lra).
      assert (0 <= t * (c * fst b - d)) by (apply Qmult_le_0_compat; lra). lra.
    + assert (Et : t == 1) by lra. rewrite Et. lra.
Qed.

Lemma vertex_where : forall bb vs (P : Q -> bool) p c d, is_hull (beta_points bb) vs -> In p (beta_points bb) ->
  ~ d < c * fst p ->
  (forall q : pt, P (fst q) = true -> d < c * fst q) ->
  exists v, In v vs /\ P (fst (pts_at (beta_points bb) v)) = false.
Proof.
  intros bb vs P p c d H I N HP.
  destruct (existsb (fun v => negb (P (fst (pts_at (beta_points bb) v)))) vs) eqn:E.
  - apply existsb_exists in E as (v & Iv & Ev). exists v. split; [auto|]. now apply negb_true_iff.
  - exfalso. apply N. apply (hull_x_bound _ p c d (hull_covers _ _ H p I)). intros q (i & Ii & ->).
    apply HP. destruct (P (fst (pts_at (beta_points bb) i))) eqn:X; [auto|]. exfalso.
    assert (existsb (fun v => negb (P (fst (pts_at (beta_points bb) v)))) vs = true); [|congruence].
    apply existsb_exists. exists i. split; [auto|]. now rewrite X.
Qed.

Lemma from_beta_optimal : forall hs bb b0 out, best_beta_nodes hs = Ret bb ->
  (forall h p, In h bb -> piece_end h p -> 0 <= fst p /\ fst p <= 1#2 /\ 0 <= snd p) ->
  beta_bounds_to_exponent_pairs ch tr hs = Ret out ->
  hd_error bb = Some b0 -> x0 (dom (bound_of b0)) <= 0 -> 1#2 <= x1 (dom (bound_of (last bb b0))) ->
  forall k l a, 0 <= a -> a <= 1#2 -> 0 <= k -> 0 <= k + l ->
  (forall h p, In h bb -> piece_end h p -> snd p <= pair_line (k, l) (fst p)) ->
  exists h, In h out /\ is_pair h = true /\ pair_line (key_of h) a <= pair_line (k, l) a.
Proof.
  intros hs bb b0 out Eb G H Hd X0 X1 k l a A0 A1 K0 K1 Ab.
  unfold beta_bounds_to_exponent_pairs in H. rewrite Eb in H. cbn [bind] in H.
  destruct bb as [|b0' bb']; [discriminate|]. injection Hd as ->. set (bb := b0 :: bb') in *.
  destruct (Qltb_spec 0 (x0 (dom (bound_of b0)))) as [C|_]; [lra|]. cbn [orb] in H.
  destruct (Qltb_spec (x1 (dom (bound_of (last bb b0)))) (1#2)) as [C|_]; [lra|].
  destruct (ch (beta_points bb)) as [vs|] eqn:E; [|discriminate]. cbn [bind] in H.
  match type of H with context [mapM ?f ?l] => destruct (mapM f l) as [ls|] eqn:M; [|discriminate] end.
  cbn [bind] in H. injection H as <-. apply mapM_Forall2 in M.
  pose proof (hull_inv ch Hch _ _ E) as Hv.
  assert (NC : ~ collinear (beta_points bb)).
  { intro C. destruct (Hch (beta_points bb)) as [C1 _]. rewrite (C1 C) in E. discriminate. }
  assert (B : forall p, In p (beta_points bb) -> 0 <= fst p /\ fst p <= (1#2) /\ 0 <= snd p).
  { intros p I. apply in_beta_points in I as [->|[->|(h & Ih & Ph)]]; [cbn; lra|cbn; lra|]. apply (G h p Ih Ph). }
  assert (AB : forall p, In p (beta_points bb) -> snd p <= pair_line (k, l) (fst p)).
  { intros p I. apply in_beta_points in I as [->|[->|(h & Ih & Ph)]]; [unfold pair_line; cbn; lra|unfold pair_line; cbn; lra|]. apply (Ab h p Ih Ph). }
  assert (O1 : In (0, 0) (beta_points bb)) by (apply in_beta_points; auto).
  assert (O2 : In (1#2, 0) (beta_points bb)) by (apply in_beta_points; auto).
  assert (Ed : exists i j, In (i, j) (cyc_edges vs) /\
     fst (pts_at (beta_points bb) j) < fst (pts_at (beta_points bb) i) /\
     fst (pts_at (beta_points bb) j) <= a /\ a <= fst (pts_at (beta_points bb) i)).
  { destruct (Qlt_le_dec a (1#2)) as [L|L].
    - destruct (vertex_where bb vs (fun x => Qltb a x) (0, 0) 1 a Hv O1) as (v & Iv & Pv); [cbn; lra|intros q Hq; apply Qltb_true in Hq; lra|].
      destruct (vertex_where bb vs (fun x => Qleb x a) (1#2, 0) (-1) (- ((1#2) * a + (1#4))) Hv O2) as (w & Iw & Pw).
      { cbn [fst]. lra. }
      { intros q Hq. apply Qleb_true in Hq. lra. }
      destruct (cyc_crossing _ (fun v => Qltb a (fst (pts_at (beta_points bb) v))) vs w v Iw Iv) as (i & j & Ie & Fi & Fj).
      + apply Qltb_true. now apply Qleb_false in Pw.
      + exact Pv.
      + apply Qltb_true in Fi. apply Qltb_false in Fj. exists i, j. split; [auto|]. repeat split; lra.
    - destruct (vertex_where bb vs (fun x => Qleb (1#2) x) (0, 0) 1 (1#4) Hv O1) as (v & Iv & Pv); [cbn; lra|intros q Hq; apply Qleb_true in Hq; lra|].
      destruct (vertex_where bb vs (fun x => Qltb x (1#2)) (1#2, 0) (-1) (- (1#2)) Hv O2) as (w & Iw & Pw).
      { cbn. lra. }
      { intros q Hq. apply Qltb_true in Hq. lra. }
      destruct (cyc_crossing _ (fun v => Qleb (1#2) (fst (pts_at (beta_points bb) v))) vs w v Iw Iv) as (i & j & Ie & Fi & Fj).
      + apply Qleb_true. now apply Qltb_false in Pw.
      + exact Pv.
      + apply Qleb_true in Fi. apply Qleb_false in Fj. exists i, j. split; [auto|]. repeat split; lra. }
  destruct Ed as (i & j & Ie & Dir & Lo & Hi). destruct (hull_edge bb vs i j Hv Ie) as [I1 I2].
  destruct (Forall2_in_l _ _ _ _ _ _ M Ie) as (new & In' & El). cbn [fst snd] in El.
  set (p1 := pts_at (beta_points bb) i) in *. set (p2 := pts_at (beta_points bb) j) in *.
  assert (D : degenerate p1 p2 = false).
  { apply degenerate_intro; [|intro; lra]. intros [Y1 Y2]. apply NC.
    assert (Z : forall q, In q (beta_points bb) -> snd q == 0).
    { intros q Iq. pose proof (hull_left _ _ Hv i j q Ie Iq) as C. fold p1 p2 in C.
      pose proof (upper_edge p1 p2 q Dir C) as U. destruct (B q Iq) as (_ & _ & Yq).
      assert (Lz : lineto p1 p2 (fst q) == 0).
      { unfold lineto, icpt_of, slope_of. rewrite Y1, Y2. field; intro XX; lra. }
      rewrite Lz in U. lra. }
    intros u v w Iu Iv Iw. unfold cross. rewrite (Z u Iu), (Z v Iv), (Z w Iw). ring. }
  destruct (edge_pairs_inv _ _ _ _ _ El D) as (Nx & g & Pg & Kg & Sg & _).
  exists g. split; [|split; [auto|]].
  - destruct Sg as [Sg|[Sg _]]; apply in_or_app; [left; now apply filter_In|right]. apply in_concat. eauto.
  - destruct Kg as [K1' K2']. cbn [fst snd] in K1', K2'. unfold pair_line at 1. rewrite K1', K2'.
    pose proof (AB p1 I1) as Q1. pose proof (AB p2 I2) as Q2.
    assert (P : 0 <= (fst p1 - fst p2) * (pair_line (k, l) a - (icpt_of p1 p2 + (slope_of p1 p2 + icpt_of p1 p2 - icpt_of p1 p2) * a))).
    { setoid_replace ((fst p1 - fst p2) * (pair_line (k, l) a - (icpt_of p1 p2 + (slope_of p1 p2 + icpt_of p1 p2 - icpt_of p1 p2) * a)))
        with ((a - fst p2) * (pair_line (k, l) (fst p1) - snd p1) + (fst p1 - a) * (pair_line (k, l) (fst p2) - snd p2)).
      - assert (0 <= (a - fst p2) * (pair_line (k, l) (fst p1) - snd p1)) by (apply Qmult_le_0_compat; lra).
        assert (0 <= (fst p1 - a) * (pair_line (k, l) (fst p2) - snd p2)) by (apply Qmult_le_0_compat; lra). lra.
      - unfold pair_line, icpt_of, slope_of. cbn [fst snd]. field; intro XX; lra. }
    apply pos_factor in P; lra.
Qed.
End FromBeta.
