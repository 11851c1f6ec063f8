(** The derivations of single exponent pairs. *)
From Verif Require Import Base Model_Text Model_Reference Spec_Reference Proof_Reference
  Model_Interval Spec_Interval Model_Affine Spec_Affine Proof_Interval Proof_Affine Proof_AffineMerge
  Model_BoundBeta Proof_BoundBeta Proof_BestShared Model_Polytope
  Model_Hull Spec_Hull Proof_Hull Model_ExponentPair Spec_ExponentPair Proof_ExponentPair Proof_ExpSearch Proof_ExpLit Proof_ExpDual
  Spec_ExpProof Model_Derived Spec_Derived.
Open Scope list_scope.
Local Open Scope Q_scope.

(** ** The closure of an interval *)
Lemma closure_le : forall i a b x, in_set i x -> (forall y, in_set i y -> a * y + b <= 0) ->
  a * x0 i + b <= 0 /\ a * x1 i + b <= 0.
Proof.
  intros i a b x Ix H.
  assert (B : forall y, in_set i y -> x0 i <= y /\ y <= x1 i).
  { intros y [L U]. unfold respects_lower, respects_upper in L, U. destruct (incl_lo i), (incl_hi i); lra. }
  destruct (B x Ix) as [Bx0 Bx1].
  destruct (Qlt_le_dec (x0 i) (x1 i)) as [L|L].
  2:{ assert (x0 i == x /\ x1 i == x) as [E0 E1] by lra. specialize (H x Ix). rewrite E0, E1. auto. }
  assert (In_op : forall y, x0 i < y -> y < x1 i -> in_set i y).
  { intros y Y0 Y1. unfold in_set, respects_lower, respects_upper. destruct (incl_lo i), (incl_hi i); split; lra. }
  set (m := (x0 i + x1 i) * (1#2)).
  assert (M0 : x0 i < m) by (unfold m; lra). assert (M1 : m < x1 i) by (unfold m; lra).
  pose proof (H m (In_op m M0 M1)) as Hm.
  assert (G : forall e, (forall t, 0 < t -> t < 1 -> in_set i (e + t * (m - e))) -> a * e + b <= 0).
  { intros e He. destruct (Qlt_le_dec 0 (a * e + b)) as [P|P]; [|auto]. exfalso.
    set (L0 := a * e + b) in *. set (Lm := a * m + b) in *.
    set (t := L0 / (2 * (L0 - Lm))).
    assert (D : 0 < 2 * (L0 - Lm)) by lra.
    assert (T0 : 0 < t) by (unfold t; apply Qlt_shift_div_l; lra).
    assert (T1 : t < 1) by (unfold t; apply Qlt_shift_div_r; lra).
    specialize (H _ (He t T0 T1)).
    assert (E : a * (e + t * (m - e)) + b == L0 - t * (L0 - Lm)) by (unfold L0, Lm; ring).
    assert (E2 : t * (L0 - Lm) == L0 * (1#2)) by (unfold t; field; lra). lra. }
  split; apply G; intros t T0 T1; apply In_op; nra.
Qed.

Lemma nonempty_wf : forall i x, in_set i x -> wf i.
Proof. intros i x [L U]. unfold wf. unfold respects_lower, respects_upper in L, U. destruct (incl_lo i), (incl_hi i); lra. Qed.



(** ** Sets from which bounds are safely turned into pairs *)
Definition line_in (S : list hnode) (k l : Q) : Prop := exists h, In h S /\ n_data h = DBeta (mkA (l - k) k half_interval None).

Record good_bounds (S : list hnode) (ks ls : Q) : Prop := {
  gb_wf : forall h b, In h S -> n_data h = DBeta b -> wf (dom b);
  gb_nonneg : forall h b a, In h S -> n_data h = DBeta b -> covers b a -> 0 <= a -> a <= 1#2 -> 0 <= value b a;
  gb_half : forall h b a, In h S -> n_data h = DBeta b -> covers b a -> a == 1#2 -> (ks + ls) / 2 <= value b a;
  gb_trivial : exists k l, k == 0 /\ l == 1 /\ line_in S k l;
  gb_second : exists k l, 0 < k /\ line_in S k l;
  gb_best : line_in S ks ls /\ triangle ks ls /\ ks + (1#2) <= ls }.

Definition best_piece (S : list hnode) (b : affine) : Prop :=
  (exists x, covers b x) /\
  forall a, covers b a -> 0 <= a /\ a <= 1#2 /\
    (forall g c, In g S -> n_data g = DBeta c -> covers c a -> value b a <= value c a) /\
    exists g c, In g S /\ n_data g = DBeta c /\ covers c a /\ value b a == value c a.

Lemma half_covers : forall k l a, 0 <= a -> a <= 1#2 -> covers (mkA (l - k) k half_interval None) a.
Proof. intros. split; cbn; lra. Qed.

Lemma line_nth : forall S k l, line_in S k l -> exists i, nth_error (map bound_of (filter is_beta S)) i = Some (mkA (l - k) k half_interval None).
Proof.
  intros S k l (h & I & D). assert (J : In (mkA (l - k) k half_interval None) (map bound_of (filter is_beta S))).
  { apply in_map_iff. exists h. unfold bound_of, is_beta. rewrite D. split; [auto|]. apply filter_In. rewrite D. auto. }
  apply In_nth_error in J. exact J.
Qed.

Lemma bounds_in : forall S b, In b (map bound_of (filter is_beta S)) <-> exists h, In h S /\ n_data h = DBeta b.
Proof.
  intros S b. rewrite in_map_iff. split.
  - intros (h & <- & I). apply filter_In in I as [I P]. exists h. split; [auto|]. now apply is_beta_data.
  - intros (h & I & D). exists h. unfold bound_of. rewrite D. split; [auto|]. apply filter_In. split; [auto|]. unfold is_beta. now rewrite D.
Qed.

Lemma good_best : forall S ks ls bb, good_bounds S ks ls -> best_beta_nodes S = Ret bb ->
  (forall h, In h bb -> exists b, n_data h = DBeta b /\ best_piece S b) /\
  (forall a, 0 <= a -> a <= 1#2 -> exists h, In h bb /\ covers (bound_of h) a).
Proof.
  intros S ks ls bb [G1 G2 G3 (k0 & l0 & Z0 & O0 & L0) (k2 & l2 & P2 & L2) G6] H.
  assert (Wf : Forall (fun h => is_beta h = true -> wf (dom (bound_of h))) S).
  { apply Forall_forall. intros h I P. apply (G1 h); [auto|]. now apply is_beta_data. }
  assert (Wb : Forall (fun b => wf (dom b)) (map bound_of (filter is_beta S))).
  { apply Forall_forall. intros b I. apply bounds_in in I as (h & I & D). eauto. }
  set (bounds := map bound_of (filter is_beta S)) in *.
  destruct (best_nodes S bb Wf H) as (out & E & F). fold bounds in E, F.
  destruct (line_nth _ _ _ L0) as [i0 N0]. destruct (line_nth _ _ _ L2) as [i2 N2]. fold bounds in N0, N2.
  assert (Ne : i0 <> i2). { intros ->. rewrite N0 in N2. apply (f_equal (fun o => match o with Some b => icpt b | None => 0 end)) in N2. cbn in N2. rewrite N2 in Z0. lra. }
  assert (Wd : wf (mkI 0 (1#2) true true)) by (unfold wf; cbn; lra).
  destruct (best_shared bounds None Wb Wd) as (out' & qs & E' & P & (M1 & M2 & _)).
  { assert (i0 < List.length bounds)%nat by (apply nth_error_Some; congruence).
    assert (i2 < List.length bounds)%nat by (apply nth_error_Some; congruence). lia. }
  { intros i b x Hi [D0 D1] Hb. cbn in D0, D1. destruct (Nat.eq_dec i i0) as [->|N].
    - exists i2, (mkA (l2 - k2) k2 half_interval None). split; [auto|]. split; [auto|]. now apply half_covers.
    - exists i0, (mkA (l0 - k0) k0 half_interval None). split; [auto|]. split; [auto|]. now apply half_covers. }
  rewrite E in E'. injection E' as <-.
  destruct (best_beta_correct bounds None Wb Wd out E) as [S1 S2].
  split.
  - intros h I. destruct (Forall2_in_r _ _ _ _ _ _ F I) as (o & Io & Pb & Eb & _).
    destruct (Forall2_in_l _ _ _ _ _ _ P Io) as (q & Iq & p & Ep & Hp). rewrite Eb in Ep. injection Ep as <-.
    exists (bound_of h). split; [now apply is_beta_data|]. destruct (M1 q Iq) as [Sq Hq]. split.
    + destruct (solid_point q Sq) as [x Hx]. exists x. now apply Hp.
    + intros a Ca. destruct (Hp a) as [Hp1 Hp2]. destruct (Hq a (proj1 Hp1 Ca)) as [[D0 D1] Mn]. cbn in D0, D1.
      split; [auto|]. split; [auto|]. split.
      * intros g c Ig Dc Cc. rewrite (Hp2 Ca). apply Mn; [|auto]. apply bounds_in. eauto.
      * destruct (S1 o Io) as (p & b & Ep & Nb & Hpb). rewrite Eb in Ep. injection Ep as <-.
        destruct (Hpb a Ca) as [Cb Vb]. apply nth_error_In, bounds_in in Nb as (g & Ig & Dg). exists g, b. auto.
  - intros a A0 A1. apply (best_nodes_cover S bb Wf H a A0 A1). destruct L0 as (h & I & D). exists h. split; [auto|].
    unfold is_beta, bound_of. rewrite D. split; [auto|]. now apply half_covers.
Qed.

Lemma good_extend : forall S S' ks ls bb, good_bounds S ks ls -> best_beta_nodes S = Ret bb ->
  (forall h, In h S' <-> In h S \/ In h bb) -> good_bounds S' ks ls.
Proof.
  intros S S' ks ls bb G H HS. destruct (good_best S ks ls bb G H) as [B _]. destruct G as [G1 G2 G3 G4 G5 G6].
  assert (Li : forall k l, line_in S k l -> line_in S' k l) by (intros k l (h & I & D); exists h; split; [apply HS; auto|auto]).
  split.
  - intros h b I D. apply HS in I as [I|I]; [eauto|]. destruct (B h I) as (b' & D' & ((x & Hx) & _)). rewrite D in D'. injection D' as <-.
    now apply (nonempty_wf _ x).
  - intros h b a I D C A0 A1. apply HS in I as [I|I]; [eapply G2; eauto|]. destruct (B h I) as (b' & D' & (_ & Hb)). rewrite D in D'. injection D' as <-.
    destruct (Hb a C) as (_ & _ & _ & g & c & Ig & Dg & Cg & Vg). rewrite Vg. eapply G2; eauto.
  - intros h b a I D C A. apply HS in I as [I|I]; [eapply G3; eauto|]. destruct (B h I) as (b' & D' & (_ & Hb)). rewrite D in D'. injection D' as <-.
    destruct (Hb a C) as (_ & _ & _ & g & c & Ig & Dg & Cg & Vg). rewrite Vg. eapply G3; eauto.
  - destruct G4 as (k & l & K & L & I). exists k, l. auto.
  - destruct G5 as (k & l & K & I). exists k, l. auto.
  - destruct G6 as (I & T). auto.
Qed.

Lemma good_guard : forall S ks ls bb, good_bounds S ks ls -> best_beta_nodes S = Ret bb -> beta_guard bb.
Proof.
  intros S ks ls bb G H. destruct (good_best S ks ls bb G H) as [B Cv]. destruct G as [G1 G2 G3 (k0 & l0 & Z0 & O0 & L0) G5 (Lb & (T1 & T2 & T3 & T4 & T5) & Sl)].
  (* an inequality that is affine along the piece holds at its ends *)
  assert (Ext : forall h p u v w, In h bb -> piece_end h p ->
    (forall y, covers (bound_of h) y -> u * y + v * value (bound_of h) y + w <= 0) -> u * fst p + v * snd p + w <= 0).
  { intros h p u v w I E Hy. destruct (B h I) as (b & D & (x & Hx) & _). assert (Eb : bound_of h = b) by (unfold bound_of; now rewrite D).
    rewrite Eb in Hy. destruct (closure_le (dom b) (u + v * slope b) (v * icpt b + w) x Hx) as [X0 X1].
    { intros y Cy. specialize (Hy y Cy). unfold value in Hy. lra. }
    unfold piece_end in E. rewrite Eb in E. unfold value in E. destruct E as [-> | ->]; cbn [fst snd]; lra. }
  assert (Pt : forall h a, In h bb -> covers (bound_of h) a -> 0 <= a /\ a <= (1#2) /\ 0 <= value (bound_of h) a /\
    (0 <= a -> value (bound_of h) a <= a) /\ value (bound_of h) a <= ks + (ls - ks) * a /\ (a == (1#2) -> (ks + ls) / 2 <= value (bound_of h) a)).
  { intros h a I C. destruct (B h I) as (b & D & _ & Hb). assert (Eb : bound_of h = b) by (unfold bound_of; now rewrite D). rewrite Eb in *.
    destruct (Hb a C) as (A0 & A1 & Mn & g & c & Ig & Dg & Cg & Vg). split; [auto|]. split; [auto|]. rewrite Vg. split; [eapply G2; eauto|].
    rewrite <- Vg. split; [|split].
    - intros _. destruct L0 as (g0 & I0 & D0). pose proof (Mn g0 _ I0 D0 (half_covers _ _ a A0 A1)) as X. unfold value at 2 in X. cbn in X. nra.
    - destruct Lb as (g0 & I0 & D0). pose proof (Mn g0 _ I0 D0 (half_covers _ _ a A0 A1)) as X. unfold value at 2 in X. cbn in X. lra.
    - intros A. rewrite Vg. eapply G3; eauto. }
  split.
  - intros h p I E. split.
    + assert (- (1) * fst p + 0 * snd p + 0 <= 0); [|lra]. apply (Ext h p); auto. intros y Cy. destruct (Pt h y I Cy) as (A & _). lra.
    + assert (1 * fst p + 0 * snd p + - (1#2) <= 0); [|lra]. apply (Ext h p); auto. intros y Cy. destruct (Pt h y I Cy) as (_ & A & _). lra.
  - intros h p I E. assert (0 * fst p + - (1) * snd p + 0 <= 0); [|lra]. apply (Ext h p); auto. intros y Cy. destruct (Pt h y I Cy) as (_ & _ & A & _). lra.
  - intros h p I E _. assert (- (1) * fst p + 1 * snd p + 0 <= 0); [|lra]. apply (Ext h p); auto. intros y Cy. destruct (Pt h y I Cy) as (A & _ & _ & V & _). specialize (V A). lra.
  - destruct (Cv (1#2)) as (h & I & C); [lra|lra|]. destruct (Pt h (1#2) I C) as (_ & _ & _ & _ & Up & Lo). specialize (Lo ltac:(reflexivity)).
    assert (X1 : x1 (dom (bound_of h)) == 1#2).
    { assert (x1 (dom (bound_of h)) <= 1#2).
      { assert (1 * fst (x1 (dom (bound_of h)), value (bound_of h) (x1 (dom (bound_of h)))) + 0 * snd (x1 (dom (bound_of h)), value (bound_of h) (x1 (dom (bound_of h)))) + - (1#2) <= 0) as X; [|cbn in X; lra].
        apply (Ext h); auto. - now right. - intros y Cy. destruct (Pt h y I Cy) as (_ & A & _). lra. }
      destruct C as [_ U]. unfold respects_upper in U. destruct (incl_hi (dom (bound_of h))); lra. }
    exists h, (x1 (dom (bound_of h)), value (bound_of h) (x1 (dom (bound_of h)))). split; [auto|]. split; [now right|]. cbn [fst snd]. split; [auto|].
    assert (V : value (bound_of h) (x1 (dom (bound_of h))) == value (bound_of h) (1#2)) by (unfold value; rewrite X1; reflexivity).
    rewrite V. assert (V2 : value (bound_of h) (1#2) == (ks + ls) * (1#2)) by (unfold Qdiv in Lo; change (/ 2) with (1#2) in Lo; lra).
    split; [lra|]. intros h' q I' E'. rewrite V, V2. unfold Qdiv. change (/ 2) with (1#2).
    assert (- (ls - ks) * fst q + 1 * snd q + - ks <= 0) as Lq.
    { apply (Ext h' q); auto. intros y Cy. destruct (Pt h' y I' Cy) as (_ & _ & _ & _ & V' & _). lra. }
    assert (1 * fst q + 0 * snd q + - (1#2) <= 0) as Lq2.
    { apply (Ext h' q); auto. intros y Cy. destruct (Pt h' y I' Cy) as (_ & A & _). lra. }
    assert (0 <= (ls - ks - (1#2)) * ((1#2) - fst q)) by (apply Qmult_le_0_compat; lra). lra.
Qed.

(** ** The pairs found by the search *)
Definition psum (p : pt) : Q := fst p + snd p.
Definition steep (p : pt) : Prop := fst p + (1#2) <= snd p.

Lemma hull_min_sum : forall (S : pt -> Prop) m, (forall q, S q -> m <= psum q) ->
  forall p, hull2 S p -> m <= psum p /\ (psum p == m -> exists q, S q /\ psum q == m /\ snd p - fst p <= snd q - fst q).
Proof.
  intros S m Hm p H. unfold psum in *. induction H as [a p Sa [E1 E2]|a b t p Ha [IHa Ja] Hb [IHb Jb] T0 T1 [E1 E2]].
  - specialize (Hm a Sa). split; [lra|]. intros E. exists a. split; [auto|]. split; lra.
  - cbn in E1, E2.
    assert (Q1 : 0 <= (1 - t) * (fst a + snd a - m)) by (apply Qmult_le_0_compat; lra).
    assert (Q2 : 0 <= t * (fst b + snd b - m)) by (apply Qmult_le_0_compat; lra).
    split; [lra|]. intros E.
    assert (Z1 : (1 - t) * (fst a + snd a - m) == 0) by lra. assert (Z2 : t * (fst b + snd b - m) == 0) by lra.
    apply Qmult_integral in Z1. apply Qmult_integral in Z2.
    set (sa := snd a - fst a). set (sb := snd b - fst b).
    assert (Es : snd p - fst p == (1 - t) * sa + t * sb) by (unfold sa, sb; lra).
    destruct Z2 as [Z2|Z2].
    { destruct Ja as (q & Sq & Eq & Lq); [destruct Z1; lra|]. exists q. split; [auto|]. split; [auto|].
      rewrite Z2 in Es. fold sa in Lq. lra. }
    destruct Z1 as [Z1|Z1].
    { destruct Jb as (q & Sq & Eq & Lq); [lra|]. exists q. split; [auto|]. split; [auto|].
      assert (t == 1) as T by lra. rewrite T in Es. fold sb in Lq. lra. }
    destruct (Qlt_le_dec sa sb) as [L|L].
    + destruct Jb as (q & Sq & Eq & Lq); [lra|]. exists q. split; [auto|]. split; [auto|]. fold sb in Lq.
      assert (0 <= (1 - t) * (sb - sa)) by (apply Qmult_le_0_compat; lra). lra.
    + destruct Ja as (q & Sq & Eq & Lq); [lra|]. exists q. split; [auto|]. split; [auto|]. fold sa in Lq.
      assert (0 <= t * (sa - sb)) by (apply Qmult_le_0_compat; lra). lra.
Qed.

Lemma min_sum : forall (P : pt -> bool) l, (exists p, In p l /\ P p = true) ->
  exists p, In p l /\ P p = true /\ forall q, In q l -> P q = true -> psum p <= psum q.
Proof.
  intros P. induction l as [|a l IH]; intros (p & I & H); [easy|].
  destruct (existsb P l) eqn:X.
  - apply existsb_exists in X as (x & Ix & Px). destruct (IH ltac:(eauto)) as (m & Im & Pm & Hm).
    destruct (P a) eqn:Pa.
    + destruct (Qlt_le_dec (psum a) (psum m)) as [L|L].
      * exists a. split; [now left|]. split; [auto|]. intros q [<-|Iq] Pq; [lra|]. specialize (Hm q Iq Pq). lra.
      * exists m. split; [now right|]. split; [auto|]. intros q [<-|Iq] Pq; auto.
    + exists m. split; [now right|]. split; [auto|]. intros q [<-|Iq] Pq; [congruence|auto].
  - assert (N : forall q, In q l -> P q = true -> False).
    { intros q Iq Pq. assert (existsb P l = true) by (apply existsb_exists; eauto). congruence. }
    destruct I as [<-|I]; [|now destruct (N p I H)]. exists a. split; [now left|]. split; [auto|].
    intros q [<-|Iq] Pq; [lra|now destruct (N q Iq Pq)].
Qed.

Definition steepb (p : pt) : bool := Qleb (fst p + (1#2)) (snd p).
Lemma steepb_iff : forall p, steepb p = true <-> steep p.
Proof. intros p. unfold steepb, steep. apply Qleb_true. Qed.

(** Every pair is matched by one with slope at least 1/2 and no larger a sum. *)
Definition matched (d : edict) : Prop :=
  Forall entry_ok d /\ (forall q, Kd d q -> tri_set q) /\ (forall q, Kd d q -> exists q', Kd d q' /\ steep q' /\ psum q' <= psum q).

Lemma lit_map_shape : forall t p, lit_node t -> tri_set p -> steep (lit_map t p) \/ psum (lit_map t p) == psum p.
Proof.
  intros t [k l] L (A1 & A2 & A3 & A4 & A5). cbn [fst snd] in *. unfold lit_map, steep, psum.
  destruct L as [E|[E|E]]; rewrite E.
  - left. unfold A_map. cbn [fst snd]. set (d := 2 * k + 2). assert (D : 0 < d) by (unfold d; lra).
    assert (k / d <= l / d); [|lra]. unfold Qdiv. apply Qmult_le_compat_r; [lra|]. apply Qlt_le_weak, Qinv_lt_0_compat, D.
  - right. unfold B_map. cbn [fst snd]. lra.
  - left. unfold C_map. cbn [fst snd]. set (d := 12 * (1 + 4 * k)). assert (D : 0 < d) by (unfold d; lra).
    apply Qle_shift_div_l; [exact D|]. setoid_replace ((k / d + (1#2)) * d) with (k + (1#2) * d) by (field; lra). unfold d. lra.
Qed.

Section Search.
Context (rc : reference) (ch : hull_routine) (Hch : hull_spec ch).
Notation tr := (lit_trans rc).

Lemma matched_apply : forall t d d', lit_node t -> matched d -> apply_all tr t d d = Ret d' -> matched d'.
Proof.
  intros t d d' L (M1 & M2 & M3) H. destruct (lit_segment rc t L) as [SM Ac].
  destruct (apply_all_dom tr tri_set d t (lit_map t) d' tri_convex M1 M2 SM Ac H) as [O1 O2].
  split; [exact O1|]. split; [exact O2|]. destruct (apply_all_ok tr t d d d' H) as (B1 & B2 & _).
  intros q (e & I & Eq). destruct (B2 e I) as [J|(O & s & Is & Es)].
  - destruct (M3 q) as (q' & (e' & I' & E') & S' & L'); [exists e; auto|]. exists q'. split; [exists e'; auto|auto].
  - destruct (acts_keys tr tri_set d t (lit_map t) s (snd e) tri_convex M1 M2 SM Ac Is Es) as [_ K].
    destruct (entry_key e O) as [_ Ke].
    assert (Ks : Kd d (fst s)) by (exists s; split; [auto|reflexivity]).
    assert (Eqf : pt_eq q (lit_map t (fst s))) by (now rewrite Eq, Ke, K).
    destruct (lit_map_shape t (fst s) L (M2 _ Ks)) as [Sh|Sh].
    + exists q. split; [exists e; auto|]. destruct Eqf as [F1 F2]. unfold steep, psum in *. split; lra.
    + destruct (M3 _ Ks) as (q' & (e' & I' & E') & S' & L'). exists q'. split; [exists e'; auto|]. split; [auto|].
      destruct Eqf as [F1 F2]. unfold psum in *. lra.
Qed.

Lemma matched_round : forall ts d d', Forall lit_node ts -> matched d -> one_round tr ts d = Ret d' -> matched d'.
Proof.
  induction ts as [|t ts IH]; intros d d' F M H; cbn [one_round] in H; [injection H as <-; auto|].
  inversion F; subst. destruct (apply_all tr t d d) as [d1|] eqn:E; [|discriminate]. cbn [bind] in H.
  apply (IH d1); auto. eapply matched_apply; eauto.
Qed.

Lemma matched_prune : forall d d', matched d -> prune_dict ch d = Ret d' -> matched d'.
Proof.
  intros d d' (M1 & M2 & M3) H. destruct (prune_dom ch Hch tri_set d d' tri_convex M1 M2 H) as [O1 O2].
  split; [exact O1|]. split; [exact O2|]. intros q (e & I & Eq).
  destruct (prune_in ch Hch d d' H e I) as (e' & J & S & K).
  assert (Kq : Kd d q).
  { destruct K as [K|<-]; [|exists e; auto]. exists e'. split; [auto|]. rewrite Forall_forall in M1, O1. destruct (entry_key e' (M1 e' J)) as [_ K'].
    rewrite K', S, <- K. auto. }
  destruct (min_sum steepb (map fst d)) as (m & Im & Sm & Hm).
  { destruct (M3 q Kq) as (q' & (e1 & I1 & E1) & S1 & _). exists (fst e1). split; [now apply in_map|]. apply steepb_iff. destruct E1 as [F1 F2]. unfold steep in *. lra. }
  assert (Mn : forall p, Kd d p -> psum m <= psum p).
  { intros p Kp. destruct (M3 p Kp) as (q' & (e1 & I1 & E1) & S1 & L1). specialize (Hm (fst e1)).
    assert (psum m <= psum (fst e1)); [apply Hm; [now apply in_map|apply steepb_iff; destruct E1 as [F1 F2]; unfold steep in *; lra]|].
    destruct E1 as [F1 F2]. unfold psum in *. lra. }
  assert (Hd : hull2 (Kd d') m).
  { apply (prune_hull ch Hch d d' M1 H). apply in_map_iff in Im as (e1 & <- & I1). apply (hull2_in _ (fst e1)); [exists e1; split; [auto|reflexivity]|reflexivity]. }
  assert (Sub : forall p, Kd d' p -> psum m <= psum p).
  { intros p (e1 & I1 & E1). destruct (prune_in ch Hch d d' H e1 I1) as (e2 & J2 & S2 & K2). apply Mn.
    destruct K2 as [K2|<-]; [|exists e1; auto]. exists e2. split; [auto|]. rewrite Forall_forall in M1. destruct (entry_key e2 (M1 e2 J2)) as [_ K'].
    rewrite K', S2, <- K2. auto. }
  destruct (hull_min_sum (Kd d') (psum m) Sub m Hd) as [_ X]. destruct (X ltac:(reflexivity)) as (q' & Kq' & Eq' & Lq').
  exists q'. split; [auto|]. split.
  - apply steepb_iff in Sm. unfold steep in *. lra.
  - specialize (Mn q Kq). lra.
Qed.

(** The set after the search. *)
Lemma search_matched : forall hs new, ready hs -> compute_exp_pairs ch tr hs 1 true = Ret new ->
  forall h k l, In h hs \/ In h new -> n_data h = DPair k l -> triangle k l /\
    exists g k' l', (In g hs \/ In g new) /\ n_data g = DPair k' l' /\ k' + (1#2) <= l' /\ k' + l' <= k + l.
Proof.
  intros hs new [R1 R2 R3 R4 R5 R6] H h k l I D. unfold compute_exp_pairs in H. cbn [rounds] in H.
  destruct (one_round tr (filter is_trans hs) (e_of (filter is_pair hs))) as [d1|] eqn:E1; [|discriminate]. cbn [bind] in H.
  destruct (prune_dict ch d1) as [d2|] eqn:E2; [|discriminate]. cbn [bind] in H. injection H as <-.
  assert (M0 : matched (e_of (filter is_pair hs))).
  { split; [apply e_of_ok, filter_pairs|]. 
    assert (X : forall q, Kd (e_of (filter is_pair hs)) q -> tri_set q /\ steep q).
    { intros q Kq. apply e_of_K in Kq as (g & Ig & Eg). apply filter_In in Ig as [Ig Pg]. apply is_pair_data in Pg as (k1 & l1 & Dg).
      destruct (R1 g k1 l1 Ig Dg) as [T S]. rewrite (key_data _ _ _ Dg) in Eg. split.
      - apply (dom_eq _ tri_convex (k1, l1)); [now symmetry|exact T].
      - destruct Eg as [F1 F2]. cbn in F1, F2. unfold steep. lra. }
    split; [intros q Kq; now apply X|]. intros q Kq. exists q. split; [auto|]. split; [now apply X|lra]. }
  assert (M2 : matched d2).
  { apply (matched_prune d1); [|auto]. apply (matched_round (filter is_trans hs) (e_of (filter is_pair hs))); [|auto|auto].
    apply Forall_forall. intros t It. apply filter_In in It as [It Pt]. auto. }
  destruct M2 as (N1 & N2 & N3). destruct I as [I|I].
  - destruct (R1 h k l I D) as [T S]. split; [auto|]. exists h, k, l. split; [auto|]. split; [auto|]. split; [auto|lra].
  - apply in_map_iff in I as (e & <- & Ie). rewrite Forall_forall in N1. destruct (entry_key e (N1 e Ie)) as [_ Ke]. rewrite (key_data _ _ _ D) in Ke.
    assert (Kk : Kd d2 (k, l)) by (exists e; split; [auto|now symmetry]).
    split; [exact (N2 _ Kk)|]. destruct (N3 _ Kk) as (q & (e' & I' & E') & S' & L').
    destruct (N1 e' I') as (k' & l' & D' & F'). exists (snd e'), k', l'. split; [right; now apply in_map|]. split; [auto|].
    destruct E' as [F1 F2], F' as [F3 F4]. cbn in F3, F4. unfold steep, psum in *. cbn in L'. split; lra.
Qed.

Context (btr : nat -> hnode -> res (list hnode)) (ord : list hnode -> list hnode) (Ho : traversal ord).

(** The set whose bounds are turned into pairs. *)
Lemma ready_good : forall hs new bs, ready hs -> compute_exp_pairs ch tr hs 1 true = Ret new ->
  exponent_pairs_to_beta_bounds btr (ord (hs ++ new)) = Ret bs ->
  exists ks ls, good_bounds (ord (ord (hs ++ new) ++ bs)) ks ls.
Proof.
  intros hs new bs R Hn Hb. pose proof (search_matched hs new R Hn) as M. destruct R as [R1 R2 R3 R4 R5 R6].
  assert (In1 : forall h, In h (ord (hs ++ new)) <-> In h hs \/ In h new) by (intros h; rewrite (Ho (hs ++ new) h); apply in_app_iff).
  assert (In2 : forall h, In h (ord (ord (hs ++ new) ++ bs)) <-> (In h hs \/ In h new) \/ In h bs).
  { intros h. rewrite (Ho (ord (hs ++ new) ++ bs) h), in_app_iff, In1. reflexivity. }
  assert (NewP : forall h, In h new -> is_pair h = true) by (intros h I; now destruct (compute_sound ch tr Hch hs 1 true new h Hn I)).
  destruct (to_beta_inv btr _ _ Hb) as [B1 B2].
  assert (Bs : forall h, In h bs -> exists g k l, (In g hs \/ In g new) /\ n_data g = DPair k l /\ n_data h = DBeta (mkA (l - k) k half_interval None)).
  { intros h I. apply B1 in I as (g & Ig & [(k & l & D & E)|(_ & t & ? & It & Pt & _)]).
    - apply In1 in Ig. apply derived_node_inv in E as (E1 & _). exists g, k, l. auto.
    - exfalso. apply In1 in It as [It|It]; [rewrite (R3 t It) in Pt; discriminate|]. apply NewP in It. unfold is_pair, is_beta_trans in *. destruct (n_data t); discriminate. }
  assert (Li : forall g k l, In g hs \/ In g new -> n_data g = DPair k l -> line_in (ord (ord (hs ++ new) ++ bs)) k l).
  { intros g k l Ig D. destruct (B2 g) as (b & Ib & _ & Db); [now apply In1|apply is_pair_data; eauto|].
    rewrite (key_data _ _ _ D) in Db. cbn in Db. exists b. split; [apply In2; auto|auto]. }
  destruct (min_sum steepb (map key_of (filter is_pair (hs ++ new)))) as (m & Im & Sm & Hm).
  { destruct R5 as (h & k & l & I & D & K & L). exists (k, l). split.
    - apply in_map_iff. exists h. rewrite (key_data _ _ _ D). split; [auto|]. apply filter_In. split; [apply in_app_iff; auto|apply is_pair_data; eauto].
    - apply steepb_iff. unfold steep. cbn. lra. }
  apply in_map_iff in Im as (gm & Em & Im). apply filter_In in Im as [Im Pm]. apply is_pair_data in Pm as (ks & ls & Dm).
  apply in_app_iff in Im. rewrite (key_data _ _ _ Dm) in Em. subst m. apply steepb_iff in Sm. unfold steep in Sm. cbn in Sm.
  assert (Mn : forall g k l, In g hs \/ In g new -> n_data g = DPair k l -> ks + ls <= k + l).
  { intros g k l Ig D. destruct (M g k l Ig D) as (_ & g' & k' & l' & Ig' & D' & S' & L').
    assert (psum (ks, ls) <= psum (k', l')).
    { apply Hm; [|apply steepb_iff; exact S']. apply in_map_iff. exists g'. rewrite (key_data _ _ _ D'). split; [auto|]. apply filter_In.
      split; [now apply in_app_iff|apply is_pair_data; eauto]. }
    unfold psum in H. cbn in H. lra. }
  exists ks, ls. 
  assert (Cases : forall h b, In h (ord (ord (hs ++ new) ++ bs)) -> n_data h = DBeta b -> In h hs \/
    exists g k l, (In g hs \/ In g new) /\ n_data g = DPair k l /\ b = mkA (l - k) k half_interval None).
  { intros h b I D. apply In2 in I as [[I|I]|I]; [auto| |].
    - apply NewP in I. unfold is_pair in I. rewrite D in I. discriminate.
    - right. destruct (Bs h I) as (g & k & l & Ig & Dg & Dh). exists g, k, l. rewrite D in Dh. split; [auto|]. split; [auto|]. congruence. }
  split.
  - intros h b I D. destruct (Cases h b I D) as [I'|(g & k & l & _ & _ & ->)]; [now destruct (R4 h b I' D)|unfold wf; cbn; lra].
  - intros h b a I D C A0 A1. destruct (Cases h b I D) as [I'|(g & k & l & Ig & Dg & ->)].
    + destruct (R4 h b I' D) as (_ & N & _). auto.
    + destruct (M g k l Ig Dg) as ((T1 & T2 & T3 & T4 & T5) & _). unfold value. cbn. assert (0 <= (l - k) * a) by (apply Qmult_le_0_compat; lra). lra.
  - intros h b a I D C A. unfold Qdiv. change (/ 2) with (1#2). destruct (Cases h b I D) as [I'|(g & k & l & Ig & Dg & ->)].
    + destruct (R4 h b I' D) as (_ & _ & N). assert (C' : covers b (1#2)).
      { destruct C as [C0 C1]. unfold covers, in_set, respects_lower, respects_upper in *. destruct (incl_lo (dom b)), (incl_hi (dom b)); split; lra. }
      destruct (N C') as (g & k & l & Ig & Dg & V). pose proof (Mn g k l (or_introl Ig) Dg). unfold Qdiv in V. change (/ 2) with (1#2) in V.
      assert (Ev : value b a == value b (1#2)) by (unfold value; rewrite A; reflexivity). rewrite Ev. lra.
    + pose proof (Mn g k l Ig Dg). unfold value. cbn. rewrite A. lra.
  - destruct R5 as (g & k & l & Ig & Dg & K & L). exists k, l. split; [auto|]. split; [auto|]. apply (Li g); auto.
  - destruct R6 as (g & k & l & Ig & Dg & K). exists k, l. split; [auto|]. apply (Li g); auto.
  - split; [now apply (Li gm)|]. split; [now destruct (M gm ks ls Im Dm)|auto].
Qed.
End Search.
