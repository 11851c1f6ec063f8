(** Proofs about piecewise affine functions on polytopes. *)
From Coq Require Import Permutation.
From Verif Require Import Base LinAlg FM Hull Model_Polytope Spec_Polytope FM_Ext Model_Region Spec_Region.
From Verif Require Import Proof_Polytope Proof_PolytopeMaps Proof_PolytopeLP Proof_PolytopeSets Proof_PolytopeUnion.
From Verif Require Import Proof_Region Proof_RegionSimplify Proof_RegionDisjoint Model_Piecewise Spec_Piecewise.

Lemma coef_eq_ok : forall a b, length a = length b -> exists c, coef_eq a b = Ret c /\ (c = true <-> Forall2 Qeq a b).
Proof.
  induction a as [|x a IH]; intros [|y b] L; try discriminate; cbn [coef_eq].
  - exists true. split; [reflexivity|]. split; auto.
  - destruct (Qeqb_spec x y) as [H|H].
    + destruct (IH b ltac:(simpl in L; lia)) as (c & Ec & Hc). exists c. split; [exact Ec|]. rewrite Hc. split; [constructor; auto|inversion 1; auto].
    + exists false. split; [reflexivity|]. split; [discriminate|inversion 1; contradiction].
Qed.

Lemma coef_sub_ok : forall a b, length a = length b -> exists c, coef_sub a b = Ret c /\ length c = length a /\
  (zero_row c <-> Forall2 Qeq a b) /\ forall x, rowval c x == rowval a x - rowval b x.
Proof.
  assert (G : forall a b, length a = length b -> exists c, coef_sub a b = Ret c /\ length c = length a /\
    (zero_row c <-> Forall2 Qeq a b) /\ forall x, dot c x == dot a x - dot b x).
  { induction a as [|p a IH]; intros [|q b] L; try discriminate; cbn [coef_sub].
    - exists []. split; [reflexivity|]. split; [reflexivity|]. split; [split; constructor|]. intros [|y x]; simpl; ring.
    - destruct (IH b ltac:(simpl in L; lia)) as (c & Ec & Lc & Zc & Dc). rewrite Ec. cbn [bind]. eexists. split; [reflexivity|]. split; [simpl; lia|]. split.
      + unfold zero_row in *. rewrite Forall_cons_iff, Zc. split; [intros [A B]; constructor; [lra|auto]|inversion 1; subst; split; [lra|auto]].
      + intros [|y x]; simpl; [ring|]. rewrite Dc. ring. }
  intros a b L. destruct (G a b L) as (c & Ec & Lc & Zc & Dc). exists c. split; [auto|]. split; [auto|]. split; [auto|].
  intro x. rewrite !rowval_dot. apply Dc.
Qed.

Lemma Forall2_same : forall l, Forall2 Qeq l l.
Proof. induction l; constructor; auto. reflexivity. Qed.

Lemma map_opp : forall l, map Qopp l = vopp l.
Proof. reflexivity. Qed.

Lemma interior_member : forall p x, interior p x -> member p x.
Proof. intros p x [H _]. exact H. Qed.

Lemma Forall2_row : forall a b x, Forall2 Qeq a b -> rowval a x == rowval b x.
Proof.
  intros a b x H. rewrite !rowval_dot. generalize (1 :: x). induction H as [|p q a b P H IH]; intro y; [reflexivity|].
  destruct y as [|z y]; simpl; [reflexivity|]. now rewrite P, IH.
Qed.

Lemma qsum_same_sign : forall l, Forall (fun v => 0 <= v) l -> qsum l == 0 -> Forall (fun v => v == 0) l.
Proof.
  assert (P : forall l, Forall (fun v => 0 <= v) l -> 0 <= qsum l).
  { induction 1 as [|v l V F IH]; unfold qsum in *; simpl; lra. }
  induction 1 as [|v l V F IH]; intro Z; constructor.
  - specialize (P l F). unfold qsum in *. simpl in Z. lra.
  - apply IH. specialize (P l F). unfold qsum in *. simpl in Z. lra.
Qed.

(** Every point of a full-dimensional set that is covered by finitely many
    polytopes is covered by a full-dimensional one among them. *)
Lemma thick_cover : forall d R (ps : list polytope) x, good R -> ncol (pmat R) = S d -> (exists z, interior R z) ->
  Forall (fun q => good q /\ ncol (pmat q) = S d) ps -> (forall y, member R y -> exists q, In q ps /\ member q y) ->
  member R x -> exists q, In q ps /\ member q x /\ exists z, interior q z.
Proof.
  intros d R ps x (WR & NZR & _) NR (z0 & Z0) F C Mx.
  set (full q := match is_empty_open fm_ext q with Ret b => negb b | _ => false end).
  assert (Full : forall q, In q ps -> (full q = true <-> exists z, interior q z)).
  { intros q Iq. rewrite Forall_forall in F. destruct (F q Iq) as [(W & NZ & _) _]. destruct (is_empty_open_ok fm_ext fm_ext_ok q W NZ) as (b & Eb & H).
    unfold full. rewrite Eb. destruct b; cbn [negb]; [split; [discriminate|contradiction]|split; auto]. }
  destruct (closure_cover (pmat R) (filter full ps)) with (x := x) as (q & Iq & Mq); [exists z0; now apply interior_iff| | |exact Mx|].
  - apply Forall_forall. intros q Iq. apply filter_In in Iq as [Iq _]. rewrite Forall_forall in F. rewrite (proj2 (F q Iq)), NR. reflexivity.
  - clear x Mx. intros x Sx. destruct (in_union_dec (filter full ps) x) as [Y|N]; [exact Y|exfalso].
    assert (Lx : length x = d) by (destruct Sx as [L _]; lia).
    set (H := flat_map rows_of ps).
    assert (HR : Forall (row_in d) H).
    { unfold H. apply Forall_flat_map, Forall_forall. intros q Iq. rewrite Forall_forall in F. destruct (F q Iq). now apply rows_of_ok. }
    destruct (generic_near d H x Lx HR) as (z & t0 & Lz & T0 & T1 & G).
    destruct (strict_open (pmat R) x z Sx ltac:(lia)) as (t1 & A1 & B1 & C1).
    assert (LL : Forall (fun q => S (length x) = ncol (pmat q)) (filter full ps)).
    { apply Forall_forall. intros q Iq. apply filter_In in Iq as [Iq _]. rewrite Forall_forall in F. rewrite (proj2 (F q Iq)). lia. }
    destruct (outside_all_open (filter full ps) x z LL N) as (t2 & A2 & B2 & C2).
    destruct (qmin_le t0 (qmin t1 t2)) as [M1 M2]. destruct (qmin_le t1 t2) as [M3 M4].
    set (t := qmin t0 (qmin t1 t2)) in *.
    assert (TP : 0 < t). { unfold t, qmin. destruct (Qltb t2 t1); [destruct (Qltb t2 t0)|destruct (Qltb t1 t0)]; lra. }
    assert (MR : member R (mix t x z)).
    { assert (S : strict (pmat R) (mix t x z)) by (apply C1; lra). apply interior_iff in S; auto. now apply interior_member. }
    destruct (C _ MR) as (q & Iq & Mq). specialize (G t TP ltac:(lra)).
    assert (Sq : strict (pmat q) (mix t x z)).
    { apply generic_strict; [exact Mq|]. unfold H in G. rewrite Forall_flat_map, Forall_forall in G. now apply G. }
    specialize (C2 t ltac:(lra) ltac:(lra)). rewrite Forall_forall in C2. apply (C2 q); [|exact Mq].
    apply filter_In. split; [exact Iq|]. apply Full; [exact Iq|]. rewrite Forall_forall in F. destruct (F q Iq) as [(W & NZ & _) _].
    exists (mix t x z). now apply interior_iff.
  - apply filter_In in Iq as [Iq Fq]. exists q. split; [exact Iq|]. split; [exact Mq|]. now apply Full.
Qed.

Section Ext.
Context (E : ext) (OK : ext_ok E).

Lemma intersect2 : forall d p q, good p -> ncol (pmat p) = S d -> good q -> ncol (pmat q) = S d ->
  exists r, intersect E p q = Ret r /\ good r /\ ncol (pmat r) = S d /\ forall x, member r x <-> member p x /\ member q x.
Proof.
  intros d p q Gp Np Gq Nq. destruct (intersection_ok E OK p [q] true (S d)) as (r & Er & Gr & Nr & Mr).
  { constructor; [auto|constructor; auto]. }
  exists r. split; [exact Er|]. split; [auto|]. split; [auto|]. intro x. rewrite Mr, !Forall_cons_iff. split; [tauto|]. intros [A B]. auto.
Qed.

Lemma nonempty_dec : forall p, good p -> exists b, is_empty E p false = Ret b /\ if b then ~ (exists x, interior p x) else exists x, interior p x.
Proof. intros p (W & NZ & _). exact (is_empty_open_ok E OK p W NZ). Qed.

Lemma bounded_sub : forall p q, bounded p -> (forall x, member q x -> member p x) -> bounded q.
Proof. intros p q (B & H) S. exists B. intros x i M. apply H. now apply S. Qed.

(** A full-dimensional set with points strictly on one side of a plane has
    interior points there. *)
Lemma half_interior : forall d p q r u, good p -> ncol (pmat p) = S d -> good q -> ncol (pmat q) = S d -> (exists z, interior p z) ->
  length r = S d -> (forall x, member q x <-> member p x /\ 0 <= rowval r x) -> member p u -> 0 < rowval r u -> exists z, interior q z.
Proof.
  intros d p q r u Gp Np Gq Nq (z & Iz) Lr Mq Mu Ru. pose proof Gp as (Wp & NZp & _).
  assert (Sz : strict (pmat p) z) by now apply interior_iff.
  assert (S1 : exists t0, 0 < t0 /\ t0 <= 1 /\ forall t, 0 <= t -> t <= t0 -> 0 < rowval r (mix t u z)).
  { destruct (small_pos (rowval r u) (rowval r z - rowval r u) Ru) as (s0 & A & B & C). exists s0. split; [auto|]. split; [auto|].
    intros t T0 T1. specialize (C t T0 T1). rewrite rowval_mix. lra. }
  destruct S1 as (t0 & A & B & C). exists (mix t0 u z).
  assert (St : strict (pmat p) (mix t0 u z)) by (apply strict_mix; auto).
  apply interior_iff in St; auto. destruct St as [M (e & Pe & Ne)].
  (* the half space is a polytope too *)
  set (h := mkPoly (mkMat [(r, false)] (S d)) false None).
  assert (Wh : wf_mat (pmat h)) by (split; [simpl; lia|constructor; [exact Lr|constructor]]).
  assert (Rz : ~ zero_row r).
  { intro Z. assert (rowval r u == 0); [|lra]. clear - Z. rewrite rowval_dot. generalize (1 :: u). unfold zero_row in Z.
    induction Z as [|c r C Z IH]; intro x; [reflexivity|]. destruct x as [|y x]; simpl; [reflexivity|]. rewrite C, IH. ring. }
  assert (Sh : strict (pmat h) (mix t0 u z)).
  { split; [destruct M as [L _]; cbn; rewrite <- Np; exact L|]. intros rb [<-|[]]. split; [reflexivity|]. apply C; lra. }
  apply interior_iff in Sh; [|exact Wh|constructor; [exact Rz|constructor]]. destruct Sh as [Mh (e' & Pe' & Ne')].
  split.
  - apply Mq. split; [exact M|]. specialize (C t0 ltac:(lra) ltac:(lra)). lra.
  - exists (qmin e e'). destruct (qmin_le e e') as [M1 M2]. split; [unfold qmin; destruct (Qltb e' e); lra|].
    intros y (Ly & Hy). apply Mq. split.
    + apply Ne. split; [exact Ly|]. intro i. specialize (Hy i). lra.
    + assert (X : mmember (pmat h) y) by (apply Ne'; split; [exact Ly|]; intro i; specialize (Hy i); lra).
      destruct X as [_ X]. inversion X as [|? ? X1 _]; subst. exact X1.
Qed.

(** The minimum with one function. *)
Lemma min_pair_ok : forall d s f, proper_piece d s -> proper_piece d f ->
  (Forall2 Qeq (a2 s) (a2 f) -> labelled s /\ labelled f) ->
  exists out, min_pair E s f = Ret out /\ Forall (solid_piece d) out /\
    (forall g, In g out -> (label2 g = label2 s /\ Forall2 Qeq (a2 g) (a2 s)) \/ (label2 g = label2 f /\ Forall2 Qeq (a2 g) (a2 f))) /\
    (forall x v, takes out x v -> member (dom2 s) x /\ member (dom2 f) x /\ v == qmin (rowval (a2 s) x) (rowval (a2 f) x)) /\
    (forall i x, (exists z, interior i z) -> (forall y, member i y <-> member (dom2 s) y /\ member (dom2 f) y) -> member i x -> exists v, takes out x v).
Proof.
  intros d s f (Gs & Bs & Ns & Ls) (Gf & Bf & Nf & Lf) Lab. unfold min_pair.
  destruct (intersect2 d _ _ Gs Ns Gf Nf) as (i & Ei & Gi & Ni & Mi). rewrite Ei. cbn [bind].
  assert (Bi : bounded i) by (apply (bounded_sub (dom2 s)); [auto|]; intros x Hx; apply Mi in Hx; tauto).
  destruct (nonempty_dec i Gi) as (e & Ee & He). rewrite Ee. cbn [bind]. destruct e.
  { exists []. split; [reflexivity|]. split; [constructor|]. split; [intros g []|]. split; [intros x v (g & [] & _)|].
    intros j x (z & Iz) Mj _. exfalso. apply He. exists z. apply (interior_mono j); [|exact Iz]. intros y My. apply Mi. now apply Mj. }
  destruct (coef_eq_ok (a2 s) (a2 f) ltac:(lia)) as (c & Ec & Hc). rewrite Ec. cbn [bind]. destruct c.
  { apply proj1 in Hc. specialize (Hc eq_refl). destruct (Lab Hc) as [La Lb]. unfold labelled in *.
    destruct (label2 s) as [ls|] eqn:E1; [|congruence]. destruct (label2 f) as [lf|] eqn:E2; [|congruence]. cbn [label_lt bind].
    eexists. split; [reflexivity|]. split; [|split; [|split]].
    - constructor; [|constructor]. split; [split; [exact Gi|split; [exact Bi|split; [exact Ni|]]]|exact He]. destruct (ls <? lf)%Z; cbn [a2]; auto.
    - intros g [<-|[]]. cbn [label2 a2]. destruct (ls <? lf)%Z; [left|right]; (split; [auto|]); apply Forall2_same.
    - intros x v (g & [<-|[]] & M & V). cbn [dom2 a2] in M, V. apply Mi in M as [M1 M2]. split; [auto|]. split; [auto|].
      pose proof (Forall2_row _ _ x Hc) as R. rewrite <- V. unfold qmin. destruct (Qltb_spec (rowval (a2 f) x) (rowval (a2 s) x)); destruct (ls <? lf)%Z; lra.
    - intros j x _ Mj M. apply Mj in M. apply Mi in M. eexists. eexists. split; [left; reflexivity|]. split; [exact M|]. reflexivity. }
  assert (NE : ~ Forall2 Qeq (a2 s) (a2 f)) by (intro H; apply Hc in H; discriminate). clear Hc Lab.
  destruct (coef_sub_ok (a2 s) (a2 f) ltac:(lia)) as (pl & Ep & Lp & Zp & Rp). rewrite Ep. cbn [bind].
  assert (NZ : ~ zero_row pl) by tauto.
  destruct (intersects E i pl) eqn:Ex.
  - apply (intersects_ok E OK i pl Gi Bi) in Ex as (u & w & Mu & Mw & Ru & Rw).
    destruct (Polytope_ok E OK [pl] false false (S d) ltac:(lia) ltac:(constructor; [lia|constructor])) as (p1 & E1 & G1 & N1 & _ & M1); [exists pl; split; [now left|auto]|].
    destruct (Polytope_ok E OK [map Qopp pl] false false (S d) ltac:(lia) ltac:(constructor; [rewrite map_length; lia|constructor])) as (p2 & E2 & G2 & N2 & _ & M2).
    { exists (map Qopp pl). split; [now left|]. intro Z. apply NZ. rewrite map_opp in Z. now apply zero_row_vopp. }
    rewrite E1. cbn [bind]. destruct (intersect2 d i p1 Gi Ni G1 N1) as (d1 & Ed1 & Gd1 & Nd1 & Md1). rewrite Ed1. cbn [bind].
    rewrite E2. cbn [bind]. destruct (intersect2 d i p2 Gi Ni G2 N2) as (d2 & Ed2 & Gd2 & Nd2 & Md2). rewrite Ed2. cbn [bind].
    assert (H1 : forall x, member d1 x <-> member i x /\ 0 <= rowval pl x).
    { intro x. rewrite Md1, M1, Forall_cons_iff. unfold holds. cbn [fst snd]. split; [tauto|]. intros [A B]. split; [auto|]. split; [destruct A as [L _]; rewrite <- Ni; exact L|auto]. }
    assert (H2 : forall x, member d2 x <-> member i x /\ 0 <= rowval (vopp pl) x).
    { intro x. rewrite Md2, M2, Forall_cons_iff. unfold holds. cbn [fst snd]. rewrite map_opp. split; [tauto|]. intros [A B]. split; [auto|]. split; [destruct A as [L _]; rewrite <- Ni; exact L|auto]. }
    assert (I1 : exists z, interior d1 z) by (eapply (half_interior d i d1 pl w); eauto; lia).
    assert (I2 : exists z, interior d2 z).
    { eapply (half_interior d i d2 (vopp pl) u); eauto; [unfold vopp; rewrite map_length; lia|rewrite rowval_vopp; lra]. }
    destruct (nonempty_dec d1 Gd1) as (e1 & Ee1 & He1). destruct (nonempty_dec d2 Gd2) as (e2 & Ee2 & He2). rewrite Ee1, Ee2. cbn [bind].
    destruct e1; [contradiction|]. destruct e2; [contradiction|]. cbn [app].
    eexists. split; [reflexivity|]. split; [|split; [|split]].
    + constructor; [|constructor; [|constructor]].
      * split; [|exact I1]. split; [exact Gd1|]. split; [apply (bounded_sub i); [auto|]; intros x Hx; apply H1 in Hx; tauto|]. split; [exact Nd1|exact Lf].
      * split; [|exact I2]. split; [exact Gd2|]. split; [apply (bounded_sub i); [auto|]; intros x Hx; apply H2 in Hx; tauto|]. split; [exact Nd2|exact Ls].
    + intros g [<-|[<-|[]]]; cbn [label2 a2]; [right|left]; (split; [reflexivity|]); apply Forall2_same.
    + intros x v (g & [<-|[<-|[]]] & M & V); cbn [dom2 a2] in M, V.
      * apply H1 in M as [M R]. apply Mi in M as [Ma Mb]. split; [auto|]. split; [auto|]. rewrite Rp in R. rewrite <- V. unfold qmin. destruct (Qltb_spec (rowval (a2 f) x) (rowval (a2 s) x)); lra.
      * apply H2 in M as [M R]. apply Mi in M as [Ma Mb]. split; [auto|]. split; [auto|]. rewrite rowval_vopp, Rp in R. rewrite <- V. unfold qmin. destruct (Qltb_spec (rowval (a2 f) x) (rowval (a2 s) x)); lra.
    + intros j x _ Mj M. apply Mj in M. apply Mi in M. destruct (Qlt_le_dec (rowval pl x) 0) as [R|R].
      * eexists. exists (mkA2 (a2 s) d2 (label2 s)). split; [right; left; reflexivity|]. split; [apply H2; split; [auto|rewrite rowval_vopp; lra]|reflexivity].
      * eexists. exists (mkA2 (a2 f) d1 (label2 f)). split; [left; reflexivity|]. split; [apply H1; split; auto|reflexivity].
  - assert (NX : ~ exists x y, member i x /\ member i y /\ rowval pl x < 0 /\ 0 < rowval pl y).
    { intro X. apply (intersects_ok E OK i pl Gi Bi) in X. congruence. }
    destruct (get_centroid_ok E OK i Gi Bi) as (c & Ecc & Mc & Mean); [destruct He as (z & Iz); exists z; now apply interior_member|].
    rewrite Ecc. cbn [bind]. destruct (get_vertices_spans E OK i Gi Bi) as [S1 S2]. rewrite Forall_forall in S1.
    assert (Lc : S (length c) = S d) by (destruct Mc as [L _]; lia).
    unfold a2_at. rewrite Ls, Lf, Lc, Nat.eqb_refl. cbn [negb bind]. change (row_at (a2 s) c) with (rowval (a2 s) c). change (row_at (a2 f) c) with (rowval (a2 f) c).
    assert (Sign : forall x, member i x -> (rowval pl c < 0 -> rowval pl x <= 0) /\ (0 <= rowval pl c -> 0 <= rowval pl x)).
    { intros x Mx. split; intro Hcc.
      - destruct (Qlt_le_dec 0 (rowval pl x)) as [P|P]; [|auto]. exfalso. apply NX. exists c, x. auto.
      - destruct (Qlt_le_dec (rowval pl x) 0) as [P|P]; [|auto]. exfalso.
        destruct (Qlt_le_dec 0 (rowval pl c)) as [Q|Q]; [apply NX; exists x, c; auto|].
        assert (Z : rowval pl c == 0) by lra.
        assert (NP : Forall (fun v => 0 <= v) (map (fun v => - rowval pl v) (get_vertices E i))).
        { apply Forall_map, Forall_forall. intros v Iv. destruct (Qlt_le_dec 0 (rowval pl v)) as [V|V]; [|lra]. exfalso. apply NX. exists x, v. split; [exact Mx|]. split; [exact (S1 v Iv)|]. auto. }
        assert (SZ : qsum (map (fun v => - rowval pl v) (get_vertices E i)) == 0).
        { specialize (Mean pl). rewrite Z in Mean. assert (X : qsum (map (fun v => - rowval pl v) (get_vertices E i)) == - qsum (map (rowval pl) (get_vertices E i))).
          { clear. induction (get_vertices E i) as [|v l IH]; unfold qsum in *; simpl; lra. }
          rewrite X. lra. }
        pose proof (qsum_same_sign _ NP SZ) as AZ. rewrite Forall_map in AZ.
        assert (X : rowval pl x == 0); [|lra]. apply (conv_zero (get_vertices E i)); [now apply S2|]. eapply Forall_impl; [|exact AZ]. cbv beta. intros; lra. }
    eexists. split; [reflexivity|]. split; [|split; [|split]].
    + constructor; [|constructor]. split; [|exact He]. split; [exact Gi|]. split; [exact Bi|]. split; [exact Ni|]. cbn [a2]. destruct (Qltb _ _); auto.
    + intros g [<-|[]]. cbn [label2 a2]. destruct (Qltb _ _); [left|right]; (split; [reflexivity|]); apply Forall2_same.
    + intros x v (g & [<-|[]] & M & V). cbn [dom2 a2] in M, V. destruct (Sign x M) as [Sa Sb]. apply Mi in M as [Ma Mb]. split; [auto|]. split; [auto|].
      rewrite !Rp in Sa, Sb. rewrite <- V. unfold qmin. destruct (Qltb_spec (rowval (a2 s) c) (rowval (a2 f) c)) as [K|K]; [specialize (Sa ltac:(lra))|specialize (Sb ltac:(lra))]; destruct (Qltb_spec (rowval (a2 f) x) (rowval (a2 s) x)); lra.
    + intros j x _ Mj M. apply Mj in M. apply Mi in M. eexists. eexists. split; [left; reflexivity|]. split; [exact M|]. reflexivity.
Qed.

Lemma mapM_In : forall A B (f : A -> res B) l ys y, mapM f l = Ret ys -> (In y ys <-> exists x, In x l /\ f x = Ret y).
Proof.
  intros A B f. induction l as [|x l IH]; intros ys y H; cbn [mapM] in H.
  - injection H as <-. split; [intros []|intros (x & [] & _)].
  - destruct (f x) as [b|] eqn:Eb; [|discriminate]. cbn [bind] in H. destruct (mapM f l) as [bs|] eqn:Em; [|discriminate]. injection H as <-.
    cbn [In]. rewrite (IH bs y eq_refl). split.
    + intros [<-|(x' & I & E')]; [exists x; auto|exists x'; auto].
    + intros (x' & [<-|I] & E'); [left; congruence|right; eauto].
Qed.

Lemma mapM_ret : forall A B (f : A -> res B) l, (forall x, In x l -> exists y, f x = Ret y) -> exists ys, mapM f l = Ret ys.
Proof.
  intros A B f l. induction l as [|x l IH]; intro H; [exists []; reflexivity|].
  destruct (H x (or_introl eq_refl)) as (y & Ey). destruct IH as (ys & Eys); [intros z Iz; apply H; now right|].
  exists (y :: ys). cbn [mapM]. rewrite Ey. cbn [bind]. now rewrite Eys.
Qed.

(** The pieces of the minimum are those of the pairs. *)
Lemma min_with_pairs : forall ps qs, (forall p q, In p ps -> In q qs -> exists l, min_pair E p q = Ret l) ->
  exists out, pw_min_with E ps qs = Ret out /\
    forall g, In g out <-> exists p q l, In p ps /\ In q qs /\ min_pair E p q = Ret l /\ In g l.
Proof.
  intros ps qs H. unfold pw_min_with.
  destruct (mapM_ret _ _ (fun p => a2_min_with E p qs) ps) as (ls & El).
  { intros p Ip. unfold a2_min_with. destruct (mapM_ret _ _ (min_pair E p) qs) as (l & Em); [eauto|]. rewrite Em. cbn [bind]. eauto. }
  rewrite El. cbn [bind]. eexists. split; [reflexivity|]. intro g. rewrite in_concat. split.
  - intros (l & Il & Ig). apply (mapM_In _ _ _ _ _ _ El) in Il as (p & Ip & Ep). unfold a2_min_with in Ep.
    destruct (mapM (min_pair E p) qs) as [ms|] eqn:Em; [|discriminate]. injection Ep as <-. apply in_concat in Ig as (m & Im & Ig).
    apply (mapM_In _ _ _ _ _ _ Em) in Im as (q & Iq & Eq). exists p, q, m. auto.
  - intros (p & q & l & Ip & Iq & Eq & Ig). destruct (mapM_ret _ _ (min_pair E p) qs) as (ms & Em); [eauto|].
    exists (concat ms). split.
    + apply (mapM_In _ _ _ _ _ _ El). exists p. split; [auto|]. unfold a2_min_with. now rewrite Em.
    + apply in_concat. exists l. split; [|auto]. apply (mapM_In _ _ _ _ _ _ Em). eauto.
Qed.

Lemma takes_In : forall l x v, takes l x v <-> exists f, In f l /\ takes [f] x v.
Proof.
  intros l x v. split.
  - intros (f & I & H). exists f. split; [auto|]. exists f. split; [now left|auto].
  - intros (f & I & (g & [<-|[]] & H)). exists f. auto.
Qed.

Lemma takes_app : forall l m x v, takes (l ++ m) x v <-> takes l x v \/ takes m x v.
Proof.
  intros. split.
  - intros (f & I & H). apply in_app_iff in I as [I|I]; [left|right]; exists f; auto.
  - intros [(f & I & H)|(f & I & H)]; exists f; (split; [apply in_app_iff; auto|auto]).
Qed.

Lemma takes_perm : forall l m x v, Permutation l m -> takes l x v -> takes m x v.
Proof. intros l m x v P (f & I & H). exists f. split; [now apply (Permutation_in _ P)|auto]. Qed.

Lemma pw_min_ok : forall d ps qs, Forall (proper_piece d) ps -> Forall (proper_piece d) qs ->
  (forall p q, In p ps -> In q qs -> Forall2 Qeq (a2 p) (a2 q) -> labelled p /\ labelled q) ->
  exists out, pw_min_with E ps qs = Ret out /\ Forall (solid_piece d) out /\
    (forall g, In g out -> exists f, In f (ps ++ qs) /\ same_function g f) /\
    (forall x v, takes out x v -> exists u w, takes ps x u /\ takes qs x w /\ v == qmin u w) /\
    (forall x, thick (fun y => defined ps y /\ defined qs y) d x -> exists v, takes out x v).
Proof.
  intros d ps qs Fp Fq Lab. rewrite Forall_forall in Fp, Fq.
  assert (P : forall p q, In p ps -> In q qs -> exists out, min_pair E p q = Ret out /\ Forall (solid_piece d) out /\
    (forall g, In g out -> (label2 g = label2 p /\ Forall2 Qeq (a2 g) (a2 p)) \/ (label2 g = label2 q /\ Forall2 Qeq (a2 g) (a2 q))) /\
    (forall x v, takes out x v -> member (dom2 p) x /\ member (dom2 q) x /\ v == qmin (rowval (a2 p) x) (rowval (a2 q) x)) /\
    (forall i x, (exists z, interior i z) -> (forall y, member i y <-> member (dom2 p) y /\ member (dom2 q) y) -> member i x -> exists v, takes out x v)).
  { intros p q Ip Iq. apply min_pair_ok; auto. }
  destruct (min_with_pairs ps qs) as (out & Eo & Io).
  { intros p q Ip Iq. destruct (P p q Ip Iq) as (l & El & _). eauto. }
  exists out. split; [exact Eo|]. split; [|split; [|split]].
  - apply Forall_forall. intros g Ig. apply Io in Ig as (p & q & l & Ip & Iq & El & Ig). destruct (P p q Ip Iq) as (l' & El' & F & _).
    rewrite El in El'. injection El' as <-. rewrite Forall_forall in F. auto.
  - intros g Ig. apply Io in Ig as (p & q & l & Ip & Iq & El & Ig). destruct (P p q Ip Iq) as (l' & El' & _ & H & _).
    rewrite El in El'. injection El' as <-. destruct (H g Ig) as [K|K]; [exists p|exists q]; (split; [apply in_app_iff; auto|exact K]).
  - intros x v T. apply takes_In in T as (g & Ig & T). apply Io in Ig as (p & q & l & Ip & Iq & El & Ig). destruct (P p q Ip Iq) as (l' & El' & _ & _ & H & _).
    rewrite El in El'. injection El' as <-. destruct (H x v) as (M1 & M2 & V); [apply takes_In; eauto|].
    exists (rowval (a2 p) x), (rowval (a2 q) x). split; [exists p; split; [auto|split; [auto|reflexivity]]|]. split; [exists q; split; [auto|split; [auto|reflexivity]]|exact V].
  - intros x (R & GR & NR & IR & MR & DR).
    (* the intersections of the pairs of domains *)
    assert (X : exists is : list polytope, Forall (fun i => good i /\ ncol (pmat i) = S d) is /\
      (forall i, In i is -> exists p q, In p ps /\ In q qs /\ forall y, member i y <-> member (dom2 p) y /\ member (dom2 q) y) /\
      (forall p q, In p ps -> In q qs -> exists i, In i is /\ forall y, member i y <-> member (dom2 p) y /\ member (dom2 q) y)).
    { clear - Fp Fq OK. 
      assert (Y : forall l : list (affine2 * affine2), (forall pq, In pq l -> In (fst pq) ps /\ In (snd pq) qs) -> exists is : list polytope, Forall (fun i => good i /\ ncol (pmat i) = S d) is /\
        (forall i, In i is -> exists pq, In pq l /\ forall y, member i y <-> member (dom2 (fst pq)) y /\ member (dom2 (snd pq)) y) /\
        (forall pq, In pq l -> exists i, In i is /\ forall y, member i y <-> member (dom2 (fst pq)) y /\ member (dom2 (snd pq)) y)).
      { induction l as [|[p q] l IH]; intro H.
        - exists []. split; [constructor|]. split; intros ? [].
        - destruct IH as (is & F & A & B); [intros pq I; apply H; now right|]. destruct (H (p, q) (or_introl eq_refl)) as [Ip Iq]. cbn [fst snd] in *.
          destruct (Fp p Ip) as (Gp & _ & Np & _). destruct (Fq q Iq) as (Gq & _ & Nq & _).
          destruct (intersect2 d _ _ Gp Np Gq Nq) as (i & _ & Gi & Ni & Mi). exists (i :: is). split; [constructor; auto|]. split.
          + intros j [<-|I]; [exists (p, q); split; [now left|exact Mi]|]. destruct (A j I) as (pq & Ipq & K). exists pq. split; [now right|exact K].
          + intros pq [<-|I]; [exists i; split; [now left|exact Mi]|]. destruct (B pq I) as (j & Ij & K). exists j. split; [now right|exact K]. }
      destruct (Y (list_prod ps qs)) as (is & F & A & B).
      - intros [p q] I. apply in_prod_iff in I. exact I.
      - exists is. split; [exact F|]. split.
        + intros i Ii. destruct (A i Ii) as ([p q] & Ipq & K). apply in_prod_iff in Ipq as [Ip Iq]. exists p, q. auto.
        + intros p q Ip Iq. destruct (B (p, q)) as (i & Ii & K); [now apply in_prod_iff|]. exists i. auto. }
    destruct X as (is & Fi & A & B).
    destruct (thick_cover d R is x GR NR IR Fi) as (i & Ii & Mi & Hi); [|exact MR|].
    + intros y My. destruct (DR y My) as [(p & Ip & Mp) (q & Iq & Mq)]. destruct (B p q Ip Iq) as (i & Ii & K). exists i. split; [auto|]. now apply K.
    + destruct (A i Ii) as (p & q & Ip & Iq & K). destruct (P p q Ip Iq) as (l & El & _ & _ & _ & H).
      destruct (H i x Hi K Mi) as (v & T). apply takes_In in T as (g & Ig & T). exists v. apply takes_In. exists g. split; [|auto].
      apply Io. exists p, q, l. auto.
Qed.

(** ** Evaluation *)

Lemma pw_at_ok : forall d ps x, Forall (proper_piece d) ps -> length x = d -> exists r, pw_at ps x = Ret r /\
  match r with Some v => takes ps x v | None => ~ defined ps x end.
Proof.
  intros d ps x F L. induction F as [|p ps (G & _ & N & La) F IH]; [exists None; split; [reflexivity|intros (f & [] & _)]|].
  cbn [pw_at]. destruct (contains (dom2 p) x) as [[]|e] eqn:Ec.
  - cbn [bind]. apply contains_true in Ec as M. unfold a2_at. rewrite La, L, Nat.eqb_refl. cbn [negb bind].
    eexists. split; [reflexivity|]. exists p. split; [now left|]. split; [exact M|reflexivity].
  - cbn [bind]. apply contains_false in Ec as [_ M]. destruct IH as (r & Er & H). exists r. split; [exact Er|].
    destruct r as [v|]; [destruct H as (f & I & H); exists f; split; [now right|exact H]|].
    intros (f & [<-|I] & Mf); [contradiction|]. apply H. exists f. auto.
  - exfalso. apply contains_raise in Ec as [_ Ec]. lia.
Qed.

(** ** Restriction *)

Lemma keep_ok : forall ps, Forall (fun p => good (dom2 p)) ps -> exists out, keep_nonempty E ps = Ret out /\
  forall p, In p out <-> In p ps /\ exists z, interior (dom2 p) z.
Proof.
  intros ps F. induction F as [|p ps G F (out & Eo & IH)]; [exists []; split; [reflexivity|cbn; tauto]|].
  cbn [keep_nonempty]. rewrite Eo. cbn [bind]. destruct (nonempty_dec (dom2 p) G) as (e & Ee & He). rewrite Ee. cbn [bind].
  eexists. split; [reflexivity|]. intro q. destruct e.
  - rewrite IH. cbn [In]. split; [tauto|]. intros [[<-|I] H]; [contradiction|auto].
  - cbn [In]. rewrite IH. split; [intros [<-|H]; tauto|]. intros [[<-|I] H]; auto.
Qed.

Lemma crop_ok : forall d ps D, Forall (proper_piece d) ps -> good D -> ncol (pmat D) = S d ->
  exists out, pw_crop E ps D false = Ret out /\
    Forall2 (fun p q => a2 q = a2 p /\ label2 q = label2 p /\ proper_piece d q /\ forall x, member (dom2 q) x <-> member (dom2 p) x /\ member D x) ps out.
Proof.
  intros d ps D F GD ND. unfold pw_crop.
  induction F as [|p ps (G & B & N & La) F (out & Eo & IH)]; [exists []; split; [reflexivity|constructor]|].
  cbn [mapM]. destruct (intersect2 d _ _ G N GD ND) as (i & Ei & Gi & Ni & Mi). rewrite Ei. cbn [bind].
  destruct (mapM _ ps) as [qs|]; [|discriminate]. cbn [bind] in *. injection Eo as <-. eexists. split; [reflexivity|]. constructor; [|exact IH].
  cbn [a2 label2 dom2]. split; [reflexivity|]. split; [reflexivity|]. split; [|exact Mi]. split; [exact Gi|]. split; [|auto].
  apply (bounded_sub (dom2 p)); [auto|]. intros x Hx. apply Mi in Hx. tauto.
Qed.
End Ext.
