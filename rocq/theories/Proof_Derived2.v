(** The derivations of single exponent pairs: what they return. *)
From Verif Require Import Base Model_Text Model_Reference Spec_Reference Proof_Reference
  Model_Interval Spec_Interval Model_Affine Spec_Affine Proof_Interval Proof_Affine Proof_AffineMerge
  Model_BoundBeta Proof_BoundBeta Proof_BestShared Model_Polytope
  Model_Hull Spec_Hull Proof_Hull Model_ExponentPair Spec_ExponentPair Proof_ExponentPair Proof_ExpSearch Proof_ExpLit Proof_ExpDual Prop_ExpDual
  Spec_ExpProof Proof_ExpProof Model_Derived Spec_Derived Proof_Derived.
Open Scope list_scope.
Local Open Scope Q_scope.

Lemma finish_wf : forall bounds self refs lbl out o, Forall (fun b => wf (dom b)) bounds -> (forall r, In r refs -> wf (dom (deref self r))) ->
  finish bounds self lbl refs = Ret out -> In o out -> exists p, out_bound bounds o = Some p /\ wf (dom p).
Proof.
  intros bounds self refs. induction refs as [|r refs IH]; intros lbl out o W Wr H I; cbn [finish] in H; [injection H as <-; destruct I|].
  destruct (match r with RSelf => lbl | ROwn p => label p end) as [i|]; [|discriminate].
  destruct (nth_error bounds i) as [depend|] eqn:EN; [|discriminate].
  destruct (finish bounds self _ refs) as [rest|] eqn:EF; [|discriminate]. cbn [bind] in H. injection H as <-.
  destruct I as [<-|I]; [|apply (IH _ _ o W ltac:(intros; apply Wr; now right) EF I)].
  destruct (affine_eqb (deref self r) depend).
  - exists depend. split; [auto|]. rewrite Forall_forall in W. apply W. eapply nth_error_In; eauto.
  - eexists. split; [reflexivity|]. cbn. apply Wr. now left.
Qed.

Lemma best_wf : forall bounds out o, Forall (fun b => wf (dom b)) bounds -> compute_best_beta_bounds bounds None = Ret out -> In o out ->
  exists p, out_bound bounds o = Some p /\ wf (dom p).
Proof.
  intros bounds out o W H I. assert (Wd : wf (mkI 0 (1#2) true true)) by (unfold wf; cbn; lra).
  destruct bounds as [|b0 [|b1 rest]]; cbn [compute_best_beta_bounds] in H.
  - injection H as <-. destruct I.
  - injection H as <-. destruct I as [<-|[]]. exists b0. split; [auto|]. now inversion W.
  - inversion W as [|? ? W0 W1]; subst. rewrite (deep_copy_ok b0 W0) in H. cbn [bind] in H.
    destruct (envelope_ok _ (b1 :: rest) [b0] _ Wd W1 (init_inv None b0 W0)) as [st [E [[I1 _] _]]]. cbn [List.length] in E. rewrite E in H. cbn [bind] in H.
    apply (finish_wf _ _ _ _ _ o W) in H; auto. intros r Hr. apply I1. unfold deref_all. now apply in_map.
Qed.


Lemma best_nodes_wf : forall S bb, wf_bounds S -> best_beta_nodes S = Ret bb -> wf_bounds bb.
Proof.
  intros S bb W H. destruct (best_nodes S bb W H) as (out & E & F). apply Forall_forall. intros h I P.
  destruct (Forall2_in_r _ _ _ _ _ _ F I) as (o & Io & _ & Eo & _).
  destruct (best_wf (map bound_of (filter is_beta S)) out o) as (p & Ep & Wp); auto.
  - apply Forall_map, Forall_forall. intros x Ix. apply filter_In in Ix as [Ix Px]. unfold wf_bounds in W. rewrite Forall_forall in W. auto.
  - rewrite Eo in Ep. injection Ep as <-. exact Wp.
Qed.

Section Run.
Context (rc : reference) (ch : hull_routine) (Hch : hull_spec ch).
Notation tr := (lit_trans rc).
Context (btr : nat -> hnode -> res (list hnode)) (ord : list hnode -> list hnode) (Ho : traversal ord).

Lemma prove_inv : forall hs k l r, prove_exponent_pair_with_hypotheses ch tr btr ord hs k l = Ret r ->
  exists new bs bb out, compute_exp_pairs ch tr hs 1 true = Ret new /\
    exponent_pairs_to_beta_bounds btr (ord (hs ++ new)) = Ret bs /\
    best_beta_nodes (ord (ord (hs ++ new) ++ bs)) = Ret bb /\
    beta_bounds_to_exponent_pairs ch tr (ord (ord (ord (hs ++ new) ++ bs) ++ bb)) = Ret out /\
    r = find (fun h => pt_eqb (key_of h) (k, l)) out.
Proof.
  intros hs k l r H. unfold prove_exponent_pair_with_hypotheses in H.
  destruct (compute_exp_pairs ch tr hs 1 true) as [new|]; [|discriminate]. cbn [bind] in H.
  destruct (exponent_pairs_to_beta_bounds btr (ord (hs ++ new))) as [bs|] eqn:E2; [|discriminate]. cbn [bind] in H.
  destruct (best_beta_nodes (ord (ord (hs ++ new) ++ bs))) as [bb|] eqn:E3; [|discriminate]. cbn [bind] in H.
  destruct (beta_bounds_to_exponent_pairs ch tr (ord (ord (ord (hs ++ new) ++ bs) ++ bb))) as [out|] eqn:E4; [|discriminate]. cbn [bind] in H.
  injection H as <-. exists new, bs, bb, out. auto.
Qed.

Lemma out_pairs : forall S out h, beta_bounds_to_exponent_pairs ch tr S = Ret out -> In h out -> is_pair h = true.
Proof.
  intros S out h H I. destruct (from_beta_inv ch Hch tr S out H) as (bb & _ & [->|(vs & ls & Ev & Hv & -> & F)]); [destruct I|].
  apply in_app_iff in I as [I|I]; [now apply filter_In in I|]. apply in_concat in I as (l & Il & Ih).
  destruct (Forall2_in_r _ _ _ _ _ _ F Il) as (e & Ie & He).
  destruct (degenerate (pts_at (beta_points bb) (fst e)) (pts_at (beta_points bb) (snd e))) eqn:D.
  - unfold edge_pairs in He. rewrite D in He. injection He as <-. destruct Ih.
  - destruct (edge_pairs_inv tr _ _ _ _ _ He D) as (_ & h0 & P & _ & _ & Hx). destruct (Hx h Ih) as [->|(B & _ & _ & P')]; auto.
Qed.

Lemma prove_some : forall hs k l h, prove_exponent_pair_with_hypotheses ch tr btr ord hs k l = Ret (Some h) ->
  is_pair h = true /\ pt_eq (key_of h) (k, l).
Proof.
  intros hs k l h H. destruct (prove_inv hs k l _ H) as (new & bs & bb & out & _ & _ & _ & E & F). symmetry in F.
  apply find_some in F as [I K]. apply pt_eqb_true in K. split; [|auto]. eapply out_pairs; eauto.
Qed.

Lemma ord_all : forall P l, Forall P l -> Forall P (ord l).
Proof. intros P l F. rewrite Forall_forall in *. intros x I. apply F. now apply (Ho l x). Qed.

Lemma prove_true : forall W hs k l h, admissible W -> ready hs -> Forall (holds tr btr W) hs ->
  prove_exponent_pair_with_hypotheses ch tr btr ord hs k l = Ret (Some h) -> exp_pair W k l.
Proof.
  intros W hs k l h Ad R T H. destruct (prove_some hs k l h H) as [P K].
  destruct (prove_inv hs k l _ H) as (new & bs & bb & out & E1 & E2 & E3 & E4 & F). symmetry in F. apply find_some in F as [I _].
  destruct (ready_good rc ch Hch btr ord Ho hs new bs R E1 E2) as (ks & ls & G).
  assert (T1 : Forall (holds tr btr W) (ord (hs ++ new))) by (apply ord_all, Forall_app; split; [auto|]; now apply (exp_true ch Hch tr btr W hs new 1 true)).
  assert (T2 : Forall (holds tr btr W) (ord (ord (hs ++ new) ++ bs))).
  { apply ord_all, Forall_app. split; [auto|]. pose proof (pairs_to_beta_sound tr btr W _ bs Ad T1 E2) as X. revert X. apply Forall_impl. tauto. }
  assert (Wf : forall S, good_bounds S ks ls -> Forall (fun h => is_beta h = true -> wf (dom (bound_of h))) S).
  { intros S GS. apply Forall_forall. intros x Ix Px. apply (gb_wf S ks ls GS x); [auto|]. now apply is_beta_data. }
  assert (G3 : good_bounds (ord (ord (ord (hs ++ new) ++ bs) ++ bb)) ks ls).
  { apply (good_extend _ _ ks ls bb G E3). intro x. rewrite (Ho (ord (ord (hs ++ new) ++ bs) ++ bb) x). apply in_app_iff. }
  assert (T3 : Forall (holds tr btr W) (ord (ord (ord (hs ++ new) ++ bs) ++ bb))).
  { apply ord_all, Forall_app. split; [auto|]. pose proof (best_nodes_true tr btr W _ bb (beta_upper W Ad) (Wf _ G) T2 E3) as X. revert X. apply Forall_impl.
    intros x [Px Hx]. unfold holds. apply is_beta_data in Px. now rewrite Px. }
  destruct (from_beta_inv ch Hch tr _ out E4) as (bb' & Eb' & _).
  destruct (from_beta_true ch Hch tr btr W _ bb' out Ad (Wf _ G3) T3) with (h := h) as [_ Hh]; auto.
  - intros a A0 A1. destruct (gb_trivial _ _ _ G3) as (k0 & l0 & _ & _ & (g & Ig & Dg)). exists g. split; [auto|].
    unfold is_beta, bound_of. rewrite Dg. split; [auto|]. now apply half_covers.
  - exact (good_guard _ ks ls _ G3 Eb').
  - apply is_pair_data in P as (k' & l' & D). unfold holds in Hh. rewrite D in Hh. rewrite (key_data _ _ _ D) in K. destruct K as [K1 K2]. cbn in K1, K2.
    destruct Hh as [Tr Hb]. split; [now apply (triangle_eq k' l')|]. intros a A0 A1. apply (beta_upper W Ad a a (k' + (l' - k') * a)); [reflexivity| |auto].
    rewrite K1, K2. lra.
Qed.

(** ** What a proof rests on *)
Lemma rests_mono : forall S S' h, incl S S' -> rests_on S h -> rests_on S' h.
Proof. intros S S' h I R. induction R as [h J|h N D IH]; [apply rests_in; auto|]. apply rests_deps; auto. Qed.

Lemma rests_trans : forall S S' h, (forall g, In g S' -> rests_on S g) -> rests_on S' h -> rests_on S h.
Proof. intros S S' h H R. induction R as [h I|h N D IH]; [auto|]. apply rests_deps; auto. Qed.

Notation own_trans := (own_trans rc).

Lemma trans_deps : forall t h h', t = A_hyp \/ t = B_hyp \/ t = C_hyp rc -> apply_trans tr t h = Ret h' -> n_deps h' = [h; t].
Proof.
  intros t h h' [E|[E|E]] H; subst t; cbn in H; [apply A_inv in H|apply B_inv in H|apply C_inv in H]; destruct H as (k & l & k' & l' & _ & _ & _ & D); auto.
Qed.

Lemma deps_rest : forall S h, n_deps h <> [] -> (forall d, In d (n_deps h) -> rests_on S d) -> rests_on S h.
Proof. intros. now apply rests_deps. Qed.

Lemma search_rests : forall hs new h, own_trans hs -> compute_exp_pairs ch tr hs 1 true = Ret new -> In h new -> rests_on hs h.
Proof.
  intros hs new h O H I. destruct (compute_sound ch tr Hch hs 1 true new h H I) as [_ (n & _ & R)].
  clear I H. induction R as [h I|n h t h' R IH It E].
  - apply rests_in. now apply filter_In in I.
  - apply filter_In in It as [It Pt]. assert (D : n_deps h' = [h; t]) by (apply trans_deps; auto).
    apply deps_rest; rewrite D; [discriminate|]. intros d [<-|[<-|[]]]; [exact IH|now apply rests_in].
Qed.

Lemma edge_rests : forall S out h, own_trans S -> beta_bounds_to_exponent_pairs ch tr S = Ret out -> In h out ->
  (forall bb, best_beta_nodes S = Ret bb -> forall g, In g bb -> rests_on S g) -> rests_on S h.
Proof.
  intros S out h O H I Hb. destruct (from_beta_inv ch Hch tr S out H) as (bb & Eb & [->|(vs & ls & Ev & Hv & -> & F)]); [destruct I|].
  apply in_app_iff in I as [I|I]; [apply filter_In in I; now apply rests_in|]. apply in_concat in I as (l & Il & Ih).
  destruct (Forall2_in_r _ _ _ _ _ _ F Il) as ([i j] & Ie & He). cbn [fst snd] in He.
  destruct (degenerate (pts_at (beta_points bb) i) (pts_at (beta_points bb) j)) eqn:D.
  { unfold edge_pairs in He. rewrite D in He. injection He as <-. destruct Ih. }
  destruct (edge_pairs_inv tr _ _ _ _ _ He D) as (_ & h0 & P & _ & Src & Hx).
  assert (R0 : rests_on S h0).
  { destruct Src as [J|[_ Dp]]; [now apply rests_in|]. apply deps_rest; rewrite Dp.
    - apply degenerate_false in D as (D1 & _ & _). apply cyc_edges_in in Ie as [Iv Jv].
      assert (V : exists v, In v vs /\ ~ snd (pts_at (beta_points bb) v) == 0).
      { destruct (Qeq_dec (snd (pts_at (beta_points bb) i)) 0) as [Z|Z]; [|exists i; auto]. exists j. split; [auto|]. intro Z'. auto. }
      destruct V as (v & Hvv & Nz).
      assert (V2 : (2 <= v)%nat). { destruct v as [|[|v]]; [exfalso; apply Nz; reflexivity|exfalso; apply Nz; reflexivity|lia]. }
      pose proof (hull_range _ _ Hv) as Rg. rewrite Forall_forall in Rg. specialize (Rg v Hvv).
      pose proof (pts_at_in (beta_points bb) v Rg) as Ip. apply in_beta_points in Ip as [E|[E|(g & Ig & Eg)]];
        [exfalso; apply Nz; rewrite E; reflexivity|exfalso; apply Nz; rewrite E; reflexivity|].
      assert (X : In g (filter (on_hull (beta_points bb) vs) bb)).
      { apply filter_In. split; [auto|]. unfold on_hull. apply existsb_exists. exists v. split; [auto|]. apply andb_true_iff. split; [now apply Nat.leb_le|].
        cbv zeta. unfold piece_end in Eg. cbv zeta in Eg. apply orb_true_iff. 
        destruct Eg as [Eg|Eg]; [left|right]; apply andb_true_iff; rewrite Eg; cbn [fst snd]; split; apply Qeqb_true; try reflexivity; unfold at_ext, value; lra. }
      intro Z. rewrite Z in X. destruct X.
    - intros d Id. apply filter_In in Id as [Id _]. exact (Hb bb Eb d Id). }
  destruct (Hx h Ih) as [->|(B & FB & EB & _)]; [exact R0|].
  apply find_some in FB as [IB _]. assert (TB : is_trans B = true). { unfold apply_trans in EB. unfold is_trans. destruct (n_data B); try discriminate. reflexivity. }
  assert (Dp : n_deps h = [h0; B]) by (apply trans_deps; auto).
  apply deps_rest; rewrite Dp; [discriminate|]. intros d [<-|[<-|[]]]; [exact R0|now apply rests_in].
Qed.

Lemma best_rests : forall S bb, wf_bounds S -> best_beta_nodes S = Ret bb -> forall g, In g bb -> rests_on S g.
Proof.
  intros S bb W H g I. destruct (best_nodes S bb W H) as (out & E & F).
  destruct (Forall2_in_r _ _ _ _ _ _ F I) as (o & Io & _ & _ & [J|(x & Ix & Dx)]); [now apply rests_in|].
  apply deps_rest; rewrite Dx; [discriminate|]. intros d [<-|[]]. now apply rests_in.
Qed.

Lemma prove_rests : forall hs k l h, wf_bounds hs -> own_trans hs -> (forall t, In t hs -> is_beta_trans t = false) ->
  prove_exponent_pair_with_hypotheses ch tr btr ord hs k l = Ret (Some h) -> rests_on hs h.
Proof.
  intros hs k l h W O NB H. destruct (prove_inv hs k l _ H) as (new & bs & bb & out & E1 & E2 & E3 & E4 & F). symmetry in F. apply find_some in F as [I _].
  assert (NewP : forall x, In x new -> is_pair x = true) by (intros x Ix; now destruct (compute_sound ch tr Hch hs 1 true new x E1 Ix)).
  set (S1 := ord (hs ++ new)) in *. set (S2 := ord (S1 ++ bs)) in *. set (S3 := ord (S2 ++ bb)) in *.
  assert (In1 : forall x, In x S1 <-> In x hs \/ In x new) by (intro x; unfold S1; rewrite (Ho (hs ++ new) x); apply in_app_iff).
  assert (In2 : forall x, In x S2 <-> In x S1 \/ In x bs) by (intro x; unfold S2; rewrite (Ho (S1 ++ bs) x); apply in_app_iff).
  assert (In3 : forall x, In x S3 <-> In x S2 \/ In x bb) by (intro x; unfold S3; rewrite (Ho (S2 ++ bb) x); apply in_app_iff).
  destruct (to_beta_inv btr _ _ E2) as [B1 _].
  assert (Bs : forall x, In x bs -> exists g k l, In g S1 /\ n_data x = DBeta (mkA (l - k) k half_interval None) /\ n_deps x = [g]).
  { intros x Ix. apply B1 in Ix as (g & Ig & [(k1 & l1 & D & E)|(_ & t & ? & It & Pt & _)]).
    - apply derived_node_inv in E as (X1 & X2 & _). exists g, k1, l1. auto.
    - exfalso. apply In1 in It as [It|It]; [rewrite (NB t It) in Pt; discriminate|]. apply NewP in It. unfold is_pair, is_beta_trans in *. destruct (n_data t); discriminate. }
  assert (W2 : wf_bounds S2).
  { apply Forall_forall. intros x Ix Px. unfold wf_bounds in W. rewrite Forall_forall in W. apply In2 in Ix as [Ix|Ix].
    - apply In1 in Ix as [Ix|Ix]; [auto|]. apply NewP in Ix. unfold is_pair, is_beta in *. destruct (n_data x); discriminate.
    - destruct (Bs x Ix) as (g & k1 & l1 & _ & D & _). unfold bound_of. rewrite D. unfold wf. cbn. lra. }
  assert (W3 : wf_bounds S3).
  { pose proof (best_nodes_wf S2 bb W2 E3) as Wb. unfold wf_bounds in *. rewrite Forall_forall in *. intros x Ix. apply In3 in Ix as [Ix|Ix]; auto. }
  assert (R1 : forall x, In x S1 -> rests_on hs x).
  { intros x Ix. apply In1 in Ix as [Ix|Ix]; [now apply rests_in|]. now apply (search_rests hs new). }
  assert (R2 : forall x, In x S2 -> rests_on hs x).
  { intros x Ix. apply In2 in Ix as [Ix|Ix]; [auto|]. destruct (Bs x Ix) as (g & _ & _ & Ig & _ & D). apply deps_rest; rewrite D; [discriminate|]. intros d [<-|[]]. auto. }
  assert (R3 : forall x, In x S3 -> rests_on hs x).
  { intros x Ix. apply In3 in Ix as [Ix|Ix]; [auto|]. apply (rests_trans hs S2); [auto|]. now apply (best_rests S2 bb). }
  assert (O3 : own_trans S3).
  { intros t It Pt. apply In3 in It as [It|It].
    - apply In2 in It as [It|It].
      + apply In1 in It as [It|It]; [now apply O|]. apply NewP in It. unfold is_pair, is_trans in *. destruct (n_data t); discriminate.
      + destruct (Bs t It) as (_ & ? & ? & _ & D & _). unfold is_trans in Pt. rewrite D in Pt. discriminate.
    - destruct (best_nodes S2 bb W2 E3) as (o & _ & F2). destruct (Forall2_in_r _ _ _ _ _ _ F2 It) as (? & _ & Pb & _).
      unfold is_beta, is_trans in *. destruct (n_data t); discriminate. }
  apply (rests_trans hs S3); [auto|]. apply (edge_rests S3 out); auto. intros bb' Eb'. now apply best_rests.
Qed.

(** ** Simplification *)
Lemma prove_nothing : forall k l r, prove_exponent_pair_with_hypotheses ch tr btr ord (ord []) k l = Ret r -> r = None.
Proof.
  intros k l r H. assert (Z : forall l, l = [] -> ord l = []).
  { intros x ->. destruct (ord []) as [|a m] eqn:E; [auto|]. exfalso. assert (J : In a (ord [])) by (rewrite E; now left). apply (Ho [] a) in J. destruct J. }
  rewrite (Z [] eq_refl) in H. unfold prove_exponent_pair_with_hypotheses in H.
  cbn in H. rewrite !(Z [] eq_refl) in H. cbn in H. rewrite !(Z [] eq_refl) in H. cbn in H. rewrite !(Z [] eq_refl) in H. cbn in H. now injection H as <-.
Qed.

Context (pick : nat -> list hnode -> nat).
Lemma pop_incl : forall i hs cpy, pop pick i hs = Ret cpy -> incl cpy hs /\ S (List.length cpy) = List.length hs.
Proof.
  intros i hs cpy H. unfold pop in H. destruct hs as [|a hs]; [discriminate|]. set (L := a :: hs) in *. set (j := (pick i L mod List.length L)%nat) in *.
  assert (J : (j < List.length L)%nat) by (apply Nat.mod_upper_bound; cbn; lia). clearbody j L. assert (E : cpy = firstn j L ++ skipn (S j) L) by congruence. clear H. subst cpy. split.
  - intros x Ix. apply in_app_iff in Ix as [Ix|Ix]; [rewrite <- (firstn_skipn j L); apply in_app_iff; auto|].
    rewrite <- (firstn_skipn (S j) L). apply in_app_iff. auto.
  - rewrite app_length, firstn_length, skipn_length, Nat.min_l by lia. lia.
Qed.

Lemma simplify_inv : forall k l n i hs eph r, simplify ch tr btr ord pick k l n i hs eph = Ret r ->
  r = eph \/ exists sub h, incl sub hs /\ r = Some h /\ prove_exponent_pair_with_hypotheses ch tr btr ord (ord sub) k l = Ret r.
Proof.
  intros k l. induction n as [|n IH]; intros i hs eph r H; cbn [simplify] in H; [injection H as <-; auto|].
  destruct (pop pick i hs) as [cpy|] eqn:Ep; [|discriminate]. cbn [bind] in H.
  destruct (prove_exponent_pair_with_hypotheses ch tr btr ord (ord cpy) k l) as [[h|]|] eqn:Eq; [| |discriminate]; cbn [bind] in H.
  - destruct (pop_incl i hs cpy Ep) as [Ic _]. destruct (IH _ _ _ _ H) as [->|(sub & h' & Is & Er & Es)].
    + right. exists cpy, h. auto.
    + right. exists sub, h'. split; [intros x Ix; apply Ic, Is, Ix|auto].
  - destruct (IH _ _ _ _ H) as [->|X]; auto.
Qed.

Lemma simplify_some : forall k l n i hs h r, simplify ch tr btr ord pick k l n i hs (Some h) = Ret r -> exists h', r = Some h'.
Proof. intros k l n i hs h r H. apply simplify_inv in H as [->|(sub & h' & _ & -> & _)]; eauto. Qed.

(** No attempt finds the set empty. *)
Lemma simplify_no_key_error : forall k l n i hs eph, hs <> [] ->
  (forall sub e, incl sub hs -> prove_exponent_pair_with_hypotheses ch tr btr ord (ord sub) k l = Raise e -> e <> KeyError) ->
  simplify ch tr btr ord pick k l n i hs eph <> Raise KeyError.
Proof.
  intros k l. induction n as [|n IH]; intros i hs eph N HE; cbn [simplify]; [discriminate|].
  destruct (pop pick i hs) as [cpy|e] eqn:Ep; [|unfold pop in Ep; destruct hs; [congruence|discriminate]]. cbn [bind].
  destruct (pop_incl i hs cpy Ep) as [Ic _].
  destruct (prove_exponent_pair_with_hypotheses ch tr btr ord (ord cpy) k l) as [[h|]|e] eqn:Eq; cbn [bind].
  - apply IH; [|intros sub e Is; apply HE; intros x Ix; apply Ic, Is, Ix]. intros ->. apply prove_nothing in Eq. discriminate.
  - apply IH; auto.
  - intro X. injection X as ->. exact (HE cpy KeyError Ic Eq eq_refl).
Qed.

(** When the choice does not depend on the attempt, a first failure is final. *)
Lemma simplify_stuck : forall k l n i hs eph cpy, (forall i j l, pick i l = pick j l) ->
  pop pick i hs = Ret cpy -> prove_exponent_pair_with_hypotheses ch tr btr ord (ord cpy) k l = Ret None ->
  simplify ch tr btr ord pick k l n i hs eph = Ret eph.
Proof.
  intros k l. induction n as [|n IH]; intros i hs eph cpy P E F; [reflexivity|]. cbn [simplify]. rewrite E. cbn [bind]. rewrite F. cbn [bind].
  apply (IH (S i) hs eph cpy P); [|auto]. unfold pop in *. destruct hs; [auto|]. rewrite (P (S i) i). exact E.
Qed.

End Run.
