(** The region of large values over a domain, for estimates that are cut to the
    domain correctly whatever polytopes they are built from. *)
From Verif Require Import Base LinAlg Model_Text Model_Reference Spec_Reference Model_Polytope Spec_Polytope Proof_Polytope FM_Ext Model_Region Spec_Region Proof_Region Proof_RegionSolid Prop_Region
  Model_ExponentPair Spec_ExponentPair Spec_BoundMu Prop_BoundMu Model_LargeValues Spec_LargeValues Proof_LargeValues Prop_LargeValues Model_ZetaLargeValues Prop_ZetaLargeValues
  Model_Format Spec_Format Prop_Format Model_AdditiveEnergy Spec_AdditiveEnergy Proof_AdditiveEnergy Prop_Reference Prop_AdditiveEnergy
  Model_LargeValueRegion Spec_LargeValueRegion Prop_LargeValueRegion Proof_Reference Proof_RegionDisjoint.
From Verif Require Proof_Piecewise Proof_EnergyDerivation.
From Coq Require Import Permutation.
Open Scope list_scope.

(** No vertices are cached in the pieces when dependencies are tracked. *)
Definition uncached (p : lpoly) : Prop := pverts (body p) = None.
Section Cached.
Context (E : ext) (order : nat -> list nat -> list nat).
Lemma try_union_uncached : forall ps u, Forall (fun p => pverts p = None) ps -> try_union E ps = Ret (Some u) -> pverts u = None.
Proof.
  intros ps u F H. destruct ps as [|p [|q ps]]; [discriminate|cbn in H; injection H as <-; now inversion F|]. unfold try_union in H.
  match type of H with bind ?m _ = _ => destruct m as [[|]|]; [discriminate| |discriminate] end. cbn [bind] in H.
  match type of H with bind ?m _ = _ => destruct m as [[|]|]; [|discriminate|discriminate] end. cbn [bind] in H.
  match type of H with context [Polytope E ?l false true] => destruct (Polytope E l false true) as [w|] eqn:Ew; [|discriminate] end. cbn [bind] in H. injection H as <-.
  unfold Polytope in Ew. destruct (matrix_of _ false); [|discriminate]. cbn [bind] in Ew. now injection Ew as <-.
Qed.
Lemma bodies_uncached : forall ps, Forall uncached ps -> Forall (fun p => pverts p = None) (map body ps).
Proof. intros ps F. apply Forall_map. exact F. Qed.
Lemma simplify_uncached : forall t l out, Forall uncached l -> simplify_union_of_polys (try_union2 E t) order l = Ret out -> Forall uncached out.
Proof.
  intros t l out F H.
  assert (M : forall a b u, uncached a -> uncached b -> try_union2 E t a b = Ret (Some u) -> uncached u).
  { intros a b u Ua Ub Hu. unfold try_union2 in Hu. destruct (try_union E [body a; body b]) as [[w|]|] eqn:Ew; [| discriminate|discriminate]. cbn [bind] in Hu.
    assert (N : pverts w = None) by (eapply try_union_uncached; [|exact Ew]; repeat constructor; auto).
    destruct t; [destruct (dep_union a b); [|discriminate]; cbn [bind] in Hu|]; injection Hu as <-; exact N. }
  assert (S1 : forall st c st', Forall uncached (s_polys st) -> simplify_step (try_union2 E t) st c = Ret st' -> Forall uncached (s_polys st')).
  { intros st [i j] st' Fs Hs. unfold simplify_step in Hs. destruct (negb _ || negb _); [injection Hs as <-; exact Fs|]. destruct (mem2 _ _ || mem2 _ _); [injection Hs as <-; exact Fs|].
    destruct (nth_error (s_polys st) i) as [a|] eqn:Ea; [|discriminate]. destruct (nth_error (s_polys st) j) as [b|] eqn:Eb; [|discriminate].
    destruct (try_union2 E t a b) as [[u|]|] eqn:Em; cbn [bind] in Hs; [| |discriminate]; injection Hs as <-; cbn [s_polys]; [|exact Fs].
    apply Forall_app. split; [exact Fs|]. constructor; [|constructor]. rewrite Forall_forall in Fs. apply (M a b u); auto; apply Fs; eapply nth_error_In; eauto. }
  assert (S2 : forall cs st st', Forall uncached (s_polys st) -> foldM (simplify_step (try_union2 E t)) cs st = Ret st' -> Forall uncached (s_polys st')).
  { induction cs as [|c cs IH]; intros st st' Fs Hs; cbn in Hs; [injection Hs as <-; exact Fs|].
    destruct (simplify_step (try_union2 E t) st c) as [st1|] eqn:E1; [|discriminate]. cbn [bind] in Hs. eapply IH; [|exact Hs]. eapply S1; eauto. }
  assert (S3 : forall n k st k' st', Forall uncached (s_polys st) -> simplify_loop (try_union2 E t) order n k st = Ret (k', st') -> Forall uncached (s_polys st')).
  { induction n as [|n IH]; intros k st k' st' Fs Hs; cbn in Hs; [discriminate|].
    destruct (foldM (simplify_step (try_union2 E t)) _ _) as [st1|] eqn:E1; [|discriminate]. cbn [bind] in Hs. apply S2 in E1; [|exact Fs].
    destruct (s_changed st1); [eapply IH; eauto|injection Hs as <- <-; exact E1]. }
  unfold simplify_union_of_polys in H. destruct (simplify_loop (try_union2 E t) order _ 0 _) as [[k st]|] eqn:El; [|discriminate]. cbn [bind] in H.
  apply S3 in El; [|exact F]. apply Forall_forall. intros p Ip. apply (Proof_Piecewise.mapM_In _ _ _ _ _ _ H) in Ip as (i & _ & Hi).
  destruct (nth_error (s_polys st) i) as [q|] eqn:Eq; [|discriminate]. injection Hi as <-. rewrite Forall_forall in El. apply El. eapply nth_error_In; eauto.
Qed.
Lemma piece_inters_uncached : forall t p B L, uncached p -> Forall uncached B -> piece_inters E t p B = Ret L -> Forall uncached L.
Proof.
  intros t p B. induction B as [|q B IH]; intros L Up F H; cbn [piece_inters] in H; [injection H as <-; constructor|].
  apply Forall_cons_iff in F as [Uq F].
  destruct (is_subset_of E (body p) (body q)); [|destruct (is_subset_of E (body q) (body p))].
  - destruct (piece_inters E t p B) as [rest|]; [|discriminate]. injection H as <-. constructor; auto.
  - destruct (piece_inters E t p B) as [rest|]; [|discriminate]. injection H as <-. constructor; auto.
  - destruct (intersect E (body p) (body q)) as [i|] eqn:Ei; [|discriminate]. cbn [bind] in H. destruct (is_empty E i false) as [e|]; [|discriminate]. cbn [bind] in H.
    assert (Ui : pverts i = None).
    { unfold intersect, intersection in Ei. match type of Ei with bind ?m _ = _ => destruct m; [|discriminate] end. cbn [bind] in Ei.
      match type of Ei with bind ?m _ = _ => destruct m; [|discriminate] end. cbn [bind] in Ei. now injection Ei as <-. }
    match type of H with bind ?m _ = _ => destruct m as [this|] eqn:Et; [|discriminate] end. cbn [bind] in H.
    destruct (piece_inters E t p B) as [rest|]; [|discriminate]. cbn [bind] in H. injection H as <-. apply Forall_app. split; [|auto].
    destruct e; [injection Et as <-; constructor|]. destruct t; [destruct (dep_union p q); [|discriminate]; cbn [bind] in Et|]; injection Et as <-; repeat constructor; exact Ui.
Qed.
Lemma merge_uncached : forall t L L', Forall uncached L -> merge_inters E t L = Ret L' -> Forall uncached L'.
Proof.
  intros t L L' F H. unfold merge_inters in H. destruct ((2 <=? List.length L)%nat && (List.length L <=? UNION_THRESHOLD)%nat); [|now injection H as <-].
  unfold try_union_l in H. destruct (try_union E (map body L)) as [[u|]|] eqn:Eu; [| |discriminate]; cbn [bind] in H; [|now injection H as <-].
  pose proof (try_union_uncached _ _ (bodies_uncached L F) Eu) as N.
  destruct t; [destruct (union_deps L); [|discriminate]; cbn [bind] in H|cbn [bind] in H]; injection H as <-; repeat constructor; exact N.
Qed.
Lemma round_uncached : forall t A B L, Forall uncached A -> Forall uncached B -> round E t A B = Ret L -> Forall uncached L.
Proof.
  intros t A B. induction A as [|p A IH]; intros L FA FB H; cbn [round] in H; [injection H as <-; constructor|]. apply Forall_cons_iff in FA as [Up FA].
  destruct (piece_inters E t p B) as [L1|] eqn:E1; [|discriminate]. cbn [bind] in H. destruct (merge_inters E t L1) as [L2|] eqn:E2; [|discriminate]. cbn [bind] in H.
  destruct (round E t A B) as [L3|]; [|discriminate]. cbn [bind] in H. injection H as <-. apply Forall_app. split; [|auto].
  eapply merge_uncached; [|exact E2]. eapply piece_inters_uncached; eauto.
Qed.
Lemma rounds_uncached : forall t Bs i A L, Forall uncached A -> Forall (Forall uncached) Bs -> intersect_rounds E order t i A Bs = Ret L -> Forall uncached L.
Proof.
  intros t Bs. induction Bs as [|B Bs IH]; intros i A L FA FB H; cbn [intersect_rounds] in H; [now injection H as <-|]. apply Forall_cons_iff in FB as [FB0 FB].
  destruct (round E t A B) as [C|] eqn:Ec; [|discriminate]. cbn [bind] in H. pose proof (round_uncached _ _ _ _ FA FB0 Ec) as FC.
  match type of H with bind ?m _ = _ => destruct m as [D|] eqn:Ed; [|discriminate] end. cbn [bind] in H. eapply IH; [|exact FB|exact H].
  destruct (Nat.eqb _ 0 && (100 <=? List.length C)%nat); [eapply simplify_uncached; eauto|now injection Ed as <-].
Qed.
Lemma tracked_uncached : forall r L, as_disjoint_union_poly E order true r = Ret L -> Forall uncached L.
Proof.
  intro r. induction r as [p|r IH|r IH|rs IH|rs IH|rs IH] using region_tree_ind; intros L H; cbn [as_disjoint_union_poly] in H; try discriminate.
  - destruct (plabel p); [|discriminate]. injection H as <-. repeat constructor.
  - destruct (mapM (as_disjoint_union_poly E order true) rs) as [ls|] eqn:Em; [|discriminate]. cbn [bind] in H. injection H as <-. apply Forall_concat. apply Forall_forall. intros l Il.
    apply (Proof_Piecewise.mapM_In _ _ _ _ _ _ Em) in Il as (c & Ic & Hc). rewrite Forall_forall in IH. eauto.
  - destruct (mapM (as_disjoint_union_poly E order true) rs) as [ls|] eqn:Em; [|discriminate]. cbn [bind] in H.
    assert (F : Forall (Forall uncached) ls).
    { apply Forall_forall. intros l Il. apply (Proof_Piecewise.mapM_In _ _ _ _ _ _ Em) in Il as (c & Ic & Hc). rewrite Forall_forall in IH. eauto. }
    destruct ls as [|A Bs]; [discriminate|]. apply Forall_cons_iff in F as [FA FB]. eapply rounds_uncached; eauto.
Qed.
End Cached.

Section Split.
Context (E : ext) (OK : ext_ok E) (order : nat -> list nat -> list nat) (OO : forall k l, Permutation (order k l) l).

(** [r] is cut to the domain [dom] correctly. *)
Definition splits (dom r : region) : Prop :=
  exists qs, as_disjoint_union E order false (RInter [dom; r]) = Ret (RDisj (map RPoly qs)) /\ Forall (solid 3) qs /\ clipped dom r (RDisj (map RPoly qs)).
Context (dom : region) (DD : disjoint_form dom) (SD : leaves (solid 3) dom).

Lemma splits_solid : forall r, disjoint_form r -> leaves (solid 3) r -> splits dom r.
Proof.
  intros r DR SR.
  destruct (region_as_disjoint_union E OK order OO 3 false (RInter [dom; r]) ltac:(lia)) as (qs & Eq & Sq & A & B & (H & FH & C) & _); [| |discriminate|].
  { cbn [disjoint_form allP]. split; [discriminate|auto]. }
  { cbn [leaves allP]. auto. }
  exists qs. split; [exact Eq|]. split; [exact Sq|]. split; [|split].
  - intros x Dx. apply A in Dx. cbn [denote allP] in Dx. tauto.
  - intros x L (e & He & N). apply B; [exact L|]. exists e. split; [exact He|]. intros y Hy. cbn [denote allP]. destruct (N y Hy). auto.
  - exists H. split; [exact FH|]. intros x D1 D2. apply C. cbn [denote allP]. auto.
Qed.

Lemma clip_one : forall r, splits dom r ->
  exists b q0 ps s, as_disjoint_union E order false (RInter [dom; r]) = Ret q0 /\ simplify E order q0 = Ret (b, RDisj (map RPoly ps)) /\
    Forall (solid 3) ps /\ region_str None (RDisj (map RPoly ps)) = Ret s /\ clipped dom r (RDisj (map RPoly ps)).
Proof.
  intros r (qs & Eq & Sq & A & B & (H & FH & C)).
  destruct (simplify_union_of_polys_correct E OK order OO 3 qs ltac:(lia) Sq) as (ps & Eps & Sps & U & _).
  assert (U' : forall x, denote (RDisj (map RPoly ps)) x <-> denote (RDisj (map RPoly qs)) x) by exact U.
  pose proof (region_text None (RDisj (map RPoly ps))) as T. cbn [plain_region] in T.
  replace (forallb plain_region (map RPoly ps)) with true in T by (clear; induction ps as [|p ps IH]; [reflexivity|]; cbn [map forallb plain_region andb]; exact IH).
  destruct T as (s & t & Es & _).
  { apply pieces_leaves. eapply Forall_impl; [|exact Sps]. intros p Sp. apply region_default_names. apply Sp. }
  exists true, (RDisj (map RPoly qs)), ps, s. split; [exact Eq|]. split; [cbn [simplify]; rewrite leaf_polys_map, Eps; reflexivity|]. split; [exact Sps|]. split; [exact Es|].
  split; [|split].
  - intros x Dx. apply U' in Dx. now apply A.
  - intros x L I. apply U'. now apply B.
  - exists H. split; [exact FH|]. intros x D1 D2. rewrite U'. now apply C.
Qed.

Definition split_node (h : lnode) : Prop := exists r, region_of h = Ret r /\ splits dom r.
Lemma clip_ok : forall hyps i seen, Forall split_node hyps ->
  exists rs, clip E order dom i seen hyps = Ret rs /\ Forall (labelled i (List.length hyps)) rs /\
    (forall q, In q rs -> exists h r q0, In h hyps /\ region_of h = Ret r /\ clipped dom r q0 /\ forall x, denote q x <-> denote q0 x) /\
    (forall h, In h hyps -> exists r q0 ps s, region_of h = Ret r /\ clipped dom r q0 /\ q0 = RDisj (map RPoly ps) /\ Forall (solid 3) ps /\ region_str None q0 = Ret s /\
       (In s seen \/ exists q, In q rs /\ forall x, denote q x <-> denote q0 x)) /\
    (seen = [] -> hyps <> [] -> rs <> []).
Proof.
  induction hyps as [|h hyps IH]; intros i seen F.
  { exists []. split; [reflexivity|]. split; [constructor|]. split; [intros q []|]. split; [intros h []|]. intros _ N. congruence. }
  apply Forall_cons_iff in F as [(r & Er & SR) F]. cbn [clip]. rewrite Er. cbn [bind].
  destruct (clip_one r SR) as (b & q0 & ps & s & E1 & E2 & Sps & Es & C). rewrite E1. cbn [bind]. rewrite E2. cbn [bind]. rewrite Es. cbn [bind].
  destruct (existsb (str_eqb s) seen) eqn:X.
  - destruct (IH (S i) seen F) as (rs & Ers & L & A & B & N). exists rs. split; [exact Ers|]. split.
    { eapply Forall_impl; [|exact L]. intros q (ps' & l & Q1 & Q2 & Q3 & Q4). exists ps', l. split; [exact Q1|]. split; [exact Q2|]. split; [exact Q3|]. cbn [List.length]. lia. }
    split; [intros q Iq; destruct (A q Iq) as (h' & r' & q' & A1 & A2); exists h', r', q'; split; [now right|exact A2]|]. split.
    + intros g [<-|Ig]; [|exact (B g Ig)]. exists r, (RDisj (map RPoly ps)), ps, s. split; [exact Er|]. split; [exact C|]. split; [reflexivity|]. split; [exact Sps|]. split; [exact Es|]. left.
      apply existsb_exists in X as (s' & Is & Ee). apply str_eqb_true in Ee. now subst.
    + intros -> _. discriminate.
  - destruct (IH (S i) (s :: seen) F) as (rs & Ers & L & A & B & N). rewrite Ers. cbn [bind]. exists (set_label i (RDisj (map RPoly ps)) :: rs). split; [reflexivity|]. split.
    { constructor.
      - rewrite set_label_pieces. eexists _, i. split; [reflexivity|]. split; [apply Forall_map; exact Sps|]. split; [apply Forall_map; apply Forall_forall; reflexivity|]. cbn [List.length]. lia.
      - eapply Forall_impl; [|exact L]. intros q (ps' & l & Q1 & Q2 & Q3 & Q4). exists ps', l. split; [exact Q1|]. split; [exact Q2|]. split; [exact Q3|]. cbn [List.length]. lia. }
    split.
    { intros q [<-|Iq].
      - exists h, r, (RDisj (map RPoly ps)). split; [now left|]. split; [exact Er|]. split; [exact C|]. intro x. apply region_set_label.
      - destruct (A q Iq) as (h' & r' & q' & A1 & A2). exists h', r', q'. split; [now right|exact A2]. }
    split.
    + intros g [<-|Ig].
      * exists r, (RDisj (map RPoly ps)), ps, s. split; [exact Er|]. split; [exact C|]. split; [reflexivity|]. split; [exact Sps|]. split; [exact Es|]. right.
        exists (set_label i (RDisj (map RPoly ps))). split; [now left|]. intro x. apply region_set_label.
      * destruct (B g Ig) as (r' & q' & ps' & s' & B1 & B2 & B3 & B4 & B5 & B6). exists r', q', ps', s'. split; [exact B1|]. split; [exact B2|]. split; [exact B3|]. split; [exact B4|]. split; [exact B5|].
        destruct B6 as [[<-|B6]|(q & Iq & B6)]; [|now left|right; exists q; split; [now right|exact B6]].
        right. exists (set_label i (RDisj (map RPoly ps))). split; [now left|]. intro x. rewrite region_set_label. subst q'.
        assert (K : forall l, Forall (solid 3) l -> leaves (fun p => wf_mat (pmat (body p)) /\ has_dim 3 p) (RDisj (map RPoly l))).
        { intros l Fl. apply pieces_leaves. eapply Forall_impl; [|exact Fl]. intros p Sp. split; apply Sp. }
        exact (region_text_same 3 _ _ s (K ps Sps) (K ps' B4) Es B5 x).
    + discriminate.
Qed.

Definition split_estimates (hs : list lnode) (zeta : bool) : Prop :=
  (forall h r, In h hs -> is_lv h = true -> region_of h = Ret r -> disjoint_form r /\ leaves (solid 3) r) /\
  (zeta = true -> forall h r, In h hs -> is_zlv h = true -> region_of h = Ret r -> splits dom r).

Lemma region_hypotheses_ok : forall hs zeta, split_estimates hs zeta -> nonzero_powers hs -> Forall (fun h => proper_year (r_year (l_ref h))) hs ->
  exists hyps, region_hypotheses hs zeta = Ret hyps /\ (forall g, In g hyps <-> used_estimate hs zeta g) /\
    Forall split_node hyps /\ Forall (fun h => proper_year (r_year (l_ref h))) hyps.
Proof.
  intros hs zeta U NZ Y.
  assert (LV : forall g, In g hs -> is_lv g = true -> exists r rep, l_data g = DLV r rep /\ disjoint_form r /\ leaves (solid 3) r).
  { intros g Ig Pg. unfold is_lv in Pg. destruct (l_data g) as [r rep| | |] eqn:Dg; try discriminate. exists r, rep. split; [reflexivity|].
    apply (proj1 U g r Ig); [unfold is_lv; now rewrite Dg|unfold region_of; now rewrite Dg]. }
  assert (X : exists hyps, lv_and_transformed hs = Ret hyps).
  { unfold lv_and_transformed. destruct (mapM_total _ _ (fun t => mapM (apply_lv_trans t) (filter is_lv hs)) (filter is_lv_trans hs)) as (ts & Et).
    - intros t It. apply mapM_total. intros g Ig. apply filter_In in It as [It Pt]. apply filter_In in Ig as [Ig Pg]. destruct (LV g Ig Pg) as (r & rep & Dg & DF & S3).
      unfold is_lv_trans in Pt. unfold apply_lv_trans. destruct (l_data t) as [|k| |] eqn:Dt; try discriminate.
      destruct (raise_to_power_region k g r rep Dg (solid_sized3 r S3) (NZ t k It Dt)) as (h' & _ & Eh & _). eauto.
    - rewrite Et. cbn [bind]. eauto. }
  destruct X as (hyps & Eh). unfold region_hypotheses. rewrite Eh. cbn [bind]. exists (hyps ++ (if zeta then filter is_zlv hs else [])). split; [reflexivity|].
  pose proof (lv_and_transformed_exact hs hyps Eh) as IH.
  assert (I : forall g, In g (hyps ++ (if zeta then filter is_zlv hs else [])) <-> used_estimate hs zeta g).
  { intro g. rewrite in_app_iff, IH. unfold used_estimate. destruct zeta; [rewrite filter_In; tauto|]. cbn [In]. split; [tauto|]. intros [A|[A|(Z & _)]]; [tauto|tauto|discriminate]. }
  split; [exact I|]. rewrite Forall_forall in Y.
  assert (G : forall g, In g (hyps ++ (if zeta then filter is_zlv hs else [])) -> split_node g /\ proper_year (r_year (l_ref g))).
  { intros g Hg. apply I in Hg as [(Ig & Pg)|[(t & k & h & It & Dt & Ih & Ph & Eg)|(Z & Ig & Pg)]].
    - destruct (LV g Ig Pg) as (r & rep & Dg & DF & S3). split; [|auto]. exists r. unfold region_of. rewrite Dg. split; [reflexivity|now apply splits_solid].
    - destruct (LV h Ih Ph) as (r & rep & Dh & DF & S3). destruct (usable_scaled k h r rep g Dh DF S3 (NZ t k It Dt) Eg) as (r' & Dg & Yg & A & B).
      split; [exists r'; unfold region_of; rewrite Dg; split; [reflexivity|now apply splits_solid]|]. rewrite Yg. auto.
    - split; [|auto]. unfold is_zlv in Pg. destruct (l_data g) as [| |r rep|] eqn:Dg; try discriminate. exists r. assert (R : region_of g = Ret r) by (unfold region_of; now rewrite Dg).
      split; [exact R|]. apply (proj2 U Z g r Ig); [unfold is_zlv; now rewrite Dg|exact R]. }
  split; apply Forall_forall; intros g Hg; apply (G g Hg).
Qed.

Lemma large_value_region_split : forall hs zeta, split_estimates hs zeta -> nonzero_powers hs -> Forall (fun h => proper_year (r_year (l_ref h))) hs ->
  (exists g, used_estimate hs zeta g) ->
  exists h ps, compute_large_value_region E order hs dom zeta = Ret h /\
    l_data h = (if zeta then DZLV (RDisj (map RPoly ps)) None else DLV (RDisj (map RPoly ps)) None) /\
    (forall g, In g (l_deps h) -> used_estimate hs zeta g) /\ Forall (solid 3) ps /\ Forall uncached ps /\ proper_year (r_year (l_ref h)) /\
    (forall x, denote (RDisj (map RPoly ps)) x -> allowed hs zeta dom x) /\
    (forall x, List.length x = 3%nat -> inside (allowed hs zeta dom) x -> denote (RDisj (map RPoly ps)) x) /\
    (exists H, Forall (fun h => List.length h = 4%nat /\ ~ zero_row h) H /\
       forall x, allowed hs zeta dom x -> denote (RDisj (map RPoly ps)) x \/ Exists (fun h => rowval h x == 0) H).
Proof.
  intros hs zeta U NZ Y (g0 & U0).
  destruct (region_hypotheses_ok hs zeta U NZ Y) as (hyps & Eh & I & UN & YH).
  destruct (clip_ok hyps 0 [] UN) as (rs & Ers & L & A & B & N).
  specialize (N eq_refl). assert (NR : rs <> []) by (apply N; intro C; apply I in U0; rewrite C in U0; destruct U0). clear N.
  assert (LF : Forall (fun q => disjoint_form q /\ leaves (solid 3) q /\ leaves (fun p => plabel p <> None) q /\ incl (labels q) (seq 0 (List.length hyps))) rs).
  { eapply Forall_impl; [|exact L]. intros q (ps & l & -> & S3 & PL & Hl). split; [apply pieces_form|]. split; [now apply pieces_leaves|]. split.
    - apply pieces_leaves. eapply Forall_impl; [|exact PL]. intros p ->. discriminate.
    - cbn [labels]. intros k Ik. apply in_flat_map in Ik as (q & Iq & Ik). apply in_map_iff in Iq as (p & <- & Ip). cbn [labels] in Ik. rewrite Forall_forall in PL. rewrite (PL p Ip) in Ik.
      destruct Ik as [<-|[]]. apply in_seq. lia. }
  rewrite Forall_forall in LF.
  destruct (region_as_disjoint_union E OK order OO 3 true (RInter rs) ltac:(lia)) as (ps & Eps & Sps & P1 & P2 & (H & FH & P3) & _ & PD).
  { cbn [disjoint_form]. split; [exact NR|]. apply allP_iff. intros q Iq. apply (LF q Iq). }
  { cbn [leaves]. apply allP_iff. intros q Iq. apply (LF q Iq). }
  { intros _. cbn [leaves]. apply allP_iff. intros q Iq. apply (LF q Iq). }
  specialize (PD eq_refl).
  assert (ED : exists ds, mapM child_dependencies (map RPoly ps) = Ret ds /\ incl (concat ds) (seq 0 (List.length hyps))).
  { assert (IL : incl (labels (RInter rs)) (seq 0 (List.length hyps))).
    { cbn [labels]. intros k Ik. apply in_flat_map in Ik as (q & Iq & Ik). destruct (LF q Iq) as (_ & _ & _ & IL). now apply IL. }
    clear - PD IL. induction PD as [|p ps (d & Ed & Id) PD (ds & Eds & Ids)]; [exists []; split; [reflexivity|intros k []]|].
    exists (d :: ds). cbn [map mapM child_dependencies]. rewrite Ed. cbn [bind]. rewrite Eds. split; [reflexivity|]. cbn [concat]. apply incl_app; [|exact Ids]. eapply incl_tran; eauto. }
  destruct ED as (ds & Eds & Ids).
  assert (EU : exists us, used_hypotheses hyps (RDisj (map RPoly ps)) = Ret us /\ incl us hyps).
  { cbn [used_hypotheses]. rewrite Eds. cbn [bind].
    destruct (mapM_total _ _ (fun d => match nth_error hyps d with Some h => Ret h | None => Raise IndexError end) (nodup Nat.eq_dec (concat ds))) as (us & Eus).
    - intros d Id. apply nodup_In in Id. apply Ids in Id. apply in_seq in Id. destruct (nth_error hyps d) eqn:Ed; [eauto|]. apply nth_error_None in Ed. lia.
    - exists us. split; [exact Eus|]. intros u Iu. apply (Proof_Piecewise.mapM_In _ _ _ _ _ u Eus) in Iu as (d & _ & Ed). destruct (nth_error hyps d) eqn:En; [|discriminate]. injection Ed as <-. now apply nth_error_In in En. }
  destruct EU as (us & Eus & Ius).
  destruct (max_year_correct (map l_ref us)) as (yr & Ey & _).
  { apply Forall_map. apply Forall_forall. intros u Iu. rewrite Forall_forall in YH. auto. }
  (* every point of the result *)
  assert (Q1 : forall x, denote (RInter rs) x -> allowed hs zeta dom x).
  { intros x Dx. cbn [denote] in Dx. rewrite allP_iff in Dx.
    assert (K : forall g r, In g hyps -> region_of g = Ret r -> denote dom x /\ denote r x).
    { intros g r Ig Rg. destruct (B g Ig) as (r' & q0 & _ & _ & B1 & (C & _) & _ & _ & _ & [[]|(q & Iq & Sq)]). rewrite Rg in B1. injection B1 as <-.
      apply C. apply Sq. now apply Dx. }
    split.
    - apply I in U0. rewrite Forall_forall in UN. destruct (UN g0 U0) as (r & Er & _). apply (K g0 r U0 Er).
    - intros g r Ug Rg. apply I in Ug. apply (K g r Ug Rg). }
  assert (Q2 : forall x, List.length x = 3%nat -> inside (allowed hs zeta dom) x -> inside (denote (RInter rs)) x).
  { intros x Lx (e & He & Ne). exists (e * (1 # 2)). split; [lra|]. intros y Hy. cbn [denote]. apply allP_iff. intros q Iq.
    destruct (A q Iq) as (h & r & q0 & Ih & Rh & (_ & C & _) & Sq). apply Sq. apply C; [destruct Hy; lia|]. exists (e * (1 # 2)). split; [lra|]. intros z Hz.
    assert (NZ' : near e x z).
    { destruct Hy as [L1 Hy], Hz as [L2 Hz]. split; [lia|]. intro i. specialize (Hy i). specialize (Hz i). unfold point in *. apply Qabs_Qle_condition in Hy, Hz. apply Qabs_Qle_condition. lra. }
    destruct (Ne z NZ') as [D1 D2]. split; [exact D1|]. apply (D2 h r); [now apply I|exact Rh]. }
  assert (Q3 : exists H', Forall (fun h => List.length h = 4%nat /\ ~ zero_row h) H' /\ forall x, allowed hs zeta dom x -> denote (RInter rs) x \/ Exists (fun h => rowval h x == 0) H').
  { cbn [denote]. clear - A I. induction rs as [|q rs IH]; [exists []; split; [constructor|left; exact Logic.I]|].
    destruct IH as (H' & FH & IH); [intros q' Iq'; apply A; now right|]. destruct (A q (or_introl eq_refl)) as (h & r & q0 & Ih & Rh & (_ & _ & (H0 & F0 & C)) & Sq).
    exists (H0 ++ H'). split; [now apply Forall_app|]. intros x Ax. destruct (IH x Ax) as [D|X]; [|right; apply Exists_app; now right].
    destruct Ax as [D1 D2]. destruct (C x D1 (D2 h r (proj1 (I h) Ih) Rh)) as [D0|X]; [|right; apply Exists_app; now left]. left. cbn [allP]. split; [now apply Sq|exact D]. }
  destruct Q3 as (H' & FH' & Q3).
  assert (EC : exists h, compute_large_value_region E order hs dom zeta = Ret h /\
    l_data h = (if zeta then DZLV (RDisj (map RPoly ps)) None else DLV (RDisj (map RPoly ps)) None) /\ l_deps h = us /\ l_ref h = ref_derived yr).
  { unfold compute_large_value_region. rewrite Eh. cbn [bind]. rewrite Ers. cbn [bind]. rewrite Eps. cbn [bind]. rewrite Eus. cbn [bind].
    destruct zeta; unfold derived_bound_zeta_LV, derived_bound_LV, derived_l; rewrite Ey; cbn [bind]; eexists; (split; [reflexivity|]); auto. }
  destruct EC as (h & Ec & Dh & Hd & Hr). exists h, ps. split; [exact Ec|]. split; [exact Dh|]. split; [intros g Ig; rewrite Hd in Ig; apply I, Ius, Ig|]. split; [exact Sps|].
  split.
  { unfold as_disjoint_union in Eps. destruct (as_disjoint_union_poly E order true (RInter rs)) as [L0|] eqn:E0; [|discriminate]. cbn [bind] in Eps.
    assert (M : map RPoly L0 = map RPoly ps) by congruence. replace ps with L0; [eapply tracked_uncached; eauto|].
    clear - M. revert ps M. induction L0 as [|p L0 IH]; intros [|q ps] M; try discriminate; [reflexivity|]. cbn [map] in M. injection M as -> M. f_equal. now apply IH. }
  split.
  { rewrite Hr. apply (Proof_EnergyDerivation.max_year_proper (map l_ref us)); [|exact Ey]. apply Forall_map. apply Forall_forall. intros u Iu. rewrite Forall_forall in YH. auto. }
  split; [intros x Dx; apply Q1, P1, Dx|]. split; [intros x Lx Ix; apply P2; [exact Lx|apply Q2; auto]|].
  exists (H ++ H'). split; [now apply Forall_app|]. intros x Ax. destruct (Q3 x Ax) as [D|X]; [|right; apply Exists_app; now right].
  destruct (P3 x D) as [D'|X]; [now left|right; apply Exists_app; now left].
Qed.
End Split.
