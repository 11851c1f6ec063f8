(** The region of large values over a domain (C53). *)
From Verif Require Import Base LinAlg Model_Text Model_Reference Spec_Reference Model_Polytope Spec_Polytope Proof_Polytope FM_Ext Model_Region Spec_Region Proof_Region Proof_RegionSolid Prop_Region
  Model_ExponentPair Spec_ExponentPair Spec_BoundMu Prop_BoundMu Model_LargeValues Spec_LargeValues Proof_LargeValues Prop_LargeValues Model_ZetaLargeValues Prop_ZetaLargeValues
  Model_Format Spec_Format Prop_Format Model_AdditiveEnergy Spec_AdditiveEnergy Proof_AdditiveEnergy Prop_Reference Prop_AdditiveEnergy
  Model_LargeValueRegion Spec_LargeValueRegion.
From Verif Require Proof_Piecewise.
From Coq Require Import Permutation.
Open Scope list_scope.

Section Clip.
Context (E : ext) (OK : ext_ok E) (order : nat -> list nat -> list nat) (OO : forall k l, Permutation (order k l) l).
Context (dom : region) (DD : disjoint_form dom) (SD : leaves (solid 3) dom).

(** [q] is the part of [r] over the domain, up to boundaries. *)
Definition clipped (r q : region) : Prop :=
  (forall x, denote q x -> denote dom x /\ denote r x) /\
  (forall x, List.length x = 3%nat -> inside (fun y => denote dom y /\ denote r y) x -> denote q x) /\
  exists H, Forall (fun h => List.length h = 4%nat /\ ~ zero_row h) H /\
    forall x, denote dom x -> denote r x -> denote q x \/ Exists (fun h => rowval h x == 0) H.

Lemma leaf_polys_map : forall ps, leaf_polys (map RPoly ps) = Some ps.
Proof. induction ps as [|p ps IH]; [reflexivity|]. cbn [map leaf_polys]. now rewrite IH. Qed.
Lemma pieces_leaves : forall (P : lpoly -> Prop) ps, leaves P (RDisj (map RPoly ps)) <-> Forall P ps.
Proof. intros P ps. cbn [leaves]. induction ps as [|p ps IH]; [split; [constructor|exact (fun _ => Logic.I)]|]. cbn [map allP leaves]. rewrite Forall_cons_iff, IH. tauto. Qed.
Lemma pieces_form : forall ps, disjoint_form (RDisj (map RPoly ps)).
Proof. intro ps. cbn [disjoint_form]. induction ps as [|p ps IH]; [exact Logic.I|]. cbn [map allP disjoint_form]. auto. Qed.

Lemma clip_one : forall r, disjoint_form r -> leaves (solid 3) r ->
  exists b q0 ps s, as_disjoint_union E order false (RInter [dom; r]) = Ret q0 /\ simplify E order q0 = Ret (b, RDisj (map RPoly ps)) /\
    Forall (solid 3) ps /\ region_str None (RDisj (map RPoly ps)) = Ret s /\ clipped r (RDisj (map RPoly ps)).
Proof.
  intros r DR SR.
  destruct (region_as_disjoint_union E OK order OO 3 false (RInter [dom; r]) ltac:(lia)) as (qs & Eq & Sq & A & B & (H & FH & C) & _); [| |discriminate|].
  { cbn [disjoint_form allP]. split; [discriminate|auto]. }
  { cbn [leaves allP]. auto. }
  destruct (simplify_union_of_polys_correct E OK order OO 3 qs ltac:(lia) Sq) as (ps & Eps & Sps & U & _).
  assert (U' : forall x, denote (RDisj (map RPoly ps)) x <-> denote (RDisj (map RPoly qs)) x) by exact U.
  pose proof (region_text None (RDisj (map RPoly ps))) as T. cbn [plain_region] in T.
  replace (forallb plain_region (map RPoly ps)) with true in T by (clear; induction ps as [|p ps IH]; [reflexivity|]; cbn [map forallb plain_region andb]; exact IH).
  destruct T as (s & t & Es & _).
  { apply pieces_leaves. eapply Forall_impl; [|exact Sps]. intros p Sp. apply region_default_names. apply Sp. }
  exists true, (RDisj (map RPoly qs)), ps, s. split; [exact Eq|]. split; [cbn [simplify]; rewrite leaf_polys_map, Eps; reflexivity|]. split; [exact Sps|]. split; [exact Es|].
  split; [|split].
  - intros x Dx. apply U' in Dx. apply A in Dx. cbn [denote allP] in Dx. tauto.
  - intros x L (e & He & N). apply U', B; [exact L|]. exists e. split; [exact He|]. intros y Hy. cbn [denote allP]. destruct (N y Hy). auto.
  - exists H. split; [exact FH|]. intros x D1 D2. rewrite U'. apply C. cbn [denote allP]. auto.
Qed.

Definition usable_node (h : lnode) : Prop := exists r, region_of h = Ret r /\ disjoint_form r /\ leaves (solid 3) r.
Definition labelled (i n : nat) (q : region) : Prop :=
  exists ps l, q = RDisj (map RPoly ps) /\ Forall (solid 3) ps /\ Forall (fun p => plabel p = Some l) ps /\ (i <= l < i + n)%nat.

Lemma set_label_pieces : forall l ps, set_label l (RDisj (map RPoly ps)) = RDisj (map RPoly (map (fun p => mkLPoly (body p) (Some l) (deps p)) ps)).
Proof. intros l ps. cbn [set_label]. f_equal. rewrite !map_map. reflexivity. Qed.

Lemma clip_ok : forall hyps i seen, Forall usable_node hyps ->
  exists rs, clip E order dom i seen hyps = Ret rs /\ Forall (labelled i (List.length hyps)) rs /\
    (forall q, In q rs -> exists h r q0, In h hyps /\ region_of h = Ret r /\ clipped r q0 /\ forall x, denote q x <-> denote q0 x) /\
    (forall h, In h hyps -> exists r q0 ps s, region_of h = Ret r /\ clipped r q0 /\ q0 = RDisj (map RPoly ps) /\ Forall (solid 3) ps /\ region_str None q0 = Ret s /\
       (In s seen \/ exists q, In q rs /\ forall x, denote q x <-> denote q0 x)) /\
    (seen = [] -> hyps <> [] -> rs <> []).
Proof.
  induction hyps as [|h hyps IH]; intros i seen F.
  { exists []. split; [reflexivity|]. split; [constructor|]. split; [intros q []|]. split; [intros h []|]. intros _ N. congruence. }
  apply Forall_cons_iff in F as [(r & Er & DR & SR) F]. cbn [clip]. rewrite Er. cbn [bind].
  destruct (clip_one r DR SR) as (b & q0 & ps & s & E1 & E2 & Sps & Es & C). rewrite E1. cbn [bind]. rewrite E2. cbn [bind]. rewrite Es. cbn [bind].
  destruct (existsb (str_eqb s) seen) eqn:X.
  - destruct (IH (S i) seen F) as (rs & Ers & L & A & B & N). exists rs. split; [exact Ers|]. split.
    { eapply Forall_impl; [|exact L]. intros q (ps' & l & Q1 & Q2 & Q3 & Q4). exists ps', l. split; [exact Q1|]. split; [exact Q2|]. split; [exact Q3|]. cbn [List.length]. lia. }
    split; [intros q Iq; destruct (A q Iq) as (h' & r' & q' & A1 & A2); exists h', r', q'; split; [now right|exact A2]|]. split.
    + intros g [<-|Ig]; [|exact (B g Ig)]. exists r, (RDisj (map RPoly ps)), ps, s. split; [exact Er|]. split; [exact C|]. split; [reflexivity|]. split; [exact Sps|]. split; [exact Es|]. left.
      apply existsb_exists in X as (s' & Is & Ee). apply str_eqb_true in Ee. now subst.
    + intros -> _. discriminate.
  - destruct (IH (S i) (s :: seen) F) as (rs & Ers & L & A & B & N). rewrite Ers. cbn [bind]. exists (set_label i (RDisj (map RPoly ps)) :: rs). split; [reflexivity|]. split.
    { constructor.
      - rewrite set_label_pieces. eexists _, i. split; [reflexivity|]. split; [apply Forall_map; exact Sps|]. split; [apply Forall_map; apply Forall_forall; reflexivity|]. cbn [List.length]. lia.
      - eapply Forall_impl; [|exact L]. intros q (ps' & l & Q1 & Q2 & Q3 & Q4). exists ps', l. split; [exact Q1|]. split; [exact Q2|]. split; [exact Q3|]. cbn [List.length]. lia. }
    split.
    { intros q [<-|Iq].
      - exists h, r, (RDisj (map RPoly ps)). split; [now left|]. split; [exact Er|]. split; [exact C|]. intro x. apply region_set_label.
      - destruct (A q Iq) as (h' & r' & q' & A1 & A2). exists h', r', q'. split; [now right|exact A2]. }
    split.
    + intros g [<-|Ig].
      * exists r, (RDisj (map RPoly ps)), ps, s. split; [exact Er|]. split; [exact C|]. split; [reflexivity|]. split; [exact Sps|]. split; [exact Es|]. right.
        exists (set_label i (RDisj (map RPoly ps))). split; [now left|]. intro x. apply region_set_label.
      * destruct (B g Ig) as (r' & q' & ps' & s' & B1 & B2 & B3 & B4 & B5 & B6). exists r', q', ps', s'. split; [exact B1|]. split; [exact B2|]. split; [exact B3|]. split; [exact B4|]. split; [exact B5|].
        destruct B6 as [[<-|B6]|(q & Iq & B6)]; [|now left|right; exists q; split; [now right|exact B6]].
        right. exists (set_label i (RDisj (map RPoly ps))). split; [now left|]. intro x. rewrite region_set_label. subst q'.
        assert (K : forall l, Forall (solid 3) l -> leaves (fun p => wf_mat (pmat (body p)) /\ has_dim 3 p) (RDisj (map RPoly l))).
        { intros l Fl. apply pieces_leaves. eapply Forall_impl; [|exact Fl]. intros p Sp. split; apply Sp. }
        exact (region_text_same 3 _ _ s (K ps Sps) (K ps' B4) Es B5 x).
    + discriminate.
Qed.
End Clip.

Lemma usable_scaled : forall k h r rep g, l_data h = DLV r rep -> disjoint_form r -> leaves (solid 3) r -> ~ k == 0 -> raise_to_power k h = Ret g ->
  exists r', l_data g = DLV r' None /\ r_year (l_ref g) = r_year (l_ref h) /\ disjoint_form r' /\ leaves (solid 3) r'.
Proof.
  intros k h r rep g D DF S3 K Eg. assert (NZ : Forall (fun f => ~ f == 0) [1; k; k]) by (repeat constructor; auto; lra).
  destruct (rscale_solid 3 [1; k; k] r ltac:(lia) eq_refl S3 NZ) as (q & Eq & Sq & _). unfold raise_to_power, region_of in Eg. rewrite D in Eg. cbn [bind] in Eg. rewrite Eq in Eg. cbn [bind] in Eg.
  unfold derived_bound_LV in Eg. rewrite derived_l_one in Eg. injection Eg as <-. exists q. split; [reflexivity|]. split; [reflexivity|]. split; [|exact Sq].
  rewrite rscale_all_rmap in Eq. exact (rmap_disjoint_form _ _ _ Eq DF).
Qed.
Lemma solid_sized3 : forall r, leaves (solid 3) r -> sized 3 r.
Proof. intro r. apply leaves_mono. intros p Sp. split; [apply Sp|]. split; [exact (solid_rows 3 p ltac:(lia) Sp)|apply Sp]. Qed.

Lemma region_hypotheses_ok : forall hs zeta, usable_estimates hs zeta -> nonzero_powers hs -> Forall (fun h => proper_year (r_year (l_ref h))) hs ->
  exists hyps, region_hypotheses hs zeta = Ret hyps /\ (forall g, In g hyps <-> used_estimate hs zeta g) /\
    Forall usable_node hyps /\ Forall (fun h => proper_year (r_year (l_ref h))) hyps.
Proof.
  intros hs zeta U NZ Y.
  assert (LV : forall g, In g hs -> is_lv g = true -> exists r rep, l_data g = DLV r rep /\ disjoint_form r /\ leaves (solid 3) r).
  { intros g Ig Pg. unfold is_lv in Pg. destruct (l_data g) as [r rep| | |] eqn:Dg; try discriminate. exists r, rep. split; [reflexivity|].
    apply (U g r Ig); [left; unfold is_lv; now rewrite Dg|unfold region_of; now rewrite Dg]. }
  assert (X : exists hyps, lv_and_transformed hs = Ret hyps).
  { unfold lv_and_transformed. destruct (mapM_total _ _ (fun t => mapM (apply_lv_trans t) (filter is_lv hs)) (filter is_lv_trans hs)) as (ts & Et).
    - intros t It. apply mapM_total. intros g Ig. apply filter_In in It as [It Pt]. apply filter_In in Ig as [Ig Pg]. destruct (LV g Ig Pg) as (r & rep & Dg & DF & S3).
      unfold is_lv_trans in Pt. unfold apply_lv_trans. destruct (l_data t) as [|k| |] eqn:Dt; try discriminate.
      destruct (raise_to_power_region k g r rep Dg (solid_sized3 r S3) (NZ t k It Dt)) as (h' & _ & Eh & _). eauto.
    - rewrite Et. cbn [bind]. eauto. }
  destruct X as (hyps & Eh). unfold region_hypotheses. rewrite Eh. cbn [bind]. exists (hyps ++ (if zeta then filter is_zlv hs else [])). split; [reflexivity|].
  pose proof (lv_and_transformed_exact hs hyps Eh) as IH.
  assert (I : forall g, In g (hyps ++ (if zeta then filter is_zlv hs else [])) <-> used_estimate hs zeta g).
  { intro g. rewrite in_app_iff, IH. unfold used_estimate. destruct zeta; [rewrite filter_In; tauto|]. cbn [In]. split; [tauto|]. intros [A|[A|(Z & _)]]; [tauto|tauto|discriminate]. }
  split; [exact I|]. rewrite Forall_forall in Y.
  assert (G : forall g, In g (hyps ++ (if zeta then filter is_zlv hs else [])) -> usable_node g /\ proper_year (r_year (l_ref g))).
  { intros g Hg. apply I in Hg as [(Ig & Pg)|[(t & k & h & It & Dt & Ih & Ph & Eg)|(Z & Ig & Pg)]].
    - destruct (LV g Ig Pg) as (r & rep & Dg & DF & S3). split; [|auto]. exists r. unfold region_of. rewrite Dg. auto.
    - destruct (LV h Ih Ph) as (r & rep & Dh & DF & S3). destruct (usable_scaled k h r rep g Dh DF S3 (NZ t k It Dt) Eg) as (r' & Dg & Yg & A & B).
      split; [exists r'; unfold region_of; rewrite Dg; auto|]. rewrite Yg. auto.
    - split; [|auto]. unfold is_zlv in Pg. destruct (l_data g) as [| |r rep|] eqn:Dg; try discriminate. exists r. assert (R : region_of g = Ret r) by (unfold region_of; now rewrite Dg).
      split; [exact R|]. apply (U g r Ig); [right; split; [exact Z|unfold is_zlv; now rewrite Dg]|exact R]. }
  split; apply Forall_forall; intros g Hg; apply (G g Hg).
Qed.

(** The result is the part of the domain that no estimate excludes, up to
    boundaries; the recorded dependencies are among the estimates used. *)
Theorem large_value_region_exact : forall E, ext_ok E -> forall order, (forall k l, Permutation (order k l) l) ->
  forall hs dom zeta, usable_estimates hs zeta -> nonzero_powers hs -> Forall (fun h => proper_year (r_year (l_ref h))) hs ->
  (exists g, used_estimate hs zeta g) -> disjoint_form dom -> leaves (solid 3) dom ->
  exists h ps, compute_large_value_region E order hs dom zeta = Ret h /\
    l_data h = (if zeta then DZLV (RDisj (map RPoly ps)) None else DLV (RDisj (map RPoly ps)) None) /\
    (forall g, In g (l_deps h) -> used_estimate hs zeta g) /\ Forall (solid 3) ps /\
    (forall x, denote (RDisj (map RPoly ps)) x -> allowed hs zeta dom x) /\
    (forall x, List.length x = 3%nat -> inside (allowed hs zeta dom) x -> denote (RDisj (map RPoly ps)) x) /\
    (exists H, Forall (fun h => List.length h = 4%nat /\ ~ zero_row h) H /\
       forall x, allowed hs zeta dom x -> denote (RDisj (map RPoly ps)) x \/ Exists (fun h => rowval h x == 0) H).
Proof.
  intros E OK order OO hs dom zeta U NZ Y (g0 & U0) DD SD.
  destruct (region_hypotheses_ok hs zeta U NZ Y) as (hyps & Eh & I & UN & YH).
  destruct (clip_ok E OK order OO dom DD SD hyps 0 [] UN) as (rs & Ers & L & A & B & N).
  specialize (N eq_refl). assert (NR : rs <> []) by (apply N; intro C; apply I in U0; rewrite C in U0; destruct U0). clear N.
  assert (LF : Forall (fun q => disjoint_form q /\ leaves (solid 3) q /\ leaves (fun p => plabel p <> None) q /\ incl (labels q) (seq 0 (List.length hyps))) rs).
  { eapply Forall_impl; [|exact L]. intros q (ps & l & -> & S3 & PL & Hl). split; [apply pieces_form|]. split; [now apply pieces_leaves|]. split.
    - apply pieces_leaves. eapply Forall_impl; [|exact PL]. intros p ->. discriminate.
    - cbn [labels]. intros k Ik. apply in_flat_map in Ik as (q & Iq & Ik). apply in_map_iff in Iq as (p & <- & Ip). cbn [labels] in Ik. rewrite Forall_forall in PL. rewrite (PL p Ip) in Ik.
      destruct Ik as [<-|[]]. apply in_seq. lia. }
  rewrite Forall_forall in LF.
  destruct (region_as_disjoint_union E OK order OO 3 true (RInter rs) ltac:(lia)) as (ps & Eps & Sps & P1 & P2 & (H & FH & P3) & _ & PD).
  { cbn [disjoint_form]. split; [exact NR|]. apply allP_iff. intros q Iq. apply (LF q Iq). }
  { cbn [leaves]. apply allP_iff. intros q Iq. apply (LF q Iq). }
  { intros _. cbn [leaves]. apply allP_iff. intros q Iq. apply (LF q Iq). }
  specialize (PD eq_refl).
  assert (ED : exists ds, mapM child_dependencies (map RPoly ps) = Ret ds /\ incl (concat ds) (seq 0 (List.length hyps))).
  { assert (IL : incl (labels (RInter rs)) (seq 0 (List.length hyps))).
    { cbn [labels]. intros k Ik. apply in_flat_map in Ik as (q & Iq & Ik). destruct (LF q Iq) as (_ & _ & _ & IL). now apply IL. }
    clear - PD IL. induction PD as [|p ps (d & Ed & Id) PD (ds & Eds & Ids)]; [exists []; split; [reflexivity|intros k []]|].
    exists (d :: ds). cbn [map mapM child_dependencies]. rewrite Ed. cbn [bind]. rewrite Eds. split; [reflexivity|]. cbn [concat]. apply incl_app; [|exact Ids]. eapply incl_tran; eauto. }
  destruct ED as (ds & Eds & Ids).
  assert (EU : exists us, used_hypotheses hyps (RDisj (map RPoly ps)) = Ret us /\ incl us hyps).
  { cbn [used_hypotheses]. rewrite Eds. cbn [bind].
    destruct (mapM_total _ _ (fun d => match nth_error hyps d with Some h => Ret h | None => Raise IndexError end) (nodup Nat.eq_dec (concat ds))) as (us & Eus).
    - intros d Id. apply nodup_In in Id. apply Ids in Id. apply in_seq in Id. destruct (nth_error hyps d) eqn:Ed; [eauto|]. apply nth_error_None in Ed. lia.
    - exists us. split; [exact Eus|]. intros u Iu. apply (Proof_Piecewise.mapM_In _ _ _ _ _ u Eus) in Iu as (d & _ & Ed). destruct (nth_error hyps d) eqn:En; [|discriminate]. injection Ed as <-. now apply nth_error_In in En. }
  destruct EU as (us & Eus & Ius).
  destruct (max_year_correct (map l_ref us)) as (yr & Ey & _).
  { apply Forall_map. apply Forall_forall. intros u Iu. rewrite Forall_forall in YH. auto. }
  (* every point of the result *)
  assert (Q1 : forall x, denote (RInter rs) x -> allowed hs zeta dom x).
  { intros x Dx. cbn [denote] in Dx. rewrite allP_iff in Dx.
    assert (K : forall g r, In g hyps -> region_of g = Ret r -> denote dom x /\ denote r x).
    { intros g r Ig Rg. destruct (B g Ig) as (r' & q0 & _ & _ & B1 & (C & _) & _ & _ & _ & [[]|(q & Iq & Sq)]). rewrite Rg in B1. injection B1 as <-.
      apply C. apply Sq. now apply Dx. }
    split.
    - apply I in U0. rewrite Forall_forall in UN. destruct (UN g0 U0) as (r & Er & _). apply (K g0 r U0 Er).
    - intros g r Ug Rg. apply I in Ug. apply (K g r Ug Rg). }
  assert (Q2 : forall x, List.length x = 3%nat -> inside (allowed hs zeta dom) x -> inside (denote (RInter rs)) x).
  { intros x Lx (e & He & Ne). exists (e * (1 # 2)). split; [lra|]. intros y Hy. cbn [denote]. apply allP_iff. intros q Iq.
    destruct (A q Iq) as (h & r & q0 & Ih & Rh & (_ & C & _) & Sq). apply Sq. apply C; [destruct Hy; lia|]. exists (e * (1 # 2)). split; [lra|]. intros z Hz.
    assert (NZ' : near e x z).
    { destruct Hy as [L1 Hy], Hz as [L2 Hz]. split; [lia|]. intro i. specialize (Hy i). specialize (Hz i). unfold point in *. apply Qabs_Qle_condition in Hy, Hz. apply Qabs_Qle_condition. lra. }
    destruct (Ne z NZ') as [D1 D2]. split; [exact D1|]. apply (D2 h r); [now apply I|exact Rh]. }
  assert (Q3 : exists H', Forall (fun h => List.length h = 4%nat /\ ~ zero_row h) H' /\ forall x, allowed hs zeta dom x -> denote (RInter rs) x \/ Exists (fun h => rowval h x == 0) H').
  { cbn [denote]. clear - A I. induction rs as [|q rs IH]; [exists []; split; [constructor|left; exact Logic.I]|].
    destruct IH as (H' & FH & IH); [intros q' Iq'; apply A; now right|]. destruct (A q (or_introl eq_refl)) as (h & r & q0 & Ih & Rh & (_ & _ & (H0 & F0 & C)) & Sq).
    exists (H0 ++ H'). split; [now apply Forall_app|]. intros x Ax. destruct (IH x Ax) as [D|X]; [|right; apply Exists_app; now right].
    destruct Ax as [D1 D2]. destruct (C x D1 (D2 h r (proj1 (I h) Ih) Rh)) as [D0|X]; [|right; apply Exists_app; now left]. left. cbn [allP]. split; [now apply Sq|exact D]. }
  destruct Q3 as (H' & FH' & Q3).
  assert (EC : exists h, compute_large_value_region E order hs dom zeta = Ret h /\
    l_data h = (if zeta then DZLV (RDisj (map RPoly ps)) None else DLV (RDisj (map RPoly ps)) None) /\ l_deps h = us).
  { unfold compute_large_value_region. rewrite Eh. cbn [bind]. rewrite Ers. cbn [bind]. rewrite Eps. cbn [bind]. rewrite Eus. cbn [bind].
    destruct zeta; unfold derived_bound_zeta_LV, derived_bound_LV, derived_l; rewrite Ey; cbn [bind]; eexists; (split; [reflexivity|]); auto. }
  destruct EC as (h & Ec & Dh & Hd). exists h, ps. split; [exact Ec|]. split; [exact Dh|]. split; [intros g Ig; rewrite Hd in Ig; apply I, Ius, Ig|]. split; [exact Sps|].
  split; [intros x Dx; apply Q1, P1, Dx|]. split; [intros x Lx Ix; apply P2; [exact Lx|apply Q2; auto]|].
  exists (H ++ H'). split; [now apply Forall_app|]. intros x Ax. destruct (Q3 x Ax) as [D|X]; [|right; apply Exists_app; now right].
  destruct (P3 x D) as [D'|X]; [now left|right; apply Exists_app; now left].
Qed.
Print Assumptions large_value_region_exact.

(** Where the estimates come from: a maximum of linear bounds is usable when each
    of the bounds is the first to allow something. *)
Lemma halfplane_solid : forall E, ext_ok E -> forall n box, (1 <= n)%nat -> Forall (fun r => List.length r = S n) box -> (exists r, In r box /\ ~ zero_row r) ->
  (exists B, forall x, List.length x = n -> Forall (fun r => 0 <= rowval r x) box -> forall i, Qabs (nth i x 0) <= B) ->
  forall hps neg, Forall (fun r => List.length r = S n /\ ~ zero_row r) hps -> Forall (fun r => List.length r = S n) neg ->
  (forall pre h post, hps = pre ++ h :: post -> exists x, List.length x = n /\ Forall (fun r => 0 < rowval r x) box /\ 0 < rowval h x /\
     Forall (fun r => 0 < rowval r x) neg /\ Forall (fun r => rowval r x < 0) pre) ->
  forall qs, halfplane_polys E box neg hps = Ret qs -> Forall (fun q => exists p, q = RPoly p /\ solid n p) qs.
Proof.
  intros E OK n box N LB NZ BB. induction hps as [|h hps IH]; intros neg FH FN X qs Eq; cbn [halfplane_polys] in Eq; [injection Eq as <-; constructor|].
  apply Forall_cons_iff in FH as [[Lh Zh] FH].
  assert (LR : Forall (fun r => List.length r = S n) (box ++ [h] ++ neg)) by (rewrite !Forall_app; split; [auto|]; split; [repeat constructor; auto|auto]).
  destruct (Polytope_ok E OK (box ++ [h] ++ neg) false true (S n)) as (p & Ep & Gp & Np & _ & Mp); [lia|exact LR| |].
  { destruct NZ as (r & Hr & Zr). exists r. split; [apply in_or_app; auto|auto]. }
  rewrite Ep in Eq. cbn [bind] in Eq. destruct (halfplane_polys E box (neg ++ [vopp h]) hps) as [ps|] eqn:Eps; [|discriminate]. cbn [bind] in Eq. injection Eq as <-.
  assert (MP : forall x, member p x <-> List.length x = n /\ Forall (fun r => 0 <= rowval r x) (box ++ [h] ++ neg)).
  { intro x. rewrite Mp. split; intros [A B]; (split; [lia|exact B]). }
  constructor.
  - exists (plain p). split; [reflexivity|]. split; [exact Gp|]. split; [|split; [exact Np|]].
    + destruct BB as (B & BB). exists B. intros x i M. apply MP in M as [L F]. rewrite Forall_app in F. apply BB; tauto.
    + intros _. destruct (X [] h hps eq_refl) as (x & Lx & A1 & A2 & A3 & _). exists x. apply (rows_interior n (box ++ [h] ++ neg)); auto.
      * rewrite !Forall_app. split; [exact A1|]. split; [repeat constructor; exact A2|exact A3].
      * intros y Ly F. apply MP. auto.
  - apply (IH (neg ++ [vopp h])); auto.
    + rewrite Forall_app. split; [auto|]. repeat constructor. now rewrite vopp_length.
    + intros pre g post ->. destruct (X (h :: pre) g post eq_refl) as (x & Lx & A1 & A2 & A3 & A4). apply Forall_cons_iff in A4 as [A4 A5].
      exists x. split; [exact Lx|]. split; [exact A1|]. split; [exact A2|]. split; [|exact A5]. rewrite Forall_app. split; [exact A3|]. repeat constructor. rewrite rowval_vopp. lra.
Qed.

Lemma rowval4 : forall a b c d s t u, rowval [a; b; c; d] [s; t; u] == a + b * s + c * t + d * u.
Proof. intros. unfold rowval. cbn. lra. Qed.
Lemma bound_row : forall b s t u, List.length b = 3%nat -> rowval (b ++ [-1]) [s; t; u] == bound_at b s t - u.
Proof. intros b s t u L. destruct b as [|x [|y [|z [|]]]]; try discriminate. cbn [app]. rewrite rowval4. unfold bound_at. cbn [nth]. lra. Qed.

Theorem convert_bounds_usable : forall E, ext_ok E -> forall bounds, bounds <> [] -> Forall (fun b => List.length b = 3%nat) bounds -> each_needed bounds ->
  exists r rep, convert_bounds E bounds = Ret (DLV r rep) /\ disjoint_form r /\ leaves (solid 3) r /\
    forall s t u, denote r [s; t; u] <-> in_range s t u /\ Exists (fun b => u <= bound_at b s t) bounds.
Proof.
  intros E OK bounds NE F EN. destruct (convert_bounds_ok E OK bounds NE F) as (ps & rep & Ec & _ & _ & _ & X & _).
  exists (RDisj (map (fun p => RPoly (plain p)) ps)), (Some rep). split; [exact Ec|]. split.
  { cbn [disjoint_form]. apply allP_iff. intros q Iq. apply in_map_iff in Iq as (p & <- & _). exact Logic.I. }
  split.
  - unfold convert_bounds, from_union_of_halfplanes in Ec. destruct (halfplane_polys E lv_box [] (map (fun b => b ++ [-1]) bounds)) as [qs|] eqn:Eq; [|discriminate]. cbn [bind] in Ec.
    assert (FH : Forall (fun q => exists p, q = RPoly p /\ solid 3 p) qs).
    { apply (halfplane_solid E OK 3 lv_box ltac:(lia)) with (hps := map (fun b => b ++ [-1]) bounds) (neg := []).
      - repeat constructor.
      - exists [1; -1; 0; 0]. split; [right; left; reflexivity|]. intro Z. inversion Z; lra.
      - exists LV_DEFAULT_UPPER_BOUND. intros x Lx B i. destruct x as [|s [|t [|u [|]]]]; try discriminate. unfold lv_box in B. rewrite !Forall_cons_iff, !rowval4 in B.
        unfold TAU_UPPER_LIMIT, LV_DEFAULT_UPPER_BOUND in *. destruct i as [|[|[|i]]]; cbn [nth]; try (destruct i; cbn [nth]); apply Qabs_Qle_condition; lra.
      - apply Forall_map. eapply Forall_impl; [|exact F]. cbv beta. intros b L. split; [rewrite app_length, L; reflexivity|].
        intro Z. unfold zero_row in Z. rewrite Forall_forall in Z. destruct b as [|x [|y [|z [|]]]]; try discriminate. specialize (Z (-1) ltac:(cbn; auto)). lra.
      - constructor.
      - intros pre h post Em. apply map_eq_app in Em as (pre' & l & -> & <- & El). apply map_eq_cons in El as (b & post' & -> & <- & <-).
        destruct (EN pre' b post' eq_refl) as (s & t & u & (A1 & A2 & A3 & A4 & A5 & A6) & Hb & Hp). rewrite Forall_app, Forall_cons_iff in F. destruct F as (F1 & F2 & _).
        exists [s; t; u]. split; [reflexivity|]. split; [|split; [|split; [constructor|]]].
        + unfold lv_box. repeat (constructor; [rewrite rowval4; lra|]). constructor.
        + rewrite bound_row by auto. lra.
        + apply Forall_map. rewrite Forall_forall in *. intros a Ia. rewrite bound_row by auto. specialize (Hp a Ia). lra.
      - exact Eq. }
    destruct (lv_repr bounds) as [rp|] eqn:Er; [|discriminate]. cbn [bind] in Ec. injection Ec as Ec _. cbn [leaves]. apply allP_iff. intros q Iq. rewrite <- Ec in Iq.
    rewrite Forall_forall in FH. destruct (FH q Iq) as (p & -> & Sp). exact Sp.
  - intros s t u. rewrite X. split; [intros (s' & t' & u' & Eq & R & Ex); injection Eq as <- <- <-; auto|intros [R Ex]; exists s, t, u; auto].
Qed.
Print Assumptions convert_bounds_usable.

(** If the hypotheses are true then no large values over the domain lie outside
    the result, apart from finitely many planes. *)
Theorem large_value_region_true : forall tr btr W, lv_admissible W -> forall E, ext_ok E -> forall order, (forall k l, Permutation (order k l) l) ->
  forall hs dom zeta, usable_estimates hs zeta -> nonzero_powers hs -> Forall (fun h => proper_year (r_year (l_ref h))) hs ->
  (exists g, used_estimate hs zeta g) -> disjoint_form dom -> leaves (solid 3) dom -> Forall (lholds tr btr W) hs ->
  exists h r, compute_large_value_region E order hs dom zeta = Ret h /\ region_of h = Ret r /\
    (forall s t u, inside (fun y => exists s' t' u', y = [s'; t'; u'] /\ denote dom y /\ occurs W zeta s' t' u') [s; t; u] -> denote r [s; t; u]) /\
    exists H, Forall (fun h => List.length h = 4%nat /\ ~ zero_row h) H /\
      forall s t u, denote dom [s; t; u] -> occurs W zeta s t u -> denote r [s; t; u] \/ Exists (fun h => rowval h [s; t; u] == 0) H.
Proof.
  intros tr btr W Ad E OK order OO hs dom zeta U NZ Y Ex DD SD T.
  destruct (large_value_region_exact E OK order OO hs dom zeta U NZ Y Ex DD SD) as (h & ps & Eh & Dh & _ & _ & _ & P2 & (H & FH & P3)).
  assert (A : forall s t u, denote dom [s; t; u] -> occurs W zeta s t u -> allowed hs zeta dom [s; t; u]).
  { intros s t u Dx (R & O). split; [exact Dx|]. rewrite Forall_forall in T.
    assert (L : lv W s t u). { destruct zeta; [|exact O]. destruct O as [T2 O]. destruct R as (R1 & R2 & _). now apply (zlv_lv W Ad). }
    intros g r Ug Rg. destruct Ug as [(Ig & Pg)|[(x & k & g' & Ix & Dk & Ig & Pg & Eg)|(Z & Ig & Pg)]].
    - specialize (T g Ig). unfold lholds in T. unfold is_lv, region_of in *. destruct (l_data g); try discriminate. injection Rg as ->. now apply T.
    - pose proof (T g' Ig) as Tg. pose proof (T x Ix) as Tx. unfold lholds in Tx. rewrite Dk in Tx. unfold lholds in Tg. unfold is_lv in Pg. destruct (l_data g') as [r' rep'| | |] eqn:Dg; try discriminate.
      assert (S3 : leaves (solid 3) r'). { apply (U g' r' Ig); [left; unfold is_lv; now rewrite Dg|unfold region_of; now rewrite Dg]. }
      destruct (Tx g' g r' rep' Dg (solid_sized3 r' S3) Tg Eg) as (r2 & rep2 & D2 & T2). unfold region_of in Rg. rewrite D2 in Rg. injection Rg as <-. now apply T2.
    - specialize (T g Ig). unfold lholds in T. unfold is_zlv, region_of in *. rewrite Z in O. destruct O as [T2 O]. destruct (l_data g); try discriminate. injection Rg as ->. now apply T. }
  exists h, (RDisj (map RPoly ps)). split; [exact Eh|]. split; [unfold region_of; rewrite Dh; now destruct zeta|]. split.
  - intros s t u (e & He & I). apply P2; [reflexivity|]. exists e. split; [exact He|]. intros y Hy. destruct (I y Hy) as (s' & t' & u' & -> & D & O). now apply A.
  - exists H. split; [exact FH|]. intros s t u D O. apply P3. now apply A.
Qed.
Print Assumptions large_value_region_true.

(** Without a large value estimate there is no answer. *)
Theorem large_value_region_none : forall E order hs dom zeta, (forall h, In h hs -> is_lv h = false) -> (zeta = true -> forall h, In h hs -> is_zlv h = false) ->
  compute_large_value_region E order hs dom zeta = Raise IndexError.
Proof.
  intros E order hs dom zeta A B.
  assert (F : forall f l, (forall h, In h l -> f h = false) -> @filter lnode f l = []).
  { intros f l. induction l as [|h l IH]; intro X; [reflexivity|]. cbn [filter]. rewrite X by now left. apply IH. intros g Ig. apply X. now right. }
  unfold compute_large_value_region, region_hypotheses, lv_and_transformed. rewrite (F is_lv hs A).
  assert (M : mapM (fun t => mapM (apply_lv_trans t) []) (filter is_lv_trans hs) = Ret (map (fun _ => []) (filter is_lv_trans hs))).
  { generalize (filter is_lv_trans hs). intro l. induction l as [|t l IH]; [reflexivity|]. cbn [mapM map] in *. cbn [bind]. rewrite IH. reflexivity. }
  rewrite M. cbn [bind]. assert (C : concat (map (fun _ : lnode => @nil lnode) (filter is_lv_trans hs)) = []) by (generalize (filter is_lv_trans hs) as l; intro l; induction l as [|t l IH]; [reflexivity|exact IH]).
  rewrite C. destruct zeta; [rewrite (F is_zlv hs (B eq_refl))|]; reflexivity.
Qed.
Print Assumptions large_value_region_none.

(** A concrete case: the mean value estimate and Montgomery's conjecture for
    tau at most 2. *)
Definition near_two : region := RPoly (plain (mkPoly (mkMat (map (fun r => (r, false))
  [[-(1#2); 1; 0; 0]; [1; -1; 0; 0]; [0; 0; 1; 0]; [2; 0; -1; 0]; [0; 0; 0; 1]; [10; 0; 0; -1]]) 4) false None)).
Lemma near_two_iff : forall s t u, denote near_two [s; t; u] <-> 1#2 <= s /\ s <= 1 /\ 0 <= t /\ t <= 2 /\ 0 <= u /\ u <= 10.
Proof.
  intros. unfold near_two. cbn [denote plain body]. unfold member, mmember. cbn [pmat ncol mrows map]. rewrite !Forall_cons_iff. unfold Spec_Polytope.holds. cbn [fst snd]. rewrite !rowval4.
  split; [intros (_ & H); decompose [and] H; repeat split; lra|]. intros H. split; [reflexivity|]. repeat split; try lra. constructor.
Qed.
Lemma near_two_solid : leaves (solid 3) near_two.
Proof.
  unfold near_two. cbn [leaves]. split; [|split; [|split; [reflexivity|]]].
  - split; [split; [cbn; lia|repeat constructor]|]. split; [|split; [discriminate|exact Logic.I]]. unfold no_zero_rows. cbn [body plain pmat mrows map].
    repeat (constructor; [cbn [fst]; intro Z; repeat match goal with H : zero_row (_ :: _) |- _ => inversion H; clear H; subst | H : Forall _ (_ :: _) |- _ => inversion H; clear H; subst end; lra|]). constructor.
  - exists 10. intros x i M. assert (L : List.length x = 3%nat) by (destruct M as [L _]; cbn in L; lia). destruct x as [|s [|t [|u [|]]]]; try discriminate. apply near_two_iff in M.
    destruct i as [|[|[|i]]]; cbn [nth]; try (destruct i; cbn [nth]); apply Qabs_Qle_condition; lra.
  - intros _. exists [3#4; 1; 1].
    apply (rows_interior 3 [[-(1#2); 1; 0; 0]; [1; -1; 0; 0]; [0; 0; 1; 0]; [2; 0; -1; 0]; [0; 0; 0; 1]; [10; 0; 0; -1]]); [repeat constructor|reflexivity|reflexivity| |].
    + repeat (constructor; [rewrite rowval4; lra|]). constructor.
    + intros y Ly F. destruct y as [|s [|t [|u [|]]]]; try discriminate. rewrite !Forall_cons_iff, !rowval4 in F. apply near_two_iff. lra.
Qed.

Lemma two_estimates : forall E, ext_ok E -> exists a b ra pa rb pb, large_value_estimate_L2 E = Ret a /\ montgomery_conjecture E = Ret b /\
  l_data a = DLV ra pa /\ l_data b = DLV rb pb /\ l_name a = s_of "Classical large value estimate" /\ l_name b = s_of "Montgomery conjecture" /\
  (forall s t u, denote ra [s; t; u] <-> in_range s t u /\ (u <= 2 - 2 * s \/ u <= 1 - 2 * s + t)) /\
  (forall s t u, denote rb [s; t; u] <-> in_range s t u /\ u <= 2 - 2 * s) /\
  (forall zeta, usable_estimates [a; b] zeta) /\ nonzero_powers [a; b] /\ Forall (fun h => proper_year (r_year (l_ref h))) [a; b] /\
  (forall zeta g, used_estimate [a; b] zeta g <-> g = a \/ g = b).
Proof.
  intros E OK.
  destruct (convert_bounds_usable E OK [[2; -2; 0]; [1; -2; 1]] ltac:(discriminate) ltac:(repeat constructor)) as (ra & pa & Ea & A1 & A2 & A3).
  { intros pre b post Eq. destruct pre as [|a [|a' [|]]]; try discriminate.
    - injection Eq as <- <-. exists (3#4), 1, (1#4). unfold well_in_range, TAU_UPPER_LIMIT, LV_DEFAULT_UPPER_BOUND, bound_at. cbn [nth]. split; [lra|]. split; [lra|constructor].
    - injection Eq as <- <- <-. exists (3#4), 2, 1. unfold well_in_range, TAU_UPPER_LIMIT, LV_DEFAULT_UPPER_BOUND, bound_at. cbn [nth]. split; [lra|]. split; [lra|]. constructor; [cbn [nth]; lra|constructor]. }
  destruct (convert_bounds_usable E OK [[2; -2; 0]] ltac:(discriminate) ltac:(repeat constructor)) as (rb & pb & Eb & B1 & B2 & B3).
  { intros pre b post Eq. destruct pre as [|a [|]]; try discriminate.
    injection Eq as <- <-. exists (3#4), 1, (1#4). unfold well_in_range, TAU_UPPER_LIMIT, LV_DEFAULT_UPPER_BOUND, bound_at. cbn [nth]. split; [lra|]. split; [lra|constructor]. }
  unfold large_value_estimate_L2, classical_LV_estimate, montgomery_conjecture, conjectured_LV_estimate. rewrite Ea, Eb. cbn [bind].
  do 2 eexists. exists ra, pa, rb, pb. split; [reflexivity|]. split; [reflexivity|]. cbn [l_data l_name]. split; [reflexivity|]. split; [reflexivity|]. split; [reflexivity|]. split; [reflexivity|].
  split; [intros s t u; rewrite A3; split; intros [R X]; (split; [exact R|]);
    [inversion X as [? ? H|? ? X']; subst; [left; unfold bound_at in H; cbn in H; lra|inversion X' as [? ? H|? ? X'']; subst; [right; unfold bound_at in H; cbn in H; lra|inversion X'']]
    |destruct X as [X|X]; [left|right; left]; unfold bound_at; cbn; lra]|].
  split; [intros s t u; rewrite B3; split; intros [R X]; (split; [exact R|]);
    [inversion X as [? ? H|? ? X']; subst; [unfold bound_at in H; cbn in H; lra|inversion X']|left; unfold bound_at; cbn; lra]|].
  split; [intros zeta h r [<-|[<-|[]]] _ R; injection R as <-; auto|]. split; [intros t k [<-|[<-|[]]] D; discriminate|].
  split; [constructor; [left; exact Logic.I|constructor; [left; exact Logic.I|constructor]]|].
  intros zeta g. split.
  - intros [([<-|[<-|[]]] & _)|[(t & k & h & [<-|[<-|[]]] & D & _)|(_ & [<-|[<-|[]]] & Z)]]; auto; discriminate.
  - intros [->| ->]; left; (split; [cbn; auto|reflexivity]).
Qed.

Example ex_large_value_region : forall E, ext_ok E -> forall order, (forall k l, Permutation (order k l) l) ->
  exists a b h r, large_value_estimate_L2 E = Ret a /\ montgomery_conjecture E = Ret b /\ compute_large_value_region E order [a; b] near_two false = Ret h /\
    region_of h = Ret r /\ denote r [3#4; 1; 1#4] /\ ~ denote r [3#4; 2; 1].
Proof.
  intros E OK order OO. destruct (two_estimates E OK) as (a & b & ra & pa & rb & pb & Ea & Eb & Da & Db & _ & _ & Xa & Xb & U & NZ & Y & UE).
  destruct (large_value_region_exact E OK order OO [a; b] near_two false (U false) NZ Y) as (h & ps & Eh & Dh & _ & _ & P1 & P2 & _);
    [exists a; apply UE; auto|exact Logic.I|exact near_two_solid|].
  exists a, b, h, (RDisj (map RPoly ps)). split; [exact Ea|]. split; [exact Eb|]. split; [exact Eh|]. split; [unfold region_of; now rewrite Dh|]. split.
  - apply P2; [reflexivity|]. exists (1#100). split; [lra|]. intros y [L Ny]. destruct y as [|s [|t [|u [|]]]]; try discriminate.
    pose proof (Ny 0%nat) as N0. pose proof (Ny 1%nat) as N1. pose proof (Ny 2%nat) as N2. cbn [nth] in N0, N1, N2. apply Qabs_Qle_condition in N0, N1, N2.
    assert (R : in_range s t u) by (unfold in_range, TAU_UPPER_LIMIT, LV_DEFAULT_UPPER_BOUND; lra).
    split; [apply near_two_iff; lra|]. intros g r Ug Rg. apply UE in Ug as [->| ->]; unfold region_of in Rg; [rewrite Da in Rg|rewrite Db in Rg]; injection Rg as <-.
    + apply Xa. split; [exact R|lra].
    + apply Xb. split; [exact R|lra].
  - intro D. apply P1 in D as [_ D]. assert (X : denote rb [3#4; 2; 1]) by (apply (D b rb); [apply UE; auto|unfold region_of; now rewrite Db]). apply Xb in X as [_ X]. lra.
Qed.

Lemma wide_world_admissible : lv_admissible (wide_world trivial_world).
Proof.
  constructor; cbn [wide_world lv zlv base].
  - exact trivial_world_admissible.
  - intros s s' t t' r r' A B C [H|H]; [left|right]; lra.
  - intros; contradiction.
  - intros s t r k K S1 S2 T H. assert (KQ : 1 <= inject_Z k) by (change 1 with (inject_Z 1); rewrite <- Zle_Qle; lia).
    destruct (Qlt_le_dec r 0) as [N|P]; [left; lra|]. destruct H as [H|(H1 & H2 & H3 & H4)]; [left; nra|].
    destruct (Z.eq_dec k 1) as [->|N1]; [right; change (inject_Z 1) with 1 in *; lra|].
    assert (K2 : 2 <= inject_Z k) by (change 2 with (inject_Z 2); rewrite <- Zle_Qle; lia). left. nra.
  - intros; contradiction.
  - intros; contradiction.
  - intros s t r v _ _ _ [].
  - intros s t r s0 m _ _ _ _ _ [].
  - cbn. intros s m L (_ & _ & H). lra.
Qed.

(** The recorded dependencies do not suffice.  Here the first estimate is split in
    two pieces.  The conjecture removes one of them entirely and contains the
    other, so that it leaves no trace: the result is the conjecture, but recorded
    as a consequence of the mean value estimate alone. *)
Lemma forgotten : match large_value_estimate_L2 fm_ext, montgomery_conjecture fm_ext with
  | Ret a, Ret b => match compute_large_value_region fm_ext same_order [a; b] near_two false with Ret h => map l_name (l_deps h) | Raise _ => [] end
  | _, _ => [] end = [s_of "Classical large value estimate"].
Proof. vm_compute. reflexivity. Qed.

Theorem large_value_region_dependencies_refuted : forall tr btr, exists a b h r s t u,
  large_value_estimate_L2 fm_ext = Ret a /\ montgomery_conjecture fm_ext = Ret b /\
  compute_large_value_region fm_ext same_order [a; b] near_two false = Ret h /\ l_deps h = [a] /\ region_of h = Ret r /\
  lv_admissible (wide_world trivial_world) /\ Forall (lholds tr btr (wide_world trivial_world)) (l_deps h) /\
  inside (fun y => exists s' t' u', y = [s'; t'; u'] /\ denote near_two y /\ occurs (wide_world trivial_world) false s' t' u') [s; t; u] /\ ~ denote r [s; t; u].
Proof.
  intros tr btr. destruct (two_estimates fm_ext fm_ext_ok) as (a & b & ra & pa & rb & pb & Ea & Eb & Da & Db & Na & Nb & Xa & Xb & U & NZ & Y & UE).
  destruct (large_value_region_exact fm_ext fm_ext_ok same_order ltac:(intros; apply Permutation_refl) [a; b] near_two false (U false) NZ Y) as (h & ps & Eh & Dh & Hd & _ & P1 & _);
    [exists a; apply UE; auto|exact Logic.I|exact near_two_solid|].
  pose proof forgotten as F. rewrite Ea, Eb, Eh in F.
  assert (LD : l_deps h = [a]).
  { destruct (l_deps h) as [|d [|]]; try discriminate. f_equal. assert (Ud : used_estimate [a; b] false d) by (apply Hd; now left). apply UE in Ud as [->| ->]; [reflexivity|].
    cbn [map] in F. rewrite Nb in F. discriminate. }
  exists a, b, h, (RDisj (map RPoly ps)), (11#20), (39#20), (3#2). split; [exact Ea|]. split; [exact Eb|]. split; [exact Eh|]. split; [exact LD|].
  split; [unfold region_of; now rewrite Dh|]. split; [exact wide_world_admissible|]. split.
  { rewrite LD. constructor; [|constructor]. unfold lholds. rewrite Da. intros s t u R L. apply Xa. split; [exact R|]. cbn in L. destruct R as (R1 & R2 & _). lra. }
  split.
  - exists (1#100). split; [lra|]. intros y [L Ny]. destruct y as [|s [|t [|u [|]]]]; try discriminate.
    pose proof (Ny 0%nat) as N0. pose proof (Ny 1%nat) as N1. pose proof (Ny 2%nat) as N2. cbn [nth] in N0, N1, N2. apply Qabs_Qle_condition in N0, N1, N2.
    exists s, t, u. split; [reflexivity|]. split; [apply near_two_iff; lra|]. unfold occurs, in_range, TAU_UPPER_LIMIT, LV_DEFAULT_UPPER_BOUND. cbn [wide_world lv]. split; [lra|right; lra].
  - intro D. apply P1 in D as [_ D]. assert (X : denote rb [11#20; 39#20; 3#2]) by (apply (D b rb); [apply UE; auto|unfold region_of; now rewrite Db]). apply Xb in X as [_ X]. lra.
Qed.
Print Assumptions large_value_region_dependencies_refuted.

(** Nothing is claimed outside the domain, but the result is a hypothesis about
    all sigma and tau, and as such it is false. *)
Theorem large_value_region_domain_refuted : forall tr btr E, ext_ok E -> forall order, (forall k l, Permutation (order k l) l) ->
  exists a h, large_value_estimate_L2 E = Ret a /\ compute_large_value_region E order [a] near_two false = Ret h /\
    incl (l_deps h) [a] /\ ~ lsupported tr btr h.
Proof.
  intros tr btr E OK order OO. destruct (two_estimates E OK) as (a & b & ra & pa & rb & pb & Ea & Eb & Da & Db & _ & _ & Xa & Xb & U & NZ & Y & UE).
  assert (I : incl [a] [a; b]) by (intros x [<-|[]]; now left).
  destruct (large_value_region_exact E OK order OO [a] near_two false) as (h & ps & Eh & Dh & Hd & _ & P1 & _).
  { intros g r Ig. apply (U false g r). now apply I. }
  { intros t k It. apply (NZ t k). now apply I. }
  { apply Forall_cons_iff in Y as [Y _]. constructor; [exact Y|constructor]. }
  { exists a. left. split; [now left|unfold is_lv; now rewrite Da]. }
  { exact Logic.I. }
  { exact near_two_solid. }
  assert (IA : incl (l_deps h) [a]).
  { intros d Id. apply Hd in Id as [(Id & _)|[(t & k & g & [<-|[]] & D & _)|(Z & _)]]; [exact Id|rewrite Da in D; discriminate|discriminate]. }
  exists a, h. split; [exact Ea|]. split; [exact Eh|]. split; [exact IA|]. intro Sp.
  assert (T : lholds tr btr (wide_world trivial_world) h).
  { apply Sp; [exact wide_world_admissible|]. apply Forall_forall. intros d Id. apply IA in Id as [<-|[]]. unfold lholds. rewrite Da. intros s t u R L. apply Xa. split; [exact R|]. cbn in L. destruct R as (R1 & R2 & _). lra. }
  unfold lholds in T. rewrite Dh in T.
  assert (D : denote (RDisj (map RPoly ps)) [3#4; 3; 0]) by (apply T; [unfold in_range, TAU_UPPER_LIMIT, LV_DEFAULT_UPPER_BOUND; lra|cbn; lra]).
  apply P1 in D as [D _]. apply near_two_iff in D. lra.
Qed.
Print Assumptions large_value_region_domain_refuted.
