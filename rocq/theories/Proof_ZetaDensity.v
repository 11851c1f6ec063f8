(** The regions and values of a derivation from large value estimates and zeta large
    value estimates. *)
From Coq Require Import Reals Qreals Permutation.
From Verif Require Import Base LinAlg FM Model_Text Model_Reference Spec_Reference Model_Polytope Spec_Polytope Proof_Polytope Proof_PolytopeLP FM_Ext
  Model_Region Spec_Region Proof_Region Proof_RegionSolid Prop_Region Proof_RegionDisjoint
  Model_ExponentPair Spec_ExponentPair Model_LargeValues Spec_LargeValues Proof_LargeValues Prop_LargeValues Model_ZetaLargeValues Prop_ZetaLargeValues
  Model_LargeValueRegion Spec_LargeValueRegion Prop_LargeValueRegion
  Model_RationalFunction Spec_RationalFunction Model_ZeroDensity Spec_ZeroDensity Model_DensityEstimate Spec_DensityEstimate
  Model_DensityDerivation Spec_DensityDerivation Prop_DensityDerivation
  Proof_RegionSplit Spec_Anchored Proof_HalfSplit Proof_SupExact Spec_DerivedDensity Proof_DerivedDensity Spec_ZetaDensity.
From Coq Require Import Lra.
Open Scope list_scope.
Local Open Scope Q_scope.

Lemma adm_app : forall s1 s2 s t u, adm (s1 ++ s2) s t u <-> adm s1 s t u /\ adm s2 s t u.
Proof. intros. unfold adm. apply Forall_app. Qed.
Lemma adm_zeta : forall Zs s t u, adm Zs s t u <-> zeta_permitted Zs s t u.
Proof. intros. unfold adm, zeta_permitted. rewrite Forall_forall. split; intros H B IB; specialize (H B IB); apply Exists_exists; exact H. Qed.
Lemma filter_twice : forall (A : Type) (f g : A -> bool) l, (forall x, f x = true -> g x = true) -> filter f (filter g l) = filter f l.
Proof.
  intros A f g l H. induction l as [|x l IH]; [reflexivity|]. cbn [filter]. destruct (g x) eqn:G; cbn [filter]; rewrite IH; [reflexivity|].
  destruct (f x) eqn:F; [|reflexivity]. rewrite (H x F) in G. discriminate.
Qed.

Section Box.
Context (E : ext) (a b t0 t1 : Q) (AB : a < b) (A0 : 1#2 <= a) (B1 : b <= 1) (T0 : 2 <= t0) (T01 : t0 < t1) (TU : t1 + 1 < LV_DEFAULT_UPPER_BOUND).
Context (sys : list (list (list Q))).

Definition region_of_bounds (ps : list lpoly) : Prop :=
  usable_pieces E ps /\ (forall p, In p ps -> ncol (pmat (body p)) = 4%nat) /\
  (forall s t u, within ps [s; t; u] -> a <= s <= b /\ t0 <= t <= t1 /\ 0 <= u <= LV_DEFAULT_UPPER_BOUND /\ adm sys s t u) /\
  (forall s t u, a < s < b -> t0 < t < t1 -> 0 < u < LV_DEFAULT_UPPER_BOUND -> sadm sys s t u -> within ps [s; t; u]).

Lemma region_bounds : forall (A : point -> Prop) ps, Forall (solid 3) ps -> Forall uncached ps ->
  (forall x, denote (RDisj (map RPoly ps)) x -> A x) -> (forall x, List.length x = 3%nat -> Spec_Region.inside A x -> denote (RDisj (map RPoly ps)) x) ->
  (forall s t u, A [s; t; u] -> box_set a b t0 t1 s t u /\ adm sys s t u) -> (forall s t u, box_set a b t0 t1 s t u -> adm sys s t u -> A [s; t; u]) -> region_of_bounds ps.
Proof.
  intros A ps S3 UC P1 P2 A1 A2. rewrite Forall_forall in S3, UC.
  assert (SZ : forall p, In p ps -> ncol (pmat (body p)) = 4%nat) by (intros p Ip; apply (S3 p Ip)).
  split; [|split; [exact SZ|split]].
  - intros p Ip. split; [|intros _; left; exact (UC p Ip)]. destruct (S3 p Ip) as (G & BD & N & _). split; [apply G|]. split; [exact N|]. split; [exact BD|].
    intros x Mx. assert (L : List.length x = 3%nat) by (destruct Mx as [L _]; rewrite N in L; lia). destruct x as [|s [|t [|u [|? ?]]]]; try discriminate L.
    destruct (A1 s t u) as ((_ & Bt & Bu) & _); [apply P1, pieces_within; exists p; auto|]. cbn [nth]. split; Lqa.lra.
  - intros s t u W. destruct (A1 s t u) as ((X1 & X2 & X3) & X4); [apply P1, pieces_within, W|]. auto.
  - intros s t u Hs Ht Hu S. apply pieces_within, P2; [reflexivity|]. destruct (sadm_near _ _ _ _ S) as (e & Pe & He).
    set (m := qmin e (qmin (qmin (s - a) (b - s)) (qmin (qmin (t - t0) (t1 - t)) (qmin u (LV_DEFAULT_UPPER_BOUND - u))))).
    assert (M : 0 < m /\ m <= e /\ m <= s - a /\ m <= b - s /\ m <= t - t0 /\ m <= t1 - t /\ m <= u /\ m <= LV_DEFAULT_UPPER_BOUND - u).
    { unfold m. clear - Pe Hs Ht Hu.
      assert (G : forall p q, (0 < p -> 0 < q -> 0 < qmin p q) /\ qmin p q <= p /\ qmin p q <= q). { intros p q. split; [intros; unfold qmin; destruct (Qltb q p); assumption|apply qmin_le]. }
      destruct (G (s - a) (b - s)) as (g1 & g2 & g3). destruct (G (t - t0) (t1 - t)) as (g4 & g5 & g6). destruct (G u (LV_DEFAULT_UPPER_BOUND - u)) as (g7 & g8 & g9).
      destruct (G (qmin (t - t0) (t1 - t)) (qmin u (LV_DEFAULT_UPPER_BOUND - u))) as (h1 & h2 & h3).
      destruct (G (qmin (s - a) (b - s)) (qmin (qmin (t - t0) (t1 - t)) (qmin u (LV_DEFAULT_UPPER_BOUND - u)))) as (h4 & h5 & h6).
      destruct (G e (qmin (qmin (s - a) (b - s)) (qmin (qmin (t - t0) (t1 - t)) (qmin u (LV_DEFAULT_UPPER_BOUND - u))))) as (h7 & h8 & h9).
      specialize (g1 ltac:(Lqa.lra) ltac:(Lqa.lra)). specialize (g4 ltac:(Lqa.lra) ltac:(Lqa.lra)). specialize (g7 ltac:(Lqa.lra) ltac:(Lqa.lra)). specialize (h1 g4 g7). specialize (h4 g1 h1). specialize (h7 Pe h4).
      repeat split; Lqa.lra. }
    exists m. split; [apply M|]. intros y [Ly Hy]. destruct y as [|s' [|t' [|u' [|? ?]]]]; try discriminate Ly. pose proof (Hy 0%nat) as Y0. pose proof (Hy 1%nat) as Y1. pose proof (Hy 2%nat) as Y2. cbn [nth] in *.
    apply A2.
    + apply Qabs_Qle_condition in Y0, Y1, Y2. unfold box_set. Lqa.lra.
    + apply sadm_adm, He; Lqa.lra.
Qed.
End Box.

Section Run.
Context (E : ext) (OK : ext_ok E) (AN : anchored E) (order : nat -> list nat -> list nat) (OO : forall k l, Permutation (order k l) l)
  (iteration : list lnode -> list lnode) (IT : forall l x, In x (iteration l) <-> In x l).
Context (Bs : list (list (list Q))) (ks : list Q) (Zs : list (list (list Q))) (tau0 : Q) (hs : list lnode).
Context (KS : Forall natural_power ks) (K1 : In 1 ks).
Context (H1 : forall h, In h hs -> (exists B, In B Bs /\ records E h B) \/ (exists k, In k ks /\ l_data h = DLVTrans k /\ proper_year (r_year (l_ref h))) \/
                                  (exists B, In B Zs /\ records_zeta E tau0 h B))
  (H2 : forall B, In B Bs -> exists h, In h hs /\ records E h B)
  (H3 : forall k, In k ks -> k = 1 \/ exists h, In h hs /\ l_data h = DLVTrans k)
  (H4 : forall B, In B Zs -> exists h, In h hs /\ records_zeta E tau0 h B)
  (NB : In l2_bounds Bs).

Definition lvs_only : list lnode := filter (fun h => negb (is_zlv h)) hs.
Lemma lvs_in : forall h, In h lvs_only <-> In h hs /\ is_zlv h = false.
Proof. intro h. unfold lvs_only. rewrite filter_In, negb_true_iff. reflexivity. Qed.
Lemma lv_not_zlv : forall h, is_lv h = true -> is_zlv h = false.
Proof. intros h. unfold is_lv, is_zlv. destruct (l_data h); congruence. Qed.
Lemma trans_not_zlv : forall h k, l_data h = DLVTrans k -> is_zlv h = false.
Proof. intros h k D. unfold is_zlv. now rewrite D. Qed.

Lemma G1 : forall h, In h lvs_only -> (exists B, In B Bs /\ records E h B) \/ (exists k, In k ks /\ l_data h = DLVTrans k /\ proper_year (r_year (l_ref h))).
Proof.
  intros h Ih. apply lvs_in in Ih as [Ih N]. destruct (H1 h Ih) as [X|[X|(B & _ & (_ & _ & r & rep & _ & D))]]; [now left|now right|]. unfold is_zlv in N. rewrite D in N. discriminate.
Qed.
Lemma G2 : forall B, In B Bs -> exists h, In h lvs_only /\ records E h B.
Proof. intros B IB. destruct (H2 B IB) as (h & Ih & R). exists h. split; [|exact R]. apply lvs_in. split; [exact Ih|]. apply lv_not_zlv. now apply (record_lv E h B). Qed.
Lemma G3 : forall k, In k ks -> k = 1 \/ exists h, In h lvs_only /\ l_data h = DLVTrans k.
Proof. intros k Ik. destruct (H3 k Ik) as [X|(h & Ih & D)]; [now left|]. right. exists h. split; [|exact D]. apply lvs_in. split; [exact Ih|now apply (trans_not_zlv h k)]. Qed.

Lemma used_same : forall g, used_estimate hs false g <-> used_estimate lvs_only false g.
Proof.
  intro g. unfold used_estimate. split.
  - intros [(Ig & Pg)|[(t & k & h & It & Dt & Ih & Ph & Eg)|(Z & _)]]; [left|right; left|discriminate].
    + split; [apply lvs_in; split; [exact Ig|now apply lv_not_zlv]|exact Pg].
    + exists t, k, h. split; [apply lvs_in; split; [exact It|now apply (trans_not_zlv t k)]|]. split; [exact Dt|]. split; [apply lvs_in; split; [exact Ih|now apply lv_not_zlv]|auto].
  - intros [(Ig & Pg)|[(t & k & h & It & Dt & Ih & Ph & Eg)|(Z & _)]]; [left|right; left|discriminate].
    + apply lvs_in in Ig as [Ig _]. auto.
    + apply lvs_in in It as [It _]. apply lvs_in in Ih as [Ih _]. exists t, k, h. auto 6.
Qed.
Lemma use_says : forall g, used_estimate hs false g -> exists B k, says Bs ks g B k.
Proof. intros g U. apply used_same in U. exact (used_says E OK Bs ks lvs_only KS K1 G1 g U). Qed.

(** What a zeta estimate of the set says. *)
Definition zeta_says (g : lnode) (B : list (list Q)) : Prop :=
  In B Zs /\ proper_year (r_year (l_ref g)) /\ exists r rep, l_data g = DZLV r rep /\ disjoint_form r /\ leaves (solid 3) r /\
    forall s t u, denote r [s; t; u] <-> in_range s t u /\ exists b, In b B /\ u <= bound_at b s t.
Lemma zeta_records_says : forall h B, In B Zs -> records_zeta E tau0 h B -> zeta_says h B.
Proof.
  intros h B IB ((NE & F & EN & _) & Y & r & rep & Ec & D). split; [exact IB|]. split; [exact Y|].
  destruct (convert_bounds_usable E OK B NE) as (r' & rep' & Ec' & DF & S3 & X); [eapply Forall_impl; [|exact F]; intros b [L _]; exact L|exact EN|].
  rewrite Ec' in Ec. assert (Er : r' = r) by congruence. subst r'. exists r, rep. split; [exact D|]. split; [exact DF|]. split; [exact S3|]. intros s t u. rewrite X, Exists_exists. reflexivity.
Qed.
Lemma zlv_says : forall h, In h hs -> is_zlv h = true -> exists B, zeta_says h B.
Proof.
  intros h Ih P. destruct (H1 h Ih) as [(B & _ & R)|[(k & _ & D & _)|(B & IB & R)]].
  - apply (record_lv E h B), lv_not_zlv in R. congruence.
  - apply (trans_not_zlv h k) in D. congruence.
  - exists B. now apply zeta_records_says.
Qed.
Lemma zeta_record_zlv : forall h B, records_zeta E tau0 h B -> is_zlv h = true.
Proof. intros h B (_ & _ & r & rep & _ & D). unfold is_zlv. now rewrite D. Qed.

Lemma bases_nil : bases hs = [].
Proof.
  unfold bases. assert (X : forall l, incl l hs -> flat_map (fun h => match h with LBase h => [h] | _ => [] end) l = []); [|now apply X].
  induction l as [|h l IH]; intro I; [reflexivity|]. cbn [flat_map]. rewrite IH by (intros x Hx; apply I; now right). rewrite app_nil_r.
  destruct h as [|h]; [reflexivity|]. exfalso. destruct (H1 (LBase h)) as [(B & _ & R)|[(k & _ & D & _)|(B & _ & (_ & _ & r & rep & _ & D))]]; [apply I; now left| |discriminate D|discriminate D].
  apply record_lv in R. discriminate R.
Qed.

Definition from_lv (h : lnode) : Prop :=
  exists g, used_estimate hs false g /\ exists r, region_of g = Ret r /\ l_data h = DZLV (RInter [RPoly (plain half_space); r]) None /\ r_year (l_ref h) = r_year (l_ref g).
Lemma zeta_added : exists zs, add_zeta_estimates E iteration hs = Ret (iteration (hs ++ zs)) /\ forall h, In h zs -> from_lv h.
Proof.
  destruct (lv_to_zlv_returns E OK hs) as (zs & Ez).
  { intros h r rep Ih Dh. destruct (lv_recorded E Bs ks lvs_only G1 h) as (B & IB & Rc); [apply lvs_in; split; [exact Ih|unfold is_zlv; now rewrite Dh]|unfold is_lv; now rewrite Dh|].
    destruct (records_says E OK Bs ks K1 h B IB Rc) as (_ & _ & _ & r' & rep' & Dh' & DF & S3 & _).
    rewrite Dh in Dh'. injection Dh' as -> _. now apply solid_sized3. }
  { intros t k It Dt. rewrite Forall_forall in KS. apply KS. apply (trans_power E Bs ks lvs_only G1 t k); [apply lvs_in; split; [exact It|now apply (trans_not_zlv t k)]|exact Dt]. }
  exists zs. split.
  { unfold add_zeta_estimates. rewrite Ez. cbn [bind]. unfold beta_to_zlv. rewrite bases_nil. cbn. now rewrite app_nil_r. }
  unfold lv_to_zlv in Ez. destruct (lv_and_transformed hs) as [hyps|] eqn:Eh; [|discriminate]. cbn [bind] in Ez. rewrite half_built in Ez. cbn [bind] in Ez.
  intros h Ih. apply (Proof_Piecewise.mapM_In _ _ _ _ _ _ Ez) in Ih as (g & Ig & Eg). exists g. split.
  - pose proof (proj1 (lv_and_transformed_exact hs hyps Eh g) Ig) as [U|U]; [left; exact U|right; left; exact U].
  - destruct (region_of g) as [r|] eqn:R; [|discriminate]. cbn [bind] in Eg. unfold derived_bound_zeta_LV in Eg. rewrite derived_l_one in Eg. exists r. split; [reflexivity|].
    apply (f_equal (fun x => match x with Ret y => y | _ => h end)) in Eg. rewrite <- Eg. split; reflexivity.
Qed.
Lemma from_lv_zlv : forall h, from_lv h -> is_zlv h = true.
Proof. intros h (g & _ & r & _ & D & _). unfold is_zlv. now rewrite D. Qed.

Lemma used_with_zeta : forall zs g, (forall h, In h zs -> from_lv h) ->
  (used_estimate (iteration (hs ++ zs)) true g <-> used_estimate hs false g \/ In g zs \/ (In g hs /\ is_zlv g = true)).
Proof.
  intros zs g Z.
  assert (NL : forall h, In h zs -> is_lv h = false /\ forall k, l_data h <> DLVTrans k). { intros h Ih. pose proof (from_lv_zlv h (Z h Ih)) as P. unfold is_zlv, is_lv in *. destruct (l_data h); try discriminate. split; [reflexivity|discriminate]. }
  assert (I : forall h, In h (iteration (hs ++ zs)) <-> In h hs \/ In h zs) by (intro h; rewrite IT; apply in_app_iff).
  split.
  - intros [(Ig & Pg)|[(t & k & h & It & Dt & Ih & Ph & Eg)|(_ & Ig & Pg)]].
    + apply I in Ig as [Ig|Ig]; [left; left; auto|]. apply NL in Ig as [Ig _]. congruence.
    + apply I in It as [It|It]; [|apply NL in It as [_ It]; now apply It in Dt]. apply I in Ih as [Ih|Ih]; [|apply NL in Ih as [Ih _]; congruence].
      left. right. left. exists t, k, h. auto 6.
    + apply I in Ig as [Ig|Ig]; [right; right; auto|right; now left].
  - intros [[(Ig & Pg)|[(t & k & h & It & Dt & Ih & Ph & Eg)|(Y & _)]]|[Ig|[Ig Pg]]].
    + left. split; [apply I; auto|exact Pg].
    + right. left. exists t, k, h. split; [apply I; auto|]. split; [exact Dt|]. split; [apply I; auto|]. auto.
    + discriminate.
    + right. right. split; [reflexivity|]. split; [apply I; auto|]. now apply from_lv_zlv, Z.
    + right. right. split; [reflexivity|]. split; [apply I; auto|exact Pg].
Qed.

Context (a b t0 t1 : Q) (AB : a < b) (A0 : 1#2 <= a) (B1 : b <= 1) (T0 : 2 <= t0) (T01 : t0 < t1) (TU : t1 + 1 < LV_DEFAULT_UPPER_BOUND).

Lemma all_years : Forall (fun h => proper_year (r_year (l_ref h))) hs.
Proof. apply Forall_forall. intros h Ih. destruct (H1 h Ih) as [(B & _ & (_ & Y & _))|[(k & _ & _ & Y)|(B & _ & (_ & Y & _))]]; exact Y. Qed.
Lemma all_nonzero : nonzero_powers hs.
Proof. intros t k It Dt. apply (nonzero E Bs ks lvs_only KS G1 t k); [apply lvs_in; split; [exact It|now apply (trans_not_zlv t k)]|exact Dt]. Qed.
Lemma lv_split : forall h r, In h hs -> is_lv h = true -> region_of h = Ret r -> disjoint_form r /\ leaves (solid 3) r.
Proof.
  intros h r Ih Ph R. apply (proj1 (estimates_split E OK order Bs ks lvs_only K1 G1 (RPoly (plain half_space))) h r); [apply lvs_in; split; [exact Ih|now apply lv_not_zlv]|exact Ph|exact R].
Qed.
Lemma allowed_same : forall d x, allowed hs false d x <-> allowed lvs_only false d x.
Proof. intros d x. unfold allowed. split; intros [D A]; (split; [exact D|]); intros g r U; apply A; now apply used_same. Qed.
Lemma allowed_lv : forall d s t u, (forall s t u, member d [s; t; u] <-> box_set a b t0 t1 s t u) ->
  (allowed hs false (RPoly (plain d)) [s; t; u] <-> box_set a b t0 t1 s t u /\ permitted Bs ks s t u).
Proof. intros d s t u M. rewrite allowed_same. exact (allowed_box E OK Bs ks lvs_only KS K1 G1 G2 G3 a b t0 t1 AB A0 B1 T0 TU d s t u M). Qed.

Lemma lv_region : forall d, rect E [(a, b); (t0, t1); (0, LV_DEFAULT_UPPER_BOUND)] = Ret d ->
  exists h ps, compute_large_value_region E order hs (RPoly (plain d)) false = Ret h /\ region_pieces h ps /\ dated h /\ region_of_bounds E a b t0 t1 (system Bs ks) ps.
Proof.
  intros d Ed. destruct (domain_ok E OK a b t0 t1 AB A0 B1 T0 T01 TU) as (d' & Ed' & Sd & M). rewrite Ed in Ed'. injection Ed' as <-.
  destruct (large_value_region_split E OK order OO (RPoly (plain d)) Logic.I Sd hs false) as (h & ps & Eh & Dh & _ & S3 & UC & Y & P1 & P2 & _).
  { split; [exact lv_split|discriminate]. }
  { exact all_nonzero. } { exact all_years. }
  { destruct (says_used E OK Bs ks lvs_only KS K1 G2 G3 l2_bounds 1 NB K1) as (g & U & _). exists g. now apply used_same. }
  exists h, ps. split; [exact Eh|]. split; [unfold region_pieces, region_of; now rewrite Dh|]. split; [exact Y|].
  pose proof (ks_nonzero ks KS) as NZ.
  apply (region_bounds E a b t0 t1 AB A0 B1 T0 (system Bs ks) _ ps S3 UC P1 P2); intros s t u.
  - intro A. apply (allowed_lv d s t u M) in A as [A1 A2]. split; [exact A1|]. now apply adm_permitted.
  - intros B P. apply (allowed_lv d s t u M). split; [exact B|]. now apply adm_permitted in P.
Qed.

Lemma zeta_region : forall d zs, rect E [(a, b); (t0, t1); (0, LV_DEFAULT_UPPER_BOUND)] = Ret d -> (forall h, In h zs -> from_lv h) ->
  exists h ps, compute_large_value_region E order (iteration (hs ++ zs)) (RPoly (plain d)) true = Ret h /\ region_pieces h ps /\ dated h /\
    region_of_bounds E a b t0 t1 (system Bs ks ++ Zs) ps.
Proof.
  intros d zs Ed Z. destruct (domain_ok E OK a b t0 t1 AB A0 B1 T0 T01 TU) as (d' & Ed' & Sd & M). rewrite Ed in Ed'. injection Ed' as <-.
  pose proof (fun g => used_with_zeta zs g Z) as UZ.
  assert (II : forall h, In h (iteration (hs ++ zs)) <-> In h hs \/ In h zs) by (intro h; rewrite IT; apply in_app_iff).
  assert (SE : split_estimates E order (RPoly (plain d)) (iteration (hs ++ zs)) true).
  { split.
    - intros h r Ih Ph R. apply II in Ih as [Ih|Ih]; [exact (lv_split h r Ih Ph R)|]. pose proof (from_lv_zlv h (Z h Ih)) as P. apply lv_not_zlv in Ph. congruence.
    - intros _ h r Ih Ph R. apply II in Ih as [Ih|Ih].
      + destruct (zlv_says h Ih Ph) as (B & (_ & _ & r' & rep & D & DF & S3 & _)). unfold region_of in R. rewrite D in R. injection R as <-.
        apply (splits_solid E OK order OO); auto. exact Logic.I.
      + destruct (Z h Ih) as (g & U & r' & Rg & D & _). unfold region_of in R. rewrite D in R. injection R as <-.
        destruct (use_says g U) as (B & k & (_ & Ik & _ & r'' & rep & Dg & DF & S3 & X)). unfold region_of in Rg. rewrite Dg in Rg. injection Rg as <-.
        apply half_splits; auto; [exact Logic.I|]. intro C. apply X in C as [(C & _) _]. Lqa.lra. }
  assert (NZ : nonzero_powers (iteration (hs ++ zs))).
  { intros t k It Dt. apply II in It as [It|It]; [now apply (all_nonzero t)|]. pose proof (from_lv_zlv t (Z t It)) as P. unfold is_zlv in P. rewrite Dt in P. discriminate. }
  assert (YY : Forall (fun h => proper_year (r_year (l_ref h))) (iteration (hs ++ zs))).
  { apply Forall_forall. intros h Ih. pose proof all_years as Y. rewrite Forall_forall in Y. apply II in Ih as [Ih|Ih]; [now apply Y|]. destruct (Z h Ih) as (g & U & r & _ & _ & ->). destruct (use_says g U) as (B & k & (_ & _ & Yg & _)). exact Yg. }
  destruct (large_value_region_split E OK order OO (RPoly (plain d)) Logic.I Sd (iteration (hs ++ zs)) true SE NZ YY) as (h & ps & Eh & Dh & _ & S3 & UC & Y & P1 & P2 & _).
  { destruct (says_used E OK Bs ks lvs_only KS K1 G2 G3 l2_bounds 1 NB K1) as (g & U & _). exists g. apply UZ. left. now apply used_same. }
  exists h, ps. split; [exact Eh|]. split; [unfold region_pieces, region_of; now rewrite Dh|]. split; [exact Y|].
  pose proof (ks_nonzero ks KS) as KZ.
  assert (BT : forall s t u, box_set a b t0 t1 s t u -> in_range s t u).
  { intros s t u (X1 & X2 & X3). pose proof (tu t1 TU). unfold in_range. repeat split; Lqa.lra. }
  apply (region_bounds E a b t0 t1 AB A0 B1 T0 (system Bs ks ++ Zs) _ ps S3 UC P1 P2); intros s t u.
  - intros [D A]. assert (A' : allowed hs false (RPoly (plain d)) [s; t; u]). { split; [exact D|]. intros g r U R. apply (A g r); [apply UZ; now left|exact R]. }
    apply (allowed_lv d s t u M) in A' as [BX PM]. split; [exact BX|]. apply adm_app. split; [now apply adm_permitted|]. apply adm_zeta. intros B IB.
    destruct (H4 B IB) as (g & Ig & Rg). destruct (zeta_records_says g B IB Rg) as (_ & _ & r & rep & Dg & _ & _ & X). apply (X s t u). apply (A g r).
    + apply UZ. right. right. split; [exact Ig|now apply (zeta_record_zlv g B)].
    + unfold region_of. now rewrite Dg.
  - intros BX P. apply adm_app in P as [P PZ]. apply adm_permitted in P; [|exact KZ]. apply adm_zeta in PZ. pose proof (proj2 (allowed_lv d s t u M) (conj BX P)) as [D A]. split; [exact D|].
    intros g r U R. apply UZ in U as [U|[U|[Ig Pg]]]; [now apply (A g r)| |].
    + destruct (Z g U) as (g' & U' & r' & Rg & Dg & _). unfold region_of in R. rewrite Dg in R. injection R as <-. cbn [denote allP body plain]. split; [|split; [now apply (A g' r')|exact Logic.I]].
      apply half_member. destruct BX as (_ & BX & _). Lqa.lra.
    + destruct (zlv_says g Ig Pg) as (B & (IB & _ & r' & rep & Dg & _ & _ & X)). unfold region_of in R. rewrite Dg in R. injection R as <-. apply X. split; [now apply BT|now apply PZ].
Qed.

(** ** What is needed of the bounds *)
Lemma zeta_pos : t1 = tau0 -> forall s, a <= s < b -> exists t u, t0 <= t <= t1 /\ 0 < u /\ adm (system Bs ks ++ Zs) s t u.
Proof.
  intros ET s Hs.
  assert (X : exists m, 0 < m /\ forall B, In B Zs -> exists c, In c B /\ m <= bound_at c s tau0).
  { assert (Y : forall B, In B Zs -> exists c, In c B /\ 0 < bound_at c s tau0). { intros B IB. destruct (H4 B IB) as (h & _ & ((_ & _ & _ & P) & _)). apply P. Lqa.lra. }
    clear - Y. induction Zs as [|B l IH]; [exists 1; split; [reflexivity|intros B []]|]. destruct IH as (m & Pm & Hm); [intros B' I; apply Y; now right|].
    destruct (Y B (or_introl eq_refl)) as (c & Ic & Pc). destruct (qmin_le m (bound_at c s tau0)) as [M1 M2]. exists (qmin m (bound_at c s tau0)). split; [unfold qmin; destruct (Qltb _ m); assumption|].
    intros B' [<-|I]; [exists c; auto|]. destruct (Hm B' I) as (c' & Ic' & Hc'). exists c'. split; [exact Ic'|Lqa.lra]. }
  destruct X as (m & Pm & Hm). destruct (qmin_le m (2 - 2 * s)) as [M1 M2]. set (u := qmin m (2 - 2 * s)) in *. assert (Pu : 0 < u) by (unfold u, qmin; destruct (Qltb _ m); [Lqa.lra|assumption]).
  exists t1, u. split; [Lqa.lra|]. split; [exact Pu|]. apply adm_app. split.
  - apply adm_permitted; [exact (ks_nonzero ks KS)|]. intros B k IB Ik. destruct (H2 B IB) as (h & _ & ((_ & _ & _ & c & Ic & Hc) & _)).
    exists c. split; [exact Ic|]. rewrite Hc. pose proof (ks_nz ks KS k Ik). Lqa.nra.
  - apply adm_zeta. intros B IB. destruct (Hm B IB) as (c & Ic & Hc). exists c. split; [exact Ic|]. subst t1. Lqa.lra.
Qed.
Lemma zeta_dec : Forall (Forall (fun b => nth 1 b 0 <= -(1))) (system Bs ks ++ Zs).
Proof.
  apply Forall_app. split; [exact (dec_bounds E Bs ks lvs_only KS G2)|]. apply Forall_forall. intros B IB. destruct (H4 B IB) as (h & _ & ((_ & F & _) & _)). eapply Forall_impl; [|exact F]. intros c [_ L]. exact L.
Qed.
End Run.
