(** Properties C17-C22 of Region, and findings about its dependency tracking. *)
From Coq Require Import Permutation.
From Verif Require Import Base LinAlg FM_Ext Model_Polytope Spec_Polytope Model_Region Spec_Region.
From Verif Require Import Proof_Polytope Proof_PolytopeMaps Proof_PolytopeLP Proof_PolytopeSets Proof_PolytopeUnion.
From Verif Require Import Proof_Region Proof_RegionSimplify Proof_RegionDisjoint.

(** ** C17 *)

Theorem region_contains : forall r x d, leaves (has_dim d) r -> length x = d ->
  exists b, rcontains r x = Ret b /\ (b = true <-> denote r x).
Proof. exact rcontains_ok. Qed.
Print Assumptions region_contains.

(** Labelling does not change the set. *)
Theorem region_set_label : forall l r x, denote (set_label l r) x <-> denote r x.
Proof.
  intros l r x. induction r as [p|r IH|r IH|rs IH|rs IH|rs IH] using region_tree_ind; simpl; try tauto.
  - rewrite !anyP_iff. rewrite Forall_forall in IH. split.
    + intros (a & Ha & D). apply in_map_iff in Ha as (b & <- & Hb). exists b. split; [auto|]. now apply IH.
    + intros (a & Ha & D). exists (set_label l a). split; [now apply in_map|]. now apply IH.
  - rewrite !anyP_iff. rewrite Forall_forall in IH. split.
    + intros (a & Ha & D). apply in_map_iff in Ha as (b & <- & Hb). exists b. split; [auto|]. now apply IH.
    + intros (a & Ha & D). exists (set_label l a). split; [now apply in_map|]. now apply IH.
  - rewrite !allP_iff. rewrite Forall_forall in IH. split.
    + intros D a Ha. apply IH; [auto|]. apply D. now apply in_map.
    + intros D a Ha. apply in_map_iff in Ha as (b & <- & Hb). apply IH; auto.
Qed.
Print Assumptions region_set_label.

(** Every polytope of the tree carries the new label, whatever it carried before;
    nothing else about it changes. *)
Theorem region_set_label_all : forall l r, unwrapped r ->
  tree_polys (set_label l r) = map (fun p => mkLPoly (body p) (Some l) (deps p)) (tree_polys r).
Proof.
  intros l r. assert (X : forall rs, Forall (fun r => unwrapped r -> tree_polys (set_label l r) = map (fun p => mkLPoly (body p) (Some l) (deps p)) (tree_polys r)) rs ->
    allP unwrapped rs -> flat_map tree_polys (map (set_label l) rs) = map (fun p => mkLPoly (body p) (Some l) (deps p)) (flat_map tree_polys rs)).
  { induction rs as [|a rs IH]; intros F U; [reflexivity|]. inversion F as [|? ? Fa Fr]; subst. destruct U as [Ua Ur]. cbn [flat_map map]. rewrite map_app.
    rewrite (Fa Ua), (IH Fr Ur). reflexivity. }
  induction r as [p|r IH|r IH|rs IH|rs IH|rs IH] using region_tree_ind; cbn [unwrapped set_label tree_polys map]; intro U; auto. destruct U.
Qed.
Print Assumptions region_set_label_all.

(** ** C18 *)

Theorem region_substitute : forall values d r,
  leaves (fun p => wf_mat (pmat (body p)) /\ mrows (pmat (body p)) <> [] /\ has_dim d p) r ->
  NoDup (map fst values) -> (forall k v, In (k, v) values -> (k < d)%nat) ->
  exists q, rsubstitute values r = Ret q /\
    forall y, length y = length (remaining (map fst values) 0 (repeat 0 d)) ->
      (denote q y <-> exists x, length x = d /\ (forall k v, In (k, v) values -> nth k x 0 == v) /\
                        Forall2 Qeq y (remaining (map fst values) 0 x) /\ denote r x).
Proof.
  intros values d r H ND K. destruct (rsubstitute_ok values d r H ND K) as (q & Eq & Hq). exists q. split; [auto|].
  intros y Ly. rewrite (Hq y Ly). unfold fixed_at. split.
  - intros (x & (A & B & C) & D). exists x. auto.
  - intros (x & A & B & C & D). exists x. auto.
Qed.
Print Assumptions region_substitute.

Theorem region_scale_all : forall fs r,
  leaves (fun p => good (body p) /\ mrows (pmat (body p)) <> [] /\ has_dim (length fs) p) r ->
  Forall (fun f => ~ f == 0) fs ->
  exists q, rscale_all fs r = Ret q /\
    forall y, length y = length fs ->
      (denote q y <-> exists x, length x = length fs /\ Forall2 Qeq y (stretch_all fs x) /\ denote r x).
Proof.
  intros fs r H NZ. destruct (rscale_all_ok fs r H NZ) as (q & Eq & Hq). exists q. split; [auto|].
  intros y Ly. rewrite (Hq y Ly). split.
  - intros (x & (A & B) & D). exists x. auto.
  - intros (x & A & B & D). exists x. auto.
Qed.
Print Assumptions region_scale_all.

(** Without complements, [lift] is the cylinder over the region, cut by the
    limits of the new coordinates. *)
Theorem region_lift : forall var d r,
  leaves (fun p => good (body p) /\ has_dim d p /\
    (matrix_as_list (pmat (body p)) false <> [] \/ exists lo up, In (Box lo up) var)) r ->
  positive r -> Permutation (lift_dims var) (seq 0 d) ->
  exists q, rlift var r = Ret q /\
    forall y, denote q y <-> length y = length var /\ in_box var y /\
      exists x, length x = d /\ lifts var x y /\ denote r x.
Proof. exact rlift_ok. Qed.
Print Assumptions region_lift.

(** The unit interval and boxes used in the concrete cases. *)
Definition seg (a b : Q) : polytope := mkPoly (mkMat [([- a; 1], false); ([b; -1], false)] 2) false None.

Lemma seg_member : forall a b x, member (seg a b) [x] <-> a <= x <= b.
Proof.
  intros a b x. unfold member, mmember, seg; cbn [pmat ncol mrows]. rewrite !Forall_cons_iff. unfold holds, rowval; simpl. split.
  - intros (_ & H1 & H2 & _). lra.
  - intros [H1 H2]. split; [reflexivity|]. split; [lra|]. split; [lra|constructor].
Qed.

Lemma seg_len : forall a b x, member (seg a b) x -> exists v, x = [v].
Proof. intros a b x [L _]. destruct x as [|v [|w x]]; simpl in L; try discriminate. eauto. Qed.

Lemma seg_solid : forall a b l ds, a < b -> solid 1 (mkLPoly (seg a b) l ds).
Proof.
  intros a b l ds H. assert (W : wf_mat (pmat (seg a b))) by (split; [simpl; lia|repeat constructor]).
  assert (NZ : no_zero_rows (pmat (seg a b))).
  { constructor; [|constructor; [|constructor]]; cbn [fst]; intro Z; inversion Z as [|? ? _ Z1]; subst; inversion Z1; subst; lra. }
  split; [|split; [|split; [reflexivity|]]]; cbn [body].
  - split; [exact W|]. split; [exact NZ|]. split; [discriminate|exact Logic.I].
  - exists (Qabs a + Qabs b). intros x i M. pose proof (Qabs_nonneg a). pose proof (Qabs_nonneg b).
    destruct (seg_len a b x M) as (v & ->). apply seg_member in M.
    destruct i as [|i]; cbn [nth]; [|destruct i; change (Qabs 0) with 0; lra].
    apply Qabs_Qle_condition. pose proof (Qle_Qabs a). pose proof (Qle_Qabs b). pose proof (Qle_Qabs (- a)). pose proof (Qle_Qabs (- b)).
    rewrite Qabs_opp in *. lra.
  - intros _. exists [(1 # 2) * a + (1 # 2) * b]. apply interior_iff; auto. split; [reflexivity|].
    intros rb [<-|[<-|[]]]; (split; [reflexivity|]); unfold rowval; cbn [fst hd tl dot]; lra.
Qed.

(** [lift] of a complement is not the cylinder over the complement: it is the
    lift of the operand.  The complement of [0,1], lifted with a second
    coordinate in [0,1], does not contain (2, 1/2). *)
Theorem region_lift_complement_refuted : exists var r q,
  leaves (fun p => good (body p) /\ has_dim 1 p) r /\ Permutation (lift_dims var) (seq 0 1) /\
  rlift var r = Ret q /\
  exists x y, length x = 1%nat /\ length y = length var /\ in_box var y /\ lifts var x y /\ denote r x /\ ~ denote q y.
Proof.
  exists [Dim 0; Box 0 1], (RCompl (RPoly (plain (seg 0 1)))). eexists. split.
  { cbn [leaves]. split; [apply (seg_solid 0 1 None None); lra|reflexivity]. }
  split; [apply Permutation_refl|]. split; [reflexivity|]. exists [2], [2; 1 # 2]. split; [reflexivity|]. split; [reflexivity|].
  split.
  { intros [|[|[|i]]] lo up H; try discriminate. injection H as <- <-. cbn [nth]. lra. }
  split.
  { intros [|[|[|i]]] k H; try discriminate. injection H as <-. reflexivity. }
  split.
  - cbn [denote body plain]. rewrite seg_member. lra.
  - cbn [denote body plain]. intros [_ H]. cbn in H. rewrite !Forall_cons_iff in H. unfold holds, rowval in H; simpl in H. lra.
Qed.
Print Assumptions region_lift_complement_refuted.

(** ** C19 *)

Theorem region_project : forall E, ext_ok E -> forall dims d r, unions_only r ->
  leaves (fun p => good (body p) /\ bounded (body p) /\ has_dim d p) r ->
  exists q, rproject E dims r = Ret q /\
    match q with
    | None => forall x, ~ denote r x
    | Some q => (exists x, denote r x) /\
        forall y, denote q y <-> exists x, denote r x /\ Forall2 Qeq y (selected dims 0 x)
    end.
Proof. exact rproject_unions. Qed.
Print Assumptions region_project.

(** With intersections the result contains the projection. *)
Theorem region_project_superset : forall E, ext_ok E -> forall dims d r q, positive r ->
  leaves (fun p => good (body p) /\ bounded (body p) /\ has_dim d p) r ->
  rproject E dims r = Ret q ->
  match q with
  | None => forall x, ~ denote r x
  | Some q => forall x, denote r x -> forall y, Forall2 Qeq y (selected dims 0 x) -> denote q y
  end.
Proof. exact rproject_sound. Qed.
Print Assumptions region_project_superset.

Definition box2 (a b c d : Q) : polytope :=
  mkPoly (mkMat [([- a; 1; 0], false); ([b; -1; 0], false); ([- c; 0; 1], false); ([d; 0; -1], false)] 3) false None.

Lemma box2_member : forall a b c d x y, member (box2 a b c d) [x; y] <-> (a <= x <= b) /\ (c <= y <= d).
Proof.
  intros. unfold member, mmember, box2; cbn [pmat ncol mrows]. rewrite !Forall_cons_iff. unfold holds, rowval; simpl. split.
  - intros (_ & H1 & H2 & H3 & H4 & _). lra.
  - intros [H1 H2]. split; [reflexivity|]. split; [lra|]. split; [lra|]. split; [lra|]. split; [lra|constructor].
Qed.

Lemma box2_len : forall a b c d x, member (box2 a b c d) x -> exists u v, x = [u; v].
Proof. intros a b c d x [L _]. destruct x as [|u [|v [|w x]]]; simpl in L; try discriminate. eauto. Qed.

(** It can contain more: [0,1]x[0,1] and [0,1]x[2,3] do not meet, but the
    intersection of their projections is [0,1]. *)
Theorem region_project_intersection_refuted : exists r q y,
  rproject fm_ext [0%nat] r = Ret (Some q) /\ denote q y /\ forall x, ~ denote r x.
Proof.
  exists (RInter [RPoly (plain (box2 0 1 0 1)); RPoly (plain (box2 0 1 2 3))]). eexists. exists [1 # 2].
  split; [vm_compute; reflexivity|]. split.
  - cbn [denote allP body]. split; [|split; [|exact Logic.I]]; (split; [reflexivity|]); cbn [mrows pmat]; repeat constructor; unfold holds, rowval; simpl; lra.
  - intros x. cbn [denote allP body plain]. intros (H1 & H2 & _). destruct (box2_len _ _ _ _ _ H1) as (u & v & ->).
    apply box2_member in H1, H2. lra.
Qed.
Print Assumptions region_project_intersection_refuted.

(** An intersection in which one operand projects to the empty set raises. *)
Theorem region_project_one_survivor_refuted : exists r,
  positive r /\ rproject fm_ext [0%nat] r = Raise IndexError.
Proof.
  exists (RInter [RPoly (plain (seg 0 1)); RPoly (plain (seg 1 0))]). split; [simpl; intuition; discriminate|]. vm_compute. reflexivity.
Qed.
Print Assumptions region_project_one_survivor_refuted.

(** ** Inclusion *)

(** Targets that are polytopes or intersections of such. *)
Fixpoint conj_form (r : region) : Prop :=
  match r with
  | RPoly _ => True
  | RInter rs => allP conj_form rs
  | _ => False
  end.

Lemma poly_subset_ok : forall E, ext_ok E -> forall p t d,
  good (body p) -> bounded (body p) -> (exists x, member (body p) x) -> has_dim d p ->
  conj_form t -> leaves (fun q => wf_mat (pmat (body q)) /\ has_dim d q) t ->
  exists b, poly_subset E p t = Ret b /\ (b = true <-> forall x, member (body p) x -> denote t x).
Proof.
  intros E OK p t d G B NE HD. induction t as [q|t IH|t IH|ts IH|ts IH|ts IH] using region_tree_ind; cbn [conj_form leaves]; intros CF LV; try tauto.
  - exists (is_subset_of E (body p) (body q)). split; [reflexivity|]. cbn [denote]. destruct LV as [Wq Hq]. unfold has_dim in *.
    apply is_subset_of_ok; auto; [apply G|congruence|]. intros r _. now apply bounded_rows.
  - cbn [poly_subset]. destruct (allM_ok (poly_subset E p) (fun t => forall x, member (body p) x -> denote t x) ts) as (b & Eb & Hb).
    { rewrite allP_iff in CF, LV. rewrite Forall_forall in *. intros a Ha. apply IH; auto. }
    exists b. split; [exact Eb|]. rewrite Hb. cbn [denote]. rewrite allP_iff. split.
    + intros H x Mx. rewrite allP_iff. intros a Ha. now apply H.
    + intros H a Ha x Mx. specialize (H x Mx). rewrite allP_iff in H. auto.
Qed.

Theorem region_is_subset_of : forall E, ext_ok E -> forall d r t,
  unions_only r -> leaves (fun p => good (body p) /\ bounded (body p) /\ has_dim d p /\ exists x, member (body p) x) r ->
  conj_form t -> leaves (fun q => wf_mat (pmat (body q)) /\ has_dim d q) t ->
  exists b, ris_subset_of E r t = Ret b /\ (b = true <-> forall x, denote r x -> denote t x).
Proof.
  intros E OK d r t UO LV CF LT.
  assert (U : forall rs, Forall (fun r => unions_only r ->
      leaves (fun p => good (body p) /\ bounded (body p) /\ has_dim d p /\ exists x, member (body p) x) r ->
      exists b, ris_subset_of E r t = Ret b /\ (b = true <-> forall x, denote r x -> denote t x)) rs ->
    allP unions_only rs ->
    allP (leaves (fun p => good (body p) /\ bounded (body p) /\ has_dim d p /\ exists x, member (body p) x)) rs ->
    exists b, allM (fun c => ris_subset_of E c t) rs = Ret b /\ (b = true <-> forall x, anyP (fun c => denote c x) rs -> denote t x)).
  { intros rs IH UO' LV'. destruct (allM_ok (fun c => ris_subset_of E c t) (fun c => forall x, denote c x -> denote t x) rs) as (b & Eb & Hb).
    { rewrite allP_iff in UO', LV'. rewrite Forall_forall in *. intros a Ha. apply IH; auto. }
    exists b. split; [exact Eb|]. rewrite Hb, allP_iff. split.
    - intros H x D. apply anyP_iff in D as (a & Ha & D). eauto.
    - intros H a Ha x D. apply H. apply anyP_iff. eauto. }
  induction r as [p|r IH|r IH|rs IH|rs IH|rs IH] using region_tree_ind; cbn [unions_only leaves] in *; try tauto.
  - destruct LV as (A & B & C & D). cbn [ris_subset_of denote]. now apply (poly_subset_ok E OK p t d).
  - exact (U rs IH UO LV).
  - exact (U rs IH UO LV).
Qed.
Print Assumptions region_is_subset_of.

(** A union as the target is not supported: the children are regions, and
    [is_covered_by] needs polytopes. *)
Theorem region_is_subset_of_union_refuted : forall E p q qs,
  ris_subset_of E (RPoly p) (RUnion (q :: qs)) = Raise AttributeError.
Proof. reflexivity. Qed.
Print Assumptions region_is_subset_of_union_refuted.

(** ** C20 *)

Theorem region_from_union_of_halfplanes : forall E, ext_ok E -> forall n hps box,
  (1 <= n)%nat -> Forall (fun r => length r = n) box -> (exists r, In r box /\ ~ zero_row r) ->
  Forall (fun r => length r = n /\ ~ zero_row r) hps ->
  exists ps, from_union_of_halfplanes E hps box = Ret (RDisj (map (fun p => RPoly (plain p)) ps)) /\
    Forall good ps /\
    (forall x, denote (RDisj (map (fun p => RPoly (plain p)) ps)) x <->
       S (length x) = n /\ Forall (fun r => 0 <= rowval r x) box /\ Exists (fun h => 0 <= rowval h x) hps) /\
    ForallOrdPairs (fun p q => forall x, ~ (interior p x /\ interior q x)) ps.
Proof.
  intros E OK n hps box N LB NZ FH.
  destruct (halfplane_polys_ok E OK n box N LB NZ hps [] FH ltac:(constructor)) as (ps & Eps & F1 & F2 & _ & F4).
  exists ps. unfold from_union_of_halfplanes. rewrite Eps; cbn [bind]. split; [reflexivity|].
  split; [eapply Forall_impl; [|exact F1]; cbv beta; tauto|]. split; [|exact F4].
  intro x. cbn [denote]. rewrite anyP_iff. transitivity (in_union ps x).
  - unfold in_union. split.
    + intros (a & Ha & D). apply in_map_iff in Ha as (p & <- & Hp). exists p. auto.
    + intros (p & Hp & M). eexists. split; [apply in_map; exact Hp|exact M].
  - rewrite F2. intuition.
Qed.
Print Assumptions region_from_union_of_halfplanes.

(** ** C21 *)

Lemma labels_leaves : forall L r, incl (labels r) L -> leaves (fun p => forall l, plabel p = Some l -> In l L) r.
Proof.
  intros L r. induction r as [p|r IH|r IH|rs IH|rs IH|rs IH] using region_tree_ind; cbn [labels leaves]; auto; intro I.
  - intros l E. rewrite E in I. apply I. now left.
  - rewrite allP_iff. rewrite Forall_forall in IH. intros a Ha. apply IH; [auto|]. intros l Hl. apply I. apply in_flat_map. eauto.
  - rewrite allP_iff. rewrite Forall_forall in IH. intros a Ha. apply IH; [auto|]. intros l Hl. apply I. apply in_flat_map. eauto.
  - rewrite allP_iff. rewrite Forall_forall in IH. intros a Ha. apply IH; [auto|]. intros l Hl. apply I. apply in_flat_map. eauto.
Qed.

(** [as_disjoint_union] of a tree of polytopes, disjoint unions and
    intersections, none of whose polytopes is flat (polytopes without points
    are allowed). *)
Theorem region_as_disjoint_union : forall E, ext_ok E -> forall order, (forall k l, Permutation (order k l) l) ->
  forall d track r, (1 <= d)%nat -> disjoint_form r -> leaves (solid d) r ->
  (track = true -> leaves (fun p => plabel p <> None) r) ->
  exists ps, as_disjoint_union E order track r = Ret (RDisj (map RPoly ps)) /\
    Forall (solid d) ps /\
    (forall x, denote (RDisj (map RPoly ps)) x -> denote r x) /\
    (forall x, length x = d -> inside (denote r) x -> denote (RDisj (map RPoly ps)) x) /\
    (exists H, Forall (fun h => length h = S d /\ ~ zero_row h) H /\
       forall x, denote r x -> denote (RDisj (map RPoly ps)) x \/ Exists (fun h => rowval h x == 0) H) /\
    (truly_disjoint r -> ForallOrdPairs (fun p q => forall x, ~ (interior (body p) x /\ interior (body q) x)) ps) /\
    (track = true -> Forall (fun p => exists ds, deps p = Some ds /\ incl ds (labels r)) ps).
Proof.
  intros E OK order OO d track r D1 DF LS LT.
  assert (LU : leaves (usable d track (labels r)) r).
  { assert (G : forall (P Q R : lpoly -> Prop) (s : region), (forall p, P p -> Q p -> R p) -> leaves P s -> leaves Q s -> leaves R s).
    { intros P Q R s H. induction s as [p|s IH|s IH|rs IH|rs IH|rs IH] using region_tree_ind; cbn [leaves]; auto;
        intros A B; rewrite allP_iff in *; rewrite Forall_forall in IH; intros a Ha; auto. }
    pose proof (labels_leaves (labels r) r (incl_refl _)) as LL. destruct track.
    - pose proof (G _ _ (fun p => plabel p <> None /\ forall l, plabel p = Some l -> In l (labels r)) r (fun p A B => conj A B) (LT eq_refl) LL) as LL'.
      apply (G _ _ _ r) with (2 := LS) (3 := LL'). intros p A [B C]. split; [auto|]. intros _. destruct (plabel p) as [l|]; [|congruence]. eauto.
    - apply (G (solid d) (solid d)); auto. intros p A B. split; [auto|discriminate]. }
  destruct (disjoint_poly_ok E OK order OO d D1 track (labels r) r DF LU) as (L & EL & FL & (H & HO) & DL).
  exists L. unfold as_disjoint_union. rewrite EL; cbn [bind]. split; [reflexivity|].
  assert (W : forall x, denote (RDisj (map RPoly L)) x <-> within L x).
  { intro x. cbn [denote]. rewrite anyP_iff. unfold within. split.
    - intros (a & Ha & M). apply in_map_iff in Ha as (p & <- & Hp). exists p. auto.
    - intros (p & Hp & M). exists (RPoly p). split; [now apply in_map|exact M]. }
  split; [eapply Forall_impl; [|exact FL]; intros p [A _]; exact A|].
  pose proof HO as (HH & HS & HC). split; [intros x Hx; apply HS, W; exact Hx|]. split.
  { intros x Lx I. apply W. exact (exact_off_inside d D1 track (labels r) H L (denote r) FL HO x Lx I). }
  split.
  { exists H. split; [exact HH|]. intros x Dx.
    destruct (Forall_Exists_dec (fun r => ~ rowval r x == 0)) with (l := H) as [F|X].
    - intro h. destruct (Qeq_dec (rowval h x) 0) as [Z|Z]; [right; tauto|left; auto].
    - left. apply W. now apply HC.
    - right. apply Exists_exists in X as (h & Hh & Nh). apply Exists_exists. exists h. split; [auto|].
      destruct (Qeq_dec (rowval h x) 0); tauto. }
  split; [exact DL|]. intro T. eapply Forall_impl; [|exact FL]. intros p [_ A]. auto.
Qed.
Print Assumptions region_as_disjoint_union.

(** A region that is the closure of its inner points is preserved exactly. *)
Theorem region_as_disjoint_union_regular : forall E, ext_ok E -> forall order, (forall k l, Permutation (order k l) l) ->
  forall d r, (1 <= d)%nat -> disjoint_form r -> leaves (solid d) r ->
  (forall x, denote r x -> forall e, 0 < e -> exists y, near e x y /\ inside (denote r) y) ->
  exists ps, as_disjoint_union E order false r = Ret (RDisj (map RPoly ps)) /\
    forall x, denote r x -> length x = d -> forall e, 0 < e -> exists y, near e x y /\ denote (RDisj (map RPoly ps)) y.
Proof.
  intros E OK order OO d r D1 DF LS REG.
  destruct (region_as_disjoint_union E OK order OO d false r D1 DF LS ltac:(discriminate)) as (ps & Eps & _ & _ & IN & _).
  exists ps. split; [auto|]. intros x Dx Lx e He. destruct (REG x Dx e He) as (y & Ny & Iy). exists y. split; [auto|].
  apply IN; [destruct Ny; lia|auto].
Qed.
Print Assumptions region_as_disjoint_union_regular.

(** Unions and complements are refused, and so is an empty intersection. *)
Theorem region_as_disjoint_union_unsupported_refuted : forall E order track r rs,
  as_disjoint_union E order track (RUnion rs) = Raise NotImplementedError /\
  as_disjoint_union E order track (RCompl r) = Raise NotImplementedError /\
  as_disjoint_union E order track (RInter []) = Raise IndexError.
Proof. intros. split; [reflexivity|]. split; reflexivity. Qed.
Print Assumptions region_as_disjoint_union_unsupported_refuted.

Definition same_order (k : nat) (l : list nat) : list nat := l.

(** Parts without interior disappear: [0,1] and [1,2] meet in 1. *)
Theorem region_as_disjoint_union_boundary_refuted : exists r x,
  disjoint_form r /\ leaves (solid 1) r /\ denote r x /\
  as_disjoint_union fm_ext same_order false r = Ret (RDisj []) /\ ~ denote (RDisj []) x.
Proof.
  exists (RInter [RPoly (plain (seg 0 1)); RPoly (plain (seg 1 2))]), [1]. split; [simpl; intuition; discriminate|].
  split; [cbn [leaves allP]; split; [apply seg_solid; lra|split; [apply seg_solid; lra|exact Logic.I]]|].
  split; [cbn [denote allP body plain]; rewrite !seg_member; lra|].
  split; [vm_compute; reflexivity|]. intros [].
Qed.
Print Assumptions region_as_disjoint_union_boundary_refuted.

(** ** C22 *)

Theorem simplify_union_of_polys_correct : forall E, ext_ok E -> forall order, (forall k l, Permutation (order k l) l) ->
  forall d ps, (1 <= d)%nat -> Forall (solid d) ps ->
  exists qs, simplify_union_of_polys (try_union2 E false) order ps = Ret qs /\ Forall (solid d) qs /\
    (forall x, denote (RUnion (map RPoly qs)) x <-> denote (RUnion (map RPoly ps)) x) /\
    (length qs <= length ps)%nat /\
    ForallOrdPairs (fun a b => (exists x, member (body a) x) -> (exists x, member (body b) x) ->
       ~ convex_set (fun x => member (body a) x \/ member (body b) x)) qs /\
    (ForallOrdPairs (fun a b => forall x, ~ (interior (body a) x /\ interior (body b) x)) ps ->
     ForallOrdPairs (fun a b => forall x, ~ (interior (body a) x /\ interior (body b) x)) qs).
Proof.
  intros E OK order OO d ps D1 F.
  assert (FP : Forall (piece d false []) ps) by (eapply Forall_impl; [|exact F]; intros p Hp; split; [auto|discriminate]).
  destruct (simplify_pieces_ok E OK order OO d D1 false [] ps FP) as (qs & Eqs & FQ & U & L & DJ & NM).
  exists qs. split; [auto|]. split; [eapply Forall_impl; [|exact FQ]; intros p [A _]; exact A|].
  split; [|split; [auto|split; [exact NM|exact DJ]]].
  assert (W : forall L x, denote (RUnion (map RPoly L)) x <-> within L x).
  { intros K x. cbn [denote]. rewrite anyP_iff. unfold within. split.
    - intros (a & Ha & M). apply in_map_iff in Ha as (p & <- & Hp). exists p. auto.
    - intros (p & Hp & M). exists (RPoly p). split; [now apply in_map|exact M]. }
  intro x. rewrite !W. apply U.
Qed.
Print Assumptions simplify_union_of_polys_correct.

(** The loop is correct for any way of merging two objects that returns their
    union: it terminates, keeps the union, never grows, and leaves no pair that
    the given function would merge. *)
Theorem simplify_union_of_polys_any_merge : forall (T : Type) (merge : T -> T -> res (option T)) (pts : T -> point -> Prop) order,
  (forall k l, Permutation (order k l) l) ->
  (forall a b, exists r, merge a b = Ret r /\ match r with Some u => forall x, pts u x <-> pts a x \/ pts b x | None => True end) ->
  forall l, exists out, simplify_union_of_polys merge order l = Ret out /\
    (forall x, (exists p, In p out /\ pts p x) <-> exists p, In p l /\ pts p x) /\
    (length out <= length l)%nat /\
    ForallOrdPairs (fun a b => merge a b = Ret None \/ merge b a = Ret None) out.
Proof.
  intros T merge pts order OO M l.
  destruct (simplify_union_generic merge order OO (fun _ => True) pts (fun _ _ => True) (fun a b => merge a b = Ret None)
    ltac:(auto)) with (polys := l) as (out & Eo & _ & U & L & _ & N).
  - intros a b _ _. destruct (M a b) as (r & Er & Hr). exists r. split; [auto|]. destruct r; [auto|exact Er].
  - apply Forall_forall. auto.
  - exists out. auto.
Qed.
Print Assumptions simplify_union_of_polys_any_merge.

(** Region.simplify keeps the set. *)
Theorem region_simplify : forall E, ext_ok E -> forall order, (forall k l, Permutation (order k l) l) ->
  forall d r, (1 <= d)%nat -> leaves (solid d) r ->
  exists b q, simplify E order r = Ret (b, q) /\ forall x, denote q x <-> denote r x.
Proof.
  intros E OK order OO d r D1 LV.
  assert (LP : forall rs ps, leaf_polys rs = Some ps -> rs = map RPoly ps).
  { induction rs as [|a rs IH]; simpl; intros ps H; [injection H as <-; reflexivity|].
    destruct a; try discriminate. destruct (leaf_polys rs); [|discriminate]. injection H as <-. simpl. f_equal. auto. }
  assert (LS : forall ps, allP (leaves (solid d)) (map RPoly ps) -> Forall (solid d) ps).
  { induction ps; simpl; intro H; constructor; tauto. }
  destruct r as [p|r|r|rs|rs|rs]; cbn [simplify].
  1,2,3,6: eexists; eexists; split; [reflexivity|tauto].
  - destruct (leaf_polys rs) as [ps|] eqn:LF; [|eexists; eexists; split; [reflexivity|tauto]].
    apply LP in LF. subst rs. cbn [leaves] in LV.
    destruct (simplify_union_of_polys_correct E OK order OO d ps D1 (LS ps LV)) as (qs & Eq & _ & U & _). rewrite Eq; cbn [bind].
    eexists; eexists. split; [reflexivity|exact U].
  - destruct (leaf_polys rs) as [ps|] eqn:LF; [|eexists; eexists; split; [reflexivity|tauto]].
    apply LP in LF. subst rs. cbn [leaves] in LV.
    destruct (simplify_union_of_polys_correct E OK order OO d ps D1 (LS ps LV)) as (qs & Eq & _ & U & _). rewrite Eq; cbn [bind].
    eexists; eexists. split; [reflexivity|exact U].
Qed.
Print Assumptions region_simplify.

(** The returned flag does not tell whether anything was merged. *)
Theorem region_simplify_flag_refuted : exists r q,
  simplify fm_ext same_order r = Ret (true, q) /\ q = r.
Proof. exists (RUnion [RPoly (plain (seg 0 1))]). eexists. split; reflexivity. Qed.
Print Assumptions region_simplify_flag_refuted.

(** ** Dependency tracking (C48) *)

(** The recorded dependencies of the pieces need not suffice: with
    A = [0,1] u [2,3] labelled 0 and B = [0,1] labelled 1, the only piece of
    A n B depends on label 0 alone, but from the operands labelled 0 alone one
    gets the point 5/2 as well. *)
Theorem region_dependencies_sufficient_refuted : exists r ra p,
  disjoint_form r /\ leaves (solid 1) r /\ labels r = [0; 0; 1]%nat /\
  as_disjoint_union fm_ext same_order true r = Ret (RDisj [RPoly p]) /\ deps p = Some [0%nat] /\
  (* the part of the input labelled 0 *)
  r = RInter [ra; RPoly (mkLPoly (seg 0 1) (Some 1%nat) None)] /\ labels ra = [0; 0]%nat /\
  denote ra [5 # 2] /\ ~ denote r [5 # 2].
Proof.
  set (ra := RDisj [RPoly (mkLPoly (seg 0 1) (Some 0%nat) None); RPoly (mkLPoly (seg 2 3) (Some 0%nat) None)]).
  exists (RInter [ra; RPoly (mkLPoly (seg 0 1) (Some 1%nat) None)]), ra. eexists.
  split; [simpl; intuition; discriminate|].
  split; [cbn [leaves allP ra]; split; [split; [apply seg_solid; lra|split; [apply seg_solid; lra|exact Logic.I]]|split; [apply seg_solid; lra|exact Logic.I]]|].
  split; [reflexivity|]. split; [vm_compute; reflexivity|]. split; [reflexivity|]. split; [reflexivity|]. split; [reflexivity|].
  split.
  - cbn [denote anyP ra body]. right. left. rewrite seg_member. lra.
  - cbn [denote allP body]. intros (_ & H & _). apply seg_member in H. lra.
Qed.
Print Assumptions region_dependencies_sufficient_refuted.

(** ** Concrete cases *)

Definition r_ex : region :=
  RInter [RDisj [RPoly (mkLPoly (seg 0 2) (Some 0%nat) None); RPoly (mkLPoly (seg 3 5) (Some 0%nat) None)];
          RDisj [RPoly (mkLPoly (seg 1 4) (Some 1%nat) None)]].

Example ex_hypotheses : disjoint_form r_ex /\ leaves (solid 1) r_ex /\
  leaves (fun p => plabel p <> None) r_ex /\ truly_disjoint r_ex.
Proof.
  split; [simpl; intuition; discriminate|]. split; [|split].
  - cbn [leaves allP r_ex]. repeat split; apply seg_solid; lra.
  - cbn [leaves allP r_ex plabel]. repeat split; discriminate.
  - cbn [truly_disjoint allP r_ex]. repeat split; auto; repeat constructor.
    intros x [(e1 & E1 & N1) (e2 & E2 & N2)].
    assert (N : forall e, 0 < e -> near e x x) by (intros e He; split; [auto|]; intro i; setoid_replace (nth i x 0 - nth i x 0) with 0 by ring; change (Qabs 0) with 0; lra).
    specialize (N1 x (N e1 E1)). specialize (N2 x (N e2 E2)). cbn [denote body] in N1, N2.
    destruct (seg_len _ _ _ N1) as (v & ->). apply seg_member in N1, N2. lra.
Qed.

Example ex_disjoint_union :
  (let! q := as_disjoint_union fm_ext same_order true r_ex in
   let! a := rcontains q [3 # 2] in let! b := rcontains q [7 # 2] in let! c := rcontains q [5 # 2] in
   Ret (a, b, c)) = Ret (true, true, false).
Proof. vm_compute. reflexivity. Qed.

Example ex_halfplanes :
  (let! q := from_union_of_halfplanes fm_ext [[-1; 1; 0]; [-1; 0; 1]] [[0; 1; 0]; [2; -1; 0]; [0; 0; 1]; [2; 0; -1]] in
   let! a := rcontains q [3 # 2; 1 # 2] in let! b := rcontains q [1 # 2; 3 # 2] in let! c := rcontains q [1 # 2; 1 # 2] in
   Ret (a, b, c)) = Ret (true, true, false).
Proof. vm_compute. reflexivity. Qed.

Example ex_simplify :
  (let! (b, q) := simplify fm_ext same_order (RUnion (map (fun p => RPoly (plain p)) [seg 0 1; seg 3 4; seg 1 2])) in
   match q with RUnion l => Ret (length l) | _ => Ret 0%nat end) = Ret 2%nat.
Proof. vm_compute. reflexivity. Qed.

Example ex_project :
  (let! q := rproject fm_ext [0%nat] (RUnion [RPoly (plain (box2 0 1 0 1)); RPoly (plain (box2 3 4 0 1))]) in
   match q with Some q => let! a := rcontains q [7 # 2] in let! b := rcontains q [2] in Ret (a, b) | None => Ret (false, false) end)
  = Ret (true, false).
Proof. vm_compute. reflexivity. Qed.

(** A union one of whose pieces has no points. *)
Lemma seg_void : forall a b l ds, b < a -> solid 1 (mkLPoly (seg a b) l ds).
Proof.
  intros a b l ds H. assert (V : ~ exists x, member (seg a b) x).
  { intros (x & M). destruct (seg_len a b x M) as (v & ->). apply seg_member in M. lra. }
  split; [|split; [|split; [reflexivity|]]]; cbn [body].
  - split; [split; [simpl; lia|repeat constructor]|]. split; [|split; [discriminate|exact Logic.I]].
    constructor; [|constructor; [|constructor]]; cbn [fst]; intro Z; inversion Z as [|? ? _ Z1]; subst; inversion Z1; subst; lra.
  - exists 0. intros x i M. exfalso. apply V. eauto.
  - intro M. contradiction.
Qed.

Definition r_void : region :=
  RInter [RDisj [RPoly (plain (seg 0 2)); RPoly (plain (seg 5 4))]; RDisj [RPoly (plain (seg 1 4)); RPoly (plain (seg 3 2))]].

Example ex_void : disjoint_form r_void /\ leaves (solid 1) r_void /\
  (let! q := as_disjoint_union fm_ext same_order false r_void in
   let! a := rcontains q [3 # 2] in let! b := rcontains q [3] in let! c := rcontains q [9 # 2] in
   Ret (a, b, c)) = Ret (true, false, false).
Proof.
  split; [simpl; intuition; discriminate|]. split; [|vm_compute; reflexivity].
  cbn [leaves allP r_void]. repeat split; first [apply seg_solid; lra|apply seg_void; lra].
Qed.
