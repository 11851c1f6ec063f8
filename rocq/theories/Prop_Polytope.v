(** Properties C09 to C16: polytopes.  Every theorem holds for every solver
    meeting the contract [ext_ok]; [fm_ext_ok] shows that a computable solver
    meets it, and the examples are evaluated with that solver. *)
From Coq Require Import Permutation.
From Verif Require Import Base LinAlg Model_Polytope Spec_Polytope FM_Ext Proof_Polytope Proof_PolytopeMaps
  Proof_PolytopeLP Proof_PolytopeSets Proof_PolytopeUnion.

Theorem solver_contract_met : ext_ok fm_ext.
Proof. exact fm_ext_ok. Qed.
Print Assumptions solver_contract_met.

(** ** C09 *)

Theorem polytope_constructor : forall E, ext_ok E -> forall rows linear canonical n,
  (1 <= n)%nat -> Forall (fun r => length r = n) rows -> (exists r, In r rows /\ ~ zero_row r) ->
  exists p, Polytope E rows linear canonical = Ret p /\ good p /\ ncol (pmat p) = n /\
    forall x, member p x <-> S (length x) = n /\
      Forall (fun r => if linear then rowval r x == 0 else 0 <= rowval r x) rows.
Proof.
  intros E OK rows linear canonical n N L Z.
  destruct (Polytope_ok E OK rows linear canonical n N L Z) as (p & A & B & C & _ & D).
  exists p. split; [auto|]. split; [auto|]. split; [auto|]. exact D.
Qed.
Print Assumptions polytope_constructor.

(** [contains] decides membership and rejects points of another dimension. *)
Theorem polytope_contains : forall p x,
  (S (length x) = ncol (pmat p) -> exists b, contains p x = Ret b /\ (b = true <-> member p x)) /\
  (S (length x) <> ncol (pmat p) -> contains p x = Raise ValueError).
Proof.
  intros p x. split; intro H.
  - destruct (contains p x) as [[]|e] eqn:C.
    + exists true. split; [reflexivity|]. apply contains_true in C. tauto.
    + exists false. split; [reflexivity|]. split; [discriminate|]. intro M. apply contains_false in C as [_ C]. contradiction.
    + apply contains_raise in C as [_ C]. contradiction.
  - destruct (contains p x) as [[]|e] eqn:C.
    + apply contains_true in C as [L _]. contradiction.
    + apply contains_false in C as [L _]. contradiction.
    + apply contains_raise in C as [-> _]. reflexivity.
Qed.
Print Assumptions polytope_contains.

Theorem polytope_intersection : forall E, ext_ok E -> forall polys canonical n,
  polys <> [] -> Forall (fun q => good q /\ ncol (pmat q) = n) polys ->
  exists r, intersection E polys canonical = Ret r /\ good r /\ ncol (pmat r) = n /\
    forall x, member r x <-> forall q, In q polys -> member q x.
Proof.
  intros E OK [|p others] canonical n NE F; [congruence|].
  destruct (intersection_ok E OK p others canonical n F) as (r & A & B & C & D).
  exists r. split; [auto|]. split; [auto|]. split; [auto|]. intro x. rewrite D. apply Forall_forall.
Qed.
Print Assumptions polytope_intersection.

Theorem polytope_intersect : forall E, ext_ok E -> forall p q,
  good p -> good q -> ncol (pmat p) = ncol (pmat q) ->
  exists r s, intersect E p q = Ret r /\ intersect E q p = Ret s /\ good r /\
    (forall x, member r x <-> member p x /\ member q x) /\ forall x, member s x <-> member r x.
Proof.
  intros E OK p q Gp Gq N. unfold intersect.
  assert (F1 : Forall (fun r => good r /\ ncol (pmat r) = ncol (pmat q)) [p; q]) by (constructor; [auto|constructor; auto]).
  assert (F2 : Forall (fun r => good r /\ ncol (pmat r) = ncol (pmat q)) [q; p]) by (constructor; [auto|constructor; auto]).
  destruct (polytope_intersection E OK [p; q] true (ncol (pmat q)) ltac:(discriminate) F1) as (r & Er & Gr & _ & Mr).
  destruct (polytope_intersection E OK [q; p] true (ncol (pmat q)) ltac:(discriminate) F2) as (s & Es & Gs & _ & Ms).
  exists r, s. split; [auto|]. split; [auto|]. split; [auto|].
  assert (A : forall x, member r x <-> member p x /\ member q x).
  { intro x. rewrite Mr. cbn [In]. split; [intro H; split; apply H; auto|intros [? ?] ? [<-|[<-|[]]]; auto]. }
  split; [auto|]. intro x. rewrite A, Ms. cbn [In]. split; [intro H; split; apply H; auto|intros [? ?] ? [<-|[<-|[]]]; auto].
Qed.
Print Assumptions polytope_intersect.

(** Equality of polytopes (equality of vertex sets) implies equality of the
    sets of points. *)
Theorem polytope_equality_sound : forall E, ext_ok E -> forall p q,
  good p -> bounded p -> good q -> bounded q -> ncol (pmat p) = ncol (pmat q) ->
  polytope_eqb E p q = true -> forall x, member p x <-> member q x.
Proof.
  assert (H : forall E, ext_ok E -> forall p q, good p -> bounded p -> good q -> bounded q -> ncol (pmat p) = ncol (pmat q) ->
     forallb (fun v => existsb (qlist_eqb v) (get_vertices E q)) (get_vertices E p) = true ->
     forall x, member p x -> member q x).
  { intros E OK p q Gp Bp Gq Bq N H x Mx.
    destruct (get_vertices_spans E OK p Gp Bp) as [_ S2]. destruct (get_vertices_spans E OK q Gq Bq) as [S1 _].
    apply (conv_member (pmat q) (get_vertices E p)); [|destruct Mx; lia|now apply S2].
    rewrite forallb_forall in H. apply Forall_forall. intros v Hv. specialize (H v Hv).
    apply existsb_exists in H as (w & Hw & Ew). apply qlist_eqb_spec in Ew. rewrite Forall_forall in S1.
    pose proof (Forall2_len _ _ _ Ew). apply (mmember_peq _ v w); auto. now apply peq_Forall2. }
  intros E OK p q Gp Bp Gq Bq N Q x. unfold polytope_eqb in Q. apply andb_true_iff in Q as [Q1 Q2].
  split; [now apply (H E OK p q)|now apply (H E OK q p)].
Qed.
Print Assumptions polytope_equality_sound.

(** The converse fails: a vertex list given to [from_V_rep] is kept as it is, so
    the segment [0,1] built from 0, 1/2, 1 is unequal to the one built from 0, 1. *)
Theorem polytope_equality_complete_refuted : exists p q,
  from_V_rep fm_ext [[0]; [1 # 2]; [1]] = Ret (Some p) /\ from_V_rep fm_ext [[0]; [1]] = Ret (Some q) /\
  polytope_eqb fm_ext p q = false /\ forall x, member p x <-> member q x.
Proof.
  do 2 eexists. split; [reflexivity|]. split; [reflexivity|]. split; [vm_compute; reflexivity|].
  intro x. unfold member, mmember. vm_compute pmat. cbn [mrows ncol].
  split; intros [L H]; (split; [exact L|]); destruct x as [|u [|v x]]; simpl in L; try discriminate;
    rewrite !Forall_cons_iff in *; unfold holds, rowval in *; simpl in *; repeat split; try apply Forall_nil; lra.
Qed.
Print Assumptions polytope_equality_complete_refuted.

(** ** C10 *)

Theorem polytope_rect : forall E, ext_ok E -> forall lims, lims <> [] ->
  exists p, rect E lims = Ret p /\ good p /\
    forall x, member p x <-> length x = length lims /\
      forall i lo hi, nth_error lims i = Some (lo, hi) -> lo <= nth i x 0 <= hi.
Proof.
  intros E OK lims H. destruct (rect_ok E OK lims H) as (p & A & B & _ & _ & C). exists p. auto.
Qed.
Print Assumptions polytope_rect.

Theorem polytope_scale : forall E, ext_ok E -> forall p j f add,
  good p -> (S j < ncol (pmat p))%nat -> ~ f == 0 ->
  Forall (fun r => length r = ncol (pmat p) /\ ~ zero_row r) add ->
  (mrows (pmat p) <> [] \/ add <> []) ->
  exists r, scale E p (S j) f add = Ret r /\ good r /\
    forall y, member r y <->
      (exists x, member p x /\ Forall2 Qeq y (stretch j f x)) /\ Forall (fun a => 0 <= rowval a y) add.
Proof.
  intros E OK p j f add G L N A B. destruct (scale_ok E OK p j f add G L N A B) as (r & H1 & H2 & _ & H3). exists r. auto.
Qed.
Print Assumptions polytope_scale.

Theorem polytope_scale_all : forall p fs,
  good p -> S (length fs) = ncol (pmat p) -> Forall (fun f => ~ f == 0) fs -> mrows (pmat p) <> [] ->
  exists r, scale_all p fs = Ret r /\ good r /\
    forall y, member r y <-> exists x, member p x /\ Forall2 Qeq y (stretch_all fs x).
Proof.
  intros p fs G L N A. destruct (scale_all_ok p fs G L N A) as (r & H1 & H2 & _ & H3). exists r. auto.
Qed.
Print Assumptions polytope_scale_all.

(** Scaling a polytope with no rows (the whole space) fails. *)
Theorem polytope_scale_no_rows_refuted : forall E, exists p f,
  good p /\ ~ f == 0 /\ scale E p 1 f [] = Raise UnboundLocalError.
Proof.
  intro E. exists (mkPoly (mkMat [] 2) false None), 2. split; [|split; [lra|reflexivity]].
  split; [split; [simpl; lia|constructor]|]. split; [constructor|]. split; [discriminate|constructor].
Qed.
Print Assumptions polytope_scale_no_rows_refuted.

(** ** C11 *)

Theorem polytope_substitute : forall p values,
  wf_mat (pmat p) -> mrows (pmat p) <> [] -> NoDup (map fst values) ->
  (forall k v, In (k, v) values -> (S k < ncol (pmat p))%nat) ->
  exists r, substitute p values = Ret r /\ wf_mat (pmat r) /\
    forall y, member r y <->
      exists x, member p x /\ (forall k v, In (k, v) values -> nth k x 0 == v) /\
                Forall2 Qeq y (remaining (map fst values) 0 x).
Proof.
  intros p values W NE ND K. destruct (substitute_ok p values W NE ND K) as (r & A & B & _ & C). exists r. auto.
Qed.
Print Assumptions polytope_substitute.

Theorem polytope_lift : forall p var,
  good p -> Permutation (lift_dims var) (seq 0 (ncol (pmat p) - 1)) ->
  (matrix_as_list (pmat p) false <> [] \/ exists lo up, In (Box lo up) var) ->
  exists r, lift p var = Ret r /\ good r /\
    forall x, member r x <-> length x = length var /\ in_box var x /\
      exists z, member p z /\ lifts var z x.
Proof.
  intros p var G P NE. destruct (lift_ok p var G P NE) as (r & A & B & _ & C). exists r. auto.
Qed.
Print Assumptions polytope_lift.

(** A lift that omits a dimension is not the cylinder over the projection: it
    substitutes zero.  The square [1,2]x[1,2] lifted to its first coordinate
    only is empty. *)
Theorem polytope_lift_missing_dim_refuted : exists p var,
  good p /\ no_equalities (pmat p) /\ NoDup (lift_dims var) /\
  (exists z x, member p z /\ length x = length var /\ lifts var z x) /\
  exists r, lift p var = Ret r /\ forall x, ~ member r x.
Proof.
  set (m := mkMat (map (fun r => (r, false)) [[-1; 1; 0]; [2; -1; 0]; [-1; 0; 1]; [2; 0; -1]]) 3).
  exists (mkPoly m false None), [Dim 0].
  assert (NZ : forall r, In r (mrows m) -> ~ zero_row (fst r)).
  { intros r H Z. unfold zero_row in Z. rewrite Forall_forall in Z.
    simpl in H. destruct H as [<-|[<-|[<-|[<-|[]]]]]; cbn [fst] in Z.
    - specialize (Z 1 ltac:(simpl; auto)). lra.
    - specialize (Z 2 ltac:(simpl; auto)). lra.
    - specialize (Z 1 ltac:(simpl; auto)). lra.
    - specialize (Z 2 ltac:(simpl; auto)). lra. }
  split.
  { split; [split; [simpl; lia|repeat constructor]|]. split; [apply Forall_forall; exact NZ|]. split; [discriminate|constructor]. }
  split; [repeat constructor|]. split; [constructor; [simpl; tauto|constructor]|]. split.
  - exists [1; 1], [1]. split; [|split; [reflexivity|]].
    + split; [reflexivity|]. repeat constructor; unfold holds, rowval; simpl; lra.
    + intros [|[|i]] k H; simpl in H; try discriminate. injection H as <-. simpl. reflexivity.
  - eexists. split; [reflexivity|]. intros x [L H]. cbn in H.
    apply Forall_forall with (x := ([-1; 0], false)) in H; [|simpl; auto].
    unfold holds, rowval in H; simpl in H. destruct x as [|a [|b x]]; simpl in *; try discriminate. lra.
Qed.
Print Assumptions polytope_lift_missing_dim_refuted.

(** ** C12 *)

Theorem polytope_is_empty_closed : forall E, ext_ok E -> forall p, wf_mat (pmat p) ->
  exists b, is_empty E p true = Ret b /\ (b = true <-> ~ exists x, member p x).
Proof.
  intros E OK p W. exists (is_empty_closed E p). split; [reflexivity|].
  pose proof (is_empty_closed_ok E OK p W) as H. destruct (is_empty_closed E p).
  - tauto.
  - split; [discriminate|contradiction].
Qed.
Print Assumptions polytope_is_empty_closed.

Theorem polytope_is_empty_open : forall E, ext_ok E -> forall p, wf_mat (pmat p) -> no_zero_rows (pmat p) ->
  exists b, is_empty E p false = Ret b /\ (b = true <-> ~ exists x, interior p x).
Proof.
  intros E OK p W NZ. destruct (is_empty_open_ok E OK p W NZ) as (b & A & B). exists b. split; [auto|]. destruct b.
  - tauto.
  - split; [discriminate|contradiction].
Qed.
Print Assumptions polytope_is_empty_open.

(** [is_full_dim] agrees with having interior points (its canonicalisation does
    not change the set). *)
Theorem polytope_is_full_dim : forall E, ext_ok E -> forall p, good p -> (exists x, member p x) ->
  (fst (is_full_dim E p) = true <-> exists x, interior p x) /\
  good (snd (is_full_dim E p)) /\ forall x, member (snd (is_full_dim E p)) x <-> member p x.
Proof. intros E OK. exact (is_full_dim_ok E OK). Qed.
Print Assumptions polytope_is_full_dim.

(** Rows that [substitute] turns into 0 >= 0 make the strict test answer "empty"
    for a set with interior points: substituting y := 0 in {0 <= x <= 1, 0 <= y <= 1}. *)
Theorem polytope_is_empty_after_substitute_refuted : exists p values r,
  good p /\ substitute p values = Ret r /\ is_empty fm_ext r false = Ret true /\ exists x, interior r x.
Proof.
  set (m := mkMat (map (fun r => (r, false)) [[0; 1; 0]; [1; -1; 0]; [0; 0; 1]; [1; 0; -1]]) 3).
  exists (mkPoly m false None), [(1%nat, 0)]. eexists. split.
  { split; [split; [simpl; lia|repeat constructor]|]. split; [|split; [discriminate|constructor]].
    apply Forall_forall. intros r H Z. unfold zero_row in Z. rewrite Forall_forall in Z.
    simpl in H. destruct H as [<-|[<-|[<-|[<-|[]]]]]; cbn [fst] in Z.
    - specialize (Z 1 ltac:(simpl; auto)). lra.
    - specialize (Z 1 ltac:(simpl; auto)). lra.
    - specialize (Z 1 ltac:(simpl; auto)). lra.
    - specialize (Z 1 ltac:(simpl; auto)). lra. }
  split; [reflexivity|]. split; [vm_compute; reflexivity|].
  exists [1 # 2]. split.
  - split; [reflexivity|]. cbn. repeat constructor; unfold holds, rowval; simpl; lra.
  - exists (1 # 2). split; [lra|]. intros y [L H]. destruct y as [|a [|b y]]; simpl in L; try discriminate.
    specialize (H 0%nat). cbn [nth] in H. apply Qabs_Qle_condition in H.
    split; [reflexivity|]. cbn. repeat constructor; unfold holds, rowval; simpl; lra.
Qed.
Print Assumptions polytope_is_empty_after_substitute_refuted.

(** ** C13 *)

Theorem polytope_is_subset_of : forall E, ext_ok E -> forall p q,
  wf_mat (pmat p) -> wf_mat (pmat q) -> ncol (pmat p) = ncol (pmat q) ->
  bounded p -> (exists x, member p x) ->
  (is_subset_of E p q = true <-> forall x, member p x -> member q x).
Proof.
  intros E OK p q Wp Wq N B NE. apply is_subset_of_ok; auto. intros r _. now apply bounded_rows.
Qed.
Print Assumptions polytope_is_subset_of.

(** The objective value is read without looking at the status, so for an
    unbounded set the answer is whatever number the solver leaves there: a
    solver meeting the contract makes the half-line {x >= 0} a subset of
    {x <= 1}. *)
Theorem polytope_is_subset_of_unbounded_refuted : exists E p q,
  ext_ok E /\ good p /\ good q /\ is_subset_of E p q = true /\ exists x, member p x /\ ~ member q x.
Proof.
  exists fm_ext, (mkPoly (mkMat [([0; 1], false)] 2) false None), (mkPoly (mkMat [([1; -1], false)] 2) false None).
  split; [exact fm_ext_ok|].
  assert (G : forall r, length r = 2%nat -> ~ nth 1 r 0 == 0 -> good (mkPoly (mkMat [(r, false)] 2) false None)).
  { intros r L N. split; [split; [simpl; lia|repeat constructor; auto]|]. split; [|split; [discriminate|constructor]].
    constructor; [|constructor]. cbn [fst]. intro Z. apply N. unfold zero_row in Z. rewrite Forall_forall in Z.
    apply Z. apply nth_In. lia. }
  split; [apply G; [reflexivity|simpl; lra]|]. split; [apply G; [reflexivity|simpl; lra]|].
  split; [vm_compute; reflexivity|]. exists [2]. split.
  - split; [reflexivity|]. repeat constructor. unfold holds, rowval; simpl; lra.
  - intros [_ H]. inversion H. unfold holds, rowval in H2; simpl in H2. lra.
Qed.
Print Assumptions polytope_is_subset_of_unbounded_refuted.

(** ** C14 *)

Theorem polytope_is_covered_by : forall E, ext_ok E -> forall p polys,
  good p -> (exists x, interior p x) -> polys <> [] ->
  Forall (fun q => good q /\ ncol (pmat q) = ncol (pmat p)) polys ->
  exists b, is_covered_by E p polys = Ret b /\
    (b = true <-> forall x, member p x -> in_union polys x).
Proof.
  intros E OK p polys (W & NZ & _) (z & Iz) NE F.
  destruct (covered_ok E OK polys p W NZ) as (b & Eb & T & Fb).
  { eapply Forall_impl; [|exact F]. cbv beta. unfold good. tauto. }
  exists b. split; [auto|]. split.
  - intros Hb x Mx. apply (closure_cover (pmat p) polys).
    + exists z. now apply interior_iff.
    + eapply Forall_impl; [|exact F]. cbv beta. tauto.
    + apply (T Hb).
    + exact Mx.
  - intro H. destruct b; auto. destruct (Fb eq_refl) as [->|(x & Sx & Nx)]; [congruence|].
    destruct (H x) as (q & Hq & Mq).
    + apply (interior_iff (pmat p) x W NZ) in Sx. apply Sx.
    + rewrite Forall_forall in Nx. exfalso. exact (Nx q Hq Mq).
Qed.
Print Assumptions polytope_is_covered_by.

(** With an empty list the answer is False, also for an empty set; and a
    set with an equality row counts as covered by anything. *)
Theorem polytope_is_covered_by_flat_refuted : exists p q,
  good p /\ good q /\ is_covered_by fm_ext p [q] = Ret true /\ exists x, member p x /\ ~ in_union [q] x.
Proof.
  exists (mkPoly (mkMat [([0; 1], true)] 2) false None), (mkPoly (mkMat [([-1; 1], false)] 2) false None).
  assert (G : forall r b, length r = 2%nat -> ~ nth 1 r 0 == 0 -> good (mkPoly (mkMat [(r, b)] 2) false None)).
  { intros r b L N. split; [split; [simpl; lia|repeat constructor; auto]|]. split; [|split; [discriminate|constructor]].
    constructor; [|constructor]. cbn [fst]. intro Z. apply N. unfold zero_row in Z. rewrite Forall_forall in Z.
    apply Z. apply nth_In. lia. }
  split; [apply G; [reflexivity|simpl; lra]|]. split; [apply G; [reflexivity|simpl; lra]|].
  split; [vm_compute; reflexivity|]. exists [0]. split.
  - split; [reflexivity|]. repeat constructor.
  - intros (q & [<-|[]] & [_ H]). inversion H. unfold holds, rowval in H2; simpl in H2. lra.
Qed.
Print Assumptions polytope_is_covered_by_flat_refuted.

(** ** C15 *)

Theorem polytope_set_minus : forall E, ext_ok E -> forall p q,
  good p -> good q -> ncol (pmat q) = ncol (pmat p) -> no_equalities (pmat q) ->
  exists parts, set_minus E p q true = Ret parts /\
    (forall r, In r parts -> (exists x, interior r x) /\ forall x, member r x -> member p x /\ ~ interior q x) /\
    ForallOrdPairs (fun r s => forall x, ~ (interior r x /\ interior s x)) parts /\
    ((exists x, interior p x) -> forall x, member p x -> member q x \/ in_union parts x).
Proof.
  intros E OK p q Gp Gq N NE. pose proof Gp as (Wp & NZp & _). pose proof Gq as (Wq & NZq & _).
  destruct (set_minus_ok E OK p q true Wp NZp Wq NZq N NE) as (parts & Ep & P1 & P2 & P3 & P4).
  exists parts. split; [auto|]. split; [|split].
  - intros r Hr. rewrite Forall_forall in P1, P3. destruct (P1 r Hr) as (_ & _ & _ & H). auto.
  - clear - P2. induction P2 as [|a l H1 H2 IH]; constructor; auto. eapply Forall_impl; [|exact H1].
    cbv beta. intros s H x [A B]. apply (H x). split; [auto|]. apply B.
  - intros (z & Iz) x Mx.
    destruct (closure_cover (pmat p) (q :: parts)) with (x := x) as (r & [<-|Hr] & Mr); auto.
    + exists z. now apply interior_iff.
    + constructor; auto. eapply Forall_impl; [|exact P1]. cbv beta. tauto.
    + intros y Sy. destruct (member_dec q y) as [M|NM].
      * exists q. split; [now left|auto].
      * destruct (P4 y) as (r & A & B); auto; [now apply (interior_iff (pmat p))|]. exists r. split; [now right|auto].
    + right. exists r. auto.
Qed.
Print Assumptions polytope_set_minus.

(** Without dropping thin pieces the cover is exact for every A. *)
Theorem polytope_set_minus_unsimplified : forall E, ext_ok E -> forall p q,
  good p -> good q -> ncol (pmat q) = ncol (pmat p) -> no_equalities (pmat q) ->
  exists parts, set_minus E p q false = Ret parts /\
    (forall r x, In r parts -> member r x -> member p x /\ ~ interior q x) /\
    ForallOrdPairs (fun r s => forall x, ~ (interior r x /\ interior s x)) parts /\
    (forall x, member p x -> member q x \/ in_union parts x).
Proof.
  intros E OK p q Gp Gq N NE. pose proof Gp as (Wp & NZp & _). pose proof Gq as (Wq & NZq & _).
  destruct (set_minus_ok E OK p q false Wp NZp Wq NZq N NE) as (parts & Ep & P1 & P2 & P3).
  exists parts. split; [auto|]. split; [|split].
  - intros r x Hr. rewrite Forall_forall in P1. destruct (P1 r Hr) as (_ & _ & _ & H). auto.
  - clear - P2. induction P2 as [|a l H1 H2 IH]; constructor; auto. eapply Forall_impl; [|exact H1].
    cbv beta. intros s H x [A B]. apply (H x). split; [auto|]. apply B.
  - intros x Mx. destruct (member_dec q x) as [M|NM]; [now left|right]. exact (P3 x Mx NM).
Qed.
Print Assumptions polytope_set_minus_unsimplified.

(** Equality rows of B are ignored: removing the segment {y = 0, 0 <= x <= 1}
    from the unit square leaves nothing. *)
Theorem polytope_set_minus_equalities_refuted : exists p q,
  good p /\ good q /\ set_minus fm_ext p q true = Ret [] /\ exists x, interior p x /\ ~ member q x.
Proof.
  set (m := mkMat (map (fun r => (r, false)) [[0; 1; 0]; [1; -1; 0]; [0; 0; 1]; [1; 0; -1]]) 3).
  set (s := mkMat [([0; 1; 0], false); ([1; -1; 0], false); ([0; 0; 1], true)] 3).
  exists (mkPoly m false None), (mkPoly s false None).
  assert (NZ : forall r, In r [[0; 1; 0]; [1; -1; 0]; [0; 0; 1]; [1; 0; -1]] -> ~ zero_row r).
  { intros r H Z. apply is_zero_row_iff in Z. simpl in H.
    destruct H as [<-|[<-|[<-|[<-|[]]]]]; vm_compute in Z; discriminate. }
  split; [|split; [|split]].
  - split; [split; [simpl; lia|repeat constructor]|]. split; [|split; [discriminate|constructor]].
    apply Forall_forall. intros r Hr. apply in_map_iff in Hr as (r' & <- & Hr). now apply NZ.
  - split; [split; [simpl; lia|repeat constructor]|]. split; [|split; [discriminate|constructor]].
    apply Forall_forall. intros r Hr. apply NZ. simpl in Hr. destruct Hr as [<-|[<-|[<-|[]]]]; simpl; auto.
  - vm_compute. reflexivity.
  - exists [1 # 2; 1 # 2]. split.
    + apply interior_iff.
      * split; [simpl; lia|repeat constructor].
      * apply Forall_forall. intros r Hr. apply in_map_iff in Hr as (r' & <- & Hr). now apply NZ.
      * split; [reflexivity|]. intros rb Hr. simpl in Hr.
        destruct Hr as [<-|[<-|[<-|[<-|[]]]]]; (split; [reflexivity|]); unfold rowval; simpl; lra.
    + intros [_ H]. apply Forall_forall with (x := ([0; 0; 1], true)) in H; [|simpl; auto].
      unfold holds, rowval in H; simpl in H. lra.
Qed.
Print Assumptions polytope_set_minus_equalities_refuted.

(** ** C16 *)

Theorem polytope_try_union : forall E, ext_ok E -> forall polys n, (2 <= n)%nat ->
  Forall (fun q => good q /\ bounded q /\ ncol (pmat q) = n) polys ->
  (exists p z, In p polys /\ interior p z) ->
  exists r, try_union E polys = Ret r /\
    match r with
    | Some u => good u /\ forall x, member u x <-> in_union polys x
    | None => (forall q, In q polys -> exists x, member q x) -> ~ convex_set (in_union polys)
    end.
Proof. intros E OK. exact (try_union_ok E OK). Qed.
Print Assumptions polytope_try_union.

(** Without an interior point the result can be larger than the union: three
    collinear segments give the segment that spans them. *)
Definition flat_segment (a b : Q) : polytope :=
  mkPoly (mkMat [([- a; 1; 0], false); ([b; -1; 0], false); ([0; 0; 1], true)] 3) false None.

Lemma flat_segment_ok : forall a b, good (flat_segment a b) /\ bounded (flat_segment a b).
Proof.
  intros a b. split.
  - split; [split; [simpl; lia|repeat constructor]|]. split; [|split; [discriminate|constructor]].
    repeat constructor; cbn [fst]; intro Z; unfold zero_row in Z; rewrite Forall_forall in Z.
    + specialize (Z 1 ltac:(simpl; auto)). lra.
    + specialize (Z (-1) ltac:(simpl; auto)). lra.
    + specialize (Z 1 ltac:(simpl; auto)). lra.
  - exists (Qabs a + Qabs b). intros x i [L H]. cbn in L. destruct x as [|u [|v [|w x]]]; simpl in L; try discriminate.
    cbn [mrows flat_segment pmat] in H. rewrite !Forall_cons_iff in H. destruct H as (H1 & H2 & H3 & _).
    unfold holds, rowval in H1, H2, H3; simpl in H1, H2, H3.
    pose proof (Qabs_nonneg a). pose proof (Qabs_nonneg b).
    pose proof (Qle_Qabs b). pose proof (Qle_Qabs (- a)) as Ha. rewrite Qabs_opp in Ha.
    apply Qabs_Qle_condition. destruct i as [|[|i]]; cbn [nth].
    + split; lra.
    + split; lra.
    + destruct i; split; lra.
Qed.

Theorem polytope_try_union_flat_refuted : exists polys u x,
  Forall (fun q => good q /\ bounded q /\ ncol (pmat q) = 3%nat) polys /\
  try_union fm_ext polys = Ret (Some u) /\ member u x /\ ~ in_union polys x.
Proof.
  exists [flat_segment 0 1; flat_segment 2 3; flat_segment 4 5]. eexists. exists [3 # 2; 0].
  split; [|split; [vm_compute; reflexivity|split]].
  - repeat (constructor; [split; [apply flat_segment_ok|split; [apply flat_segment_ok|reflexivity]]|]). constructor.
  - split; [reflexivity|]. cbn. repeat constructor; unfold holds, rowval; simpl; lra.
  - intros (q & [<-|[<-|[<-|[]]]] & [_ H]); cbn [mrows flat_segment pmat] in H; rewrite !Forall_cons_iff in H;
      destruct H as (H1 & H2 & _); unfold holds, rowval in H1, H2; simpl in H1, H2; lra.
Qed.
Print Assumptions polytope_try_union_flat_refuted.

(** ** Vertices, hyperplanes, projection, centroid *)

(** The vertices are points of the set and every point is a convex combination
    of them. *)
Theorem polytope_vertices : forall E, ext_ok E -> forall p, good p -> bounded p ->
  Forall (member p) (get_vertices E p) /\ forall x, member p x -> conv (get_vertices E p) x.
Proof. intros E OK p G B. exact (get_vertices_spans E OK p G B). Qed.
Print Assumptions polytope_vertices.

(** [intersects] is True exactly when points of the set lie strictly on both
    sides of the hyperplane. *)
Theorem polytope_intersects : forall E, ext_ok E -> forall p a, good p -> bounded p ->
  (intersects E p a = true <-> exists x y, member p x /\ member p y /\ rowval a x < 0 /\ 0 < rowval a y).
Proof. intros E OK. exact (intersects_ok E OK). Qed.
Print Assumptions polytope_intersects.

(** The centroid is a point of the set, and every affine function has there the
    mean of its values at the vertices. *)
Theorem polytope_centroid : forall E, ext_ok E -> forall p, good p -> bounded p -> (exists x, member p x) ->
  exists c, get_centroid E p = Ret c /\ member p c /\
    forall a, inject_Z (Z.of_nat (length (get_vertices E p))) * rowval a c == qsum (map (rowval a) (get_vertices E p)).
Proof. intros E OK. exact (get_centroid_ok E OK). Qed.
Print Assumptions polytope_centroid.

Theorem polytope_project : forall E, ext_ok E -> forall p dims, good p -> bounded p ->
  exists r, project E p dims = Ret r /\
  match r with
  | None => ~ exists x, member p x
  | Some q => good q /\ (exists x, member p x) /\
      forall y, member q y <-> exists x, member p x /\ Forall2 Qeq y (selected dims 0 x)
  end.
Proof.
  intros E OK p dims G B. destruct (project_ok E OK p dims G B) as (r & Er & H). exists r. split; [auto|].
  destruct r as [q|]; auto. destruct H as (A & C & D). split; [auto|]. split; [auto|]. intro y. rewrite D.
  split; intros (x & Mx & H); exists x; (split; [auto|]).
  - apply peq_Forall2; tauto.
  - pose proof (Forall2_len _ _ _ H). split; [auto|]. now apply peq_Forall2.
Qed.
Print Assumptions polytope_project.

(** ** Concrete cases *)

Definition square (a b c d : Q) : res polytope := rect fm_ext [(a, b); (c, d)].

Example ex_rect : (let! p := square 0 1 0 2 in contains p [1 # 2; 3 # 2]) = Ret true.
Proof. reflexivity. Qed.

Example ex_intersect :
  (let! p := square 0 1 0 1 in let! q := square (1 # 2) 2 0 1 in
   let! r := intersect fm_ext p q in
   let! a := contains r [3 # 4; 1 # 2] in let! b := contains r [1 # 4; 1 # 2] in Ret (a, b)) = Ret (true, false).
Proof. vm_compute. reflexivity. Qed.

Example ex_empty : (let! p := square 0 1 0 1 in let! q := square 1 2 0 1 in
   let! r := intersection fm_ext [p; q] false in
   let! a := is_empty fm_ext r true in let! b := is_empty fm_ext r false in Ret (a, b)) = Ret (false, true).
Proof. vm_compute. reflexivity. Qed.

Example ex_subset : (let! p := square 0 1 0 1 in let! q := square 0 2 0 1 in
   Ret (is_subset_of fm_ext p q, is_subset_of fm_ext q p)) = Ret (true, false).
Proof. vm_compute. reflexivity. Qed.

Example ex_covered : (let! p := square 0 2 0 1 in let! q := square 0 1 0 1 in let! r := square 1 2 0 1 in
   let! a := is_covered_by fm_ext p [q; r] in let! b := is_covered_by fm_ext p [q] in Ret (a, b)) = Ret (true, false).
Proof. vm_compute. reflexivity. Qed.

Example ex_set_minus : (let! p := square 0 2 0 1 in let! q := square 0 1 0 1 in
   let! ps := set_minus fm_ext p q true in Ret (length ps)) = Ret 1%nat.
Proof. vm_compute. reflexivity. Qed.

Example ex_union_some : (let! p := square 0 1 0 1 in let! q := square 1 2 0 1 in
   let! u := try_union fm_ext [p; q] in
   match u with Some u => let! a := contains u [3 # 2; 1 # 2] in Ret (Some a) | None => Ret None end) = Ret (Some true).
Proof. vm_compute. reflexivity. Qed.

Example ex_union_none : (let! p := square 0 1 0 1 in let! q := square 1 2 0 2 in
   let! u := try_union fm_ext [p; q] in
   match u with Some u => Ret true | None => Ret false end) = Ret false.
Proof. vm_compute. reflexivity. Qed.

Example ex_project : (let! p := square 0 1 2 3 in let! r := project fm_ext p [1%nat] in
   match r with Some q => let! a := contains q [5 # 2] in let! b := contains q [1] in Ret (a, b) | None => Raise ValueError end) = Ret (true, false).
Proof. vm_compute. reflexivity. Qed.

(** The unit square meets the hypotheses used above: it is well formed, bounded
    and has an interior point. *)
Example ex_square_hypotheses : exists p, square 0 1 0 1 = Ret p /\ good p /\ bounded p /\
  no_equalities (pmat p) /\ ncol (pmat p) = 3%nat /\ exists x, interior p x.
Proof.
  destruct (polytope_rect fm_ext fm_ext_ok [(0, 1); (0, 1)] ltac:(discriminate)) as (p & Ep & G & M).
  exists p. split; [exact Ep|]. split; [exact G|].
  assert (B : forall x, member p x -> exists u v, x = [u; v] /\ 0 <= u <= 1 /\ 0 <= v <= 1).
  { intros x Mx. apply M in Mx as [L H]. destruct x as [|u [|v [|w x]]]; simpl in L; try discriminate.
    exists u, v. split; [reflexivity|]. split; [apply (H 0%nat); reflexivity|apply (H 1%nat); reflexivity]. }
  split; [|split; [|split]].
  - exists 1. intros x i Mx. destruct (B x Mx) as (u & v & -> & U & V).
    apply Qabs_Qle_condition. destruct i as [|[|[|i]]]; cbn [nth]; split; lra.
  - injection Ep as <-. repeat constructor.
  - injection Ep as <-. reflexivity.
  - exists [1 # 2; 1 # 2]. split.
    + apply M. split; [reflexivity|]. intros [|[|[|i]]] lo hi H; simpl in H; try discriminate; injection H as <- <-; cbn [nth]; lra.
    + exists (1 # 2). split; [lra|]. intros y [L H]. destruct y as [|u [|v [|w y]]]; simpl in L; try discriminate.
      pose proof (H 0%nat) as H0. pose proof (H 1%nat) as H1. cbn [nth] in H0, H1.
      apply Qabs_Qle_condition in H0, H1. apply M. split; [reflexivity|].
      intros [|[|[|i]]] lo hi E; simpl in E; try discriminate; injection E as <- <-; cbn [nth]; lra.
Qed.
