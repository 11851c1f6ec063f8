(** Property C03. *)
From Verif Require Import Base Model_Interval Spec_Interval Model_Affine Spec_Affine
  Proof_Interval Proof_Affine Proof_AffineMerge.

(** ** Exactness when [self] is nowhere the only function (inside the domain).
    The pieces returned are disjoint and ordered, cover exactly the covered part
    of the domain, and each has the minimal value everywhere on its domain. *)
Theorem min_with_exact : forall self f2 domain,
  Forall well_formed (self :: f2) ->
  match domain with None => True | Some d => wf d end ->
  (forall x, in_domain domain x -> covers self x -> exists g, In g f2 /\ covers g x) ->
  exists out, min_with self f2 domain = Ret out /\
    ordered out /\
    (forall x, (exists p, In p out /\ covers p x) <->
               in_domain domain x /\ exists g, In g (self :: f2) /\ covers g x) /\
    (forall p x, In p out -> covers p x -> is_min_of (self :: f2) x (value p x)).
Proof.
  intros self f2 domain W Wd H.
  destruct (compare_covered lt_cmp 1 lt_cmp_spec self f2 domain W Wd H) as [out [E [_ [O [Cv B]]]]].
  exists out. unfold min_with, compare_with. rewrite E. cbn [bind]. unfold deref_all. cbn [fst snd].
  rewrite map_map. cbn. rewrite map_id. split; auto. split; auto. split; auto.
  intros p x Hp Hx. destruct (B p x Hp Hx) as [[g [Hg [Hgx [_ Hf]]]] Hb]. split.
  - exists g. split; auto. split; auto. now apply same_fun_value.
  - intros f Hff Hfx. specialize (Hb f Hff Hfx). lra.
Qed.
Print Assumptions min_with_exact.

Theorem max_with_exact : forall self f2 domain,
  Forall well_formed (self :: f2) ->
  match domain with None => True | Some d => wf d end ->
  (forall x, in_domain domain x -> covers self x -> exists g, In g f2 /\ covers g x) ->
  exists out, max_with self f2 domain = Ret out /\
    ordered out /\
    (forall x, (exists p, In p out /\ covers p x) <->
               in_domain domain x /\ exists g, In g (self :: f2) /\ covers g x) /\
    (forall p x, In p out -> covers p x -> is_max_of (self :: f2) x (value p x)).
Proof.
  intros self f2 domain W Wd H.
  destruct (compare_covered gt_cmp (-(1)) gt_cmp_spec self f2 domain W Wd H) as [out [E [_ [O [Cv B]]]]].
  exists out. unfold max_with, compare_with. rewrite E. cbn [bind]. unfold deref_all. cbn [fst snd].
  rewrite map_map. cbn. rewrite map_id. split; auto. split; auto. split; auto.
  intros p x Hp Hx. destruct (B p x Hp Hx) as [[g [Hg [Hgx [_ Hf]]]] Hb]. split.
  - exists g. split; auto. split; auto. now apply same_fun_value.
  - intros f Hff Hfx. specialize (Hb f Hff Hfx). lra.
Qed.
Print Assumptions max_with_exact.

(** ** With labels that determine the function, any overlap is allowed, but then
    only the best of the returned pieces at a point is exact: every returned
    piece is a valid input value at each of its points, and some returned piece
    attains the minimum. *)
Theorem min_with_labelled : forall self f2 domain,
  Forall well_formed (self :: f2) ->
  match domain with None => True | Some d => wf d end ->
  (forall g h, In g (self :: f2) -> In h (self :: f2) -> label g = label h -> same_fun g h) ->
  exists out, min_with self f2 domain = Ret out /\
    (forall p x, In p out -> covers p x ->
       exists g, In g (self :: f2) /\ covers g x /\ label g = label p /\ value g x == value p x) /\
    (forall x, in_domain domain x -> (exists g, In g (self :: f2) /\ covers g x) ->
       exists p, In p out /\ covers p x /\ is_min_of (self :: f2) x (value p x)).
Proof.
  intros self f2 domain W Wd HL.
  destruct (compare_labelled lt_cmp 1 lt_cmp_spec self f2 domain W Wd HL) as [s' [refs [E [_ [_ [K3 [K4 _]]]]]]].
  exists (map (deref s') refs). unfold min_with, compare_with. rewrite E. cbn [bind]. split; auto.
  assert (S : forall p x, In p (map (deref s') refs) -> covers p x ->
       exists g, In g (self :: f2) /\ covers g x /\ label g = label p /\ value g x == value p x).
  { intros p x Hp Hx. apply in_map_iff in Hp. destruct Hp as [r [<- Hr]].
    destruct (K3 r x Hr Hx) as [g [Hg [Hgx [Hl Hf]]]]. exists g. split; auto. split; auto. split; auto.
    now apply same_fun_value. }
  split; auto. intros x Dx Hg. destruct (K4 x Dx Hg) as [r [Hr [Hx Hb]]].
  exists (deref s' r). assert (Hin : In (deref s' r) (map (deref s') refs)) by now apply in_map.
  split; auto. split; auto. split.
  - destruct (S _ x Hin Hx) as [g [H1 [H2 [_ H4]]]]. exists g; auto.
  - intros f Hf Hfx. specialize (Hb f Hf Hfx). lra.
Qed.
Print Assumptions min_with_labelled.

Theorem max_with_labelled : forall self f2 domain,
  Forall well_formed (self :: f2) ->
  match domain with None => True | Some d => wf d end ->
  (forall g h, In g (self :: f2) -> In h (self :: f2) -> label g = label h -> same_fun g h) ->
  exists out, max_with self f2 domain = Ret out /\
    (forall p x, In p out -> covers p x ->
       exists g, In g (self :: f2) /\ covers g x /\ label g = label p /\ value g x == value p x) /\
    (forall x, in_domain domain x -> (exists g, In g (self :: f2) /\ covers g x) ->
       exists p, In p out /\ covers p x /\ is_max_of (self :: f2) x (value p x)).
Proof.
  intros self f2 domain W Wd HL.
  destruct (compare_labelled gt_cmp (-(1)) gt_cmp_spec self f2 domain W Wd HL) as [s' [refs [E [_ [_ [K3 [K4 _]]]]]]].
  exists (map (deref s') refs). unfold max_with, compare_with. rewrite E. cbn [bind]. split; auto.
  assert (S : forall p x, In p (map (deref s') refs) -> covers p x ->
       exists g, In g (self :: f2) /\ covers g x /\ label g = label p /\ value g x == value p x).
  { intros p x Hp Hx. apply in_map_iff in Hp. destruct Hp as [r [<- Hr]].
    destruct (K3 r x Hr Hx) as [g [Hg [Hgx [Hl Hf]]]]. exists g. split; auto. split; auto. split; auto.
    now apply same_fun_value. }
  split; auto. intros x Dx Hg. destruct (K4 x Dx Hg) as [r [Hr [Hx Hb]]].
  exists (deref s' r). assert (Hin : In (deref s' r) (map (deref s') refs)) by now apply in_map.
  split; auto. split; auto. split.
  - destruct (S _ x Hin Hx) as [g [H1 [H2 [_ H4]]]]. exists g; auto.
  - intros f Hf Hfx. specialize (Hb f Hf Hfx). lra.
Qed.
Print Assumptions max_with_labelled.

(** ** The unguarded claim is false of the code: without labels, a piece that
    is alone somewhere is returned with its whole domain and merged with a
    different function, so that a returned piece is below every input. *)
Theorem min_with_unguarded_refuted : exists self f2 domain out p x,
  Forall well_formed (self :: f2) /\ min_with self f2 domain = Ret out /\
  In p out /\ covers p x /\ in_domain domain x /\
  (forall g, In g (self :: f2) -> covers g x -> value p x < value g x).
Proof.
  exists (mkA 1 0 (mkI 1 2 true true) None), [mkA 0 1 (mkI 1 1 true true) None], None.
  eexists. eexists. exists 2.
  split; [repeat constructor; unfold well_formed, wf; cbn; lra|].
  split; [vm_compute; reflexivity|].
  split; [left; reflexivity|].
  split; [split; cbn; lra|]. split; [exact I|].
  intros g [<-|[<-|[]]] [H1 H2]; cbn in *; unfold value; cbn; lra.
Qed.
Print Assumptions min_with_unguarded_refuted.

(** Even with distinct labels the returned pieces can overlap with a
    non-minimal one listed first, so evaluating the first piece that contains
    the point is wrong. *)
Theorem min_with_first_piece_refuted : exists self f2 domain p rest x,
  Forall well_formed (self :: f2) /\
  (forall g h, In g (self :: f2) -> In h (self :: f2) -> label g = label h -> same_fun g h) /\
  min_with self f2 domain = Ret (p :: rest) /\
  covers p x /\ in_domain domain x /\
  exists g, In g (self :: f2) /\ covers g x /\ value g x < value p x.
Proof.
  exists (mkA 0 10 (mkI 0 3 true true) (Some 0%nat)), [mkA 0 1 (mkI 1 2 true true) (Some 1%nat)], None.
  eexists. eexists. exists (3#2).
  split; [repeat constructor; unfold well_formed, wf; cbn; lra|].
  split; [intros g h [<-|[<-|[]]] [<-|[<-|[]]] E; try discriminate; split; reflexivity|].
  split; [vm_compute; reflexivity|].
  split; [split; cbn; lra|]. split; [exact I|].
  exists (mkA 0 1 (mkI 1 2 true true) (Some 1%nat)). split; [right; now left|].
  split; [split; cbn; lra|]. unfold value; cbn; lra.
Qed.
Print Assumptions min_with_first_piece_refuted.

(** Non-vacuity: two crossing bounds on a common domain meet the hypotheses of
    the exactness theorem, and the result really has two pieces. *)
Example exact_hypotheses_met :
  let f := mkA 1 0 (mkI 0 1 true true) None in
  let g := mkA (-1) 1 (mkI 0 1 true true) None in
  Forall well_formed [f; g] /\
  (forall x, in_domain None x -> covers f x -> exists h, In h [g] /\ covers h x) /\
  exists a b, min_with f [g] None = Ret [a; b].
Proof.
  cbv zeta. split; [repeat constructor; unfold well_formed, wf; cbn; lra|]. split.
  - intros x _ H. eexists. split; [left; reflexivity|exact H].
  - eexists. eexists. vm_compute. reflexivity.
Qed.
Example labelled_hypotheses_met :
  let f := mkA 1 0 (mkI 0 2 true true) (Some 0%nat) in
  let g := mkA (-1) 1 (mkI 0 1 true true) (Some 1%nat) in
  forall a b, In a [f; g] -> In b [f; g] -> label a = label b -> same_fun a b.
Proof. cbv zeta. intros a b [<-|[<-|[]]] [<-|[<-|[]]] E; try discriminate; split; reflexivity. Qed.
