(** A computable solver that meets the assumptions [ext_ok].  It shows that
    the assumptions on cdd can be met together, and it runs the examples. *)
From Verif Require Import Base LinAlg FM Hull Model_Polytope Spec_Polytope.

(** ** Linear programming *)

Definition prows_of (m : mat) : list prow :=
  flat_map (fun rb : list Q * bool =>
    ([hd 0 (fst rb)], tl (fst rb)) ::
    (if snd rb then [([- hd 0 (fst rb)], vopp (tl (fst rb)))] else [])) (mrows m).

Lemma prows_sat : forall m p x, peq [hd 0 p] [1] ->
  (sat p x (prows_of m) <-> Forall (fun rb => holds rb x) (mrows m)).
Proof.
  intros m p x Hp.
  assert (H0 : hd 0 p == 1) by exact (Hp 0%nat).
  assert (D : forall a, dot [a] p == a).
  { intro a. destruct p as [|q p]; simpl in *; [lra|]. rewrite H0; ring. }
  unfold sat, prows_of. rewrite Forall_flat_map, !Forall_forall.
  split; intros H [r b] Hr; specialize (H (r, b) Hr); unfold holds, rowval in *; cbn [fst snd] in *.
  - apply Forall_cons_iff in H as [A B]. unfold pval in A; cbn [fst snd] in A. rewrite D in A.
    destruct b; auto. apply Forall_cons_iff in B as [B _]. unfold pval in B; cbn [fst snd] in B.
    rewrite D, dot_vopp_l in B. lra.
  - constructor.
    + unfold pval; cbn [fst snd]. rewrite D. destruct b; lra.
    + destruct b; constructor; auto. unfold pval; cbn [fst snd]. rewrite D, dot_vopp_l. lra.
Qed.

Definition feasible (m : mat) : bool :=
  forallb (fun h => Qleb 0 (dot h [1])) (heads (ncol m - 1) (prows_of m)).

Lemma feasible_iff : forall m, (1 <= ncol m)%nat -> (feasible m = true <-> exists x, mmember m x).
Proof.
  intros m W. unfold feasible. rewrite forallb_forall.
  assert (E : (forall h, In h (heads (ncol m - 1) (prows_of m)) -> Qleb 0 (dot h [1]) = true) <->
              Forall (fun h => 0 <= dot h [1]) (heads (ncol m - 1) (prows_of m))).
  { rewrite Forall_forall. split; intros H h Hh; apply Qleb_true; auto. }
  rewrite E, elim_iff. unfold mmember. split.
  - intros (x & L & S). exists x. split; [lia|]. apply (prows_sat m [1]); auto. reflexivity.
  - intros (x & L & S). exists x. split; [lia|]. apply (prows_sat m [1]); auto. reflexivity.
Qed.

(** Rows for [t <= c(x)] with parameters [1; t]. *)
Definition obj_row (c : list Q) : prow := ([hd 0 c; -1], tl c).

Lemma obj_row_iff : forall c t x, 0 <= pval [1; t] x (obj_row c) <-> t <= rowval c x.
Proof. intros. unfold pval, obj_row, rowval; cbn [fst snd dot]. split; intro; lra. Qed.

Definition tops (m : mat) (c : list Q) : list (list Q) := heads (ncol m - 1) (obj_row c :: prows_of m).

Definition ub (h : list Q) : Q := nth 0 h 0 / - nth 1 h 0.

Definition capped (hs : list (list Q)) : list (list Q) := filter (fun h => Qltb (nth 1 h 0) 0) hs.

Definition lp_max (m : mat) (c : list Q) : lp_result :=
  if feasible m then
    match capped (tops m c) with
    | [] => mkLP false 0 []
    | h :: hs =>
        let t := minl (ub h) (map ub hs) in
        let x := solve (ncol m - 1) (obj_row c :: prows_of m) [1; t] in
        mkLP true (rowval c x) x
    end
  else mkLP false 0 [].

Lemma dot_two : forall h t, dot h [1; t] == nth 0 h 0 + nth 1 h 0 * t.
Proof. intros [|a [|b h]] t; simpl; ring_simplify; try reflexivity. destruct h; simpl; ring. Qed.

Lemma ub_iff : forall h t, nth 1 h 0 < 0 -> (t <= ub h <-> 0 <= dot h [1; t]).
Proof.
  intros h t N. rewrite dot_two. unfold ub. split; intro A.
  - assert (t * (- nth 1 h 0) <= nth 0 h 0 / - nth 1 h 0 * (- nth 1 h 0)) by (apply Qmult_le_compat_r; lra).
    assert (E : nth 0 h 0 / - nth 1 h 0 * (- nth 1 h 0) == nth 0 h 0) by (field; lra). lra.
  - apply Qle_shift_div_l; lra.
Qed.

Lemma tops_iff : forall m c t, (1 <= ncol m)%nat ->
  (Forall (fun h => 0 <= dot h [1; t]) (tops m c) <-> exists x, mmember m x /\ t <= rowval c x).
Proof.
  intros m c t W. unfold tops. rewrite elim_iff. unfold mmember.
  pose proof (obj_row_iff c t) as O.
  split.
  - intros (x & L & S). exists x. unfold sat in S. apply Forall_cons_iff in S as [S1 S2].
    apply O in S1. repeat split; auto; [lia|]. apply (prows_sat m [1; t]); auto. reflexivity.
  - intros (x & (L & S) & T). exists x. split; [lia|]. constructor; [now apply O|].
    apply (prows_sat m [1; t]); auto. reflexivity.
Qed.

(** If [t0] is attained, every [t] below all caps and above [t0] is attained. *)
Lemma tops_raise : forall m c t0 t, (1 <= ncol m)%nat ->
  Forall (fun h => 0 <= dot h [1; t0]) (tops m c) -> t0 <= t ->
  Forall (fun h => t <= ub h) (capped (tops m c)) ->
  Forall (fun h => 0 <= dot h [1; t]) (tops m c).
Proof.
  intros m c t0 t W F T C. rewrite Forall_forall in *. intros h Hh.
  destruct (Qlt_le_dec (nth 1 h 0) 0) as [N|N].
  - apply ub_iff; auto. apply C. apply filter_In; split; auto. now apply Qltb_true.
  - specialize (F h Hh). cbv beta in F. rewrite dot_two in *. nra.
Qed.

Lemma lp_max_true : forall m c, (1 <= ncol m)%nat -> lp_optimal (lp_max m c) = true ->
  mmember m (lp_primal (lp_max m c)) /\ lp_obj (lp_max m c) == rowval c (lp_primal (lp_max m c)) /\
  forall y, mmember m y -> rowval c y <= lp_obj (lp_max m c).
Proof.
  intros m c W. unfold lp_max. destruct (feasible m) eqn:F; [|discriminate].
  apply feasible_iff in F as (x0 & M0); auto.
  destruct (capped (tops m c)) as [|h hs] eqn:C; [discriminate|]. cbn [lp_optimal lp_primal lp_obj]. intros _.
  set (t := minl (ub h) (map ub hs)).
  destruct (minl_le (map ub hs) (ub h)) as [T1 T2]. fold t in T1, T2. rewrite Forall_map in T2.
  assert (TC : Forall (fun g => t <= ub g) (capped (tops m c))) by (rewrite C; constructor; auto).
  assert (UP : forall y, mmember m y -> rowval c y <= t).
  { intros y My.
    assert (Y : Forall (fun g => 0 <= dot g [1; rowval c y]) (tops m c)) by (apply tops_iff; auto; exists y; split; [auto|lra]).
    assert (YC : Forall (fun g => rowval c y <= ub g) (h :: hs)).
    { rewrite <- C. apply Forall_forall. intros g Hg. apply filter_In in Hg as [Hg N]. apply Qltb_true in N.
      apply ub_iff; auto. rewrite Forall_forall in Y. now apply Y. }
    apply Forall_cons_iff in YC as [Y1 Y2].
    unfold t. destruct (minl_in (map ub hs) (ub h)) as [->|I]; auto.
    apply in_map_iff in I as (g & <- & Hg). rewrite Forall_forall in Y2. now apply Y2. }
  assert (A : Forall (fun g => 0 <= dot g [1; t]) (tops m c)).
  { apply (tops_raise m c (rowval c x0)); auto. apply tops_iff; auto. exists x0; split; [auto|lra]. }
  apply elim_complete in A.
  assert (A2 := A). unfold sat in A2. apply Forall_cons_iff in A2 as [A1 A2].
  assert (OB : t <= rowval c (solve (ncol m - 1) (obj_row c :: prows_of m) [1; t])).
  { now apply obj_row_iff. }
  split; [|split].
  - split; [rewrite solve_length; lia|]. apply (prows_sat m [1; t]); auto. reflexivity.
  - reflexivity.
  - intros y My. specialize (UP y My). lra.
Qed.

Lemma lp_max_false : forall m c, (1 <= ncol m)%nat -> lp_optimal (lp_max m c) = false ->
  (~ exists x, mmember m x) \/ (forall K, exists x, mmember m x /\ K <= rowval c x).
Proof.
  intros m c W. unfold lp_max. destruct (feasible m) eqn:F.
  - apply feasible_iff in F as (x0 & M0); auto.
    destruct (capped (tops m c)) as [|h hs] eqn:C; [|discriminate]. intros _. right. intro K.
    assert (A : Forall (fun g => 0 <= dot g [1; qmax K (rowval c x0)]) (tops m c)).
    { apply (tops_raise m c (rowval c x0)); auto.
      - apply tops_iff; auto. exists x0; split; [auto|lra].
      - apply qmax_ge.
      - rewrite C. constructor. }
    apply tops_iff in A as (x & Mx & Hx); auto. exists x. split; auto.
    pose proof (qmax_ge K (rowval c x0)). lra.
  - intros _. left. intro H. apply feasible_iff in H; auto. congruence.
Qed.

Definition fm_lp (m : mat) (mx : bool) (c : list Q) : lp_result :=
  if mx then lp_max m c
  else let r := lp_max m (vopp c) in mkLP (lp_optimal r) (- lp_obj r) (lp_primal r).

(** ** Vertices *)

(** A bound on all coordinates when there is one. *)
Definition coord_bound (m : mat) (i : nat) : Q :=
  qmax (lp_obj (lp_max m (0 :: unit i))) (lp_obj (lp_max m (0 :: vopp (unit i)))).

Definition box_bound (m : mat) : Q := maxl 1 (map (coord_bound m) (seq 0 (ncol m - 1))).

Fixpoint dedup (l : list (list Q)) : list (list Q) :=
  match l with
  | [] => []
  | r :: l' => if existsb (qlist_eqb r) l' then dedup l' else r :: dedup l'
  end.

(** Reduced fractions, no repetitions: keeps the lists short. *)
Definition tidy (vs : list point) : list point := dedup (map (map Qred) vs).

Lemma peq_Qred : forall v, peq (map Qred v) v.
Proof.
  intros v i. revert i. induction v as [|a v IH]; intros [|i]; simpl; try reflexivity; [apply Qred_correct|apply IH].
Qed.

Lemma dedup_In : forall l r, In r (dedup l) -> In r l.
Proof.
  induction l as [|a l IH]; simpl; auto. intros r H. destruct (existsb (qlist_eqb a) l); [auto|].
  destruct H as [H|H]; auto.
Qed.

Lemma dedup_complete : forall l r, In r l -> exists r', In r' (dedup l) /\ Forall2 Qeq r r'.
Proof.
  induction l as [|a l IH]; simpl; [tauto|]. intros r [<-|H].
  - destruct (existsb (qlist_eqb a) l) eqn:X.
    + apply existsb_exists in X as (b & Hb & X). apply qlist_eqb_spec in X.
      destruct (IH b Hb) as (c & Hc & Y). exists c. split; auto.
      clear - X Y. revert c Y. induction X; intros c Y; inversion Y; subst; constructor; auto. now rewrite H.
    + exists a. split; [now left|]. clear. induction a; constructor; auto. reflexivity.
  - destruct (IH r H) as (c & Hc & Y). exists c. split; auto. destruct (existsb (qlist_eqb a) l); simpl; auto.
Qed.

Lemma tidy_length : forall vs d, Forall (fun v : point => length v = d) vs -> Forall (fun v => length v = d) (tidy vs).
Proof.
  intros vs d F. rewrite Forall_forall in *. intros v H. unfold tidy in H. apply dedup_In in H.
  apply in_map_iff in H as (w & <- & Hw). rewrite map_length. auto.
Qed.

Lemma tidy_conv : forall vs x, conv (tidy vs) x <-> conv vs x.
Proof.
  intros vs x. split; apply conv_incl; intros v H.
  - apply dedup_In in H. apply in_map_iff in H as (w & <- & Hw).
    apply conv_cone. rewrite (peq_Qred w). apply conv_cone. now apply conv_in.
  - destruct (dedup_complete (map (map Qred) vs) (map Qred v)) as (w & Hw & E); [now apply in_map|].
    assert (P : peq v w).
    { pose proof (Forall2_len _ _ _ E) as L. apply (peq_Forall2 _ _ L) in E. now rewrite <- (peq_Qred v). }
    apply conv_cone. rewrite P. apply conv_cone. now apply conv_in.
Qed.

(** Drop points that lie on a segment between two of the others. *)
Fixpoint seg_ratio (v u w : point) : Q :=
  match v, u, w with
  | a :: v, b :: u, c :: w => if Qeqb b c then seg_ratio v u w else (a - b) / (c - b)
  | _, _, _ => 0
  end.

Definition on_segment (v u w : point) : bool :=
  let t := seg_ratio v u w in Qleb 0 t && Qleb t 1 && qlist_eqb v (mix t u w).

Definition between (v : point) (l : list point) : bool :=
  existsb (fun u => existsb (fun w => on_segment v u w) l) l.

Fixpoint prune (done todo : list point) : list point :=
  match todo with
  | [] => done
  | v :: todo => if between v (done ++ todo) then prune done todo else prune (done ++ [v]) todo
  end.

Lemma between_conv : forall v l, between v l = true -> conv l v.
Proof.
  intros v l H. apply existsb_exists in H as (u & Hu & H). apply existsb_exists in H as (w & Hw & H).
  unfold on_segment in H. apply andb_true_iff in H as [H E]. apply andb_true_iff in H as [H1 H2].
  apply Qleb_true in H1, H2. apply qlist_eqb_spec in E.
  pose proof (Forall2_len _ _ _ E) as L. apply (peq_Forall2 _ _ L) in E.
  apply conv_cone. rewrite E. apply conv_cone. apply conv_mix; auto; now apply conv_in.
Qed.

Lemma prune_In : forall todo done v, In v (prune done todo) -> In v (done ++ todo).
Proof.
  induction todo as [|a todo IH]; intros done v H; simpl in H.
  - now rewrite app_nil_r.
  - destruct (between a (done ++ todo)).
    + apply IH in H. apply in_app_or in H. apply in_or_app. simpl. tauto.
    + apply IH in H. rewrite <- app_assoc in H. exact H.
Qed.

Lemma prune_conv : forall todo done x, conv (prune done todo) x <-> conv (done ++ todo) x.
Proof.
  induction todo as [|a todo IH]; intros done x; simpl.
  - now rewrite app_nil_r.
  - destruct (between a (done ++ todo)) eqn:B.
    + rewrite IH. split; apply conv_incl; intros v H.
      * apply conv_in. apply in_app_or in H. apply in_or_app. simpl. tauto.
      * apply in_app_or in H. destruct H as [H|[<-|H]].
        -- apply conv_in. apply in_or_app. auto.
        -- now apply between_conv.
        -- apply conv_in. apply in_or_app. auto.
    + rewrite IH, <- app_assoc. reflexivity.
Qed.

Definition clip_row (rb : list Q * bool) (vs : list point) : list point :=
  prune [] (tidy (if snd rb then clip (vopp (fst rb)) (clip (fst rb) vs) else clip (fst rb) vs)).

Definition fm_generators (m : mat) : list point :=
  fold_right clip_row (corners (ncol m - 1) (box_bound m)) (mrows m).

Lemma clip_row_conv : forall rb vs x, conv (clip_row rb vs) x <-> conv vs x /\ holds rb x.
Proof.
  intros [r b] vs x. unfold clip_row, holds; cbn [fst snd]. rewrite prune_conv; cbn [app]; rewrite tidy_conv. destruct b.
  - rewrite !clip_conv, rowval_vopp. split; [intros [[A B] C]|intros [A B]]; repeat split; auto; lra.
  - apply clip_conv.
Qed.

Lemma generators_conv : forall m x, conv (fm_generators m) x <->
  conv (corners (ncol m - 1) (box_bound m)) x /\ Forall (fun rb => holds rb x) (mrows m).
Proof.
  intros m x. unfold fm_generators. generalize (corners (ncol m - 1) (box_bound m)) as vs.
  intro vs. induction (mrows m) as [|rb rows IH]; simpl.
  - split; [intro; split; auto|tauto].
  - rewrite clip_row_conv, IH. rewrite Forall_cons_iff. tauto.
Qed.

Lemma clip_lengths : forall c vs d, Forall (fun v : point => length v = d) vs -> Forall (fun v => length v = d) (clip c vs).
Proof.
  intros c vs d F. rewrite Forall_forall in *. intros v H. unfold clip in H. apply in_app_or in H as [H|H].
  - apply filter_In in H as [H _]; auto.
  - apply in_flat_map in H as (u & Hu & H). apply in_map_iff in H as (w & <- & Hw).
    apply filter_In in Hu as [Hu _]. apply filter_In in Hw as [Hw _].
    unfold cross. rewrite mix_length; auto. rewrite (F u), (F w); auto.
Qed.

Lemma generators_length : forall m, Forall (fun v => length v = (ncol m - 1)%nat) (fm_generators m).
Proof.
  intro m. unfold fm_generators. generalize (ncol m - 1)%nat as d. intro d.
  induction (mrows m) as [|[r b] rows IH]; simpl.
  - apply Forall_forall. intros v Hv. now apply corners_length in Hv.
  - unfold clip_row; cbn [fst snd].
    assert (P : forall l, Forall (fun v : point => length v = d) l -> Forall (fun v => length v = d) (prune [] l)).
    { intros l F. rewrite Forall_forall in *. intros v H. apply prune_In in H. auto. }
    apply P, tidy_length. destruct b; repeat apply clip_lengths; auto.
Qed.

Lemma nth_unit_row : forall i x, rowval (0 :: unit i) x == nth i x 0.
Proof. intros. unfold rowval; cbn [hd tl]. rewrite dot_unit. ring. Qed.

Lemma nth_opp_unit_row : forall i x, rowval (0 :: vopp (unit i)) x == - nth i x 0.
Proof. intros. unfold rowval; cbn [hd tl]. rewrite dot_vopp_l, dot_unit. ring. Qed.

Lemma box_bound_ok : forall m x, wf_mat m -> mbounded m -> mmember m x ->
  forall i, Qabs (nth i x 0) <= box_bound m.
Proof.
  intros m x [W _] (B & HB) Mx i. unfold box_bound.
  destruct (maxl_ge (map (coord_bound m) (seq 0 (ncol m - 1))) 1) as [G1 G2].
  rewrite Forall_map, Forall_forall in G2.
  destruct (Nat.lt_ge_cases i (length x)) as [Hi|Hi].
  - assert (Hin : In i (seq 0 (ncol m - 1))) by (apply in_seq; destruct Mx; lia).
    specialize (G2 i Hin). cbv beta in G2. eapply Qle_trans; [|exact G2].
    unfold coord_bound. destruct (qmax_ge (lp_obj (lp_max m (0 :: unit i))) (lp_obj (lp_max m (0 :: vopp (unit i))))) as [Q1 Q2].
    assert (U : forall c, (forall y, mmember m y -> rowval c y <= B) -> forall y, mmember m y -> rowval c y <= lp_obj (lp_max m c)).
    { intros c Hc y My. destruct (lp_optimal (lp_max m c)) eqn:O.
      - now apply lp_max_true.
      - apply lp_max_false in O as [O|O]; auto; [exfalso; apply O; now exists y|].
        destruct (O (B + 1)) as (z & Mz & Hz). specialize (Hc z Mz). lra. }
    pose proof (U (0 :: unit i)) as U1. pose proof (U (0 :: vopp (unit i))) as U2.
    assert (nth i x 0 <= lp_obj (lp_max m (0 :: unit i))).
    { rewrite <- nth_unit_row. apply U1; auto. intros y My. rewrite nth_unit_row.
      specialize (HB y i My). apply Qabs_Qle_condition in HB. lra. }
    assert (- nth i x 0 <= lp_obj (lp_max m (0 :: vopp (unit i)))).
    { rewrite <- nth_opp_unit_row. apply U2; auto. intros y My. rewrite nth_opp_unit_row.
      specialize (HB y i My). apply Qabs_Qle_condition in HB. lra. }
    apply Qabs_Qle_condition. lra.
  - rewrite nth_overflow by lia. change (Qabs 0) with 0. lra.
Qed.

Lemma generators_spans : forall m, wf_mat m -> mbounded m -> spans m (fm_generators m).
Proof.
  intros m W Hb. split.
  - pose proof (generators_length m) as L. rewrite Forall_forall in *. intros v Hv. split.
    + rewrite (L v Hv). destruct W; lia.
    + assert (C : conv (fm_generators m) v) by now apply conv_in. now apply generators_conv in C as [_ C].
  - intros x Mx. apply generators_conv. split; [|now destruct Mx].
    apply corners_conv.
    + unfold box_bound. destruct (maxl_ge (map (coord_bound m) (seq 0 (ncol m - 1))) 1). lra.
    + destruct Mx; destruct W; lia.
    + now apply box_bound_ok.
Qed.

(** ** Inequalities of a hull: eliminate the weights *)

Definition hull_rows (d : nat) (vs : list point) : list prow :=
  map (fun j => ([], unit j)) (seq 0 (length vs)) ++
  [([-1], repeat 1 (length vs)); ([1], vopp (repeat 1 (length vs)))] ++
  flat_map (fun i =>
    let coords := map (fun v => nth i v 0) vs in
    [(0 :: unit i, vopp coords); (0 :: vopp (unit i), coords)]) (seq 0 d).

Lemma hull_rows_sat : forall d vs x ws, length x = d -> length ws = length vs ->
  Forall (fun v => length v = d) vs ->
  (sat (1 :: x) ws (hull_rows d vs) <->
   Forall (fun w => 0 <= w) ws /\ qsum ws == 1 /\ peq x (wsum ws vs)).
Proof.
  intros d vs x ws Lx Lw Fv. unfold sat, hull_rows. rewrite !Forall_app, Forall_map, Forall_flat_map.
  assert (P1 : Forall (fun j => 0 <= pval (1 :: x) ws ([], unit j)) (seq 0 (length vs)) <-> Forall (fun w => 0 <= w) ws).
  { rewrite !Forall_forall. split; intros H.
    - intros w Hw. apply (In_nth _ _ 0) in Hw as (j & Hj & <-).
      specialize (H j ltac:(apply in_seq; lia)). unfold pval in H; cbn [fst snd] in H.
      rewrite dot_unit in H. cbn [dot] in H. lra.
    - intros j Hj. apply in_seq in Hj. unfold pval; cbn [fst snd dot]. rewrite dot_unit.
      assert (0 <= nth j ws 0) by (apply H, nth_In; lia). lra. }
  assert (P2 : Forall (fun r => 0 <= pval (1 :: x) ws r)
      [([-1], repeat 1 (length vs)); ([1], vopp (repeat 1 (length vs)))] <-> qsum ws == 1).
  { assert (E : dot (repeat 1 (length vs)) ws == qsum ws) by (rewrite dot_comm; apply dot_ones; lia).
    split.
    - intro H. apply Forall_cons_iff in H as [A H]. apply Forall_cons_iff in H as [B _].
      unfold pval in *; cbn [fst snd dot] in *. rewrite dot_vopp_l in B. rewrite E in *. lra.
    - intro H. constructor; [|constructor; [|constructor]]; unfold pval; cbn [fst snd dot];
        rewrite ?dot_vopp_l, E; lra. }
  assert (P3 : Forall (fun i => Forall (fun r => 0 <= pval (1 :: x) ws r)
      (let coords := map (fun v => nth i v 0) vs in
       [(0 :: unit i, vopp coords); (0 :: vopp (unit i), coords)])) (seq 0 d) <-> peq x (wsum ws vs)).
  { assert (R : forall i, Forall (fun r => 0 <= pval (1 :: x) ws r)
      (let coords := map (fun v => nth i v 0) vs in
       [(0 :: unit i, vopp coords); (0 :: vopp (unit i), coords)]) <-> nth i x 0 == nth i (wsum ws vs) 0).
    { intro i. cbv zeta. rewrite nth_wsum, (dot_comm ws). split.
      - intro H. apply Forall_cons_iff in H as [A H]. apply Forall_cons_iff in H as [B _].
        unfold pval in *; cbn [fst snd dot] in *. rewrite !dot_vopp_l, ?dot_unit in *. lra.
      - intro H. constructor; [|constructor; [|constructor]]; unfold pval; cbn [fst snd dot];
          rewrite !dot_vopp_l, dot_unit; lra. }
    split; intro H.
    - intro i. destruct (Nat.lt_ge_cases i d) as [Hi|Hi].
      + apply R. rewrite Forall_forall in H. apply H. apply in_seq; lia.
      + rewrite nth_overflow by lia. rewrite nth_wsum.
        assert (Z : forall us vs', Forall (fun v : point => length v = d) vs' -> dot us (map (fun v => nth i v 0) vs') == 0).
        { induction us; destruct vs' as [|v vs']; intros F; simpl; try reflexivity.
          apply Forall_cons_iff in F as [F1 F]. rewrite (nth_overflow v) by lia. rewrite IHus; auto. ring. }
        rewrite Z; auto. reflexivity.
    - apply Forall_forall. intros i _. apply R. exact (H i). }
  rewrite P1, P2, P3. tauto.
Qed.

Definition pad (n : nat) (r : list Q) : list Q := map (fun i => nth i r 0) (seq 0 n).

Lemma dot_pad : forall n r x, (length x <= n)%nat -> dot (pad n r) x == dot r x.
Proof.
  unfold pad. induction n; intros r x L.
  - destruct x; [|simpl in L; lia]. simpl. now rewrite dot_nil_r.
  - destruct x as [|y x]; [now rewrite !dot_nil_r|]. simpl. rewrite <- seq_shift, map_map.
    destruct r as [|a r].
    + simpl. rewrite (map_ext _ (fun i => nth i (@nil Q) 0)) by (intros [|]; reflexivity).
      rewrite IHn by (simpl in L; lia). simpl. ring.
    + simpl. rewrite IHn by (simpl in L; lia). reflexivity.
Qed.

Definition fm_inequalities (vs : list point) : mat :=
  let d := length (hd [] vs) in
  mkMat (map (fun r => (r, false))
           (filter (fun r => negb (is_zero_row r)) (map (pad (S d)) (heads (length vs) (hull_rows d vs)))))
        (S d).

Lemma is_zero_row_iff : forall r, is_zero_row r = true <-> zero_row r.
Proof.
  intro r. unfold is_zero_row, zero_row. rewrite forallb_forall, Forall_forall.
  split; intros H c Hc; apply Qeqb_true; auto.
Qed.

Lemma zero_row_value : forall r x, zero_row r -> rowval r x == 0.
Proof.
  intros r x Z. rewrite rowval_dot.
  rewrite dot_comm. apply dot_peq_nil. intro i. destruct (Nat.lt_ge_cases i (length r)).
  - unfold zero_row in Z. rewrite Forall_forall in Z. rewrite (Z (nth i r 0)) by now apply nth_In.
    destruct i; reflexivity.
  - rewrite (nth_overflow r) by lia. destruct i; reflexivity.
Qed.

Lemma inequalities_ok : forall vs d, vs <> [] -> Forall (fun v => length v = d) vs ->
  wf_mat (fm_inequalities vs) /\ ncol (fm_inequalities vs) = S d /\ no_zero_rows (fm_inequalities vs) /\
  forall x, mmember (fm_inequalities vs) x <-> length x = d /\ conv vs x.
Proof.
  intros vs d N F.
  assert (Ed : length (hd [] vs) = d) by (destruct vs; [congruence|]; now apply Forall_cons_iff in F as [? _]).
  unfold fm_inequalities. rewrite Ed.
  set (rows := map (pad (S d)) (heads (length vs) (hull_rows d vs))).
  split; [|split; [|split]].
  - split; cbn [ncol mrows]; [lia|]. apply Forall_map, Forall_forall. intros r Hr. cbn [fst].
    apply filter_In in Hr as [Hr _]. unfold rows in Hr. apply in_map_iff in Hr as (h & <- & _).
    unfold pad. now rewrite map_length, seq_length.
  - reflexivity.
  - unfold no_zero_rows; cbn [mrows]. apply Forall_map, Forall_forall. intros r Hr. cbn [fst].
    apply filter_In in Hr as [_ Hr]. intro Z. apply is_zero_row_iff in Z. rewrite Z in Hr. discriminate.
  - intro x. unfold mmember; cbn [mrows ncol].
    assert (R : length x = d ->
       (Forall (fun rb => holds rb x) (map (fun r => (r, false)) (filter (fun r => negb (is_zero_row r)) rows)) <->
        Forall (fun h => 0 <= dot h (1 :: x)) (heads (length vs) (hull_rows d vs)))).
    { intro L. rewrite Forall_map, !Forall_forall. unfold holds; cbn [fst snd]. split; intros H h Hh.
      - rewrite <- (dot_pad (S d)) by (simpl; lia). rewrite <- rowval_dot.
        destruct (is_zero_row (pad (S d) h)) eqn:Z.
        + apply is_zero_row_iff in Z. rewrite zero_row_value by auto. lra.
        + apply H. apply filter_In. split; [|now rewrite Z]. unfold rows. now apply in_map.
      - apply filter_In in Hh as [Hh _]. unfold rows in Hh. apply in_map_iff in Hh as (g & <- & Hg).
        rewrite rowval_dot, dot_pad by (simpl; lia). now apply H. }
    split.
    + intros [L H]. assert (L' : length x = d) by lia. split; auto. apply R in H; auto.
      apply elim_iff in H as (ws & Lw & H). apply hull_rows_sat in H; auto. exists ws. tauto.
    + intros [L (ws & Lw & H)]. split; [lia|]. apply R; auto. apply elim_iff. exists ws. split; auto.
      now apply hull_rows_sat.
Qed.

(** ** Canonical form: flag the implicit equalities *)

Definition implicit_eq (m : mat) (r : list Q) : bool :=
  lp_optimal (lp_max m r) && Qleb (lp_obj (lp_max m r)) 0.

Definition fm_canonicalize (m : mat) : mat :=
  if feasible m then mkMat (map (fun rb => (fst rb, snd rb || implicit_eq m (fst rb))) (mrows m)) (ncol m)
  else m.

Lemma fm_canon_set : forall m x, wf_mat m -> (mmember (fm_canonicalize m) x <-> mmember m x).
Proof.
  intros m x [W _]. unfold fm_canonicalize. destruct (feasible m); [|reflexivity].
  unfold mmember; cbn [mrows ncol]. rewrite Forall_map.
  split; intros [L H]; split; auto.
  - rewrite Forall_forall in *. intros [r b] Hr. specialize (H _ Hr). unfold holds in *; cbn [fst snd] in *.
    destruct b; auto. simpl in H. destruct (implicit_eq m r); auto. lra.
  - assert (M : mmember m x) by (split; auto).
    rewrite Forall_forall in *. intros [r b] Hr. specialize (H _ Hr). unfold holds in *; cbn [fst snd] in *.
    destruct b; auto. simpl. destruct (implicit_eq m r) eqn:I; auto.
    apply andb_true_iff in I as [I1 I2]. apply Qleb_true in I2.
    destruct (lp_max_true m r W I1) as (_ & _ & U). specialize (U x M). lra.
Qed.

(** Average of a strict point per row. *)
Lemma strict_point : forall m, wf_mat m -> no_equalities m -> (exists x, mmember m x) ->
  (forall rb, In rb (mrows m) -> exists y, mmember m y /\ 0 < rowval (fst rb) y) ->
  exists x, S (length x) = ncol m /\ Forall (fun rb => 0 < rowval (fst rb) x) (mrows m).
Proof.
  intros m W NE (x0 & M0) H.
  assert (G : forall rows, incl rows (mrows m) ->
     exists x, mmember m x /\ Forall (fun rb => 0 < rowval (fst rb) x) rows).
  { induction rows as [|rb rows IH]; intro I.
    - exists x0. split; auto.
    - destruct IH as (x & Mx & Sx); [intros a Ha; apply I; now right|].
      destruct (H rb) as (y & My & Sy); [apply I; now left|].
      assert (Lxy : length x = length y) by (destruct Mx, My; lia).
      exists (mix (1 # 2) x y).
      assert (V : forall rb', In rb' (mrows m) -> 0 <= rowval (fst rb') x /\ 0 <= rowval (fst rb') y).
      { intros [r b] Hr. destruct Mx as [_ Fx], My as [_ Fy].
        unfold no_equalities in NE. rewrite Forall_forall in *. specialize (Fx _ Hr). specialize (Fy _ Hr).
        specialize (NE _ Hr). unfold holds in *. cbn [fst snd] in *. subst b. auto. }
      split.
      + split; [rewrite mix_length by auto; now destruct Mx|].
        apply Forall_forall. intros [r b] Hr. destruct (V _ Hr) as [V1 V2].
        unfold no_equalities in NE. rewrite Forall_forall in NE. specialize (NE _ Hr).
        unfold holds; cbn [fst snd] in *. subst b. rewrite rowval_mix. lra.
      + constructor.
        * rewrite rowval_mix. destruct (V rb) as [V1 V2]; [apply I; now left|]. lra.
        * rewrite Forall_forall in *. intros rb' Hr. rewrite rowval_mix.
          destruct (V rb') as [V1 V2]; [apply I; now right|]. specialize (Sx _ Hr). cbv beta in Sx. lra. }
  destruct (G (mrows m) (incl_refl _)) as (x & Mx & Sx). exists x. split; auto. now destruct Mx.
Qed.

(** Strict points are interior. *)
Lemma strict_interior : forall m x, S (length x) = ncol m -> no_equalities m ->
  Forall (fun rb => 0 < rowval (fst rb) x) (mrows m) -> minterior m x.
Proof.
  intros m x L NE Sx.
  assert (G : exists e, 0 < e /\ forall y, near e x y -> Forall (fun rb => 0 <= rowval (fst rb) y) (mrows m)).
  { clear NE. induction Sx as [|[r b] rows P Sx IH].
    - exists 1. split; [lra|]. intros; constructor.
    - destruct IH as (e & He & IH). cbn [fst] in P.
      set (n := norm1 (tl r) + 1). assert (Hn : 0 < n) by (unfold n; pose proof (norm1_nonneg (tl r)); lra).
      exists (qmin e (rowval r x / n)).
      assert (Hq : 0 < rowval r x / n) by (apply Qlt_shift_div_l; lra).
      destruct (qmin_le e (rowval r x / n)) as [Q1 Q2].
      assert (Q0 : 0 < qmin e (rowval r x / n)) by (unfold qmin; destruct (Qltb_spec (rowval r x / n) e); lra).
      split; auto. intros y [Ly Hy]. constructor.
      + cbn [fst].
        assert (D : Qabs (dot (tl r) (vadd y (vscale (-1) x))) <= qmin e (rowval r x / n) * norm1 (tl r)).
        { apply dot_bound; [lra|]. intro i. rewrite nth_vadd, nth_vscale.
          assert (E : nth i y 0 + -1 * nth i x 0 == nth i y 0 - nth i x 0) by ring. rewrite E. apply Hy. }
        rewrite dot_vadd_r, dot_vscale_r in D. apply Qabs_Qle_condition in D as [D _].
        assert (qmin e (rowval r x / n) * norm1 (tl r) <= rowval r x / n * norm1 (tl r))
          by (apply Qmult_le_compat_r; [lra|apply norm1_nonneg]).
        assert (E : rowval r x / n * n == rowval r x) by (field; lra).
        assert (rowval r x / n * norm1 (tl r) == rowval r x - rowval r x / n).
        { rewrite <- E at 2. unfold n at 3. ring. }
        unfold rowval in *. lra.
      + apply IH. split; auto. intro i. eapply Qle_trans; [apply Hy|auto]. }
  assert (V : forall y, length y = length x -> Forall (fun rb => 0 <= rowval (fst rb) y) (mrows m) -> mmember m y).
  { intros y Ly F. split; [lia|]. unfold no_equalities in NE. rewrite Forall_forall in *. intros [r b] Hr.
    specialize (F _ Hr). specialize (NE _ Hr). unfold holds. cbn [fst snd] in *. subst b. exact F. }
  destruct G as (e & He & G). split.
  - apply V; auto. eapply Forall_impl; [|exact Sx]. cbv beta; intros; lra.
  - exists e. split; auto. intros y Hy. apply V; [now destruct Hy|now apply G].
Qed.

Lemma fm_canon_canonical : forall m, wf_mat m -> canonical_mat (fm_canonicalize m).
Proof.
  intros m W NE (x0 & M0). destruct W as [W1 W2]. unfold fm_canonicalize in *.
  destruct (feasible m) eqn:F.
  2:{ exfalso. assert (feasible m = true) by (apply feasible_iff; eauto). congruence. }
  set (m' := mkMat _ _) in *.
  assert (MM : forall x, mmember m' x <-> mmember m x).
  { intro x. pose proof (fm_canon_set m x (conj W1 W2)) as E. unfold fm_canonicalize in E. now rewrite F in E. }
  assert (W' : wf_mat m').
  { split; auto. cbn [mrows ncol m']. apply Forall_map. eapply Forall_impl; [|exact W2]. auto. }
  destruct (strict_point m') as (x & Lx & Sx); auto.
  - now exists x0.
  - intros [r b] Hr. cbn [mrows m'] in Hr. apply in_map_iff in Hr as ([r0 b0] & Er & Hr). cbn [fst snd] in *.
    inversion Er; subst r b. clear Er.
    unfold no_equalities in NE. cbn [mrows m'] in NE. rewrite Forall_map, Forall_forall in NE.
    specialize (NE _ Hr). cbn [fst snd] in NE. apply orb_false_iff in NE as [_ I].
    unfold implicit_eq in I. destruct (lp_optimal (lp_max m r0)) eqn:O.
    + simpl in I. apply Qleb_false in I. destruct (lp_max_true m r0 W1 O) as (A & B & _).
      exists (lp_primal (lp_max m r0)). split; [now apply MM|]. cbn [fst]. lra.
    + apply lp_max_false in O as [O|O]; auto.
      * exfalso. apply O. exists x0. now apply MM.
      * destruct (O 1) as (y & My & Hy). exists y. split; [now apply MM|]. cbn [fst]. lra.
  - exists x. apply strict_interior; auto.
Qed.

Definition fm_ext : ext := mkExt fm_canonicalize fm_lp fm_generators fm_inequalities dedup.

Theorem fm_ext_ok : ext_ok fm_ext.
Proof.
  split; cbn [canonicalize linprog generators inequalities set_list fm_ext].
  - intros m [W1 W2]. unfold fm_canonicalize. destruct (feasible m); [|repeat split; auto].
    repeat split; auto. cbn [mrows ncol]. apply Forall_map. eapply Forall_impl; [|exact W2]. auto.
  - apply fm_canon_set.
  - intros m W NZ. unfold fm_canonicalize. destruct (feasible m); auto.
    unfold no_zero_rows in *. cbn [mrows]. apply Forall_map. exact NZ.
  - intros. now apply fm_canon_canonical.
  - intros m c [W _] _ O. unfold fm_lp in *. now apply lp_max_true.
  - intros m c [W _] _ O. unfold fm_lp in *. intros (x & Mx & Hx).
    apply lp_max_false in O as [O|O]; auto; [apply O; eauto|].
    destruct (O (rowval c x + 1)) as (y & My & Hy). specialize (Hx y My). lra.
  - intros m c [W _] _ O. unfold fm_lp in *. cbn [lp_optimal lp_obj lp_primal] in *.
    destruct (lp_max_true m (vopp c) W O) as (A & B & C). split; [auto|split].
    + rewrite B, rowval_vopp. ring.
    + intros y My. specialize (C y My). rewrite rowval_vopp in C. lra.
  - intros m c [W _] _ O. unfold fm_lp in *. cbn [lp_optimal] in *. intros (x & Mx & Hx).
    apply lp_max_false in O as [O|O]; auto; [apply O; eauto|].
    destruct (O (rowval (vopp c) x + 1)) as (y & My & Hy). specialize (Hx y My).
    rewrite !rowval_vopp in Hy. lra.
  - apply generators_spans.
  - apply inequalities_ok.
  - induction l as [|a l IH]; simpl; intros r H; auto. destruct (existsb (qlist_eqb a) l); auto.
    destruct H as [<-|H]; auto.
  - induction l as [|a l IH]; simpl; intros r H; [destruct H|]. destruct H as [<-|H].
    + destruct (existsb (qlist_eqb a) l) eqn:X.
      * apply existsb_exists in X as (b & Hb & X). apply qlist_eqb_spec in X.
        destruct (IH b Hb) as (r' & H1 & H2). exists r'. split; auto. eapply Forall2_Qeq_trans; eauto.
      * exists a. split; [now left|apply Forall2_Qeq_refl].
    + destruct (IH r H) as (r' & H1 & H2). exists r'. split; auto.
      destruct (existsb (qlist_eqb a) l); auto. now right.
Qed.
