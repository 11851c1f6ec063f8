(** Proofs about the polytope model: construction, membership, intersection,
    rectangles, scaling, substitution and lifting. *)
From Verif Require Import Base LinAlg Model_Polytope Spec_Polytope FM_Ext.
From Coq Require Import Permutation.

Lemma row_at_eq : forall r x, row_at r x = rowval r x.
Proof. reflexivity. Qed.

Lemma satisfies_iff : forall rb x, satisfies rb x = true <-> holds rb x.
Proof.
  intros [r b] x. unfold satisfies, holds; cbn [fst snd]. rewrite row_at_eq.
  destruct b; [apply Qeqb_true|apply Qleb_true].
Qed.

Lemma mmember_iff : forall m x, mmember m x <->
  S (length x) = ncol m /\ forall rb, In rb (mrows m) -> holds rb x.
Proof. intros. unfold mmember. now rewrite Forall_forall. Qed.

Lemma holds_peq : forall rb x y, peq x y -> (holds rb x <-> holds rb y).
Proof. intros [r b] x y H. unfold holds; cbn [fst snd]. destruct b; rewrite H; reflexivity. Qed.

Lemma mmember_peq : forall m x y, length x = length y -> peq x y -> (mmember m x <-> mmember m y).
Proof.
  intros m x y L H. rewrite !mmember_iff. rewrite L. split; intros [A B]; split; auto; intros rb Hr;
    [apply (holds_peq rb x y)|apply (holds_peq rb x y)]; auto.
Qed.

Lemma holds_Forall2 : forall r r' b x, Forall2 Qeq r r' -> (holds (r, b) x <-> holds (r', b) x).
Proof.
  intros r r' b x H.
  assert (P : peq r r').
  { apply peq_Forall2; auto. now apply Forall2_len in H. }
  unfold holds; cbn [fst snd]. destruct b; rewrite P; reflexivity.
Qed.

Lemma contains_true : forall p x, contains p x = Ret true <-> member p x.
Proof.
  intros p x. unfold contains, dimension, member. rewrite mmember_iff.
  destruct (Z.eqb_spec (Z.of_nat (length x)) (Z.of_nat (ncol (pmat p)) - 1)) as [H|H]; simpl.
  - split.
    + intro R. inversion R as [R']. rewrite forallb_forall in R'. split; [lia|].
      intros rb Hr. apply satisfies_iff; auto.
    + intros [_ R]. f_equal. apply forallb_forall. intros rb Hr. apply satisfies_iff; auto.
  - split; [discriminate|]. intros [L _]. lia.
Qed.

Lemma contains_raise : forall p x e, contains p x = Raise e <-> e = ValueError /\ S (length x) <> ncol (pmat p).
Proof.
  intros p x e. unfold contains, dimension.
  destruct (Z.eqb_spec (Z.of_nat (length x)) (Z.of_nat (ncol (pmat p)) - 1)) as [H|H]; simpl.
  - split; [discriminate|]. intros [_ L]. lia.
  - split; [intro R; inversion R; split; auto; lia|intros [-> _]; reflexivity].
Qed.

Lemma contains_false : forall p x, contains p x = Ret false <-> S (length x) = ncol (pmat p) /\ ~ member p x.
Proof.
  intros p x. pose proof (contains_true p x) as T. pose proof (contains_raise p x) as R.
  destruct (contains p x) as [[]|e].
  - split; [discriminate|]. intros [_ N]. tauto.
  - split; auto. intros _. split.
    + destruct (Nat.eq_dec (S (length x)) (ncol (pmat p))); auto.
      assert (@Ret bool false = Raise ValueError) by (apply R; auto). discriminate.
    + intro M. apply T in M. discriminate.
  - split; [discriminate|]. intros [L _]. destruct (R e) as [R1 _]. destruct (R1 eq_refl). congruence.
Qed.

Lemma as_list_In : forall m b r, In r (matrix_as_list m b) <-> In (r, b) (mrows m).
Proof.
  intros m b r. unfold matrix_as_list. rewrite in_map_iff. split.
  - intros ([r' b'] & <- & H). apply filter_In in H as [H E]. cbn [fst snd] in *.
    apply eqb_prop in E. now subst.
  - intro H. exists (r, b). split; auto. apply filter_In. split; auto. simpl. apply eqb_reflx.
Qed.

Lemma as_list_length : forall m b r, wf_mat m -> In r (matrix_as_list m b) -> length r = ncol m.
Proof.
  intros m b r [_ W] H. apply as_list_In in H. rewrite Forall_forall in W. exact (W _ H).
Qed.

(** ** Matrix construction *)

Lemma matrix_of_ok : forall rows lin n, rows <> [] -> Forall (fun r => length r = n) rows ->
  matrix_of rows lin = Ret (mkMat (map (fun r => (r, lin)) rows) n).
Proof.
  intros rows lin n N F. unfold matrix_of.
  assert (E : length (hd [] rows) = n) by (destruct rows; [congruence|]; now apply Forall_cons_iff in F as [? _]).
  rewrite E. replace (forallb _ rows) with true; auto. symmetry. apply forallb_forall.
  rewrite Forall_forall in F. intros r Hr. apply Nat.eqb_eq; auto.
Qed.

Lemma mat_extend_ok : forall m rows lin, Forall (fun r => length r = ncol m) rows ->
  mat_extend m rows lin = Ret (mkMat (mrows m ++ map (fun r => (r, lin)) rows) (ncol m)).
Proof.
  intros m rows lin F. unfold mat_extend. replace (forallb _ rows) with true; auto.
  symmetry. apply forallb_forall. rewrite Forall_forall in F. intros r Hr. apply Nat.eqb_eq; auto.
Qed.

Lemma mat_extend_inv : forall m rows lin m', mat_extend m rows lin = Ret m' ->
  Forall (fun r => length r = ncol m) rows /\ m' = mkMat (mrows m ++ map (fun r => (r, lin)) rows) (ncol m).
Proof.
  intros m rows lin m' H. unfold mat_extend in H. destruct (forallb _ rows) eqn:E; [|discriminate].
  inversion H. split; auto. rewrite forallb_forall in E. apply Forall_forall. intros r Hr.
  apply Nat.eqb_eq; auto.
Qed.

(** ** The constructor *)

Section WithExt.
Variable E : ext.
Hypothesis OK : ext_ok E.

Lemma rows_hold_map : forall rows lin x,
  Forall (fun rb => holds rb x) (map (fun r => (r, lin)) rows) <-> Forall (fun r => holds (r, lin) x) rows.
Proof. intros. apply Forall_map. Qed.

Lemma filter_zero_hold : forall rows lin x,
  Forall (fun r => holds (r, lin) x) (filter (fun c => negb (is_zero_row c)) rows) <->
  Forall (fun r => holds (r, lin) x) rows.
Proof.
  intros rows lin x. rewrite !Forall_forall. split; intros H r Hr.
  - destruct (is_zero_row r) eqn:Z.
    + apply is_zero_row_iff in Z. unfold holds; cbn [fst snd].
      pose proof (zero_row_value r x Z). destruct lin; lra.
    + apply H. apply filter_In; split; auto. now rewrite Z.
  - apply filter_In in Hr as [Hr _]; auto.
Qed.

Lemma Polytope_ok : forall rows linear canonical n,
  (1 <= n)%nat -> Forall (fun r => length r = n) rows -> (exists r, In r rows /\ ~ zero_row r) ->
  exists p, Polytope E rows linear canonical = Ret p /\ good p /\ ncol (pmat p) = n /\
    (canonical = false -> no_equalities (pmat p) <-> linear = false) /\
    forall x, member p x <-> S (length x) = n /\ Forall (fun r => holds (r, linear) x) rows.
Proof.
  intros rows linear canonical n N F (r0 & Hr0 & Z0).
  unfold Polytope.
  set (rows' := filter (fun c => negb (is_zero_row c)) rows).
  assert (I0 : In r0 rows').
  { apply filter_In. split; auto. destruct (is_zero_row r0) eqn:Z; auto.
    apply is_zero_row_iff in Z. contradiction. }
  assert (NE : rows' <> []) by (intro C; rewrite C in I0; destruct I0).
  assert (F' : Forall (fun r => length r = n) rows').
  { rewrite Forall_forall in *. intros r Hr. apply filter_In in Hr as [Hr _]; auto. }
  rewrite (matrix_of_ok rows' linear n NE F'). cbn [bind].
  set (m := mkMat (map (fun r => (r, linear)) rows') n).
  assert (W : wf_mat m).
  { split; auto. cbn [mrows m ncol]. apply Forall_map. exact F'. }
  assert (NZ : no_zero_rows m).
  { unfold no_zero_rows; cbn [mrows m]. apply Forall_map, Forall_forall. intros r Hr Z. cbn [fst] in Z.
    apply filter_In in Hr as [_ Hr]. apply is_zero_row_iff in Z. rewrite Z in Hr. discriminate. }
  assert (M : forall x, mmember m x <-> S (length x) = n /\ Forall (fun r => holds (r, linear) x) rows).
  { intro x. unfold mmember; cbn [mrows ncol m]. rewrite rows_hold_map. unfold rows'. now rewrite filter_zero_hold. }
  destruct (canon_wf E OK m W) as [W' N'].
  eexists; split; [reflexivity|]. unfold good, member; cbn [pmat pcanon pverts]. destruct canonical.
  - split; [split; [exact W'|split; [now apply (canon_nz E OK)|split; [|exact I]]]|].
    + intros _. now apply (canon_canonical E OK).
    + split; [exact N'|]. split; [discriminate|]. intro x. rewrite (canon_set E OK) by auto. apply M.
  - split; [split; [exact W|split; [exact NZ|split; [discriminate|exact I]]]|].
    split; [reflexivity|]. split; [|exact M]. intros _. split.
    + intro NQ. unfold no_equalities in NQ; cbn [mrows m] in NQ. rewrite Forall_map, Forall_forall in NQ.
      specialize (NQ _ I0). exact NQ.
    + intros ->. unfold no_equalities; cbn [mrows m]. apply Forall_map, Forall_forall. reflexivity.
Qed.

(** ** Intersection *)

Lemma mmember_split : forall m x, mmember m x <->
  S (length x) = ncol m /\ Forall (fun r => 0 <= rowval r x) (matrix_as_list m false) /\
  Forall (fun r => rowval r x == 0) (matrix_as_list m true).
Proof.
  intros m x. rewrite mmember_iff, !Forall_forall. split.
  - intros [L H]. repeat split; auto; intros r Hr; apply as_list_In in Hr; exact (H _ Hr).
  - intros (L & A & B). split; auto. intros [r []] Hr; unfold holds; cbn [fst snd]; [apply B|apply A];
      now apply as_list_In.
Qed.

Lemma wf_app : forall m rows lin, wf_mat m -> Forall (fun r => length r = ncol m) rows ->
  wf_mat (mkMat (mrows m ++ map (fun r => (r, lin)) rows) (ncol m)).
Proof.
  intros m rows lin [W1 W2] F. split; auto. cbn [mrows ncol]. apply Forall_app; split; auto. now apply Forall_map.
Qed.

Lemma nz_app : forall m rows lin, no_zero_rows m -> Forall (fun r => ~ zero_row r) rows ->
  no_zero_rows (mkMat (mrows m ++ map (fun r => (r, lin)) rows) (ncol m)).
Proof.
  intros m rows lin W F. unfold no_zero_rows in *. cbn [mrows ncol]. apply Forall_app; split; auto. now apply Forall_map.
Qed.

Lemma member_app : forall m rows lin x,
  mmember (mkMat (mrows m ++ map (fun r => (r, lin)) rows) (ncol m)) x <->
  mmember m x /\ Forall (fun r => holds (r, lin) x) rows.
Proof.
  intros. unfold mmember; cbn [mrows ncol]. rewrite Forall_app, Forall_map. tauto.
Qed.

(** The optional [extend] used by several methods. *)
Lemma opt_extend : forall m rows lin, wf_mat m -> Forall (fun r => length r = ncol m) rows ->
  exists m', (match rows with [] => Ret m | _ => mat_extend m rows lin end) = Ret m' /\
    wf_mat m' /\ ncol m' = ncol m /\
    (no_zero_rows m -> Forall (fun r => ~ zero_row r) rows -> no_zero_rows m') /\
    forall x, mmember m' x <-> mmember m x /\ Forall (fun r => holds (r, lin) x) rows.
Proof.
  intros m rows lin W F. destruct rows as [|r rows].
  - exists m. split; [reflexivity|]. split; [exact W|]. split; [reflexivity|]. split; [auto|].
    intro x. split; [intro; split; auto|tauto].
  - rewrite mat_extend_ok by auto. eexists; split; [reflexivity|]. split; [now apply wf_app|].
    split; [reflexivity|]. split; [intros; now apply nz_app|]. intro x. apply member_app.
Qed.

Lemma intersection_ok : forall p others canonical n,
  Forall (fun q => good q /\ ncol (pmat q) = n) (p :: others) ->
  exists r, intersection E (p :: others) canonical = Ret r /\ good r /\ ncol (pmat r) = n /\
    forall x, member r x <-> Forall (fun q => member q x) (p :: others).
Proof.
  intros p others canonical n F. apply Forall_cons_iff in F as [[(W & NZ & CP & VP) Np] F].
  destruct others as [|q0 others].
  - exists p. simpl. split; [reflexivity|]. split; [repeat split; auto; apply W|]. split; auto.
    intro x. rewrite Forall_cons_iff. split; [intro; split; auto|tauto].
  - set (oth := q0 :: others) in *. unfold intersection. fold oth.
    rewrite Forall_forall in F.
    assert (L : forall b, Forall (fun r => length r = ncol (pmat p)) (flat_map (fun q => matrix_as_list (pmat q) b) oth)).
    { intro b. apply Forall_flat_map, Forall_forall. intros q Hq. apply Forall_forall. intros r Hr.
      destruct (F q Hq) as [(Wq & _) Nq]. rewrite Np, <- Nq. now apply (as_list_length _ b). }
    assert (Zb : forall b, Forall (fun r => ~ zero_row r) (flat_map (fun q => matrix_as_list (pmat q) b) oth)).
    { intro b. apply Forall_flat_map, Forall_forall. intros q Hq. apply Forall_forall. intros r Hr.
      destruct (F q Hq) as [(Wq & NZq & _) Nq]. apply as_list_In in Hr. unfold no_zero_rows in NZq.
      rewrite Forall_forall in NZq. exact (NZq _ Hr). }
    destruct (opt_extend (pmat p) _ false W (L false)) as (m1 & E1 & W1 & N1 & NZ1 & M1).
    pose proof (L true) as L2. rewrite <- N1 in L2.
    destruct (opt_extend m1 _ true W1 L2) as (m2 & E2 & W2 & N2 & NZ2 & M2).
    assert (M : forall x, mmember m2 x <-> Forall (fun q => member q x) (p :: oth)).
    { intro x. rewrite M2, M1. rewrite Forall_cons_iff. unfold member at 1.
      rewrite !Forall_flat_map, !Forall_forall. split.
      - intros [[A B] C]. split; auto. intros q Hq. apply mmember_split. split; [|split; [exact (B q Hq)|exact (C q Hq)]].
        destruct (F q Hq) as [_ Nq]. rewrite Nq, <- Np. now destruct A.
      - intros [A B]. repeat split; try apply A.
        + intros q Hq. specialize (B q Hq). now apply mmember_split in B.
        + intros q Hq. specialize (B q Hq). now apply mmember_split in B. }
    assert (NZm : no_zero_rows m2) by auto.
    destruct (canon_wf E OK m2 W2) as [W3 N3].
    assert (R : forall k, k = (let! m := match flat_map (fun q => matrix_as_list (pmat q) false) oth with
                   | [] => Ret (pmat p) | _ => mat_extend (pmat p) (flat_map (fun q => matrix_as_list (pmat q) false) oth) false end in
         let! m := match flat_map (fun q => matrix_as_list (pmat q) true) oth with
                   | [] => Ret m | _ => mat_extend m (flat_map (fun q => matrix_as_list (pmat q) true) oth) true end in
         Ret (mkPoly (if canonical then canonicalize E m else m) canonical None)) ->
         k = Ret (mkPoly (if canonical then canonicalize E m2 else m2) canonical None)).
    { intros k ->. rewrite E1. cbn [bind]. rewrite E2. reflexivity. }
    eexists. split; [apply R; reflexivity|]. unfold good, member; cbn [pmat pcanon pverts]. destruct canonical.
    + split; [split; [exact W3|split; [now apply (canon_nz E OK)|split; [|exact I]]]|].
      * intros _. now apply (canon_canonical E OK).
      * split; [lia|]. intro x. rewrite (canon_set E OK) by auto. apply M.
    + split; [split; [exact W2|split; [exact NZm|split; [discriminate|exact I]]]|].
      split; [lia|]. exact M.
Qed.

(** ** Rectangles *)

Lemma rect_row_length : forall dim i c s, (i < dim)%nat -> length (rect_row dim i c s) = S dim.
Proof.
  intros. unfold rect_row. simpl. rewrite app_length. simpl. rewrite !repeat_length. lia.
Qed.

Lemma nth_repeat0 : forall n i, nth i (repeat 0 n) 0 = 0.
Proof. induction n; destruct i; simpl; auto. Qed.

Lemma rect_row_value : forall dim i c s x, rowval (rect_row dim i c s) x == c + s * nth i x 0.
Proof.
  intros dim i c s x. unfold rowval, rect_row; cbn [hd tl].
  assert (G : dot (repeat 0 i ++ s :: repeat 0 (dim - i - 1)) x == s * nth i x 0).
  { generalize (dim - i - 1)%nat as k. intro k. revert x. induction i; intros x.
    - destruct x; simpl; [ring|]. rewrite dot_repeat0. ring.
    - destruct x; simpl; [ring|]. rewrite IHi. ring. }
  now rewrite G.
Qed.

Lemma rect_row_nonzero : forall dim i c s, ~ s == 0 -> ~ zero_row (rect_row dim i c s).
Proof.
  intros dim i c s Hs Z. unfold zero_row, rect_row in Z. rewrite Forall_forall in Z. apply Hs, Z.
  right. apply in_or_app. right. now left.
Qed.

Lemma rect_rows_spec : forall lims dim i r, In r (rect_rows dim i lims) <->
  exists j lo hi, nth_error lims j = Some (lo, hi) /\
    (r = rect_row dim (i + j) (- lo) 1 \/ r = rect_row dim (i + j) hi (-1)).
Proof.
  induction lims as [|[lo hi] lims IH]; intros dim i r; simpl.
  - split; [intros []|]. intros (j & lo & hi & H & _). destruct j; discriminate.
  - rewrite IH. split.
    + intros [H|[H|(j & lo' & hi' & H & H')]].
      * exists 0%nat, lo, hi. split; auto. rewrite Nat.add_0_r. auto.
      * exists 0%nat, lo, hi. split; auto. rewrite Nat.add_0_r. auto.
      * exists (S j), lo', hi'. split; auto. replace (i + S j)%nat with (S i + j)%nat by lia. auto.
    + intros (j & lo' & hi' & H & H'). destruct j as [|j]; simpl in H.
      * inversion H; subst. rewrite Nat.add_0_r in H'. destruct H' as [->| ->]; auto.
      * right; right. exists j, lo', hi'. split; auto. replace (S i + j)%nat with (i + S j)%nat by lia. auto.
Qed.

Lemma rect_ok : forall lims, lims <> [] ->
  exists p, rect E lims = Ret p /\ good p /\ ncol (pmat p) = S (length lims) /\ no_equalities (pmat p) /\
    forall x, member p x <-> length x = length lims /\
      forall i lo hi, nth_error lims i = Some (lo, hi) -> lo <= nth i x 0 /\ nth i x 0 <= hi.
Proof.
  intros lims N. unfold rect.
  destruct (Polytope_ok (rect_rows (length lims) 0 lims) false false (S (length lims))) as (p & Ep & G & Np & NE & M).
  - lia.
  - apply Forall_forall. intros r Hr. apply rect_rows_spec in Hr as (j & lo & hi & H & H').
    assert (j < length lims)%nat by (apply nth_error_Some; congruence).
    destruct H' as [->| ->]; apply rect_row_length; lia.
  - destruct lims as [|[lo hi] lims]; [congruence|]. eexists. split.
    + apply rect_rows_spec. exists 0%nat, lo, hi. split; [reflexivity|left; reflexivity].
    + apply rect_row_nonzero. lra.
  - exists p. split; auto. split; auto. split; auto. split; [now apply NE|].
    intro x. rewrite M, Forall_forall. split.
    + intros [L H]. split; [lia|]. intros i lo hi Hi. split.
      * assert (A : holds (rect_row (length lims) i (- lo) 1, false) x).
        { apply H. apply rect_rows_spec. exists i, lo, hi. split; auto. }
        unfold holds in A; cbn [fst snd] in A. rewrite rect_row_value in A. lra.
      * assert (A : holds (rect_row (length lims) i hi (-1), false) x).
        { apply H. apply rect_rows_spec. exists i, lo, hi. split; auto. }
        unfold holds in A; cbn [fst snd] in A. rewrite rect_row_value in A. lra.
    + intros [L H]. split; [lia|]. intros r Hr. apply rect_rows_spec in Hr as (j & lo & hi & Hj & H').
      specialize (H j lo hi Hj). unfold holds; cbn [fst snd]. simpl in H'.
      destruct H' as [->| ->]; rewrite rect_row_value; lra.
Qed.

End WithExt.
