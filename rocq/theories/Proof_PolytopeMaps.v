(** Proofs about scaling, substitution and lifting of polytopes. *)
From Verif Require Import Base LinAlg Model_Polytope Spec_Polytope FM_Ext Proof_Polytope.
From Coq Require Import Permutation.

Lemma mapM_ok : forall {A B} (f : A -> res B) (g : A -> B) l,
  (forall a, In a l -> f a = Ret (g a)) -> mapM f l = Ret (map g l).
Proof.
  induction l; simpl; intros H; auto. rewrite H by auto. cbn [bind]. rewrite IHl by auto. reflexivity.
Qed.

(** ** scale *)

Fixpoint divn (i : nat) (f : Q) (r : list Q) : list Q :=
  match r, i with
  | [], _ => []
  | c :: r', O => c / f :: r'
  | c :: r', S j => c :: divn j f r'
  end.

Lemma div_nth_ok : forall r i f, (i < length r)%nat -> ~ f == 0 -> div_nth i f r = Ret (divn i f r).
Proof.
  induction r; simpl; intros; [lia|]. destruct i; simpl.
  - destruct (Qeqb_spec f 0); [contradiction|reflexivity].
  - rewrite IHr by (auto; lia). reflexivity.
Qed.

Lemma divn_length : forall r i f, length (divn i f r) = length r.
Proof. induction r; destruct i; simpl; intros; auto. Qed.

Lemma dot_divn : forall r i f x, ~ f == 0 -> dot (divn i f r) (stretch i f x) == dot r x.
Proof.
  induction r; intros i f x Hf.
  - destruct i; reflexivity.
  - destruct x as [|y x]; [destruct i; reflexivity|]. destruct i; simpl.
    + field; auto.
    + rewrite IHr by auto. reflexivity.
Qed.

Lemma rowval_divn : forall r i f x, ~ f == 0 -> r <> [] -> rowval (divn (S i) f r) (stretch i f x) == rowval r x.
Proof.
  intros [|c r] i f x Hf N; [congruence|]. unfold rowval; simpl. now rewrite dot_divn.
Qed.

Lemma divn_zero : forall r i f, ~ f == 0 -> zero_row (divn i f r) -> zero_row r.
Proof.
  induction r; intros i f Hf Z; [constructor|]. unfold zero_row in *. destruct i; simpl in Z;
    apply Forall_cons_iff in Z as [Z1 Z2].
  - constructor; auto. assert (Ea : a == a / f * f) by (field; auto). rewrite Ea, Z1. ring.
  - constructor; eauto.
Qed.

Lemma stretch_length : forall x i f, length (stretch i f x) = length x.
Proof. induction x; destruct i; simpl; intros; auto. Qed.

Lemma nth_stretch : forall x i f j, nth j (stretch i f x) 0 == if Nat.eqb i j then f * nth j x 0 else nth j x 0.
Proof.
  induction x; intros.
  - simpl. destruct i, j; simpl; try (destruct (i =? j)%nat); try reflexivity; ring.
  - destruct i, j; simpl; try reflexivity. apply IHx.
Qed.

Lemma stretch_inverse : forall x i f, ~ f == 0 -> peq (stretch i f (stretch i (/ f) x)) x.
Proof.
  intros x i f Hf j. pose proof (nth_stretch x i (/ f) j) as A.
  pose proof (nth_stretch (stretch i (/ f) x) i f j) as B.
  destruct (i =? j)%nat; rewrite B, A; [field; auto|reflexivity].
Qed.

Section WithExt.
Variable E : ext.
Hypothesis OK : ext_ok E.

Lemma scale_ok : forall p j f add,
  good p -> (S j < ncol (pmat p))%nat -> ~ f == 0 ->
  Forall (fun r => length r = ncol (pmat p) /\ ~ zero_row r) add ->
  (mrows (pmat p) <> [] \/ add <> []) ->
  exists r, scale E p (S j) f add = Ret r /\ good r /\ ncol (pmat r) = ncol (pmat p) /\
    forall y, member r y <->
      (exists x, member p x /\ Forall2 Qeq y (stretch j f x)) /\ Forall (fun a => 0 <= rowval a y) add.
Proof.
  intros p j f add (W & NZ & _) Hj Hf FA NEr. unfold scale.
  pose proof W as [W1 W2].
  assert (L : forall b r, In r (matrix_as_list (pmat p) b) -> length r = ncol (pmat p)).
  { intros b r Hr. now apply (as_list_length _ b). }
  assert (NZb : forall b r, In r (matrix_as_list (pmat p) b) -> ~ zero_row r).
  { intros b r Hr. apply as_list_In in Hr. unfold no_zero_rows in NZ. rewrite Forall_forall in NZ. exact (NZ _ Hr). }
  rewrite (mapM_ok _ (divn (S j) f) (matrix_as_list (pmat p) false))
    by (intros r Hr; apply div_nth_ok; auto; rewrite (L false); auto).
  rewrite (mapM_ok _ (divn (S j) f) (matrix_as_list (pmat p) true))
    by (intros r Hr; apply div_nth_ok; auto; rewrite (L true); auto).
  cbn [bind].
  set (I := map (divn (S j) f) (matrix_as_list (pmat p) false) ++ add).
  set (Q0 := map (divn (S j) f) (matrix_as_list (pmat p) true)).
  assert (LI : Forall (fun r => length r = ncol (pmat p)) I).
  { apply Forall_app; split.
    - apply Forall_map, Forall_forall. intros r Hr. rewrite divn_length. eauto.
    - eapply Forall_impl; [|exact FA]. cbv beta; tauto. }
  assert (LQ : Forall (fun r => length r = ncol (pmat p)) Q0).
  { apply Forall_map, Forall_forall. intros r Hr. rewrite divn_length. eauto. }
  assert (ZI : Forall (fun r => ~ zero_row r) I).
  { apply Forall_app; split.
    - apply Forall_map, Forall_forall. intros r Hr Z. apply divn_zero in Z; auto. exact (NZb false r Hr Z).
    - eapply Forall_impl; [|exact FA]. cbv beta; tauto. }
  assert (ZQ : Forall (fun r => ~ zero_row r) Q0).
  { apply Forall_map, Forall_forall. intros r Hr Z. apply divn_zero in Z; auto. exact (NZb true r Hr Z). }
  (* the intermediate polytope *)
  assert (STEP : exists q, match I, Q0 with
      | [], [] => Raise UnboundLocalError
      | [], _ => Polytope E Q0 true false
      | _, [] => Polytope E I false false
      | _, _ => let! q := Polytope E I false false in
                let! m := mat_extend (pmat q) Q0 true in
                Ret (mkPoly m (pcanon q) None)
      end = Ret q /\ pcanon q = false /\ wf_mat (pmat q) /\ no_zero_rows (pmat q) /\ ncol (pmat q) = ncol (pmat p) /\
      forall y, member q y <-> S (length y) = ncol (pmat p) /\ Forall (fun r => 0 <= rowval r y) I /\ Forall (fun r => rowval r y == 0) Q0).
  { assert (PC : forall rows lin q, Polytope E rows lin false = Ret q -> pcanon q = false).
    { intros rows lin q H. unfold Polytope in H. destruct (matrix_of _ lin); [|discriminate].
      cbn [bind] in H. inversion H. reflexivity. }
    destruct I as [|i0 I'] eqn:EI.
    - destruct Q0 as [|q0 Q0'] eqn:EQ.
      + exfalso. unfold I in EI. apply app_eq_nil in EI as [EI ->]. apply map_eq_nil in EI.
        unfold Q0 in EQ. apply map_eq_nil in EQ. destruct NEr as [N|N]; [|congruence]. apply N.
        destruct (mrows (pmat p)) as [|[r b] rows] eqn:ER; auto.
        assert (H : In r (matrix_as_list (pmat p) b)) by (apply as_list_In; rewrite ER; now left).
        destruct b; [rewrite EQ in H|rewrite EI in H]; destruct H.
      + destruct (Polytope_ok E OK (q0 :: Q0') true false (ncol (pmat p))) as (q & Eq & G & Nq & _ & M); auto.
        { exists q0. split; [now left|]. now apply Forall_cons_iff in ZQ as [? _]. }
        exists q. split; auto. split; [eapply PC; eauto|]. destruct G as (Gw & Gz & _).
        split; [exact Gw|]. split; [exact Gz|]. split; [exact Nq|].
        intro y. rewrite M. unfold holds; cbn [fst snd]. split; [intros [A B]; repeat split; auto|tauto].
    - destruct (Polytope_ok E OK (i0 :: I') false false (ncol (pmat p))) as (q & Eq & G & Nq & _ & M); auto.
      { exists i0. split; [now left|]. now apply Forall_cons_iff in ZI as [? _]. }
      destruct G as (Gw & Gz & _).
      destruct Q0 as [|q0 Q0'] eqn:EQ.
      + exists q. split; auto. split; [eapply PC; eauto|]. 
        split; [exact Gw|]. split; [exact Gz|]. split; [exact Nq|].
        intro y. rewrite M. unfold holds; cbn [fst snd]. split; [intros [A B]; repeat split; auto|tauto].
      + rewrite Eq. cbn [bind]. rewrite mat_extend_ok by (rewrite Nq; auto). cbn [bind].
        eexists. split; [reflexivity|]. cbn [pcanon pmat]. split; [eapply PC; eauto|].
        split; [apply wf_app; auto; rewrite Nq; auto|]. split; [now apply nz_app|]. split; [exact Nq|].
        intro y. unfold member; cbn [pmat]. rewrite member_app. fold (member q y). rewrite M.
        unfold holds; cbn [fst snd]. tauto. }
  destruct STEP as (q & EqS & CQ & WQ & NZQ & NQ & MQ).
  match goal with |- context [match I with [] => _ | _ :: _ => _ end] => idtac end.
  change (exists r, bind (match I, Q0 with
      | [], [] => Raise UnboundLocalError
      | [], _ => Polytope E Q0 true false
      | _, [] => Polytope E I false false
      | _, _ => let! q := Polytope E I false false in
                let! m := mat_extend (pmat q) Q0 true in
                Ret (mkPoly m (pcanon q) None)
      end) (fun q => Ret (mkPoly (canonicalize E (pmat q)) (pcanon q) None)) = Ret r /\
    good r /\ ncol (pmat r) = ncol (pmat p) /\
    forall y, member r y <->
      (exists x, member p x /\ Forall2 Qeq y (stretch j f x)) /\ Forall (fun a => 0 <= rowval a y) add).
  rewrite EqS. cbn [bind]. eexists. split; [reflexivity|].
  destruct (canon_wf E OK (pmat q) WQ) as [WC NC].
  unfold good, member; cbn [pmat pcanon pverts]. rewrite CQ.
  split; [split; [exact WC|split; [now apply (canon_nz E OK)|split; [discriminate|exact Logic.I]]]|].
  split; [lia|]. intro y. rewrite (canon_set E OK) by auto. fold (member q y). rewrite MQ.
  unfold I. rewrite Forall_app, !Forall_map. rewrite !Forall_forall.
  assert (RV : forall b r x, In r (matrix_as_list (pmat p) b) -> rowval (divn (S j) f r) (stretch j f x) == rowval r x).
  { intros b r x Hr. apply rowval_divn; auto. intros ->. apply (L b) in Hr. simpl in Hr. lia. }
  split.
  - intros (Ly & [A B] & C). split; auto. exists (stretch j (/ f) y).
    assert (PE : peq (stretch j f (stretch j (/ f) y)) y) by now apply stretch_inverse.
    split.
    + apply mmember_split. rewrite stretch_length. split; auto. rewrite !Forall_forall. unfold Q0 in C.
      split; intros r Hr.
      * rewrite <- (RV false r) by auto. rewrite PE. now apply A.
      * rewrite <- (RV true r) by auto. rewrite PE. apply C. now apply in_map.
    + apply peq_Forall2; [now rewrite !stretch_length|]. now symmetry.
  - intros [(x & Mx & Hy) B]. apply mmember_split in Mx as (Lx & X1 & X2). rewrite Forall_forall in X1, X2.
    assert (Ly : length y = length x) by (apply Forall2_len in Hy; now rewrite stretch_length in Hy).
    apply peq_Forall2 in Hy; [|now rewrite stretch_length].
    split; [lia|]. split; [split; [|exact B]|].
    + intros r Hr. rewrite Hy, (RV false) by auto. now apply X1.
    + intros r Hr. unfold Q0 in Hr. apply in_map_iff in Hr as (r0 & <- & Hr). rewrite Hy, (RV true) by auto. now apply X2.
Qed.

End WithExt.

(** ** scale_all *)

Fixpoint divs (fs r : list Q) : list Q :=
  match fs, r with
  | f :: fs', c :: r' => c / f :: divs fs' r'
  | _, _ => []
  end.

Definition divs_row (fs r : list Q) : list Q := hd 0 r :: divs fs (tl r).

Lemma div_all_ok : forall fs r, length fs = length r -> Forall (fun f => ~ f == 0) fs ->
  div_all fs r = Ret (divs fs r).
Proof.
  induction fs; destruct r; simpl; intros L F; try discriminate; auto.
  apply Forall_cons_iff in F as [F1 F]. destruct (Qeqb_spec a 0); [contradiction|].
  rewrite IHfs by (auto; lia). reflexivity.
Qed.

Lemma divs_length : forall fs r, length fs = length r -> length (divs fs r) = length r.
Proof. induction fs; destruct r; simpl; intros; auto. Qed.

Lemma dot_divs : forall fs r x, Forall (fun f => ~ f == 0) fs -> length fs = length r -> length fs = length x ->
  dot (divs fs r) (stretch_all fs x) == dot r x.
Proof.
  induction fs; destruct r, x; simpl; intros F L1 L2; try discriminate; try reflexivity.
  apply Forall_cons_iff in F as [F1 F]. rewrite IHfs by (auto; lia). field; auto.
Qed.

Lemma divs_zero : forall fs r, Forall (fun f => ~ f == 0) fs -> length fs = length r ->
  zero_row (divs fs r) -> zero_row r.
Proof.
  induction fs; destruct r; simpl; intros F L Z; try discriminate; auto. unfold zero_row in *.
  apply Forall_cons_iff in F as [F1 F]. apply Forall_cons_iff in Z as [Z1 Z]. constructor.
  - assert (Eq : q == q / a * a) by (field; auto). rewrite Eq, Z1. ring.
  - apply IHfs; auto.
Qed.

Lemma stretch_all_length : forall fs x, length fs = length x -> length (stretch_all fs x) = length x.
Proof. induction fs; destruct x; simpl; intros; auto. Qed.

Lemma stretch_all_inverse : forall fs x, Forall (fun f => ~ f == 0) fs -> length fs = length x ->
  Forall2 Qeq x (stretch_all fs (stretch_all (map Qinv fs) x)).
Proof.
  induction fs; destruct x; simpl; intros F L; try discriminate; constructor.
  - apply Forall_cons_iff in F as [F1 F]. field; auto.
  - apply Forall_cons_iff in F as [F1 F]. apply IHfs; auto.
Qed.

Lemma scale_all_ok : forall p fs,
  good p -> S (length fs) = ncol (pmat p) -> Forall (fun f => ~ f == 0) fs -> mrows (pmat p) <> [] ->
  exists r, scale_all p fs = Ret r /\ good r /\ ncol (pmat r) = ncol (pmat p) /\
    forall y, member r y <-> exists x, member p x /\ Forall2 Qeq y (stretch_all fs x).
Proof.
  intros p fs (W & NZ & _) Lf Ff NE. unfold scale_all.
  pose proof W as [W1 W2].
  assert (D : negb (Z.eqb (Z.of_nat (length fs)) (dimension p)) = false).
  { unfold dimension. apply negb_false_iff, Z.eqb_eq. lia. }
  rewrite D.
  assert (L : forall b r, In r (matrix_as_list (pmat p) b) -> length r = ncol (pmat p)).
  { intros b r Hr. now apply (as_list_length _ b). }
  assert (LT : forall b r, In r (matrix_as_list (pmat p) b) -> length fs = length (tl r) /\ r = hd 0 r :: tl r).
  { intros b r Hr. apply L in Hr. destruct r; simpl in *; [lia|]. split; auto; lia. }
  assert (NZb : forall b r, In r (matrix_as_list (pmat p) b) -> ~ zero_row r).
  { intros b r Hr. apply as_list_In in Hr. unfold no_zero_rows in NZ. rewrite Forall_forall in NZ. exact (NZ _ Hr). }
  assert (RM : forall b, mapM (scale_all_row fs) (matrix_as_list (pmat p) b) = Ret (map (divs_row fs) (matrix_as_list (pmat p) b))).
  { intro b. apply mapM_ok. intros r Hr. destruct (LT b r Hr) as [L1 L2]. rewrite L2 at 1. unfold scale_all_row.
    rewrite div_all_ok by auto. reflexivity. }
  set (I0 := matrix_as_list (pmat p) false) in *. set (Q0 := matrix_as_list (pmat p) true) in *.
  assert (LB : forall b, Forall (fun r => length r = ncol (pmat p)) (map (divs_row fs) (matrix_as_list (pmat p) b))).
  { intro b. apply Forall_map, Forall_forall. intros r Hr. unfold divs_row; simpl.
    destruct (LT b r Hr) as [L1 L2]. rewrite divs_length by auto. lia. }
  assert (ZB : forall b, Forall (fun r => ~ zero_row r) (map (divs_row fs) (matrix_as_list (pmat p) b))).
  { intro b. apply Forall_map, Forall_forall. intros r Hr Z. destruct (LT b r Hr) as [L1 L2].
    apply (NZb b r Hr). rewrite L2. unfold divs_row, zero_row in *. apply Forall_cons_iff in Z as [Z1 Z2].
    constructor; auto. now apply (divs_zero fs). }
  assert (RV : forall b r x, In r (matrix_as_list (pmat p) b) -> S (length x) = ncol (pmat p) ->
     rowval (divs_row fs r) (stretch_all fs x) == rowval r x).
  { intros b r x Hr Lx. destruct (LT b r Hr) as [L1 L2]. unfold divs_row, rowval; simpl.
    rewrite dot_divs by (auto; lia). reflexivity. }
  (* what any matrix with these rows contains *)
  assert (FIN : forall m, ncol m = ncol (pmat p) -> wf_mat m -> no_zero_rows m ->
      (forall y, mmember m y <-> S (length y) = ncol (pmat p) /\
          Forall (fun r => 0 <= rowval r y) (map (divs_row fs) I0) /\
          Forall (fun r => rowval r y == 0) (map (divs_row fs) Q0)) ->
      good (from_mat m) /\ ncol (pmat (from_mat m)) = ncol (pmat p) /\
      forall y, member (from_mat m) y <-> exists x, member p x /\ Forall2 Qeq y (stretch_all fs x)).
  { intros m Nm Wm Zm M. unfold good, from_mat, member; cbn [pmat pcanon pverts].
    split; [split; [exact Wm|split; [exact Zm|split; [discriminate|exact Logic.I]]]|]. split; [exact Nm|].
    intro y. rewrite M. rewrite !Forall_map, !Forall_forall. split.
    - intros (Ly & A & B). exists (stretch_all (map Qinv fs) y).
      assert (IV : Forall2 Qeq y (stretch_all fs (stretch_all (map Qinv fs) y))) by (apply stretch_all_inverse; auto; lia).
      assert (LS : length (stretch_all (map Qinv fs) y) = length y) by (apply stretch_all_length; rewrite map_length; lia).
      assert (PE : peq y (stretch_all fs (stretch_all (map Qinv fs) y))).
      { apply peq_Forall2; auto. now apply Forall2_len in IV. }
      split; auto. apply mmember_split. rewrite LS. split; auto. rewrite !Forall_forall. split; intros r Hr.
      + rewrite <- (RV false r) by (auto; lia). rewrite <- PE. now apply A.
      + rewrite <- (RV true r) by (auto; lia). rewrite <- PE. now apply B.
    - intros (x & Mx & Hy). apply mmember_split in Mx as (Lx & X1 & X2). rewrite Forall_forall in X1, X2.
      assert (Ly : length y = length x) by (apply Forall2_len in Hy; rewrite stretch_all_length in Hy by lia; auto).
      apply peq_Forall2 in Hy; [|rewrite stretch_all_length; lia].
      split; [lia|]. split; intros r Hr; rewrite Hy.
      + rewrite (RV false) by auto. now apply X1.
      + rewrite (RV true) by auto. now apply X2. }
  assert (WM : forall rows lin, (1 <= ncol (pmat p))%nat -> Forall (fun r => length r = ncol (pmat p)) rows ->
      wf_mat (mkMat (map (fun r => (r, lin)) rows) (ncol (pmat p)))).
  { intros rows lin H F. split; auto. cbn [mrows ncol]. now apply Forall_map. }
  assert (ZM : forall rows lin, Forall (fun r => ~ zero_row r) rows ->
      no_zero_rows (mkMat (map (fun r => (r, lin)) rows) (ncol (pmat p)))).
  { intros rows lin F. unfold no_zero_rows; cbn [mrows]. now apply Forall_map. }
  pose proof (LB false) as LI. pose proof (LB true) as LQ. pose proof (ZB false) as ZI. pose proof (ZB true) as ZQ.
  pose proof (RM false) as RI. pose proof (RM true) as RQ. fold I0 in LI, ZI, RI. fold Q0 in LQ, ZQ, RQ.
  destruct I0 as [|i0 I'] eqn:EI; destruct Q0 as [|q0 Q'] eqn:EQ.
  - exfalso. apply NE. destruct (mrows (pmat p)) as [|[r b] rows] eqn:ER; auto.
    assert (H : In r (matrix_as_list (pmat p) b)) by (apply as_list_In; rewrite ER; now left).
    destruct b; [fold Q0 in H; rewrite EQ in H|fold I0 in H; rewrite EI in H]; destruct H.
  - cbn [bind]. rewrite RQ. cbn [bind]. rewrite (matrix_of_ok _ true (ncol (pmat p))); [|discriminate|exact LQ].
    cbn [bind]. eexists. split; [reflexivity|]. apply FIN; auto.
    intro y. unfold mmember; cbn [mrows ncol]. rewrite rows_hold_map. unfold holds; cbn [fst snd].
    split; [intros [A B]; repeat split; auto; constructor|tauto].
  - cbn [bind]. rewrite RI. cbn [bind]. rewrite (matrix_of_ok _ false (ncol (pmat p))); [|discriminate|exact LI].
    cbn [bind]. eexists. split; [reflexivity|]. apply FIN; auto.
    intro y. unfold mmember; cbn [mrows ncol]. rewrite rows_hold_map. unfold holds; cbn [fst snd].
    split; [intros [A B]; repeat split; auto; constructor|tauto].
  - cbn [bind]. rewrite RI. cbn [bind]. rewrite (matrix_of_ok _ false (ncol (pmat p))); [|discriminate|exact LI].
    cbn [bind]. rewrite RQ. cbn [bind]. rewrite mat_extend_ok by exact LQ. cbn [bind].
    eexists. split; [reflexivity|]. apply FIN; auto.
    + apply (wf_app (mkMat (map (fun r => (r, false)) (map (divs_row fs) (i0 :: I'))) (ncol (pmat p)))); auto.
    + apply (nz_app (mkMat (map (fun r => (r, false)) (map (divs_row fs) (i0 :: I'))) (ncol (pmat p)))); auto.
    + intro y. rewrite member_app. unfold mmember; cbn [mrows ncol]. rewrite rows_hold_map.
      unfold holds; cbn [fst snd]. tauto.
Qed.

(** ** substitute *)

Definition partial_sum (values : list (nat * Q)) (i : nat) (r : list Q) : Q :=
  qsum (map (fun kv : nat * Q => if (i <=? fst kv)%nat then nth (fst kv - i) r 0 * snd kv else 0) values).

Lemma lookup_None : forall values i, lookup values i = None <-> ~ In i (map fst values).
Proof.
  intros values i. unfold lookup. induction values as [|[k v] values IH]; simpl; [tauto|].
  destruct (Nat.eqb_spec k i).
  - split; [discriminate|]. intro N. exfalso. apply N. now left.
  - rewrite IH. split; intros N H; apply N; auto. destruct H; [contradiction|auto].
Qed.

Lemma lookup_Some : forall values i v, NoDup (map fst values) -> (lookup values i = Some v <-> In (i, v) values).
Proof.
  intros values i v. unfold lookup. induction values as [|[k w] values IH]; simpl; intro ND.
  - split; [discriminate|intros []].
  - apply NoDup_cons_iff in ND as [N ND]. destruct (Nat.eqb_spec k i) as [->|Hk]; simpl.
    + split; [intro H; inversion H; now left|]. intros [H|H]; [inversion H; reflexivity|].
      exfalso. apply N. apply in_map_iff. now exists (i, v).
    + rewrite IH by auto. split; auto. intros [H|H]; auto. inversion H. congruence.
Qed.

Lemma partial_sum_step : forall values i c r, NoDup (map fst values) ->
  partial_sum values i (c :: r) ==
  match lookup values i with Some v => c * v | None => 0 end + partial_sum values (S i) r.
Proof.
  intros values i c r. unfold partial_sum. induction values as [|[k v] values IH]; intro ND.
  - reflexivity.
  - cbn [map fst] in ND. apply NoDup_cons_iff in ND as [N ND]. cbn [map qsum fold_right fst snd].
    fold (qsum (map (fun kv : nat * Q => if (i <=? fst kv)%nat then nth (fst kv - i) (c :: r) 0 * snd kv else 0) values)).
    fold (qsum (map (fun kv : nat * Q => if (S i <=? fst kv)%nat then nth (fst kv - S i) r 0 * snd kv else 0) values)).
    rewrite (IH ND). unfold lookup in *. cbn [find fst].
    destruct (Nat.eqb_spec k i) as [->|Hk].
    + cbn [snd]. replace (i <=? i)%nat with true by (symmetry; apply Nat.leb_le; lia).
      replace (S i <=? i)%nat with false by (symmetry; apply Nat.leb_gt; lia).
      rewrite Nat.sub_diag. cbn [nth].
      assert (Z : lookup values i = None) by now apply lookup_None. unfold lookup in Z.
      destruct (find (fun kv => (fst kv =? i)%nat) values); [discriminate|]. ring.
    + destruct (Nat.leb_spec i k), (Nat.leb_spec (S i) k); try lia.
      * replace (k - i)%nat with (S (k - S i))%nat by lia. cbn [nth]. ring.
      * ring.
Qed.

Lemma partial_sum_nil : forall values i, partial_sum values i [] == 0.
Proof.
  intros. unfold partial_sum. induction values as [|[k v] values IH]; simpl; [reflexivity|].
  rewrite IH. destruct (i <=? k)%nat; destruct (k - i)%nat; ring.
Qed.

Definition agree (values : list (nat * Q)) (i : nat) (x : point) : Prop :=
  forall k v, In (k, v) values -> (i <= k)%nat -> nth (k - i) x 0 == v.

Lemma agree_tail : forall values i a x, agree values i (a :: x) -> agree values (S i) x.
Proof.
  intros values i a x H k v Hk Hi. specialize (H k v Hk ltac:(lia)).
  replace (k - i)%nat with (S (k - S i))%nat in H by lia. exact H.
Qed.

Lemma dot_substitute : forall values r i x, NoDup (map fst values) -> length r = length x ->
  agree values i x ->
  dot r x == partial_sum values i r + dot (drop_cols values i r) (remaining (map fst values) i x).
Proof.
  intros values r. induction r as [|c r IH]; intros i x ND L A.
  - destruct x; [|discriminate]. rewrite partial_sum_nil. simpl. ring.
  - destruct x as [|a x]; [discriminate|]. rewrite partial_sum_step by auto. cbn [dot drop_cols remaining].
    pose proof (IH (S i) x ND ltac:(simpl in L; lia) (agree_tail _ _ _ _ A)) as IH'.
    change (dot (c :: r) (a :: x)) with (c * a + dot r x). rewrite IH'.
    destruct (lookup values i) as [v|] eqn:K.
    + apply lookup_Some in K; auto. specialize (A i v K ltac:(lia)). rewrite Nat.sub_diag in A. cbn [nth] in A.
      destruct (in_dec Nat.eq_dec i (map fst values)) as [_|N].
      * rewrite A. ring.
      * exfalso. apply N. apply in_map_iff. now exists (i, v).
    + apply lookup_None in K. destruct (in_dec Nat.eq_dec i (map fst values)) as [N|_]; [contradiction|].
      cbn [dot]. ring.
Qed.

Fixpoint fill (values : list (nat * Q)) (i n : nat) (y : point) : point :=
  match n with
  | O => []
  | S m =>
      match lookup values i with
      | Some v => v :: fill values (S i) m y
      | None => hd 0 y :: fill values (S i) m (tl y)
      end
  end.

Lemma fill_length : forall values n i y, length (fill values i n y) = n.
Proof. induction n; simpl; intros; auto. destruct (lookup values i); simpl; auto. Qed.

Lemma fill_agree : forall values n i y k v, NoDup (map fst values) -> In (k, v) values ->
  (i <= k < i + n)%nat -> nth (k - i) (fill values i n y) 0 = v.
Proof.
  induction n; intros i y k v ND Hk Hi; [lia|]. simpl. destruct (Nat.eq_dec k i) as [->|N].
  - apply lookup_Some in Hk; auto. rewrite Hk, Nat.sub_diag. reflexivity.
  - replace (k - i)%nat with (S (k - S i)) by lia. destruct (lookup values i); simpl; apply IHn; auto; lia.
Qed.

Lemma drop_cols_length : forall values r s i, length r = length s ->
  length (drop_cols values i r) = length (drop_cols values i s).
Proof.
  induction r; destruct s; simpl; intros; try discriminate; auto.
  destruct (lookup values i); simpl; auto.
Qed.

Lemma remaining_length : forall values r i, length (remaining (map fst values) i r) = length (drop_cols values i r).
Proof.
  induction r; simpl; intros; auto. destruct (in_dec Nat.eq_dec i (map fst values)) as [Y|N].
  - destruct (lookup values i) eqn:K; auto. apply lookup_None in K. contradiction.
  - apply lookup_None in N. rewrite N. simpl. auto.
Qed.

Lemma remaining_fill : forall values n i y, length y = length (drop_cols values i (repeat 0 n)) ->
  remaining (map fst values) i (fill values i n y) = y.
Proof.
  induction n; intros i y L.
  - simpl in *. destruct y; [reflexivity|discriminate].
  - simpl in *. destruct (lookup values i) as [v|] eqn:K; simpl.
    + destruct (in_dec Nat.eq_dec i (map fst values)) as [Y|N]; [now apply IHn|].
      apply lookup_None in N. congruence.
    + apply lookup_None in K. destruct (in_dec Nat.eq_dec i (map fst values)) as [Y|N]; [contradiction|].
      destruct y as [|a y]; [discriminate|]. simpl. f_equal. apply IHn. simpl in L. lia.
Qed.

Definition subst_row (values : list (nat * Q)) (r : list Q) : list Q :=
  (hd 0 r + partial_sum values 0 (tl r)) :: drop_cols values 0 (tl r).

Lemma substitute_row_ok : forall values r, r <> [] ->
  (forall k v, In (k, v) values -> (S k < length r)%nat) ->
  exists r', substitute_row values r = Ret r' /\ Forall2 Qeq r' (subst_row values r).
Proof.
  intros values r N H. unfold substitute_row.
  rewrite (mapM_ok _ (fun kv : nat * Q => nth (fst kv) (tl r) 0 * snd kv) values).
  2:{ intros [k v] Hk. cbn [fst snd]. specialize (H k v Hk).
      destruct (nth_error r (k + 1)) as [c|] eqn:C.
      - f_equal. destruct r as [|c0 r]; [congruence|]. rewrite Nat.add_1_r in C. simpl in C. simpl.
        now rewrite (nth_error_nth _ _ _ C).
      - apply nth_error_None in C. lia. }
  cbn [bind]. destruct r as [|c0 r]; [congruence|]. eexists. split; [reflexivity|].
  unfold subst_row; cbn [hd tl]. constructor; [|apply Forall2_Qeq_refl].
  unfold partial_sum. apply Qplus_comp; [reflexivity|]. apply qsum_map_ext. intros [k v] _. cbn [fst snd Nat.leb].
  rewrite Nat.sub_0_r. reflexivity.
Qed.

Lemma mapM_exists : forall {A B} (f : A -> res B) (R : A -> B -> Prop) l,
  (forall a, In a l -> exists b, f a = Ret b /\ R a b) -> exists bs, mapM f l = Ret bs /\ Forall2 R l bs.
Proof.
  induction l; simpl; intros H.
  - exists []. split; auto.
  - destruct (H a) as (b & Eb & Rb); auto. destruct IHl as (bs & Ebs & Rbs); auto.
    exists (b :: bs). rewrite Eb. cbn [bind]. rewrite Ebs. split; auto.
Qed.

Lemma substitute_ok : forall p values,
  wf_mat (pmat p) -> mrows (pmat p) <> [] -> NoDup (map fst values) ->
  (forall k v, In (k, v) values -> (S k < ncol (pmat p))%nat) ->
  exists r, substitute p values = Ret r /\ wf_mat (pmat r) /\
    ncol (pmat r) = S (length (remaining (map fst values) 0 (repeat 0 (ncol (pmat p) - 1)))) /\
    forall y, member r y <->
      exists x, member p x /\ (forall k v, In (k, v) values -> nth k x 0 == v) /\
                Forall2 Qeq y (remaining (map fst values) 0 x).
Proof.
  intros p values [W1 W2] NE ND HK. unfold substitute.
  rewrite Forall_forall in W2.
  set (rows := map fst (mrows (pmat p))).
  assert (LR : forall r, In r rows -> length r = ncol (pmat p)).
  { intros r Hr. apply in_map_iff in Hr as (rb & <- & Hr). now apply W2. }
  destruct (mapM_exists (substitute_row values) (fun r r' => Forall2 Qeq r' (subst_row values r)) rows) as (rows' & ER & FR).
  { intros r Hr. apply LR in Hr. destruct (substitute_row_ok values r) as (r' & E1 & E2); eauto.
    - intros ->. simpl in Hr. lia.
    - intros k v Hk. rewrite Hr. eauto. }
  rewrite ER. cbn [bind].
  set (d := (ncol (pmat p) - 1)%nat).
  set (n := S (length (remaining (map fst values) 0 (repeat 0 d)))).
  assert (LD : forall r, length r = d -> length (drop_cols values 0 r) = length (remaining (map fst values) 0 (repeat 0 d))).
  { intros r Lr. rewrite remaining_length. apply drop_cols_length. now rewrite repeat_length. }
  assert (LR' : Forall (fun r => length r = n) rows').
  { assert (G : forall l l', incl l rows -> Forall2 (fun r r' => Forall2 Qeq r' (subst_row values r)) l l' ->
              Forall (fun r => length r = n) l').
    { intros l l' I F. induction F as [|r r' l l' H F IH]; constructor.
      - apply Forall2_len in H. rewrite H. unfold subst_row; simpl. unfold n. f_equal. apply LD.
        specialize (LR r (I _ (or_introl eq_refl))). destruct r; simpl in *; lia.
      - apply IH. intros z Hz. apply I. now right. }
    apply (G rows); auto. apply incl_refl. }
  assert (NE' : rows' <> []).
  { intros ->. inversion FR. unfold rows in *. destruct (mrows (pmat p)); [congruence|discriminate]. }
  rewrite (matrix_of_ok rows' false n NE' LR'). cbn [bind mrows ncol].
  rewrite map_map. cbn [fst]. rewrite map_id.
  eexists. split; [reflexivity|]. unfold from_mat, member; cbn [pmat].
  assert (ROWS : forall P : list Q * bool -> Prop,
     (forall r r' b, In (r, b) (mrows (pmat p)) -> Forall2 Qeq r' (subst_row values r) -> P (r', b)) ->
     Forall P (combine rows' (map snd (mrows (pmat p))))).
  { intros P HP. unfold rows in FR. clear ER NE' LR' NE. revert rows' FR HP.
    induction (mrows (pmat p)) as [|[r b] l IH]; intros rows' FR HP.
    - simpl. destruct rows'; constructor.
    - cbn [map fst snd] in *. inversion FR as [|? r' ? l' Hr Fl]; subst. simpl. constructor.
      + apply (HP r); auto. now left.
      + apply IH; auto; [intros x Hx; apply W2; now right|intros x Hx; apply LR; now right|].
        intros r1 r2 b1 H1 H2. apply (HP r1); auto. now right. }
  assert (ROWS2 : forall r b, In (r, b) (mrows (pmat p)) ->
      exists r', In (r', b) (combine rows' (map snd (mrows (pmat p)))) /\ Forall2 Qeq r' (subst_row values r)).
  { unfold rows in FR. clear ER NE' LR' NE ROWS. revert rows' FR.
    induction (mrows (pmat p)) as [|[r b] l IH]; intros rows' FR r0 b0 Hin; [destruct Hin|].
    cbn [map fst snd] in *. inversion FR as [|? r' ? l' Hr Fl]; subst. destruct Hin as [Hin|Hin].
    - inversion Hin; subst. exists r'. split; auto. now left.
    - destruct (IH (fun x Hx => W2 x (or_intror Hx)) (fun x Hx => LR x (or_intror Hx)) l' Fl r0 b0 Hin) as (r2 & H1 & H2).
      exists r2. split; auto. now right. }
  split; [|split; [reflexivity|]].
  - split; cbn [ncol mrows]; [unfold n; lia|]. apply Forall_forall. intros [r b] Hr. cbn [fst].
    apply in_combine_l in Hr. rewrite Forall_forall in LR'. now apply LR'.
  - assert (RV : forall r b x, In (r, b) (mrows (pmat p)) -> S (length x) = ncol (pmat p) -> agree values 0 x ->
        rowval (subst_row values r) (remaining (map fst values) 0 x) == rowval r x).
    { intros r b x Hr Lx A. unfold rowval, subst_row; cbn [hd tl].
      assert (Lr : length r = ncol (pmat p)) by exact (W2 _ Hr).
      rewrite (dot_substitute values (tl r) 0 x); auto; [ring|]. destruct r; simpl in *; lia. }
    assert (AG : forall x, (forall k v, In (k, v) values -> nth k x 0 == v) <-> agree values 0 x).
    { intro x. unfold agree. split; intros H k v Hk; [intros _; rewrite Nat.sub_0_r; auto|].
      specialize (H k v Hk ltac:(lia)). now rewrite Nat.sub_0_r in H. }
    assert (HS : forall r r' b x y, In (r, b) (mrows (pmat p)) -> Forall2 Qeq r' (subst_row values r) ->
        S (length x) = ncol (pmat p) -> agree values 0 x -> peq y (remaining (map fst values) 0 x) ->
        (holds (r', b) y <-> holds (r, b) x)).
    { intros r r' b x y Hr Hr' Lx A Hy. rewrite (holds_Forall2 _ _ b y Hr').
      rewrite (holds_peq _ _ _ Hy). unfold holds; cbn [fst snd]. destruct b; rewrite (RV r _ x Hr Lx A); reflexivity. }
    intro y. split.
    + intros [Ly H]. cbn [ncol mrows] in *. exists (fill values 0 d y).
      assert (RF : remaining (map fst values) 0 (fill values 0 d y) = y).
      { apply remaining_fill. rewrite <- remaining_length. unfold n in Ly. lia. }
      assert (A : forall k v, In (k, v) values -> nth k (fill values 0 d y) 0 == v).
      { intros k v Hk. pose proof (fill_agree values d 0 y k v ND Hk) as FA. rewrite Nat.sub_0_r in FA.
        rewrite FA; [reflexivity|]. specialize (HK k v Hk). unfold d. lia. }
      split; [|split; [exact A|rewrite RF; apply Forall2_Qeq_refl]].
      apply mmember_iff. rewrite fill_length. split; [unfold d; lia|]. intros [r b] Hr.
      destruct (ROWS2 r b Hr) as (r' & Hr' & Er'). rewrite Forall_forall in H. specialize (H _ Hr').
      apply (HS r r' b _ y); auto; [rewrite fill_length; unfold d; lia|now apply AG|rewrite RF; reflexivity].
    + intros (x & Mx & A & Hy). apply mmember_iff in Mx as [Lx Mx].
      assert (Ln : length (remaining (map fst values) 0 x) = length (remaining (map fst values) 0 (repeat 0 d))).
      { rewrite !remaining_length. apply drop_cols_length. rewrite repeat_length. unfold d; lia. }
      split; cbn [ncol mrows].
      * apply Forall2_len in Hy. unfold n. lia.
      * apply ROWS. intros r r' b Hr Hr'. apply (HS r r' b x y); auto.
        -- now apply AG.
        -- apply peq_Forall2; auto. now apply Forall2_len in Hy.
Qed.

(** ** lift *)

Lemma qsum_perm : forall l l', Permutation l l' -> qsum l == qsum l'.
Proof.
  induction 1; simpl; lra.
Qed.

Lemma dot_seq : forall c z, length c = length z ->
  dot c z == qsum (map (fun k => nth k c 0 * nth k z 0) (seq 0 (length z))).
Proof.
  induction c; destruct z; simpl; intros L; try discriminate; try reflexivity.
  rewrite <- seq_shift, map_map. rewrite IHc by lia. reflexivity.
Qed.

(** Coordinates of [x] agree with those of [z] along the named dimensions. *)
Definition lift_coefs (var : list lift_var) (c : list Q) : list Q :=
  map (fun v => match v with Dim k => nth k c 0 | Box _ _ => 0 end) var.

Lemma dot_lift : forall var c z x, length x = length var -> lifts var z x ->
  dot (lift_coefs var c) x == qsum (map (fun k => nth k c 0 * nth k z 0) (lift_dims var)).
Proof.
  induction var as [|v var IH]; intros c z x L H.
  - destruct x; [reflexivity|discriminate].
  - destruct x as [|a x]; [discriminate|].
    assert (H' : lifts var z x) by (intros i k Hi; exact (H (S i) k Hi)).
    specialize (IH c z x ltac:(simpl in L; lia) H').
    destruct v as [k|lo up].
    + specialize (H 0%nat k eq_refl). cbn [nth] in H.
      change (nth k c 0 * a + dot (lift_coefs var c) x ==
              nth k c 0 * nth k z 0 + qsum (map (fun k => nth k c 0 * nth k z 0) (lift_dims var))).
      rewrite IH, H. reflexivity.
    + change (0 * a + dot (lift_coefs var c) x == qsum (map (fun k => nth k c 0 * nth k z 0) (lift_dims var))).
      rewrite IH. ring.
Qed.

Lemma rowval_lift : forall var c z x d, length c = S d -> length z = d -> length x = length var ->
  Permutation (lift_dims var) (seq 0 d) -> lifts var z x ->
  rowval (hd 0 c :: lift_coefs var (tl c)) x == rowval c z.
Proof.
  intros var c z x d Lc Lz Lx P H. unfold rowval; cbn [hd tl].
  rewrite (dot_lift var (tl c) z x Lx H).
  rewrite (qsum_perm _ _ (Permutation_map (fun k => nth k (tl c) 0 * nth k z 0) P)).
  rewrite (dot_seq (tl c) z) by (destruct c; simpl in *; lia). rewrite Lz. reflexivity.
Qed.

Lemma lift_row_ok : forall var c d, length c = S d -> Permutation (lift_dims var) (seq 0 d) ->
  lift_row var c = Ret (hd 0 c :: lift_coefs var (tl c)).
Proof.
  intros var c d Lc P. unfold lift_row.
  rewrite (mapM_ok _ (fun v => match v with Dim k => nth k (tl c) 0 | Box _ _ => 0 end) var).
  - cbn [bind]. destruct c as [|c0 c]; [discriminate|]. reflexivity.
  - intros [k|lo up] Hv; auto.
    assert (Hk : In k (seq 0 d)).
    { eapply Permutation_in; [exact P|]. apply in_flat_map. exists (Dim k). split; auto. now left. }
    apply in_seq in Hk. destruct c as [|c0 c]; [discriminate|]. rewrite Nat.add_1_r. simpl. simpl in Lc.
    destruct (nth_error c k) eqn:K.
    + now rewrite (nth_error_nth _ _ _ K).
    + apply nth_error_None in K. lia.
Qed.

Lemma lift_box_rows_spec : forall var n i r, In r (lift_box_rows n i var) <->
  exists j lo up, nth_error var j = Some (Box lo up) /\
    (r = rect_row n (i + j) (- lo) 1 \/ r = rect_row n (i + j) up (-1)).
Proof.
  induction var as [|v var IH]; intros n i r; simpl.
  - split; [intros []|]. intros (j & lo & hi & H & _). destruct j; discriminate.
  - destruct v as [k|lo up].
    + rewrite IH. split.
      * intros (j & lo & up & H & H'). exists (S j), lo, up. split; auto.
        replace (i + S j)%nat with (S i + j)%nat by lia. auto.
      * intros (j & lo & up & H & H'). destruct j as [|j]; [discriminate|]. simpl in H.
        exists j, lo, up. split; auto. replace (S i + j)%nat with (i + S j)%nat by lia. auto.
    + simpl. rewrite IH. split.
      * intros [H|[H|(j & lo' & up' & H & H')]].
        -- exists 0%nat, lo, up. rewrite Nat.add_0_r. auto.
        -- exists 0%nat, lo, up. rewrite Nat.add_0_r. auto.
        -- exists (S j), lo', up'. split; auto. replace (i + S j)%nat with (S i + j)%nat by lia. auto.
      * intros (j & lo' & up' & H & H'). destruct j as [|j]; simpl in H.
        -- inversion H; subst. rewrite Nat.add_0_r in H'. destruct H' as [->| ->]; auto.
        -- right; right. exists j, lo', up'. split; auto. replace (S i + j)%nat with (i + S j)%nat by lia. auto.
Qed.

(** The unique point below [x]. *)
Fixpoint pos_of (var : list lift_var) (k : nat) : nat :=
  match var with
  | [] => 0
  | Dim j :: rest => if Nat.eqb j k then 0 else S (pos_of rest k)
  | Box _ _ :: rest => S (pos_of rest k)
  end.

Definition pull (var : list lift_var) (d : nat) (x : point) : point :=
  map (fun k => nth (pos_of var k) x 0) (seq 0 d).

Lemma pos_of_unique : forall var i k, NoDup (lift_dims var) -> nth_error var i = Some (Dim k) -> pos_of var k = i.
Proof.
  induction var as [|v var IH]; intros i k ND H; [destruct i; discriminate|].
  destruct v as [j|lo up]; simpl in *.
  - apply NoDup_cons_iff in ND as [N ND]. destruct i as [|i]; simpl in H.
    + inversion H. now rewrite Nat.eqb_refl.
    + destruct (Nat.eqb_spec j k) as [->|Hn]; [|f_equal; now apply IH].
      exfalso. apply N. apply in_flat_map. exists (Dim k). split; [eapply nth_error_In; eauto|now left].
  - destruct i as [|i]; [discriminate|]. simpl in H. f_equal. now apply IH.
Qed.

Lemma pull_lifts : forall var d x, Permutation (lift_dims var) (seq 0 d) -> lifts var (pull var d x) x.
Proof.
  intros var d x P i k H. unfold pull.
  assert (Hk : In k (seq 0 d)).
  { eapply Permutation_in; [exact P|]. apply in_flat_map. exists (Dim k).
    split; [eapply nth_error_In; eauto|now left]. }
  apply in_seq in Hk.
  rewrite (nth_indep _ 0 (nth (pos_of var 0) x 0)) by (rewrite map_length, seq_length; lia).
  rewrite (map_nth (fun k => nth (pos_of var k) x 0)). rewrite seq_nth by lia. simpl.
  rewrite (pos_of_unique var i k); auto; [reflexivity|].
  eapply Permutation_NoDup; [symmetry; exact P|apply seq_NoDup].
Qed.

Lemma lift_coefs_nonzero : forall var c d, length c = d -> Permutation (lift_dims var) (seq 0 d) ->
  zero_row (lift_coefs var c) -> zero_row c.
Proof.
  intros var c d Lc P Z. unfold zero_row in *. rewrite Forall_forall in *. intros a Ha.
  apply (In_nth _ _ 0) in Ha as (k & Hk & <-).
  assert (Hin : In k (lift_dims var)).
  { eapply Permutation_in; [symmetry; exact P|]. apply in_seq. lia. }
  apply in_flat_map in Hin as ([j|lo up] & Hv & Hj); [|destruct Hj]. destruct Hj as [->|[]].
  apply Z. unfold lift_coefs. apply in_map_iff. exists (Dim k). split; auto.
Qed.

Lemma lift_ok : forall p var,
  good p -> Permutation (lift_dims var) (seq 0 (ncol (pmat p) - 1)) ->
  (matrix_as_list (pmat p) false <> [] \/ exists lo up, In (Box lo up) var) ->
  exists r, lift p var = Ret r /\ good r /\ ncol (pmat r) = S (length var) /\
    forall x, member r x <-> length x = length var /\ in_box var x /\
      exists z, member p z /\ lifts var z x.
Proof.
  intros p var (W & NZ & _) P NE. pose proof W as [W1 W2]. unfold lift.
  set (d := (ncol (pmat p) - 1)%nat) in *.
  assert (L : forall b r, In r (matrix_as_list (pmat p) b) -> length r = S d).
  { intros b r Hr. apply (as_list_length _ b) in Hr; auto. unfold d. lia. }
  assert (NZb : forall b r, In r (matrix_as_list (pmat p) b) -> ~ zero_row r).
  { intros b r Hr. apply as_list_In in Hr. unfold no_zero_rows in NZ. rewrite Forall_forall in NZ. exact (NZ _ Hr). }
  set (f := fun c => hd 0 c :: lift_coefs var (tl c)).
  assert (RM : forall b, mapM (lift_row var) (matrix_as_list (pmat p) b) = Ret (map f (matrix_as_list (pmat p) b))).
  { intro b. apply mapM_ok. intros r Hr. apply (lift_row_ok var r d); auto. eauto. }
  rewrite !RM. cbn [bind].
  set (I0 := map f (matrix_as_list (pmat p) false) ++ lift_box_rows (length var) 0 var).
  set (Q0 := map f (matrix_as_list (pmat p) true)).
  assert (Lf : forall c, length (f c) = S (length var)).
  { intro c. unfold f, lift_coefs. simpl. now rewrite map_length. }
  assert (LI : Forall (fun r => length r = S (length var)) I0).
  { apply Forall_app; split; [apply Forall_map, Forall_forall; auto|].
    apply Forall_forall. intros r Hr. apply lift_box_rows_spec in Hr as (j & lo & up & Hj & Hr).
    assert (j < length var)%nat by (apply nth_error_Some; congruence).
    destruct Hr as [->| ->]; apply rect_row_length; lia. }
  assert (LQ : Forall (fun r => length r = S (length var)) Q0) by (apply Forall_map, Forall_forall; auto).
  assert (ZF : forall b c, In c (matrix_as_list (pmat p) b) -> ~ zero_row (f c)).
  { intros b c Hc Z. apply (NZb b c Hc). pose proof (L b c Hc) as Lc. destruct c as [|c0 c]; [discriminate|].
    unfold f, zero_row in Z. cbn [hd tl] in Z. apply Forall_cons_iff in Z as [Z1 Z2]. constructor; auto.
    apply (lift_coefs_nonzero var c d); auto. }
  assert (ZI : Forall (fun r => ~ zero_row r) I0).
  { apply Forall_app; split; [apply Forall_map, Forall_forall; intros; now apply (ZF false)|].
    apply Forall_forall. intros r Hr. apply lift_box_rows_spec in Hr as (j & lo & up & Hj & Hr).
    destruct Hr as [->| ->]; apply rect_row_nonzero; lra. }
  assert (ZQ : Forall (fun r => ~ zero_row r) Q0) by (apply Forall_map, Forall_forall; intros; now apply (ZF true)).
  assert (NI : I0 <> []).
  { destruct NE as [N|(lo & up & N)].
    - intro C. apply app_eq_nil in C as [C _]. apply map_eq_nil in C. contradiction.
    - intro C. apply app_eq_nil in C as [_ C]. apply In_nth_error in N as (j & N).
      assert (In (rect_row (length var) j (- lo) 1) []).
      { rewrite <- C. apply lift_box_rows_spec. exists j, lo, up. auto. }
      contradiction. }
  rewrite (matrix_of_ok I0 false (S (length var)) NI LI). cbn [bind].
  set (m0 := mkMat (map (fun r => (r, false)) I0) (S (length var))).
  assert (W0 : wf_mat m0) by (split; cbn [ncol mrows m0]; [lia|now apply Forall_map]).
  assert (Z0 : no_zero_rows m0) by (unfold no_zero_rows; cbn [mrows m0]; now apply Forall_map).
  destruct (opt_extend m0 Q0 true W0 LQ) as (m & Em & Wm & Nm & Zm & Mm).
  rewrite Em. cbn [bind]. eexists. split; [reflexivity|].
  unfold good, from_mat, member; cbn [pmat pcanon pverts].
  split; [split; [exact Wm|split; [auto|split; [discriminate|exact Logic.I]]]|]. split; [exact Nm|].
  intro x. rewrite Mm. unfold mmember at 1; cbn [mrows ncol m0]. rewrite rows_hold_map.
  unfold holds; cbn [fst snd]. unfold I0. rewrite Forall_app. unfold Q0. rewrite !Forall_map.
  assert (BOX : Forall (fun r => 0 <= rowval r x) (lift_box_rows (length var) 0 var) <-> in_box var x).
  { rewrite Forall_forall. split.
    - intros H i lo up Hi. split.
      + assert (A : 0 <= rowval (rect_row (length var) i (- lo) 1) x)
          by (apply H, lift_box_rows_spec; exists i, lo, up; auto). rewrite rect_row_value in A. lra.
      + assert (A : 0 <= rowval (rect_row (length var) i up (-1)) x)
          by (apply H, lift_box_rows_spec; exists i, lo, up; auto). rewrite rect_row_value in A. lra.
    - intros H r Hr. apply lift_box_rows_spec in Hr as (j & lo & up & Hj & Hr).
      specialize (H j lo up Hj). simpl in Hr. destruct Hr as [->| ->]; rewrite rect_row_value; lra. }
  rewrite BOX. split.
  - intros [[Lx [A B]] C]. split; [lia|]. split; auto. exists (pull var d x).
    assert (Lz : length (pull var d x) = d) by (unfold pull; now rewrite map_length, seq_length).
    pose proof (pull_lifts var d x P) as PL. split; auto.
    apply mmember_split. split; [rewrite Lz; unfold d; lia|]. rewrite !Forall_forall in *.
    split; intros r Hr.
    + rewrite <- (rowval_lift var r (pull var d x) x d); eauto.
    + rewrite <- (rowval_lift var r (pull var d x) x d); eauto.
  - intros (Lx & B & z & Mz & Hz). apply mmember_split in Mz as (Lz & A & C). rewrite !Forall_forall in *.
    assert (Lz' : length z = d) by (unfold d; lia).
    split; [split; [lia|split; auto]|].
    + intros r Hr. unfold f. rewrite (rowval_lift var r z x d); eauto.
    + intros r Hr. unfold f. rewrite (rowval_lift var r z x d); eauto.
Qed.
