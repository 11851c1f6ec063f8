(** Proofs about emptiness, inclusion and covering of polytopes. *)
From Verif Require Import Base LinAlg FM Model_Polytope Spec_Polytope FM_Ext Proof_Polytope Proof_PolytopeMaps.

(** ** Interior and strict points *)

Definition strict (m : mat) (x : point) : Prop :=
  S (length x) = ncol m /\ forall rb, In rb (mrows m) -> snd rb = false /\ 0 < rowval (fst rb) x.

Lemma nth_unit : forall k i, nth i (unit k) 0 == if Nat.eqb i k then 1 else 0.
Proof.
  induction k; destruct i; simpl; try reflexivity.
  - destruct i; reflexivity.
  - apply IHk.
Qed.

Lemma unit_length : forall k, length (unit k) = S k.
Proof. induction k; simpl; auto. Qed.

Definition nudge (x : point) (k : nat) (t : Q) : point := vadd x (vscale t (unit k)).

Lemma nudge_length : forall x k t, (k < length x)%nat -> length (nudge x k t) = length x.
Proof. intros. unfold nudge. rewrite vadd_length, vscale_length, unit_length. lia. Qed.

Lemma rowval_nudge : forall r x k t, rowval r (nudge x k t) == rowval r x + t * nth k (tl r) 0.
Proof. intros. unfold nudge, rowval. rewrite dot_vadd_r, dot_vscale_r, dot_unit_r. ring. Qed.

Lemma nudge_near : forall x k t e, (k < length x)%nat -> Qabs t <= e -> near e x (nudge x k t).
Proof.
  intros x k t e Hk Ht. split; [now apply nudge_length|]. intro i. unfold nudge.
  rewrite nth_vadd, nth_vscale.
  assert (Q0 : 0 <= e) by (eapply Qle_trans; [apply Qabs_nonneg|exact Ht]).
  pose proof (nth_unit k i) as U. destruct (Nat.eqb i k).
  - assert (Eq : nth i x 0 + t * nth i (unit k) 0 - nth i x 0 == t) by (rewrite U; ring). now rewrite Eq.
  - assert (Eq : nth i x 0 + t * nth i (unit k) 0 - nth i x 0 == 0) by (rewrite U; ring). rewrite Eq. exact Q0.
Qed.

(** A non-zero row is a non-zero constant or depends on some coordinate. *)
Lemma row_cases : forall r, ~ zero_row r ->
  (~ hd 0 r == 0 /\ forall x, rowval r x == hd 0 r) \/ exists k, (S k < length r)%nat /\ ~ nth k (tl r) 0 == 0.
Proof.
  intros r NZ. destruct r as [|c r]; [exfalso; apply NZ; constructor|].
  assert (D : zero_row r \/ exists k, (k < length r)%nat /\ ~ nth k r 0 == 0).
  { clear. induction r as [|a r IH]; [left; constructor|].
    destruct (Qeq_dec a 0) as [Za|Na].
    - destruct IH as [Z|(k & Hk & N)].
      + left. constructor; auto.
      + right. exists (S k). simpl. split; [lia|auto].
    - right. exists 0%nat. simpl. split; [lia|auto]. }
  destruct D as [Z|(k & Hk & N)].
  - left. assert (Nc : ~ c == 0) by (intro; apply NZ; constructor; auto). split; auto.
    intro x. unfold rowval; cbn [hd tl]. rewrite (dot_comm r), dot_peq_nil; [ring|].
    intro i. destruct (Nat.lt_ge_cases i (length r)).
    + unfold zero_row in Z. rewrite Forall_forall in Z. rewrite (Z (nth i r 0)) by now apply nth_In. destruct i; reflexivity.
    + rewrite (nth_overflow r) by lia. destruct i; reflexivity.
  - right. exists k. simpl. split; [lia|auto].
Qed.

Lemma interior_strict : forall m x, wf_mat m -> no_zero_rows m -> minterior m x -> strict m x.
Proof.
  intros m x [W1 W2] NZ [Mx (e & He & Near)]. apply mmember_iff in Mx as [L H]. split; auto.
  intros [r b] Hr. cbn [fst snd]. unfold no_zero_rows in NZ. rewrite Forall_forall in NZ, W2.
  pose proof (NZ _ Hr) as NZr. pose proof (W2 _ Hr) as Lr. cbn [fst] in NZr, Lr.
  pose proof (H _ Hr) as Hx. unfold holds in Hx; cbn [fst snd] in Hx.
  destruct (row_cases r NZr) as [[N0 C]|(k & Hk & Nk)].
  - pose proof (C x) as Cx. destruct b; [exfalso; apply N0; lra|]. split; auto.
    destruct (Qeq_dec (hd 0 r) 0); [contradiction|]. lra.
  - assert (Kx : (k < length x)%nat) by lia.
    assert (V : forall t, Qabs t <= e -> holds (r, b) (nudge x k t)).
    { intros t Ht. specialize (Near _ (nudge_near x k t e Kx Ht)). apply mmember_iff in Near as [_ N]. now apply N. }
    set (a := nth k (tl r) 0) in *.
    assert (Pe : Qabs e <= e) by (rewrite Qabs_pos; lra).
    assert (Me : Qabs (- e) <= e) by (rewrite Qabs_opp, Qabs_pos; lra).
    pose proof (V e Pe) as V1. pose proof (V (- e) Me) as V2.
    unfold holds in V1, V2; cbn [fst snd] in V1, V2. pose proof (rowval_nudge r x k e) as R1. pose proof (rowval_nudge r x k (- e)) as R2. fold a in R1, R2.
    assert (Na : 0 < e * a \/ 0 < - (e * a)).
    { destruct (Qlt_le_dec 0 a); [left|right]; nra. }
    destruct b.
    + exfalso. destruct Na; lra.
    + split; auto. destruct Na; lra.
Qed.

Lemma interior_iff : forall m x, wf_mat m -> no_zero_rows m -> (minterior m x <-> strict m x).
Proof.
  intros m x W NZ. split; [now apply interior_strict|].
  intros [L H]. apply strict_interior; auto.
  - apply Forall_forall. intros rb Hr. now apply H.
  - apply Forall_forall. intros rb Hr. now apply H.
Qed.

(** Moving from a member towards an interior point. *)
Lemma strict_mix : forall m x z t, mmember m x -> strict m z -> 0 < t -> t <= 1 -> strict m (mix t x z).
Proof.
  intros m x z t Mx [Lz Hz] T0 T1. apply mmember_iff in Mx as [Lx Hx]. split.
  - rewrite mix_length; lia.
  - intros [r b] Hr. specialize (Hx _ Hr). destruct (Hz _ Hr) as [B P]. cbn [fst snd] in *. subst b.
    split; auto. unfold holds in Hx; cbn [fst snd] in Hx. rewrite rowval_mix.
    assert (0 <= (1 - t) * rowval r x) by (apply Qmult_le_0_compat; lra).
    assert (0 < t * rowval r z) by nra. lra.
Qed.

(** A point outside a closed set stays outside when moved a little. *)
Lemma outside_row_open : forall rb x z, ~ holds rb x -> exists t0, 0 < t0 /\ t0 <= 1 /\
  forall t, 0 <= t -> t <= t0 -> ~ holds rb (mix t x z).
Proof.
  intros [r b] x z N. unfold holds in *; cbn [fst snd] in *.
  set (a := rowval r x) in *. set (c := rowval r z).
  assert (Na : ~ a == 0) by (intro Z; apply N; destruct b; lra).
  exists (qmin 1 (Qabs a / (2 * (Qabs a + Qabs c)))).
  assert (PA : 0 < Qabs a).
  { destruct (Qlt_le_dec 0 a); [rewrite Qabs_pos|rewrite Qabs_neg]; lra. }
  pose proof (Qabs_nonneg c) as PC.
  assert (Q0 : 0 < Qabs a / (2 * (Qabs a + Qabs c))) by (apply Qlt_shift_div_l; lra).
  destruct (qmin_le 1 (Qabs a / (2 * (Qabs a + Qabs c)))) as [M1 M2].
  split; [unfold qmin; destruct (Qltb_spec (Qabs a / (2 * (Qabs a + Qabs c))) 1); lra|]. split; [exact M1|].
  intros t T0 T1.
  assert (T2 : t * (2 * (Qabs a + Qabs c)) <= Qabs a).
  { assert (t <= Qabs a / (2 * (Qabs a + Qabs c))) by lra.
    assert (E1 : Qabs a / (2 * (Qabs a + Qabs c)) * (2 * (Qabs a + Qabs c)) == Qabs a) by (field; lra).
    rewrite <- E1 at 2. apply Qmult_le_compat_r; lra. }
  assert (V : rowval r (mix t x z) == a + t * (c - a)) by (rewrite rowval_mix; fold a c; ring).
  assert (B : Qabs (t * (c - a)) <= Qabs a / 2).
  { rewrite Qabs_Qmult, (Qabs_pos t) by lra.
    assert (Qabs (c - a) <= Qabs c + Qabs a).
    { unfold Qminus. eapply Qle_trans; [apply Qabs_triangle|]. rewrite Qabs_opp. lra. }
    assert (t * Qabs (c - a) <= t * (Qabs c + Qabs a)).
    { rewrite !(Qmult_comm t). apply Qmult_le_compat_r; lra. }
    assert (Qabs a / 2 == Qabs a * (1 # 2)) by (field). lra. }
  apply Qabs_Qle_condition in B as [B1 B2].
  assert (H2 : Qabs a / 2 == Qabs a * (1 # 2)) by field. rewrite H2 in *.
  intro H. destruct (Qlt_le_dec 0 a).
  - rewrite (Qabs_pos a) in * by lra. destruct b; [lra|]. apply N. lra.
  - rewrite (Qabs_neg a) in * by lra. destruct b; lra.
Qed.

Lemma outside_open : forall m x z, S (length x) = ncol m -> ~ mmember m x -> exists t0, 0 < t0 /\ t0 <= 1 /\
  forall t, 0 <= t -> t <= t0 -> ~ mmember m (mix t x z).
Proof.
  intros m x z L N.
  assert (D : exists rb, In rb (mrows m) /\ ~ holds rb x).
  { destruct (Forall_Exists_dec (fun rb => holds rb x)) with (l := mrows m) as [F|X].
    - intros rb. destruct (satisfies rb x) eqn:S0.
      + left. now apply satisfies_iff.
      + right. intro H. apply satisfies_iff in H. congruence.
    - exfalso. apply N. split; auto.
    - apply Exists_exists in X. exact X. }
  destruct D as (rb & Hr & Nr). destruct (outside_row_open rb x z Nr) as (t0 & A & B & C).
  exists t0. split; [auto|]. split; [auto|]. intros t T0 T1 M. apply mmember_iff in M as [_ M].
  exact (C t T0 T1 (M _ Hr)).
Qed.

Lemma outside_all_open : forall (ps : list polytope) x z,
  Forall (fun q => S (length x) = ncol (pmat q)) ps -> Forall (fun q => ~ member q x) ps ->
  exists t0, 0 < t0 /\ t0 <= 1 /\ forall t, 0 <= t -> t <= t0 -> Forall (fun q => ~ member q (mix t x z)) ps.
Proof.
  induction ps as [|q ps IH]; intros x z L N.
  - exists 1. repeat split; try lra. constructor.
  - apply Forall_cons_iff in L as [L1 L]. apply Forall_cons_iff in N as [N1 N].
    destruct (IH x z L N) as (t1 & A1 & B1 & C1). destruct (outside_open (pmat q) x z L1 N1) as (t2 & A2 & B2 & C2).
    destruct (qmin_le t1 t2) as [M1 M2]. exists (qmin t1 t2). split; [|split; [lra|]].
    + unfold qmin. destruct (Qltb t2 t1); lra.
    + intros t T0 T1. constructor; [apply C2; lra|apply C1; lra].
Qed.

Lemma member_dec : forall p x, member p x \/ ~ member p x.
Proof.
  intros p x. destruct (Nat.eq_dec (S (length x)) (ncol (pmat p))).
  - destruct (contains p x) as [[]|e0] eqn:C.
    + left. now apply contains_true.
    + right. now apply contains_false in C.
    + apply contains_raise in C as [_ C]. contradiction.
  - right. intros [L _]. contradiction.
Qed.

Lemma in_union_dec : forall (ps : list polytope) x,
  (exists q, In q ps /\ member q x) \/ Forall (fun q => ~ member q x) ps.
Proof.
  induction ps as [|q ps IH]; intro x; [right; constructor|].
  destruct (member_dec q x) as [M|N].
  - left. exists q. split; auto. now left.
  - destruct (IH x) as [(q' & H & M)|F].
    + left. exists q'. split; auto. now right.
    + right. now constructor.
Qed.

(** A closed cover of the interior is a cover of the whole set, if there is an
    interior. *)
Lemma closure_cover : forall m (ps : list polytope), (exists z, strict m z) ->
  Forall (fun q => ncol (pmat q) = ncol m) ps ->
  (forall x, strict m x -> exists q, In q ps /\ member q x) ->
  forall x, mmember m x -> exists q, In q ps /\ member q x.
Proof.
  intros m ps (z & Hz) N H x Mx.
  destruct (in_union_dec ps x) as [Y|F]; auto. exfalso.
  assert (L : Forall (fun q => S (length x) = ncol (pmat q)) ps).
  { eapply Forall_impl; [|exact N]. cbv beta. intros q Hq. rewrite Hq. now destruct Mx. }
  destruct (outside_all_open ps x z L F) as (t0 & A & B & C).
  destruct (H (mix t0 x z)) as (q & Hq & M); [now apply strict_mix|].
  specialize (C t0 ltac:(lra) ltac:(lra)). rewrite Forall_forall in C. exact (C q Hq M).
Qed.

(** ** Existence of optima *)

Lemma max_exists : forall m c K, wf_mat m -> (exists x, mmember m x) ->
  (forall x, mmember m x -> rowval c x <= K) ->
  exists x, mmember m x /\ forall y, mmember m y -> rowval c y <= rowval c x.
Proof.
  intros m c K [W _] NE U. destruct (lp_optimal (lp_max m c)) eqn:O.
  - destruct (lp_max_true m c W O) as (A & B & C). eexists. split; [exact A|]. intros y My. rewrite <- B. auto.
  - apply lp_max_false in O as [O|O]; auto; [contradiction|].
    destruct (O (K + 1)) as (x & Mx & Hx). specialize (U x Mx). lra.
Qed.

Section WithExt.
Variable E : ext.
Hypothesis OK : ext_ok E.

Lemma rowval_zero : forall n x, rowval (repeat 0 n) x == 0.
Proof. intros. rewrite rowval_dot, dot_repeat0. reflexivity. Qed.

Lemma is_empty_closed_ok : forall p, wf_mat (pmat p) ->
  if is_empty_closed E p then ~ (exists x, member p x) else exists x, member p x.
Proof.
  intros p W. unfold is_empty_closed. set (c := repeat 0 (ncol (pmat p))).
  assert (Lc : length c = ncol (pmat p)) by apply repeat_length.
  destruct (lp_optimal (linprog E (pmat p) true c)) eqn:O; cbn [negb].
  - destruct (lp_max_optimal E OK _ c W Lc O) as (A & _). eauto.
  - intros (x & Mx). apply (lp_max_other E OK _ c W Lc O). exists x. split; auto.
    intros y _. unfold c. rewrite !rowval_zero. lra.
Qed.

(** The matrix of the second case of [is_empty]. *)
Definition eps_mat (m : mat) : mat :=
  mkMat (map (fun r => (r, false))
    (map (fun row => row ++ [-1]) (matrix_as_list m false)
       ++ [repeat 0 (ncol m) ++ [1]] ++ [1 :: repeat 0 (ncol m - 1) ++ [-1]])) (S (ncol m)).

Lemma rowval_snoc : forall r a x e, (1 <= length r)%nat -> length r = S (length x) ->
  rowval (r ++ [a]) (x ++ [e]) == rowval r x + a * e.
Proof.
  intros r a x e H L. destruct r as [|c r]; [simpl in H; lia|]. unfold rowval. simpl.
  rewrite dot_app by (simpl in L; lia). simpl. ring.
Qed.

Lemma eps_member : forall m x e, wf_mat m -> S (length x) = ncol m ->
  (mmember (eps_mat m) (x ++ [e]) <->
   Forall (fun r => e <= rowval r x) (matrix_as_list m false) /\ 0 <= e /\ e <= 1).
Proof.
  intros m x e W L. pose proof W as [W1 W2]. unfold mmember, eps_mat; cbn [ncol mrows].
  rewrite rows_hold_map, !Forall_app, Forall_map. unfold holds; cbn [fst snd].
  assert (R1 : rowval (repeat 0 (ncol m) ++ [1]) (x ++ [e]) == e).
  { rewrite rowval_snoc; rewrite ?repeat_length; try lia. rewrite rowval_zero. ring. }
  assert (R2 : rowval (1 :: repeat 0 (ncol m - 1) ++ [-1]) (x ++ [e]) == 1 - e).
  { change (1 :: repeat 0 (ncol m - 1) ++ [-1]) with ((1 :: repeat 0 (ncol m - 1)) ++ [-1]).
    rewrite rowval_snoc; simpl; rewrite ?repeat_length; try lia.
    unfold rowval; simpl. rewrite dot_repeat0. ring. }
  assert (RR : Forall (fun r => 0 <= rowval (r ++ [-1]) (x ++ [e])) (matrix_as_list m false) <->
               Forall (fun r => e <= rowval r x) (matrix_as_list m false)).
  { rewrite !Forall_forall. split; intros H r Hr; specialize (H r Hr); pose proof (as_list_length m false r W Hr) as Lr.
    - rewrite rowval_snoc in H by lia. lra.
    - rewrite rowval_snoc by lia. lra. }
  rewrite RR. rewrite app_length; cbn [length]. split.
  - intros (_ & A & B & C). apply Forall_cons_iff in B as [B _]. apply Forall_cons_iff in C as [C _].
    rewrite R1 in B. rewrite R2 in C. repeat split; auto; lra.
  - intros (A & B & C). split; [lia|]. split; auto. split; constructor; auto.
    + rewrite R1; lra.
    + rewrite R2; lra.
Qed.

Lemma snoc_exists : forall (z : point), (1 <= length z)%nat -> exists x e, z = x ++ [e].
Proof.
  intros z H. destruct (exists_last (l := z)) as (x & e & ->).
  - intros ->. simpl in H. lia.
  - eauto.
Qed.

(** A strict point leaves room for a positive slack. *)
Lemma slack : forall (rows : list (list Q)) x, Forall (fun r => 0 < rowval r x) rows ->
  exists e, 0 < e /\ e <= 1 /\ Forall (fun r => e <= rowval r x) rows.
Proof.
  induction rows as [|r rows IH]; intros x F.
  - exists 1. repeat split; try lra. constructor.
  - apply Forall_cons_iff in F as [F1 F]. destruct (IH x F) as (e & A & B & C).
    destruct (qmin_le e (rowval r x)) as [M1 M2].
    exists (qmin e (rowval r x)). split; [|split; [lra|]].
    + unfold qmin. destruct (Qltb (rowval r x) e); lra.
    + constructor; auto. eapply Forall_impl; [|exact C]. cbv beta; intros; lra.
Qed.

Lemma is_empty_open_ok : forall p, wf_mat (pmat p) -> no_zero_rows (pmat p) ->
  exists b, is_empty_open E p = Ret b /\ if b then ~ (exists x, interior p x) else exists x, interior p x.
Proof.
  intros p W NZ. unfold is_empty_open.
  assert (SI : forall x, interior p x <-> strict (pmat p) x) by (intro; now apply interior_iff).
  pose proof W as [W1 W2].
  destruct (matrix_as_list (pmat p) true) as [|q0 qs] eqn:EQ.
  2:{ exists true. split; auto. intros (x & Hx). apply SI in Hx as [_ Hx].
      assert (In (q0, true) (mrows (pmat p))) by (apply as_list_In; rewrite EQ; now left).
      apply Hx in H as [H _]. discriminate. }
  assert (ST : forall x, strict (pmat p) x <-> S (length x) = ncol (pmat p) /\
             Forall (fun r => 0 < rowval r x) (matrix_as_list (pmat p) false)).
  { intro x. unfold strict. rewrite Forall_forall. split; intros [L H]; split; auto.
    - intros r Hr. apply as_list_In in Hr. now apply H in Hr as [_ Hr].
    - intros [r b] Hr. cbn [fst snd]. destruct b.
      + apply as_list_In in Hr. rewrite EQ in Hr. destruct Hr.
      + split; auto. apply H. now apply as_list_In. }
  rewrite (matrix_of_ok _ false (S (ncol (pmat p)))).
  2:{ destruct (map _ _); discriminate. }
  2:{ rewrite !Forall_app. repeat split.
      - apply Forall_map, Forall_forall. intros r Hr. rewrite app_length. simpl.
        rewrite (as_list_length _ _ _ W Hr). lia.
      - constructor; auto. rewrite app_length, repeat_length. simpl. lia.
      - constructor; auto. simpl. rewrite app_length, repeat_length. simpl. lia. }
  cbn [bind]. fold (eps_mat (pmat p)).
  set (A := eps_mat (pmat p)). set (c := repeat 0 (ncol (pmat p)) ++ [1]).
  assert (WA : wf_mat A).
  { split; cbn [ncol mrows A eps_mat]; [lia|]. apply Forall_map. cbn [fst]. rewrite !Forall_app. repeat split.
    - apply Forall_map, Forall_forall. intros r Hr. rewrite app_length. simpl.
      rewrite (as_list_length _ _ _ W Hr). lia.
    - constructor; auto. rewrite app_length, repeat_length. simpl. lia.
    - constructor; auto. simpl. rewrite app_length, repeat_length. simpl. lia. }
  assert (Lc : length c = ncol A) by (unfold c; rewrite app_length, repeat_length; simpl; lia).
  assert (Vc : forall x e, S (length x) = ncol (pmat p) -> rowval c (x ++ [e]) == e).
  { intros x e L. unfold c. rewrite rowval_snoc; rewrite ?repeat_length; try lia. rewrite rowval_zero. ring. }
  assert (SN : forall z, mmember A z -> exists x e, z = x ++ [e] /\ S (length x) = ncol (pmat p)).
  { intros z [Lz _]. cbn [ncol A eps_mat] in Lz. destruct (snoc_exists z) as (x & e & ->); [lia|].
    exists x, e. split; auto. rewrite app_length in Lz. simpl in Lz. lia. }
  assert (STA : forall x, strict (pmat p) x -> exists e, 0 < e /\ mmember A (x ++ [e])).
  { intros x Hx. apply ST in Hx as [L F]. destruct (slack _ _ F) as (e & E0 & E1 & F').
    exists e. split; auto. apply eps_member; auto. repeat split; auto; lra. }
  destruct (lp_optimal (linprog E A true c)) eqn:O; cbn [negb].
  - destruct (lp_max_optimal E OK A c WA Lc O) as (M & V & U).
    set (lp := linprog E A true c) in *. clearbody lp.
    destruct (SN _ M) as (x & e & Ez & L). rewrite Ez in *. rewrite last_last.
    rewrite (Vc x e L) in V. apply eps_member in M as (F & E0 & E1); auto.
    eexists. split; [reflexivity|]. destruct (Qeqb_spec e 0) as [Z|Z].
    + intros (y & Hy). apply SI in Hy. destruct (STA y Hy) as (e' & P & M').
      specialize (U _ M'). rewrite Vc in U by (apply ST in Hy; tauto). lra.
    + exists x. apply SI, ST. split; auto.
      eapply Forall_impl; [|exact F]. cbv beta; intros. lra.
  - exists true. split; auto. intros (y & Hy). apply SI in Hy.
    apply (lp_max_other E OK A c WA Lc O). apply (max_exists A c 1 WA).
    + destruct (STA y Hy) as (e' & P & M'). eauto.
    + intros z Mz. destruct (SN z Mz) as (x & e & -> & L). rewrite Vc by auto. apply eps_member in Mz; auto. lra.
Qed.

(** ** Inclusion *)

Lemma as_ineq_iff : forall m x, S (length x) = ncol m ->
  (mmember m x <-> Forall (fun r => 0 <= rowval r x) (as_ineq m)).
Proof.
  intros m x L. rewrite mmember_split. unfold as_ineq. rewrite !Forall_app, Forall_map. split.
  - intros (_ & A & B). repeat split; auto; (eapply Forall_impl; [|exact B]); cbv beta; intros.
    + lra.
    + rewrite rowval_vopp. lra.
  - intros (A & B & C). repeat split; auto. rewrite Forall_forall in *. intros r Hr.
    specialize (B r Hr). specialize (C r Hr). cbv beta in C. rewrite rowval_vopp in C. lra.
Qed.

Lemma as_ineq_length : forall m r, wf_mat m -> In r (as_ineq m) -> length r = ncol m.
Proof.
  intros m r W H. unfold as_ineq in H. rewrite !in_app_iff in H. destruct H as [H|[H|H]].
  - now apply (as_list_length _ false).
  - now apply (as_list_length _ true).
  - apply in_map_iff in H as (r0 & <- & H). rewrite vopp_length. now apply (as_list_length _ true).
Qed.

Lemma is_subset_of_ok : forall p q, wf_mat (pmat p) -> wf_mat (pmat q) -> ncol (pmat p) = ncol (pmat q) ->
  (exists x, member p x) ->
  (forall r, In r (as_ineq (pmat q)) -> exists K, forall x, member p x -> K <= rowval r x) ->
  (is_subset_of E p q = true <-> forall x, member p x -> member q x).
Proof.
  intros p q Wp Wq N (x0 & M0) B. unfold is_subset_of. rewrite forallb_forall.
  assert (O : forall r, In r (as_ineq (pmat q)) -> lp_optimal (linprog E (pmat p) false r) = true).
  { intros r Hr. destruct (lp_optimal (linprog E (pmat p) false r)) eqn:O; auto. exfalso.
    assert (Lr : length r = ncol (pmat p)) by (rewrite N; now apply as_ineq_length).
    apply (lp_min_other E OK _ r Wp Lr O). destruct (B r Hr) as (K & HK).
    destruct (max_exists (pmat p) (vopp r) (- K) Wp) as (x & Mx & Hx).
    - eauto.
    - intros x Mx. rewrite rowval_vopp. specialize (HK x Mx). lra.
    - exists x. split; auto. intros y My. specialize (Hx y My). rewrite !rowval_vopp in Hx. lra. }
  split.
  - intros H x Mx. apply as_ineq_iff; [rewrite <- N; now destruct Mx|]. apply Forall_forall. intros r Hr.
    specialize (H r Hr). apply negb_true_iff, Qltb_false in H.
    assert (Lr : length r = ncol (pmat p)) by (rewrite N; now apply as_ineq_length).
    destruct (lp_min_optimal E OK _ r Wp Lr (O r Hr)) as (_ & _ & U). specialize (U x Mx). lra.
  - intros H r Hr. apply negb_true_iff, Qltb_false.
    assert (Lr : length r = ncol (pmat p)) by (rewrite N; now apply as_ineq_length).
    destruct (lp_min_optimal E OK _ r Wp Lr (O r Hr)) as (A & V & _). rewrite V.
    apply H in A. apply as_ineq_iff in A; [|now destruct A]. rewrite Forall_forall in A. now apply A.
Qed.

Lemma bounded_rows : forall m r, mbounded m -> exists K, forall x, mmember m x -> K <= rowval r x.
Proof.
  intros m r (B & H). exists (hd 0 r - (qmax 0 B) * norm1 (tl r)). intros x Mx.
  assert (D : Qabs (dot (tl r) x) <= qmax 0 B * norm1 (tl r)).
  { destruct (qmax_ge 0 B). apply dot_bound; auto. intro i. specialize (H x i Mx). lra. }
  apply Qabs_Qle_condition in D. unfold rowval. lra.
Qed.

(** ** Covering *)

Lemma cover_cons_iff : forall m x, S (length x) = ncol m ->
  (mmember m x <-> Forall (fun r => 0 <= rowval r x) (cover_cons m)).
Proof.
  intros m x L. rewrite mmember_split. unfold cover_cons. rewrite Forall_app, Forall_flat_map. split.
  - intros (_ & A & B). repeat split; auto. eapply Forall_impl; [|exact B]. cbv beta; intros r Hr.
    constructor; [lra|constructor; [rewrite rowval_vopp; lra|constructor]].
  - intros (A & B). repeat split; auto. rewrite Forall_forall in *. intros r Hr.
    specialize (B r Hr). apply Forall_cons_iff in B as [B1 B2]. apply Forall_cons_iff in B2 as [B2 _].
    rewrite rowval_vopp in B2. lra.
Qed.

Lemma cover_cons_ok : forall m r, wf_mat m -> no_zero_rows m -> In r (cover_cons m) ->
  length r = ncol m /\ ~ zero_row (vopp r).
Proof.
  assert (ZV : forall r, zero_row (vopp r) -> zero_row r).
  { intros r Z. unfold zero_row, vopp in *. rewrite Forall_map in Z. eapply Forall_impl; [|exact Z].
    cbv beta; intros. lra. }
  intros m r W NZ H. unfold no_zero_rows in NZ. rewrite Forall_forall in NZ.
  unfold cover_cons in H. apply in_app_or in H as [H|H].
  - split; [now apply (as_list_length _ false)|]. intro Z. apply as_list_In in H. exact (NZ _ H (ZV _ Z)).
  - apply in_flat_map in H as (r0 & H & H'). pose proof (as_list_length _ _ _ W H) as L.
    apply as_list_In in H. destruct H' as [<-|[<-|[]]].
    + split; auto. intro Z. exact (NZ _ H (ZV _ Z)).
    + rewrite vopp_length. split; auto. intro Z. exact (NZ _ H (ZV _ (ZV _ Z))).
Qed.

Lemma covered_ok : forall polys p,
  wf_mat (pmat p) -> no_zero_rows (pmat p) ->
  Forall (fun q => wf_mat (pmat q) /\ no_zero_rows (pmat q) /\ ncol (pmat q) = ncol (pmat p)) polys ->
  exists b, is_covered_by E p polys = Ret b /\
   (b = true -> forall x, strict (pmat p) x -> exists q, In q polys /\ member q x) /\
   (b = false -> polys = [] \/ exists x, strict (pmat p) x /\ Forall (fun q => ~ member q x) polys).
Proof.
  induction polys as [|q0 rest IH]; intros p W NZ F.
  - exists false. split; auto. split; [discriminate|auto].
  - apply Forall_cons_iff in F as [(Wq & NZq & Nq) F]. cbn [is_covered_by].
    set (go := fix go (cons : list (list Q)) : res bool :=
         match cons with
         | [] => Ret true
         | con :: cons' =>
             let! m := mat_extend (pmat p) [vopp con] false in
             let poly := from_mat m in
             let! e := is_empty E poly false in
             if e then go cons'
             else
               let! c := is_covered_by E poly rest in
               if c then go cons' else Ret false
         end).
    assert (G : forall cons, Forall (fun r => length r = ncol (pmat p) /\ ~ zero_row (vopp r)) cons ->
       exists b, go cons = Ret b /\
        (b = true -> forall x con, strict (pmat p) x -> In con cons -> rowval con x < 0 -> exists q, In q rest /\ member q x) /\
        (b = false -> exists x con, strict (pmat p) x /\ In con cons /\ rowval con x < 0 /\ Forall (fun q => ~ member q x) rest)).
    { induction cons as [|con cons IHc]; intro FC.
      - exists true. split; auto. split; [intros _ x con _ []|discriminate].
      - apply Forall_cons_iff in FC as [[Lc Zc] FC]. cbn [go].
        rewrite mat_extend_ok by (constructor; [rewrite vopp_length; auto|auto]). cbn [bind].
        set (m' := mkMat (mrows (pmat p) ++ map (fun r => (r, false)) [vopp con]) (ncol (pmat p))).
        assert (W' : wf_mat m') by (apply wf_app; auto; constructor; [rewrite vopp_length; auto|auto]).
        assert (NZ' : no_zero_rows m') by (apply nz_app; auto).
        assert (ST : forall x, strict m' x <-> strict (pmat p) x /\ rowval con x < 0).
        { intro x. unfold strict; cbn [ncol mrows m']. split.
          - intros [L H]. split; [split; auto; intros rb Hr; apply H; apply in_or_app; auto|].
            destruct (H (vopp con, false)) as [_ P]; [apply in_or_app; right; now left|].
            cbn [fst] in P. rewrite rowval_vopp in P. lra.
          - intros [[L H] P]. split; auto. intros rb Hr. apply in_app_or in Hr as [Hr|[<-|[]]]; auto.
            cbn [fst snd]. rewrite rowval_vopp. split; auto; lra. }
        unfold is_empty.
        destruct (is_empty_open_ok (from_mat m') W' NZ') as (e & Ee & He). rewrite Ee. cbn [bind].
        assert (SI : forall x, interior (from_mat m') x <-> strict m' x) by (intro; now apply interior_iff).
        destruct (IHc FC) as (b1 & Eb1 & T1 & F1).
        destruct e.
        + exists b1. split; auto. split.
          * intros Hb x c Sx [<-|Hc] P; [|now apply (T1 Hb x c)].
            exfalso. apply He. exists x. apply SI, ST. auto.
          * intro Hb. destruct (F1 Hb) as (x & c & A & B & C). exists x, c. split; auto. split; [now right|auto].
        + destruct (IH (from_mat m') W' NZ') as (b2 & Eb2 & T2 & F2).
          { eapply Forall_impl; [|exact F]. cbv beta. intros q Hq. exact Hq. }
          rewrite Eb2. cbn [bind]. destruct b2.
          * exists b1. split; auto. split.
            -- intros Hb x c Sx [<-|Hc] P; [|now apply (T1 Hb x c)]. apply (T2 eq_refl x). now apply ST.
            -- intro Hb. destruct (F1 Hb) as (x & c & A & B & C). exists x, c. split; auto. split; [now right|auto].
          * exists false. split; auto. split; [discriminate|]. intros _.
            destruct (F2 eq_refl) as [->|(x & Sx & Nx)].
            -- destruct He as (x & Hx). apply SI, ST in Hx as [A B]. exists x, con. split; auto. split; [now left|]. split; auto.
            -- apply ST in Sx as [A B]. exists x, con. split; auto. split; [now left|auto]. }
    destruct (G (cover_cons (pmat q0))) as (b & Eb & T & Fb).
    { apply Forall_forall. intros r Hr. rewrite <- Nq. now apply cover_cons_ok. }
    exists b. split; auto. split.
    + intros Hb x Sx. destruct (member_dec q0 x) as [M|N].
      * exists q0. split; auto. now left.
      * assert (L : S (length x) = ncol (pmat q0)) by (rewrite Nq; apply Sx).
        assert (X : exists con, In con (cover_cons (pmat q0)) /\ rowval con x < 0).
        { destruct (Forall_Exists_dec (fun r => 0 <= rowval r x)) with (l := cover_cons (pmat q0)) as [FF|XX].
          - intro r. destruct (Qlt_le_dec (rowval r x) 0); [right; lra|left; auto].
          - exfalso. apply N. now apply cover_cons_iff.
          - apply Exists_exists in XX as (r & A & B). exists r. split; auto. lra. }
        destruct X as (con & Hc & P). destruct (T Hb x con Sx Hc P) as (q & Hq & M).
        exists q. split; auto. now right.
    + intro Hb. right. destruct (Fb Hb) as (x & con & Sx & Hc & P & Nx). exists x. split; auto.
      constructor; auto. intro M. assert (L : S (length x) = ncol (pmat q0)) by (rewrite Nq; apply Sx).
      apply cover_cons_iff in M; auto. rewrite Forall_forall in M. specialize (M con Hc). cbv beta in M. lra.
Qed.

End WithExt.
