(** Proofs about [try_union]. *)
From Verif Require Import Base LinAlg FM Hull Model_Polytope Spec_Polytope FM_Ext Proof_Polytope Proof_PolytopeMaps Proof_PolytopeLP Proof_PolytopeSets.

(** ** Small parameters *)

Lemma small_pos : forall A B, 0 < A -> exists s0, 0 < s0 /\ s0 <= 1 /\ forall s, 0 <= s -> s <= s0 -> 0 < A + s * B.
Proof.
  intros A B PA. set (q := A / (2 * (Qabs B + 1))). pose proof (Qabs_nonneg B) as PB.
  assert (Q0 : 0 < q) by (apply Qlt_shift_div_l; lra).
  assert (Q1 : q * (2 * (Qabs B + 1)) == A) by (unfold q; field; lra).
  destruct (qmin_le 1 q) as [M1 M2]. exists (qmin 1 q). split; [|split; [exact M1|]].
  - unfold qmin. destruct (Qltb q 1); lra.
  - intros s S0 S1. assert (S2 : s <= q) by lra.
    assert (B1 : - (s * Qabs B) <= s * B).
    { pose proof (Qle_Qabs (- B)) as L. rewrite Qabs_opp in L. nra. }
    assert (B2 : s * (Qabs B + 1) <= q * (Qabs B + 1)) by (apply Qmult_le_compat_r; lra). lra.
Qed.

Lemma sign_left : forall a b t0, exists d, 0 < d /\
  ((forall t, t0 - d <= t -> t < t0 -> 0 < a + b * t) \/
   (forall t, t0 - d <= t -> t < t0 -> a + b * t < 0) \/
   (forall t, t0 - d <= t -> t < t0 -> a + b * t == 0)).
Proof.
  intros a b t0. destruct (Qlt_le_dec 0 (a + b * t0)) as [P|P].
  - destruct (small_pos (a + b * t0) (- b) P) as (s0 & A & _ & C). exists s0. split; auto. left.
    intros t T0 T1. specialize (C (t0 - t) ltac:(lra) ltac:(lra)). lra.
  - destruct (Qlt_le_dec (a + b * t0) 0) as [N|N].
    + destruct (small_pos (- (a + b * t0)) b ltac:(lra)) as (s0 & A & _ & C). exists s0. split; auto. right; left.
      intros t T0 T1. specialize (C (t0 - t) ltac:(lra) ltac:(lra)). lra.
    + assert (Z : a == - (b * t0)) by lra. exists 1. split; [lra|].
      destruct (Qlt_le_dec 0 b) as [Pb|Pb]; [|destruct (Qlt_le_dec b 0) as [Nb|Nb]].
      * right; left. intros t _ T1. rewrite Z. assert (0 < b * (t0 - t)) by nra. lra.
      * left. intros t _ T1. rewrite Z. assert (0 < (- b) * (t0 - t)) by nra. lra.
      * right; right. intros t _ _. assert (Zb : b == 0) by lra. rewrite Z, Zb. ring.
Qed.

(** A strict point stays strict when moved a little. *)
Lemma strict_open : forall m x z, strict m x -> length z = length x -> exists t0, 0 < t0 /\ t0 <= 1 /\
  forall t, 0 <= t -> t <= t0 -> strict m (mix t x z).
Proof.
  intros m x z [Lp Hp] Lz.
  assert (G : forall rows, (forall rb : list Q * bool, In rb rows -> snd rb = false /\ 0 < rowval (fst rb) x) ->
     exists t3, 0 < t3 /\ t3 <= 1 /\ forall t, 0 <= t -> t <= t3 -> forall rb, In rb rows -> snd rb = false /\ 0 < rowval (fst rb) (mix t x z)).
  { induction rows as [|rr rows IHr]; intro HH.
    - exists 1. split; [lra|]. split; [lra|]. intros t _ _ rb0 [].
    - destruct IHr as (t4 & A4 & B4 & C4). { intros; apply HH; now right. }
      destruct (HH rr) as [HB HP]; [now left|].
      destruct (small_pos (rowval (fst rr) x) (rowval (fst rr) z - rowval (fst rr) x) HP) as (t5 & A5 & B5 & C5).
      destruct (qmin_le t4 t5) as [M4 M5]. exists (qmin t4 t5). split; [|split; [lra|]].
      + unfold qmin. destruct (Qltb t5 t4); lra.
      + intros t T0 T1 rb0 [<-|H0].
        * split; auto. specialize (C5 t T0 ltac:(lra)). rewrite rowval_mix. lra.
        * apply C4; auto; lra. }
  destruct (G _ Hp) as (t3 & A3 & B3 & C3). exists t3. split; auto. split; auto.
  intros t T0 T1. split; [rewrite mix_length; congruence|]. now apply C3.
Qed.

(** ** Along a segment *)

Lemma val_seg : forall r t z y, rowval r (mix t z y) == rowval r z + (rowval r y - rowval r z) * t.
Proof. intros. rewrite rowval_mix. ring. Qed.

Lemma holds_left : forall rb t0 z y, exists d, 0 < d /\
  ((forall t, t0 - d <= t -> t < t0 -> holds rb (mix t z y)) \/
   (forall t, t0 - d <= t -> t < t0 -> ~ holds rb (mix t z y))).
Proof.
  intros [r b] t0 z y. destruct (sign_left (rowval r z) (rowval r y - rowval r z) t0) as (d & D & H).
  exists d. split; auto. unfold holds; cbn [fst snd].
  destruct H as [H|[H|H]]; destruct b; [right|left|right|right|left|left]; intros t T0 T1;
    specialize (H t T0 T1); rewrite val_seg; lra.
Qed.

Lemma rows_left : forall rows t0 z y, exists d, 0 < d /\
  ((forall t, t0 - d <= t -> t < t0 -> Forall (fun rb => holds rb (mix t z y)) rows) \/
   (forall t, t0 - d <= t -> t < t0 -> ~ Forall (fun rb => holds rb (mix t z y)) rows)).
Proof.
  induction rows as [|rb rows IH]; intros t0 z y.
  - exists 1. split; [lra|]. left. constructor.
  - destruct (IH t0 z y) as (d1 & D1 & H1). destruct (holds_left rb t0 z y) as (d2 & D2 & H2).
    destruct (qmin_le d1 d2) as [M1 M2]. exists (qmin d1 d2).
    split; [unfold qmin; destruct (Qltb d2 d1); lra|].
    destruct H1 as [H1|H1], H2 as [H2|H2].
    + left. intros t T0 T1. constructor; [apply H2; lra|apply H1; lra].
    + right. intros t T0 T1 F. apply Forall_cons_iff in F as [F _]. apply (H2 t); auto; lra.
    + right. intros t T0 T1 F. apply Forall_cons_iff in F as [_ F]. apply (H1 t); auto; lra.
    + right. intros t T0 T1 F. apply Forall_cons_iff in F as [_ F]. apply (H1 t); auto; lra.
Qed.

Lemma polys_left : forall (ps : list polytope) t0 z y, exists d, 0 < d /\
  Forall (fun q => (forall t, t0 - d <= t -> t < t0 -> Forall (fun rb => holds rb (mix t z y)) (mrows (pmat q))) \/
                   (forall t, t0 - d <= t -> t < t0 -> ~ Forall (fun rb => holds rb (mix t z y)) (mrows (pmat q)))) ps.
Proof.
  induction ps as [|q ps IH]; intros t0 z y.
  - exists 1. split; [lra|constructor].
  - destruct (IH t0 z y) as (d1 & D1 & H1). destruct (rows_left (mrows (pmat q)) t0 z y) as (d2 & D2 & H2).
    destruct (qmin_le d1 d2) as [M1 M2]. exists (qmin d1 d2).
    split; [unfold qmin; destruct (Qltb d2 d1); lra|]. constructor.
    + destruct H2 as [H2|H2]; [left|right]; intros t T0 T1; apply H2; lra.
    + eapply Forall_impl; [|exact H1]. cbv beta. intros q' [H|H]; [left|right]; intros t T0 T1; apply H; lra.
Qed.

(** The part of a segment inside a polytope has a last point. *)
Lemma seg_max : forall m z y, wf_mat m -> S (length z) = ncol m -> length y = length z ->
  (exists t, 0 <= t /\ t <= 1 /\ mmember m (mix t z y)) ->
  exists t, 0 <= t /\ t <= 1 /\ mmember m (mix t z y) /\
    forall u, 0 <= u -> u <= 1 -> mmember m (mix u z y) -> u <= t.
Proof.
  intros m z y W Lz Ly (t & T0 & T1 & Mt).
  set (M := mkMat (([0; 1], false) :: ([1; -1], false) ::
      map (fun rb : list Q * bool => ([rowval (fst rb) z; rowval (fst rb) y - rowval (fst rb) z], snd rb)) (mrows m)) 2).
  assert (WM : wf_mat M).
  { split; cbn [ncol mrows M]; [lia|]. constructor; [reflexivity|]. constructor; [reflexivity|].
    apply Forall_map. apply Forall_forall. reflexivity. }
  assert (RV : forall a b u, rowval [a; b] [u] == a + b * u) by (intros; unfold rowval; simpl; ring).
  assert (MM : forall u, mmember M [u] <-> 0 <= u /\ u <= 1 /\ mmember m (mix u z y)).
  { intro u. unfold mmember; cbn [ncol mrows M]. rewrite !Forall_cons_iff, Forall_map.
    unfold holds at 1 2; cbn [fst snd]. rewrite !RV. split.
    - intros (_ & A & B & F). split; [lra|]. split; [lra|]. split; [rewrite mix_length; lia|].
      eapply Forall_impl; [|exact F]. intros [r b]. unfold holds; cbn [fst snd]. destruct b; intro H; rewrite RV in H; rewrite val_seg; lra.
    - intros (A & B & _ & F). split; [reflexivity|]. split; [lra|]. split; [lra|].
      eapply Forall_impl; [|exact F]. intros [r b]. unfold holds; cbn [fst snd]. destruct b; intro H; rewrite val_seg in H; rewrite RV; lra. }
  assert (ONE : forall x, mmember M x -> exists u, x = [u]).
  { intros x [L _]. cbn [ncol M] in L. destruct x as [|u [|u' x]]; simpl in L; try lia. eauto. }
  destruct (max_exists M [0; 1] 1 WM) as (x & Mx & Hx).
  - exists [t]. apply MM. auto.
  - intros x Mx. destruct (ONE x Mx) as (u & ->). apply MM in Mx. rewrite RV. lra.
  - destruct (ONE x Mx) as (u & ->). exists u. apply MM in Mx as (A & B & C). repeat (split; auto).
    intros u' A' B' C'. specialize (Hx [u'] (proj2 (MM u') (conj A' (conj B' C')))). rewrite !RV in Hx. lra.
Qed.

Lemma seg_max_all : forall ps z y,
  Forall (fun q => wf_mat (pmat q) /\ S (length z) = ncol (pmat q)) ps -> length y = length z ->
  (exists t, 0 <= t /\ t <= 1 /\ exists q, In q ps /\ member q (mix t z y)) ->
  exists t, 0 <= t /\ t <= 1 /\ (exists q, In q ps /\ member q (mix t z y)) /\
    forall u, 0 <= u -> u <= 1 -> (exists q, In q ps /\ member q (mix u z y)) -> u <= t.
Proof.
  intros ps z y F Ly X.
  assert (G : forall l, incl l ps -> (forall t, 0 <= t -> t <= 1 -> ~ exists q, In q l /\ member q (mix t z y)) \/
     exists t, 0 <= t /\ t <= 1 /\ (exists q, In q l /\ member q (mix t z y)) /\
       forall u, 0 <= u -> u <= 1 -> (exists q, In q l /\ member q (mix u z y)) -> u <= t).
  { induction l as [|q l IH]; intro I.
    - left. intros t _ _ (q & [] & _).
    - assert (Hq : In q ps) by (apply I; now left). rewrite Forall_forall in F. destruct (F q Hq) as [Wq Lq].
      set (M := mkMat (([0; 1], false) :: ([1; -1], false) ::
         map (fun rb : list Q * bool => ([rowval (fst rb) z; rowval (fst rb) y - rowval (fst rb) z], snd rb)) (mrows (pmat q))) 2).
      assert (D : (exists t, 0 <= t /\ t <= 1 /\ member q (mix t z y)) \/ ~ exists t, 0 <= t /\ t <= 1 /\ member q (mix t z y)).
      { destruct (feasible M) eqn:FE.
        - left. apply feasible_iff in FE as (x & L & H); [|cbn; lia]. cbn [ncol M] in L.
          destruct x as [|u [|u' x]]; simpl in L; try lia. cbn [mrows M] in H.
          rewrite !Forall_cons_iff, Forall_map in H. destruct H as (H1 & H2 & H3).
          unfold holds in H1, H2; cbn [fst snd] in H1, H2. unfold rowval in H1, H2; simpl in H1, H2.
          exists u. split; [lra|]. split; [lra|]. split; [rewrite mix_length; lia|].
          eapply Forall_impl; [|exact H3]. intros [r b]. unfold holds; cbn [fst snd].
          destruct b; intro H; unfold rowval at 1 in H; simpl in H; rewrite val_seg; lra.
        - right. intros (u & A & B & _ & C). assert (FE' : feasible M = true); [|congruence].
          apply feasible_iff; [cbn; lia|]. exists [u]. split; [reflexivity|]. cbn [mrows M].
          rewrite !Forall_cons_iff, Forall_map. split; [unfold holds, rowval; simpl; lra|].
          split; [unfold holds, rowval; simpl; lra|].
          eapply Forall_impl; [|exact C]. intros [r b]. unfold holds; cbn [fst snd].
          destruct b; intro H; rewrite val_seg in H; unfold rowval at 1; simpl; lra. }
      destruct (IH ltac:(intros a Ha; apply I; now right)) as [N|(t1 & A1 & B1 & C1 & D1)]; destruct D as [Y|NY].
      + destruct (seg_max (pmat q) z y Wq Lq Ly Y) as (t & A & B & C & D). right. exists t. split; auto. split; auto.
        split; [exists q; split; auto; now left|]. intros u U0 U1 (q' & [<-|Hq'] & Mq'); auto.
        exfalso. apply (N u U0 U1). eauto.
      + left. intros t T0 T1 (q' & [<-|Hq'] & Mq'); [apply NY; eauto|apply (N t T0 T1); eauto].
      + destruct (seg_max (pmat q) z y Wq Lq Ly Y) as (t & A & B & C & D). right.
        destruct (Qlt_le_dec t t1).
        * exists t1. split; auto. split; auto. destruct C1 as (q1 & Q1 & Q2).
          split; [exists q1; split; auto; now right|]. intros u U0 U1 (q' & [<-|Hq'] & Mq').
          -- specialize (D u U0 U1 Mq'). lra.
          -- apply D1; auto. eauto.
        * exists t. split; auto. split; auto. split; [exists q; split; auto; now left|].
          intros u U0 U1 (q' & [<-|Hq'] & Mq'); auto.
          assert (u <= t1) by (apply D1; eauto). lra.
      + right. exists t1. split; auto. split; auto. destruct C1 as (q1 & Q1 & Q2).
        split; [exists q1; split; auto; now right|]. intros u U0 U1 (q' & [<-|Hq'] & Mq').
        * exfalso. apply NY. eauto.
        * apply D1; eauto. }
  destruct (G ps (incl_refl ps)) as [N|Y]; auto. exfalso. destruct X as (t & A & B & C). apply (N t A B C).
Qed.

(** ** Convex unions *)

(** All the rows of a list of polytopes. *)
Definition all_rows (ps : list polytope) : list (list Q) := flat_map (fun q => map fst (mrows (pmat q))) ps.

(** If the union is convex, a point outside it violates a row valid on the
    whole union. *)
Lemma convex_union_facet : forall ps n y,
  Forall (fun q => wf_mat (pmat q) /\ no_zero_rows (pmat q) /\ ncol (pmat q) = n) ps ->
  (exists p z, In p ps /\ strict (pmat p) z) ->
  convex_set (in_union ps) -> S (length y) = n -> ~ in_union ps y ->
  exists q rb, In q ps /\ In rb (mrows (pmat q)) /\ (forall x, in_union ps x -> holds rb x) /\
    snd rb = false /\ rowval (fst rb) y < 0.
Proof.
  intros ps n y F (p & z0 & Hp & Sz0) CV Ly Ny. rewrite Forall_forall in F.
  assert (Np : ncol (pmat p) = n) by (now apply F).
  assert (Lz0 : S (length z0) = n) by (destruct Sz0 as [L _]; lia).
  set (R := all_rows ps).
  set (G := R ++ filter (fun r => negb (is_zero_row r))
       (flat_map (fun r => map (fun r' => vadd (vscale (rowval r y) r') (vscale (- rowval r' y) r)) R) R)).
  assert (HR : forall r, In r R <-> exists q b, In q ps /\ In (r, b) (mrows (pmat q))).
  { intro r. unfold R, all_rows. rewrite in_flat_map. split.
    - intros (q & Hq & H). apply in_map_iff in H as ([r' b] & <- & H). exists q, b. auto.
    - intros (q & b & Hq & H). exists q. split; auto. apply in_map_iff. exists (r, b). auto. }
  assert (LR : forall r, In r R -> length r = n /\ ~ zero_row r).
  { intros r Hr. apply HR in Hr as (q & b & Hq & H). destruct (F q Hq) as ([_ W] & NZ & N).
    unfold no_zero_rows in NZ. rewrite Forall_forall in W, NZ. split; [rewrite <- N; apply (W _ H)|apply (NZ _ H)]. }
  destruct (generic_near (length z0) G z0 eq_refl) as (w0 & t0 & Lw & T0 & T1 & Gn).
  { apply Forall_forall. intros r Hr. unfold G in Hr. apply in_app_or in Hr as [Hr|Hr].
    - rewrite Lz0. now apply LR.
    - apply filter_In in Hr as [Hr Z]. split.
      + apply in_flat_map in Hr as (r1 & H1 & Hr). apply in_map_iff in Hr as (r2 & <- & H2).
        rewrite vadd_length, !vscale_length. destruct (LR _ H1), (LR _ H2). lia.
      + intro Z'. apply is_zero_row_iff in Z'. rewrite Z' in Z. discriminate. }
  destruct (strict_open (pmat p) z0 w0 Sz0 Lw) as (t1 & A1 & B1 & C1).
  set (tz := qmin t0 t1). destruct (qmin_le t0 t1) as [M1 M2]. fold tz in M1, M2.
  assert (Tz : 0 < tz) by (unfold tz, qmin; destruct (Qltb t1 t0); lra).
  set (z := mix tz z0 w0). assert (Sz : strict (pmat p) z) by (apply C1; lra).
  assert (Gz : forall r, In r G -> ~ rowval r z == 0).
  { specialize (Gn tz Tz M1). rewrite Forall_forall in Gn. exact Gn. }
  assert (Lz : S (length z) = n) by (destruct Sz as [L _]; lia).
  clearbody z. clear Gn C1 M1 M2 Tz tz.
  assert (Lyz : length y = length z) by lia.
  assert (mstrict : forall q x, strict (pmat q) x -> member q x).
  { intros q x [L H]. apply mmember_iff. split; auto. intros [r b] Hr. destruct (H _ Hr) as [Hb P]. cbn [fst snd] in *.
    subst b. unfold holds; cbn [fst snd]. lra. }
  destruct (seg_max_all ps z y) as (ts & TS0 & TS1 & TSin & TSmax).
  { apply Forall_forall. intros q Hq. destruct (F q Hq) as (W & _ & N). split; auto. lia. }
  { exact Lyz. }
  { exists 0. split; [lra|]. split; [lra|]. exists p. split; auto. apply mstrict.
    destruct (strict_open (pmat p) z y Sz Lyz) as (t2 & A2 & B2 & C2). apply C2; lra. }
  assert (TSpos : 0 < ts).
  { destruct (strict_open (pmat p) z y Sz Lyz) as (t2 & A2 & B2 & C2).
    assert (t2 <= ts); [|lra]. apply TSmax; try lra. exists p. split; auto. apply mstrict. apply C2; lra. }
  assert (PE : forall q x x', length x = length x' -> peq x x' -> member q x -> member q x').
  { intros q x x' L P. now apply mmember_peq. }
  assert (TSlt : ts < 1).
  { destruct (Qlt_le_dec ts 1) as [LT|GE]; auto. exfalso. apply Ny. destruct TSin as (q & Hq & Mq). exists q. split; auto.
    apply (PE q (mix ts z y)); auto.
    - rewrite mix_length; lia.
    - intro i. rewrite nth_mix. assert (E1 : ts == 1) by lra. rewrite E1. ring. }
  assert (Hz : in_union ps z) by (exists p; auto).
  assert (Hw : in_union ps (mix ts z y)) by exact TSin.
  (* just before the exit point the segment lies in one polytope *)
  destruct (polys_left ps ts z y) as (d & D & PL).
  assert (Q1 : exists q d', In q ps /\ 0 < d' /\ d' <= ts /\
      forall t, ts - d' <= t -> t < ts -> member q (mix t z y)).
  { set (d' := qmin d ts). destruct (qmin_le d ts) as [U1 U2]. fold d' in U1, U2.
    assert (D' : 0 < d') by (unfold d', qmin; destruct (Qltb ts d); lra).
    assert (Hd : in_union ps (mix (ts - d') z y)).
    { set (a := 1 - d' / ts).
      assert (Ea : a * ts == ts - d') by (unfold a; field; lra).
      assert (Ra : 0 <= a /\ a <= 1).
      { assert (0 <= d' / ts) by (apply Qle_shift_div_l; lra).
        assert (d' / ts <= 1) by (apply Qle_shift_div_r; lra). unfold a. lra. }
      destruct (CV z (mix ts z y) a Hz Hw) as (q & Hq & Mq); try lra.
      exists q. split; auto. apply (PE q (mix a z (mix ts z y))); auto.
      - rewrite !mix_length; rewrite ?mix_length; lia.
      - intro i. rewrite !nth_mix, <- Ea. ring. }
    destruct Hd as (q & Hq & Mq). exists q, d'. split; auto. split; auto. split; auto.
    rewrite Forall_forall in PL. destruct (PL q Hq) as [P|P].
    - intros t U3 U4. split; [rewrite mix_length; [|lia]; destruct (F q Hq) as (_ & _ & N); lia|]. apply P; lra.
    - exfalso. apply (P (ts - d')); [lra|lra|]. apply Mq. }
  destruct Q1 as (q & d' & Hq & D' & D'1 & Mq). clear PL D d.
  destruct (F q Hq) as ([_ Wq] & NZq & Nq). rewrite Forall_forall in Wq.
  assert (RW : forall r b, In (r, b) (mrows (pmat q)) -> b = false /\ 0 <= rowval r z + (rowval r y - rowval r z) * ts).
  { intros r b Hr.
    assert (HH : forall t, ts - d' <= t -> t < ts -> holds (r, b) (mix t z y)).
    { intros t U1 U2. specialize (Mq t U1 U2). apply mmember_iff in Mq as [_ Mq]. now apply Mq. }
    pose proof (HH (ts - d') ltac:(lra) ltac:(lra)) as H1. pose proof (HH (ts - d' * (1 # 2)) ltac:(lra) ltac:(lra)) as H2.
    unfold holds in H1, H2, HH; cbn [fst snd] in H1, H2, HH.
    assert (Gr : ~ rowval r z == 0).
    { apply Gz. unfold G. apply in_or_app. left. apply HR. exists q, b. auto. }
    set (c := rowval r y - rowval r z) in *. set (a := rowval r z) in *.
    assert (VV : forall t, rowval r (mix t z y) == a + c * t) by (intro; apply val_seg).
    destruct b.
    - exfalso. pose proof (VV (ts - d')). pose proof (VV (ts - d' * (1 # 2))).
      assert (c * d' == 0) by lra. assert (C0 : c == 0) by (apply Qmult_integral in H3 as [|]; auto; lra).
      apply Gr. rewrite C0 in H. lra.
    - split; auto. destruct (Qlt_le_dec (a + c * ts) 0) as [Neg|]; auto. exfalso.
      destruct (small_pos (- (a + c * ts)) c ltac:(lra)) as (s0 & S0 & _ & S1).
      set (s := qmin s0 d'). destruct (qmin_le s0 d') as [U1 U2]. fold s in U1, U2.
      assert (Sp : 0 < s) by (unfold s, qmin; destruct (Qltb d' s0); lra).
      specialize (S1 s ltac:(lra) U1). pose proof (HH (ts - s) ltac:(lra) ltac:(lra)) as H3.
      pose proof (VV (ts - s)). lra. }
  (* the row through which the segment leaves *)
  assert (EX : (exists r, In (r, false) (mrows (pmat q)) /\ rowval r z + (rowval r y - rowval r z) * ts == 0 /\ rowval r y < 0) \/
     exists e, 0 < e /\ e <= 1 - ts /\ Forall (fun rb => holds rb (mix (ts + e) z y)) (mrows (pmat q))).
  { assert (GG : forall rows, (forall rb, In rb rows -> In rb (mrows (pmat q))) ->
      (exists r, In (r, false) rows /\ rowval r z + (rowval r y - rowval r z) * ts == 0 /\ rowval r y < 0) \/
      exists e, 0 < e /\ e <= 1 - ts /\ forall e', 0 <= e' -> e' <= e -> Forall (fun rb => holds rb (mix (ts + e') z y)) rows).
    { induction rows as [|[r b] rows IH]; intro I.
      - right. exists (1 - ts). split; [lra|]. split; [lra|]. constructor.
      - destruct (RW r b) as [-> V]; [apply I; now left|].
        destruct IH as [(r' & H1 & H2)|(e1 & P1 & P2 & P3)]; [intros; apply I; now right|left; exists r'; split; auto; now right|].
        set (c := rowval r y - rowval r z) in *. set (a := rowval r z) in *.
        destruct (Qlt_le_dec 0 (a + c * ts)) as [Pos|NP].
        + right. destruct (small_pos (a + c * ts) c Pos) as (s0 & S0 & S0' & S1).
          destruct (qmin_le e1 s0) as [U1 U2]. exists (qmin e1 s0).
          split; [unfold qmin; destruct (Qltb s0 e1); lra|]. split; [lra|].
          intros e' E0 E1. constructor; [|apply P3; lra]. unfold holds; cbn [fst snd]. rewrite val_seg.
 change (0 <= a + c * (ts + e')). specialize (S1 e' E0 ltac:(lra)). lra.
        + destruct (Qlt_le_dec (rowval r y) 0) as [Ny'|Py].
          * left. exists r. split; [now left|]. split; [change (a + c * ts == 0); lra|auto].
          * right. exists e1. split; auto. split; auto. intros e' E0 E1. constructor; [|apply P3; lra].
            unfold holds; cbn [fst snd]. rewrite val_seg. change (0 <= a + c * (ts + e')).
            assert (RY : rowval r y == a + c) by (unfold c, a; ring).
            assert (0 <= c * (1 - ts)) by lra.
            assert (0 <= c) by nra. assert (0 <= c * e') by (apply Qmult_le_0_compat; lra). lra. }
    destruct (GG (mrows (pmat q)) (fun _ H => H)) as [Y|(e & P1 & P2 & P3)]; [left; exact Y|].
    right. exists e. split; auto. split; auto. apply P3; lra. }
  destruct EX as [(r0 & Hr0 & Z0 & N0)|(e & E0 & E1 & FE)].
  2:{ exfalso. assert (ts + e <= ts); [|lra]. apply TSmax; try lra. exists q. split; auto.
      split; [rewrite mix_length; lia|exact FE]. }
  exists q, (r0, false). split; auto. split; auto. split; [|split; auto].
  intros v (qv & Hqv & Mv). unfold holds; cbn [fst snd].
  destruct (Qlt_le_dec (rowval r0 v) 0) as [Nv|]; auto. exfalso.
  assert (Lv : length v = length z).
  { destruct Mv as [Lv _]. destruct (F qv Hqv) as (_ & _ & N). lia. }
  set (K := rowval r0 z - rowval r0 y). set (c := - rowval r0 v / K).
  assert (Kp : 0 < K).
  { unfold K. assert (0 < rowval r0 z); [|lra]. assert (rowval r0 z * (1 - ts) == - (rowval r0 y * ts)) by lra. nra. }
  assert (Cp : 0 < c) by (apply Qlt_shift_div_l; lra).
  assert (CK : c * K == - rowval r0 v) by (unfold c; field; lra).
  (* a small step s works for every row of q *)
  assert (ST : exists s, 0 < s /\ s < 1 /\ ts + c * s <= 1 /\
     forall r, In (r, false) (mrows (pmat q)) -> 0 <= rowval r (mix (ts + c * s) z y) - s * rowval r v).
  { assert (GG : forall rows, (forall rb, In rb rows -> In rb (mrows (pmat q))) ->
      exists s0, 0 < s0 /\ s0 <= 1 /\ forall s, 0 <= s -> s <= s0 -> forall r, In (r, false) rows ->
        0 <= rowval r (mix (ts + c * s) z y) - s * rowval r v).
    { induction rows as [|[r b] rows IH]; intro I.
      - exists 1. split; [lra|]. split; [lra|]. intros s _ _ r [].
      - destruct (RW r b) as [-> V]; [apply I; now left|].
        destruct IH as (s1 & P1 & P2 & P3); [intros; apply I; now right|].
        destruct (Qlt_le_dec 0 (rowval r z + (rowval r y - rowval r z) * ts)) as [Pos|NP].
        + destruct (small_pos _ (c * (rowval r y - rowval r z) - rowval r v) Pos) as (s2 & S1 & S2 & S3).
          destruct (qmin_le s1 s2) as [U1 U2]. exists (qmin s1 s2).
          split; [unfold qmin; destruct (Qltb s2 s1); lra|]. split; [lra|].
          intros s X0 X1 r' [Hr'|Hr'].
          * injection Hr' as <-. rewrite val_seg. specialize (S3 s X0 ltac:(lra)). lra.
          * apply P3; auto; lra.
        + exists s1. split; auto. split; auto. intros s X0 X1 r' [Hr'|Hr']; [|apply P3; auto].
          injection Hr' as <-.
          (* r is proportional to r0 *)
          set (Dr := vadd (vscale (rowval r0 y) r) (vscale (- rowval r y) r0)).
          assert (DV : forall x, rowval Dr x == rowval r0 y * rowval r x - rowval r y * rowval r0 x).
          { intro x. unfold Dr. rewrite rowval_vadd, !rowval_vscale. ring. }
          assert (DZ : zero_row Dr).
          { destruct (is_zero_row Dr) eqn:EZ; [now apply is_zero_row_iff|]. exfalso.
            assert (In Dr G).
            { unfold G. apply in_or_app. right. apply filter_In. split; [|rewrite EZ; reflexivity].
              apply in_flat_map. exists r0. split; [apply HR; exists q, false; auto|].
              apply in_map_iff. exists r. split; auto. apply HR. exists q, false. split; auto. apply I. now left. }
            apply (Gz Dr H). rewrite DV.
            assert (X1' : rowval r z * (1 - ts) == - (rowval r y * ts)) by lra.
            assert (X2' : rowval r0 z * (1 - ts) == - (rowval r0 y * ts)) by lra.
            assert (X3' : (rowval r0 y * rowval r z - rowval r y * rowval r0 z) * (1 - ts) == 0).
            { transitivity (rowval r0 y * (rowval r z * (1 - ts)) - rowval r y * (rowval r0 z * (1 - ts))); [ring|].
              rewrite X1', X2'. ring. }
            apply Qmult_integral in X3' as [X3'|X3']; [exact X3'|lra]. }
          assert (PR : forall x, rowval r0 y * rowval r x == rowval r y * rowval r0 x).
          { intro x. pose proof (DV x). rewrite zero_row_value in H by exact DZ. lra. }
          rewrite val_seg.
          assert (X4 : rowval r0 y * (rowval r z + (rowval r y - rowval r z) * (ts + c * s) - s * rowval r v) == 0).
          { transitivity (rowval r0 y * rowval r z + (rowval r0 y * rowval r y - rowval r0 y * rowval r z) * (ts + c * s) - s * (rowval r0 y * rowval r v)); [ring|].
            rewrite !PR.
            transitivity (rowval r y * ((rowval r0 z + (rowval r0 y - rowval r0 z) * ts) + s * (- (c * K) - rowval r0 v))); [unfold K; ring|].
            rewrite Z0, CK. ring. }
          apply Qmult_integral in X4 as [X4|X4]; [lra|]. rewrite X4. lra. }
    destruct (GG (mrows (pmat q)) (fun _ H => H)) as (s1 & P1 & P2 & P3).
    set (s := qmin (s1 / 2) ((1 - ts) / c)). destruct (qmin_le (s1 / 2) ((1 - ts) / c)) as [U1 U2]. fold s in U1, U2.
    assert (E2 : s1 / 2 == s1 * (1 # 2)) by field. rewrite E2 in U1.
    assert (E3 : 0 < (1 - ts) / c) by (apply Qlt_shift_div_l; lra).
    assert (Sp : 0 < s) by (unfold s, qmin; destruct (Qltb ((1 - ts) / c) (s1 / 2)); lra).
    exists s. split; auto. split; [lra|]. split.
    - assert (c * s <= c * ((1 - ts) / c)) by (rewrite !(Qmult_comm c); apply Qmult_le_compat_r; lra).
      assert (c * ((1 - ts) / c) == 1 - ts) by (field; lra). lra.
    - intros r Hr. apply P3; auto; lra. }
  destruct ST as (s & S0 & S1 & S2 & S3).
  set (w' := mix (ts + c * s) z y). set (u := vscale (1 / (1 - s)) (vadd w' (vscale (- s) v))).
  assert (Lw' : length w' = length z) by (unfold w'; rewrite mix_length; lia).
  assert (Lu : length u = length z).
  { unfold u. rewrite vscale_length, vadd_length, vscale_length. lia. }
  assert (Mu : member q u).
  { apply mmember_iff. split; [lia|]. intros [r b] Hr. destruct (RW r b Hr) as [-> _].
    unfold holds; cbn [fst snd]. specialize (S3 r Hr). fold w' in S3.
    assert (VU : rowval r u * (1 - s) == rowval r w' - s * rowval r v).
    { unfold u, rowval. rewrite dot_vscale_r, dot_vadd_r, dot_vscale_r. field. lra. }
    rewrite <- VU in S3. nra. }
  assert (IW : in_union ps w').
  { destruct (CV u v s) as (q' & Hq' & Mq'); [exists q; auto|exists qv; auto|lra|lra|].
    exists q'. split; auto. apply (PE q' (mix s u v)); auto.
    - rewrite mix_length; lia.
    - intro i. rewrite nth_mix. unfold u. rewrite nth_vscale, nth_vadd, nth_vscale. field. lra. }
  assert (ts + c * s <= ts).
  { apply TSmax; auto. assert (0 < c * s) by nra. lra. }
  assert (0 < c * s) by nra. lra.
Qed.

(** ** The algorithm *)

Lemma product_In : forall {A} (ls : list (list A)) c, In c (product ls) <-> Forall2 (fun x l => In x l) c ls.
Proof.
  intros A. induction ls as [|l ls IH]; intro c; cbn [product].
  - split; [intros [<-|[]]; constructor|]. intro H. inversion H. now left.
  - rewrite in_flat_map. split.
    + intros (x & Hx & H). apply in_map_iff in H as (c' & <- & H). constructor; auto. now apply IH.
    + intro H. inversion H; subst. exists x. split; auto. apply in_map_iff. exists l0. split; auto. now apply IH.
Qed.

Lemma indexed_In : forall {A} (l : list A) k i p, In (i, p) (combine (seq k (length l)) l) <->
  exists j, i = (k + j)%nat /\ nth_error l j = Some p.
Proof.
  intros A. induction l as [|a l IH]; intros k i p; cbn [length seq combine].
  - split; [intros []|]. intros (j & _ & H). destruct j; discriminate.
  - split.
    + intros [H|H].
      * injection H as <- <-. exists 0%nat. split; [lia|reflexivity].
      * apply IH in H as (j & -> & H). exists (S j). split; [lia|auto].
    + intros (j & -> & H). destruct j as [|j].
      * injection H as <-. left. f_equal. lia.
      * right. apply IH. exists j. split; [lia|auto].
Qed.

Section WithExt.
Variable E : ext.
Hypothesis OK : ext_ok E.

Lemma classify_fst : forall polys ip s, In s (fst (classify E polys ip)) <->
  exists rb, In rb (mrows (pmat (snd ip))) /\ row_ok E polys rb (fst ip) = true /\
    (s = fst rb \/ snd rb = true /\ s = vopp (fst rb)).
Proof.
  intros polys [i p] s. unfold classify; cbn [fst snd]. induction (mrows (pmat p)) as [|rb rows IH]; cbn [fold_right].
  - split; [intros []|]. intros (rb & [] & _).
  - destruct (row_ok E polys rb i) eqn:R; cbn [fst snd].
    + rewrite in_app_iff, IH. split.
      * intros [H|H].
        -- exists rb. split; [now left|]. split; auto. destruct H as [<-|H]; auto.
           destruct (snd rb) eqn:B; [|destruct H]. destruct H as [<-|[]]. auto.
        -- destruct H as (rb' & A & B). exists rb'. split; auto. now right.
      * intros (rb' & [<-|A] & B & C).
        -- left. destruct C as [->|[C1 C2]]; [now left|]. right. rewrite C1. subst s. now left.
        -- right. exists rb'. auto.
    + rewrite IH. split.
      * intros (rb' & A & B). exists rb'. split; auto. now right.
      * intros (rb' & [<-|A] & B & C); [congruence|]. exists rb'. auto.
Qed.

Lemma classify_snd : forall polys ip s, In s (snd (classify E polys ip)) <->
  exists rb, In rb (mrows (pmat (snd ip))) /\ row_ok E polys rb (fst ip) = false /\
    (s = vopp (fst rb) \/ snd rb = true /\ s = fst rb).
Proof.
  intros polys [i p] s. unfold classify; cbn [fst snd]. induction (mrows (pmat p)) as [|rb rows IH]; cbn [fold_right].
  - split; [intros []|]. intros (rb & [] & _).
  - destruct (row_ok E polys rb i) eqn:R; cbn [fst snd].
    + rewrite IH. split.
      * intros (rb' & A & B). exists rb'. split; auto. now right.
      * intros (rb' & [<-|A] & B & C); [congruence|]. exists rb'. auto.
    + rewrite in_app_iff, IH. split.
      * intros [H|H].
        -- exists rb. split; [now left|]. split; auto. destruct H as [<-|H]; auto.
           destruct (snd rb) eqn:B; [|destruct H]. destruct H as [<-|[]]. auto.
        -- destruct H as (rb' & A & B). exists rb'. split; auto. now right.
      * intros (rb' & [<-|A] & B & C).
        -- left. destruct C as [->|[C1 C2]]; [now left|]. right. rewrite C1. subst s. now left.
        -- right. exists rb'. auto.
Qed.

Lemma row_ok_iff : forall polys rb i, row_ok E polys rb i = true <->
  forall j q, nth_error polys j = Some q -> j = i \/ Forall (fun v => holds rb v) (get_vertices E q).
Proof.
  intros polys rb i. unfold row_ok. rewrite forallb_forall. split.
  - intros H j q Hj. specialize (H (j, q) (proj2 (indexed_In polys 0 j q) (ex_intro _ j (conj eq_refl Hj)))).
    cbn [fst snd] in H. apply orb_true_iff in H as [H|H].
    + left. apply Nat.eqb_eq in H. symmetry. exact H.
    + right. rewrite forallb_forall in H. apply Forall_forall. intros v Hv. apply satisfies_iff. auto.
  - intros H [j q] Hjq. apply indexed_In in Hjq as (j' & -> & Hj). cbn [fst snd] in *. apply orb_true_iff.
    destruct (H j' q Hj) as [->|F].
    + left. apply Nat.eqb_refl.
    + right. apply forallb_forall. intros v Hv. apply satisfies_iff. rewrite Forall_forall in F. auto.
Qed.

Lemma conv_holds : forall rb vs x, conv vs x -> Forall (fun v => holds rb v) vs -> holds rb x.
Proof.
  intros [r b] vs x C F. unfold holds in *; cbn [fst snd] in *. destruct b.
  - now apply (conv_zero vs).
  - now apply (conv_nonneg vs).
Qed.

(** A row counts as common exactly when it holds on the whole union. *)
Lemma row_ok_valid : forall polys, Forall (fun q => good q /\ bounded q) polys ->
  forall i p rb, nth_error polys i = Some p -> In rb (mrows (pmat p)) ->
  (row_ok E polys rb i = true <-> forall x, in_union polys x -> holds rb x).
Proof.
  intros polys F i p rb Hi Hr. rewrite Forall_forall in F. rewrite row_ok_iff. split.
  - intros H x (q & Hq & Mq). apply In_nth_error in Hq as Hq'. destruct Hq' as (j & Hj).
    destruct (H j q Hj) as [->|FV].
    + rewrite Hi in Hj. injection Hj as <-. apply mmember_iff in Mq as [_ Mq]. auto.
    + destruct (F q Hq) as [G B]. destruct (get_vertices_spans E OK q G B) as [_ S2]. apply (conv_holds rb (get_vertices E q)); auto.
  - intros H j q Hj. right. apply nth_error_In in Hj. destruct (F q Hj) as [G B].
    destruct (get_vertices_spans E OK q G B) as [S1 _]. eapply Forall_impl; [|exact S1].
    intros v Mv. apply H. exists q. auto.
Qed.

Definition strict_rows (n : nat) (rows : list (list Q)) (y : point) : Prop :=
  S (length y) = n /\ Forall (fun r => 0 < rowval r y) rows.

Lemma all_empty_ok : forall n env combos, (1 <= n)%nat ->
  Forall (fun r => length r = n /\ ~ zero_row r) env ->
  Forall (fun c => c <> [] /\ Forall (fun r => length r = n /\ ~ zero_row r) c) combos ->
  exists b, all_empty E env combos = Ret b /\
    if b then forall c y, In c combos -> ~ strict_rows n (env ++ c) y
    else exists c y, In c combos /\ strict_rows n (env ++ c) y.
Proof.
  intros n env combos N FE. induction combos as [|c combos IH]; intro FC; cbn [all_empty].
  - exists true. split; [reflexivity|]. intros c y [].
  - apply Forall_cons_iff in FC as [[NE Fc] FC].
    assert (FA : Forall (fun r => length r = n /\ ~ zero_row r) (env ++ c)) by (apply Forall_app; auto).
    destruct (Polytope_ok E OK (env ++ c) false false n N) as (p & Ep & (Wp & NZp & _) & Np & _ & Mp).
    { eapply Forall_impl; [|exact FA]. cbv beta; tauto. }
    { destruct c as [|r c]; [congruence|]. exists r. split; [apply in_or_app; right; now left|].
      apply Forall_cons_iff in Fc. tauto. }
    rewrite Ep. cbn [bind]. unfold is_empty.
    destruct (is_empty_open_ok E OK p Wp NZp) as (e & -> & He). cbn [bind].
    set (M := mkMat (map (fun r => (r, false)) (env ++ c)) n).
    assert (WM : wf_mat M).
    { split; auto. cbn [mrows M ncol]. apply Forall_map. eapply Forall_impl; [|exact FA]. cbv beta. cbn [fst]. tauto. }
    assert (NZM : no_zero_rows M).
    { apply Forall_map. eapply Forall_impl; [|exact FA]. cbv beta. cbn [fst]. tauto. }
    assert (IS : forall y, interior p y <-> strict_rows n (env ++ c) y).
    { intro y. unfold interior. rewrite (minterior_ext _ M).
      - rewrite interior_iff by auto. unfold strict, strict_rows; cbn [ncol mrows M]. split; intros [L H]; split; auto.
        + apply Forall_forall. intros r Hr. apply (H (r, false)). now apply (in_map (fun r => (r, false))).
        + intros rb Hr. apply in_map_iff in Hr as (r & <- & Hr). cbn [fst snd]. split; auto. rewrite Forall_forall in H. auto.
      - intro x. change (mmember (pmat p) x) with (member p x). rewrite Mp. unfold mmember, M; cbn [ncol mrows].
        rewrite rows_hold_map. reflexivity. }
    destruct e.
    + destruct (IH FC) as (b & -> & Hb). exists b. split; auto. destruct b.
      * intros c' y [<-|Hc] Sy; [|now apply (Hb c' y)]. apply He. exists y. now apply IS.
      * destruct Hb as (c' & y & Hc & Sy). exists c', y. split; auto. now right.
    + exists false. split; auto. destruct He as (y & Hy). exists c, y. split; [now left|]. now apply IS.
Qed.

Lemma union_bounded : forall polys, Forall bounded polys -> exists B, forall x i, in_union polys x -> Qabs (nth i x 0) <= B.
Proof.
  induction polys as [|p polys IH]; intro F.
  - exists 0. intros x i (q & [] & _).
  - apply Forall_cons_iff in F as [(B1 & H1) F]. destruct (IH F) as (B2 & H2).
    destruct (qmax_ge B1 B2) as [M1 M2]. exists (qmax B1 B2). intros x i (q & [<-|Hq] & Mq).
    + specialize (H1 x i Mq). lra.
    + assert (Qabs (nth i x 0) <= B2) by (apply H2; exists q; auto). lra.
Qed.

Lemma Forall2_choice : forall {A B} (R : A -> B -> Prop) l, (forall b, In b l -> exists a, R a b) -> exists c, Forall2 R c l.
Proof.
  intros A B R. induction l as [|b l IH]; intro H; [exists []; constructor|].
  destruct IH as (c & Hc); [intros; apply H; now right|]. destruct (H b) as (a & Ha); [now left|].
  exists (a :: c). now constructor.
Qed.

(** Two closed convex sets whose union is convex meet. *)
Lemma convex_pair_meets : forall p q n, wf_mat (pmat p) -> wf_mat (pmat q) -> ncol (pmat p) = n -> ncol (pmat q) = n ->
  (exists x, member p x) -> (exists x, member q x) -> convex_set (in_union [p; q]) ->
  exists x, member p x /\ member q x.
Proof.
  intros p q n Wp Wq Np Nq (x & Mx) (y & My) CV.
  assert (Lx : S (length x) = n) by (destruct Mx; lia). assert (Ly : S (length y) = n) by (destruct My; lia).
  assert (PE : forall r a b, length a = length b -> peq a b -> member r a -> member r b).
  { intros r a b L P. now apply mmember_peq. }
  destruct (seg_max (pmat p) x y Wp ltac:(lia) ltac:(lia)) as (t & T0 & T1 & Mt & U).
  { exists 0. split; [lra|]. split; [lra|]. apply (PE p x); auto; [rewrite mix_length; lia|].
    intro i. rewrite nth_mix. ring. }
  exists (mix t x y). split; auto.
  destruct (member_dec q (mix t x y)) as [|N]; auto. exfalso.
  destruct (Qeq_dec t 1) as [E1|NE1].
  - apply N. apply (PE q y); auto; [rewrite mix_length; lia|]. intro i. rewrite nth_mix, E1. ring.
  - destruct (outside_open (pmat q) (mix t x y) y) as (s & S0 & S1 & S2); [rewrite mix_length; lia|exact N|].
    assert (H : in_union [p; q] (mix (t + s * (1 - t)) x y)).
    { apply CV; [exists p; split; [now left|auto]|exists q; split; [right; now left|auto]|nra|nra]. }
    assert (SP : peq (mix (t + s * (1 - t)) x y) (mix s (mix t x y) y)).
    { intro i. rewrite !nth_mix. ring. }
    destruct H as (r & [<-|[<-|[]]] & Mr).
    + assert (t + s * (1 - t) <= t) by (apply U; auto; nra). nra.
    + apply (S2 s ltac:(lra) ltac:(lra)). apply (PE q (mix (t + s * (1 - t)) x y)); auto.
      rewrite !mix_length; rewrite ?mix_length; lia.
Qed.

Lemma try_union_ok : forall polys n, (2 <= n)%nat ->
  Forall (fun q => good q /\ bounded q /\ ncol (pmat q) = n) polys ->
  (exists p z, In p polys /\ interior p z) ->
  exists r, try_union E polys = Ret r /\
    match r with
    | Some u => good u /\ forall x, member u x <-> in_union polys x
    | None => (forall q, In q polys -> exists x, member q x) -> ~ convex_set (in_union polys)
    end.
Proof.
  intros polys n N2 F (p0 & z0 & Hp0 & Iz0).
  assert (FW : Forall (fun q => wf_mat (pmat q) /\ no_zero_rows (pmat q) /\ ncol (pmat q) = n) polys).
  { eapply Forall_impl; [|exact F]. cbv beta. unfold good. tauto. }
  assert (FG : Forall (fun q => good q /\ bounded q) polys) by (eapply Forall_impl; [|exact F]; cbv beta; tauto).
  assert (Sz0 : strict (pmat p0) z0).
  { rewrite Forall_forall in FW. destruct (FW p0 Hp0) as (A & B & C). now apply interior_iff. }
  (* the general case *)
  set (parts := map (classify E polys) (combine (seq 0 (length polys)) polys)).
  set (env := set_list E (flat_map fst parts)). set (neg := map snd parts).
  assert (MAIN : (2 <= length polys)%nat ->
     exists r, (let! ok := all_empty E env (product neg) in
                if ok then let! u := Polytope E env false true in Ret (Some u) else Ret None) = Ret r /\
     match r with
     | Some u => good u /\ forall x, member u x <-> in_union polys x
     | None => ~ convex_set (in_union polys)
     end).
  { intro LEN.
    assert (ENV0 : forall s, In s (flat_map fst parts) <-> exists i p rb, nth_error polys i = Some p /\ In rb (mrows (pmat p)) /\
        row_ok E polys rb i = true /\ (s = fst rb \/ snd rb = true /\ s = vopp (fst rb))).
    { intro s. rewrite in_flat_map. unfold parts. split.
      - intros (pr & H & Hs). apply in_map_iff in H as ([i p] & <- & H). apply indexed_In in H as (j & -> & Hj).
        apply classify_fst in Hs as (rb & A & B & C). exists j, p, rb. auto.
      - intros (i & p & rb & A & B & C & D). exists (classify E polys (i, p)). split.
        + apply in_map. apply indexed_In. exists i. auto.
        + apply classify_fst. exists rb. auto. }
    assert (RLEN : forall i p rb, nth_error polys i = Some p -> In rb (mrows (pmat p)) -> length (fst rb) = n /\ ~ zero_row (fst rb)).
    { intros i p rb Hi Hr. apply nth_error_In in Hi. rewrite Forall_forall in FW. destruct (FW p Hi) as ([_ A] & B & C).
      unfold no_zero_rows in B. rewrite Forall_forall in A, B. split; [rewrite <- C; auto|auto]. }
    assert (FE0 : Forall (fun r => length r = n /\ ~ zero_row r) (flat_map fst parts)).
    { apply Forall_forall. intros s Hs. apply ENV0 in Hs as (i & p & rb & A & B & C & D).
      destruct (RLEN i p rb A B) as [L Z]. destruct D as [->|[_ ->]]; [auto|]. rewrite vopp_length. split; auto.
      intro Z'. exact (Z (proj1 (zero_row_vopp _) Z')). }
    assert (FE : Forall (fun r => length r = n /\ ~ zero_row r) env).
    { rewrite Forall_forall in *. intros r Hr. apply FE0. now apply (set_list_sub E OK). }
    assert (EV : forall r, In r (flat_map fst parts) -> exists r', In r' env /\ forall x, rowval r x == rowval r' x).
    { intros r Hr. destruct (set_list_all E OK _ r Hr) as (r' & A & B). exists r'. split; auto.
      intro x. rewrite !rowval_dot. apply peq_Forall2 in B; [|now apply Forall2_len in B].
      rewrite (dot_comm r), (dot_comm r'). now apply dot_peq_r. }
    assert (ENVS : forall x, in_union polys x -> Forall (fun r => 0 <= rowval r x) env).
    { intros x Hx. apply Forall_forall. intros r Hr. apply (set_list_sub E OK) in Hr.
      apply ENV0 in Hr as (i & p & rb & A & B & C & D). pose proof (proj1 (row_ok_valid polys FG i p rb A B) C x Hx) as H.
      unfold holds in H. destruct D as [->|[D ->]].
      - destruct (snd rb); lra.
      - rewrite D in H. rewrite rowval_vopp. lra. }
    assert (NEG : forall i p, nth_error polys i = Some p -> In (snd (classify E polys (i, p))) neg).
    { intros i p Hi. unfold neg, parts. apply in_map. apply in_map. apply indexed_In. exists i. auto. }
    assert (NEGR : forall l s, In l neg -> In s l -> length s = n /\ ~ zero_row s).
    { intros l s Hl Hs. unfold neg, parts in Hl. rewrite map_map in Hl. apply in_map_iff in Hl as ([i p] & <- & H).
      apply indexed_In in H as (j & -> & Hj). apply classify_snd in Hs as (rb & A & B & C). cbn [fst snd] in *.
      destruct (RLEN j p rb Hj A) as [L Z]. destruct C as [->|[_ ->]]; [|auto]. rewrite vopp_length. split; auto.
      intro Z'. exact (Z (proj1 (zero_row_vopp _) Z')). }
    assert (LNEG : length neg = length polys).
    { unfold neg, parts. rewrite !map_length, combine_length, seq_length. lia. }
    destruct (all_empty_ok n env (product neg) ltac:(lia) FE) as (ok & -> & HOK).
    { apply Forall_forall. intros c Hc. apply product_In in Hc. split.
      - intros ->. apply Forall2_len in Hc. simpl in Hc. lia.
      - clear - Hc NEGR. induction Hc as [|s l c ls H1 H2 IH]; constructor.
        + apply (NEGR l s); auto. now left.
        + apply IH. intros l' s' Hl. apply NEGR. now right. }
    cbn [bind].
    assert (OUT : forall c y, In c (product neg) -> strict_rows n (env ++ c) y -> ~ in_union polys y).
    { intros c y Hc [Ly Sy] (q & Hq & Mq). apply In_nth_error in Hq as (j & Hj). pose proof (NEG j q Hj) as Hn.
      apply product_In in Hc.
      assert (X : exists s, In s c /\ In s (snd (classify E polys (j, q)))).
      { clear - Hc Hn. revert Hn. generalize (snd (classify E polys (j, q))). intros l Hn.
        induction Hc as [|s l' c ls H1 H2 IH]; [destruct Hn|]. destruct Hn as [->|Hn].
        - exists s. split; auto. now left.
        - destruct (IH Hn) as (s' & A & B). exists s'. split; auto. now right. }
      destruct X as (s & Hs & Hs'). apply classify_snd in Hs' as (rb & A & B & C). cbn [fst snd] in *.
      rewrite Forall_forall in Sy. specialize (Sy s (in_or_app _ _ _ (or_intror Hs))). cbv beta in Sy.
      apply mmember_iff in Mq as [_ Mq]. specialize (Mq rb A). unfold holds in Mq.
      destruct C as [->|[C ->]].
      - rewrite rowval_vopp in Sy. destruct (snd rb); lra.
      - rewrite C in Mq. lra. }
    destruct ok.
    - (* the envelope is the union *)
      assert (Z0 : Forall (fun r => 0 < rowval r z0) env).
      { rewrite Forall_forall in *. intros r Hr. destruct (FE r Hr) as [Lr Zr].
        destruct Sz0 as [L0 H0]. pose proof (ENVS z0) as E0.
        destruct (FW p0 Hp0) as (W0 & NZ0 & N0).
        assert (I0 : minterior (mkMat [(r, false)] n) z0).
        { split.
          - split; [rewrite L0; exact N0|]. constructor; auto. unfold holds; cbn [fst snd].
            assert (Forall (fun r => 0 <= rowval r z0) env) as FF.
            { apply E0. exists p0. split; auto. apply Iz0. }
            rewrite Forall_forall in FF. auto.
          - destruct Iz0 as [_ (e & He & Hn)]. exists e. split; auto. intros y Hy. specialize (Hn y Hy).
            assert (FF : Forall (fun r => 0 <= rowval r y) env) by (apply ENVS; exists p0; auto).
            split; [destruct Hn as [Ly _]; rewrite Ly; exact N0|]. constructor; auto. unfold holds; cbn [fst snd].
            rewrite Forall_forall in FF. auto. }
        apply interior_strict in I0 as [_ I0].
        - apply (I0 (r, false)). now left.
        - split; cbn [ncol mrows]; [lia|]. constructor; auto.
        - constructor; auto. }
      assert (SOUND : forall x, S (length x) = n -> Forall (fun r => 0 <= rowval r x) env -> in_union polys x).
      { intros x Lx Ex. destruct (in_union_dec polys x) as [Y|NY]; auto. exfalso.
        (* one violated non-common row for each polytope *)
        assert (CH : exists c, Forall2 (fun s l => In s l /\ 0 < rowval s x) c neg).
        { apply Forall2_choice. intros l Hl. unfold neg, parts in Hl. rewrite map_map in Hl.
          apply in_map_iff in Hl as ([i p] & <- & H). apply indexed_In in H as (j & -> & Hj). cbn [plus].
          pose proof (nth_error_In _ _ Hj) as Hp. rewrite Forall_forall in NY, FW. specialize (NY p Hp).
          destruct (FW p Hp) as (_ & _ & Np).
          assert (D : exists rb, In rb (mrows (pmat p)) /\ ~ holds rb x).
          { destruct (Forall_Exists_dec (fun rb => holds rb x)) with (l := mrows (pmat p)) as [FF|XX].
            - intros rb. destruct (satisfies rb x) eqn:S0.
              + left. now apply satisfies_iff.
              + right. intro H. apply satisfies_iff in H. congruence.
            - exfalso. apply NY. split; auto. lia.
            - apply Exists_exists in XX. exact XX. }
          destruct D as (rb & Hr & Nr).
          assert (RO : row_ok E polys rb j = false).
          { destruct (row_ok E polys rb j) eqn:R; auto. exfalso. apply Nr.
            assert (FF : Forall (fun r => 0 <= rowval r x) (flat_map fst parts)).
            { apply Forall_forall. intros r H1. destruct (EV r H1) as (r' & A & B). rewrite B.
              rewrite Forall_forall in Ex. auto. }
            rewrite Forall_forall in FF.
            assert (A1 : 0 <= rowval (fst rb) x) by (apply FF; apply ENV0; exists j, p, rb; auto).
            unfold holds. destruct (snd rb) eqn:SB; auto.
            assert (A2 : 0 <= rowval (vopp (fst rb)) x).
            { apply FF; apply ENV0; exists j, p, rb. split; [exact Hj|]. split; [exact Hr|]. split; [exact R|]. right. split; [exact SB|reflexivity]. }
            rewrite rowval_vopp in A2. lra. }
          unfold holds in Nr. destruct (Qlt_le_dec (rowval (fst rb) x) 0) as [Lt|Ge].
          - exists (vopp (fst rb)). split; [|rewrite rowval_vopp; lra]. apply classify_snd. exists rb. auto.
          - destruct (snd rb) eqn:SB; [|contradiction]. exists (fst rb). split; [apply classify_snd; exists rb; split; [exact Hr|]; split; [exact RO|]; right; split; [exact SB|reflexivity]|].
            destruct (Qeq_dec (rowval (fst rb) x) 0); [contradiction|lra]. }
        destruct CH as (c & Hc).
        assert (Cin : In c (product neg)).
        { apply product_In. clear - Hc. induction Hc; constructor; auto. tauto. }
        assert (Cpos : Forall (fun r => ~ holds (vopp r, false) x) c).
        { clear - Hc. induction Hc as [|s l c ls [H1 H2] _ IH]; constructor; auto.
          unfold holds; cbn [fst snd]. rewrite rowval_vopp. lra. }
        assert (OP : exists t0, 0 < t0 /\ t0 <= 1 /\ forall t, 0 <= t -> t <= t0 -> Forall (fun r => 0 < rowval r (mix t x z0)) c).
        { clear - Cpos. induction c as [|r c IH].
          - exists 1. split; [lra|]. split; [lra|]. constructor.
          - apply Forall_cons_iff in Cpos as [C1 C2]. destruct (IH C2) as (t1 & A1 & B1 & D1).
            destruct (outside_row_open _ x z0 C1) as (t2 & A2 & B2 & D2). destruct (qmin_le t1 t2) as [M1 M2].
            exists (qmin t1 t2). split; [unfold qmin; destruct (Qltb t2 t1); lra|]. split; [lra|].
            intros t T0 T1. constructor; [|apply D1; lra]. specialize (D2 t T0 ltac:(lra)).
            unfold holds in D2; cbn [fst snd] in D2. rewrite rowval_vopp in D2. lra. }
        destruct OP as (t0 & T0 & T1 & TP). apply (HOK c (mix t0 x z0) Cin). split.
        - assert (length z0 = length x) by (destruct Sz0 as [L0 _]; rewrite Forall_forall in FW; destruct (FW p0 Hp0) as (_ & _ & N0); lia).
          rewrite mix_length; lia.
        - apply Forall_app. split; [|apply TP; lra]. rewrite Forall_forall in *. intros r Hr. rewrite rowval_mix.
          specialize (Ex r Hr). specialize (Z0 r Hr). cbv beta in Ex, Z0.
          assert (0 <= (1 - t0) * rowval r x) by (apply Qmult_le_0_compat; lra). nra. }
      assert (NEenv : exists r, In r env /\ ~ zero_row r).
      { destruct env as [|r env'].
        - exfalso. destruct (union_bounded polys) as (B & HB).
          { eapply Forall_impl; [|exact F]. cbv beta. tauto. }
          set (x := (Qabs B + 1) :: repeat 0 (n - 2)).
          assert (Hx : in_union polys x) by (apply SOUND; [unfold x; simpl; rewrite repeat_length; lia|constructor]).
          specialize (HB x 0%nat Hx). unfold x in HB. cbn [nth] in HB.
          rewrite Qabs_pos in HB by (pose proof (Qabs_nonneg B); lra). pose proof (Qle_Qabs B). lra.
        - exists r. split; [now left|]. apply Forall_cons_iff in FE. tauto. }
      destruct (Polytope_ok E OK env false true n ltac:(lia)) as (u & Eu & Gu & Nu & _ & Mu).
      { eapply Forall_impl; [|exact FE]. cbv beta; tauto. }
      { exact NEenv. }
      rewrite Eu. cbn [bind]. eexists. split; [reflexivity|]. split; auto. intro x. rewrite Mu. split.
      + intros [Lx Fx]. apply SOUND; auto.
      + intro Hx. split; [|now apply ENVS]. destruct Hx as (q & Hq & [Lq _]). rewrite Forall_forall in FW.
        destruct (FW q Hq) as (_ & _ & Nq). lia.
    - eexists. split; [reflexivity|]. intro CV. destruct HOK as (c & y & Hc & Sy).
      pose proof (OUT c y Hc Sy) as Ny. destruct Sy as [Ly Sy]. apply Forall_app in Sy as [Sy _].
      destruct (convex_union_facet polys n y FW) as (q & rb & Hq & Hr & V & Bf & Neg).
      + exists p0, z0. auto.
      + exact CV.
      + exact Ly.
      + exact Ny.
      + apply In_nth_error in Hq as (j & Hj). pose proof (proj2 (row_ok_valid polys FG j q rb Hj Hr) V) as RO.
        destruct (EV (fst rb)) as (r' & A & B); [apply ENV0; exists j, q, rb; auto|].
        rewrite Forall_forall in Sy. specialize (Sy r' A). cbv beta in Sy. rewrite <- B in Sy. lra. }
  destruct polys as [|a [|b [|c rest]]] eqn:EP.
  - destruct Hp0.
  - exists (Some a). split; [reflexivity|]. apply Forall_cons_iff in F as [(G & _) _]. split; auto.
    intro x. unfold in_union. split; [intro; exists a; split; auto; now left|].
    intros (q & [<-|[]] & M); auto.
  - unfold try_union.
    rewrite Forall_forall in F.
    destruct (F a (or_introl eq_refl)) as (Ga & Ba & Na). destruct (F b (or_intror (or_introl eq_refl))) as (Gb & Bb & Nb).
    destruct (intersection_ok E OK a [b] false n) as (q & Eq & Gq & Nq & Mq).
    { constructor; [auto|]. constructor; auto. }
    rewrite Eq. cbn [bind]. unfold is_empty.
    pose proof (is_empty_closed_ok E OK q (proj1 Gq)) as HE. cbn [bind].
    destruct (is_empty_closed E q).
    + exists None. split; [reflexivity|]. intros NE CV. apply HE.
      destruct (convex_pair_meets a b n) as (x & Mx & My); auto; try apply Ga; try apply Gb.
      * apply NE. now left.
      * apply NE. right; now left.
      * exists x. apply Mq. constructor; auto.
    + destruct (MAIN ltac:(simpl; lia)) as (r & Er & Hr). exists r. split; [exact Er|]. destruct r; auto.
  - unfold try_union. cbn [bind]. destruct (MAIN ltac:(simpl; lia)) as (r & Er & Hr). exists r.
    split; [exact Er|]. destruct r; auto.
Qed.

(** Polytopes without points. *)
Lemma try_union_void : forall polys n, (2 <= n)%nat -> polys <> [] ->
  Forall (fun q => good q /\ ncol (pmat q) = n /\ ~ exists x, member q x) polys ->
  exists r, try_union E polys = Ret r /\
    match r with Some u => good u /\ ncol (pmat u) = n /\ ~ exists x, member u x | None => True end.
Proof.
  intros polys n N2 NE F.
  assert (MAIN : (2 <= length polys)%nat ->
     let parts := map (classify E polys) (combine (seq 0 (length polys)) polys) in
     let env := set_list E (flat_map fst parts) in
     let neg := map snd parts in
     exists u, (let! ok := all_empty E env (product neg) in
                if ok then let! u := Polytope E env false true in Ret (Some u) else Ret None) = Ret (Some u) /\
       good u /\ ncol (pmat u) = n /\ ~ exists x, member u x).
  { intros LEN parts env neg.
    assert (RO : forall i rb, row_ok E polys rb i = true).
    { intros i rb. apply row_ok_iff. intros j q Hj. right. apply nth_error_In in Hj. rewrite Forall_forall in F.
      destruct (F q Hj) as (G & _ & V).
      assert (B : bounded q) by (exists 0; intros x k M; exfalso; apply V; eauto).
      destruct (get_vertices_spans E OK q G B) as [S1 _]. rewrite Forall_forall in *. intros v Hv. exfalso. apply V. exists v. now apply S1. }
    assert (PN : product neg = []).
    { unfold neg, parts. destruct polys as [|p0 polys']; [congruence|]. cbn [length seq combine map].
      assert (Z : snd (classify E (p0 :: polys') (0%nat, p0)) = []).
      { destruct (snd (classify E (p0 :: polys') (0%nat, p0))) as [|s l] eqn:D; [reflexivity|]. exfalso.
        assert (I : In s (snd (classify E (p0 :: polys') (0%nat, p0)))) by (rewrite D; now left).
        apply classify_snd in I as (rb & _ & R & _). rewrite RO in R. discriminate. }
      rewrite Z. reflexivity. }
    rewrite PN. cbn [all_empty bind].
    assert (RL : forall q rb, In q polys -> In rb (mrows (pmat q)) -> length (fst rb) = n /\ ~ zero_row (fst rb)).
    { intros q rb Hq Hr. rewrite Forall_forall in F. destruct (F q Hq) as (((_ & A) & B & _) & C & _).
      unfold no_zero_rows in B. rewrite Forall_forall in A, B. split; [rewrite <- C; auto|auto]. }
    assert (IE : forall s, In s (flat_map fst parts) <-> exists q rb, In q polys /\ In rb (mrows (pmat q)) /\ (s = fst rb \/ snd rb = true /\ s = vopp (fst rb))).
    { intro s. rewrite in_flat_map. unfold parts. split.
      - intros (pr & H & Hs). apply in_map_iff in H as ([i p] & <- & H). apply indexed_In in H as (j & -> & Hj).
        apply classify_fst in Hs as (rb & A & B & C). exists p, rb. split; [now apply nth_error_In in Hj|auto].
      - intros (q & rb & A & B & C). apply In_nth_error in A as (j & Hj). exists (classify E polys (j, q)). split.
        + apply in_map. apply indexed_In. exists j. auto.
        + apply classify_fst. exists rb. split; [exact B|]. split; [apply RO|exact C]. }
    assert (FE : Forall (fun r => length r = n /\ ~ zero_row r) env).
    { apply Forall_forall. intros r Hr. apply (set_list_sub E OK) in Hr. apply IE in Hr as (q & rb & A & B & C).
      destruct (RL q rb A B) as [L Z]. destruct C as [->|[_ ->]]; [auto|]. rewrite vopp_length. split; auto.
      intro Z'. exact (Z (proj1 (zero_row_vopp _) Z')). }
    destruct polys as [|p0 polys']; [congruence|]. set (ps := p0 :: polys') in *.
    rewrite Forall_forall in F. destruct (F p0 (or_introl eq_refl)) as (G0 & N0 & V0).
    assert (R0 : exists r, In r (mrows (pmat p0))).
    { destruct (mrows (pmat p0)) as [|r l] eqn:D; [|exists r; now left]. exfalso. apply V0. exists (repeat 0 (n - 1)).
      split; [rewrite repeat_length; lia|]. rewrite D. constructor. }
    assert (EV : forall r, In r (flat_map fst parts) -> exists r', In r' env /\ forall x, rowval r x == rowval r' x).
    { intros r Hr. destruct (set_list_all E OK _ r Hr) as (r' & A & B). exists r'. split; auto.
      intro x. rewrite !rowval_dot. apply peq_Forall2 in B; [|now apply Forall2_len in B].
      rewrite (dot_comm r), (dot_comm r'). now apply dot_peq_r. }
    destruct (Polytope_ok E OK env false true n ltac:(lia)) as (u & Eu & Gu & Nu & _ & Mu).
    { eapply Forall_impl; [|exact FE]. cbv beta; tauto. }
    { destruct R0 as (rb & Hr). destruct (EV (fst rb)) as (r' & A & _).
      - apply IE. exists p0, rb. split; [now left|]. split; [exact Hr|]. now left.
      - exists r'. split; [exact A|]. rewrite Forall_forall in FE. now apply FE. }
    rewrite Eu. cbn [bind]. exists u. split; [reflexivity|]. split; [exact Gu|]. split; [exact Nu|].
    intros (x & Mx). apply Mu in Mx as [Lx Fx]. apply V0. exists x. apply mmember_iff. split; [lia|]. intros rb Hr.
    assert (P : forall s, In s (flat_map fst parts) -> 0 <= rowval s x).
    { intros s Hs. destruct (EV s Hs) as (r' & A & B). rewrite B. rewrite Forall_forall in Fx. exact (Fx r' A). }
    unfold holds. assert (A1 : 0 <= rowval (fst rb) x) by (apply P, IE; exists p0, rb; split; [now left|auto]).
    destruct (snd rb) eqn:SB; [|exact A1].
    assert (A2 : 0 <= rowval (vopp (fst rb)) x).
    { apply P, IE. exists p0, rb. split; [now left|]. split; [exact Hr|]. right. split; [exact SB|reflexivity]. }
    rewrite rowval_vopp in A2. lra. }
  destruct polys as [|a [|b [|c rest]]] eqn:EP; [congruence| | |].
  - exists (Some a). split; [reflexivity|]. apply Forall_cons_iff in F as [A _]. exact A.
  - unfold try_union. rewrite Forall_forall in F.
    destruct (F a (or_introl eq_refl)) as (Ga & Na & Va). destruct (F b (or_intror (or_introl eq_refl))) as (Gb & Nb & Vb).
    destruct (intersection_ok E OK a [b] false n) as (q & Eq & Gq & Nq & Mq).
    { constructor; [auto|]. constructor; auto. }
    rewrite Eq. cbn [bind]. unfold is_empty. cbn [bind].
    pose proof (is_empty_closed_ok E OK q (proj1 Gq)) as HE. destruct (is_empty_closed E q).
    + exists None. split; [reflexivity|exact I].
    + exfalso. destruct HE as (x & Mx). apply Mq in Mx. apply Forall_cons_iff in Mx as [Mx _]. apply Va. eauto.
  - unfold try_union. cbn [bind]. destruct (MAIN ltac:(simpl; lia)) as (u & Eu & Hu). cbv zeta in Eu. exists (Some u). split; [exact Eu|exact Hu].
Qed.

End WithExt.
