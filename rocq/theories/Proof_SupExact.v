(** The largest rho / tau over a region that is given up to its boundary. *)
From Coq Require Import Reals Qreals.
From Verif Require Import Base LinAlg FM Model_Polytope Spec_Polytope Proof_Polytope Proof_PolytopeLP Model_Region Spec_Region Proof_RegionDisjoint
  Model_LargeValues Spec_LargeValues Model_RationalFunction Spec_RationalFunction Prop_RationalFunction Model_ZeroDensity Spec_ZeroDensity Proof_ZeroDensity Prop_ZeroDensity
  Model_DensityDerivation Spec_DensityDerivation Prop_DensityDerivation.
From Verif Require Import Spec_Edges Proof_Edges.
From Coq Require Import Lra.
Open Scope list_scope.
Local Open Scope Q_scope.

Lemma Q_between : forall x y : R, (x < y)%R -> exists q, (x < Q2R q)%R /\ (Q2R q < y)%R.
Proof.
  intros x y H. destruct (archimed (/ (y - x))) as [A _]. set (n := up (/ (y - x))) in *.
  assert (P : (0 < / (y - x))%R) by (apply Rinv_0_lt_compat; lra). assert (Pn : (0 < n)%Z) by (apply lt_IZR; lra). assert (Pn' : (0 < IZR n)%R) by lra.
  destruct (archimed (IZR n * x)) as [B1 B2]. set (m := up (IZR n * x)) in *.
  assert (K : (1 < IZR n * (y - x))%R). { apply (Rmult_lt_compat_r (y - x)) in A; [|lra]. rewrite Rinv_l in A by lra. lra. }
  exists (m # Z.to_pos n). unfold Q2R. cbn [Qnum Qden]. rewrite Z2Pos.id by exact Pn.
  split; apply (Rmult_lt_reg_r (IZR n)); try exact Pn'; rewrite Rmult_assoc, Rinv_l by lra; lra.
Qed.

(** Upper bounds for rho: one of each list. *)
Definition adm (sys : list (list (list Q))) (s t u : Q) : Prop := Forall (Exists (fun b => u <= bound_at b s t)) sys.
Definition sadm (sys : list (list (list Q))) (s t u : Q) : Prop := Forall (Exists (fun b => u < bound_at b s t)) sys.

Lemma adm_lower : forall sys s t u u', u' < u -> adm sys s t u -> sadm sys s t u'.
Proof. intros sys s t u u' L. apply Forall_impl. intros B. apply Exists_impl. intros b H. Lqa.lra. Qed.

Lemma sadm_open : forall sys s t u s' t', sadm sys s t u ->
  exists e0, 0 < e0 /\ e0 <= 1 /\ forall e, 0 <= e -> e <= e0 -> sadm sys ((1 - e) * s + e * s') ((1 - e) * t + e * t') u.
Proof.
  intros sys s t u s' t'. induction sys as [|B sys IH]; intro S.
  { exists 1. split; [reflexivity|]. split; [Lqa.lra|]. constructor. }
  apply Forall_cons_iff in S as [S1 S]. destruct (IH S) as (e1 & P1 & L1 & H1).
  assert (X : exists e2, 0 < e2 /\ forall e, 0 <= e -> e <= e2 -> Exists (fun b => u < bound_at b ((1 - e) * s + e * s') ((1 - e) * t + e * t')) B).
  { apply Exists_exists in S1 as (b & Ib & Hb).
    assert (EQ : forall e, bound_at b ((1 - e) * s + e * s') ((1 - e) * t + e * t') == (1 - e) * bound_at b s t + e * bound_at b s' t') by (intro e; unfold bound_at; ring).
    set (D := bound_at b s t - u). set (M := bound_at b s' t' - u). assert (PD : 0 < D) by (unfold D; Lqa.lra).
    assert (G : exists e2, 0 < e2 /\ forall e, 0 <= e -> e <= e2 -> 0 < (1 - e) * D + e * M).
    { destruct (Qlt_le_dec 0 M) as [PM|NM].
      - exists (1#2). split; [reflexivity|]. intros e E1 E2. Lqa.nra.
      - exists (D / (2 * (D - M))). assert (PP : 0 < 2 * (D - M)) by Lqa.lra. split; [apply Qlt_shift_div_l; [exact PP|Lqa.lra]|].
        intros e E1 E2. assert (E3 : e * (2 * (D - M)) <= D).
        { apply (Qmult_le_compat_r _ _ (2 * (D - M))) in E2; [|Lqa.lra]. assert (Z : D / (2 * (D - M)) * (2 * (D - M)) == D) by (field; Lqa.lra). Lqa.lra. }
        Lqa.lra. }
    destruct G as (e2 & P2 & H2). exists e2. split; [exact P2|]. intros e E1 E2. apply Exists_exists. exists b. split; [exact Ib|]. rewrite EQ. specialize (H2 e E1 E2). unfold D, M in H2. Lqa.lra. }
  destruct X as (e2 & P2 & H2). destruct (qmin_le e1 e2) as [M1 M2]. exists (qmin e1 e2).
  split; [unfold qmin; destruct (Qltb e2 e1); assumption|]. split; [Lqa.lra|].
  intros e E1 E2. constructor; [apply H2|apply H1]; Lqa.lra.
Qed.

Lemma bound_proper : forall b s t s' t', s == s' -> t == t' -> bound_at b s t == bound_at b s' t'.
Proof. intros b s t s' t' H K. unfold bound_at. now rewrite H, K. Qed.
Lemma adm_proper : forall sys s t u s' t' u', s == s' -> t == t' -> u == u' -> adm sys s t u -> adm sys s' t' u'.
Proof. intros sys s t u s' t' u' S T U. apply Forall_impl. intros B. apply Exists_impl. intros b H. rewrite <- U, <- (bound_proper b _ _ _ _ S T). exact H. Qed.
Lemma sadm_proper : forall sys s t u s' t' u', s == s' -> t == t' -> u == u' -> sadm sys s t u -> sadm sys s' t' u'.
Proof. intros sys s t u s' t' u' S T U. apply Forall_impl. intros B. apply Exists_impl. intros b H. rewrite <- U, <- (bound_proper b _ _ _ _ S T). exact H. Qed.

Section Sup.
Context (sys : list (list (list Q))) (a b t0 t1 UB : Q) (ps : list lpoly).
Context (AB : a < b) (T0 : 0 < t0) (T01 : t0 < t1).
Context (SZ : forall p, In p ps -> ncol (pmat (body p)) = 4%nat)
  (IN : forall s t u, within ps [s; t; u] -> a <= s <= b /\ t0 <= t <= t1 /\ 0 <= u <= UB /\ adm sys s t u)
  (OUT : forall s t u, a < s < b -> t0 < t < t1 -> 0 < u < UB -> sadm sys s t u -> within ps [s; t; u])
  (LOW : forall s t u, a <= s <= b -> t0 <= t <= t1 -> adm sys s t u -> u < UB)
  (POS : forall s, a <= s < b -> exists t u, t0 <= t <= t1 /\ 0 < u /\ adm sys s t u)
  (DEC : Forall (Forall (fun b => nth 1 b 0 <= -(1))) sys).

Lemma within_proper : forall x y, List.length x = List.length y -> (forall i, nth i x 0 == nth i y 0) -> within ps x -> within ps y.
Proof.
  intros x y L H (p & Ip & [K M]). exists p. split; [exact Ip|]. split; [congruence|]. rewrite Forall_forall in *. intros rb I.
  assert (EQ : rowval (fst rb) x == rowval (fst rb) y).
  { apply rowval_F2. clear - L H. revert y L H. induction x as [|c x IH]; intros [|d y] L H; try discriminate; constructor; [apply (H 0%nat)|]. apply IH; [now injection L|]. intro i. apply (H (S i)). }
  specialize (M rb I). unfold Spec_Polytope.holds in *. destruct (snd rb); rewrite <- EQ; exact M.
Qed.

(** Below a point that is allowed the pieces reach past its sigma. *)
Lemma reach : forall s t u, a <= s < b -> t0 <= t <= t1 -> 0 < u < UB -> sadm sys s t u ->
  exists p, In p (map body ps) /\ reaches_past p s /\ member p [s; t; u].
Proof.
  intros s t u Bs Bt Bu S. set (x := [s; t; u]). set (z := [b; (t0 + t1) / 2; u]).
  assert (MID : t0 < (t0 + t1) / 2 < t1). { unfold Qdiv. change (/ 2) with (1#2). Lqa.lra. }
  set (m := (t0 + t1) / 2) in *.
  destruct (sadm_open sys s t u b m S) as (e1 & P1 & L1 & H1).
  (* the pieces that do not contain x *)
  assert (FAR : exists e2, 0 < e2 /\ e2 <= 1 /\ forall e, 0 <= e -> e <= e2 -> forall p, In p ps -> ~ member (body p) x -> ~ member (body p) (mix e x z)).
  { assert (D : exists L, (forall q, In q L -> exists p, In p ps /\ q = body p /\ ~ member q x) /\ forall p, In p ps -> ~ member (body p) x -> In (body p) L).
    { clear. induction ps as [|p l IH]; [exists []; split; [intros q []|intros p []]|]. destruct IH as (L & A & B). destruct (member_dec (body p) x) as [M|M].
      - exists L. split; [intros q I; destruct (A q I) as (p' & I' & R); exists p'; split; [now right|exact R]|]. intros p' [->|I] N; [contradiction|auto].
      - exists (body p :: L). split.
        + intros q [<-|I]; [exists p; split; [now left|auto]|]. destruct (A q I) as (p' & I' & R). exists p'. split; [now right|exact R].
        + intros p' [->|I] N; [now left|right; auto]. }
    destruct D as (L & LA & LB). destruct (outside_all_open L x z) as (e2 & P2 & L2 & H2).
    - apply Forall_forall. intros q I. destruct (LA q I) as (p & Ip & -> & _). now rewrite (SZ p Ip).
    - apply Forall_forall. intros q I. now destruct (LA q I) as (p & Ip & -> & N).
    - exists e2. split; [exact P2|]. split; [exact L2|]. intros e E1 E2 p Ip N. specialize (H2 e E1 E2). rewrite Forall_forall in H2. apply H2. auto. }
  destruct FAR as (e2 & P2 & L2 & H2). destruct (qmin_le e1 e2) as [M1 M2]. set (e3 := qmin e1 e2) in *.
  assert (P3 : 0 < e3) by (unfold e3, qmin; destruct (Qltb e2 e1); assumption).
  set (e := e3 / 2). assert (PE : 0 < e /\ e < e3 /\ e < 1). { unfold e, Qdiv. change (/ 2) with (1#2). Lqa.lra. } destruct PE as (PE & PE3 & PE1). clearbody e.
  set (s' := (1 - e) * s + e * b). set (t' := (1 - e) * t + e * m).
  assert (W : within ps (mix e x z)).
  { apply (within_proper [s'; t'; u]).
    - reflexivity.
    - intros [|[|[|[|i]]]]; cbn; unfold s', t'; ring.
    - apply OUT; [unfold s'; Lqa.nra|unfold t'; Lqa.nra|exact Bu|]. apply H1; Lqa.lra. }
  destruct W as (p & Ip & Mp). destruct (member_dec (body p) x) as [Mx|Nx]; [|exfalso; revert Mp; apply (H2 e); auto; Lqa.lra].
  exists (body p). split; [now apply in_map|]. split; [|exact Mx]. exists x, (mix e x z). split; [exact Mx|]. split; [exact Mp|]. split; [reflexivity|].
  rewrite nth_mix. cbn. Lqa.nra.
Qed.

Definition top (s : Q) (v : R) : Prop :=
  (exists t u, t0 <= t <= t1 /\ 0 < u /\ adm sys s t u /\ v = Q2R (u / t)) /\
  forall t u, t0 <= t <= t1 -> adm sys s t u -> (Q2R (u / t) <= v)%R.

Lemma div_le_R : forall u t v, 0 < t -> ((Q2R (u / t) <= v)%R <-> (Q2R u <= v * Q2R t)%R).
Proof.
  intros u t v P. assert (P' : (0 < Q2R t)%R) by (apply Qlt_Rlt in P; now rewrite RMicromega.Q2R_0 in P). rewrite Q2R_div by (intro Z; rewrite Z in P; discriminate P).
  split; intro H.
  - apply Rmult_le_compat_r with (r := Q2R t) in H; [|lra]. unfold Rdiv in H. rewrite Rmult_assoc, Rinv_l, Rmult_1_r in H by lra. exact H.
  - apply (Rmult_le_reg_r (Q2R t)); [exact P'|]. unfold Rdiv. rewrite Rmult_assoc, Rinv_l, Rmult_1_r by lra. exact H.
Qed.

Lemma sup_top : forall s v, a <= s < b -> sup_value (map body ps) s v -> top s v.
Proof.
  intros s v Bs [SV MX].
  assert (UP : forall t u, t0 <= t <= t1 -> 0 < u -> adm sys s t u -> (Q2R (u / t) <= v)%R).
  { intros t u Bt Pu A. assert (PT : 0 < t) by Lqa.lra. apply div_le_R; [exact PT|]. apply Rnot_lt_le. intro LT.
    assert (LU : u < UB) by (apply (LOW s t u); auto; Lqa.lra).
    (* a rational between *)
    assert (X : exists w, 0 < w /\ w < u /\ (v * Q2R t < Q2R w)%R).
    { destruct (Q_between (Rmax 0 (v * Q2R t)) (Q2R u)) as (w & W1 & W2).
      - apply Rmax_lub_lt; [|exact LT]. apply Qlt_Rlt in Pu. now rewrite RMicromega.Q2R_0 in Pu.
      - exists w. pose proof (Rmax_l 0 (v * Q2R t)). pose proof (Rmax_r 0 (v * Q2R t)). split; [apply Rlt_Qlt; rewrite RMicromega.Q2R_0; lra|]. split; [apply Rlt_Qlt; lra|lra]. }
    destruct X as (w & W1 & W2 & W3). destruct (reach s t w Bs Bt ltac:(Lqa.lra) (adm_lower _ _ _ _ _ W2 A)) as (p & Ip & Rp & Mp).
    specialize (MX p _ Ip Rp Mp ltac:(reflexivity)). cbn [nth] in MX. apply div_le_R in MX; [|exact PT]. lra. }
  assert (PV : (0 < v)%R).
  { destruct (POS s Bs) as (t & u & Bt & Pu & A). specialize (UP t u Bt Pu A). assert (P : 0 < u / t) by (apply Qlt_shift_div_l; Lqa.lra).
    apply Qlt_Rlt in P. rewrite RMicromega.Q2R_0 in P. lra. }
  split.
  - destruct SV as [(p & x & Ip & Rp & Mp & Sx & ->)|[-> _]].
    + apply in_map_iff in Ip as (q & <- & Iq). assert (L : List.length x = 3%nat). { destruct Mp as [L _]. rewrite (SZ q Iq) in L. lia. }
      destruct x as [|s1 [|t2 [|u2 [|? ?]]]]; try discriminate L. cbn [nth] in *. destruct (IN s1 t2 u2) as (_ & Bt & Bu & A); [exists q; auto|].
      exists t2, u2. split; [exact Bt|]. split.
      * destruct (Qlt_le_dec 0 u2) as [P|P]; [exact P|]. exfalso. assert (Z : u2 / t2 == 0). { assert (Z : u2 == 0) by Lqa.lra. rewrite Z. unfold Qdiv. ring. } apply Qeq_eqR in Z. rewrite RMicromega.Q2R_0 in Z. lra.
      * split; [|reflexivity]. apply (adm_proper sys s1 t2 u2); auto; reflexivity.
    + exfalso. assert (N : inject_Z (-1000000) < 0) by reflexivity. apply Qlt_Rlt in N. rewrite RMicromega.Q2R_0 in N. lra.
  - intros t u Bt A. destruct (Qlt_le_dec 0 u) as [P|P]; [now apply UP|]. apply div_le_R; [Lqa.lra|]. apply Qle_Rle in P. rewrite RMicromega.Q2R_0 in P.
    assert (P' : (0 < Q2R t)%R) by (rewrite <- RMicromega.Q2R_0; apply Qlt_Rlt; Lqa.lra). pose proof (Rmult_lt_0_compat _ _ PV P'). lra.
Qed.

Lemma top_decreases : forall s s' v v', a <= s' -> s' < s -> s < b -> top s v -> top s' v' -> (v < v')%R.
Proof.
  intros s s' v v' A1 A2 A3 [(t & u & Bt & Pu & A & ->) _] [_ U].
  assert (A' : adm sys s' t (u + (s - s'))).
  { unfold adm in *. rewrite Forall_forall in *. intros B IB. specialize (A B IB). specialize (DEC B IB). apply Exists_exists in A as (c & Ic & Hc). apply Exists_exists. exists c. split; [exact Ic|].
    rewrite Forall_forall in DEC. specialize (DEC c Ic). cbv beta in DEC. unfold bound_at in *. Lqa.nra. }
  specialize (U t _ Bt A'). eapply Rlt_le_trans; [|exact U]. apply Qlt_Rlt. unfold Qdiv. apply Qmult_lt_r; [apply Qinv_lt_0_compat; Lqa.lra|Lqa.lra].
Qed.

(** The functions that the computation returns have no removable poles. *)
Context (E : ext) (OK : ext_ok E) (adjacency : mat -> list (list nat)) (AD : adjacency_ok E adjacency)
  (solve : rfun -> rfun -> list R) (SC : solve_complete solve).

Lemma region_sup_edges : forall h l, region_pieces h ps -> usable_pieces E ps -> region_sup E adjacency solve h (real_interval (a, b)) = Ret l ->
  forall f i r, In (f, i, r) l -> (exists c, f = RationalFunction [c] None) \/ exists v w, ~ nth 0 v 0 == nth 0 w 0 /\ f = edge_fun v w.
Proof.
  intros h l P U El f i r I. unfold region_sup in El. rewrite (child_polytopes_ok h ps P) in El. cbn [bind] in El.
  assert (D : (lo (real_interval (a, b)) < hi (real_interval (a, b)))%R) by (unfold real_interval; cbn [lo hi fst snd]; now apply Qlt_Rlt).
  assert (H : forall p, In p (map body ps) -> value_polytope p /\ vertices_in_order E p).
  { intros p Ip. apply in_map_iff in Ip as (q & <- & Iq). auto. }
  unfold compute_sup_rho_on_tau in El. destruct (sup_functions_ok E OK adjacency AD (map body ps) H) as (fs & Ef & S & _). rewrite Ef in El. cbn [bind] in El.
  destruct fs as [|f0 fs0] eqn:Efs.
  + injection El as <-. destruct I as [Eq|[]]. injection Eq as <- <- <-. left. eexists. reflexivity.
  + rewrite <- Efs in *. assert (Ne : fs <> []) by (rewrite Efs; discriminate). clear Efs f0 fs0.
    assert (PF : forall f i x, In (f, i) fs -> (lo i <= x <= hi i)%R -> ~ has_pole f x).
    { intros f' i' x I' B. destruct (S f' i' I') as (p & v & w & Ip & Mv & Mw & NE & -> & ->). destruct (H p Ip) as [(_ & _ & _ & PS) _].
      apply edge_fun_pole; auto; apply PS; auto. }
    destruct (rational_max_everywhere solve SC fs (real_interval (a, b)) true D Ne) as (l' & El' & _ & Pl).
    * intros f' i' x I' _. split; [|discriminate]. intros B. apply (PF f' i'); auto. lra.
    * intros f' i' I'. destruct (S f' i' I') as (p & v & w & _ & _ & _ & _ & _ & ->). split; reflexivity.
    * intros f' i' x I' _ B. apply (PF f' i'); auto. lra.
    * rewrite El in El'. injection El' as <-. destruct (Pl f i r I) as [[[_ ->]|(k & i' & _ & Nk & _)] _]; [left; eexists; reflexivity|].
      right. apply nth_error_In in Nk. destruct (S f i' Nk) as (p & v & w & _ & _ & _ & NE & -> & _). exists v, w. auto.
Qed.

Lemma region_sup_plain : forall h l, region_pieces h ps -> usable_pieces E ps -> region_sup E adjacency solve h (real_interval (a, b)) = Ret l -> plain_over l a b.
Proof.
  intros h l P U El f i r x I Bx HP Z.
  destruct (region_sup_ok E OK adjacency AD solve SC h ps a b P U AB) as (l' & El' & T & N & V). rewrite El in El'. injection El' as <-.
  assert (TI : (Q2R a <= lo i /\ lo i < hi i /\ hi i <= Q2R b)%R /\ ilo i = true /\ ihi i = false).
  { clear - T I. revert T I. generalize (Q2R a). induction l as [|[[g j] k] l IH]; intros c T I; [destruct I|]. cbn in T. destruct T as (A & B & C & D & T).
    assert (M : forall l u v, tiles l u v -> (u <= v)%R). { clear. induction l as [|[[g j] k] l IH]; intros u v T; cbn in T; [lra|]. destruct T as (A & B & _ & _ & T). apply IH in T. lra. }
    pose proof (M _ _ _ T). destruct I as [Eq|I]; [injection Eq as <- <- <-; split; [lra|auto]|]. destruct (IH _ T I) as [K1 K2]. split; [lra|exact K2]. }
  destruct TI as ((TI1 & TI2 & TI3) & TI4 & TI5).
  destruct (region_sup_edges h l P U El f i r I) as [(c & ->)|(v & w & NE & ->)].
  { revert HP. unfold has_pole. cbn. intro Y. rewrite ?RMicromega.Q2R_1 in Y. try lra. }
  destruct (Q_between (lo i) (hi i) TI2) as (s2 & S1 & S2). destruct (Q_between (lo i) (Q2R s2) S1) as (s1 & S3 & S4).
  assert (J1 : Spec_RationalFunction.inside i (Q2R s1)) by (unfold Spec_RationalFunction.inside; rewrite TI4, TI5; lra).
  assert (J2 : Spec_RationalFunction.inside i (Q2R s2)) by (unfold Spec_RationalFunction.inside; rewrite TI4, TI5; lra).
  assert (Q1 : a <= s1 < b) by (split; [apply Rle_Qle|apply Rlt_Qlt]; lra). assert (Q2 : a <= s2 < b) by (split; [apply Rle_Qle|apply Rlt_Qlt]; lra).
  pose proof (sup_top s1 _ Q1 (V _ _ _ _ I J1)) as TP1. pose proof (sup_top s2 _ Q2 (V _ _ _ _ I J2)) as TP2.
  pose proof (top_decreases s2 s1 _ _ ltac:(Lqa.lra) (Rlt_Qlt _ _ S4) ltac:(Lqa.lra) TP2 TP1) as LT. apply (Rlt_irrefl (rfval (edge_fun v w) (Q2R s2))). eapply Rlt_le_trans; [exact LT|]. apply Req_le.
  pose proof (N _ _ _ _ I J1) as N1. pose proof (N _ _ _ _ I J2) as N2. unfold has_pole in *. unfold rfval. revert HP Z N1 N2. rewrite !edge_fun_den, !edge_fun_num by exact NE.
  assert (DV : (Q2R (nth 0 v 0)%Q - Q2R (nth 0 w 0)%Q)%R <> 0%R). { intro Y. apply NE, eqR_Qeq. lra. }
  generalize (Q2R s1) (Q2R s2) (Q2R (nth 0 v 0)%Q) (Q2R (nth 0 w 0)%Q) (Q2R (nth 1 v 0)%Q) (Q2R (nth 1 w 0)%Q) (Q2R (nth 2 v 0)%Q) (Q2R (nth 2 w 0)%Q) DV. clear.
  intros p q v0 w0 v1 w1 v2 w2 D HP Z N1 N2.
  assert (K : forall A, (A / (v0 - w0) = 0 <-> A = 0)%R). { intro A. split; intro H; [|subst; field; exact D]. apply (Rmult_eq_reg_r (/ (v0 - w0))); [|now apply Rinv_neq_0_compat]. unfold Rdiv in H. rewrite H. ring. }
  rewrite K in HP, Z, N1, N2.
  set (d1 := (v1 * (p - w0) + w1 * (v0 - p))%R) in *. set (d2 := (v1 * (q - w0) + w1 * (v0 - q))%R) in *.
  set (n1 := (v2 * (p - w0) + w2 * (v0 - p))%R). set (n2 := (v2 * (q - w0) + w2 * (v0 - q))%R).
  assert (X : (n1 * d2 = n2 * d1)%R).
  { assert (A1 : (n1 = (v2 - w2) * (p - x))%R) by (unfold n1; lra). assert (A2 : (n2 = (v2 - w2) * (q - x))%R) by (unfold n2; lra).
    assert (A3 : (d1 = (v1 - w1) * (p - x))%R) by (unfold d1; lra). assert (A4 : (d2 = (v1 - w1) * (q - x))%R) by (unfold d2; lra). rewrite A1, A2, A3, A4. ring. }
  assert (Y : forall n d, d <> 0%R -> (n / (v0 - w0) / (d / (v0 - w0)) = n / d)%R) by (intros n d Hd; field; auto).
  rewrite !Y by assumption. apply (Rmult_eq_reg_r (d1 * d2)); [|now apply Rmult_integral_contrapositive_currified].
  transitivity (n1 * d2)%R; [field; assumption|]. rewrite X. field. assumption.
Qed.
End Sup.
