(** [as_disjoint_union]: the pieces, their union and their disjointness. *)
From Coq Require Import Permutation.
From Verif Require Import Base LinAlg FM Hull Model_Polytope Spec_Polytope FM_Ext Model_Region Spec_Region.
From Verif Require Import Proof_Polytope Proof_PolytopeMaps Proof_PolytopeLP Proof_PolytopeSets Proof_PolytopeUnion.
From Verif Require Import Proof_Region Proof_RegionSimplify.

(** ** Points in general position *)

Definition row_in (d : nat) (r : list Q) : Prop := length r = S d /\ ~ zero_row r.

Lemma mix_near : forall x z e, length z = length x -> 0 < e -> exists t0, 0 < t0 /\ t0 <= 1 /\
  forall t, 0 <= t -> t <= t0 -> near e x (mix t x z).
Proof.
  intros x z e L He.
  assert (G : exists t0, 0 < t0 /\ t0 <= 1 /\ forall t, 0 <= t -> t <= t0 -> forall i, Qabs (nth i (mix t x z) 0 - nth i x 0) <= e).
  { revert z L. induction x as [|a x IH]; intros [|b z] L; try discriminate.
    - exists 1. split; [lra|]. split; [lra|]. intros t _ _ i. assert (E0 : nth i (mix t [] []) 0 - nth i [] 0 == 0) by (destruct i; simpl; ring).
      rewrite E0. change (Qabs 0) with 0. lra.
    - destruct (IH z ltac:(simpl in L; lia)) as (t0 & A & B & C).
      set (k := Qabs (b - a) + 1). assert (K : 1 <= k) by (unfold k; pose proof (Qabs_nonneg (b - a)); lra).
      assert (EK : 0 < e / k) by (apply Qlt_shift_div_l; lra).
      exists (qmin t0 (e / k)). destruct (qmin_le t0 (e / k)) as [M1 M2]. split; [unfold qmin; destruct (Qltb (e / k) t0); lra|].
      split; [lra|]. intros t T0 T1 [|i].
      + rewrite nth_mix. cbn [nth]. assert (E1 : (1 - t) * a + t * b - a == t * (b - a)) by ring. rewrite E1.
        rewrite Qabs_Qmult, (Qabs_pos t) by auto.
        assert (E2 : t * k <= e) by (setoid_replace e with (e / k * k) by (field; lra); apply Qmult_le_compat_r; lra).
        unfold k in E2. pose proof (Qabs_nonneg (b - a)). nra.
      + specialize (C t T0 ltac:(lra) i). exact C. }
  destruct G as (t0 & A & B & C). exists t0. split; [auto|]. split; [auto|]. intros t T0 T1. split; [now apply mix_length|]. now apply C.
Qed.

Lemma inside_generic : forall d (s : point -> Prop) x H, length x = d -> inside s x -> Forall (row_in d) H ->
  exists y, s y /\ length y = d /\ Forall (fun r => ~ rowval r y == 0) H.
Proof.
  intros d s x H L (e & He & N) F. destruct (generic_near d H x L F) as (z & t0 & Lz & T0 & T1 & G).
  destruct (mix_near x z e ltac:(lia) He) as (t1 & A & B & C).
  destruct (qmin_le t0 t1) as [M1 M2]. assert (P : 0 < qmin t0 t1) by (unfold qmin; destruct (Qltb t1 t0); lra).
  exists (mix (qmin t0 t1) x z). split; [apply N, C; lra|]. split; [rewrite mix_length; lia|]. apply G; lra.
Qed.

Definition rows_of (p : polytope) : list (list Q) := map fst (mrows (pmat p)).

Lemma rows_of_ok : forall d p, good p -> ncol (pmat p) = S d -> Forall (row_in d) (rows_of p).
Proof.
  intros d p ((_ & W) & NZ & _) N. unfold rows_of. apply Forall_forall. intros r Hr. apply in_map_iff in Hr as (rb & <- & Hr).
  unfold no_zero_rows in NZ. rewrite Forall_forall in W, NZ. split; [rewrite <- N; auto|auto].
Qed.

Lemma generic_strict : forall p x, member p x -> Forall (fun r => ~ rowval r x == 0) (rows_of p) -> strict (pmat p) x.
Proof.
  intros p x M F. apply mmember_iff in M as [L M]. split; [auto|]. intros [r b] Hr. cbn [fst snd].
  unfold rows_of in F. rewrite Forall_forall in F. specialize (F r ltac:(apply in_map_iff; exists (r, b); auto)).
  specialize (M _ Hr). unfold holds in M; cbn [fst snd] in M. destruct b; [contradiction|]. split; [auto|].
  destruct (Qlt_le_dec 0 (rowval r x)) as [P|P]; [auto|]. exfalso. apply F. lra.
Qed.

Lemma generic_interior : forall p x, good p -> member p x -> Forall (fun r => ~ rowval r x == 0) (rows_of p) -> interior p x.
Proof. intros p x (W & NZ & _) M F. apply interior_iff; auto. now apply generic_strict. Qed.

Lemma interior_inside : forall p x, interior p x -> inside (member p) x.
Proof. intros p x [_ H]. exact H. Qed.

Lemma interior_mono : forall p q x, (forall y, member p y -> member q y) -> interior p x -> interior q x.
Proof. intros p q x H [M (e & He & N)]. split; [now apply H|]. exists e. split; [auto|]. intros y Hy. now apply H, N. Qed.

Definition apart (a b : lpoly) : Prop := forall x, ~ (interior (body a) x /\ interior (body b) x).

Lemma apart_sym : forall a b, apart a b -> apart b a.
Proof. intros a b H x [A B]. now apply (H x). Qed.

Lemma apart_mono : forall a b a' b', (forall x, member (body a') x -> member (body a) x) ->
  (forall x, member (body b') x -> member (body b) x) -> apart a b -> apart a' b'.
Proof.
  intros a b a' b' Ha Hb H x [A B]. apply (H x).
  split; [exact (interior_mono _ _ x Ha A)|exact (interior_mono _ _ x Hb B)].
Qed.

Section WithExt.
Variable E : ext.
Hypothesis OK : ext_ok E.
Variable order : nat -> list nat -> list nat.
Hypothesis order_ok : forall k l, Permutation (order k l) l.
Variable d : nat.
Hypothesis d_pos : (1 <= d)%nat.
Variable track : bool.

(** A usable piece whose recorded dependencies, if tracked, are in [Lb]. *)
Definition piece (Lb : list nat) (p : lpoly) : Prop :=
  solid d p /\ (track = true -> exists ds, deps p = Some ds /\ incl ds Lb).

Definition within (ps : list lpoly) (x : point) : Prop := exists p, In p ps /\ member (body p) x.

Lemma solid_len : forall p x, solid d p -> member (body p) x -> length x = d.
Proof. intros p x (_ & _ & N & _) [L _]. lia. Qed.

Lemma within_union : forall ps x, in_union (map body ps) x <-> within ps x.
Proof.
  intros ps x. unfold in_union, within. split.
  - intros (q & Hq & M). apply in_map_iff in Hq as (p & <- & Hp). eauto.
  - intros (p & Hp & M). exists (body p). split; [now apply in_map|auto].
Qed.

Lemma bodies_ok : forall ps, Forall (solid d) ps -> Forall (fun q => good q /\ bounded q /\ ncol (pmat q) = S d) (map body ps).
Proof.
  intros ps F. apply Forall_forall. intros q Hq. apply in_map_iff in Hq as (p & <- & Hp). rewrite Forall_forall in F. destruct (F p Hp) as (A & B & C & _). auto.
Qed.

(** The union of pieces that [try_union] returns is again a piece. *)
Lemma union_solid : forall ps u, Forall (solid d) ps -> good (body u) -> ncol (pmat (body u)) = S d ->
  (forall x, member (body u) x <-> within ps x) -> solid d u.
Proof.
  intros ps u F G N H.
  split; [auto|]. split; [|split; [auto|]].
  - destruct (union_bounded (map body ps)) as (B & HB).
    { apply Forall_forall. intros q Hq. apply in_map_iff in Hq as (p' & <- & Hp). rewrite Forall_forall in F. apply F in Hp. apply Hp. }
    exists B. intros x i Mx. apply HB. apply within_union, H. exact Mx.
  - intros (x & Mx). apply H in Mx as (p & Hp & Mp). rewrite Forall_forall in F. destruct (F p Hp) as (_ & _ & _ & I).
    destruct I as (z & Iz); [eauto|]. exists z. apply (interior_mono (body p)); [|exact Iz]. intros y My. apply H. exists p. auto.
Qed.

Lemma points_dec : forall p, wf_mat (pmat (body p)) -> (exists x, member (body p) x) \/ ~ (exists x, member (body p) x).
Proof. intros p W. pose proof (is_empty_closed_ok E OK (body p) W) as H. destruct (is_empty_closed E (body p)); auto. Qed.

Lemma solid_cases : forall ps, Forall (solid d) ps ->
  (exists p z, In p (map body ps) /\ interior p z) \/ Forall (fun q => good q /\ ncol (pmat q) = S d /\ ~ exists x, member q x) (map body ps).
Proof.
  induction ps as [|p ps IH]; intro F; [right; constructor|]. apply Forall_cons_iff in F as [(G & B & N & I) F].
  destruct (points_dec p ltac:(apply G)) as [M|M].
  - left. destruct (I M) as (z & Iz). exists (body p), z. split; [now left|auto].
  - destruct (IH F) as [(q & z & Hq & Iz)|R]; [left; exists q, z; split; [now right|auto]|]. right. simpl. constructor; auto.
Qed.

Lemma try_union_solid : forall ps, ps <> [] -> Forall (solid d) ps ->
  exists r, try_union E (map body ps) = Ret r /\
    match r with
    | Some u => good u /\ ncol (pmat u) = S d /\ forall x, member u x <-> in_union (map body ps) x
    | None => (forall q, In q (map body ps) -> exists x, member q x) -> ~ convex_set (in_union (map body ps))
    end.
Proof.
  intros ps NE F. assert (B := bodies_ok ps F). destruct (solid_cases ps F) as [I|V].
  - destruct (try_union_ok E OK (map body ps) (S d) ltac:(lia) B I) as (r & Er & Hr). exists r. split; [exact Er|].
    destruct r as [u|]; [|exact Hr]. destruct Hr as [Gu Mu]. split; [exact Gu|]. split; [|exact Mu].
    destruct I as (p & z & Hp & [Mz _]). assert (Mu' : member u z) by (apply Mu; exists p; auto).
    rewrite Forall_forall in B. destruct (B p Hp) as (_ & _ & Np). destruct Mz as [L1 _]. destruct Mu' as [L2 _]. unfold member, mmember in *. lia.
  - destruct (try_union_void E OK (map body ps) (S d) ltac:(lia)) as (r & Er & Hr); [destruct ps; [congruence|discriminate]|exact V|].
    exists r. split; [exact Er|]. rewrite Forall_forall in V. destruct r as [u|].
    + destruct Hr as (Gu & Nu & Vu). split; [exact Gu|]. split; [exact Nu|]. intro x. split; [intro M; exfalso; apply Vu; eauto|].
      intros (q & Hq & Mq). exfalso. apply (V q Hq). eauto.
    + intros H. exfalso. destruct ps as [|p ps]; [congruence|]. apply (V (body p)); [now left|]. apply H. now left.
Qed.

Lemma union_apart : forall ps u c, Forall (solid d) ps -> solid d c ->
  (forall x, member (body u) x <-> within ps x) -> Forall (apart c) ps -> apart c u.
Proof.
  intros ps u c F Sc H A x [Ic Iu].
  assert (IN : inside (fun y => member (body c) y /\ member (body u) y) x).
  { destruct Ic as [_ (e1 & E1 & N1)]. destruct Iu as [_ (e2 & E2 & N2)].
    destruct (qmin_le e1 e2) as [M1 M2]. exists (qmin e1 e2). split; [unfold qmin; destruct (Qltb e2 e1); lra|].
    intros y [L Hy]. split; [apply N1|apply N2]; (split; [auto|]); intro i; specialize (Hy i); lra. }
  assert (Lx : length x = d) by (apply (solid_len c); [auto|apply Ic]).
  destruct (inside_generic d _ x (rows_of (body c) ++ flat_map (fun p => rows_of (body p)) ps) Lx IN) as (y & [Mc Mu] & Ly & G).
  { rewrite Forall_app. destruct Sc as (Gc & _ & Nc & _). split; [now apply rows_of_ok|].
    apply Forall_forall. intros r Hr. apply in_flat_map in Hr as (p & Hp & Hr). rewrite Forall_forall in F. destruct (F p Hp) as (Gp & _ & Np & _).
    pose proof (rows_of_ok d (body p) Gp Np) as R. rewrite Forall_forall in R. auto. }
  rewrite Forall_app in G. destruct G as [G1 G2]. apply H in Mu as (p & Hp & Mp). rewrite Forall_forall in A, F.
  apply (A p Hp y). split.
  - apply generic_interior; [apply Sc|auto|auto].
  - apply generic_interior; [apply F; auto|auto|]. rewrite Forall_forall in G2. apply Forall_forall. intros r Hr. apply G2.
    apply in_flat_map. eauto.
Qed.

Lemma union_deps_ok : forall Lb ps acc, Forall (fun p => exists ds, deps p = Some ds /\ incl ds Lb) ps -> incl acc Lb ->
  exists ds, foldM (fun acc p => match deps p with Some d => Ret (acc ++ d) | None => Raise AttributeError end) ps acc = Ret ds /\ incl ds Lb.
Proof.
  induction ps as [|p ps IH]; intros acc F I.
  - exists acc. split; [reflexivity|auto].
  - apply Forall_cons_iff in F as [(ds & Ed & Id) F]. cbn [foldM]. rewrite Ed; cbn [bind]. apply IH; auto. now apply incl_app.
Qed.

Lemma try_union_l_ok : forall Lb ps, ps <> [] -> Forall (piece Lb) ps ->
  exists r, try_union_l E track ps = Ret r /\
    match r with
    | Some u => piece Lb u /\ forall x, member (body u) x <-> within ps x
    | None => (forall p, In p ps -> exists x, member (body p) x) -> ~ convex_set (within ps)
    end.
Proof.
  intros Lb ps NE F. assert (FS : Forall (solid d) ps) by (eapply Forall_impl; [|exact F]; intros p [A _]; exact A).
  destruct (try_union_solid ps NE FS) as (r & Er & Hr).
  unfold try_union_l. rewrite Er; cbn [bind]. destruct r as [u|].
  - destruct Hr as (Gu & Nu & Mu). destruct track eqn:TR.
    + destruct (union_deps_ok Lb ps []) as (ds & Ed & Id).
      { eapply Forall_impl; [|exact F]. intros p [_ A]. apply A. exact TR. }
      { intros y []. }
      unfold union_deps. rewrite Ed; cbn [bind]. eexists. split; [reflexivity|].
      assert (MU : forall x, member (body (mkLPoly u None (Some ds))) x <-> within ps x) by (intro x; cbn [body]; rewrite Mu; apply within_union).
      split; [|exact MU]. split; [exact (union_solid ps (mkLPoly u None (Some ds)) FS Gu Nu MU)|]. intros _. exists ds. auto.
    + eexists. split; [reflexivity|].
      assert (MU : forall x, member (body (plain u)) x <-> within ps x) by (intro x; cbn [body plain]; rewrite Mu; apply within_union).
      split; [|exact MU]. split; [exact (union_solid ps (plain u) FS Gu Nu MU)|]. intro C. congruence.
  - exists None. split; [reflexivity|]. intros NV C. apply Hr.
    + intros q Hq. apply in_map_iff in Hq as (p & <- & Hp). now apply NV.
    + intros x y t Hx Hy T0 T1. apply within_union. apply C; auto; now apply within_union.
Qed.

Lemma try_union2_l : forall a b, try_union2 E track a b = try_union_l E track [a; b] \/
  (track = true /\ (deps a = None \/ deps b = None)).
Proof.
  intros a b. unfold try_union2, try_union_l, union_deps, dep_union. cbn [map].
  destruct (try_union E [body a; body b]) as [[u|]|]; cbn [bind]; auto. destruct track; auto.
  cbn [foldM]. destruct (deps a) as [da|]; [|auto]. destruct (deps b) as [db|]; [|auto]. left. cbn [bind]. reflexivity.
Qed.

Definition piece_N (a b : lpoly) : Prop :=
  (exists x, member (body a) x) -> (exists x, member (body b) x) -> ~ convex_set (fun x => member (body a) x \/ member (body b) x).

Lemma try_union2_ok : forall Lb a b, piece Lb a -> piece Lb b ->
  exists r, try_union2 E track a b = Ret r /\
    match r with
    | Some u => piece Lb u /\ (forall x, member (body u) x <-> member (body a) x \/ member (body b) x) /\
                (forall c, piece Lb c -> apart c a -> apart c b -> apart c u)
    | None => piece_N a b
    end.
Proof.
  intros Lb a b Pa Pb. destruct (try_union2_l a b) as [T|[T [D|D]]].
  2:{ exfalso. destruct Pa as [_ P]. destruct (P T) as (ds & C & _). congruence. }
  2:{ exfalso. destruct Pb as [_ P]. destruct (P T) as (ds & C & _). congruence. }
  assert (F : Forall (piece Lb) [a; b]) by (constructor; [auto|constructor; auto]).
  destruct (try_union_l_ok Lb [a; b] ltac:(discriminate) F) as (r & Er & Hr).
  assert (W : forall x, within [a; b] x <-> member (body a) x \/ member (body b) x).
  { intro x. unfold within. cbn [In]. split; [intros (p & [<-|[<-|[]]] & M); auto|intros [M|M]; eauto]. }
  exists r. rewrite T. split; [exact Er|]. destruct r as [u|].
  - destruct Hr as [Pu Mu]. split; [auto|]. split; [intro x; rewrite Mu; apply W|].
    intros c Pc Ca Cb. apply (union_apart [a; b]); [constructor; [apply Pa|constructor; [apply Pb|constructor]]|apply Pc|exact Mu|repeat constructor; auto].
  - intros Xa Xb C. apply Hr; [intros p [<-|[<-|[]]]; auto|]. intros x y t Hx Hy T0 T1. apply W. apply C; auto; now apply W.
Qed.

(** ** Intersections with one piece *)

Lemma piece_inters_ok : forall Lb p B, piece Lb p -> Forall (piece Lb) B ->
  exists L, piece_inters E track p B = Ret L /\ Forall (piece Lb) L /\
    (forall c, In c L -> (forall x, member (body c) x -> member (body p) x) /\
       exists q, In q B /\ forall x, member (body c) x -> member (body q) x) /\
    (forall x, member (body p) x -> within B x ->
       Forall (fun r => ~ rowval r x == 0) (rows_of (body p) ++ flat_map (fun q => rows_of (body q)) B) -> within L x) /\
    (ForallOrdPairs apart B -> ForallOrdPairs apart L).
Proof.
  intros Lb p B Pp. pose proof Pp as [(Gp & Bp & Np & Izp) Dp].
  induction B as [|q B IH]; intro F.
  - exists []. split; [reflexivity|]. split; [constructor|]. split; [intros c []|]. split; [intros x _ (q & [] & _)|constructor].
  - apply Forall_cons_iff in F as [Pq F]. pose proof Pq as [(Gq & Bq & Nq & Izq) Dq].
    destruct (IH F) as (L & EL & FL & SL & CL & DL). cbn [piece_inters].
    assert (RES : exists this, piece_inters E track p (q :: B) = Ret (this ++ L) /\ Forall (piece Lb) this /\
       (forall c, In c this -> forall x, member (body c) x -> member (body p) x /\ member (body q) x) /\
       (length this <= 1)%nat /\
       (forall x, member (body p) x -> member (body q) x ->
          Forall (fun r => ~ rowval r x == 0) (rows_of (body p) ++ rows_of (body q)) -> within this x)).
    { cbn [piece_inters]. rewrite EL; cbn [bind].
      assert (SP : is_subset_of E (body p) (body q) = true -> forall x, member (body p) x -> member (body q) x).
      { intros S0 x Mx. refine (proj1 (is_subset_of_ok E OK (body p) (body q) _ _ _ _ _) S0 x Mx);
          [apply Gp|apply Gq|congruence|eauto|intros; now apply bounded_rows]. }
      assert (SQ : is_subset_of E (body q) (body p) = true -> forall x, member (body q) x -> member (body p) x).
      { intros S0 x Mx. refine (proj1 (is_subset_of_ok E OK (body q) (body p) _ _ _ _ _) S0 x Mx);
          [apply Gq|apply Gp|congruence|eauto|intros; now apply bounded_rows]. }
      destruct (is_subset_of E (body p) (body q)) eqn:S1; [|destruct (is_subset_of E (body q) (body p)) eqn:S2].
      - exists [p]. split; [reflexivity|]. split; [repeat constructor; auto; apply Pp|]. split; [|split; [simpl; lia|]].
        + intros c [<-|[]] x Mx. split; [auto|]. now apply SP.
        + intros x Mx _ _. exists p. split; [now left|auto].
      - exists [q]. split; [reflexivity|]. split; [repeat constructor; auto; apply Pq|]. split; [|split; [simpl; lia|]].
        + intros c [<-|[]] x Mx. split; [|auto]. now apply SQ.
        + intros x _ Mx _. exists q. split; [now left|auto].
      - unfold intersect. destruct (intersection_ok E OK (body p) [body q] true (S d)) as (i & Ei & Gi & Ni & Mi).
        { constructor; [auto|constructor; auto]. }
        rewrite Ei; cbn [bind]. assert (MI : forall x, member i x <-> member (body p) x /\ member (body q) x).
        { intro x. rewrite Mi, !Forall_cons_iff. intuition. }
        cbn [is_empty]. destruct (is_empty_open_ok E OK i ltac:(apply Gi) ltac:(apply Gi)) as (b & Eb & Hb).
        unfold is_empty. rewrite Eb; cbn [bind]. destruct b.
        + exists []. split; [reflexivity|]. split; [constructor|]. split; [intros c []|]. split; [simpl; lia|].
          intros x Mp Mq G. exfalso. apply Hb. exists x. rewrite Forall_app in G. destruct G as [G1 G2].
          pose proof (generic_interior _ x Gp Mp G1) as [_ (e1 & E1 & N1)].
          pose proof (generic_interior _ x Gq Mq G2) as [_ (e2 & E2 & N2)].
          split; [now apply MI|]. destruct (qmin_le e1 e2) as [M1 M2]. exists (qmin e1 e2).
          split; [unfold qmin; destruct (Qltb e2 e1); lra|]. intros y [Ly Hy]. apply MI.
          split; [apply N1|apply N2]; (split; [auto|]); intro k; specialize (Hy k); lra.
        + assert (SOL : forall ds, solid d (mkLPoly i None ds)).
          { intro ds. split; [auto|]. split; [|split; [auto|intros _; exact Hb]]. destruct Bp as (K & HK). exists K. intros x k Mx. apply HK. now apply MI. }
          assert (OUT : forall ds, (track = true -> exists ds', ds = Some ds' /\ incl ds' Lb) ->
            Forall (piece Lb) [mkLPoly i None ds] /\
            (forall c, In c [mkLPoly i None ds] -> forall x, member (body c) x -> member (body p) x /\ member (body q) x) /\
            (length [mkLPoly i None ds] <= 1)%nat /\
            (forall x, member (body p) x -> member (body q) x ->
              Forall (fun r => ~ rowval r x == 0) (rows_of (body p) ++ rows_of (body q)) -> within [mkLPoly i None ds] x)).
          { intros ds T. split; [constructor; [|constructor]; split; [apply SOL|exact T]|]. split; [|split; [simpl; lia|]].
            - intros c [<-|[]] x Mx. now apply MI.
            - intros x Mp Mq _. eexists. split; [now left|]. cbn [body]. now apply MI. }
          destruct track eqn:TR.
          * destruct (Dp eq_refl) as (da & Ea & Ia). destruct (Dq eq_refl) as (db & Eb' & Ib). unfold dep_union. rewrite Ea, Eb'; cbn [bind].
            exists [mkLPoly i None (Some (da ++ db))]. split; [reflexivity|]. apply OUT. intros _. eexists. split; [reflexivity|]. now apply incl_app.
          * cbn [bind]. exists [plain i]. split; [reflexivity|]. apply OUT. congruence. }
    destruct RES as (this & ET & FT & ST & LT & CT). cbn [piece_inters] in ET. exists (this ++ L).
    split; [exact ET|]. split; [now apply Forall_app|]. split; [|split].
    + intros c Hc. apply in_app_or in Hc as [Hc|Hc].
      * split; [intros x Mx; now apply (ST c Hc)|]. exists q. split; [now left|]. intros x Mx. now apply (ST c Hc).
      * destruct (SL c Hc) as (A & q' & Hq' & B'). split; [auto|]. exists q'. split; [now right|auto].
    + intros x Mp (q' & [<-|Hq'] & Mq) G; cbn [flat_map] in G; rewrite !Forall_app in G; destruct G as (G1 & G2 & G3).
      * destruct (CT x Mp Mq) as (c & Hc & Mc); [rewrite Forall_app; auto|]. exists c. split; [apply in_or_app; auto|auto].
      * destruct (CL x Mp) as (c & Hc & Mc); [exists q'; auto|rewrite Forall_app; auto|]. exists c. split; [apply in_or_app; auto|auto].
    + intro FO. inversion FO as [|? ? FO1 FO2]; subst. specialize (DL FO2).
      destruct this as [|t [|t' this]]; [exact DL| |simpl in LT; lia]. simpl. constructor; [|exact DL].
      apply Forall_forall. intros c Hc. destruct (SL c Hc) as (_ & q' & Hq' & Sub). rewrite Forall_forall in FO1.
      apply (apart_mono q q'); [|exact Sub|auto]. intros x Mx. apply (ST t ltac:(now left) x Mx).
Qed.

Lemma merge_inters_ok : forall Lb L, Forall (piece Lb) L ->
  exists L', merge_inters E track L = Ret L' /\ Forall (piece Lb) L' /\ (forall x, within L' x <-> within L x) /\
    (ForallOrdPairs apart L -> ForallOrdPairs apart L').
Proof.
  intros Lb L F. unfold merge_inters.
  destruct ((2 <=? length L)%nat && (length L <=? UNION_THRESHOLD)%nat) eqn:C.
  - destruct (try_union_l_ok Lb L) as (r & Er & Hr); [intros ->; discriminate|auto|]. rewrite Er; cbn [bind]. destruct r as [u|].
    + destruct Hr as [Pu Mu]. exists [u]. split; [reflexivity|]. split; [constructor; auto|]. split.
      * intro x. rewrite <- Mu. unfold within. cbn [In]. split; [intros (p & [<-|[]] & M); auto|intro M; eauto].
      * intros _. repeat constructor.
    + exists L. split; [reflexivity|]. split; [auto|]. split; [tauto|auto].
  - exists L. split; [reflexivity|]. split; [auto|]. split; [tauto|auto].
Qed.

Lemma FOP_app : forall {A} (R : A -> A -> Prop) l m, ForallOrdPairs R l -> ForallOrdPairs R m ->
  (forall a b, In a l -> In b m -> R a b) -> ForallOrdPairs R (l ++ m).
Proof.
  intros A R l m F G H. induction F as [|a l F1 F2 IH]; [exact G|]. simpl. constructor.
  - rewrite Forall_app. split; [auto|]. apply Forall_forall. intros b Hb. apply H; simpl; auto.
  - apply IH. intros b c Hb Hc. apply H; simpl; auto.
Qed.

Definition all_rows_of (ps : list lpoly) : list (list Q) := flat_map (fun p => rows_of (body p)) ps.

Lemma all_rows_ok : forall ps, Forall (solid d) ps -> Forall (row_in d) (all_rows_of ps).
Proof.
  intros ps F. apply Forall_forall. intros r Hr. apply in_flat_map in Hr as (p & Hp & Hr). rewrite Forall_forall in F.
  destruct (F p Hp) as (G & _ & N & _). pose proof (rows_of_ok d _ G N) as R. rewrite Forall_forall in R. auto.
Qed.

Lemma round_ok : forall Lb A B, Forall (piece Lb) A -> Forall (piece Lb) B ->
  exists C, round E track A B = Ret C /\ Forall (piece Lb) C /\
    (forall x, within C x -> within A x /\ within B x) /\
    (forall x, within A x -> within B x -> Forall (fun r => ~ rowval r x == 0) (all_rows_of A ++ all_rows_of B) -> within C x) /\
    (ForallOrdPairs apart A -> ForallOrdPairs apart B -> ForallOrdPairs apart C).
Proof.
  intros Lb A B FA FB. induction A as [|p A IH].
  - exists []. split; [reflexivity|]. split; [constructor|]. split; [intros x (p & [] & _)|]. split; [intros x (p & [] & _)|]. constructor.
  - apply Forall_cons_iff in FA as [Pp FA]. destruct (IH FA) as (C & EC & FC & SC & CC & DC).
    destruct (piece_inters_ok Lb p B Pp FB) as (L & EL & FL & SL & CL & DL).
    destruct (merge_inters_ok Lb L FL) as (L' & EL' & FL' & UL & DL').
    exists (L' ++ C). cbn [round]. rewrite EL; cbn [bind]. rewrite EL'; cbn [bind]. rewrite EC; cbn [bind].
    assert (SL' : forall x, within L' x -> member (body p) x /\ within B x).
    { intros x H. apply UL in H as (c & Hc & Mc). destruct (SL c Hc) as (S1 & q & Hq & S2). split; [auto|]. exists q. auto. }
    split; [reflexivity|]. split; [now apply Forall_app|]. split; [|split].
    + intros x (c & Hc & Mc). apply in_app_or in Hc as [Hc|Hc].
      * destruct (SL' x) as [S1 S2]; [exists c; auto|]. split; [exists p; split; [now left|auto]|auto].
      * destruct (SC x) as [(q & Hq & Mq) S2]; [exists c; auto|]. split; [exists q; split; [now right|auto]|auto].
    + intros x (q & [<-|Hq] & Mq) WB G; unfold all_rows_of in G; cbn [flat_map] in G; rewrite !Forall_app in G; destruct G as ((G1 & G2) & G3).
      * assert (W : within L' x) by (apply UL, CL; [auto|auto|rewrite Forall_app; auto]).
        destruct W as (c & Hc & Mc). exists c. split; [apply in_or_app; auto|auto].
      * assert (W : within C x) by (apply CC; [exists q; auto|auto|rewrite Forall_app; auto]).
        destruct W as (c & Hc & Mc). exists c. split; [apply in_or_app; auto|auto].
    + intros FOA FOB. inversion FOA as [|? ? FO1 FO2]; subst. apply FOP_app; [auto|auto|].
      intros a b Ha Hb x [Ia Ib].
      (* [b] is within the union of the other pieces of [A] *)
      assert (Pa : piece Lb a) by (rewrite Forall_forall in FL'; auto).
      assert (Sa : forall y, member (body a) y -> member (body p) y) by (intros y My; apply SL'; exists a; auto).
      assert (FSA : Forall (solid d) A) by (eapply Forall_impl; [|exact FA]; intros q [H _]; exact H).
      assert (IN : inside (fun y => member (body a) y /\ member (body b) y) x).
      { destruct Ia as [_ (e1 & E1 & N1)]. destruct Ib as [_ (e2 & E2 & N2)].
        destruct (qmin_le e1 e2) as [M1 M2]. exists (qmin e1 e2). split; [unfold qmin; destruct (Qltb e2 e1); lra|].
        intros y [L0 Hy]. split; [apply N1|apply N2]; (split; [auto|]); intro i; specialize (Hy i); lra. }
      assert (Lx : length x = d) by (apply (solid_len a); [apply Pa|apply Ia]).
      destruct (inside_generic d _ x (rows_of (body p) ++ all_rows_of A) Lx IN) as (y & [Ma Mb] & Ly & G).
      { rewrite Forall_app. destruct Pp as [(Gp & _ & Np & _) _]. split; [now apply rows_of_ok|now apply all_rows_ok]. }
      rewrite Forall_app in G. destruct G as [G1 G2].
      destruct (SC y) as [(q & Hq & Mq) _]; [exists b; auto|]. rewrite Forall_forall in FO1, FSA.
      apply (FO1 q Hq y). split.
      * apply generic_interior; [apply Pp|auto|auto].
      * apply generic_interior; [apply FSA; auto|auto|]. apply Forall_forall. intros r Hr. unfold all_rows_of in G2. rewrite Forall_forall in G2.
        apply G2. apply in_flat_map. eauto.
Qed.

(** ** The loop over the children *)

Lemma simplify_pieces_ok : forall Lb L, Forall (piece Lb) L ->
  exists L', simplify_union_of_polys (try_union2 E track) order L = Ret L' /\ Forall (piece Lb) L' /\
    (forall x, within L' x <-> within L x) /\ (length L' <= length L)%nat /\
    (ForallOrdPairs apart L -> ForallOrdPairs apart L') /\
    ForallOrdPairs piece_N L'.
Proof.
  intros Lb L F.
  destruct (simplify_union_generic (try_union2 E track) order order_ok (piece Lb) (fun p => member (body p)) apart piece_N apart_sym
     (try_union2_ok Lb) L F) as (L' & EL & FL & UL & LL & DL & NL).
  exists L'. split; [auto|]. split; [auto|]. split; [exact UL|]. split; [auto|]. split; [auto|].
  clear - NL. induction NL as [|a l F1 F2 IH]; constructor; auto. eapply Forall_impl; [|exact F1]. cbv beta. unfold piece_N.
  intros b [H|H] Xa Xb C; apply H; auto. intros x y t Hx Hy T0 T1. apply or_comm. apply C; auto; now apply or_comm.
Qed.

(** Points off finitely many hyperplanes [H] are in the pieces iff in [s]. *)
Definition exact_off (H : list (list Q)) (L : list lpoly) (s : point -> Prop) : Prop :=
  Forall (row_in d) H /\ (forall x, within L x -> s x) /\
  forall x, s x -> Forall (fun r => ~ rowval r x == 0) H -> within L x.

Lemma rounds_ok : forall Lb Bs i A, Forall (piece Lb) A -> Forall (Forall (piece Lb)) Bs ->
  exists C, intersect_rounds E order track i A Bs = Ret C /\ Forall (piece Lb) C /\
    (exists H, exact_off H C (fun x => within A x /\ Forall (fun B => within B x) Bs)) /\
    (ForallOrdPairs apart A -> Forall (ForallOrdPairs apart) Bs -> ForallOrdPairs apart C).
Proof.
  intros Lb. induction Bs as [|B Bs IH]; intros i A FA FB.
  - exists A. split; [reflexivity|]. split; [auto|]. split; [|auto].
    exists []. split; [constructor|]. split; [intros x Hx; split; [auto|constructor]|]. intros x [Hx _] _. auto.
  - apply Forall_cons_iff in FB as [FB0 FB]. destruct (round_ok Lb A B FA FB0) as (C & EC & FC & SC & CC & DC).
    cbn [intersect_rounds]. rewrite EC; cbn [bind].
    assert (SIM : exists C', (if Nat.eqb (S i mod SIMPLIFY_EVERY) 0 && (100 <=? length C)%nat
                     then simplify_union_of_polys (try_union2 E track) order C else Ret C) = Ret C' /\
        Forall (piece Lb) C' /\ (forall x, within C' x <-> within C x) /\ (ForallOrdPairs apart C -> ForallOrdPairs apart C')).
    { destruct (Nat.eqb (S i mod SIMPLIFY_EVERY) 0 && (100 <=? length C)%nat).
      - destruct (simplify_pieces_ok Lb C FC) as (C' & A1 & A2 & A3 & _ & A4 & _). exists C'. auto.
      - exists C. split; [auto|]. split; [auto|]. split; [tauto|auto]. }
    destruct SIM as (C' & EC' & FC' & UC & DC'). rewrite EC'; cbn [bind].
    destruct (IH (S i) C' FC' FB) as (R & ER & FR & (H & HH & HS & HC) & DR).
    exists R. split; [exact ER|]. split; [auto|]. split.
    + exists (H ++ all_rows_of A ++ all_rows_of B). split; [|split].
      * rewrite !Forall_app. split; [auto|]. split; apply all_rows_ok; (eapply Forall_impl; [|eassumption]); intros q [Q0 _]; exact Q0.
      * intros x Hx. apply HS in Hx as [Hx HB]. apply UC, SC in Hx as [H1 H2]. split; [auto|constructor; auto].
      * intros x [WA WB] G. apply Forall_cons_iff in WB as [WB0 WB]. rewrite Forall_app in G. destruct G as [G1 G2].
        apply HC; [|exact G1]. split; [|auto]. apply UC, CC; auto.
    + intros FOA FOB. apply Forall_cons_iff in FOB as [FO1 FO2]. apply DR; auto.
Qed.

(** ** The whole tree *)

Definition usable (Lb : list nat) (p : lpoly) : Prop :=
  solid d p /\ (track = true -> exists l, plabel p = Some l /\ In l Lb).

Lemma disjoint_poly_ok : forall Lb r, disjoint_form r -> leaves (usable Lb) r ->
  exists L, as_disjoint_union_poly E order track r = Ret L /\ Forall (piece Lb) L /\
    (exists H, exact_off H L (denote r)) /\ (truly_disjoint r -> ForallOrdPairs apart L).
Proof.
  intros Lb r. induction r as [p|r IH|r IH|rs IH|rs IH|rs IH] using region_tree_ind; cbn [disjoint_form leaves]; intros DF LV; try tauto.
  - destruct LV as [SP LB]. cbn [as_disjoint_union_poly]. destruct track eqn:TR.
    + destruct (LB eq_refl) as (l & El & Il). rewrite El. eexists. split; [reflexivity|].
      assert (SC : solid d (mkLPoly (copy_poly (body p)) None (Some [l]))).
      { destruct SP as ((W & NZ & C & V) & B & N & I). split; [|auto]. split; [exact W|]. split; [exact NZ|]. split; [exact C|exact Logic.I]. }
      split; [|split; [|intros _; repeat constructor]].
      * constructor; [|constructor]. split; [exact SC|]. intros _. exists [l]. split; [reflexivity|]. intros k [<-|[]]. auto.
      * exists []. split; [constructor|]. split.
        -- intros x (q & [<-|[]] & M). exact M.
        -- intros x M _. eexists. split; [now left|exact M].
    + eexists. split; [reflexivity|]. split; [|split; [|intros _; repeat constructor]].
      * constructor; [|constructor]. split; [exact SP|congruence].
      * exists []. split; [constructor|]. split.
        -- intros x (q & [<-|[]] & M). exact M.
        -- intros x M _. eexists. split; [now left|exact M].
  - (* DISJOINT_UNION *)
    assert (F : Forall (fun r => exists L, as_disjoint_union_poly E order track r = Ret L /\ Forall (piece Lb) L /\
       (exists H, exact_off H L (denote r)) /\ (truly_disjoint r -> ForallOrdPairs apart L)) rs).
    { rewrite allP_iff in DF, LV. rewrite Forall_forall in *. intros a Ha. apply IH; auto. }
    clear IH. apply mapM_list_ok in F as (Ls & ELs & F). cbn [as_disjoint_union_poly]. rewrite ELs; cbn [bind].
    exists (concat Ls). split; [reflexivity|]. split; [|split].
    + apply Forall_concat. clear - F. induction F; constructor; auto. tauto.
    + cbn [denote]. clear - F. induction F as [|r L rs Ls (F1 & (H & HH & HS & HC) & _) F IHF].
      * exists []. split; [constructor|]. split; [intros x (q & [] & _)|intros x []].
      * destruct IHF as (H' & HH' & HS' & HC'). exists (H ++ H'). split; [now apply Forall_app|]. split.
        -- intros x (q & Hq & Mq). simpl in Hq. apply in_app_or in Hq as [Hq|Hq]; [left; apply HS; exists q; auto|right; apply HS'; exists q; auto].
        -- intros x [D|D] G; rewrite Forall_app in G; destruct G as [G1 G2].
           ++ destruct (HC x D G1) as (q & Hq & Mq). exists q. split; [simpl; apply in_or_app; auto|auto].
           ++ destruct (HC' x D G2) as (q & Hq & Mq). exists q. split; [simpl; apply in_or_app; auto|auto].
    + cbn [truly_disjoint]. intros [TD FO]. clear - F TD FO. induction F as [|r L rs Ls (F1 & (H & HH & HS & HC) & DL) F IHF]; [constructor|].
      destruct TD as [TD1 TD2]. inversion FO as [|? ? FO1 FO2]; subst. simpl. apply FOP_app; [auto|auto|].
      intros a b Ha Hb x [Ia Ib]. apply in_concat in Hb as (L2 & HL2 & Hb).
      assert (X : exists r2, In r2 rs /\ forall y, member (body b) y -> denote r2 y).
      { clear - F HL2 Hb. induction F as [|r L rs Ls (_ & (H & HH & HS & HC) & _) F IH]; [destruct HL2|]. destruct HL2 as [->|HL2].
        - exists r. split; [now left|]. intros y My. apply HS. exists b. auto.
        - destruct (IH HL2) as (r2 & H2 & K). exists r2. split; [now right|auto]. }
      destruct X as (r2 & H2 & K). rewrite Forall_forall in FO1. apply (FO1 r2 H2 x). split.
      * destruct Ia as [_ (e & He & N)]. exists e. split; [auto|]. intros y Hy. apply HS. exists a. split; [auto|exact (N y Hy)].
      * destruct Ib as [_ (e & He & N)]. exists e. split; [auto|]. intros y Hy. exact (K y (N y Hy)).
  - (* INTERSECT *)
    destruct DF as [NE DF].
    assert (F : Forall (fun r => exists L, as_disjoint_union_poly E order track r = Ret L /\ Forall (piece Lb) L /\
       (exists H, exact_off H L (denote r)) /\ (truly_disjoint r -> ForallOrdPairs apart L)) rs).
    { rewrite allP_iff in DF, LV. rewrite Forall_forall in *. intros a Ha. apply IH; auto. }
    clear IH. apply mapM_list_ok in F as (Ls & ELs & F). cbn [as_disjoint_union_poly]. rewrite ELs; cbn [bind].
    destruct Ls as [|A Bs]; [inversion F; subst; congruence|].
    inversion F as [|r0 A' rs' Bs' FA FB]; subst.
    destruct (rounds_ok Lb Bs 0 A) as (C & EC & FC & (H & HH & HS & HC) & DC).
    { apply FA. }
    { clear - FB. induction FB; constructor; auto. tauto. }
    exists C. split; [exact EC|]. split; [auto|]. split.
    + (* the exceptional rows of the children *)
      assert (X : exists K, Forall (row_in d) K /\ forall x,
          ((within A x /\ Forall (fun B => within B x) Bs) -> denote (RInter (r0 :: rs')) x) /\
          (denote (RInter (r0 :: rs')) x -> Forall (fun r => ~ rowval r x == 0) K -> within A x /\ Forall (fun B => within B x) Bs)).
      { assert (Y : exists K, Forall (row_in d) K /\ forall x,
          (Forall (fun B => within B x) (A :: Bs) -> allP (fun c => denote c x) (r0 :: rs')) /\
          (allP (fun c => denote c x) (r0 :: rs') -> Forall (fun r => ~ rowval r x == 0) K -> Forall (fun B => within B x) (A :: Bs))).
        { clear - F. induction F as [|r L rs Ls (F1 & (H & HH & HS & HC) & _) F IHF].
          - exists []. split; [constructor|]. intro x. split; [simpl; auto|constructor].
          - destruct IHF as (K & FK & HK). exists (H ++ K). split; [now apply Forall_app|]. intro x. destruct (HK x) as [K1 K2]. split.
            + intro W. apply Forall_cons_iff in W as [W1 W2]. simpl. split; auto.
            + intros [D1 D2] G. rewrite Forall_app in G. destruct G as [G1 G2]. constructor; auto. }
        destruct Y as (K & FK & HK). exists K. split; [auto|]. intro x. destruct (HK x) as [K1 K2]. split.
        - intros [W1 W2]. apply K1. constructor; auto.
        - intros D G. specialize (K2 D G). now apply Forall_cons_iff in K2. }
      destruct X as (K & FK & HK). exists (H ++ K). split; [now apply Forall_app|]. split.
      * intros x Hx. apply HK. now apply HS.
      * intros x D G. rewrite Forall_app in G. destruct G as [G1 G2]. apply HC; [|auto]. now apply HK.
    + cbn [truly_disjoint]. intros TD. apply DC.
      * apply FA. apply TD.
      * destruct TD as [_ TD]. clear - FB TD. induction FB; constructor.
        -- apply H. apply TD.
        -- apply IHFB. apply TD.
Qed.

(** Every point with a neighbourhood in the region is in some piece. *)
Lemma exact_off_inside : forall Lb H L (s : point -> Prop), Forall (piece Lb) L -> exact_off H L s ->
  forall x, length x = d -> inside s x -> within L x.
Proof.
  intros Lb H L s F (HH & HS & HC) x Lx (e & He & N).
  destruct (in_union_dec (map body L) x) as [U|U]; [now apply within_union|]. exfalso.
  destruct (generic_near d H x Lx HH) as (z & t0 & Lz & T0 & T1 & G).
  destruct (mix_near x z e ltac:(lia) He) as (t1 & A1 & B1 & C1).
  destruct (outside_all_open (map body L) x z) as (t2 & A2 & B2 & C2).
  { apply Forall_forall. intros q Hq. apply in_map_iff in Hq as (p & <- & Hp). rewrite Forall_forall in F. destruct (F p Hp) as [(_ & _ & Np & _) _]. lia. }
  { exact U. }
  set (t := qmin t0 (qmin t1 t2)). destruct (qmin_le t0 (qmin t1 t2)) as [M1 M2]. destruct (qmin_le t1 t2) as [M3 M4]. fold t in M1, M2.
  assert (P : 0 < t).
  { unfold t, qmin. destruct (Qltb t2 t1); [destruct (Qltb t2 t0)|destruct (Qltb t1 t0)]; lra. }
  assert (W : within L (mix t x z)) by (apply HC; [apply N, C1; lra|apply G; lra]).
  specialize (C2 t ltac:(lra) ltac:(lra)). rewrite Forall_forall in C2. apply within_union in W as (q & Hq & Mq). exact (C2 q Hq Mq).
Qed.

End WithExt.
