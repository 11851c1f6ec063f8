(** Proofs about set difference, projection, vertices and hyperplanes. *)
From Verif Require Import Base LinAlg FM Hull Model_Polytope Spec_Polytope FM_Ext Proof_Polytope Proof_PolytopeMaps Proof_PolytopeLP.

Lemma minterior_ext : forall m m' x, (forall y, mmember m y <-> mmember m' y) -> (minterior m x <-> minterior m' x).
Proof.
  intros m m' x H. unfold minterior. split; intros [A (e & P & N)]; (split; [now apply H|]);
    exists e; split; auto; intros y Hy; apply H; auto.
Qed.

Lemma zero_row_vopp : forall r, zero_row (vopp r) <-> zero_row r.
Proof.
  intro r. unfold zero_row, vopp. rewrite Forall_map. split; apply Forall_impl; intros; lra.
Qed.

(** ** Generic points *)

Lemma nonzero_row_open : forall r x z, ~ rowval r x == 0 -> exists t0, 0 < t0 /\ t0 <= 1 /\
  forall t, 0 <= t -> t <= t0 -> ~ rowval r (mix t x z) == 0.
Proof. intros r x z N. exact (outside_row_open (r, true) x z N). Qed.

Lemma nonzero_rows_open : forall l x z, Forall (fun r => ~ rowval r x == 0) l -> exists t0, 0 < t0 /\ t0 <= 1 /\
  forall t, 0 <= t -> t <= t0 -> Forall (fun r => ~ rowval r (mix t x z) == 0) l.
Proof.
  induction l as [|r l IH]; intros x z F.
  - exists 1. split; [lra|]. split; [lra|]. constructor.
  - apply Forall_cons_iff in F as [F1 F]. destruct (IH x z F) as (t1 & A1 & B1 & C1).
    destruct (nonzero_row_open r x z F1) as (t2 & A2 & B2 & C2). destruct (qmin_le t1 t2) as [M1 M2].
    exists (qmin t1 t2). split; [|split; [lra|]].
    + unfold qmin. destruct (Qltb t2 t1); lra.
    + intros t T0 T1. constructor; [apply C2; lra|apply C1; lra].
Qed.

Lemma generic_point : forall n l, Forall (fun r => length r = S n /\ ~ zero_row r) l ->
  exists z, length z = n /\ Forall (fun r => ~ rowval r z == 0) l.
Proof.
  induction l as [|r l IH]; intro F.
  - exists (repeat 0 n). split; [apply repeat_length|constructor].
  - apply Forall_cons_iff in F as [[L NZ] F]. destruct (IH F) as (z & Lz & Hz).
    destruct (Qeq_dec (rowval r z) 0) as [Z|N]; [|exists z; auto].
    destruct (row_cases r NZ) as [[N0 C]|(k & Hk & Nk)].
    + exfalso. apply N0. rewrite <- (C z). exact Z.
    + set (w := nudge z k 1). destruct (nonzero_rows_open l z w Hz) as (t0 & A & B & C).
      assert (Lw : length w = length z) by (apply nudge_length; lia).
      exists (mix t0 z w). split; [rewrite mix_length; lia|]. constructor; [|apply C; lra].
      rewrite rowval_mix. unfold w. rewrite rowval_nudge. rewrite Z. intro H.
      apply Nk. assert (t0 * nth k (tl r) 0 == 0) by lra. apply Qmult_integral in H0 as [H0|H0]; [lra|auto].
Qed.

(** From any point there is a direction along which all the rows soon become
    non-zero. *)
Lemma generic_near : forall n l x, length x = n -> Forall (fun r => length r = S n /\ ~ zero_row r) l ->
  exists z t0, length z = n /\ 0 < t0 /\ t0 <= 1 /\
    forall t, 0 < t -> t <= t0 -> Forall (fun r => ~ rowval r (mix t x z) == 0) l.
Proof.
  intros n l x L F. destruct (generic_point n l F) as (z & Lz & Hz). exists z.
  assert (G : exists t0, 0 < t0 /\ t0 <= 1 /\ forall t, 0 < t -> t <= t0 -> Forall (fun r => ~ rowval r (mix t x z) == 0) l).
  { clear F. induction l as [|r l IH].
    - exists 1. split; [lra|]. split; [lra|]. constructor.
    - apply Forall_cons_iff in Hz as [H1 Hz]. destruct (IH Hz) as (t1 & A1 & B1 & C1).
      assert (X : exists t2, 0 < t2 /\ t2 <= 1 /\ forall t, 0 < t -> t <= t2 -> ~ rowval r (mix t x z) == 0).
      { destruct (Qeq_dec (rowval r x) 0) as [Z|N].
        - exists 1. split; [lra|]. split; [lra|]. intros t T0 T1. rewrite rowval_mix, Z. intro H.
          assert (t * rowval r z == 0) by lra. apply Qmult_integral in H0 as [H0|H0]; [lra|auto].
        - destruct (nonzero_row_open r x z N) as (t2 & A2 & B2 & C2). exists t2. split; auto. split; auto.
          intros t T0 T1. apply C2; lra. }
      destruct X as (t2 & A2 & B2 & C2). destruct (qmin_le t1 t2) as [M1 M2].
      exists (qmin t1 t2). split; [|split; [lra|]].
      + unfold qmin. destruct (Qltb t2 t1); lra.
      + intros t T0 T1. constructor; [apply C2; lra|apply C1; lra]. }
  destruct G as (t0 & A & B & C). exists t0. auto.
Qed.

Section WithExt.
Variable E : ext.
Hypothesis OK : ext_ok E.

(** ** Set difference *)

Lemma set_minus_loop_ok : forall simplify B A, wf_mat A -> no_zero_rows A ->
  Forall (fun rb => snd rb = false /\ length (fst rb) = ncol A /\ ~ zero_row (fst rb)) B ->
  exists parts, set_minus_loop E A B simplify = Ret parts /\
    Forall (fun p => wf_mat (pmat p) /\ no_zero_rows (pmat p) /\ ncol (pmat p) = ncol A /\
      forall x, member p x -> mmember A x /\ exists rb, In rb B /\ rowval (fst rb) x <= 0) parts /\
    ForallOrdPairs (fun P Q => forall x, ~ (interior P x /\ member Q x)) parts /\
    (if simplify
     then Forall (fun p => exists x, interior p x) parts /\
          forall x, strict A x -> (forall rb, In rb B -> ~ rowval (fst rb) x == 0) ->
            (exists rb, In rb B /\ rowval (fst rb) x < 0) -> exists p, In p parts /\ member p x
     else forall x, mmember A x -> (exists rb, In rb B /\ rowval (fst rb) x < 0) ->
            exists p, In p parts /\ member p x).
Proof.
  intros simplify. induction B as [|[c b] B IH]; intros A W NZ F.
  - exists []. split; [reflexivity|]. split; [constructor|]. split; [constructor|].
    destruct simplify; [split; [constructor|]; intros x _ _ (rb & [] & _)|intros x _ (rb & [] & _)].
  - apply Forall_cons_iff in F as [(Hb & Lc & Zc) F]. cbn [fst snd] in *. subst b. cbn [set_minus_loop].
    assert (LV : Forall (fun r => length r = ncol A) [vopp c]) by (constructor; [rewrite vopp_length; auto|auto]).
    assert (LC : Forall (fun r => length r = ncol A) [c]) by (constructor; auto).
    assert (ZV : Forall (fun r => ~ zero_row r) [vopp c]).
    { constructor; auto. intro Z. exact (Zc (proj1 (zero_row_vopp c) Z)). }
    rewrite mat_extend_ok by exact LV. cbn [bind].
    set (A1 := mkMat (mrows A ++ map (fun r => (r, false)) [vopp c]) (ncol A)).
    assert (W1 : wf_mat A1) by (apply wf_app; auto).
    assert (NZ1 : no_zero_rows A1) by (apply nz_app; auto).
    assert (M1 : forall x, mmember A1 x <-> mmember A x /\ rowval c x <= 0).
    { intro x. unfold A1. rewrite member_app. split; intros [H1 H2]; split; auto.
      - apply Forall_cons_iff in H2 as [H2 _]. unfold holds in H2; cbn [fst snd] in H2. rewrite rowval_vopp in H2. lra.
      - constructor; auto. unfold holds; cbn [fst snd]. rewrite rowval_vopp. lra. }
    set (part := from_mat (if simplify then canonicalize E A1 else A1)).
    assert (WP : wf_mat (pmat part) /\ no_zero_rows (pmat part) /\ ncol (pmat part) = ncol A /\ forall x, member part x <-> mmember A1 x).
    { unfold part, member; cbn [pmat from_mat]. destruct simplify.
      - destruct (canon_wf E OK A1 W1) as [X Y]. split; auto. split; [now apply (canon_nz E OK)|]. split; [exact Y|].
        intro x. now apply (canon_set E OK).
      - split; auto. split; auto. split; [reflexivity|]. intro; reflexivity. }
    destruct WP as (WP & NZP & NP & MP).
    assert (IP : forall x, interior part x <-> strict A x /\ rowval c x < 0).
    { intro x. unfold interior. rewrite (minterior_ext _ A1) by exact MP. rewrite interior_iff by auto.
      unfold strict, A1; cbn [ncol mrows]. split.
      - intros [L H]. split; [split; auto; intros rb Hr; apply H; apply in_or_app; auto|].
        destruct (H (vopp c, false)) as [_ P]; [apply in_or_app; right; now left|].
        cbn [fst] in P. rewrite rowval_vopp in P. lra.
      - intros [[L H] P]. split; auto. intros rb Hr. apply in_app_or in Hr as [Hr|[<-|[]]]; auto.
        cbn [fst snd]. rewrite rowval_vopp. split; auto; lra. }
    assert (KP : exists keep, (if simplify then let! e := is_empty E part false in Ret (negb e) else Ret true) = Ret keep /\
       (if simplify then if keep then exists x, interior part x else ~ exists x, interior part x else keep = true)).
    { destruct simplify.
      - unfold is_empty. destruct (is_empty_open_ok E OK part WP NZP) as (e & -> & He). cbn [bind].
        exists (negb e). split; auto. destruct e; cbn [negb]; auto.
      - exists true. auto. }
    destruct KP as (keep & -> & HK). cbn [bind].
    assert (NX : exists A', (match B with [] => Ret A | _ => mat_extend A [c] false end) = Ret A' /\
       wf_mat A' /\ no_zero_rows A' /\ ncol A' = ncol A /\ (forall x, mmember A' x -> mmember A x) /\
       (B <> [] -> (forall x, mmember A' x <-> mmember A x /\ 0 <= rowval c x) /\
         forall x, strict A x -> 0 < rowval c x -> strict A' x)).
    { destruct B as [|b1 B1].
      - exists A. split; auto. split; auto. split; auto. split; auto. split; auto. congruence.
      - rewrite mat_extend_ok by exact LC. eexists. split; [reflexivity|].
        assert (MM : forall x, mmember (mkMat (mrows A ++ map (fun r => (r, false)) [c]) (ncol A)) x <-> mmember A x /\ 0 <= rowval c x).
        { intro x. rewrite member_app. split; intros [H1 H2]; split; auto.
          apply Forall_cons_iff in H2 as [H2 _]. exact H2. }
        split; [now apply wf_app|]. split; [apply nz_app; auto|]. split; [reflexivity|].
        split; [intros x H; now apply MM|]. intros _. split; [exact MM|].
        intros x [L H] P. split; auto. intros rb Hr. cbn [mrows] in Hr. apply in_app_or in Hr as [Hr|[<-|[]]]; auto. }
    destruct NX as (A' & -> & WA' & NZA' & NA' & MA' & NE). cbn [bind].
    destruct (IH A' WA' NZA') as (tail & -> & T1 & T2 & T3).
    { eapply Forall_impl; [|exact F]. cbv beta. intros rb (Q1 & Q2 & Q3). rewrite NA'. auto. }
    cbn [bind].
    assert (T1' : Forall (fun p => wf_mat (pmat p) /\ no_zero_rows (pmat p) /\ ncol (pmat p) = ncol A /\
      forall x, member p x -> mmember A x /\ exists rb, In rb ((c, false) :: B) /\ rowval (fst rb) x <= 0) tail).
    { eapply Forall_impl; [|exact T1]. cbv beta. intros p (Q1 & Q2 & Q3 & Q4). split; auto. split; auto.
      split; [congruence|]. intros x Mx. destruct (Q4 x Mx) as (R1 & rb & R2 & R3). split; auto.
      exists rb. split; auto. now right. }
    assert (PD : forall Q, In Q tail -> forall x, ~ (interior part x /\ member Q x)).
    { intros Q HQ x [H1 H2]. rewrite Forall_forall in T1. destruct (T1 Q HQ) as (_ & _ & _ & Q4).
      destruct (Q4 x H2) as (R1 & rb & R2 & R3).
      assert (NB : B <> []) by (intro Z; subst B; destruct R2).
      apply (proj1 (NE NB)) in R1 as [_ R1]. apply IP in H1 as [_ H1]. lra. }
    exists (if keep then part :: tail else tail). split; [reflexivity|]. split; [|split].
    + destruct keep; auto. constructor; auto. split; auto. split; auto. split; auto.
      intros x Mx. apply MP, M1 in Mx as [Mx Px]. split; auto. exists (c, false). split; auto. now left.
    + destruct keep; auto. constructor; auto. apply Forall_forall. exact PD.
    + destruct simplify.
      * destruct T3 as [T3 T4]. split; [destruct keep; auto|].
        intros x Sx Nz (rb & Hr & Pr).
        assert (Nc : ~ rowval c x == 0) by (apply (Nz (c, false)); now left).
        destruct (Qlt_le_dec (rowval c x) 0) as [Lt|Ge].
        -- assert (I : interior part x) by (apply IP; auto).
           destruct keep; [|exfalso; apply HK; eauto]. exists part. split; [now left|]. apply I.
        -- destruct Hr as [<-|Hr]; [cbn [fst] in Pr; lra|].
           assert (NB : B <> []) by (intro Z; subst B; destruct Hr).
           destruct (T4 x) as (p & Hp & Mp).
           ++ apply (proj2 (NE NB)); auto. lra.
           ++ intros rb' Hr'. apply Nz. now right.
           ++ exists rb. auto.
           ++ exists p. split; auto. destruct keep; auto. now right.
      * subst keep. intros x Mx (rb & Hr & Pr).
        destruct (Qlt_le_dec (rowval c x) 0) as [Lt|Ge].
        -- exists part. split; [now left|]. apply MP, M1. split; auto. lra.
        -- destruct Hr as [<-|Hr]; [cbn [fst] in Pr; lra|].
           assert (NB : B <> []) by (intro Z; subst B; destruct Hr).
           destruct (T3 x) as (p & Hp & Mp).
           ++ apply (proj1 (NE NB)). auto.
           ++ exists rb. auto.
           ++ exists p. split; auto. now right.
Qed.

Lemma not_member_row : forall m x, S (length x) = ncol m -> no_equalities m -> ~ mmember m x ->
  exists rb, In rb (mrows m) /\ rowval (fst rb) x < 0.
Proof.
  intros m x L NE N.
  destruct (Forall_Exists_dec (fun rb : list Q * bool => 0 <= rowval (fst rb) x)) with (l := mrows m) as [F|X].
  - intros rb. destruct (Qlt_le_dec (rowval (fst rb) x) 0); [right; lra|left; auto].
  - exfalso. apply N. split; auto. unfold no_equalities in NE. rewrite Forall_forall in *. intros rb Hr.
    unfold holds. rewrite (NE rb Hr). auto.
  - apply Exists_exists in X as (rb & A & B). exists rb. split; auto. lra.
Qed.

Lemma set_minus_ok : forall p q simplify, wf_mat (pmat p) -> no_zero_rows (pmat p) ->
  wf_mat (pmat q) -> no_zero_rows (pmat q) -> ncol (pmat q) = ncol (pmat p) -> no_equalities (pmat q) ->
  exists parts, set_minus E p q simplify = Ret parts /\
    Forall (fun r => wf_mat (pmat r) /\ no_zero_rows (pmat r) /\ ncol (pmat r) = ncol (pmat p) /\
      forall x, member r x -> member p x /\ ~ interior q x) parts /\
    ForallOrdPairs (fun P Q => forall x, ~ (interior P x /\ member Q x)) parts /\
    (if simplify
     then Forall (fun r => exists x, interior r x) parts /\
          forall x, interior p x -> ~ member q x -> exists r, In r parts /\ member r x
     else forall x, member p x -> ~ member q x -> exists r, In r parts /\ member r x).
Proof.
  intros p q simplify Wp NZp Wq NZq N NE. unfold set_minus.
  destruct (set_minus_loop_ok simplify (mrows (pmat q)) (pmat p) Wp NZp) as (parts & Ep & P1 & P2 & P3).
  { destruct Wq as [_ Wq]. unfold no_zero_rows, no_equalities in *. rewrite Forall_forall in *.
    intros rb Hr. rewrite <- N. auto. }
  exists parts. split; auto. split; [|split; auto].
  - eapply Forall_impl; [|exact P1]. cbv beta. intros r (Q1 & Q2 & Q3 & Q4). split; auto. split; auto. split; auto.
    intros x Mx. destruct (Q4 x Mx) as (R1 & rb & R2 & R3). split; auto. intro I.
    apply interior_iff in I as [_ I]; auto. destruct (I rb R2) as [_ I']. lra.
  - destruct simplify.
    + destruct P3 as [P3 P4]. split; auto. intros x Ix Nx.
      destruct (in_union_dec parts x) as [Y|FN]; auto. exfalso.
      apply interior_iff in Ix; auto.
      assert (Lx : S (length x) = ncol (pmat q)) by (rewrite N; apply Ix).
      destruct (not_member_row (pmat q) x Lx NE Nx) as (rb & Hr & Pr).
      set (l := map fst (mrows (pmat q))).
      destruct (generic_near (length x) l x eq_refl) as (z & t0 & Lz & A & B & C).
      { unfold l. apply Forall_map. destruct Wq as [_ Wq]. unfold no_zero_rows in NZq. rewrite Forall_forall in *.
        intros r Hr'. rewrite Lx. auto. }
      (* x stays strictly inside p, outside q and outside the parts *)
      assert (O1 : exists t1, 0 < t1 /\ t1 <= 1 /\ forall t, 0 <= t -> t <= t1 -> Forall (fun r => ~ member r (mix t x z)) parts).
      { apply outside_all_open; auto. eapply Forall_impl; [|exact P1]. cbv beta. intros r (_ & _ & Q3 & _).
        rewrite Q3. apply Ix. }
      destruct O1 as (t1 & A1 & B1 & C1).
      assert (O2 : exists t2, 0 < t2 /\ t2 <= 1 /\ forall t, 0 <= t -> t <= t2 -> rowval (fst rb) (mix t x z) < 0).
      { destruct (outside_row_open (fst rb, false) x z) as (t2 & A2 & B2 & C2).
        - unfold holds; cbn [fst snd]. lra.
        - exists t2. split; auto. split; auto. intros t T0 T1. specialize (C2 t T0 T1). unfold holds in C2; cbn [fst snd] in C2. lra. }
      destruct O2 as (t2 & A2 & B2 & C2).
      assert (O3 : exists t3, 0 < t3 /\ t3 <= 1 /\ forall t, 0 <= t -> t <= t3 -> strict (pmat p) (mix t x z)).
      { destruct Ix as [Lp Hp].
        assert (G : forall rows, (forall rb, In rb rows -> snd rb = false /\ 0 < rowval (fst rb) x) ->
           exists t3, 0 < t3 /\ t3 <= 1 /\ forall t, 0 <= t -> t <= t3 -> forall rb, In rb rows -> snd rb = false /\ 0 < rowval (fst rb) (mix t x z)).
        { induction rows as [|rr rows IHr]; intro HH.
          - exists 1. split; [lra|]. split; [lra|]. intros t _ _ rb0 [].
          - destruct IHr as (t4 & A4 & B4 & C4). { intros; apply HH; now right. }
            destruct (HH rr) as [HB HP]; [now left|].
            destruct (outside_row_open (vopp (fst rr), false) x z) as (t5 & A5 & B5 & C5).
            { unfold holds; cbn [fst snd]. rewrite rowval_vopp. lra. }
            destruct (qmin_le t4 t5) as [M4 M5]. exists (qmin t4 t5). split; [|split; [lra|]].
            + unfold qmin. destruct (Qltb t5 t4); lra.
            + intros t T0 T1 rb0 [<-|H0].
              * split; auto. specialize (C5 t T0 ltac:(lra)). unfold holds in C5; cbn [fst snd] in C5.
                rewrite rowval_vopp in C5. lra.
              * apply C4; auto; lra. }
        destruct (G _ Hp) as (t3 & A3 & B3 & C3). exists t3. split; auto. split; auto.
        intros t T0 T1. split; [rewrite mix_length; congruence|]. now apply C3. }
      destruct O3 as (t3 & A3 & B3 & C3).
      set (t := qmin (qmin t0 t1) (qmin t2 t3)).
      destruct (qmin_le t0 t1) as [U1 U2]. destruct (qmin_le t2 t3) as [U3 U4].
      destruct (qmin_le (qmin t0 t1) (qmin t2 t3)) as [U5 U6]. fold t in U5, U6.
      assert (T0 : 0 < t).
      { unfold t, qmin. repeat (match goal with |- context [Qltb ?a ?b] => destruct (Qltb a b) end); lra. }
      destruct (P4 (mix t x z)) as (r & Hr1 & Mr).
      * apply C3; lra.
      * intros rb' Hr'. specialize (C t ltac:(lra) ltac:(lra)). unfold l in C. rewrite Forall_map, Forall_forall in C. now apply C.
      * exists rb. split; auto. apply C2; lra.
      * specialize (C1 t ltac:(lra) ltac:(lra)). rewrite Forall_forall in C1. exact (C1 r Hr1 Mr).
    + intros x Mx Nx. apply P3; auto. apply not_member_row; auto. rewrite N. apply Mx.
Qed.

(** ** Vertices *)

Lemma get_vertices_spans : forall p, good p -> bounded p -> spans (pmat p) (get_vertices E p).
Proof.
  intros p (W & _ & _ & V) B. unfold get_vertices. destruct (pverts p); auto. now apply (gen_spans E OK).
Qed.

Lemma conv_member : forall m vs x, Forall (mmember m) vs -> S (length x) = ncol m -> conv vs x -> mmember m x.
Proof.
  intros m vs x F L C. apply mmember_iff. split; auto. intros [r b] Hr.
  assert (V : forall v, In v vs -> holds (r, b) v).
  { intros v Hv. rewrite Forall_forall in F. apply F in Hv. apply mmember_iff in Hv as [_ Hv]. auto. }
  unfold holds in *; cbn [fst snd] in *. destruct b.
  - apply (conv_zero vs); auto. now apply Forall_forall.
  - apply (conv_nonneg vs); auto. now apply Forall_forall.
Qed.

Lemma conv_nonempty : forall vs x, conv vs x -> vs <> [].
Proof.
  intros vs x (ws & L & _ & S1 & _) ->. destruct ws; [|discriminate]. simpl in S1. lra.
Qed.

Lemma vertices_nonempty : forall p, good p -> bounded p ->
  (get_vertices E p = [] <-> ~ exists x, member p x).
Proof.
  intros p G B. destruct (get_vertices_spans p G B) as [S1 S2]. split.
  - intros Z (x & Mx). apply (conv_nonempty _ x (S2 x Mx)). exact Z.
  - intro N. destruct (get_vertices E p) as [|v vs]; auto. exfalso. apply N. exists v. apply Forall_cons_iff in S1. apply S1.
Qed.

(** ** Projection *)

Lemma select_peq : forall dims x y i, length x = length y -> peq x y -> peq (select_coords dims i x) (select_coords dims i y).
Proof.
  intros dims. induction x as [|a x IH]; intros [|b y] i L H; try discriminate; [reflexivity|].
  apply peq_cons in H as [H1 H2]. cbn [select_coords]. injection L as L.
  destruct (existsb (Nat.eqb i) dims); [|now apply IH]. apply peq_cons. split; auto.
Qed.

Lemma select_selected : forall dims x i, select_coords dims i x = selected dims i x.
Proof.
  intros dims. induction x as [|a x IH]; intro i; [reflexivity|]. cbn [select_coords selected].
  destruct (existsb (Nat.eqb i) dims) eqn:X; destruct (in_dec Nat.eq_dec i dims) as [I|N]; rewrite ?IH; auto.
  - exfalso. apply N. apply existsb_exists in X as (j & H1 & H2). apply Nat.eqb_eq in H2. now subst.
  - assert (existsb (Nat.eqb i) dims = true) by (apply existsb_exists; exists i; split; auto; apply Nat.eqb_refl). congruence.
Qed.

(** Positions of the selected coordinates. *)
Fixpoint positions (dims : list nat) (i : nat) (n : nat) : list nat :=
  match n with
  | O => []
  | S n' => if existsb (Nat.eqb i) dims then O :: map S (positions dims (S i) n') else map S (positions dims (S i) n')
  end.

Lemma select_positions : forall dims v i, select_coords dims i v = map (fun k => nth k v 0) (positions dims i (length v)).
Proof.
  intros dims. induction v as [|c v IH]; intro i; [reflexivity|]. cbn [select_coords length positions].
  destruct (existsb (Nat.eqb i) dims).
  - cbn [map nth]. rewrite map_map, IH. reflexivity.
  - rewrite map_map, IH. reflexivity.
Qed.

Definition pick (ps : list nat) (v : point) : point := map (fun k => nth k v 0) ps.

Lemma nth_pick : forall ps v i, (i < length ps)%nat -> nth i (pick ps v) 0 = nth (nth i ps 0%nat) v 0.
Proof.
  intros. unfold pick. rewrite (nth_indep _ 0 (nth 0%nat v 0)) by (rewrite map_length; auto).
  now rewrite (map_nth (fun k => nth k v 0)).
Qed.

Lemma wsum_pick : forall ps ws vs, length ws = length vs -> vs <> [] ->
  length (wsum ws (map (pick ps) vs)) = length ps ->
  peq (wsum ws (map (pick ps) vs)) (pick ps (wsum ws vs)).
Proof.
  intros ps ws vs L NE LL i. destruct (Nat.lt_ge_cases i (length ps)) as [H|H].
  - rewrite nth_pick by auto. rewrite !nth_wsum. rewrite map_map.
    assert (X : map (fun v => nth i (pick ps v) 0) vs = map (fun v => nth (nth i ps 0%nat) v 0) vs).
    { apply map_ext. intro v. now apply nth_pick. }
    rewrite X. reflexivity.
  - rewrite !nth_overflow; [reflexivity| |]; [unfold pick; rewrite map_length; lia|lia].
Qed.

Lemma wsum_length' : forall n ws vs, Forall (fun v => length v = n) vs -> length ws = length vs -> vs <> [] ->
  length (wsum ws vs) = n.
Proof.
  intros n ws vs F L NE. rewrite (wsum_length n); auto.
Qed.

Lemma conv_pick : forall ps vs n y, Forall (fun v => length v = n) vs -> vs <> [] -> length y = length ps ->
  (conv (map (pick ps) vs) y <-> exists x, length x = n /\ conv vs x /\ peq y (pick ps x)).
Proof.
  intros ps vs n y F NE Ly.
  assert (F' : Forall (fun v => length v = length ps) (map (pick ps) vs)).
  { apply Forall_map. apply Forall_forall. intros v _. unfold pick. apply map_length. }
  assert (NE' : map (pick ps) vs <> []) by (destruct vs; [congruence|discriminate]).
  split.
  - intros (ws & L & P & S1 & Q1). rewrite map_length in L. exists (wsum ws vs).
    split; [now apply wsum_length'|]. split; [exists ws; repeat split; auto; reflexivity|].
    rewrite Q1. apply wsum_pick; auto. apply wsum_length'; auto. now rewrite map_length.
  - intros (x & Lx & (ws & L & P & S1 & Q1) & Hy). exists ws. rewrite map_length. split; auto. split; auto. split; auto.
    rewrite Hy. rewrite wsum_pick; auto.
    + intro i. unfold pick. destruct (Nat.lt_ge_cases i (length ps)) as [H|H].
      * pose proof (nth_pick ps x i H) as N1. pose proof (nth_pick ps (wsum ws vs) i H) as N2. unfold pick in N1, N2.
        rewrite N1, N2. apply Q1.
      * rewrite !nth_overflow by (rewrite map_length; lia). reflexivity.
    + apply wsum_length'; auto. now rewrite map_length.
Qed.

Lemma project_ok : forall p dims, good p -> bounded p ->
  exists r, project E p dims = Ret r /\
  match r with
  | None => ~ exists x, member p x
  | Some q => good q /\ (exists x, member p x) /\
      forall y, member q y <-> exists x, member p x /\ length y = length (selected dims 0 x) /\ peq y (selected dims 0 x)
  end.
Proof.
  intros p dims G B. unfold project, from_V_rep.
  destruct (get_vertices_spans p G B) as [S1 S2]. pose proof (vertices_nonempty p G B) as VN.
  destruct (get_vertices E p) as [|v vs] eqn:EV.
  - exists None. split; [reflexivity|]. now apply VN.
  - set (V := v :: vs) in *. set (n := (ncol (pmat p) - 1)%nat). set (ps := positions dims 0 n).
    assert (FL : Forall (fun u : point => length u = n) V).
    { eapply Forall_impl; [|exact S1]. cbv beta. intros u [Lu _]. unfold n. lia. }
    assert (MP : map (select_coords dims 0) V = map (pick ps) V).
    { apply map_ext_in. intros u Hu. rewrite select_positions. rewrite Forall_forall in FL. rewrite (FL u Hu). reflexivity. }
    rewrite MP. change (map (pick ps) V) with (pick ps v :: map (pick ps) vs). cbv iota.
    change (pick ps v :: map (pick ps) vs) with (map (pick ps) V).
    assert (LP : Forall (fun u => length u = length ps) (map (pick ps) V)).
    { apply Forall_map, Forall_forall. intros; apply map_length. }
    rewrite (matrix_of_ok _ false (S (length ps))).
    2:{ discriminate. }
    2:{ apply Forall_map. eapply Forall_impl; [|exact LP]. cbv beta. intros u Hu. simpl. now rewrite Hu. }
    cbn [bind]. eexists. split; [reflexivity|].
    destruct (ineq_ok E OK (map (pick ps) V) (length ps)) as (I1 & I2 & I3 & I4); [discriminate|exact LP|].
    split; [|split].
    + split; [exact I1|]. split; [exact I3|]. split; [discriminate|]. cbn [pverts]. split; cbn [pmat].
      * apply Forall_forall. intros u Hu. apply I4. split; [|now apply conv_in]. rewrite Forall_forall in LP. auto.
      * intros x Hx. now apply I4 in Hx.
    + exists v. now apply Forall_cons_iff in S1.
    + intro y. unfold member at 1; cbn [pmat]. rewrite I4. split.
      * intros [Ly C]. apply (proj1 (conv_pick ps V n y FL ltac:(discriminate) Ly)) in C as (x & Lx & Cx & Hy).
        exists x. assert (Mx : member p x) by (apply (conv_member _ V); auto; pose proof (proj1 (proj1 G)); lia).
        split; auto. rewrite <- select_selected, select_positions, Lx. fold ps. split; auto.
        now rewrite map_length.
      * intros (x & Mx & Ly & Hy). rewrite <- select_selected, select_positions in Ly, Hy.
        assert (Lx : length x = n) by (destruct Mx as [Lx _]; lia).
        rewrite Lx in Ly, Hy. fold ps in Ly, Hy. rewrite map_length in Ly. split; auto.
        apply (conv_pick ps V n y FL); [discriminate|exact Ly|]. exists x. auto.
Qed.

(** ** Hyperplanes *)

Lemma intersects_loop_ok : forall a verts s,
  (intersects_loop a s verts = true <->
   exists u w, (u = None /\ False \/ True) /\ In w verts /\
     ((match u with Some u' => In u' verts /\ rowval a u' * rowval a w < 0 | None => s * rowval a w < 0 end))).
Proof.
  intros a. induction verts as [|v verts IH]; intro s; cbn [intersects_loop].
  - split; [discriminate|]. intros (u & w & _ & [] & _).
  - rewrite row_at_eq. destruct (Qltb_spec (s * rowval a v) 0) as [L|G].
    + split; auto. intros _. exists None, v. split; auto. split; [now left|auto].
    + rewrite IH. clear IH. split.
      * intros (u & w & _ & Hw & H). destruct u as [u|].
        -- exists (Some u), w. split; auto. split; [now right|]. split; [right|]; apply H.
        -- destruct (Qeqb_spec (rowval a v) 0) as [Z|N].
           ++ exists None, w. split; auto. split; [now right|auto].
           ++ exists (Some v), w. split; auto. split; [now right|]. split; [now left|auto].
      * intros (u & w & _ & Hw & H).
        assert (SG : forall q, rowval a v * q < 0 \/ s * q < 0 ->
           (if Qeqb (rowval a v) 0 then s else rowval a v) * q < 0).
        { intros q Hq. destruct (Qeqb_spec (rowval a v) 0) as [Z|N].
          - destruct Hq as [Hq|Hq]; auto. rewrite Z in Hq. lra.
          - destruct Hq as [Hq|Hq]; auto.
            assert (G' : 0 <= s * rowval a v) by lra. clear G. revert G' N Hq. generalize (rowval a v). clear. intros w G N Hq.
            assert (SG : forall u r, u < 0 \/ 0 < u -> u * r < 0 -> (u < 0 /\ 0 < r) \/ (0 < u /\ r < 0)).
            { intros u r [Hu|Hu] H; [left|right]; split; auto; nra. }
            assert (Ns : s < 0 \/ 0 < s).
            { destruct (Qlt_le_dec s 0); auto. destruct (Qeq_dec s 0) as [Z|Z]; [rewrite Z in Hq; lra|right; lra]. }
            destruct (SG s q Ns Hq) as [[A B]|[A B]]; [assert (w < 0) by nra|assert (0 < w) by nra]; nra. }
        destruct u as [u|].
        -- destruct H as [Hu H]. destruct Hu as [<-|Hu]; destruct Hw as [<-|Hw].
           ++ nra.
           ++ exists None, w. split; auto.
           ++ exists None, u. split; auto. split; auto. apply SG. left. rewrite Qmult_comm. auto.
           ++ exists (Some u), w. auto.
        -- destruct Hw as [<-|Hw]; [lra|]. exists None, w. auto.
Qed.

Lemma intersects_ok : forall p a, good p -> bounded p ->
  (intersects E p a = true <-> exists x y, member p x /\ member p y /\ rowval a x < 0 /\ 0 < rowval a y).
Proof.
  intros p a G B. destruct (get_vertices_spans p G B) as [S1 S2]. unfold intersects. rewrite intersects_loop_ok.
  rewrite Forall_forall in S1. split.
  - intros (u & w & _ & Hw & H). destruct u as [u|]; [|lra]. destruct H as [Hu H].
    destruct (Qlt_le_dec (rowval a u) 0).
    + exists u, w. repeat split; try (now apply S1); auto. nra.
    + exists w, u. assert (0 < rowval a u) by (destruct (Qeq_dec (rowval a u) 0) as [Z|]; [rewrite Z in H; lra|lra]).
      repeat split; try (now apply S1); auto. nra.
  - intros (x & y & Mx & My & Hx & Hy).
    assert (U : exists u, In u (get_vertices E p) /\ rowval a u < 0).
    { destruct (Forall_Exists_dec (fun v => 0 <= rowval a v)) with (l := get_vertices E p) as [F|X].
      - intro v. destruct (Qlt_le_dec (rowval a v) 0); [right; lra|left; auto].
      - exfalso. pose proof (conv_nonneg _ x a (S2 x Mx) F). lra.
      - apply Exists_exists in X as (u & A & C). exists u. split; auto. lra. }
    assert (W : exists w, In w (get_vertices E p) /\ 0 < rowval a w).
    { destruct (Forall_Exists_dec (fun v => 0 <= rowval (vopp a) v)) with (l := get_vertices E p) as [F|X].
      - intro v. destruct (Qlt_le_dec (rowval (vopp a) v) 0); [right; lra|left; auto].
      - exfalso. pose proof (conv_nonneg _ y (vopp a) (S2 y My) F) as K. rewrite rowval_vopp in K. lra.
      - apply Exists_exists in X as (u & A & C). exists u. split; auto. rewrite rowval_vopp in C. lra. }
    destruct U as (u & Hu & Nu), W as (w & Hw & Pw). exists (Some u), w. split; auto. split; auto. split; auto. nra.
Qed.

(** ** Full dimension *)

Lemma is_full_dim_ok : forall p, good p -> (exists x, member p x) ->
  (fst (is_full_dim E p) = true <-> exists x, interior p x) /\
  good (snd (is_full_dim E p)) /\ forall x, member (snd (is_full_dim E p)) x <-> member p x.
Proof.
  intros p (W & NZ & CN & V) (x0 & M0). unfold is_full_dim. cbn [fst snd].
  set (p' := if pcanon p then p else mkPoly (canonicalize E (pmat p)) true (pverts p)).
  assert (P : wf_mat (pmat p') /\ no_zero_rows (pmat p') /\ canonical_mat (pmat p') /\ pcanon p' = true /\
     pverts p' = pverts p /\ forall x, member p' x <-> member p x).
  { unfold p'. destruct (pcanon p) eqn:C.
    - split; auto. split; auto. split; auto. split; auto. split; auto. intro; reflexivity.
    - unfold member; cbn [pmat]. split; [now apply (canon_wf E OK)|]. split; [now apply (canon_nz E OK)|].
      split; [now apply (canon_canonical E OK)|]. split; auto. split; auto. intro; now apply (canon_set E OK). }
  destruct P as (W' & NZ' & C' & F' & V' & M').
  assert (I' : forall x, interior p x <-> interior p' x).
  { intro x. apply minterior_ext. intro y. symmetry. apply M'. }
  split; [|split; auto].
  - rewrite Nat.eqb_eq. split.
    + intro L. apply length_zero_iff_nil in L. destruct (C') as (x & Ix).
      * apply Forall_forall. intros [r b] Hr. destruct b; auto. exfalso.
        apply (proj2 (as_list_In (pmat p') true r)) in Hr. rewrite L in Hr. destruct Hr.
      * exists x0. now apply M'.
      * exists x. now apply I'.
    + intros (x & Ix). apply I' in Ix. apply interior_iff in Ix as [_ Ix]; auto.
      destruct (matrix_as_list (pmat p') true) as [|r l] eqn:EL; auto. exfalso.
      assert (Hr : In (r, true) (mrows (pmat p'))) by (apply as_list_In; rewrite EL; now left).
      apply Ix in Hr as [Hr _]. discriminate.
  - split; auto. split; auto. split; auto. rewrite V'. destruct (pverts p) as [vs|]; auto.
    destruct V as [V1 V2]. split.
    + eapply Forall_impl; [|exact V1]. intros u Hu. now apply M'.
    + intros x Hx. apply V2. now apply M'.
Qed.

(** ** Centroid *)

Lemma fold_vadd_nth : forall vs acc i, nth i (fold_left vadd vs acc) 0 == nth i acc 0 + qsum (map (fun v => nth i v 0) vs).
Proof.
  induction vs as [|v vs IH]; intros acc i; simpl; [ring|]. rewrite IH, nth_vadd. ring.
Qed.

Lemma fold_vadd_length : forall n vs acc, length acc = n -> Forall (fun v => length v = n) vs ->
  length (fold_left vadd vs acc) = n.
Proof.
  induction vs as [|v vs IH]; intros acc L F; simpl; auto. apply Forall_cons_iff in F as [F1 F].
  apply IH; auto. rewrite vadd_length. lia.
Qed.

Lemma qsum_repeat : forall n c, qsum (repeat c n) == inject_Z (Z.of_nat n) * c.
Proof.
  induction n; intro c; [simpl; ring|]. cbn [repeat qsum fold_right] in *. unfold qsum in IHn.
  rewrite IHn. rewrite Nat2Z.inj_succ. unfold Z.succ. rewrite inject_Z_plus. simpl. ring.
Qed.

Lemma dot_const : forall c l n, length l = n -> dot (repeat c n) l == c * qsum l.
Proof.
  intros c. induction l as [|a l IH]; intros n L; subst n; simpl; [ring|]. rewrite IH by auto. ring.
Qed.

(** The centroid is the mean of the vertices, and so is every affine function of it. *)
Lemma get_centroid_ok : forall p, good p -> bounded p -> (exists x, member p x) ->
  exists c, get_centroid E p = Ret c /\ member p c /\
    forall a, inject_Z (Z.of_nat (length (get_vertices E p))) * rowval a c == qsum (map (rowval a) (get_vertices E p)).
Proof.
  intros p G B NE. destruct (get_vertices_spans p G B) as [S1 S2]. unfold get_centroid.
  pose proof (vertices_nonempty p G B) as VN. pose proof (proj1 (proj1 G)) as W1.
  destruct (get_vertices E p) as [|v vs] eqn:EV; [exfalso; apply (proj1 VN eq_refl); auto|].
  set (V := v :: vs) in *. eexists. split; [reflexivity|].
  set (N := inject_Z (Z.of_nat (length V))). set (n := (ncol (pmat p) - 1)%nat).
  assert (NP : 0 < N).
  { unfold N, V. cbn [length]. rewrite Nat2Z.inj_succ. unfold Z.succ. rewrite inject_Z_plus.
    assert (0 <= inject_Z (Z.of_nat (length vs))) by (change 0 with (inject_Z 0); rewrite <- Zle_Qle; lia).
    change (inject_Z 1) with 1. lra. }
  assert (FL : Forall (fun u : point => length u = n) V).
  { eapply Forall_impl; [|exact S1]. cbv beta. intros u [Lu _]. unfold n. lia. }
  assert (LC : length (fold_left vadd V (repeat 0 n)) = n) by (apply fold_vadd_length; auto; apply repeat_length).
  set (c := map (fun c => c / N) (fold_left vadd V (repeat 0 n))).
  assert (SW : qsum (repeat (1 / N) (length V)) == 1) by (rewrite qsum_repeat; fold N; field; lra).
  assert (PC : peq c (wsum (repeat (1 / N) (length V)) V)).
  { intro i. unfold c. rewrite nth_wsum, dot_const by (now rewrite map_length).
    destruct (Nat.lt_ge_cases i n) as [H|H].
    + rewrite (nth_indep _ 0 (0 / N)) by (rewrite map_length; lia).
      rewrite (map_nth (fun c => c / N)). rewrite fold_vadd_nth, nth_repeat0. field. lra.
    + rewrite (nth_overflow (map _ _)) by (rewrite map_length; lia).
      assert (Z : qsum (map (fun u => nth i u 0) V) == 0).
      { clear - FL H. induction V as [|u V IH]; simpl; [reflexivity|]. apply Forall_cons_iff in FL as [F1 F].
        rewrite (nth_overflow u) by lia. unfold qsum in IH. rewrite IH by auto. ring. }
      rewrite Z. ring. }
  split.
  - apply (conv_member _ V); [exact S1|unfold c; rewrite map_length; fold n; rewrite LC; unfold n; lia|].
    exists (repeat (1 / N) (length V)). split; [apply repeat_length|]. split; [|split; [exact SW|exact PC]].
    apply Forall_forall. intros w Hw. apply repeat_spec in Hw. subst w. apply Qle_shift_div_l; lra.
  - intro a. fold c. assert (R : rowval a c == rowval a (wsum (repeat (1 / N) (length V)) V)) by (rewrite PC; reflexivity).
    rewrite R, rowval_wsum by (auto; apply repeat_length). rewrite dot_const by (now rewrite map_length). field. lra.
Qed.

End WithExt.
