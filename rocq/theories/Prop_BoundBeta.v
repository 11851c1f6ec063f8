(** Property C04. *)
From Verif Require Import Base Model_Interval Spec_Interval Model_Affine Spec_Affine Model_BoundBeta
  Proof_Interval Proof_BoundBeta.

(** Whenever the call returns: every returned bound agrees, at each point where
    it is stated, with the input bound it lists as its dependency (so the
    dependency alone justifies it), and at every point of the domain covered by
    some input a returned bound attains the minimum of all inputs. *)
Theorem best_beta_bounds_envelope : forall bounds domain out,
  Forall well_formed bounds ->
  wf (match domain with Some d => d | None => mkI 0 (1#2) true true end) ->
  compute_best_beta_bounds bounds domain = Ret out ->
  (forall o, In o out -> exists p b,
      out_bound bounds o = Some p /\ nth_error bounds (out_dep o) = Some b /\
      forall x, covers p x -> covers b x /\ value p x == value b x) /\
  (forall x, in_set (match domain with Some d => d | None => mkI 0 (1#2) true true end) x ->
      (exists b, In b bounds /\ covers b x) ->
      exists o p, In o out /\ out_bound bounds o = Some p /\ covers p x /\ is_min_of bounds x (value p x)).
Proof.
  intros bounds domain out W Wd H.
  destruct (best_beta_correct bounds domain W Wd out H) as [S Cm]. split; auto.
  intros x Dx [b [Hb Hx]].
  (* pick the piece below the least input at x *)
  assert (M : exists b0, In b0 bounds /\ covers b0 x /\ forall b', In b' bounds -> covers b' x -> value b0 x <= value b' x).
  { clear -Hb Hx. revert b Hb Hx. induction bounds as [|c cs IH]; intros b Hb Hx; [destruct Hb|].
    destruct (existsb (fun c => contains (dom c) x) cs) eqn:E.
    - apply existsb_exists in E. destruct E as [c' [Hc' E]]. apply contains_iff in E.
      destruct (IH c' Hc' E) as [b0 [H1 [H2 H3]]].
      destruct (contains (dom c) x) eqn:Ec.
      + apply contains_iff in Ec. destruct (Qlt_le_dec (value c x) (value b0 x)) as [L|L].
        * exists c. split; [now left|]. split; auto. intros b' [<-|Hb'] Hb'x; [lra|].
          specialize (H3 b' Hb' Hb'x). lra.
        * exists b0. split; [now right|]. split; auto. intros b' [<-|Hb'] Hb'x; auto.
      + apply contains_false in Ec. exists b0. split; [now right|]. split; auto.
        intros b' [<-|Hb'] Hb'x; auto. exfalso; auto.
    - assert (N : forall c', In c' cs -> ~ covers c' x).
      { intros c' Hc' K. apply contains_iff in K.
        assert (existsb (fun c => contains (dom c) x) cs = true) by (apply existsb_exists; eauto). congruence. }
      destruct Hb as [<-|Hb]; [|exfalso; exact (N b Hb Hx)].
      exists c. split; [now left|]. split; auto. intros b' [<-|Hb'] Hb'x; [lra|].
      exfalso. exact (N b' Hb' Hb'x). }
  destruct M as [b0 [Hb0 [Hb0x Hmin]]].
  destruct (Cm x b0 Dx Hb0 Hb0x) as [o [p [Ho [Hp [Hpx Hv]]]]].
  exists o, p. split; auto. split; auto. split; auto. split.
  - destruct (S o Ho) as [p' [b' [E1 [E2 E3]]]]. rewrite Hp in E1. inversion E1; subst p'.
    destruct (E3 x Hpx) as [K1 K2]. exists b'. split; [eapply nth_error_In; eauto|]. split; auto. now symmetry.
  - intros f Hf Hfx. specialize (Hmin f Hf Hfx). lra.
Qed.
Print Assumptions best_beta_bounds_envelope.

(** If every bound is stated on exactly the domain, the call returns bounds that
    run from left to right, cover exactly the domain, and are each minimal at
    every point where they are stated. *)
Theorem best_beta_bounds_exact : forall bounds domain,
  let d := match domain with Some d => d | None => mkI 0 (1#2) true true end in
  Forall well_formed bounds -> wf d -> (exists x, in_set d x) -> bounds <> [] ->
  (forall b x, In b bounds -> (covers b x <-> in_set d x)) ->
  exists out ps, compute_best_beta_bounds bounds domain = Ret out /\
    Forall2 (fun o p => out_bound bounds o = Some p) out ps /\ ordered ps /\
    (forall p, In p ps -> exists x, covers p x) /\
    (forall x, in_set d x <-> exists p, In p ps /\ covers p x) /\
    (forall p x, In p ps -> covers p x -> is_min_of bounds x (value p x)).
Proof.
  intros bounds domain d W Wd Ne NE Hc.
  destruct (best_beta_full bounds domain W Wd Ne Hc NE) as (out & qs & E & F & F1 & F2 & Od).
  destruct (best_beta_correct bounds domain W Wd out E) as [S _]. exists out.
  assert (exists ps, Forall2 (fun o p => out_bound bounds o = Some p) out ps /\
    Forall2 (fun p q => forall x, (covers p x <-> covers q x) /\ (covers p x -> value p x == value q x)) ps qs) as (ps & P1 & P2).
  { clear - F. induction F as [|o q out qs (p & Ep & H) F (ps & I1 & I2)]; [exists []; split; constructor|].
    exists (p :: ps). split; constructor; auto. }
  assert (T : forall p, In p ps -> exists q, In q qs /\ forall x, (covers p x <-> covers q x) /\ (covers p x -> value p x == value q x)).
  { clear - P2. induction P2 as [|p q ps qs H P2 IH]; intros p0 I; [easy|]. destruct I as [<-|I]; [exists q; split; [now left|auto]|].
    destruct (IH p0 I) as (q0 & Iq & H0). exists q0. split; [now right|auto]. }
  assert (T' : forall q, In q qs -> exists p, In p ps /\ forall x, (covers p x <-> covers q x) /\ (covers p x -> value p x == value q x)).
  { clear - P2. induction P2 as [|p q ps qs H P2 IH]; intros q0 I; [easy|]. destruct I as [<-|I]; [exists p; split; [now left|auto]|].
    destruct (IH q0 I) as (p0 & Ip & H0). exists p0. split; [now right|auto]. }
  exists ps. split; [exact E|]. split; [exact P1|]. split; [|split; [|split]].
  - clear - P2 Od. induction P2 as [|p q ps qs H P2 IH]; [exact Logic.I|]. destruct Od as [O1 O2]. split; [|auto].
    intros p' x y I Cx Cy.
    assert (exists q', In q' qs /\ covers q' y) as (q' & Iq & Cq).
    { clear - P2 I Cy. induction P2 as [|a b ps qs H P2 IH]; [easy|]. destruct I as [<-|I].
      - exists b. split; [now left|]. now apply H.
      - destruct (IH I) as (q' & I' & C'). exists q'. split; [now right|auto]. }
    apply (O1 q' x y); auto. now apply H.
  - intros p Ip. destruct (T p Ip) as (q & Iq & H). destruct (solid_point q) as [x Hx]; [now apply F1|].
    exists x. now apply H.
  - intros x. split.
    + intros Dx. destruct (F2 x Dx) as (q & Iq & Cq). destruct (T' q Iq) as (p & Ip & H). exists p. split; [auto|]. now apply H.
    + intros (p & Ip & Cp). destruct (T p Ip) as (q & Iq & H). destruct (F1 q Iq) as [_ G]. apply (G x). now apply H.
  - intros p x Ip Cp. destruct (T p Ip) as (q & Iq & H). destruct (F1 q Iq) as [_ G].
    destruct (G x (proj1 (proj1 (H x)) Cp)) as [Dx Gm]. destruct (H x) as [_ Hv]. specialize (Hv Cp).
    split.
    + assert (Io : exists o, In o out /\ out_bound bounds o = Some p).
      { clear - P1 Ip. induction P1 as [|o p0 out ps H P1 IH]; [easy|]. destruct Ip as [<-|Ip]; [exists o; split; [now left|auto]|].
        destruct (IH Ip) as (o' & I & E). exists o'. split; [now right|auto]. }
      destruct Io as (o & Io & Ep). destruct (S o Io) as (p' & b & Ep' & Nb & Hb). rewrite Ep in Ep'. injection Ep' as <-.
      exists b. split; [eapply nth_error_In; eauto|]. destruct (Hb x Cp) as [B1 B2]. split; [auto|now symmetry].
    + intros b Ib _. rewrite Hv. now apply Gm.
Qed.
Print Assumptions best_beta_bounds_exact.

(** The call returns (raises nothing) if inside the domain no bound is alone. *)
Theorem best_beta_bounds_total : forall bounds domain,
  Forall well_formed bounds ->
  wf (match domain with Some d => d | None => mkI 0 (1#2) true true end) ->
  (forall i b x, nth_error bounds i = Some b ->
     in_set (match domain with Some d => d | None => mkI 0 (1#2) true true end) x -> covers b x ->
     exists j b', j <> i /\ nth_error bounds j = Some b' /\ covers b' x) ->
  exists out, compute_best_beta_bounds bounds domain = Ret out.
Proof. intros bounds domain W Wd H. exact (best_beta_returns bounds domain W Wd H). Qed.
Print Assumptions best_beta_bounds_total.

(** Without that condition the call can raise TypeError although all inputs are
    legitimate bounds: the same object occurs twice among the pieces and its
    working label is cleared at the first occurrence. *)
Theorem best_beta_bounds_total_refuted : exists bounds,
  Forall well_formed bounds /\ compute_best_beta_bounds bounds None = Raise TypeError.
Proof.
  exists [mkA 0 1 (mkI (1#8) (1#4) true true) None; mkA 0 2 (mkI 0 (1#2) true true) None].
  split; [repeat constructor; unfold well_formed, wf; cbn; lra|vm_compute; reflexivity].
Qed.
Print Assumptions best_beta_bounds_total_refuted.

(** Non-vacuity: three bounds on [0,1/2] that cross; the call returns. *)
Example envelope_example :
  let bs := [mkA 1 0 (mkI 0 (1#2) true true) None;
             mkA 0 (1#4) (mkI 0 (1#2) true true) None;
             mkA (1#2) (1#16) (mkI 0 (1#2) true true) None] in
  Forall well_formed bs /\
  (forall i b x, nth_error bs i = Some b -> in_set (mkI 0 (1#2) true true) x -> covers b x ->
     exists j b', j <> i /\ nth_error bs j = Some b' /\ covers b' x) /\
  exists a b c, compute_best_beta_bounds bs None = Ret [a; b; c].
Proof.
  cbv zeta. split; [repeat constructor; unfold well_formed, wf; cbn; lra|]. split.
  - intros i b x Hi Dx _. destruct i as [|i].
    + eexists 1%nat, _. split; [lia|]. split; [reflexivity|]. exact Dx.
    + eexists 0%nat, _. split; [lia|]. split; [reflexivity|]. exact Dx.
  - do 3 eexists. vm_compute. reflexivity.
Qed.
