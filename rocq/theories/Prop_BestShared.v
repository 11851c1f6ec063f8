(** Property C04 for bounds with different domains. *)
From Verif Require Import Base Model_Interval Spec_Interval Proof_Interval Model_Affine Spec_Affine Proof_Affine Proof_AffineMerge Model_BoundBeta Proof_BoundBeta Proof_ExpDual Proof_BestShared.
Open Scope list_scope.

(** Whatever the domains of the bounds: if inside the domain no bound is alone, the call
    returns bounds that run from left to right, cover exactly the points of the domain
    where some bound is stated, and are each minimal at every point where they are stated. *)
Theorem best_beta_bounds_shared : forall bounds domain,
  let d := match domain with Some d => d | None => mkI 0 (1#2) true true end in
  Forall (fun b => wf (dom b)) bounds -> wf d -> (2 <= List.length bounds)%nat ->
  (forall i b x, nth_error bounds i = Some b -> in_set d x -> covers b x ->
     exists j b', j <> i /\ nth_error bounds j = Some b' /\ covers b' x) ->
  exists out ps, compute_best_beta_bounds bounds domain = Ret out /\
    Forall2 (fun o p => out_bound bounds o = Some p) out ps /\ ordered ps /\
    (forall p, In p ps -> exists x, covers p x) /\
    (forall x, in_set d x /\ (exists b, In b bounds /\ covers b x) <-> exists p, In p ps /\ covers p x) /\
    (forall p x, In p ps -> covers p x -> is_min_of bounds x (value p x)).
Proof.
  intros bounds domain d W Wd Two Hc.
  destruct (best_shared bounds domain W Wd Two Hc) as (out & qs & E & F & (F1 & F2 & Od)).
  destruct (best_beta_correct bounds domain W Wd out E) as [S _]. exists out.
  assert (exists ps, Forall2 (fun o p => out_bound bounds o = Some p) out ps /\
    Forall2 (fun p q => forall x, (covers p x <-> covers q x) /\ (covers p x -> value p x == value q x)) ps qs) as (ps & P1 & P2).
  { clear - F. induction F as [|o q out qs (p & Ep & H) F (ps & I1 & I2)]; [exists []; split; constructor|].
    exists (p :: ps). split; constructor; auto. }
  assert (T : forall p, In p ps -> exists q, In q qs /\ forall x, (covers p x <-> covers q x) /\ (covers p x -> value p x == value q x)).
  { clear - P2. induction P2 as [|p q ps qs H P2 IH]; intros p0 I; [easy|]. destruct I as [<-|I]; [exists q; split; [now left|auto]|].
    destruct (IH p0 I) as (q0 & Iq & H0). exists q0. split; [now right|auto]. }
  assert (T' : forall q, In q qs -> exists p, In p ps /\ forall x, (covers p x <-> covers q x) /\ (covers p x -> value p x == value q x)).
  { clear - P2. induction P2 as [|p q ps qs H P2 IH]; intros q0 I; [easy|]. destruct I as [<-|I]; [exists p; split; [now left|auto]|].
    destruct (IH q0 I) as (p0 & Ip & H0). exists p0. split; [now right|auto]. }
  exists ps. split; [exact E|]. split; [exact P1|]. split; [|split; [|split]].
  - clear - P2 Od. induction P2 as [|p q ps qs H P2 IH]; [exact Logic.I|]. destruct Od as [O1 O2]. split; [|auto].
    intros p' x y I Cx Cy.
    assert (exists q', In q' qs /\ covers q' y) as (q' & Iq & Cq).
    { clear - P2 I Cy. induction P2 as [|a b ps qs H P2 IH]; [easy|]. destruct I as [<-|I].
      - exists b. split; [now left|]. now apply H.
      - destruct (IH I) as (q' & I' & C'). exists q'. split; [now right|auto]. }
    apply (O1 q' x y); auto. now apply H.
  - intros p Ip. destruct (T p Ip) as (q & Iq & H). destruct (solid_point q) as [x Hx]; [now apply F1|].
    exists x. now apply H.
  - intros x. split.
    + intros (Dx & b & Ib & Cb). destruct (F2 x b Dx Ib Cb) as (q & Iq & Cq). destruct (T' q Iq) as (p & Ip & H). exists p. split; [auto|]. now apply H.
    + intros (p & Ip & Cp). destruct (T p Ip) as (q & Iq & H). destruct (F1 q Iq) as [_ G]. split; [apply (G x); now apply H|].
      assert (Io : exists o, In o out /\ out_bound bounds o = Some p) by (apply (Forall2_in_r _ _ _ _ _ _ P1 Ip)).
      destruct Io as (o & Io & Ep). destruct (S o Io) as (p' & b & Ep' & Nb & Hb). rewrite Ep in Ep'. injection Ep' as <-.
      exists b. split; [eapply nth_error_In; eauto|]. now apply Hb.
  - intros p x Ip Cp. destruct (T p Ip) as (q & Iq & H). destruct (F1 q Iq) as [_ G].
    destruct (G x (proj1 (proj1 (H x)) Cp)) as [Dx Gm]. destruct (H x) as [_ Hv]. specialize (Hv Cp).
    split.
    + assert (Io : exists o, In o out /\ out_bound bounds o = Some p).
      { clear - P1 Ip. induction P1 as [|o p0 out ps H P1 IH]; [easy|]. destruct Ip as [<-|Ip]; [exists o; split; [now left|auto]|].
        destruct (IH Ip) as (o' & I & E). exists o'. split; [now right|auto]. }
      destruct Io as (o & Io & Ep). destruct (S o Io) as (p' & b & Ep' & Nb & Hb). rewrite Ep in Ep'. injection Ep' as <-.
      exists b. split; [eapply nth_error_In; eauto|]. destruct (Hb x Cp) as [B1 B2]. split; [auto|now symmetry].
    + intros b Ib Cb. rewrite Hv. now apply Gm.
Qed.
Print Assumptions best_beta_bounds_shared.

(** Non-vacuity: two bounds on [0,1/2] and a better one on [1/4,1/2]. *)
Definition shared_bounds : list affine :=
  [mkA 1 0 (mkI 0 (1#2) true true) None; mkA (1#2) (1#6) (mkI 0 (1#2) true true) None; mkA (1#2) (1#8) (mkI (1#4) (1#2) true true) None].
Example ex_shared : Forall (fun b => wf (dom b)) shared_bounds /\
  (forall i b x, nth_error shared_bounds i = Some b -> in_set (mkI 0 (1#2) true true) x -> covers b x ->
     exists j b', j <> i /\ nth_error shared_bounds j = Some b' /\ covers b' x).
Proof.
  split; [repeat (apply Forall_cons; [unfold wf; cbn; lra|]); apply Forall_nil|].
  intros i b x N [D0 D1] _. cbn in D0, D1. destruct i as [|i].
  - exists 1%nat, (mkA (1#2) (1#6) (mkI 0 (1#2) true true) None). split; [discriminate|]. split; [reflexivity|]. split; cbn; lra.
  - exists 0%nat, (mkA 1 0 (mkI 0 (1#2) true true) None). split; [discriminate|]. split; [reflexivity|]. split; cbn; lra.
Qed.
