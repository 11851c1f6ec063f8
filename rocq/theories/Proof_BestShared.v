(** Best bounds on beta when no bound is alone anywhere: then every piece returned is
    minimal, whatever the domains of the bounds are. *)
From Verif Require Import Base Model_Interval Spec_Interval Proof_Interval Model_Affine Spec_Affine Proof_Affine Proof_AffineMerge Model_BoundBeta Proof_BoundBeta.
Open Scope list_scope.

Lemma envelope_app : forall d l1 l2 i st, envelope d i st (l1 ++ l2) = (let! st' := envelope d i st l1 in envelope d (i + List.length l1) st' l2).
Proof.
  intros d. induction l1 as [|b l1 IH]; intros l2 i st; [cbn; now rewrite Nat.add_0_r|].
  cbn [app envelope List.length]. destruct (affine_deep_copy b) as [c|]; [|reflexivity]. cbn [bind].
  destruct (compare_with_refs lt_cmp (relabel i c) (deref_all st) (Some d)) as [st'|]; [|reflexivity]. cbn [bind].
  rewrite IH. now rewrite <- Nat.add_succ_comm.
Qed.

Definition env_min (d : interval) (P qs : list affine) : Prop :=
  (forall q, In q qs -> solid q /\ forall x, covers q x -> in_set d x /\ forall b, In b P -> covers b x -> value q x <= value b x) /\
  (forall x b, in_set d x -> In b P -> covers b x -> exists q, In q qs /\ covers q x) /\ ordered qs.

Lemma best_shared : forall bounds domain,
  let d := match domain with Some d => d | None => mkI 0 (1#2) true true end in
  Forall (fun b => wf (dom b)) bounds -> wf d -> (2 <= List.length bounds)%nat ->
  (forall i b x, nth_error bounds i = Some b -> in_set d x -> covers b x ->
     exists j b', j <> i /\ nth_error bounds j = Some b' /\ covers b' x) ->
  exists out qs, compute_best_beta_bounds bounds domain = Ret out /\ Forall2 (piece_of bounds) out qs /\ env_min d bounds qs.
Proof.
  intros bounds domain d W Wd Two Hcov.
  destruct (best_beta_returns bounds domain W Wd Hcov) as [out Eo]. pose proof Eo as Eo'.
  unfold compute_best_beta_bounds in Eo. fold d in Eo.
  destruct bounds as [|b0 [|b1 tl]]; [cbn in Two; lia|cbn in Two; lia|].
  destruct (exists_last (l := b1 :: tl) ltac:(discriminate)) as (ini & lst & El).
  rewrite El in *. clear El b1 tl Two. inversion W as [|? ? W0 W1]; subst. apply Forall_app in W1 as [Wi Wl]. inversion Wl as [|? ? Wl0 _]; subst.
  rewrite (deep_copy_ok b0 W0) in Eo. cbn [bind] in Eo. rewrite envelope_app in Eo.
  destruct (envelope_ok d ini [b0] _ Wd Wi (init_inv domain b0 W0)) as [st0 [E0 [Inv _]]]. cbn [List.length] in E0. fold d in Inv. rewrite E0 in Eo. cbn [bind] in Eo.
  cbn [envelope] in Eo. rewrite (deep_copy_ok lst Wl0) in Eo. cbn [bind] in Eo.
  set (self := relabel (1 + List.length ini) (mkA (slope lst) (icpt lst) (dom lst) None)) in *.
  destruct Inv as [I1 I2].
  destruct (compare_covered lt_cmp 1 lt_cmp_spec self (deref_all st0) (Some d)) as (ps & E & So & Od & Cv & Bs).
  - constructor; [exact Wl0|]. apply Forall_forall. intros q Hq. now apply I1.
  - exact Wd.
  - intros x Dx Hx. cbn in Dx. change (covers lst x) in Hx.
    destruct (Hcov (List.length (b0 :: ini)) lst x) as (j & b' & Nj & Hj & Hb'); [|exact Dx|exact Hx|].
    { change (b0 :: ini ++ [lst]) with ((b0 :: ini) ++ [lst]). rewrite nth_error_app2, Nat.sub_diag; auto. }
    change (b0 :: ini ++ [lst]) with ((b0 :: ini) ++ [lst]) in Hj.
    assert (In b' (b0 :: ini)).
    { destruct (Nat.lt_ge_cases j (List.length (b0 :: ini))) as [L|L]; [rewrite nth_error_app1 in Hj by auto; eapply nth_error_In; eauto|].
      exfalso. rewrite nth_error_app2 in Hj by auto. destruct (j - List.length (b0 :: ini))%nat as [|k] eqn:EK; [lia|]. cbn in Hj. destruct k; discriminate. }
    destruct (I2 x b' Dx) as (q & Hq & Hqx & _); [cbn; cbn in H; tauto|exact Hb'|eauto].
  - rewrite E in Eo. cbn [bind] in Eo. exists out, ps. split; [exact Eo'|]. rewrite Forall_forall in So. split.
    + assert (X : ps = map (deref (fst (self, map ROwn ps))) (snd (self, map ROwn ps))) by (cbn [fst snd]; rewrite map_map; cbn [deref]; now rewrite map_id).
      rewrite X at 1. apply (finish_source _ _ _ (label (fst (self, map ROwn ps))) _ W Eo).
      intros r Hr. cbn [snd] in Hr. apply in_map_iff in Hr as (p & <- & Hp). cbn. auto.
    + assert (M : forall x b, in_set d x -> In b (b0 :: ini ++ [lst]) -> covers b x -> exists g, In g (self :: deref_all st0) /\ covers g x /\ value g x <= value b x).
      { intros x b Dx Ib Hb. change (b0 :: ini ++ [lst]) with ((b0 :: ini) ++ [lst]) in Ib. apply in_app_or in Ib as [Ib|[<-|[]]].
        - destruct (I2 x b Dx Ib Hb) as (q & Hq & Hqx & Hv). exists q. split; [now right|auto].
        - exists self. split; [now left|]. split; [exact Hb|]. unfold value; cbn. lra. }
      split; [|split; [|exact Od]].
      * intros q Hq. split; [auto|]. intros x Hx. destruct (proj1 (Cv x)) as [Dx _]; [eauto|]. cbn in Dx. split; [exact Dx|].
        intros b Ib Hb. destruct (M x b Dx Ib Hb) as (g & Ig & Hg & Hv). destruct (Bs q x Hq Hx) as [_ Bm]. specialize (Bm g Ig Hg). lra.
      * intros x b Dx Ib Hb. destruct (M x b Dx Ib Hb) as (g & Ig & Hg & _). apply (proj2 (Cv x)). split; [exact Dx|eauto].
Qed.
