From Verif Require Import Base Model_Interval Proof_Interval Model_Affine Proof_Affine Proof_AffineMerge Model_BoundBeta.

Definition env_inv (d : interval) (P : list affine) (qs : list affine) : Prop :=
  (forall q, In q qs -> wf (dom q) /\
     exists j b, label q = Some j /\ nth_error P j = Some b /\ same_fun q b /\
       forall x, covers q x -> covers b x) /\
  (forall x b, in_set d x -> In b P -> covers b x ->
     exists q, In q qs /\ covers q x /\ value q x <= value b x).

Lemma solid_point : forall q, solid q -> exists x, covers q x.
Proof. intros q [W E]. exists (midpoint (dom q)). now apply midpoint_in. Qed.

Lemma deep_copy_ok : forall f, wf (dom f) -> affine_deep_copy f = Ret (mkA (slope f) (icpt f) (dom f) None).
Proof. intros f W. unfold affine_deep_copy. now rewrite deep_copy_eq. Qed.

Lemma nth_error_app_l : forall (A : Type) (l1 l2 : list A) j b, nth_error l1 j = Some b -> nth_error (l1 ++ l2) j = Some b.
Proof. intros A l1 l2 j b H. rewrite nth_error_app1; auto. apply nth_error_Some. congruence. Qed.

Lemma env_step : forall d P qs b, wf d -> env_inv d P qs -> wf (dom b) ->
  let self := relabel (List.length P) (mkA (slope b) (icpt b) (dom b) None) in
  exists st, compare_with_refs lt_cmp self qs (Some d) = Ret st /\
    env_inv d (P ++ [b]) (deref_all st) /\ label (fst st) = Some (List.length P) /\
    (In RSelf (snd st) -> exists x, in_set d x /\ covers b x /\ forall b', In b' P -> ~ covers b' x).
Proof.
  intros d P qs b Wd [I1 I2] Wb self.
  assert (Lb : forall g j b', In g qs -> label g = Some j -> nth_error P j = Some b' -> same_fun g b').
  { intros g j b' Hg Hl Hn. destruct (I1 g Hg) as [_ [j' [b'' [H1 [H2 [H3 _]]]]]]. congruence. }
  assert (Lt : forall g, In g qs -> exists j, label g = Some j /\ (j < List.length P)%nat).
  { intros g Hg. destruct (I1 g Hg) as [_ [j [b' [H1 [H2 _]]]]]. exists j. split; auto.
    apply nth_error_Some. congruence. }
  destruct (compare_labelled lt_cmp 1 lt_cmp_spec self qs (Some d)) as [s' [refs [E [K1 [K2 [K3 [K4 K5]]]]]]]; auto.
  - constructor; [exact Wb|]. apply Forall_forall. intros q Hq. now apply I1.
  - intros g h [<-|Hg] [<-|Hh] Hl; try apply same_fun_refl.
    + destruct (Lt h Hh) as [j [H1 H2]]. rewrite H1 in Hl. cbn in Hl. inversion Hl. lia.
    + destruct (Lt g Hg) as [j [H1 H2]]. rewrite H1 in Hl. cbn in Hl. inversion Hl. lia.
    + destruct (I1 g Hg) as [_ [j [b1 [H1 [H2 [H3 _]]]]]].
      apply same_fun_trans with b1; auto. apply same_fun_sym. apply (Lb h j b1); auto. congruence.
  - exists (s', refs). split; auto. split; [|split; [cbn; now rewrite K2|]].
    + split.
      * intros q Hq. unfold deref_all in Hq. cbn in Hq. apply in_map_iff in Hq. destruct Hq as [r [<- Hr]].
        split; [now apply K1|].
        destruct (solid_point _ (K1 r Hr)) as [x Hx].
        assert (Src : forall y, covers (deref s' r) y -> exists j b0, label (deref s' r) = Some j /\
                   nth_error (P ++ [b]) j = Some b0 /\ same_fun (deref s' r) b0 /\ covers b0 y).
        { intros y Hy. destruct (K3 r y Hr Hy) as [g [[<-|Hg] [Hgy [Hl Hf]]]].
          - exists (List.length P), b. split; [now rewrite <- Hl|].
            split; [rewrite nth_error_app2, Nat.sub_diag; auto|]. split; [|exact Hgy].
            apply same_fun_sym in Hf. destruct Hf as [F1 F2]. split; auto.
          - destruct (I1 g Hg) as [_ [j [b0 [H1 [H2 [H3 H4]]]]]]. exists j, b0.
            split; [congruence|]. split; [now apply nth_error_app_l|]. split; auto.
            eapply same_fun_trans; [apply same_fun_sym; exact Hf|auto]. }
        destruct (Src x Hx) as [j [b0 [H1 [H2 [H3 _]]]]]. exists j, b0. do 3 (split; auto).
        intros y Hy. destruct (Src y Hy) as [j' [b1 [H1' [H2' [_ H4]]]]]. congruence.
      * intros x b0 Dx Hb0 Hx. unfold deref_all. cbn.
        assert (Good : exists g, In g (self :: qs) /\ covers g x /\ value g x <= value b0 x).
        { apply in_app_or in Hb0. destruct Hb0 as [Hb0|[<-|[]]].
          - destruct (I2 x b0 Dx Hb0 Hx) as [q [Hq [Hqx Hv]]]. exists q. split; [now right|auto].
          - exists self. split; [now left|]. split; auto. unfold value; cbn. lra. }
        destruct Good as [g [Hg [Hgx Hv]]].
        destruct (K4 x Dx) as [r [Hr [Hrx Hbest]]]; [exists g; auto|].
        exists (deref s' r). split; [now apply in_map|]. split; auto.
        specialize (Hbest g Hg Hgx). lra.
    + cbn. intros Hr. destruct (K5 Hr) as [x [Dx [Hx N]]]. exists x. split; auto. split; [exact Hx|].
      intros b' Hb' Hb'x. destruct (I2 x b' Dx Hb' Hb'x) as [q [Hq [Hqx _]]]. exact (N q Hq Hqx).
Qed.

Lemma envelope_ok : forall d rest P st, wf d -> Forall (fun b => wf (dom b)) rest ->
  env_inv d P (deref_all st) ->
  exists st', envelope d (List.length P) st rest = Ret st' /\ env_inv d (P ++ rest) (deref_all st') /\
    (rest <> [] -> (exists lb, label (fst st') = Some lb) /\
      (In RSelf (snd st') -> exists x, in_set d x /\ covers (last rest (fst st)) x /\
        forall b', In b' (P ++ removelast rest) -> ~ covers b' x)).
Proof.
  intros d rest. induction rest as [|b rest IH]; intros P st Wd Wr Inv.
  - exists st. cbn. rewrite app_nil_r. split; auto. split; auto. congruence.
  - inversion Wr as [|? ? Wb Wr']; subst. cbn [envelope]. rewrite (deep_copy_ok b Wb). cbn [bind].
    destruct (env_step d P (deref_all st) b Wd Inv Wb) as [st1 [E [Inv1 [Lb Rs]]]].
    cbv zeta in E. rewrite E. cbn [bind].
    assert (EL : S (List.length P) = List.length (P ++ [b])) by (rewrite app_length; cbn; lia).
    rewrite EL.
    destruct (IH (P ++ [b]) st1 Wd Wr' Inv1) as [st' [E' [Inv' Rs']]].
    exists st'. split; auto. rewrite <- app_assoc in Inv'. split; [exact Inv'|]. intros _.
    destruct rest as [|b2 rest].
    + cbn in E'. inversion E'; subst st'. split; [eauto|]. intros Hr. cbn. rewrite app_nil_r. apply Rs; auto.
    + destruct Rs' as [R1 R2]; [discriminate|]. split; auto. intros Hr. destruct (R2 Hr) as [x [D [Hx N]]].
      exists x. split; auto. split.
      * change (last (b :: b2 :: rest) (fst st)) with (last (b2 :: rest) (fst st)).
        assert (EQ : forall (l : list affine) u v, l <> [] -> last l u = last l v).
        { clear. induction l as [|a [|a' l] IH]; intros u v H; [congruence|reflexivity|].
          cbn. apply IH. discriminate. }
        rewrite (EQ (b2 :: rest) (fst st) (fst st1)); auto. discriminate.
      * intros b' Hb'. apply N. change (removelast (b :: b2 :: rest)) with (b :: removelast (b2 :: rest)) in Hb'.
        rewrite <- app_assoc. exact Hb'.
Qed.

Lemma finish_ok : forall bounds self refs lbl out,
  finish bounds self lbl refs = Ret out ->
  (lbl = label self \/ lbl = None) ->
  forall P qs, qs = map (deref self) refs -> (forall q, In q qs -> In q P) ->
  (forall q, In q P -> exists j b, label q = Some j /\ nth_error bounds j = Some b /\ same_fun q b /\
       forall x, covers q x -> covers b x) ->
  (forall o, In o out -> exists p b, out_bound bounds o = Some p /\ nth_error bounds (out_dep o) = Some b /\
       same_fun p b /\ (forall x, covers p x -> covers b x)) /\
  (forall q, In q qs -> exists o p, In o out /\ out_bound bounds o = Some p /\
      (forall x, covers q x -> covers p x /\ value p x == value q x)).
Proof.
  intros bounds self refs. induction refs as [|r refs IH]; intros lbl out H HL P qs Eqs HP HS.
  - cbn in H. inversion H; subst. split; [intros o []|intros q []].
  - cbn [finish] in H.
    destruct (match r with RSelf => lbl | ROwn p => label p end) as [i|] eqn:EL; [|discriminate].
    destruct (nth_error bounds i) as [depend|] eqn:EN; [|discriminate].
    destruct (finish bounds self _ refs) as [rest|] eqn:EF; [|discriminate]. cbn [bind] in H.
    inversion H; subst out. clear H.
    assert (Hr : In (deref self r) qs) by (rewrite Eqs; now left).
    destruct (HS _ (HP _ Hr)) as [j [b [S1 [S2 [S3 S4]]]]].
    assert (Hij : j = i).
    { destruct r as [|p]; cbn [deref] in S1.
      - destruct HL as [HL|HL]; congruence.
      - congruence. }
    subst j. assert (b = depend) by congruence. subst b.
    specialize (IH _ _ EF) as IH'.
    destruct IH' with (P := P) (qs := map (deref self) refs) as [A1 A2]; auto.
    { destruct r; auto. }
    { intros q Hq. apply HP. rewrite Eqs. now right. }
    split.
    + intros o [<-|Ho]; [|now apply A1].
      destruct (affine_eqb (deref self r) depend).
      * exists depend, depend. cbn. split; auto. split; auto. split; [apply same_fun_refl|auto].
      * eexists. exists depend. cbn. split; [reflexivity|]. split; auto.
    + intros q Hq. rewrite Eqs in Hq. destruct Hq as [<-|Hq].
      * destruct (affine_eqb (deref self r) depend) eqn:EA.
        -- exists (Existing i), depend. split; [left; reflexivity|]. split; [exact EN|].
           intros x Hx. split; [now apply S4|]. symmetry. now apply same_fun_value.
        -- exists (Derived (mkA (slope (deref self r)) (icpt (deref self r)) (dom (deref self r)) None) i).
           eexists. split; [left; reflexivity|]. split; [reflexivity|].
           intros x Hx. split; [exact Hx|reflexivity].
      * destruct (A2 q Hq) as [o [p [H1 R]]]. exists o, p. split; [now right|auto].
Qed.

Lemma finish_no_raise : forall bounds self refs lbl,
  ~ In RSelf refs ->
  (forall r, In r refs -> exists j b, label (deref self r) = Some j /\ nth_error bounds j = Some b) ->
  exists out, finish bounds self lbl refs = Ret out.
Proof.
  intros bounds self refs. induction refs as [|r refs IH]; intros lbl NS HS; [exists []; auto|].
  destruct (HS r) as [j [b [H1 H2]]]; [now left|].
  destruct r as [|p]; [exfalso; apply NS; now left|]. cbn [finish deref] in *. rewrite H1, H2.
  destruct (IH lbl) as [out Ho]; [intros K; apply NS; now right|intros r Hr; apply HS; now right|].
  rewrite Ho. cbn. eauto.
Qed.

Section Best.
  Variable bounds : list affine.
  Variable domain : option interval.
  Hypothesis bounds_wf : Forall (fun b => wf (dom b)) bounds.
  Let d := match domain with Some d => d | None => mkI 0 (1#2) true true end.
  Hypothesis d_wf : wf d.

  Lemma init_inv : forall b, wf (dom b) ->
    env_inv d [b] (deref_all (relabel 0 (mkA (slope b) (icpt b) (dom b) None), [RSelf])).
  Proof.
    intros b Wb. split.
    - intros q [<-|[]]. split; [exact Wb|]. exists 0%nat, b. cbn. split; auto. split; auto. split; [split; reflexivity|auto].
    - intros x b' _ [<-|[]] Hx. eexists. split; [left; reflexivity|]. split; [exact Hx|]. unfold value; cbn. lra.
  Qed.

  Lemma best_beta_correct : forall out, compute_best_beta_bounds bounds domain = Ret out ->
    (forall o, In o out -> exists p b, out_bound bounds o = Some p /\ nth_error bounds (out_dep o) = Some b /\
       forall x, covers p x -> covers b x /\ value p x == value b x) /\
    (forall x b, in_set d x -> In b bounds -> covers b x ->
       exists o p, In o out /\ out_bound bounds o = Some p /\ covers p x /\ value p x <= value b x).
  Proof.
    intros out H. unfold compute_best_beta_bounds in H. fold d in H.
    destruct bounds as [|b0 [|b1 rest]] eqn:EB.
    - inversion H; subst. split; [intros ? []|intros ? ? ? []].
    - inversion H; subst. split.
      + intros o [<-|[]]. exists b0, b0. cbn. split; auto. split; auto. intros x Hx. split; auto. reflexivity.
      + intros x b _ [<-|[]] Hx. exists (Existing 0), b0. cbn. split; auto. split; auto. split; auto. lra.
    - inversion bounds_wf as [|? ? W0 W1]; subst.
      rewrite (deep_copy_ok b0 W0) in H. cbn [bind] in H.
      destruct (envelope_ok d (b1 :: rest) [b0] _ d_wf W1 (init_inv b0 W0)) as [st [E [Inv Hlast]]].
      cbn [List.length] in E. rewrite E in H. cbn [bind] in H. destruct Inv as [I1 I2].
      destruct (finish_ok _ _ _ _ _ H (or_introl eq_refl) (deref_all st) (deref_all st) eq_refl) as [A1 A2]; auto.
      { intros q Hq. destruct (I1 q Hq) as [_ R]. exact R. }
      split.
      + intros o Ho. destruct (A1 o Ho) as [p [b [H1 [H2 [H3 H4]]]]]. exists p, b. split; auto. split; auto.
        intros x Hx. split; auto. now apply same_fun_value.
      + intros x b Dx Hb Hx. destruct (I2 x b Dx Hb Hx) as [q [Hq [Hqx Hv]]].
        destruct (A2 q Hq) as [o [p [H1 [H2 H3]]]]. exists o, p. split; auto. split; auto.
        destruct (H3 x Hqx) as [H4 H5]. split; auto. rewrite H5. auto.
  Qed.

  Lemma best_beta_returns :
    (forall i b x, nth_error bounds i = Some b -> in_set d x -> covers b x ->
       exists j b', j <> i /\ nth_error bounds j = Some b' /\ covers b' x) ->
    exists out, compute_best_beta_bounds bounds domain = Ret out.
  Proof.
    intros Hcov. unfold compute_best_beta_bounds. fold d.
    destruct bounds as [|b0 [|b1 rest]] eqn:EB; [eauto|eauto|].
    inversion bounds_wf as [|? ? W0 W1]; subst.
    rewrite (deep_copy_ok b0 W0). cbn [bind].
    destruct (envelope_ok d (b1 :: rest) [b0] _ d_wf W1 (init_inv b0 W0)) as [st [E [Inv Hlast]]].
    cbn [List.length] in E. rewrite E. cbn [bind]. destruct Inv as [I1 I2].
    destruct Hlast as [_ Hself]; [discriminate|].
    apply finish_no_raise.
    - intros Hr. destruct (Hself Hr) as [x [Dx [Hx N]]].
      remember (b1 :: rest) as tl.
      assert (NE : tl <> []) by (subst; discriminate).
      remember (fst (relabel 0 (mkA (slope b0) (icpt b0) (dom b0) None), [RSelf])) as dflt.
      pose proof (app_removelast_last dflt NE) as Sp.
      set (lst := last tl dflt) in *. set (ini := removelast tl) in *.
      destruct (Hcov (List.length (b0 :: ini)) lst x) as [j [b' [Hj [Hn Hb']]]]; auto.
      { rewrite Sp. change (b0 :: ini ++ [lst]) with ((b0 :: ini) ++ [lst]).
        rewrite nth_error_app2, Nat.sub_diag; auto. }
      rewrite Sp in Hn. change (b0 :: ini ++ [lst]) with ((b0 :: ini) ++ [lst]) in Hn.
      assert (In b' (b0 :: ini)).
      { destruct (Nat.lt_ge_cases j (List.length (b0 :: ini))) as [L|L].
        - rewrite nth_error_app1 in Hn by auto. eapply nth_error_In; eauto.
        - exfalso. rewrite nth_error_app2 in Hn by auto.
          destruct (j - List.length (b0 :: ini))%nat as [|k] eqn:EK; [lia|].
          cbn in Hn. destruct k; discriminate. }
      apply (N b'); auto.
    - intros r Hr. destruct (I1 (deref (fst st) r)) as [_ [j [b [H1 [H2 _]]]]].
      { unfold deref_all. now apply in_map. }
      exists j, b. split; auto.
  Qed.
End Best.

(** When every bound is stated on exactly the domain, every piece returned is
    minimal where it is defined. *)
Lemma affine_eqb_same : forall q b, solid q -> wf (dom b) -> affine_eqb q b = true ->
  forall x, (covers q x <-> covers b x) /\ (covers q x -> value q x == value b x).
Proof.
  intros q b [Wq Eq] Wb H x. unfold affine_eqb in H.
  destruct (Qeqb (length (dom q)) 0 && Qeqb (length (dom b)) 0 && Qeqb (x0 (dom q)) (x0 (dom b))) eqn:E.
  - rewrite !andb_true_iff, !Qeqb_true in E. destruct E as [[L1 L2] X].
    destruct (solid_singleton _ Eq L1) as [I1 I2].
    assert (Cq : contains (dom q) (x0 (dom q)) = true).
    { apply contains_iff. unfold in_set. rewrite I1, I2. cbn. unfold length in L1. split; lra. }
    unfold at_ in H. rewrite Cq in H. destruct (contains (dom b) (x0 (dom q))) eqn:Cb; [|discriminate H].
    cbn in H. apply Qeqb_true in H. apply contains_iff in Cb.
    assert (S : forall y, in_set (dom b) y -> y == x0 (dom q)).
    { intros y [Y1 Y2]. unfold length in L2. destruct (incl_lo (dom b)), (incl_hi (dom b)); cbn in Y1, Y2; lra. }
    assert (Sq : forall y, in_set (dom q) y -> y == x0 (dom q)).
    { intros y [Y1 Y2]. unfold length in L1. destruct (incl_lo (dom q)), (incl_hi (dom q)); cbn in Y1, Y2; lra. }
    apply contains_iff in Cq.
    assert (M : forall i y z, y == z -> in_set i y -> in_set i z).
    { intros i y z E Hy. apply contains_iff. rewrite <- (contains_comp i y z E). now apply contains_iff. }
    split.
    + split; intros Hx; [apply (M _ (x0 (dom q))); [symmetry; now apply Sq|auto]|apply (M _ (x0 (dom q))); [symmetry; now apply S|auto]].
    + intros Hx. unfold value. rewrite (Sq x Hx). exact H.
  - rewrite !andb_true_iff, !Qeqb_true in H. destruct H as [[H1 H2] H3].
    split; [apply (proj1 (interval_eqb_iff _ _ Wq Wb) H3 x)|]. intros _. unfold value. now rewrite H1, H2.
Qed.

Definition piece_of (bounds : list affine) (o : beta_out) (q : affine) : Prop :=
  exists p, out_bound bounds o = Some p /\
    forall x, (covers p x <-> covers q x) /\ (covers p x -> value p x == value q x).

Lemma finish_source : forall bounds self refs lbl out,
  Forall (fun b => wf (dom b)) bounds ->
  finish bounds self lbl refs = Ret out -> (forall r, In r refs -> solid (deref self r)) ->
  Forall2 (piece_of bounds) out (map (deref self) refs).
Proof.
  intros bounds self refs. induction refs as [|r refs IH]; intros lbl out W H Sr.
  - cbn in H. inversion H; subst. constructor.
  - cbn [finish] in H.
    destruct (match r with RSelf => lbl | ROwn p => label p end) as [i|] eqn:EL; [|discriminate].
    destruct (nth_error bounds i) as [depend|] eqn:EN; [|discriminate].
    destruct (finish bounds self _ refs) as [rest|] eqn:EF; [|discriminate]. cbn [bind] in H.
    inversion H; subst out. clear H. cbn [map]. constructor.
    + destruct (affine_eqb (deref self r) depend) eqn:EA.
      * exists depend. split; [exact EN|]. intros x.
        assert (Wb : wf (dom depend)) by (rewrite Forall_forall in W; apply W; eapply nth_error_In; eauto).
        destruct (affine_eqb_same _ _ (Sr r (or_introl eq_refl)) Wb EA x) as [A1 A2]. split; [now symmetry|].
        intros Hx. symmetry. apply A2. now apply A1.
      * eexists. split; [reflexivity|]. intros x. split; [reflexivity|]. intros _. reflexivity.
    + apply (IH _ _ W EF). intros r' Hr'. apply Sr. now right.
Qed.

Definition env_full (d : interval) (P qs : list affine) : Prop :=
  (forall q, In q qs -> solid q /\ forall x, covers q x -> in_set d x /\ forall b, In b P -> value q x <= value b x) /\
  (forall x, in_set d x -> exists q, In q qs /\ covers q x) /\ ordered qs.

Lemma env_full_step : forall d P qs b, wf d -> env_inv d P qs -> env_full d P qs -> wf (dom b) ->
  (forall x, covers b x <-> in_set d x) ->
  let self := relabel (List.length P) (mkA (slope b) (icpt b) (dom b) None) in
  forall st, compare_with_refs lt_cmp self qs (Some d) = Ret st ->
  env_full d (P ++ [b]) (deref_all st) /\ forall r, In r (snd st) -> solid (deref (fst st) r).
Proof.
  intros d P qs b Wd [I1 _] (F1 & F2 & _) Wb Hb self st E.
  destruct (compare_covered lt_cmp 1 lt_cmp_spec self qs (Some d)) as (out & E' & So & Od & Cv & Bs).
  - constructor; [exact Wb|]. apply Forall_forall. intros q Hq. now apply I1.
  - exact Wd.
  - intros x Dx _. destruct (F2 x Dx) as (q & Hq & Hx). eauto.
  - rewrite E' in E. injection E as <-. unfold deref_all. cbn [fst snd]. rewrite map_map. cbn [deref]. rewrite map_id.
    rewrite Forall_forall in So. split; [split; [|split; [|exact Od]]|].
    + intros q Hq. split; [auto|]. intros x Hx. destruct (proj1 (Cv x)) as [Dx _]; [eauto|]. cbn in Dx. split; [exact Dx|].
      destruct (Bs q x Hq Hx) as [_ Bm]. intros b' Hb'. apply in_app_or in Hb' as [Hb'|[<-|[]]].
      * destruct (F2 x Dx) as (g & Hg & Hgx). specialize (Bm g (or_intror Hg) Hgx).
        destruct (F1 g Hg) as [_ G]. destruct (G x Hgx) as [_ G']. specialize (G' b' Hb'). lra.
      * assert (Hs : covers self x) by (apply Hb; exact Dx). specialize (Bm self (or_introl eq_refl) Hs).
        change (value self x) with (value b x) in Bm. lra.
    + intros x Dx. apply (proj2 (Cv x)). split; [exact Dx|]. destruct (F2 x Dx) as (q & Hq & Hx). exists q. split; [now right|auto].
    + intros r Hr. apply in_map_iff in Hr as (p & <- & Hp). cbn. auto.
Qed.

Lemma envelope_full : forall d rest P st, wf d -> Forall (fun b => wf (dom b)) rest ->
  (forall b x, In b rest -> (covers b x <-> in_set d x)) ->
  env_inv d P (deref_all st) -> env_full d P (deref_all st) -> (forall r, In r (snd st) -> solid (deref (fst st) r)) ->
  forall st', envelope d (List.length P) st rest = Ret st' ->
  env_full d (P ++ rest) (deref_all st') /\ forall r, In r (snd st') -> solid (deref (fst st') r).
Proof.
  intros d rest. induction rest as [|b rest IH]; intros P st Wd Wr Hc Inv Full Sr st' E.
  - cbn in E. injection E as <-. rewrite app_nil_r. auto.
  - inversion Wr as [|? ? Wb Wr']; subst. cbn [envelope] in E. rewrite (deep_copy_ok b Wb) in E. cbn [bind] in E.
    destruct (env_step d P (deref_all st) b Wd Inv Wb) as [st1 [E1 [Inv1 _]]]. cbv zeta in E1. rewrite E1 in E. cbn [bind] in E.
    destruct (env_full_step d P (deref_all st) b Wd Inv Full Wb (fun x => Hc b x (or_introl eq_refl)) st1 E1) as [Full1 Sr1].
    assert (EL : S (List.length P) = List.length (P ++ [b])) by (rewrite app_length; cbn; lia). rewrite EL in E.
    change (b :: rest) with ([b] ++ rest). rewrite app_assoc. apply (IH (P ++ [b]) st1); auto. intros b' x I. apply Hc. now right.
Qed.

(** The returned bounds, in order, agree with pieces [qs] that are minimal, not
    empty, cover the domain and nothing else, and run from left to right. *)
Lemma best_beta_full : forall bounds domain,
  let d := match domain with Some d => d | None => mkI 0 (1#2) true true end in
  Forall (fun b => wf (dom b)) bounds -> wf d -> (exists x, in_set d x) ->
  (forall b x, In b bounds -> (covers b x <-> in_set d x)) -> bounds <> [] ->
  exists out qs, compute_best_beta_bounds bounds domain = Ret out /\
    Forall2 (piece_of bounds) out qs /\ env_full d bounds qs.
Proof.
  intros bounds domain d W Wd [x Dx] Hc NE. unfold compute_best_beta_bounds. fold d.
  destruct bounds as [|b0 [|b1 rest]]; [congruence| |].
  - exists [Existing 0], [b0]. split; [auto|]. split.
    + constructor; [|constructor]. exists b0. split; [auto|]. intros y. split; [reflexivity|]. intros _. reflexivity.
    + inversion W as [|? ? W0 W1]; subst. split; [|split].
      * intros q [<-|[]]. split.
        -- split; [auto|]. destruct (is_empty (dom b0)) eqn:Em; [|auto]. exfalso.
           apply (proj1 (is_empty_iff (dom b0) W0) Em x). apply Hc; [now left|auto].
        -- intros y Hy. split; [apply (Hc b0 y); [now left|auto]|]. intros b [<-|[]]. lra.
      * intros y Dy. exists b0. split; [now left|]. apply Hc; [now left|auto].
      * cbn. split; [intros q y z []|exact Logic.I].
  - destruct (best_beta_returns (b0 :: b1 :: rest) domain W Wd) as [out Eo].
    { intros i b y Hi Dy _. destruct i as [|i].
      - exists 1%nat, b1. split; [lia|]. split; [auto|]. apply Hc; [right; now left|auto].
      - exists 0%nat, b0. split; [lia|]. split; [auto|]. apply Hc; [now left|auto]. }
    pose proof Eo as Eo'. unfold compute_best_beta_bounds in Eo. fold d in Eo.
    inversion W as [|? ? W0 W1]; subst. rewrite (deep_copy_ok b0 W0) in Eo. cbn [bind] in Eo.
    destruct (envelope d 1 _ (b1 :: rest)) as [st|] eqn:E; [|discriminate]. cbn [bind] in Eo.
    assert (S0 : solid b0).
    { split; [auto|]. destruct (is_empty (dom b0)) eqn:Em; [|auto]. exfalso.
      apply (proj1 (is_empty_iff (dom b0) W0) Em x). apply Hc; [now left|auto]. }
    destruct (envelope_full d (b1 :: rest) [b0] _ Wd W1 (fun b y I => Hc b y (or_intror I)) (init_inv domain b0 W0)) with (st' := st) as [F Sr].
    + split; [|split].
      * intros q [<-|[]]. split; [exact S0|]. intros y Hy. split; [apply (Hc b0 y); [now left|exact Hy]|].
        intros b [<-|[]]. unfold value; cbn. lra.
      * intros y Dy. eexists. split; [left; reflexivity|]. apply (Hc b0 y); [now left|auto].
      * cbn. split; [intros q y z []|exact Logic.I].
    + intros r [<-|[]]. exact S0.
    + exact E.
    + exists out, (deref_all st). split; [exact Eo'|]. split; [exact (finish_source _ _ _ _ _ W Eo Sr)|exact F].
Qed.
