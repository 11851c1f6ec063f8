From Verif Require Import Base Model_Interval Proof_Interval Model_Affine Proof_Affine.

Definition solid (p : affine) : Prop := wf (dom p) /\ is_empty (dom p) = false.

Lemma solid_singleton : forall i, is_empty i = false -> length i == 0 -> incl_lo i = true /\ incl_hi i = true.
Proof.
  intros i H E. unfold is_empty in H. apply Qeqb_true in E. rewrite E in H.
  apply negb_false_iff in H. now apply andb_true_iff in H.
Qed.

Lemma extend_ok : forall p1 p2, solid p1 -> solid p2 ->
  x1 (dom p1) == x0 (dom p2) -> incl_hi (dom p1) || incl_lo (dom p2) = true ->
  solid (extend_to p1 p2) /\ forall x, covers (extend_to p1 p2) x <-> covers p1 x \/ covers p2 x.
Proof.
  intros p1 p2 [W1 E1] [W2 E2] HX HI.
  destruct p1 as [m1 c1 [a b il iu] l1], p2 as [m2 c2 [c d jl ju] l2].
  unfold wf, extend_to, covers in *; cbn in *.
  pose proof (solid_singleton _ E1) as S1. pose proof (solid_singleton _ E2) as S2.
  unfold length in S1, S2; cbn in S1, S2.
  split.
  - split; unfold wf; cbn; [lra|]. unfold is_empty, length; cbn.
    destruct (Qeqb_spec (d - a) 0) as [Z|Z]; auto.
    destruct S1 as [-> _]; [lra|]. destruct S2 as [_ ->]; [lra|]. reflexivity.
  - intros x. unfold in_set, respects_lower, respects_upper; cbn. split.
    + intros [H1 H2]. destruct (Qlt_le_dec x b) as [L|L].
      * left. split; auto. destruct iu; lra.
      * destruct (Qlt_le_dec b x) as [L2|L2].
        -- right. split; auto. destruct jl; lra.
        -- apply orb_true_iff in HI. destruct HI as [-> | ->].
           ++ left. split; auto; lra.
           ++ right. split; auto; lra.
    + intros [[H1 H2]|[H1 H2]].
      * split; auto. destruct (Qlt_le_dec x d) as [L|L]; [destruct ju; lra|].
        destruct S2 as [_ ->]; [destruct iu; lra|]. destruct iu; lra.
      * split; auto. destruct (Qlt_le_dec a x) as [L|L]; [destruct il; lra|].
        destruct S1 as [-> _]; [destruct jl; lra|]. destruct jl; lra.
Qed.

Lemma match_facts : forall p1 p2, pieces_match p1 p2 = true ->
  x1 (dom p1) == x0 (dom p2) /\ incl_hi (dom p1) || incl_lo (dom p2) = true /\ label p1 = label p2.
Proof.
  intros p1 p2 H. unfold pieces_match in H. rewrite !andb_true_iff in H.
  destruct H as [[[H1 H2] H3] _]. split; [now apply Qeqb_true|]. split; auto.
  destruct (label p1), (label p2); cbn in H3; auto; try discriminate. apply Nat.eqb_eq in H3. now subst.
Qed.

(** Two disjoint solid pieces are only merged if they are the same function. *)
Lemma match_disjoint : forall p1 p2, solid p1 -> solid p2 ->
  (forall x, covers p1 x -> covers p2 x -> False) ->
  pieces_match p1 p2 = true -> same_fun p1 p2.
Proof.
  intros p1 p2 [W1 E1] [W2 E2] HD H. pose proof (match_facts _ _ H) as [HX [_ _]].
  unfold pieces_match in H. rewrite !andb_true_iff in H. destruct H as [_ H].
  rewrite !orb_true_iff, !andb_true_iff in H.
  assert (Clash : oq_eqb (at_ p1 (x1 (dom p1))) (at_ p2 (x0 (dom p2))) = true ->
                  covers p1 (x1 (dom p1)) \/ covers p2 (x0 (dom p2)) -> False).
  { intros O Hor.
    destruct (at_ p1 (x1 (dom p1))) eqn:A1, (at_ p2 (x0 (dom p2))) eqn:A2; try discriminate.
    - apply at_some in A1. apply at_some in A2. apply (HD (x1 (dom p1))); [tauto|].
      apply (covers_comp p2 (x0 (dom p2))); [now symmetry|tauto].
    - destruct Hor as [K|K]; apply at_covers in K; congruence. }
  destruct H as [[[L O]|[L O]]|F].
  - exfalso. apply Clash; auto. left. apply Qeqb_true in L.
    destruct (solid_singleton _ E1 L) as [I1 I2]. unfold covers, in_set. rewrite I1, I2. cbn.
    unfold length in L. lra.
  - exfalso. apply Clash; auto. right. apply Qeqb_true in L.
    destruct (solid_singleton _ E2 L) as [I1 I2]. unfold covers, in_set. rewrite I1, I2. cbn.
    unfold length in L. lra.
  - unfold function_equals in F. apply andb_true_iff in F. rewrite !Qeqb_true in F. exact F.
Qed.

Lemma same_fun_refl : forall p, same_fun p p.
Proof. intros p. split; reflexivity. Qed.
Lemma same_fun_sym : forall p q, same_fun p q -> same_fun q p.
Proof. intros p q [H1 H2]. split; now symmetry. Qed.
Lemma same_fun_trans : forall p q r, same_fun p q -> same_fun q r -> same_fun p r.
Proof. intros p q r [H1 H2] [H3 H4]. split; etransitivity; eauto. Qed.
Lemma same_fun_value : forall p q x, same_fun p q -> value p x == value q x.
Proof. intros p q x [H1 H2]. unfold value. now rewrite H1, H2. Qed.
Lemma same_fun_extend : forall p q, same_fun (extend_to p q) p.
Proof. intros p q. split; reflexivity. Qed.

(** ** Merging when the label determines the function *)
Section Labelled.
  (** every piece carries, for its label, a fixed function *)
  Variable fn : option nat -> affine.
  Definition tagged (p : affine) : Prop := same_fun p (fn (label p)).

  Lemma tagged_extend : forall p q, tagged p -> tagged (extend_to p q).
  Proof. intros p q [H1 H2]. split; auto. Qed.

  Lemma merge_labelled : forall rest self cur s' l',
    merge_from self cur rest = (s', l') ->
    (forall r, In r (cur :: rest) -> solid (deref self r) /\ tagged (deref self r)) ->
    (label s' = label self /\ slope s' = slope self /\ icpt s' = icpt self) /\
    (forall x, covers self x -> covers s' x) /\
    (forall x, covers s' x -> covers self x \/ exists r, In r (cur :: rest) /\
        covers (deref self r) x /\ label (deref self r) = label self /\ same_fun (deref self r) self) /\
    (forall r x, In r l' -> covers (deref s' r) x -> exists r0, In r0 (cur :: rest) /\
        covers (deref self r0) x /\ label (deref self r0) = label (deref s' r) /\
        same_fun (deref self r0) (deref s' r)) /\
    (forall r0 x, In r0 (cur :: rest) -> covers (deref self r0) x -> exists r, In r l' /\
        covers (deref s' r) x /\ label (deref s' r) = label (deref self r0) /\
        same_fun (deref s' r) (deref self r0)) /\
    (forall r, In r l' -> solid (deref s' r) /\ tagged (deref s' r)) /\
    (solid self -> solid s') /\
    (In RSelf l' -> In RSelf (cur :: rest)).
  Proof.
    induction rest as [|nxt rest IH]; intros self cur s' l' HM HG.
    - cbn in HM. inversion HM; subst. split; [auto|]. split; [auto|]. split; [auto|]. split; [|split; [|split; [auto|auto]]].
      + intros r x Hr Hx. exists r. split; auto. split; auto. split; auto. apply same_fun_refl.
      + intros r x Hr Hx. exists r. split; auto. split; auto. split; auto. apply same_fun_refl.
    - cbn [merge_from] in HM.
      destruct (pieces_match (deref self cur) (deref self nxt)) eqn:PM.
      + destruct (match_facts _ _ PM) as [HX [HI HL]].
        destruct (HG cur) as [SC TC]; [now left|]. destruct (HG nxt) as [SN TN]; [right; now left|].
        destruct (extend_ok _ _ SC SN HX HI) as [SE CE].
        assert (SF : same_fun (deref self cur) (deref self nxt)).
        { apply same_fun_trans with (fn (label (deref self cur))); auto.
          rewrite HL. now apply same_fun_sym. }
        destruct cur as [|p].
        * cbn [deref] in *. specialize (IH (extend_to self (deref self nxt)) RSelf s' l' HM).
          destruct IH as [[L1 [L2 L3]] [I1 [I2 [I3 [I4 [I5 [I7 I6]]]]]]].
          { intros r [<-|Hr]; [cbn [deref]; split; auto; now apply tagged_extend|].
            destruct r as [|q]; [cbn [deref]; split; auto; now apply tagged_extend|].
            apply (HG (ROwn q)). right. now right. }
          assert (Conv : forall r x, In r (RSelf :: rest) -> covers (deref (extend_to self (deref self nxt)) r) x ->
             exists r0, In r0 (RSelf :: nxt :: rest) /\ covers (deref self r0) x /\
               label (deref self r0) = label (deref (extend_to self (deref self nxt)) r) /\
               same_fun (deref self r0) (deref (extend_to self (deref self nxt)) r)).
          { intros r x Hr Hx. destruct r as [|q].
            - cbn [deref] in *. apply CE in Hx. destruct Hx as [Hx|Hx].
              + exists RSelf. split; [now left|]. cbn [deref]. split; auto. split; [reflexivity|].
                apply same_fun_sym, same_fun_extend.
              + exists nxt. split; [right; now left|]. split; auto. split; [cbn; now rewrite HL|].
                apply same_fun_trans with self; [now apply same_fun_sym|]. apply same_fun_sym, same_fun_extend.
            - destruct Hr as [Hr|Hr]; [discriminate|]. exists (ROwn q). split; [right; now right|].
              cbn [deref] in *. split; auto. split; auto. apply same_fun_refl. }
          split; [auto|]. split; [|split; [|split; [|split; [|split]]]].
          -- intros x Hx. apply I1. apply CE. now left.
          -- intros x Hx. apply I2 in Hx. destruct Hx as [Hx|[r [Hr [Hx [Hl Hf]]]]].
             ++ apply CE in Hx. destruct Hx as [Hx|Hx]; auto. right. exists nxt.
                split; [right; now left|]. split; auto. split; auto. now apply same_fun_sym.
             ++ destruct (Conv r x Hr Hx) as [r0 [H1 [H2 [H3 H4]]]]. right. exists r0.
                split; auto. split; auto. rewrite H3, Hl. split; [reflexivity|].
                eapply same_fun_trans; [exact H4|]. eapply same_fun_trans; [exact Hf|]. apply same_fun_extend.
          -- intros r x Hr Hx. destruct (I3 r x Hr Hx) as [r1 [H1 [H2 [H3 H4]]]].
             destruct (Conv r1 x H1 H2) as [r0 [K1 [K2 [K3 K4]]]]. exists r0. split; auto. split; auto.
             split; [congruence|]. eapply same_fun_trans; eauto.
          -- assert (A : forall x, covers (extend_to self (deref self nxt)) x ->
               exists r, In r l' /\ covers (deref s' r) x /\ label (deref s' r) = label self /\
                 same_fun (deref s' r) self).
             { intros x Hx. destruct (I4 RSelf x) as [r [K1 [K2 [K3 K4]]]]; [now left|exact Hx|].
               exists r. split; auto. }
             intros r0 x Hr Hx. destruct Hr as [<-|[<-|Hr]].
             ++ apply A. apply CE. now left.
             ++ destruct (A x) as [r [K1 [K2 [K3 K4]]]]; [apply CE; now right|].
                exists r. split; auto. split; auto. split; [congruence|].
                apply same_fun_trans with self; auto.
             ++ destruct r0 as [|q]; [apply A; apply CE; now left|].
                apply (I4 (ROwn q) x); auto. now right.
          -- auto.
          -- split; [auto|]. intros _. now left.
        * cbn [deref] in *. specialize (IH self (ROwn (extend_to p (deref self nxt))) s' l' HM).
          destruct IH as [L1 [I1 [I2 [I3 [I4 [I5 [I7 I6]]]]]]].
          { intros r [<-|Hr]; [cbn [deref]; split; auto; now apply tagged_extend|].
            apply HG. right. now right. }
          assert (Conv : forall r x, In r (ROwn (extend_to p (deref self nxt)) :: rest) -> covers (deref self r) x ->
             exists r0, In r0 (ROwn p :: nxt :: rest) /\ covers (deref self r0) x /\
               label (deref self r0) = label (deref self r) /\ same_fun (deref self r0) (deref self r)).
          { intros r x [<-|Hr] Hx.
            - cbn [deref] in *. apply CE in Hx. destruct Hx as [Hx|Hx].
              + exists (ROwn p). split; [now left|]. cbn [deref]. split; auto. split; [reflexivity|].
                apply same_fun_sym, same_fun_extend.
              + exists nxt. split; [right; now left|]. split; auto. split; [cbn; now rewrite HL|].
                apply same_fun_trans with p; [now apply same_fun_sym|]. apply same_fun_sym, same_fun_extend.
            - exists r. split; [right; now right|]. split; auto. split; auto. apply same_fun_refl. }
          split; [auto|]. split; [auto|split; [|split; [|split; [|split]]]].
          -- intros x Hx. apply I2 in Hx. destruct Hx as [Hx|[r [Hr [Hx [Hl Hf]]]]]; auto.
             destruct (Conv r x Hr Hx) as [r0 [H1 [H2 [H3 H4]]]]. right. exists r0.
             split; auto. split; auto. split; [congruence|]. eapply same_fun_trans; eauto.
          -- intros r x Hr Hx. destruct (I3 r x Hr Hx) as [r1 [H1 [H2 [H3 H4]]]].
             destruct (Conv r1 x H1 H2) as [r0 [K1 [K2 [K3 K4]]]]. exists r0. split; auto. split; auto.
             split; [congruence|]. eapply same_fun_trans; eauto.
          -- assert (A : forall x, covers (extend_to p (deref self nxt)) x ->
               exists r, In r l' /\ covers (deref s' r) x /\ label (deref s' r) = label p /\
                 same_fun (deref s' r) p).
             { intros x Hx. destruct (I4 (ROwn (extend_to p (deref self nxt))) x) as [r [K1 [K2 [K3 K4]]]]; [now left|exact Hx|].
               exists r. split; auto. }
             intros r0 x Hr Hx. destruct Hr as [<-|[<-|Hr]].
             ++ apply A. apply CE. now left.
             ++ destruct (A x) as [r [K1 [K2 [K3 K4]]]]; [apply CE; now right|].
                exists r. split; auto. split; auto. split; [congruence|].
                apply same_fun_trans with p; auto.
             ++ apply (I4 r0 x); auto. now right.
          -- auto.
          -- split; [auto|]. intros H. apply I6 in H. destruct H as [H|H]; [discriminate|]. right. now right.
      + destruct (merge_from self nxt rest) as [s1 l1] eqn:E. inversion HM; subst s' l'. clear HM.
        specialize (IH self nxt s1 l1 E).
        destruct IH as [[L1 [L2 L3]] [I1 [I2 [I3 [I4 [I5 [I7 I6]]]]]]].
        { intros r Hr. apply HG. now right. }
        destruct (HG cur) as [SC TC]; [now left|].
        split; [auto|]. split; [auto|split; [|split; [|split; [|split]]]].
        * intros x Hx. apply I2 in Hx. destruct Hx as [Hx|[r [Hr R]]]; auto.
          right. exists r. split; [now right|auto].
        * intros r x [<-|Hr] Hx.
          -- destruct cur as [|p].
             ++ cbn [deref] in *. apply I2 in Hx. destruct Hx as [Hx|[r [Hr [Hx [Hl Hf]]]]].
                ** exists RSelf. split; [now left|]. cbn [deref]. split; auto. split; auto.
                   split; [now rewrite L2|now rewrite L3].
                ** exists r. split; [now right|]. split; auto. split; [congruence|].
                   eapply same_fun_trans; [exact Hf|]. split; [now rewrite L2|now rewrite L3].
             ++ exists (ROwn p). split; [now left|]. split; auto. split; auto. apply same_fun_refl.
          -- destruct (I3 r x Hr Hx) as [r0 [H1 R]]. exists r0. split; [now right|auto].
        * intros r0 x [<-|Hr] Hx.
          -- exists cur. split; [now left|]. destruct cur as [|p]; cbn [deref] in *.
             ++ split; auto. split; auto. split; [now rewrite L2|now rewrite L3].
             ++ split; auto. split; auto. apply same_fun_refl.
          -- destruct (I4 r0 x Hr Hx) as [r [H1 R]]. exists r. split; [now right|auto].
        * intros r [<-|Hr]; [|now apply I5].
          destruct cur as [|p]; cbn [deref] in *; [|auto].
          split.
          -- auto.
          -- destruct TC as [T1 T2]. split; [now rewrite L1, L2|now rewrite L1, L3].
        * split; auto.
          intros [H|H]; [left; auto|right; apply I6; auto].
  Qed.
End Labelled.

(** ** Merging disjoint pieces in increasing order *)
Lemma merge_ordered : forall ps self p,
  Forall solid (p :: ps) -> ordered (p :: ps) ->
  exists out, merge_from self (ROwn p) (map ROwn ps) = (self, map ROwn out) /\
    Forall solid out /\ ordered out /\
    (forall q x, In q out -> covers q x -> exists p0, In p0 (p :: ps) /\ covers p0 x /\
       label p0 = label q /\ same_fun p0 q) /\
    (forall p0 x, In p0 (p :: ps) -> covers p0 x -> exists q, In q out /\ covers q x /\
       label q = label p0 /\ same_fun q p0).
Proof.
  induction ps as [|p' ps IH]; intros self p HS HO.
  - exists [p]. cbn. split; auto. split; auto. split; auto. split.
    + intros q x [<-|[]] Hx. exists p. split; auto. split; auto. split; auto. apply same_fun_refl.
    + intros q x [<-|[]] Hx. exists p. split; auto. split; auto. split; auto. apply same_fun_refl.
  - cbn [map merge_from deref].
    inversion HS as [|? ? S1 HS']; subst. inversion HS' as [|? ? S2 HS'']; subst.
    destruct HO as [O1 [O2 O3]].
    destruct (pieces_match p p') eqn:PM.
    + destruct (match_facts _ _ PM) as [HX [HI HL]].
      destruct (extend_ok _ _ S1 S2 HX HI) as [SE CE].
      assert (SF : same_fun p p').
      { apply match_disjoint; auto. intros x H1 H2. pose proof (O1 p' x x (or_introl eq_refl) H1 H2). lra. }
      destruct (IH self (extend_to p p')) as [out [E [A1 [A2 [A3 A4]]]]].
      { constructor; auto. }
      { split; auto. intros q x y Hq Hx Hy. apply CE in Hx. destruct Hx as [Hx|Hx].
        - apply (O1 q x y); auto. now right.
        - apply (O2 q x y); auto. }
      exists out. split; auto. split; auto. split; auto. split.
      * intros q x Hq Hx. destruct (A3 q x Hq Hx) as [p0 [[<-|H1] [H2 [H3 H4]]]].
        -- apply CE in H2. destruct H2 as [H2|H2].
           ++ exists p. split; [now left|]. auto.
           ++ exists p'. split; [right; now left|]. split; auto. split; [rewrite <- HL; auto|].
              apply same_fun_trans with p; [now apply same_fun_sym|auto].
        -- exists p0. split; [right; now right|]. auto.
      * intros p0 x [<-|[<-|Hp]] Hx.
        -- destruct (A4 (extend_to p p') x) as [q [H1 [H2 [H3 H4]]]]; [now left|apply CE; now left|].
           exists q. auto.
        -- destruct (A4 (extend_to p p') x) as [q [H1 [H2 [H3 H4]]]]; [now left|apply CE; now right|].
           exists q. split; auto. split; auto. split; [rewrite <- HL; auto|].
           apply same_fun_trans with p; auto.
        -- apply (A4 p0 x); auto. now right.
    + destruct (IH self p') as [out [E [A1 [A2 [A3 A4]]]]]; auto.
      { split; auto. }
      rewrite E. exists (p :: out). split; auto. split; [constructor; auto|]. split; [|split].
      * split; auto. intros q x y Hq Hx Hy. destruct (A3 q y Hq Hy) as [p0 [H1 [H2 _]]].
        apply (O1 p0 x y); auto.
      * intros q x [<-|Hq] Hx.
        -- exists p. split; [now left|]. split; auto. split; auto. apply same_fun_refl.
        -- destruct (A3 q x Hq Hx) as [p0 [H1 R]]. exists p0. split; [now right|auto].
      * intros p0 x [<-|Hp] Hx.
        -- exists p. split; [now left|]. split; auto. split; auto. apply same_fun_refl.
        -- destruct (A4 p0 x Hp Hx) as [q [H1 R]]. exists q. split; [now right|auto].
Qed.

(** ** The two main results about [compare_with] *)
Section Main.
  Variable cmp : Q -> Q -> bool.
  Variable s : Q.
  Hypothesis cmp_spec : forall x y, cmp x y = Qltb (s * x) (s * y).
  Variable self : affine.
  Variable f2 : list affine.
  Variable domain : option interval.
  Hypothesis in_wf : Forall (fun g => wf (dom g)) (self :: f2).
  Hypothesis dom_wf : match domain with None => True | Some d => wf d end.

  Lemma compare_labelled :
    (forall g h, In g (self :: f2) -> In h (self :: f2) -> label g = label h -> same_fun g h) ->
    exists s' refs, compare_with_refs cmp self f2 domain = Ret (s', refs) /\
      (forall r, In r refs -> solid (deref s' r)) /\
      (label s' = label self) /\
      (forall r x, In r refs -> covers (deref s' r) x ->
         exists g, In g (self :: f2) /\ covers g x /\ label g = label (deref s' r) /\ same_fun g (deref s' r)) /\
      (forall x, in_domain domain x -> (exists g, In g (self :: f2) /\ covers g x) ->
         exists r, In r refs /\ covers (deref s' r) x /\
           forall h, In h (self :: f2) -> covers h x -> s * value (deref s' r) x <= s * value h x) /\
      (In RSelf refs -> exists x, in_domain domain x /\ covers self x /\ forall g, In g f2 -> ~ covers g x).
  Proof.
    intros HL.
    destruct (raw_all cmp s cmp_spec self f2 domain in_wf dom_wf) as [raw [E [H1 [H2 _]]]].
    unfold compare_with_refs. rewrite E. cbn [bind].
    set (fn := fun o => match find (fun g => label_eqb (label g) o) (self :: f2) with
                        | Some g => g | None => self end).
    assert (LE : forall a b, label_eqb a b = true <-> a = b).
    { intros [a|] [b|]; cbn; split; intros; try discriminate; auto.
      - apply Nat.eqb_eq in H. now subst.
      - inversion H. apply Nat.eqb_refl. }
    assert (TG : forall g, In g (self :: f2) -> same_fun g (fn (label g))).
    { intros g Hg. unfold fn. destruct (find _ _) as [h|] eqn:F.
      - apply find_some in F. destruct F as [F1 F2]. apply LE in F2. apply HL; auto.
      - exfalso. apply (find_none _ _ F) in Hg. assert (label_eqb (label g) (label g) = true) by now apply LE.
        congruence. }
    assert (Self : In RSelf raw -> solid self).
    { intros Hr. destruct (H1 RSelf Hr) as [x [_ [Hx _]]].
      assert (W : wf (dom self)) by (inversion in_wf; auto).
      split; auto. destruct (is_empty (dom self)) eqn:Em; auto.
      exfalso. apply (proj1 (is_empty_iff _ W) Em x). exact Hx. }
    assert (Good : forall r, In r raw -> solid (deref self r) /\ tagged fn (deref self r)).
    { intros r Hr. destruct r as [|p].
      - split; [now apply Self|]. apply TG. now left.
      - destruct (H1 _ Hr) as [W [Em [g [Hg [Hl [Hs [Hc _]]]]]]]. split; [split; auto|].
        unfold tagged. cbn [deref]. rewrite Hl. eapply same_fun_trans; [|apply (TG g Hg)].
        split; [now rewrite Hs|now rewrite Hc]. }
    destruct raw as [|c rest].
    - exists self, []. cbn. split; auto. split; [intros ? []|]. split; auto. split; [intros ? ? []|]. split; [|intros []].
      intros x Dx Hx. destruct (H2 x Dx Hx) as [r [[] _]].
    - unfold merge_pieces. destruct (merge_from self c rest) as [s' refs] eqn:M.
      destruct (merge_labelled fn rest self c s' refs M Good) as [[L1 [L2 L3]] [I1 [I2 [I3 [I4 [I5 [I7 I6]]]]]]].
      exists s', refs. split; auto. split; [intros r Hr; now apply I5|]. split; auto. split; [|split].
      + intros r x Hr Hx. destruct (I3 r x Hr Hx) as [r0 [K1 [K2 [K3 K4]]]].
        destruct r0 as [|p].
        * exists self. split; [now left|]. auto.
        * destruct (H1 _ K1) as [W [Em [g [Hg [Hl [Hs [Hc Hcov]]]]]]]. cbn [deref] in *.
          exists g. split; auto. split; [now apply Hcov|]. split; [congruence|].
          eapply same_fun_trans; [|exact K4]. split; [now rewrite Hs|now rewrite Hc].
      + intros x Dx Hx. destruct (H2 x Dx Hx) as [r0 [K1 [K2 K3]]].
        destruct (I4 r0 x K1 K2) as [r [J1 [J2 [J3 J4]]]]. exists r. split; auto. split; auto.
        intros h Hh Hhx. rewrite (same_fun_value _ _ x J4). apply K3; auto.
      + intros Hr. apply I6 in Hr. apply (H1 RSelf Hr).
  Qed.

  Lemma compare_covered :
    (forall x, in_domain domain x -> covers self x -> exists g, In g f2 /\ covers g x) ->
    exists out, compare_with_refs cmp self f2 domain = Ret (self, map ROwn out) /\
      Forall solid out /\ ordered out /\
      (forall x, (exists p, In p out /\ covers p x) <->
                 in_domain domain x /\ exists g, In g (self :: f2) /\ covers g x) /\
      (forall p x, In p out -> covers p x ->
         (exists g, In g (self :: f2) /\ covers g x /\ label g = label p /\ same_fun g p) /\
         (forall h, In h (self :: f2) -> covers h x -> s * value p x <= s * value h x)).
  Proof.
    intros HC.
    destruct (raw_all cmp s cmp_spec self f2 domain in_wf dom_wf) as [raw [E [H1 [H2 H3]]]].
    unfold compare_with_refs. rewrite E. cbn [bind].
    assert (NS : no_self raw).
    { intros Hr. destruct (H1 RSelf Hr) as [x [D [Hx N]]]. destruct (HC x D Hx) as [g [Hg Hgx]].
      exact (N g Hg Hgx). }
    assert (exists ps, raw = map ROwn ps) as [ps Eps].
    { clear - NS. induction raw as [|r raw IH]; [exists []; auto|].
      destruct IH as [ps ->]; [intros H; apply NS; now right|].
      destruct r as [|p]; [exfalso; apply NS; now left|]. exists (p :: ps). reflexivity. }
    specialize (H3 NS). rewrite Eps in *.
    assert (Emap : map (deref self) (map ROwn ps) = ps) by (rewrite map_map; cbn; apply map_id).
    rewrite Emap in H3.
    assert (HP : forall p, In p ps -> own_props s self f2 domain p).
    { intros p Hp. apply (H1 (ROwn p)). now apply in_map. }
    destruct ps as [|p ps].
    - exists []. cbn. split; auto. split; auto. split; auto. split.
      + intros x. split; [intros [p [[] _]]|]. intros [D Hg]. destruct (H2 x D Hg) as [r [[] _]].
      + intros ? ? [].
    - destruct (merge_ordered ps self p) as [out [M [A1 [A2 [A3 A4]]]]]; auto.
      { apply Forall_forall. intros q Hq. destruct (HP q Hq) as [W [Em _]]. split; auto. }
      exists out. change (map ROwn (p :: ps)) with (ROwn p :: map ROwn ps) in *. cbn [merge_pieces]. rewrite M. split; auto. split; auto. split; auto. split.
      + intros x. split.
        * intros [q [Hq Hx]]. destruct (A3 q x Hq Hx) as [p0 [K1 [K2 _]]].
          destruct (HP p0 K1) as [_ [_ [g [Hg [_ [_ [_ R]]]]]]]. destruct (R x K2) as [R1 [R2 _]].
          split; auto. exists g; auto.
        * intros [D Hg]. destruct (H2 x D Hg) as [r [Hr [Hx _]]].
          change (ROwn p :: map ROwn ps) with (map ROwn (p :: ps)) in Hr.
          apply in_map_iff in Hr. destruct Hr as [p0 [<- Hp0]]. cbn [deref] in Hx.
          destruct (A4 p0 x Hp0 Hx) as [q [K1 [K2 _]]]. exists q; auto.
      + intros q x Hq Hx. destruct (A3 q x Hq Hx) as [p0 [K1 [K2 [K3 K4]]]].
        destruct (HP p0 K1) as [_ [_ [g [Hg [Hl [Hs [Hc R]]]]]]]. destruct (R x K2) as [R1 [R2 R3]].
        split.
        * exists g. split; auto. split; auto. split; [congruence|].
          eapply same_fun_trans; [|exact K4]. split; [now rewrite Hs|now rewrite Hc].
        * intros h Hh Hhx. rewrite <- (same_fun_value _ _ x K4). apply R3; auto.
  Qed.
End Main.

Lemma lt_cmp_spec : forall x y, lt_cmp x y = Qltb (1 * x) (1 * y).
Proof. intros. unfold lt_cmp. now rewrite !Qmult_1_l. Qed.
Lemma gt_cmp_spec : forall x y, gt_cmp x y = Qltb (-(1) * x) (-(1) * y).
Proof. intros. unfold gt_cmp. destruct (Qltb_spec y x), (Qltb_spec (-(1) * x) (-(1) * y)); auto; exfalso; lra. Qed.
