(** The derivations of single exponent pairs: known pairs, and the literature. *)
From Verif Require Import Base Model_Text Model_Reference Spec_Reference Proof_Reference
  Model_Interval Spec_Interval Model_Affine Spec_Affine Proof_Interval Proof_Affine Proof_AffineMerge
  Model_BoundBeta Proof_BoundBeta Proof_BestShared Model_Polytope Proof_Region
  Model_Hull Spec_Hull Proof_Hull Model_ExponentPair Spec_ExponentPair Proof_ExponentPair Proof_ExpSearch Proof_ExpLit Proof_ExpDual
  Spec_ExpProof Proof_ExpProof Proof_BoundMu Model_ZetaLargeValues Model_IntervalText Model_LiteratureBeta Spec_LiteratureBeta Prop_LiteratureBeta
  Model_LiteraturePairs Spec_LiteraturePairs Prop_LiteraturePairs Model_Derived Spec_Derived Proof_Derived Proof_Derived2.
Open Scope list_scope.
Local Open Scope Q_scope.
Import Lqa.

Lemma ordered_first : forall q qs x, ordered (q :: qs) -> (forall p y, In p (q :: qs) -> covers p y -> x <= y) -> (exists y, covers q y) ->
  (exists p, In p (q :: qs) /\ covers p x) -> covers q x.
Proof.
  intros q qs x [O _] L (y & Hy) (p & [<-|I] & Hp); [auto|]. exfalso. specialize (O p y x I Hy Hp). specialize (L q y (or_introl eq_refl) Hy). lra.
Qed.
Lemma ordered_last : forall qs q0 x, qs <> [] -> ordered qs -> (forall p y, In p qs -> covers p y -> y <= x) -> (forall p, In p qs -> exists y, covers p y) ->
  (exists p, In p qs /\ covers p x) -> covers (last qs q0) x.
Proof.
  induction qs as [|q qs IH]; intros q0 x N O L Ne (p & I & Hp); [congruence|]. destruct qs as [|q1 qs].
  - destruct I as [<-|[]]. exact Hp.
  - destruct O as [O1 O2]. change (last (q :: q1 :: qs) q0) with (last (q1 :: qs) q0). apply IH; [discriminate|exact O2|intros p0 y0 I0 C0; apply (L p0 y0); [now right|auto]|intros p0 I0; apply Ne; now right|].
    destruct I as [<-|I]; [|eauto]. exfalso. destruct (Ne q1 ltac:(right; now left)) as [y Hy]. specialize (O1 q1 x y (or_introl eq_refl) Hp Hy).
    specialize (L q1 y ltac:(right; now left) Hy). lra.
Qed.

Lemma Forall2_last : forall A B (R : A -> B -> Prop) l m a b, Forall2 R l m -> l <> [] -> R (last l a) (last m b).
Proof.
  intros A B R l m a b F. induction F as [|x y l m H F IH]; intros N; [congruence|].
  destruct F as [|x' y' l m H' F]; [exact H|]. change (R (last (x' :: l) a) (last (y' :: m) b)). apply IH. discriminate.
Qed.

Lemma good_ends : forall S ks ls bb, good_bounds S ks ls -> best_beta_nodes S = Ret bb ->
  exists b0 tl, bb = b0 :: tl /\ x0 (dom (bound_of b0)) <= 0 /\ 1#2 <= x1 (dom (bound_of (last bb b0))).
Proof.
  intros S ks ls bb G H. destruct (good_best S ks ls bb G H) as [B Cv].
  destruct G as [G1 G2 G3 (k0 & l0 & Z0 & O0 & L0) (k2 & l2 & P2 & L2) G6].
  assert (Wf : Forall (fun h => is_beta h = true -> wf (dom (bound_of h))) S).
  { apply Forall_forall. intros h I P. apply (G1 h); [auto|]. now apply is_beta_data. }
  assert (Wb : Forall (fun b => wf (dom b)) (map bound_of (filter is_beta S))).
  { apply Forall_forall. intros b I. apply bounds_in in I as (h & I & D). eauto. }
  set (bounds := map bound_of (filter is_beta S)) in *.
  destruct (best_nodes S bb Wf H) as (out & E & F). fold bounds in E, F.
  destruct (line_nth _ _ _ L0) as [i0 N0]. destruct (line_nth _ _ _ L2) as [i2 N2]. fold bounds in N0, N2.
  assert (Ne : i0 <> i2). { intros ->. rewrite N0 in N2. apply (f_equal (fun o => match o with Some b => icpt b | None => 0 end)) in N2. cbn in N2. rewrite N2 in Z0. lra. }
  assert (Wd : wf (mkI 0 (1#2) true true)) by (unfold wf; cbn; lra).
  destruct (best_shared bounds None Wb Wd) as (out' & qs & E' & P & (M1 & M2 & Od)).
  { assert (i0 < List.length bounds)%nat by (apply nth_error_Some; congruence).
    assert (i2 < List.length bounds)%nat by (apply nth_error_Some; congruence). lia. }
  { intros i b x Hi [D0 D1] Hb. cbn in D0, D1. destruct (Nat.eq_dec i i0) as [->|N].
    - exists i2, (mkA (l2 - k2) k2 half_interval None). split; [auto|]. split; [auto|]. now apply half_covers.
    - exists i0, (mkA (l0 - k0) k0 half_interval None). split; [auto|]. split; [auto|]. now apply half_covers. }
  rewrite E in E'. injection E' as <-.
  assert (R : Forall2 (fun q h => forall x, covers (bound_of h) x <-> covers q x) qs bb).
  { clear - F P. revert qs P. induction F as [|o h out bb (P1 & P2 & _) F IH]; intros qs P; inversion P as [|? q ? qs' (p & Ep & Hp) P']; subst; constructor; auto.
    intro x. rewrite P2 in Ep. injection Ep as <-. apply Hp. }
  assert (Cq : forall a, 0 <= a -> a <= (1#2) -> exists q, In q qs /\ covers q a).
  { intros a A0 A1. destruct (Cv a A0 A1) as (h & Ih & Ch). destruct (Forall2_in_r _ _ _ _ _ _ R Ih) as (q & Iq & Hq). exists q. split; [auto|]. now apply Hq. }
  assert (Bd : forall p y, In p qs -> covers p y -> 0 <= y /\ y <= (1#2)).
  { intros p y Ip Hy. destruct (M1 p Ip) as [_ X]. destruct (X y Hy) as [[Y0 Y1] _]. cbn in Y0, Y1. auto. }
  assert (Pt : forall p, In p qs -> exists y, covers p y) by (intros p Ip; apply Proof_BoundBeta.solid_point; now apply M1).
  destruct R as [|q h qs bb Rh R]; [destruct (Cq 0 ltac:(lra) ltac:(lra)) as (? & [] & _)|].
  exists h, bb. split; [auto|]. split.
  - assert (C0 : covers q 0).
    { apply (ordered_first q qs); auto. - intros p y Ip Hy. now apply (Bd p y). - apply Pt. now left. - apply Cq; lra. }
    apply Rh in C0. destruct C0 as [C0 _]. unfold respects_lower in C0. destruct (incl_lo (dom (bound_of h))); lra.
  - assert (C1 : covers (last (q :: qs) q) (1#2)).
    { apply ordered_last; [discriminate|auto|intros p y Ip Hy; now apply (Bd p y)|auto|apply Cq; lra]. }
    assert (X : forall x, covers (bound_of (last (h :: bb) h)) x <-> covers (last (q :: qs) q) x).
    { apply (Forall2_last _ _ (fun q h => forall x, covers (bound_of h) x <-> covers q x) (q :: qs) (h :: bb) q h); [constructor; auto|discriminate]. }
    apply X in C1. destruct C1 as [_ C1]. unfold respects_upper in C1. destruct (incl_hi (dom (bound_of (last (h :: bb) h)))); lra.
Qed.

Section Known.
Context (rc : reference) (ch : hull_routine) (Hch : hull_spec ch).
Notation tr := (lit_trans rc).
Context (btr : nat -> hnode -> res (list hnode)) (ord : list hnode -> list hnode) (Ho : traversal ord).

Lemma prove_known : forall hs k l r g, ready hs -> In g hs -> is_pair g = true -> pt_eq (key_of g) (k, l) ->
  prove_exponent_pair_with_hypotheses ch tr btr ord hs k l = Ret r -> exists h, r = Some h.
Proof.
  intros hs k l r g R Ig Pg Kg H. destruct (prove_inv rc ch btr ord hs k l _ H) as (new & bs & bb & out & E1 & E2 & E3 & E4 & F).
  destruct (ready_good rc ch Hch btr ord Ho hs new bs R E1 E2) as (ks & ls & G).
  assert (G3 : good_bounds (ord (ord (ord (hs ++ new) ++ bs) ++ bb)) ks ls).
  { apply (good_extend _ _ ks ls bb G E3). intro x. rewrite (Ho (ord (ord (hs ++ new) ++ bs) ++ bb) x). apply in_app_iff. }
  assert (I3 : In g (ord (ord (ord (hs ++ new) ++ bs) ++ bb))).
  { apply (Ho (ord (ord (hs ++ new) ++ bs) ++ bb) g), in_app_iff. left. apply (Ho (ord (hs ++ new) ++ bs) g), in_app_iff. left. apply (Ho (hs ++ new) g), in_app_iff. auto. }
  unfold beta_bounds_to_exponent_pairs in E4. destruct (best_beta_nodes (ord (ord (ord (hs ++ new) ++ bs) ++ bb))) as [bb'|] eqn:Eb; [|discriminate]. cbn [bind] in E4.
  destruct (good_ends _ ks ls bb' G3 Eb) as (b0 & tl & -> & X0 & X1).
  assert (Z0 : Qltb 0 (x0 (dom (bound_of b0))) = false) by (apply Qltb_false; exact X0).
  assert (Z1 : Qltb (x1 (dom (bound_of (last (b0 :: tl) b0)))) (1#2) = false) by (apply Qltb_false; exact X1).
  rewrite Z0, Z1 in E4. cbn [orb] in E4. destruct (ch (beta_points (b0 :: tl))) as [vs|]; [|discriminate]. cbn [bind] in E4.
  match type of E4 with (let! _ := ?m in _) = _ => destruct m as [nw|]; [|discriminate] end. cbn [bind] in E4. injection E4 as <-.
  destruct r as [h|]; [eauto|]. exfalso. symmetry in F. apply (find_none _ _) with (x := g) in F.
  - apply pt_eqb_true in Kg. congruence.
  - apply in_app_iff. left. apply filter_In. auto.
Qed.
End Known.

(** ** The literature *)
Lemma Interval_wf : forall a b il iu d, Interval a b il iu = Ret d -> wf d.
Proof. intros a b il iu d H. unfold Interval in H. destruct (Qltb 0 (a - b)) eqn:E; [discriminate|]. injection H as <-. apply Qltb_false in E. unfold wf. cbn. lra. Qed.
Lemma parse_wf : forall s i, interval_parse s = Ret i -> wf i.
Proof.
  intros s i H. unfold interval_parse in H.
  match type of H with (let! _ := ?m in _) = _ => destruct m as [a|]; [|discriminate] end. cbn [bind] in H.
  match type of H with (let! _ := ?m in _) = _ => destruct m as [b|]; [|discriminate] end. cbn [bind] in H.
  destruct s as [|c s]; [discriminate|]. unfold Interval in H. destruct (Qltb 0 (a - b)) eqn:E; [discriminate|]. injection H as <-.
  apply Qltb_false in E. unfold wf. cbn. lra.
Qed.
Lemma line_wf : forall m c t b, line m c t = Ret b -> wf (dom b).
Proof. intros m c t b H. unfold line in H. destruct (interval_parse (s_of t)) as [d|] eqn:E; [|discriminate]. cbn [bind] in H. injection H as <-. cbn. eapply parse_wf; eauto. Qed.

Definition sound_turn (r : res (list hnode)) : Prop := forall hs, r = Ret hs -> wf_bounds hs.
Lemma turns_wf : forall rs, Forall sound_turn rs -> sound_turn (in_turn rs).
Proof.
  intros rs F. induction F as [|r rs H F IH]; intros hs E; cbn [in_turn] in E; [injection E as <-; constructor|].
  destruct r as [h1|]; [|discriminate]. cbn [bind] in E. destruct (in_turn rs) as [h2|]; [|discriminate]. cbn [bind] in E. injection E as <-.
  apply Forall_app. split; [now apply H|now apply IH].
Qed.
Lemma add_wf : forall bs r hs, Forall (fun b => wf (dom b)) bs -> add_beta_bound bs r = Ret hs -> wf_bounds hs.
Proof.
  intros bs r hs W H. unfold add_beta_bound in H. apply mapM_Forall2 in H. apply Forall_forall. intros h I _.
  destruct (Forall2_in_r _ _ _ _ _ _ H I) as (b & Ib & Eb).
  destruct (dict_get (r_entries r) key_author); [|discriminate]. cbn [bind] in Eb. destruct (dict_get (r_entries r) key_year); [|discriminate]. cbn [bind] in Eb. injection Eb as <-.
  cbn. rewrite Forall_forall in W. auto.
Qed.

Section LitWf.
Context (get : str -> reference).
Lemma list_wf : forall ls key, Forall (fun r => forall b, r = Ret b -> wf (dom b)) ls -> sound_turn (add_list get ls key).
Proof.
  intros ls key F hs H. unfold add_list in H. destruct (mapM (fun l => l) ls) as [bs|] eqn:E; [|discriminate]. cbn [bind] in H.
  apply (add_wf bs (get (s_of key)) hs); [|exact H]. apply mapM_Forall2 in E. apply Forall_forall. intros b I. destruct (Forall2_in_r _ _ _ _ _ _ E I) as (r & Ir & Er).
  rewrite Forall_forall in F. exact (F r Ir b Er).
Qed.
Lemma max_wf : forall d f gs key, wf d -> gs <> [] -> Forall (fun r => forall b, r = Ret b -> dom b = d) (f :: gs) -> sound_turn (add_max get f gs key).
Proof.
  intros d f gs key Wd N F hs H. unfold add_max in H. destruct f as [f|]; [|discriminate]. cbn [bind] in H.
  destruct (mapM (fun l => l) gs) as [bs|] eqn:E; [|discriminate]. cbn [bind] in H. inversion F as [|? ? Ff Fg]; subst. specialize (Ff f eq_refl).
  apply mapM_Forall2 in E.
  assert (Db : Forall (fun b => dom b = d) bs).
  { apply Forall_forall. intros b I. destruct (Forall2_in_r _ _ _ _ _ _ E I) as (r & Ir & Er). rewrite Forall_forall in Fg. exact (Fg r Ir b Er). }
  destruct (compare_covered gt_cmp (-(1)) gt_cmp_spec f bs None) as (out & Eo & So & _).
  { constructor; [rewrite Ff; exact Wd|]. revert Db. apply Forall_impl. intros b ->. exact Wd. }
  { exact Logic.I. }
  { intros x _ C. destruct E as [|r b gs bs Eb E]; [congruence|]. inversion Db; subst. exists b. split; [now left|]. unfold covers in *. congruence. }
  unfold max_with, compare_with in H. rewrite Eo in H. cbn [bind] in H. apply (add_wf _ _ hs) in H; auto.
  unfold deref_all. cbn [fst snd]. rewrite map_map. cbn [deref]. rewrite map_id. revert So. apply Forall_impl. intros q [Wq _]. exact Wq.
Qed.
Lemma max_lines_wf : forall t m c l key, l <> [] -> Forall (fun r => exists m c, r = line m c t) l -> sound_turn (add_max get (line m c t) l key).
Proof.
  intros t m c l key N F. destruct (interval_parse (s_of t)) as [d|e] eqn:E.
  - apply (max_wf d); [eapply parse_wf; eauto|auto|]. constructor.
    + intros b H. unfold line in H. rewrite E in H. cbn [bind] in H. now injection H as <-.
    + revert F. apply Forall_impl. intros r (m' & c' & ->) b H. unfold line in H. rewrite E in H. cbn [bind] in H. now injection H as <-.
  - intros hs H. unfold add_max, line in H. rewrite E in H. discriminate.
Qed.
Ltac many := repeat (apply Forall_cons; [|]); try apply Forall_nil.
Ltac ls := apply list_wf; repeat (apply Forall_cons; [intros b; apply line_wf|]); apply Forall_nil.
Ltac mx := apply max_lines_wf; [discriminate|repeat (apply Forall_cons; [eexists _, _; reflexivity|]); apply Forall_nil].
Lemma table_wf : forall Kr Kh hs, add_beta_bounds get Kr Kh = Ret hs -> wf_bounds hs.
Proof.
  intros Kr Kh. change (sound_turn (add_beta_bounds get Kr Kh)). unfold add_beta_bounds. apply turns_wf.
  repeat (apply Forall_cons); [..|apply Forall_nil].
  - unfold add_beta_bound_watt_1989; ls.
  - unfold add_beta_bound_huxley_kolesnik_1991; mx.
  - unfold add_beta_bound_huxley_1993. apply turns_wf. repeat (apply Forall_cons); [mx|ls|apply Forall_nil].
  - unfold add_beta_bound_huxley_1993_3; ls.
  - unfold add_beta_bound_huxley_1996; ls.
  - unfold add_beta_bound_sargos_1995. apply turns_wf. repeat (apply Forall_cons); [mx|mx|apply Forall_nil].
  - unfold add_beta_bound_huxley_1996_2; ls.
  - unfold add_beta_bound_huxley_kolesnik_2001; mx.
  - unfold add_beta_bound_robert_sargos_2002; mx.
  - unfold add_beta_bound_sargos_2003. apply turns_wf. repeat (apply Forall_cons); [mx|mx|apply Forall_nil].
  - unfold add_beta_bound_huxley_2005; mx.
  - unfold add_beta_bound_robert_2016; mx.
  - unfold add_beta_bound_robert_2016_2. apply turns_wf. apply Forall_map, Forall_forall. intros k _. cbv zeta.
    destruct (Interval 0 (inject_Z (k - 1) / inject_Z (k * (k - 1) - (2 * k - 3))) true true) as [d|e] eqn:E; [|intros hs H; discriminate].
    cbn [bind]. apply (max_wf d); [|discriminate|].
    + eapply Interval_wf; eauto.
    + repeat (apply Forall_cons; [intros b H; now injection H as <-|]). apply Forall_nil.
  - unfold add_beta_bound_heath_brown_2017. apply turns_wf. apply Forall_map, Forall_forall. intros k _. mx.
  - unfold add_beta_bound_bourgain_2017; ls.
  - unfold add_beta_bound_trudgian_yang_2024; ls.
Qed.
End LitWf.

(** No row is negative, and at 1/2 none is below 17/42. *)
Definition row_safe (r : row) : Prop := forall a, in_set (w_dom r) a -> 0 <= a -> a <= 1#2 -> 0 <= w_val r a /\ (a == (1#2) -> 17#42 <= w_val r a).
Lemma qmax_l : forall c x y, c <= x -> c <= qmax x y.
Proof. intros c x y H. destruct (qmax_spec x y) as (A & _ & _). lra. Qed.
Lemma qmax_r : forall c x y, c <= y -> c <= qmax x y.
Proof. intros c x y H. destruct (qmax_spec x y) as (_ & A & _). lra. Qed.

Ltac lin := unfold fn, quot, Qdiv, inject_Z; cbn [Qinv Qnum Qden]; lra.
Ltac safe1 := match goal with
  | |- _ <= qmax _ _ => first [apply qmax_l; solve [safe1] | apply qmax_r; solve [safe1]]
  | |- _ => lin end.
Ltac a_safe := let a := fresh "a" in let D := fresh "D" in let L := fresh "L" in let U := fresh "U" in
  intros a D L U; cbn [w_val w_dom] in *; destruct D as [? ?]; cbn in *;
  unfold huxley_kolesnik_1991, huxley_1993_max, sargos_1995_first, sargos_1995_second, huxley_kolesnik_2001, robert_sargos_2002, sargos_2003_first, sargos_2003_second, huxley_2005, robert_2016;
  (split; [safe1|intros ?; safe1]).

Lemma rows_safe : forall Kr Kh, Forall row_safe (rows Kr Kh).
Proof.
  intros Kr Kh. unfold rows. apply Forall_concat_of. unfold theorems.
  repeat match goal with |- Forall (Forall _) _ => first [apply Forall_nil|apply Forall_cons] end;
    try (match goal with |- Forall _ (_ :: _) => idtac end; repeat (apply Forall_cons; [a_safe|]); apply Forall_nil).
  - apply Forall_map, Forall_forall. intros k I. apply zrange_in in I. intros a _ A0 A1. cbn [w_val robert_row]. unfold robert_2016_k. cbv zeta.
    set (d := inject_Z (2 * (k - 1) * (k - 2))). assert (D : 12 <= d) by (unfold d; change 12 with (inject_Z 12); rewrite <- Zle_Qle; nia).
    assert (L : - (a / d) <= qmax ((1 - inject_Z k * a) / d) (- (a / d))) by (apply qmax_r; lra).
    assert (X : a / d <= a / 12). { apply Qle_shift_div_l; [lra|]. setoid_replace (a / d * 12) with (a * 12 / d) by (field; lra). apply Qle_shift_div_r; [lra|]. nra. }
    unfold Qdiv in X at 2. change (/ 12) with (1#12) in X. split; [lra|intros E; lra].
  - apply Forall_map, Forall_forall. intros k I. apply zrange_in in I. intros a _ A0 A1. cbn [w_val heath_brown_row]. unfold heath_brown_2017. cbv zeta.
    set (d := inject_Z (k * (k - 1))). assert (D : 6 <= d) by (unfold d; change 6 with (inject_Z 6); rewrite <- Zle_Qle; nia).
    assert (L : - (a / d) <= qmax ((1 - inject_Z k * a) / d) (qmax (- (a / d)) (- (2 * a / d) - 2 * (1 - inject_Z k * a) / inject_Z (k * k * (k - 1))))) by (apply qmax_r, qmax_l; lra).
    assert (X : a / d <= a / 6). { apply Qle_shift_div_l; [lra|]. setoid_replace (a / d * 6) with (a * 6 / d) by (field; lra). apply Qle_shift_div_r; [lra|]. nra. }
    unfold Qdiv in X at 2. change (/ 6) with (1#6) in X. split; [lra|intros E; lra].
Qed.

Lemma table_safe : forall get Kr Kh hs h b a, (forall k, citable (get k)) -> add_beta_bounds get Kr Kh = Ret hs -> In h hs -> n_data h = DBeta b ->
  covers b a -> 0 <= a -> a <= 1#2 -> 0 <= value b a /\ (a == (1#2) -> 17#42 <= value b a).
Proof.
  intros get Kr Kh hs h b a C E I D Cb A0 A1. destruct (beta_table_recorded get Kr Kh C) as (gs & E' & F). rewrite E in E'. injection E' as ->.
  apply in_concat in I as (g & Ig & Ih). destruct (Forall2_in_l _ _ _ _ _ _ F Ig) as (r & Ir & (_ & R2 & R3)).
  pose proof (rows_safe Kr Kh) as S. rewrite Forall_forall in S. destruct (S r Ir a) as [S1 S2]; auto.
  - apply R2. eauto.
  - rewrite (R3 h b a Ih D Cb). auto.
Qed.

Lemma literature_ready : forall get Kr Kh M rc bs ps lit, (forall k, citable (get k)) -> add_beta_bounds get Kr Kh = Ret bs -> add_exponent_pairs get M = Ret ps ->
  (forall h, In h lit -> is_beta h = true -> In h bs) -> (forall h, In h lit -> is_pair h = true -> In h ps) -> incl ps lit ->
  (forall h, In h lit -> is_trans h = true -> h = A_hyp \/ h = B_hyp \/ h = C_hyp rc) ->
  forall ord, traversal ord -> ready (ord (collect ord lit)) /\ own_trans rc (ord (collect ord lit)) /\ wf_bounds (ord (collect ord lit)).
Proof.
  intros get Kr Kh M rc bs ps lit C Eb Ep Hb Hp Ip Ht ord Ho.
  assert (Mem : forall h, In h (ord (collect ord lit)) <-> h = trivial_exp_pair \/ (In h lit /\ (is_beta h = true \/ is_pair h = true \/ is_trans h = true))).
  { intro h. rewrite (Ho (collect ord lit) h). unfold collect. rewrite (Ho (trivial_exp_pair :: filter is_beta lit ++ filter is_pair lit ++ filter is_trans lit) h).
    cbn [In]. rewrite !in_app_iff, !filter_In. split; [intros [<-|[X|[X|X]]]; tauto|intros [->|X]; tauto]. }
  destruct (pairs_recorded get M) as (ps' & Ep' & Fp). rewrite Ep in Ep'. injection Ep' as <-.
  assert (Best : exists g k l, In g (ord (collect ord lit)) /\ n_data g = DPair k l /\ k == (13#84) /\ l == (55#84)).
  { assert (J : In ("bourgain_decoupling_2017"%string, symmetric (13#84)) (pair_rows M)) by (unfold pair_rows; apply in_app_iff; left; do 5 right; now left).
    destruct (Forall2_in_r _ _ _ _ _ _ Fp J) as (g & Ig & (_ & _ & _ & k & l & D & K & L)). cbn in K, L. exists g, k, l. split.
    - apply Mem. right. split; [auto|]. right. left. unfold is_pair. now rewrite D.
    - split; [auto|]. split; [auto|]. rewrite L. reflexivity. }
  assert (Wf : wf_bounds (ord (collect ord lit))).
  { apply Forall_forall. intros h I P. apply Mem in I as [->|[I _]]; [discriminate|]. pose proof (table_wf get Kr Kh bs Eb) as W. unfold wf_bounds in W. rewrite Forall_forall in W. auto. }
  assert (Own : own_trans rc (ord (collect ord lit))).
  { intros t I P. apply Mem in I as [->|[I _]]; [discriminate|auto]. }
  split; [|split; auto]. split.
  - intros h k l I D. apply Mem in I as [->|[I _]].
    + injection D as <- <-. split; [unfold Spec_ExponentPair.triangle; lra|lra].
    + assert (Ph : is_pair h = true) by (unfold is_pair; now rewrite D). destruct (pairs_in_triangle get M ps h Ep (Hp h I Ph)) as (k' & l' & D' & T). rewrite D in D'. injection D' as <- <-. exact T.
  - intros h I P. destruct (Own h I P) as [E|[E|E]]; subst h; unfold lit_node; cbn; auto.
  - intros h I. apply Mem in I as [->|[_ P]]; [reflexivity|]. unfold is_beta, is_pair, is_trans, is_beta_trans in *. destruct (n_data h); destruct P as [P|[P|P]]; congruence.
  - intros h b I D. unfold wf_bounds in Wf. rewrite Forall_forall in Wf.
    assert (Pb : is_beta h = true) by (unfold is_beta; now rewrite D). assert (Eh : bound_of h = b) by (unfold bound_of; now rewrite D).
    split; [rewrite <- Eh; auto|]. apply Mem in I as [->|[I _]]; [discriminate|]. specialize (Hb h I Pb). split.
    + intros a Ca A0 A1. now destruct (table_safe get Kr Kh bs h b a C Eb Hb D Ca A0 A1).
    + intros Ca. destruct (table_safe get Kr Kh bs h b (1#2) C Eb Hb D Ca ltac:(lra) ltac:(lra)) as [_ X]. specialize (X ltac:(reflexivity)).
      destruct Best as (g & k & l & Ig & Dg & K & L). exists g, k, l. split; [auto|]. split; [auto|]. unfold Qdiv. change (/ 2) with (1#2). lra.
  - exists trivial_exp_pair, 0, 1. split; [apply Mem; auto|]. split; [reflexivity|]. split; reflexivity.
  - destruct Best as (g & k & l & Ig & Dg & K & L). exists g, k, l. split; [auto|]. split; [auto|lra].
Qed.
