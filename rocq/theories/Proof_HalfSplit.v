(** Cutting an estimate for zeta to a domain. *)
From Verif Require Import Base LinAlg FM Model_Text Model_Reference Spec_Reference Model_Polytope Spec_Polytope Proof_Polytope FM_Ext Model_Region Spec_Region Proof_Region Proof_RegionSolid Prop_Region
  Proof_PolytopeLP Proof_PolytopeSets Proof_PolytopeUnion Proof_RegionSimplify Proof_RegionDisjoint
  Model_ExponentPair Spec_ExponentPair Model_LargeValues Spec_LargeValues Proof_LargeValues Prop_LargeValues Model_ZetaLargeValues Prop_ZetaLargeValues
  Model_LargeValueRegion Spec_LargeValueRegion Prop_LargeValueRegion Proof_RegionSplit Spec_Anchored.
From Verif Require Proof_Piecewise.
From Coq Require Import Permutation.
Open Scope list_scope.

Lemma half_built : forall E, Polytope E [[-(2); 0; 1; 0]] false false = Ret half_space.
Proof. intro E. unfold Polytope. cbn. reflexivity. Qed.
Lemma half_good : good half_space.
Proof. split; [split; [cbn; lia|repeat constructor]|]. split; [repeat constructor; intro Z; inversion Z; lra|]. split; [discriminate|exact Logic.I]. Qed.
Lemma half_member : forall s t u, member half_space [s; t; u] <-> 2 <= t.
Proof.
  intros s t u. unfold member. rewrite mmember_iff. cbn [pmat half_space ncol mrows]. split.
  - intros [_ H]. specialize (H _ (or_introl eq_refl)). unfold Spec_Polytope.holds, rowval in H. cbn in H. lra.
  - intro H. split; [reflexivity|]. intros rb [<-|[]]. unfold Spec_Polytope.holds, rowval. cbn. lra.
Qed.

Section Half.
Context (E : ext) (OK : ext_ok E) (AN : anchored E) (order : nat -> list nat -> list nat) (OO : forall k l, Permutation (order k l) l).

Lemma half_outside : forall q, wf_mat (pmat q) -> ncol (pmat q) = 4%nat -> ~ member q [0; 2; 0] -> is_subset_of E half_space q = false.
Proof.
  intros q W N M. destruct (is_subset_of E half_space q) eqn:S; [|reflexivity]. exfalso. apply M. apply as_ineq_iff; [now rewrite N|]. apply Forall_forall. intros r Ir.
  unfold is_subset_of in S. rewrite forallb_forall in S. specialize (S r Ir). apply negb_true_iff in S. apply Qltb_false in S. pose proof (as_ineq_length _ _ W Ir) as L. rewrite N in L.
  rewrite (AN r L) in S. exact S.
Qed.

Lemma half_inters : forall B, Forall (solid 3) B -> Forall (fun q => ~ member (body q) [0; 2; 0]) B ->
  exists L, piece_inters E false (plain half_space) B = Ret L /\ Forall (solid 3) L /\
    (forall c, In c L -> (forall x, member (body c) x -> member half_space x) /\ exists q, In q B /\ forall x, member (body c) x -> member (body q) x) /\
    (forall x, member half_space x -> within B x ->
       Forall (fun r => ~ rowval r x == 0) (rows_of half_space ++ flat_map (fun q => rows_of (body q)) B) -> within L x).
Proof.
  pose proof half_good as Gp. assert (Np : ncol (pmat half_space) = 4%nat) by reflexivity.
  induction B as [|q B IH]; intros F NM.
  { exists []. split; [reflexivity|]. split; [constructor|]. split; [intros c []|]. intros x _ (q & [] & _). }
  apply Forall_cons_iff in F as [Pq F]. apply Forall_cons_iff in NM as [Mq NM]. pose proof Pq as (Gq & Bq & Nq & Izq).
  destruct (IH F NM) as (L & EL & FL & SL & CL).
  assert (RES : exists this, piece_inters E false (plain half_space) (q :: B) = Ret (this ++ L) /\ Forall (solid 3) this /\
       (forall c, In c this -> forall x, member (body c) x -> member half_space x /\ member (body q) x) /\
       (forall x, member half_space x -> member (body q) x -> Forall (fun r => ~ rowval r x == 0) (rows_of half_space ++ rows_of (body q)) -> within this x)).
  { cbn [piece_inters]. rewrite EL; cbn [bind body plain]. rewrite (half_outside (body q) ltac:(apply Gq) Nq Mq).
    destruct (is_subset_of E (body q) half_space) eqn:S2.
    - exists [q]. split; [reflexivity|]. split; [repeat constructor; auto; apply Pq|]. split.
      + intros c [<-|[]] x Mx. split; [|auto]. refine (proj1 (is_subset_of_ok E OK (body q) half_space _ _ _ _ _) S2 x Mx); [apply Gq|apply Gp|congruence|eauto|intros; now apply bounded_rows].
      + intros x _ Mx _. exists q. split; [now left|auto].
    - unfold intersect. destruct (intersection_ok E OK half_space [body q] true 4) as (i & Ei & Gi & Ni & Mi).
      { constructor; [auto|constructor; auto]. }
      rewrite Ei; cbn [bind]. assert (MI : forall x, member i x <-> member half_space x /\ member (body q) x).
      { intro x. rewrite Mi, !Forall_cons_iff. intuition. }
      destruct (is_empty_open_ok E OK i ltac:(apply Gi) ltac:(apply Gi)) as (b & Eb & Hb).
      unfold is_empty. rewrite Eb; cbn [bind]. destruct b; cbn [bind].
      + exists []. split; [reflexivity|]. split; [constructor|]. split; [intros c []|].
        intros x Mp Mq' G. exfalso. apply Hb. exists x. rewrite Forall_app in G. destruct G as [G1 G2].
        pose proof (generic_interior _ x Gp Mp G1) as [_ (e1 & E1 & N1)].
        pose proof (generic_interior _ x Gq Mq' G2) as [_ (e2 & E2 & N2)].
        split; [now apply MI|]. destruct (qmin_le e1 e2) as [M1 M2]. exists (qmin e1 e2).
        split; [unfold qmin; destruct (Qltb e2 e1); lra|]. intros y [Ly Hy]. apply MI.
        split; [apply N1|apply N2]; (split; [auto|]); intro k; specialize (Hy k); lra.
      + exists [plain i]. split; [reflexivity|]. split; [|split].
        * constructor; [|constructor]. split; [exact Gi|]. split; [|split; [exact Ni|intros _; exact Hb]]. destruct Bq as (K & HK). exists K. intros x k Mx. apply HK. now apply MI.
        * intros c [<-|[]] x Mx. now apply MI.
        * intros x Mp Mq' _. eexists. split; [now left|]. cbn [body plain]. now apply MI. }
  destruct RES as (this & ET & FT & ST & CT). exists (this ++ L). split; [exact ET|]. split; [now apply Forall_app|]. split.
  - intros c Hc. apply in_app_or in Hc as [Hc|Hc].
    + split; [intros x Mx; now apply (ST c Hc)|]. exists q. split; [now left|]. intros x Mx. now apply (ST c Hc).
    + destruct (SL c Hc) as (A & q' & Hq' & B'). split; [auto|]. exists q'. split; [now right|auto].
  - intros x Mp (q' & [<-|Hq'] & Mq') G; cbn [flat_map] in G; rewrite !Forall_app in G; destruct G as (G1 & G2 & G3).
    + destruct (CT x Mp Mq') as (c & Hc & Mc); [rewrite Forall_app; auto|]. exists c. split; [apply in_or_app; auto|auto].
    + destruct (CL x Mp) as (c & Hc & Mc); [exists q'; auto|rewrite Forall_app; auto|]. exists c. split; [apply in_or_app; auto|auto].
Qed.

Lemma solid_piece3 : forall ps, Forall (solid 3) ps <-> Forall (piece 3 false []) ps.
Proof. intro ps. split; apply Forall_impl; intros p; [intro S; split; [exact S|discriminate]|intros [S _]; exact S]. Qed.
Lemma exact_generic : forall H L s x, exact_off 3 H L s -> s x -> within L x \/ Exists (fun h => rowval h x == 0) H.
Proof.
  intros H L s x (_ & _ & C) Sx. destruct (Forall_Exists_dec (fun r => ~ rowval r x == 0) (fun r => match Qeq_dec (rowval r x) 0 with left e => right (fun n => n e) | right n => left n end) H) as [F|X].
  - left. now apply C.
  - right. eapply Exists_impl; [|exact X]. intros r N. destruct (Qeq_dec (rowval r x) 0); [auto|contradiction].
Qed.
Lemma pieces_within : forall ps x, denote (RDisj (map RPoly ps)) x <-> within ps x.
Proof.
  intros ps x. unfold within. cbn [denote]. rewrite anyP_iff. split.
  - intros (r & I & M). apply in_map_iff in I as (p & <- & I). eauto.
  - intros (p & I & M). exists (RPoly p). split; [now apply in_map|exact M].
Qed.

Lemma two_children : forall a b A B, as_disjoint_union_poly E order false a = Ret A -> as_disjoint_union_poly E order false b = Ret B ->
  as_disjoint_union_poly E order false (RInter [a; b]) = intersect_rounds E order false 0 A [B].
Proof. intros a b A B EA EB. cbn [as_disjoint_union_poly mapM]. rewrite EA. cbn [bind]. rewrite EB. cbn [bind]. reflexivity. Qed.

Lemma half_splits : forall dom r, disjoint_form dom -> leaves (solid 3) dom -> disjoint_form r -> leaves (solid 3) r -> ~ denote r [0; 2; 0] ->
  splits E order dom (RInter [RPoly (plain half_space); r]).
Proof.
  intros dom r DD SD DR SR NM.
  assert (LU : forall q, leaves (solid 3) q -> leaves (usable 3 false []) q) by (intros q; apply leaves_mono; intros p Sp; split; [exact Sp|discriminate]).
  destruct (disjoint_poly_ok E OK order OO 3 ltac:(lia) false [] dom DD (LU _ SD)) as (A & EA & FA & (HA & XA) & _).
  destruct (disjoint_poly_ok E OK order OO 3 ltac:(lia) false [] r DR (LU _ SR)) as (B & EB & FB & (HB & XB) & _).
  destruct (half_inters B) as (L & EL & FL & SL & CL).
  { now apply solid_piece3. }
  { apply Forall_forall. intros q Iq M. apply NM. apply XB. exists q. auto. }
  destruct (merge_inters_ok E OK 3 ltac:(lia) false [] L) as (L' & EL' & FL' & UL & _); [now apply solid_piece3|].
  assert (EI : as_disjoint_union_poly E order false (RInter [RPoly (plain half_space); r]) = Ret (L' ++ [])).
  { rewrite (two_children (RPoly (plain half_space)) r [plain half_space] B eq_refl EB). cbn [intersect_rounds round]. rewrite EL. cbn [bind]. rewrite EL'. cbn [bind]. reflexivity. }
  rewrite app_nil_r in EI.
  destruct (rounds_ok E OK order OO 3 ltac:(lia) false [] [L'] 0 A FA) as (C & EC & FC & (H & XC) & _); [constructor; [exact FL'|constructor]|].
  assert (WL : forall x, within L' x -> denote r x /\ member half_space x).
  { intros x W. apply UL in W as (c & Ic & Mc). destruct (SL c Ic) as [S1 (q & Iq & S2)]. split; [apply XB; exists q; auto|auto]. }
  exists C. split; [|split; [now apply solid_piece3|]].
  { unfold as_disjoint_union. rewrite (two_children _ _ _ _ EA EI), EC. reflexivity. }
  assert (SUB : forall x, within C x -> denote dom x /\ denote (RInter [RPoly (plain half_space); r]) x).
  { intros x W. apply XC in W as [W1 W2]. apply Forall_cons_iff in W2 as [W2 _]. split; [now apply XA|]. cbn [denote allP body plain]. destruct (WL x W2). auto. }
  assert (SUP : exists H', Forall (row_in 3) H' /\ forall x, denote dom x -> denote (RInter [RPoly (plain half_space); r]) x -> within C x \/ Exists (fun h => rowval h x == 0) H').
  { exists (HA ++ HB ++ (rows_of half_space ++ flat_map (fun q => rows_of (body q)) B) ++ H). split.
    - rewrite !Forall_app. split; [apply XA|]. split; [apply XB|]. split; [|apply XC]. split; [apply (rows_of_ok 3); [apply half_good|reflexivity]|]. apply all_rows_ok. now apply solid_piece3.
    - intros x D1 D2. cbn [denote allP body plain] in D2. destruct D2 as (Mh & Dr & _). rewrite !Exists_app.
      destruct (exact_generic _ _ _ x XA D1) as [WA|X]; [|now right; left]. destruct (exact_generic _ _ _ x XB Dr) as [WB|X]; [|now right; right; left].
      destruct (Forall_Exists_dec (fun r => ~ rowval r x == 0) (fun r => match Qeq_dec (rowval r x) 0 with left e => right (fun n => n e) | right n => left n end)
        (rows_of half_space ++ flat_map (fun q => rows_of (body q)) B)) as [F|X].
      + destruct (exact_generic _ _ _ x XC) as [WC|X]; [|now left|now right; right; right; right]. split; [exact WA|]. constructor; [|constructor]. apply UL, CL; auto.
      + right. right. right. left. rewrite <- Exists_app. eapply Exists_impl; [|exact X]. intros h N. destruct (Qeq_dec (rowval h x) 0); [auto|contradiction]. }
  split; [|split].
  - intros x D. apply SUB. now apply pieces_within.
  - intros x Lx IN. destruct SUP as (H' & FH' & SUP). apply pieces_within.
    apply (exact_off_inside 3 ltac:(lia) false [] H' C (fun y => denote dom y /\ denote (RInter [RPoly (plain half_space); r]) y) FC); auto.
    split; [exact FH'|]. split; [exact SUB|].
    intros y [D1 D2] G. destruct (SUP y D1 D2) as [W|X]; [exact W|]. exfalso. rewrite Forall_forall in G. apply Exists_exists in X as (h & Ih & Z). exact (G h Ih Z).
  - destruct SUP as (H' & FH' & SUP). exists H'. split; [exact FH'|]. intros x D1 D2. rewrite pieces_within. auto.
Qed.
End Half.
