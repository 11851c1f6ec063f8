(** Proof search for exponent pairs. *)
From Coq Require Import Sorted.
From Verif Require Import Base LinAlg Model_Text Model_Reference Spec_Reference Proof_Reference
  Model_Interval Spec_Interval Model_Affine Spec_Affine Model_BoundBeta
  Model_Polytope Spec_Polytope Proof_Polytope Proof_PolytopeMaps Proof_PolytopeSets Prop_Polytope Model_Hull Spec_Hull Proof_Hull
  Model_ExponentPair Spec_ExponentPair Proof_ExponentPair Proof_ExpSearch Proof_ExpLit Proof_Region Proof_ExpDual Spec_ExpProof.
Open Scope list_scope.

(** ** Two notions of hull *)
Definition vec (p : pt) : point := [fst p; snd p].

Lemma sum_zero : forall ws l, Forall (fun w => 0 <= w) ws -> qsum ws == 0 -> dot ws l == 0.
Proof.
  induction ws as [|w ws IH]; intros [|a l] F S; cbn [dot]; try reflexivity. inversion F; subst. cbn [qsum fold_right] in S. fold (qsum ws) in S.
  pose proof (qsum_nonneg ws ltac:(auto)) as P. rewrite IH by (auto; lra). assert (w == 0) by lra. rewrite H. ring.
Qed.

Lemma weighted_hull : forall P ws, List.length ws = List.length P -> Forall (fun w => 0 <= w) ws -> 0 < qsum ws ->
  hull2 (fun q => In q P) (dot ws (map fst P) / qsum ws, dot ws (map snd P) / qsum ws).
Proof.
  induction P as [|a P IH]; intros [|w ws] L F S; cbn in L; try discriminate.
  inversion F as [|? ? W F']; subst. cbn [qsum fold_right dot map] in *. fold (qsum ws) in *.
  pose proof (qsum_nonneg ws F') as N. destruct (Qeq_dec (qsum ws) 0) as [Z|Z].
  - apply (hull2_in _ a); [now left|]. split; cbn [fst snd]; rewrite sum_zero by auto; rewrite Z; field; lra.
  - assert (P' : 0 < qsum ws) by lra. specialize (IH ws ltac:(lia) F' P').
    apply (hull2_mix _ a (dot ws (map fst P) / qsum ws, dot ws (map snd P) / qsum ws) (qsum ws / (w + qsum ws))).
    + apply (hull2_in _ a); [now left|split; reflexivity].
    + eapply hull2_sub; [|exact IH]. intros q I. apply (hull2_in _ q); [now right|split; reflexivity].
    + apply Qle_shift_div_l; lra.
    + apply Qle_shift_div_r; lra.
    + split; cbn [fst snd pmix]; field; split; lra.
Qed.

Lemma conv_hull2 : forall P p, conv (map vec P) (vec p) <-> hull2 (fun q => In q P) p.
Proof.
  intros P p. split.
  - intros (ws & L & F & S & E). rewrite map_length in L.
    assert (H := weighted_hull P ws L F ltac:(lra)). eapply hull2_eq; [|exact H].
    split; cbn [fst snd]; rewrite S.
    + specialize (E 0%nat). rewrite nth_wsum, map_map in E. change (fst p == dot ws (map fst P)) in E. rewrite E. field.
    + specialize (E 1%nat). rewrite nth_wsum, map_map in E. change (snd p == dot ws (map snd P)) in E. rewrite E. field.
  - intro H. induction H as [a p I E|a b t p _ IHa _ IHb T0 T1 E].
    + rewrite <- (conv_proper (map vec P) (map vec P) eq_refl (vec a) (vec p)); [apply conv_in; now apply in_map|].
      intros [|[|i]]; cbn; [symmetry; apply E|symmetry; apply E|destruct i; reflexivity].
    + rewrite <- (conv_proper (map vec P) (map vec P) eq_refl (mix t (vec a) (vec b)) (vec p)); [now apply conv_mix|].
      intros [|[|i]]; rewrite nth_mix; cbn [vec nth]; [symmetry; apply E|symmetry; apply E|]. destruct i; ring.
Qed.

Lemma vrep_contains : forall E, ext_ok E -> forall P p, P <> [] ->
  exists c b, from_V_rep E (map vec P) = Ret (Some c) /\ Model_Polytope.contains c (vec p) = Ret b /\
    (b = true <-> hull2 (fun q => In q P) p).
Proof.
  intros E OK P p N. unfold from_V_rep. destruct (map vec P) as [|v vs] eqn:M; [destruct P; [contradiction|discriminate]|].
  rewrite (matrix_of_ok _ false 3); [|discriminate|].
  2:{ rewrite <- M. rewrite map_map. apply Forall_map, Forall_forall. intros; reflexivity. }
  cbn [bind]. rewrite <- M.
  destruct (ineq_ok E OK (map vec P) 2) as (I1 & I2 & I3 & I4).
  { rewrite M; discriminate. } { apply Forall_map, Forall_forall. intros; reflexivity. }
  destruct (proj1 (polytope_contains (mkPoly (inequalities E (map vec P)) false (Some (map vec P))) (vec p))) as (b & Eb & Hb).
  { cbn [pmat]. rewrite I2. reflexivity. }
  do 2 eexists. split; [reflexivity|]. split; [exact Eb|]. rewrite Hb. unfold member. cbn [pmat]. rewrite I4.
  rewrite <- conv_hull2. split; [tauto|]. intro; split; [reflexivity|auto].
Qed.

(** ** Triples *)
Lemma in_comb2 : forall A (l : list A) a b, In (a, b) (comb2 l) <-> exists l1 l2 l3, l = l1 ++ a :: l2 ++ b :: l3.
Proof.
  intros A l a b. induction l as [|x l IH].
  - cbn. split; [tauto|]. intros (l1 & l2 & l3 & E). destruct l1; discriminate.
  - cbn [comb2]. rewrite in_app_iff, in_map_iff, IH. split.
    + intros [(y & E & I)|(l1 & l2 & l3 & ->)].
      * injection E as <- <-. apply in_split in I as (l2 & l3 & ->). exists [], l2, l3. auto.
      * exists (x :: l1), l2, l3. auto.
    + intros ([|y l1] & l2 & l3 & E).
      * injection E as <- ->. left. exists b. split; [auto|]. apply in_or_app. right. now left.
      * injection E as <- ->. right. eauto.
Qed.

Lemma in_comb3 : forall A (l : list A) a b c, In (a, b, c) (comb3 l) <-> in_order l a b c.
Proof.
  intros A l a b c. unfold in_order. induction l as [|x l IH].
  - cbn. split; [tauto|]. intros (l1 & l2 & l3 & l4 & E). destruct l1; discriminate.
  - cbn [comb3]. rewrite in_app_iff, in_map_iff, IH. split.
    + intros [([y z] & E & I)|(l1 & l2 & l3 & l4 & ->)].
      * cbn in E. injection E as <- <- <-. apply in_comb2 in I as (l2 & l3 & l4 & ->). exists [], l2, l3, l4. auto.
      * exists (x :: l1), l2, l3, l4. auto.
    + intros ([|y l1] & l2 & l3 & l4 & E).
      * injection E as <- ->. left. exists (b, c). split; [auto|]. apply in_comb2. eauto.
      * injection E as <- ->. right. eauto 6.
Qed.

Definition tri_step (p : pt) (best : option (hnode * hnode * hnode)) (t : hnode * hnode * hnode) :=
  if tri_contains p t then
    match best with
    | None => Some t
    | Some b => if (tri_cost t <? tri_cost b)%nat then Some t else best
    end
  else best.

Lemma tri_fold : forall p ts best,
  match fold_left (tri_step p) ts best with
  | None => best = None /\ forall t, In t ts -> tri_contains p t = false
  | Some r => (best = Some r \/ (In r ts /\ tri_contains p r = true)) /\
      (forall b, best = Some b -> (tri_cost r <= tri_cost b)%nat) /\
      (forall t, In t ts -> tri_contains p t = true -> (tri_cost r <= tri_cost t)%nat)
  end.
Proof.
  intros p. induction ts as [|t ts IH]; intros best; cbn [fold_left].
  - destruct best as [b|]; [|split; [auto|intros t []]]. split; [auto|]. split; [intros b' E; injection E as <-; lia|intros t []].
  - specialize (IH (tri_step p best t)). destruct (fold_left (tri_step p) ts (tri_step p best t)) as [r|].
    + destruct IH as (A & B & C). unfold tri_step in A, B. destruct (tri_contains p t) eqn:T.
      * destruct best as [b|].
        -- destruct (Nat.ltb_spec (tri_cost t) (tri_cost b)) as [L|L].
           ++ specialize (B t eq_refl). split; [|split].
              ** right. destruct A as [A|[A1 A2]]; [injection A as <-; split; [now left|auto]|split; [now right|auto]].
              ** intros b' E. injection E as <-. lia.
              ** intros t' [<-|I] H; auto.
           ++ specialize (B b eq_refl). split; [|split].
              ** destruct A as [A|[A1 A2]]; [auto|right; split; [now right|auto]].
              ** intros b' E. injection E as <-. lia.
              ** intros t' [<-|I] H; [lia|auto].
        -- specialize (B t eq_refl). split; [|split].
           ++ right. destruct A as [A|[A1 A2]]; [injection A as <-; split; [now left|auto]|split; [now right|auto]].
           ++ discriminate.
           ++ intros t' [<-|I] H; auto.
      * split; [|split; [auto|]].
        -- destruct A as [A|[A1 A2]]; [auto|right; split; [now right|auto]].
        -- intros t' [<-|I] H; [congruence|auto].
    + destruct IH as [A B]. unfold tri_step in A. destruct (tri_contains p t) eqn:T.
      * destruct best as [b|]; [destruct (tri_cost t <? tri_cost b)%nat|]; discriminate.
      * split; [auto|]. intros t' [<-|I]; auto.
Qed.

Lemma best_triangle_inv : forall p vs,
  match best_triangle p vs with
  | None => forall a b c, in_order vs a b c -> in_triangle (key_of a) (key_of b) (key_of c) p = false
  | Some (a, b, c) => in_order vs a b c /\ in_triangle (key_of a) (key_of b) (key_of c) p = true /\
      forall x y z, in_order vs x y z -> in_triangle (key_of x) (key_of y) (key_of z) p = true ->
        (complexity a + complexity b + complexity c <= complexity x + complexity y + complexity z)%nat
  end.
Proof.
  intros p vs. pose proof (tri_fold p (comb3 vs) None) as H. unfold best_triangle.
  change (fold_left _ (comb3 vs) None) with (fold_left (tri_step p) (comb3 vs) None).
  destruct (fold_left (tri_step p) (comb3 vs) None) as [[[a b] c]|].
  - destruct H as (A & _ & C). destruct A as [A|[A1 A2]]; [discriminate|]. split; [now apply in_comb3|]. split; [exact A2|].
    intros x y z I T. apply in_comb3 in I. exact (C _ I T).
  - destruct H as [_ H]. intros a b c I. apply in_comb3 in I. exact (H _ I).
Qed.

(** ** Triangles from the vertices of a hull *)
Lemma in_order_in : forall A (l : list A) a b c, in_order l a b c -> In a l /\ In b l /\ In c l.
Proof.
  intros A l a b c (l1 & l2 & l3 & l4 & ->). split; [|split].
  - apply in_or_app. right. now left.
  - apply in_or_app. right. right. apply in_or_app. right. now left.
  - apply in_or_app. right. right. apply in_or_app. right. right. apply in_or_app. right. now left.
Qed.

Lemma conv3_hull : forall a b c p, in_conv3 a b c p -> hull2 (fun q => q = a \/ q = b \/ q = c) p.
Proof.
  intros a b c p (u & v & w & U & V & W & S & E1 & E2).
  assert (H := weighted_hull [a; b; c] [u; v; w] eq_refl ltac:(repeat (constructor; [auto|]); constructor) ltac:(cbn; lra)).
  apply (hull2_eq _ _ p) in H.
  - eapply hull2_sub; [|exact H]. intros q I. apply (hull2_in _ q); [|split; reflexivity]. cbn in I. destruct I as [<-|[<-|[<-|[]]]]; auto.
  - cbn. assert (T : u + (v + (w + 0)) == 1) by lra. split; cbn [fst snd]; rewrite T; [rewrite E1|rewrite E2]; field.
Qed.

Lemma collinear_between : forall a b c : pt, cross a b c == 0 -> ~ pt_eq a b -> ~ pt_eq b c -> ~ pt_eq a c ->
  strictly_between a b c \/ strictly_between b a c \/ strictly_between a c b.
Proof.
  intros a b c Z Nab Nbc Nac.
  assert (X : exists f : pt -> Q, (forall p q, pt_eq p q -> f p == f q) /\ ~ f a == f b /\
    (forall p q r, In p [a;b;c] -> In q [a;b;c] -> In r [a;b;c] -> ~ f p == f q -> pt_eq r (pmix ((f r - f p) / (f q - f p)) p q))).
  { unfold cross in Z. destruct (Qeq_dec (fst a) (fst b)) as [Ex|Ex].
    - exists snd. assert (Ey : ~ snd a == snd b) by (intro; apply Nab; split; auto).
      assert (Ec : fst c == fst a).
      { assert (Y : (fst c - fst a) * (snd b - snd a) == 0) by (rewrite <- Ex in Z; lra).
        apply Qmult_integral in Y as [Y|Y]; lra. }
      split; [intros p q [_ E]; exact E|]. split; [auto|]. intros p q r Ip Iq Ir D.
      assert (F : fst p == fst a /\ fst q == fst a /\ fst r == fst a).
      { cbn in Ip, Iq, Ir. split; [|split]; [destruct Ip as [<-|[<-|[<-|[]]]]|destruct Iq as [<-|[<-|[<-|[]]]]|destruct Ir as [<-|[<-|[<-|[]]]]]; lra. }
      destruct F as (F1 & F2 & F3). split; cbn [fst snd pmix]; [rewrite F1, F2, F3; ring|]. field. intro; apply D; lra.
    - exists fst. split; [intros p q [E _]; exact E|]. split; [auto|]. intros p q r Ip Iq Ir D.
      set (m := (snd b - snd a) / (fst b - fst a)).
      assert (L : forall t, In t [a; b; c] -> snd t == snd a + m * (fst t - fst a)).
      { intros t It. cbn in It. destruct It as [<-|[<-|[<-|[]]]].
        - ring.
        - unfold m. field. intro; apply Ex; lra.
        - assert (Y : (fst b - fst a) * (snd c - snd a) == (snd b - snd a) * (fst c - fst a)) by lra.
          setoid_replace (snd c) with (snd a + ((fst b - fst a) * (snd c - snd a)) / (fst b - fst a)) by (field; intro; apply Ex; lra).
          rewrite Y. unfold m. field. intro; apply Ex; lra. }
      split; cbn [fst snd pmix]; [field; intro; apply D; lra|]. rewrite (L p Ip), (L q Iq), (L r Ir). field. intro; apply D; lra. }
  destruct X as (f & Pf & Dab & Mid).
  assert (Ia : In a [a;b;c]) by (cbn; auto). assert (Ib : In b [a;b;c]) by (cbn; auto). assert (Ic : In c [a;b;c]) by (cbn; auto).
  assert (Df : forall p q, In p [a;b;c] -> In q [a;b;c] -> ~ pt_eq p q -> ~ f p == f q).
  { intros p q Ip Iq N E. apply N. pose proof (Mid a b p Ia Ib Ip Dab) as [P1 P2]. pose proof (Mid a b q Ia Ib Iq Dab) as [Q1 Q2].
    split; [rewrite P1, Q1|rewrite P2, Q2]; cbn [fst snd pmix]; rewrite E; reflexivity. }
  pose proof (Df b c Ib Ic Nbc) as Dbc. pose proof (Df a c Ia Ic Nac) as Dac.
  assert (Btw : forall p q r, In p [a;b;c] -> In q [a;b;c] -> In r [a;b;c] -> ~ pt_eq p q ->
    (f p < f r /\ f r < f q) \/ (f q < f r /\ f r < f p) -> strictly_between p r q).
  { intros p q r Ip Iq Ir N H. split; [auto|]. exists ((f r - f p) / (f q - f p)).
    assert (D : ~ f p == f q) by (destruct H; intro; lra).
    destruct H as [[H1 H2]|[H1 H2]].
    - split; [apply Qlt_shift_div_l; lra|]. split; [apply Qlt_shift_div_r; lra|]. now apply Mid.
    - assert (Y : (f r - f p) / (f q - f p) == (f p - f r) / (f p - f q)) by (field; split; intro; lra). 
      split; [rewrite Y; apply Qlt_shift_div_l; lra|]. split; [rewrite Y; apply Qlt_shift_div_r; lra|]. now apply Mid. }
  destruct (Qlt_le_dec (f a) (f b)) as [L1|L1].
  - destruct (Qlt_le_dec (f b) (f c)) as [L2|L2]; [left; apply Btw; auto|].
    destruct (Qlt_le_dec (f a) (f c)) as [L3|L3].
    + right. right. apply Btw; auto. left. split; [auto|]. apply Qle_lteq in L2 as [L2|L2]; [auto|exfalso; apply Dbc; lra].
    + right. left. apply Btw; auto. right. split; [|auto]. apply Qle_lteq in L3 as [L3|L3]; [auto|exfalso; apply Dac; lra].
  - assert (L1' : f b < f a) by (apply Qle_lteq in L1 as [L1|L1]; [auto|exfalso; apply Dab; lra]).
    destruct (Qlt_le_dec (f c) (f b)) as [L2|L2]; [left; apply Btw; auto|].
    assert (L2' : f b < f c) by (apply Qle_lteq in L2 as [L2|L2]; [auto|exfalso; apply Dbc; lra]).
    destruct (Qlt_le_dec (f c) (f a)) as [L3|L3].
    + right. right. apply Btw; auto.
    + right. left. apply Btw; auto. left. split; [auto|]. apply Qle_lteq in L3 as [L3|L3]; [auto|exfalso; apply Dac; lra].
Qed.

Section Hulls.
Context (pts : list pt) (vs : list nat) (H : is_hull pts vs).

Lemma hull_triple_proper : forall i j k, in_order vs i j k -> ~ cross (pts_at pts i) (pts_at pts j) (pts_at pts k) == 0.
Proof.
  intros i j k O Z. pose proof (in_order_in _ _ _ _ _ O) as (Ii & Ij & Ik).
  pose proof (hull_range _ _ H) as R. rewrite Forall_forall in R.
  assert (Pi := pts_at_in pts i (R i Ii)). assert (Pj := pts_at_in pts j (R j Ij)). assert (Pk := pts_at_in pts k (R k Ik)).
  destruct O as (l1 & l2 & l3 & l4 & E).
  assert (Ei : nth (List.length l1) vs 0%nat = i) by (rewrite E, app_nth2, Nat.sub_diag by lia; reflexivity).
  assert (Ej : nth (List.length l1 + S (List.length l2)) vs 0%nat = j).
  { rewrite E, app_nth2 by lia. replace (List.length l1 + S (List.length l2) - List.length l1)%nat with (S (List.length l2)) by lia.
    cbn [nth]. rewrite app_nth2, Nat.sub_diag by lia. reflexivity. }
  assert (Ek : nth (List.length l1 + S (List.length l2 + S (List.length l3))) vs 0%nat = k).
  { rewrite E, app_nth2 by lia. replace (List.length l1 + S (List.length l2 + S (List.length l3)) - List.length l1)%nat with (S (List.length l2 + S (List.length l3))) by lia.
    cbn [nth]. rewrite app_nth2 by lia. replace (List.length l2 + S (List.length l3) - List.length l2)%nat with (S (List.length l3)) by lia.
    cbn [nth]. rewrite app_nth2, Nat.sub_diag by lia. reflexivity. }
  assert (Lv : List.length vs = (List.length l1 + S (List.length l2 + S (List.length l3 + S (List.length l4))))%nat).
  { rewrite E, app_length. cbn [List.length]. rewrite app_length. cbn [List.length]. rewrite app_length. cbn [List.length]. lia. }
  assert (Nij : ~ pt_eq (pts_at pts i) (pts_at pts j)) by (rewrite <- Ei, <- Ej; apply (hull_distinct _ _ H); lia).
  assert (Njk : ~ pt_eq (pts_at pts j) (pts_at pts k)) by (rewrite <- Ej, <- Ek; apply (hull_distinct _ _ H); lia).
  assert (Nik : ~ pt_eq (pts_at pts i) (pts_at pts k)) by (rewrite <- Ei, <- Ek; apply (hull_distinct _ _ H); lia).
  destruct (collinear_between _ _ _ Z Nij Njk Nik) as [B|[B|B]].
  - exact (hull_extreme _ _ H j _ _ Ij Pi Pk B).
  - exact (hull_extreme _ _ H i _ _ Ii Pj Pk B).
  - exact (hull_extreme _ _ H k _ _ Ik Pi Pj B).
Qed.

Lemma edge_of : forall l1 x y l2, vs = l1 ++ x :: y :: l2 -> In (x, y) (cyc_edges vs).
Proof.
  intros l1 x y l2 ->. destruct l1 as [|a l1]; [cbn; now left|]. cbn [app cyc_edges].
  change (In (x, y) (combine (a :: (l1 ++ x :: y :: l2)) ((l1 ++ x :: y :: l2) ++ [a]))). generalize a at 1 as b. generalize [a] as z. clear H.
  induction l1 as [|c l1 IH]; intros z b; cbn [app combine]; right; [now left|]. exact (IH z c).
Qed.

Lemma hull_triple_pos : forall i j k, in_order vs i j k -> 0 < cross (pts_at pts i) (pts_at pts j) (pts_at pts k).
Proof.
  pose proof (hull_range _ _ H) as R. rewrite Forall_forall in R.
  assert (Lf : forall x y z l1 l2, vs = l1 ++ x :: y :: l2 -> In z vs -> 0 <= cross (pts_at pts x) (pts_at pts y) (pts_at pts z)).
  { intros x y z l1 l2 E I. apply (hull_left _ _ H); [apply (edge_of l1 x y l2 E)|]. apply pts_at_in, R, I. }
  assert (Pos : forall x, ~ x == 0 -> 0 <= x -> 0 < x) by (intros x N L; apply Qle_lteq in L as [L|L]; [auto|exfalso; apply N; lra]).
  intros i j k O. destruct O as (l1 & l2 & l3 & l4 & E). revert k l4 E. induction l3 as [|m l3 IH] using rev_ind; intros k l4 E.
  - assert (O : in_order vs i j k) by (exists l1, l2, [], l4; auto). apply Pos; [now apply hull_triple_proper|].
    assert (X := Lf j k i (l1 ++ i :: l2) l4 ltac:(rewrite E, <- app_assoc; reflexivity) ltac:(now apply in_order_in in O)).
    assert (Y : cross (pts_at pts i) (pts_at pts j) (pts_at pts k) == cross (pts_at pts j) (pts_at pts k) (pts_at pts i)) by (unfold cross; ring). lra.
  - assert (O : in_order vs i j k) by (exists l1, l2, (l3 ++ [m]), l4; auto). pose proof (in_order_in _ _ _ _ _ O) as (Ii & Ij & Ik).
    assert (E1 : vs = l1 ++ i :: l2 ++ j :: l3 ++ m :: (k :: l4)) by (rewrite E, <- app_assoc; reflexivity).
    specialize (IH m (k :: l4) E1).
    destruct l2 as [|e l2].
    + apply Pos; [now apply hull_triple_proper|]. apply (Lf i j k l1 (l3 ++ m :: k :: l4)); auto.
    + assert (Ox : in_order vs i e m) by (exists l1, [], (l2 ++ j :: l3), (k :: l4); rewrite E1; cbn; rewrite <- app_assoc; reflexivity).
      assert (Oe : forall x, In x vs -> 0 <= cross (pts_at pts i) (pts_at pts e) (pts_at pts x)).
      { intros x I. apply (Lf i e x l1 (l2 ++ j :: l3 ++ m :: k :: l4)); [rewrite E1; reflexivity|auto]. }
      pose proof (in_order_in _ _ _ _ _ Ox) as (_ & _ & Im).
      assert (P1 : 0 < cross (pts_at pts i) (pts_at pts e) (pts_at pts m)) by (apply Pos; [now apply hull_triple_proper|auto]).
      pose proof (Oe j Ij) as P2. pose proof (Oe k Ik) as P3.
      assert (P4 := Lf m k i (l1 ++ i :: e :: l2 ++ j :: l3) l4 ltac:(rewrite E1, <- app_assoc; cbn; rewrite <- app_assoc; reflexivity) Ii).
      apply Pos; [now apply hull_triple_proper|].
      set (a := pts_at pts i) in *. set (b := pts_at pts e) in *. set (c := pts_at pts j) in *. set (d := pts_at pts m) in *. set (f := pts_at pts k) in *.
      assert (Pl : cross a b d * cross a c f == cross a b c * cross d f a + cross a b f * cross a c d) by (unfold cross; ring).
      destruct (Qlt_le_dec (cross a c f) 0) as [N|N]; [|exact N]. exfalso.
      assert (Y1 : 0 <= cross a b c * cross d f a) by (apply Qmult_le_0_compat; auto).
      assert (Y2 : 0 <= cross a b f * cross a c d) by (apply Qmult_le_0_compat; lra).
      assert (Y3 : 0 < cross a b d * - cross a c f) by (apply Qmult_lt_0_compat; lra). lra.
Qed.

Lemma last_default : forall (l : list nat) x d d', last (x :: l) d = last (x :: l) d'.
Proof. induction l as [|y l IH]; intros x d d'; [reflexivity|]. exact (IH y d d'). Qed.

(** The fan of triangles at the first vertex covers the hull. *)
Lemma fan_step : forall (v0 : nat) p m a l, 0 <= cross (pts_at pts v0) (pts_at pts a) p ->
  (forall b, last (a :: l) a = b -> cross (pts_at pts v0) (pts_at pts b) p <= 0) -> (1 <= List.length l)%nat ->
  vs = v0 :: m ++ a :: l ->
  exists i j, in_order vs v0 i j /\ In (i, j) (combine (a :: l) l) /\
    0 <= cross (pts_at pts v0) (pts_at pts i) p /\ cross (pts_at pts v0) (pts_at pts j) p <= 0.
Proof.
  intros v0 p m a l. revert m a. induction l as [|b l IH]; intros m a Ha Hl Le Ev; [cbn in Le; lia|].
  destruct (Qlt_le_dec 0 (cross (pts_at pts v0) (pts_at pts b) p)) as [Pb|Pb].
  - destruct l as [|c l].
    + exfalso. specialize (Hl b eq_refl). lra.
    + destruct (IH (m ++ [a]) b) as (i & j & O & I & X & Y).
      * lra.
      * intros c' Ec. apply Hl. rewrite <- Ec. exact (last_default (c :: l) b a b).
      * cbn; lia.
      * rewrite Ev. rewrite <- app_assoc. reflexivity.
      * exists i, j. split; [auto|]. split; [right; exact I|auto].
  - exists a, b. split; [|split; [now left|auto]].
    exists [], m, [], l. rewrite Ev. reflexivity.
Qed.

Lemma fan : forall p, (3 <= List.length vs)%nat -> hull2 (fun q => In q pts) p ->
  exists a b c, in_order vs a b c /\ in_triangle (pts_at pts a) (pts_at pts b) (pts_at pts c) p = true.
Proof.
  intros p Le Hp.
  assert (Left : forall i j, In (i, j) (cyc_edges vs) -> 0 <= cross (pts_at pts i) (pts_at pts j) p).
  { intros i j I. apply (hull2_left (fun q => In q pts)); [|auto]. intros q Iq. now apply (hull_left _ _ H). }
  destruct vs as [|v0 [|v1 l]] eqn:Ev; [cbn in Le; lia|cbn in Le; lia|].
  assert (Comb : forall x y, In (x, y) (combine (v1 :: l) l) -> In (x, y) (cyc_edges (v0 :: v1 :: l))).
  { intros x y I. unfold cyc_edges. cbn [app combine]. right. revert I. generalize [v0] as z. generalize v1.
    clear. induction l as [|b l IH]; intros v z I; [destruct I|]. cbn [combine app] in *. destruct I as [I|I]; [now left|]. right. exact (IH b z I). }
  destruct (fan_step v0 p [] v1 l) as (i & j & O & I & X & Y).
  - apply Left. unfold cyc_edges. cbn [app combine]. now left.
  - intros b Eb. assert (Ie : In (b, v0) (cyc_edges (v0 :: v1 :: l))).
    { unfold cyc_edges. cbn [app combine]. right. rewrite <- Eb.
      assert (G : forall l v d, In (last (v :: l) d, v0) (combine (v :: l) (l ++ [v0]))).
      { clear. induction l as [|b l IH]; intros v d; [cbn; now left|]. change (last (v :: b :: l) d) with (last (b :: l) d). cbn [app combine]. right. apply (IH b d). }
      apply G. }
    apply Left in Ie. assert (Sx : cross (pts_at pts b) (pts_at pts v0) p == - cross (pts_at pts v0) (pts_at pts b) p) by (unfold cross; ring). lra.
  - cbn in Le. lia.
  - rewrite Ev. reflexivity.
  - exists v0, i, j. rewrite Ev in O. split; [auto|]. apply in_triangle_iff. apply Comb, Left in I.
    split; [auto|]. split; [|auto]. assert (Sx : cross (pts_at pts j) (pts_at pts v0) p == - cross (pts_at pts v0) (pts_at pts j) p) by (unfold cross; ring). lra.
Qed.

Lemma hull_three : ~ collinear pts -> (3 <= List.length vs)%nat.
Proof.
  intros NC. destruct (Nat.le_gt_cases 3 (List.length vs)) as [L|L]; [auto|]. exfalso. apply NC.
  intros a b c Ia Ib Ic.
  pose proof (hull_covers _ _ H a Ia) as Ca. pose proof (hull_covers _ _ H b Ib) as Cb. pose proof (hull_covers _ _ H c Ic) as Cc.
  destruct vs as [|u [|v [|w l]]] eqn:Ev; [| | |cbn in L; lia].
  - exfalso. clear - Ca. induction Ca as [? ? (i & I & _) _|]; [destruct I|auto].
  - assert (One : forall p, hull2 (fun q => exists i, In i [u] /\ q = pts_at pts i) p -> pt_eq p (pts_at pts u)).
    { intros p Hp. induction Hp as [q p (i & [<-|[]] & ->) E|q r t p _ IHq _ IHr _ _ E]; [auto|].
      destruct E as [E1 E2], IHq as [A1 A2], IHr as [B1 B2]. cbn [pmix fst snd] in *. split; [rewrite E1, A1, B1|rewrite E2, A2, B2]; ring. }
    destruct (One a Ca) as [A1 A2], (One b Cb) as [B1 B2], (One c Cc) as [C1 C2]. unfold cross. rewrite A1, A2, B1, B2, C1, C2. ring.
  - assert (Two : forall p, hull2 (fun q => exists i, In i [u; v] /\ q = pts_at pts i) p -> exists t, pt_eq p (pmix t (pts_at pts u) (pts_at pts v))).
    { intros p Hp. induction Hp as [q p (i & I & ->) E|q r t p _ IHq _ IHr _ _ E].
      - destruct E as [E1 E2]. destruct I as [<-|[<-|[]]]; [exists 0|exists 1]; split; cbn [pmix fst snd]; [rewrite E1|rewrite E2|rewrite E1|rewrite E2]; ring.
      - destruct IHq as (s1 & A1 & A2), IHr as (s2 & B1 & B2), E as [E1 E2]. cbn [pmix fst snd] in *.
        exists ((1 - t) * s1 + t * s2). split; cbn [pmix fst snd]; [rewrite E1, A1, B1|rewrite E2, A2, B2]; ring. }
    destruct (Two a Ca) as (x & A1 & A2), (Two b Cb) as (y & B1 & B2), (Two c Cc) as (z & C1 & C2). cbn [pmix fst snd] in *.
    unfold cross. rewrite A1, A2, B1, B2, C1, C2. ring.
Qed.
End Hulls.

(** ** The search *)
Section Construct.
Context (ch : hull_routine) (Hch : hull_spec ch) (E : ext) (OK : ext_ok E).

Lemma hull_nodes : forall hs verts, compute_convex_hull ch hs = Ret verts ->
  (forall v, In v verts -> In v hs /\ is_pair v = true) /\
  (forall p, hull2 (fun q => In q (map key_of verts)) p <-> hull2 (node_keys hs) p) /\
  (((List.length (filter is_pair hs) < 3)%nat /\ verts = filter is_pair hs) \/
   (exists vs, is_hull (map key_of (filter is_pair hs)) vs /\ (3 <= List.length vs)%nat /\
      verts = map (fun v => nth v (filter is_pair hs) trivial_exp_pair) vs /\
      forall v, In v vs -> key_of (nth v (filter is_pair hs) trivial_exp_pair) = pts_at (map key_of (filter is_pair hs)) v)).
Proof.
  intros hs verts H. unfold compute_convex_hull in H. set (ps := filter is_pair hs) in *.
  assert (Ips : forall v, In v ps -> In v hs /\ is_pair v = true) by (intros v I; now apply filter_In in I).
  assert (Key : forall q, In q (map key_of ps) <-> node_keys hs q).
  { intro q. rewrite in_map_iff. split.
    - intros (h & <- & I). exists h. destruct (Ips h I). auto.
    - intros (h & I & P & ->). exists h. split; [auto|]. now apply filter_In. }
  destruct (Nat.ltb_spec (List.length ps) 3) as [L|L].
  - injection H as <-. split; [auto|]. split; [|left; auto].
    intro p. split; intro Hp; (eapply hull2_sub; [|exact Hp]); intros q I; (apply (hull2_in _ q); [now apply Key|split; reflexivity]).
  - destruct (ch (map key_of ps)) as [vs|] eqn:Ec; [|discriminate]. cbn [bind] in H. injection H as <-.
    pose proof (hull_inv ch Hch _ _ Ec) as Hv. pose proof (hull_range _ _ Hv) as R. rewrite Forall_forall in R.
    assert (Kv : forall v, In v vs -> In (nth v ps trivial_exp_pair) ps /\ key_of (nth v ps trivial_exp_pair) = pts_at (map key_of ps) v).
    { intros v I. specialize (R v I). rewrite map_length in R. split; [now apply nth_In|].
      unfold pts_at. rewrite (nth_indep _ (0, 0) (key_of trivial_exp_pair)) by (now rewrite map_length). symmetry. apply map_nth. }
    split; [|split].
    + intros v I. apply in_map_iff in I as (i & <- & I). now apply Ips, Kv.
    + intro p. split; intro Hp.
      * eapply hull2_sub; [|exact Hp]. intros q I. apply (hull2_in _ q); [|split; reflexivity].
        apply in_map_iff in I as (v & <- & I). apply in_map_iff in I as (i & <- & I). apply Key, in_map. now apply Kv.
      * eapply hull2_sub; [|exact Hp]. intros q I. apply Key in I. pose proof (hull_covers _ _ Hv q I) as C.
        eapply hull2_sub; [|exact C]. intros r (i & Ii & ->). apply (hull2_in _ (pts_at (map key_of ps) i)); [|split; reflexivity].
        destruct (Kv i Ii) as [_ <-]. apply in_map. apply in_map_iff. eauto.
    + right. exists vs. split; [auto|]. split; [|split; [auto|intros v I; now apply Kv]].
      apply (hull_three _ _ Hv). intro C. apply (proj1 (Hch _)) in C. congruence.
Qed.

Lemma in_order_map : forall A B (f : A -> B) l a b c, in_order (map f l) a b c ->
  exists x y z, in_order l x y z /\ a = f x /\ b = f y /\ c = f z.
Proof.
  intros A B f l a b c (l1 & l2 & l3 & l4 & Eq).
  apply map_eq_app in Eq as (m1 & m2 & -> & <- & Eq). symmetry in Eq. apply eq_sym, map_eq_cons in Eq as (x & m3 & -> & <- & Eq).
  apply map_eq_app in Eq as (m4 & m5 & -> & <- & Eq). apply map_eq_cons in Eq as (y & m6 & -> & <- & Eq).
  apply map_eq_app in Eq as (m7 & m8 & -> & <- & Eq). apply map_eq_cons in Eq as (z & m9 & -> & <- & _).
  exists x, y, z. split; [exists m1, m4, m7, m9; auto|auto].
Qed.
Lemma map_in_order : forall A B (f : A -> B) l a b c, in_order l a b c -> in_order (map f l) (f a) (f b) (f c).
Proof.
  intros A B f l a b c (l1 & l2 & l3 & l4 & ->). exists (map f l1), (map f l2), (map f l3), (map f l4).
  rewrite !map_app. cbn [map]. rewrite map_app. cbn [map]. now rewrite map_app.
Qed.

(** A triangle of hull vertices that accepts a point contains it. *)
Lemma hull_tri_sound : forall hs verts a b c p, compute_convex_hull ch hs = Ret verts -> in_order verts a b c ->
  in_triangle (key_of a) (key_of b) (key_of c) p = true -> 0 < cross (key_of a) (key_of b) (key_of c) /\ in_conv3 (key_of a) (key_of b) (key_of c) p.
Proof.
  intros hs verts a b c p Ec O T. destruct (hull_nodes hs verts Ec) as (_ & _ & [[L ->]|(vs & Hv & L & -> & K)]).
  - exfalso. destruct O as (l1 & l2 & l3 & l4 & Eq). rewrite Eq in L. rewrite app_length in L. cbn [List.length] in L.
    rewrite app_length in L. cbn [List.length] in L. rewrite app_length in L. cbn [List.length] in L. lia.
  - apply in_order_map in O as (x & y & z & O & -> & -> & ->). pose proof (in_order_in _ _ _ _ _ O) as (Ix & Iy & Iz).
    rewrite !K in * by auto. pose proof (hull_triple_proper _ _ Hv x y z O) as N.
    apply in_triangle_iff in T as (T1 & T2 & T3).
    set (A := pts_at (map key_of (filter is_pair hs)) x) in *. set (B := pts_at (map key_of (filter is_pair hs)) y) in *. set (C := pts_at (map key_of (filter is_pair hs)) z) in *.
    assert (Sm : cross B C p + cross C A p + cross A B p == cross A B C) by (unfold cross; ring).
    assert (D : 0 < cross A B C) by (destruct (Qlt_le_dec 0 (cross A B C)) as [?|?]; [auto|exfalso; apply N; lra]).
    split; [auto|]. now apply cross_conv3.
Qed.

Lemma hull_conv_tri : forall hs verts a b c p, compute_convex_hull ch hs = Ret verts -> in_order verts a b c ->
  in_conv3 (key_of a) (key_of b) (key_of c) p -> in_triangle (key_of a) (key_of b) (key_of c) p = true.
Proof.
  intros hs verts a b c p Ec O T. destruct (hull_nodes hs verts Ec) as (_ & _ & [[L ->]|(vs & Hv & L & -> & K)]).
  - exfalso. destruct O as (l1 & l2 & l3 & l4 & Eq). rewrite Eq in L. rewrite app_length in L. cbn [List.length] in L.
    rewrite app_length in L. cbn [List.length] in L. rewrite app_length in L. cbn [List.length] in L. lia.
  - apply in_order_map in O as (x & y & z & O & -> & -> & ->). pose proof (in_order_in _ _ _ _ _ O) as (Ix & Iy & Iz).
    rewrite !K in * by auto. pose proof (hull_triple_pos _ _ Hv x y z O) as N.
    apply in_triangle_iff.
    set (A := pts_at (map key_of (filter is_pair hs)) x) in *. set (B := pts_at (map key_of (filter is_pair hs)) y) in *. set (C := pts_at (map key_of (filter is_pair hs)) z) in *.
    destruct T as (u & v & w & U & V & Wp & S & P1 & P2).
    assert (E1 : cross A B p == w * cross A B C) by (unfold cross; rewrite P1, P2; assert (Eu : u == 1 - v - w) by lra; rewrite Eu; ring).
    assert (E2 : cross B C p == u * cross A B C) by (unfold cross; rewrite P1, P2; assert (Eu : v == 1 - u - w) by lra; rewrite Eu; ring).
    assert (E3 : cross C A p == v * cross A B C) by (unfold cross; rewrite P1, P2; assert (Eu : w == 1 - u - v) by lra; rewrite Eu; ring).
    assert (N0 : 0 <= cross A B C) by lra. split; [|split]; [rewrite E2|rewrite E3|rewrite E1]; apply Qmult_le_0_compat; auto.
Qed.

Lemma construct_cases : forall k l hs reduce deep r, construct_proof ch E k l hs reduce deep = Ret r ->
  match r with
  | None => ~ hull2 (node_keys hs) (k, l)
  | Some h => is_pair h = true /\ pt_eq (key_of h) (k, l) /\ hull2 (node_keys hs) (k, l) /\
      (In h hs \/
       (~ (exists g, In g hs /\ is_pair g = true /\ pt_eq (key_of g) (k, l)) /\ n_data h = DPair k l /\
        (forall d, In d (n_deps h) -> In d hs /\ is_pair d = true) /\
        if reduce then exists a b c vs, n_deps h = [a; b; c] /\ in_order vs a b c /\
             (if deep then vs = filter is_pair hs else compute_convex_hull ch hs = Ret vs) /\
             in_triangle (key_of a) (key_of b) (key_of c) (k, l) = true /\
             (forall x y z, in_order vs x y z -> in_triangle (key_of x) (key_of y) (key_of z) (k, l) = true ->
               (complexity a + complexity b + complexity c <= complexity x + complexity y + complexity z)%nat)
        else hull2 (node_keys (n_deps h)) (k, l)))
  end.
Proof.
  intros k l hs reduce deep r H. unfold construct_proof in H.
  destruct (filter is_pair hs) as [|e0 es] eqn:Ef.
  { injection H as <-. intro X.
    assert (Nn : forall p, hull2 (node_keys hs) p -> False).
    { intros p Hp. induction Hp as [q p (h & I & P & _) _|]; [|auto]. assert (I' : In h (filter is_pair hs)) by (apply filter_In; auto). rewrite Ef in I'. destruct I'. }
    exact (Nn _ X). }
  rewrite <- Ef in H.
  destruct (find (fun h => pt_eqb (key_of h) (k, l)) (filter is_pair hs)) as [h|] eqn:Fd.
  { injection H as <-. apply find_some in Fd as [I K]. apply pt_eqb_true in K. apply filter_In in I as [I P].
    split; [auto|]. split; [auto|]. split; [|auto]. apply (hull2_in _ (key_of h)); [exists h; auto|]. split; symmetry; apply K. }
  assert (NF : ~ (exists g, In g hs /\ is_pair g = true /\ pt_eq (key_of g) (k, l))).
  { intros (g & I & P & K). pose proof (find_none _ _ Fd g (proj2 (filter_In _ _ _) (conj I P))) as Z. cbn in Z.
    apply pt_eqb_true in K. congruence. }
  destruct (compute_convex_hull ch hs) as [verts|] eqn:Ec; [|discriminate]. cbn [bind] in H.
  destruct (hull_nodes hs verts Ec) as (Hin & Hh & Cs).
  assert (Nv : map key_of verts <> []).
  { intro X. apply map_eq_nil in X. destruct Cs as [[_ Y]|(vs & _ & L & Y & _)]; rewrite Y in X; [congruence|]. apply map_eq_nil in X. rewrite X in L. cbn in L. lia. }
  replace (map (fun v => [fst (key_of v); snd (key_of v)]) verts) with (map vec (map key_of verts)) in H by (rewrite map_map; reflexivity).
  destruct (vrep_contains E OK (map key_of verts) (k, l) Nv) as (c & b & E1 & E2 & E3). unfold vec at 1 in E2. cbn [fst snd] in E2.
  rewrite E1 in H. cbn [bind] in H. rewrite E2 in H. cbn [bind] in H.
  destruct b; cbn [negb] in H.
  2:{ injection H as <-. intro X. apply Hh, E3 in X. discriminate. }
  assert (In_hull : hull2 (node_keys hs) (k, l)) by (apply Hh, E3; reflexivity).
  assert (Dv : forall deps h, derived_exp_pair k l deps = Ret h -> n_data h = DPair k l /\ n_deps h = deps).
  { intros deps h Eh. unfold derived_exp_pair in Eh. apply derived_node_inv in Eh as (D1 & D2 & _). auto. }
  assert (Dk : forall h, n_data h = DPair k l -> is_pair h = true /\ pt_eq (key_of h) (k, l)).
  { intros h D. rewrite (key_data _ _ _ D). split; [apply is_pair_data; eauto|split; reflexivity]. }
  destruct reduce; cbn [negb] in H.
  - pose proof (best_triangle_inv (k, l) (if deep then filter is_pair hs else verts)) as BT.
    destruct (best_triangle (k, l) (if deep then filter is_pair hs else verts)) as [[[u v] w]|]; [|discriminate].
    destruct (derived_exp_pair k l [u; v; w]) as [h|] eqn:Eh; [|discriminate]. cbn [bind] in H. injection H as <-.
    destruct (Dv _ _ Eh) as [D1 D2]. destruct (Dk h D1) as [K1 K2]. split; [auto|]. split; [auto|]. split; [auto|]. right. split; [auto|]. split; [auto|].
    destruct BT as (O & T & M). pose proof (in_order_in _ _ _ _ _ O) as (Iu & Iv & Iw). split.
    + intros d Id. rewrite D2 in Id. assert (Id' : In d (if deep then filter is_pair hs else verts)) by (destruct Id as [<-|[<-|[<-|[]]]]; auto).
      destruct deep; [now apply filter_In in Id'|auto].
    + exists u, v, w, (if deep then filter is_pair hs else verts). split; [auto|]. split; [auto|]. split; [destruct deep; auto|]. auto.
  - destruct (derived_exp_pair k l verts) as [h|] eqn:Eh; [|discriminate]. cbn [bind] in H. injection H as <-.
    destruct (Dv _ _ Eh) as [D1 D2]. destruct (Dk h D1) as [K1 K2]. split; [auto|]. split; [auto|]. split; [auto|]. right. split; [auto|]. split; [auto|].
    rewrite D2. split; [auto|]. eapply hull2_sub; [|exact (proj1 E3 eq_refl)]. intros q I. apply in_map_iff in I as (v & <- & I).
    apply (hull2_in _ (key_of v)); [exists v; destruct (Hin v I); auto|split; reflexivity].
Qed.

(** Without the deep search every pair in the hull of three or more pairs that are
    not on a line gets its proof. *)
Lemma construct_total : forall k l hs reduce, Forall proper_node hs -> ~ collinear (map key_of (filter is_pair hs)) ->
  exists r, construct_proof ch E k l hs reduce false = Ret r.
Proof.
  intros k l hs reduce Fp NC. unfold construct_proof. destruct (filter is_pair hs) as [|e0 es] eqn:Ef; [eauto|]. rewrite <- Ef in *.
  destruct (find (fun h => pt_eqb (key_of h) (k, l)) (filter is_pair hs)) as [h|] eqn:Fd; [eauto|].
  destruct (compute_convex_hull ch hs) as [verts|] eqn:Ec.
  2:{ exfalso. unfold compute_convex_hull in Ec. destruct (List.length (filter is_pair hs) <? 3)%nat; [discriminate|].
      apply (proj2 (Hch _)) in NC as (vs & Ev & _). rewrite Ev in Ec. discriminate. }
  cbn [bind]. destruct (hull_nodes hs verts Ec) as (Hin & Hh & Cs).
  destruct Cs as [[L Y]|(vs & Hv & L & Y & K)].
  { exfalso. apply NC. intros a b c Ia Ib Ic. rewrite <- (map_length key_of) in L. clear - L Ia Ib Ic.
    destruct (map key_of (filter is_pair hs)) as [|u [|v [|]]]; cbn in *; try contradiction; [| |lia].
    - destruct Ia as [<-|[]], Ib as [<-|[]], Ic as [<-|[]]. unfold cross. ring.
    - destruct Ia as [<-|[<-|[]]], Ib as [<-|[<-|[]]], Ic as [<-|[<-|[]]]; unfold cross; ring. }
  assert (Nv : map key_of verts <> []).
  { rewrite Y. intro X. apply map_eq_nil, map_eq_nil in X. rewrite X in L. cbn in L. lia. }
  replace (map (fun v => [fst (key_of v); snd (key_of v)]) verts) with (map vec (map key_of verts)) by (rewrite map_map; reflexivity).
  destruct (vrep_contains E OK (map key_of verts) (k, l) Nv) as (c & b & E1 & E2 & E3). unfold vec at 1 in E2. cbn [fst snd] in E2.
  rewrite E1. cbn [bind]. rewrite E2. cbn [bind]. destruct b; cbn [negb]; [|eauto].
  assert (Der : forall deps, (forall d, In d deps -> In d verts) -> exists h, derived_exp_pair k l deps = Ret h).
  { intros deps Id. unfold derived_exp_pair. edestruct derived_node_ret as (h & Eh & _); [|exists h; exact Eh].
    apply Forall_forall. intros d I. rewrite Forall_forall in Fp. apply Fp. now apply Hin, Id. }
  destruct reduce; cbn [negb].
  2:{ destruct (Der verts (fun d I => I)) as (h & ->). cbn [bind]. eauto. }
  pose proof (best_triangle_inv (k, l) verts) as BT. destruct (best_triangle (k, l) verts) as [[[u v] w]|].
  - destruct BT as (O & _). pose proof (in_order_in _ _ _ _ _ O) as (Iu & Iv & Iw).
    destruct (Der [u; v; w]) as (h & ->); [intros d [<-|[<-|[<-|[]]]]; auto|]. cbn [bind]. eauto.
  - exfalso. destruct (fan _ _ Hv (k, l) L) as (x & y & z & O & T).
    + assert (Hk : hull2 (node_keys hs) (k, l)) by (apply Hh, E3; reflexivity). eapply hull2_sub; [|exact Hk].
      intros q (h & I & P & ->). apply (hull2_in _ (key_of h)); [|split; reflexivity]. apply in_map, filter_In. auto.
    + pose proof (in_order_in _ _ _ _ _ O) as (Ix & Iy & Iz).
      assert (O' := map_in_order _ _ (fun v => nth v (filter is_pair hs) trivial_exp_pair) _ _ _ _ O). rewrite <- Y in O'.
      apply BT in O'. rewrite !K in O' by auto. congruence.
Qed.

(** ** Truth *)
Lemma exp_pair_hull : forall W (S : pt -> Prop) p, admissible W -> (forall q, S q -> exp_pair W (fst q) (snd q)) -> hull2 S p -> exp_pair W (fst p) (snd p).
Proof.
  intros W S p Ad HS Hp. induction Hp as [a p Sa [E1 E2]|a b t p _ IHa _ IHb T0 T1 [E1 E2]].
  - destruct (HS a Sa) as [T B]. split; [apply (triangle_eq (fst a) (snd a)); auto; now symmetry|].
    intros x X0 X1. apply (beta_upper W Ad x x (fst a + (snd a - fst a) * x)); [reflexivity| |auto]. rewrite E1, E2. lra.
  - destruct IHa as [Ta Ba], IHb as [Tb Bb]. cbn [pmix fst snd] in E1, E2. split.
    + unfold triangle in *. rewrite E1, E2. repeat split; nra.
    + intros x X0 X1. set (la := fst a + (snd a - fst a) * x) in *. set (lb := fst b + (snd b - fst b) * x) in *.
      assert (Ex : fst p + (snd p - fst p) * x == (1 - t) * la + t * lb) by (unfold la, lb; rewrite E1, E2; ring).
      destruct (Qlt_le_dec la lb) as [L|L].
      * apply (beta_upper W Ad x x la); [reflexivity|rewrite Ex; nra|now apply Ba].
      * apply (beta_upper W Ad x x lb); [reflexivity|rewrite Ex; nra|now apply Bb].
Qed.

Lemma construct_true : forall tr btr W k l hs reduce deep h, admissible W -> Forall (holds tr btr W) hs ->
  construct_proof ch E k l hs reduce deep = Ret (Some h) -> holds tr btr W h.
Proof.
  intros tr btr W k l hs reduce deep h Ad Ho H. apply construct_cases in H as (P & K & Hh & _).
  assert (X : exp_pair W k l).
  { apply (exp_pair_hull W (node_keys hs) (k, l) Ad); [|auto]. intros q (g & I & Pg & ->). rewrite Forall_forall in Ho. specialize (Ho g I).
    apply is_pair_data in Pg as (k' & l' & D). unfold holds in Ho. rewrite D in Ho. now rewrite (key_data _ _ _ D). }
  apply is_pair_data in P as (k' & l' & D). rewrite (key_data _ _ _ D) in K. destruct K as [K1 K2]. cbn [fst snd] in *.
  unfold holds. rewrite D. destruct X as [T B]. split; [apply (triangle_eq k l); auto; now symmetry|].
  intros a A0 A1. apply (beta_upper W Ad a a (k + (l - k) * a)); [reflexivity|rewrite K1, K2; lra|auto].
Qed.

(** ** All methods *)
Context (tr : nat -> hnode -> res hnode).

Lemma exp_true : forall btr W hs out depth prune, Forall (holds tr btr W) hs -> compute_exp_pairs ch tr hs depth prune = Ret out ->
  Forall (holds tr btr W) out.
Proof.
  intros btr W hs out depth prune Ho H. apply Forall_forall. intros p I.
  destruct (compute_sound ch tr Hch hs depth prune out p H I) as [_ (n & _ & R)].
  assert (S : forall g, Forall (holds tr btr W) (filter g hs)).
  { intro g. apply Forall_forall. intros x Ix. apply filter_In in Ix as [Ix _]. rewrite Forall_forall in Ho. auto. }
  apply (reach_true tr btr W _ _ n p (S is_pair) (S is_trans)); [apply filter_pairs|auto].
Qed.

Lemma beta_safe_true : forall btr W hs sub out, admissible W -> beta_safe hs -> incl sub hs -> Forall (holds tr btr W) sub ->
  beta_bounds_to_exponent_pairs ch tr sub = Ret out -> Forall (holds tr btr W) out.
Proof.
  intros btr W hs sub out Ad [Wf Sf] Sb Ho H. pose proof H as H0. unfold beta_bounds_to_exponent_pairs in H0.
  destruct (best_beta_nodes sub) as [bb|] eqn:Eb; [|discriminate]. cbn [bind] in H0.
  destruct bb as [|b0 bb']; [injection H0 as <-; constructor|].
  destruct (Qltb_spec 0 (x0 (dom (bound_of b0)))) as [X|X]; cbn [orb] in H0; [injection H0 as <-; constructor|].
  destruct (Qltb_spec (x1 (dom (bound_of (last (b0 :: bb') b0)))) (1#2)) as [Y|Y]; [injection H0 as <-; constructor|].
  destruct (Sf sub (b0 :: bb') b0 Sb Eb eq_refl X Y) as [G C].
  assert (Wf' : Forall (fun h => is_beta h = true -> wf (dom (bound_of h))) sub).
  { rewrite Forall_forall in Wf |- *. auto. }
  apply Forall_forall. intros h I. exact (proj2 (from_beta_true ch Hch tr btr W sub (b0 :: bb') out Ad Wf' Ho C Eb G H h I)).
Qed.

Context (ord : list hnode -> list hnode) (Hord : traversal ord).

Lemma ord_Forall : forall P l, Forall P l -> Forall P (ord l).
Proof. intros P l F. apply Forall_forall. intros x I. rewrite Forall_forall in F. apply F, Hord, I. Qed.

Lemma filterM_in : forall A (f : A -> res bool) l r, filterM f l = Ret r -> forall x, In x r <-> In x l /\ f x = Ret true.
Proof.
  intros A f. induction l as [|a l IH]; intros r H x; cbn [filterM] in H.
  - injection H as <-. cbn. tauto.
  - destruct (f a) as [b|] eqn:Ea; [|discriminate]. cbn [bind] in H. destruct (filterM f l) as [r'|]; [|discriminate]. cbn [bind] in H.
    injection H as <-. specialize (IH r' eq_refl x). destruct b; cbn [In]; rewrite IH.
    + split; [intros [<-|[? ?]]; auto|]. intros [[<-|?] ?]; auto.
    + split; [intros [? ?]; auto|]. intros [[<-|?] ?]; [congruence|auto].
Qed.

Lemma date_true : forall btr W k l hs years num h, admissible W -> beta_safe hs -> Forall (holds tr btr W) hs ->
  by_date ch tr E ord k l hs years num = Ret (Some h) -> is_pair h = true /\ pt_eq (key_of h) (k, l) /\ holds tr btr W h.
Proof.
  intros btr W k l hs years num h Ad Sf Ho. revert num. induction years as [|y years IH]; intros num H; cbn [by_date] in H; [discriminate|].
  destruct (filterM _ hs) as [hy|] eqn:Fm; [|discriminate]. cbn [bind] in H.
  assert (Sub : incl (ord hy) hs) by (intros x I; apply (proj1 (Hord hy x)) in I; exact (proj1 (proj1 (filterM_in _ _ _ _ Fm x) I))).
  assert (Hh : Forall (holds tr btr W) (ord hy)).
  { apply Forall_forall. intros x I. rewrite Forall_forall in Ho. auto. }
  destruct (List.length (ord hy) =? num)%nat; [exact (IH num H)|].
  destruct (beta_bounds_to_exponent_pairs ch tr (ord hy)) as [n1|] eqn:E1; [|discriminate]. cbn [bind] in H.
  pose proof (beta_safe_true btr W hs (ord hy) n1 Ad Sf Sub Hh E1) as H1.
  assert (F1 : Forall (holds tr btr W) (ord (ord hy ++ n1))) by (apply ord_Forall, Forall_app; auto).
  destruct (compute_exp_pairs ch tr (ord (ord hy ++ n1)) 5 true) as [n2|] eqn:E2; [|discriminate]. cbn [bind] in H.
  pose proof (exp_true btr W _ n2 5%nat true F1 E2) as H2.
  assert (F2 : Forall (holds tr btr W) (ord (ord (ord hy ++ n1) ++ n2))) by (apply ord_Forall, Forall_app; auto).
  destruct (construct_proof ch E k l _ true false) as [[p|]|] eqn:Ec; [| |discriminate]; cbn [bind] in H.
  - injection H as <-. pose proof (construct_cases _ _ _ _ _ _ Ec) as (P & K & _). split; [auto|]. split; [auto|].
    exact (construct_true tr btr W k l _ true false p Ad F2 Ec).
  - exact (IH _ H).
Qed.

Lemma complexity_true : forall btr W k l n hyps h, admissible W -> Forall (holds tr btr W) hyps ->
  by_complexity ch tr E ord k l hyps n = Ret (Some h) -> is_pair h = true /\ pt_eq (key_of h) (k, l) /\ holds tr btr W h.
Proof.
  intros btr W k l. induction n as [|n IH]; intros hyps h Ad Ho H; cbn [by_complexity] in H; [discriminate|].
  destruct (compute_exp_pairs ch tr hyps 1 false) as [n2|] eqn:E2; [|discriminate]. cbn [bind] in H.
  pose proof (exp_true btr W _ n2 1%nat false Ho E2) as H2.
  assert (F2 : Forall (holds tr btr W) (ord (hyps ++ n2))) by (apply ord_Forall, Forall_app; auto).
  destruct (construct_proof ch E k l _ true true) as [[p|]|] eqn:Ec; [| |discriminate]; cbn [bind] in H.
  - injection H as <-. pose proof (construct_cases _ _ _ _ _ _ Ec) as (P & K & _). split; [auto|]. split; [auto|].
    exact (construct_true tr btr W k l _ true true p Ad F2 Ec).
  - exact (IH _ _ Ad F2 H).
Qed.

Lemma find_true : forall btr W k l hs m h, admissible W -> beta_safe hs -> Forall (holds tr btr W) hs ->
  find_best_proof ch tr E ord k l hs m = Ret (Some h) -> is_pair h = true /\ pt_eq (key_of h) (k, l) /\ holds tr btr W h.
Proof.
  intros btr W k l hs m h Ad Sf Ho H. destruct m; cbn [find_best_proof] in H; [| | |discriminate].
  - destruct (val_min _) as [a|]; [|discriminate]. cbn [bind] in H. destruct (val_max _) as [b|]; [|discriminate]. cbn [bind] in H.
    destruct a; try discriminate. destruct b; try discriminate. exact (date_true btr W k l hs _ _ h Ad Sf Ho H).
  - destruct (by_complexity ch tr E ord k l hs 10) as [[p|]|] eqn:Ec; [| |discriminate]; cbn [bind] in H.
    + injection H as <-. exact (complexity_true btr W k l 10 hs p Ad Ho Ec).
    + destruct (beta_bounds_to_exponent_pairs ch tr hs) as [n1|] eqn:E1; [|discriminate]. cbn [bind] in H.
      pose proof (beta_safe_true btr W hs hs n1 Ad Sf (incl_refl _) Ho E1) as H1.
      apply (complexity_true btr W k l 10 (ord (hs ++ n1)) h Ad); [|exact H]. apply ord_Forall, Forall_app; auto.
  - destruct (beta_bounds_to_exponent_pairs ch tr hs) as [n1|]; [|discriminate]. cbn [bind] in H.
    destruct (compute_exp_pairs ch tr (ord (hs ++ n1)) 5 true) as [n2|]; [|discriminate]. cbn [bind] in H.
    pose proof (construct_cases _ _ _ _ _ _ H) as (P & K & _). split; [auto|]. split; [auto|].
    exact (construct_true tr btr W k l hs false false h Ad Ho H).
Qed.

(** The year of the proof: nothing later is used, and the sets of all earlier years
    of the range, with everything derived from them, do not reach the pair. *)
Lemma val_eqb_true : forall a b, val_eqb a b = true -> a = b.
Proof.
  intros [m| |s] [n| |t] H; cbn in H; try discriminate; auto.
  - apply Z.eqb_eq in H. congruence.
  - apply str_eqb_true in H. congruence.
Qed.

Lemma known_b_spec : forall y h, known_b y h = true <-> known_in y h.
Proof.
  intros y h. unfold known_b, known_in. destruct (r_year (n_ref h)) as [z| |s] eqn:Ey.
  - split; [intro L; right; exists z; split; [auto|now apply Z.leb_le]|]. intros [C|(z' & C & L)]; [discriminate|].
    injection C as <-. now apply Z.leb_le.
  - split; [intro V; left; now apply val_eqb_true|]. intros [C|(z' & C & L)]; discriminate.
  - split; [intro V; left; now apply val_eqb_true|]. intros [C|(z' & C & L)]; [|discriminate]. rewrite C. reflexivity.
Qed.

Lemma filterM_known : forall y hs r,
  filterM (fun h => if dated h then val_le (r_year (n_ref h)) (VInt y) else Ret true) hs = Ret r -> r = filter (known_b y) hs.
Proof.
  intro y. induction hs as [|h hs IH]; intros r H; cbn [filterM filter] in *; [congruence|].
  destruct (if dated h then _ else _) as [b|] eqn:Eb; [|discriminate]. cbn [bind] in H.
  destruct (filterM _ hs) as [r'|]; [|discriminate]. cbn [bind] in H. injection H as <-. specialize (IH _ eq_refl). subst r'.
  replace (known_b y h) with b; [reflexivity|]. unfold dated in Eb. unfold known_b.
  destruct (r_year (n_ref h)) as [z| |s]; cbn in Eb |- *; try congruence.
  destruct (str_eqb s _) eqn:Es; cbn in Eb; [|discriminate]. injection Eb as <-. reflexivity.
Qed.

Lemma filter_length_eq : forall A (f g : A -> bool) l, (forall x, f x = true -> g x = true) ->
  List.length (filter f l) = List.length (filter g l) -> filter f l = filter g l.
Proof.
  intros A f g l Im. assert (Le : forall l, (List.length (filter f l) <= List.length (filter g l))%nat).
  { induction l0 as [|a l0 IH]; cbn; auto. pose proof (Im a). destruct (f a); [rewrite H by auto; cbn; lia|]. destruct (g a); cbn; lia. }
  induction l as [|a l IH]; intro L; cbn in *; auto. pose proof (Im a) as Ia. pose proof (Le l).
  destruct (f a); [rewrite Ia in * by auto; cbn in L; f_equal; apply IH; lia|].
  destruct (g a); [cbn in L; lia|]. auto.
Qed.

Lemma known_mono : forall y y' h, (y <= y')%Z -> known_b y h = true -> known_b y' h = true.
Proof.
  intros y y' h L H. apply known_b_spec in H. apply known_b_spec. destruct H as [H|(z & H & Z)]; [left; auto|].
  right. exists z. split; [auto|lia].
Qed.

Context (Hlen : forall l, NoDup l -> List.length (ord l) = List.length l).

Lemma known_set_ext : forall hs y y' S, filter (known_b y) hs = filter (known_b y') hs ->
  known_set ch tr ord hs y S -> known_set ch tr ord hs y' S.
Proof. intros hs y y' S Q. unfold known_set. rewrite Q. auto. Qed.

Lemma date_first : forall k l hs years num r, NoDup hs -> StronglySorted Z.lt years ->
  (forall y, In y years -> filter (known_b y) hs <> []) ->
  (num = 0%nat \/ exists y0, Forall (Z.lt y0) years /\ out_of_reach ch tr ord hs y0 k l /\ List.length (filter (known_b y0) hs) = num) ->
  by_date ch tr E ord k l hs years num = Ret r ->
  match r with
  | Some h => exists y S, In y years /\ known_set ch tr ord hs y S /\ construct_proof ch E k l S true false = Ret (Some h) /\
                forall y', In y' years -> (y' < y)%Z -> out_of_reach ch tr ord hs y' k l
  | None => forall y', In y' years -> out_of_reach ch tr ord hs y' k l
  end.
Proof.
  intros k l hs years num r ND. revert num r. induction years as [|y years IH]; intros num r So Ne Inv H; cbn [by_date] in H.
  { injection H as <-. intros y' []. }
  apply StronglySorted_inv in So as [So Lt].
  destruct (filterM _ hs) as [hy|] eqn:Fm; [|discriminate]. cbn [bind] in H. apply filterM_known in Fm. subst hy.
  rewrite Hlen in H by (apply NoDup_filter; auto).
  assert (Lift : out_of_reach ch tr ord hs y k l -> by_date ch tr E ord k l hs years (List.length (filter (known_b y) hs)) = Ret r ->
    match r with
    | Some h => exists y1 S, In y1 (y :: years) /\ known_set ch tr ord hs y1 S /\ construct_proof ch E k l S true false = Ret (Some h) /\
                forall y', In y' (y :: years) -> (y' < y1)%Z -> out_of_reach ch tr ord hs y' k l
    | None => forall y', In y' (y :: years) -> out_of_reach ch tr ord hs y' k l
    end).
  { intros O B. apply IH in B; auto.
    - destruct r as [h|].
      + destruct B as (y1 & S & I & K & C & F). exists y1, S. split; [right; auto|]. split; [auto|]. split; [auto|].
        intros y' [<-|I'] L'; auto.
      + intros y' [<-|I']; auto.
    - intros y1 I1. apply Ne. right; auto.
    - right. exists y. auto. }
  destruct (Nat.eqb_spec (List.length (filter (known_b y) hs)) num) as [En|En].
  - apply Lift; [|rewrite En; exact H]. destruct Inv as [->|(y0 & F0 & (S & K & O) & L0)].
    + apply length_zero_iff_nil in En. exfalso. apply (Ne y); [left; auto|auto].
    + exists S. split; [|auto]. apply (known_set_ext hs y0 y); [|auto]. apply filter_length_eq; [|congruence].
      intros x. apply known_mono. inversion F0; subst. lia.
  - destruct (beta_bounds_to_exponent_pairs ch tr _) as [n1|] eqn:E1; [|discriminate]. cbn [bind] in H.
    destruct (compute_exp_pairs ch tr _ 5 true) as [n2|] eqn:E2; [|discriminate]. cbn [bind] in H.
    destruct (construct_proof ch E k l _ true false) as [[p|]|] eqn:Ec; [| |discriminate]; cbn [bind] in H.
    + injection H as <-. exists y, (ord (ord (ord (filter (known_b y) hs) ++ n1) ++ n2)). split; [left; auto|].
      split; [exists n1, n2; auto|]. split; [auto|]. intros y' [<-|I] L; [lia|]. rewrite Forall_forall in Lt. specialize (Lt _ I). lia.
    + apply Lift; [|exact H]. exists (ord (ord (ord (filter (known_b y) hs) ++ n1) ++ n2)).
      split; [exists n1, n2; auto|]. exact (construct_cases _ _ _ _ _ _ Ec).
Qed.

Lemma val_min_le : forall l a, val_min l = Ret (VInt a) -> forall z, In (VInt z) l -> (a <= z)%Z.
Proof.
  assert (G : forall l b a, val_min_from b l = Ret (VInt a) -> forall z, In (VInt z) (b :: l) -> (a <= z)%Z).
  { induction l as [|v l IH]; intros b a H z I; cbn [val_min_from] in H.
    - injection H as ->. destruct I as [I|[]]. injection I as ->. lia.
    - destruct (val_lt v b) as [t|] eqn:T; [|discriminate]. cbn [bind] in H.
      destruct I as [->|[->|I]].
      + destruct v as [m| |]; cbn in T; try discriminate; injection T as <-.
        * destruct (Z.ltb_spec m z); [pose proof (IH _ _ H m (or_introl eq_refl)); lia|]. apply (IH _ _ H). left; auto.
        * cbn in H. apply (IH _ _ H). left; auto.
      + destruct b as [m| |]; cbn in T; try discriminate; injection T as <-.
        * destruct (Z.ltb_spec z m); [apply (IH _ _ H); left; auto|]. pose proof (IH _ _ H m (or_introl eq_refl)). lia.
        * cbn in H. apply (IH _ _ H). left; auto.
      + apply (IH _ _ H). right; auto. }
  intros [|v l] a H z I; [discriminate|]. exact (G l v a H z I).
Qed.
Lemma val_max_ge : forall l a, val_max l = Ret (VInt a) -> forall z, In (VInt z) l -> (z <= a)%Z.
Proof.
  assert (G : forall l b a, val_max_from b l = Ret (VInt a) -> forall z, In (VInt z) (b :: l) -> (z <= a)%Z).
  { induction l as [|v l IH]; intros b a H z I; cbn [val_max_from] in H.
    - injection H as ->. destruct I as [I|[]]. injection I as ->. lia.
    - destruct (val_lt b v) as [t|] eqn:T; [|discriminate]. cbn [bind] in H.
      assert (Inf : forall l a, val_max_from VInf l = Ret (VInt a) -> False).
      { clear. induction l as [|v l IH]; intros a H; cbn [val_max_from] in H; [discriminate|].
        destruct v; cbn in H; try discriminate; eauto. }
      destruct I as [->|[->|I]].
      + destruct v as [m| |]; cbn in T; try discriminate; injection T as <-.
        * destruct (Z.ltb_spec z m); [pose proof (IH _ _ H m (or_introl eq_refl)); lia|]. apply (IH _ _ H). left; auto.
        * cbn in H. destruct (Inf _ _ H).
      + destruct b as [m| |]; cbn in T; try discriminate; injection T as <-.
        * destruct (Z.ltb_spec m z); [apply (IH _ _ H); left; auto|]. pose proof (IH _ _ H m (or_introl eq_refl)). lia.
        * cbn in H. destruct (Inf _ _ H).
      + apply (IH _ _ H). right; auto. }
  intros [|v l] a H z I; [discriminate|]. exact (G l v a H z I).
Qed.
Lemma val_min_in : forall l v, val_min l = Ret v -> In v l.
Proof.
  assert (G : forall l b v, val_min_from b l = Ret v -> In v (b :: l)).
  { induction l as [|x l IH]; intros b v H; cbn [val_min_from] in H; [injection H as ->; left; auto|].
    destruct (val_lt x b) as [t|]; [|discriminate]. cbn [bind] in H. apply IH in H. destruct t, H as [<-|H]; cbn; auto. }
  intros [|x l] v H; [discriminate|]. exact (G l x v H).
Qed.
Lemma val_max_in : forall l v, val_max l = Ret v -> In v l.
Proof.
  assert (G : forall l b v, val_max_from b l = Ret v -> In v (b :: l)).
  { induction l as [|x l IH]; intros b v H; cbn [val_max_from] in H; [injection H as ->; left; auto|].
    destruct (val_lt b x) as [t|]; [|discriminate]. cbn [bind] in H. apply IH in H. destruct t, H as [<-|H]; cbn; auto. }
  intros [|x l] v H; [discriminate|]. exact (G l x v H).
Qed.

Lemma zrange_in : forall a b y, In y (zrange a b) <-> (a <= y < b)%Z.
Proof.
  intros a b y. unfold zrange. rewrite in_map_iff. split.
  - intros (i & <- & I). apply in_seq in I. lia.
  - intros [L1 L2]. exists (Z.to_nat (y - a)). split; [lia|]. apply in_seq. lia.
Qed.
Lemma zrange_sorted : forall a b, StronglySorted Z.lt (zrange a b).
Proof.
  intros a b. unfold zrange. generalize 0%nat as s. induction (Z.to_nat (b - a)) as [|n IH]; intro s; cbn [seq map]; constructor; auto.
  apply Forall_forall. intros y I. apply in_map_iff in I as (i & <- & I). apply in_seq in I. lia.
Qed.

Lemma find_date : forall k l hs r, NoDup hs -> find_best_proof ch tr E ord k l hs MDate = Ret r ->
  match r with
  | Some h => exists y S, known_set ch tr ord hs y S /\ construct_proof ch E k l S true false = Ret (Some h) /\
                forall y' x z, In x hs -> r_year (n_ref x) = VInt z -> (z <= y')%Z -> (y' < y)%Z -> out_of_reach ch tr ord hs y' k l
  | None => forall y' x z, In x hs -> r_year (n_ref x) = VInt z -> (z <= y')%Z -> out_of_reach ch tr ord hs y' k l
  end.
Proof.
  intros k l hs r ND H. cbn [find_best_proof] in H.
  set (ys := map _ _) in H. assert (Ys : forall x z, In x hs -> r_year (n_ref x) = VInt z -> In (VInt z) ys).
  { intros x z I Y. apply in_map_iff. exists x. split; [auto|]. apply filter_In. split; [auto|]. unfold dated. rewrite Y. reflexivity. }
  assert (Ys' : forall v, In v ys -> exists x, In x hs /\ r_year (n_ref x) = v).
  { intros v I. apply in_map_iff in I as (x & Y & I). apply filter_In in I as [I _]. exists x; auto. }
  destruct (val_min ys) as [a|] eqn:Ea; [|discriminate]. cbn [bind] in H.
  destruct (val_max ys) as [b|] eqn:Eb; [|discriminate]. cbn [bind] in H.
  destruct a as [a| |]; try discriminate. destruct b as [b| |]; try discriminate.
  destruct (Ys' _ (val_min_in _ _ Ea)) as (xa & Ia & Ya). destruct (Ys' _ (val_max_in _ _ Eb)) as (xb & Ib & Yb).
  pose proof (date_first k l hs (zrange a (b + 1)) 0%nat r ND (zrange_sorted a (b + 1))) as D.
  assert (Ne : forall y, In y (zrange a (b + 1)) -> filter (known_b y) hs <> []).
  { intros y I C. apply zrange_in in I. assert (K : In xa (filter (known_b y) hs)); [|rewrite C in K; destruct K].
    apply filter_In. split; [auto|]. unfold known_b. rewrite Ya. apply Z.leb_le. lia. }
  specialize (D Ne (or_introl eq_refl) H). destruct r as [h|].
  - destruct D as (y & S & I & K & C & F). exists y, S. split; [auto|]. split; [auto|]. intros y' x z Ix Yx L1 L2.
    apply F; [|auto]. apply zrange_in in I. apply zrange_in. pose proof (val_min_le _ _ Ea z (Ys _ _ Ix Yx)). lia.
  - intros y' x z Ix Yx L1. pose proof (val_min_le _ _ Ea z (Ys _ _ Ix Yx)) as L2. pose proof (val_max_ge _ _ Eb z (Ys _ _ Ix Yx)) as L3.
    destruct (Z_le_gt_dec y' b) as [L|L]; [apply D, zrange_in; lia|].
    destruct (D b) as (S & K & O); [apply zrange_in; lia|]. exists S. split; [|auto]. apply (known_set_ext hs b y'); [|auto].
    apply filter_ext_in. intros x1 I1. destruct (known_b b x1) eqn:K1; symmetry.
    + apply (known_mono b y'); [lia|auto].
    + destruct (known_b y' x1) eqn:K2; [|auto]. exfalso. apply known_b_spec in K2. assert (K3 : known_b b x1 = true); [|congruence].
      apply known_b_spec. destruct K2 as [K2|(z1 & Y1 & _)]; [left; auto|]. right. exists z1. split; [auto|].
      exact (val_max_ge _ _ Eb z1 (Ys _ _ I1 Y1)).
Qed.
End Construct.
