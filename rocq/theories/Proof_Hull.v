(** Gift wrapping meets [hull_spec]. *)
From Verif Require Import Base Model_Hull Spec_Hull.
From Coq Require Import Setoid Morphisms.

(** ** Points *)
Lemma pt_eq_refl : forall a, pt_eq a a.
Proof. intros a; split; reflexivity. Qed.
Lemma pt_eq_sym : forall a b, pt_eq a b -> pt_eq b a.
Proof. intros a b [H1 H2]; split; lra. Qed.
Lemma pt_eq_trans : forall a b c, pt_eq a b -> pt_eq b c -> pt_eq a c.
Proof. intros a b c [H1 H2] [H3 H4]; split; lra. Qed.
#[global] Instance pt_eq_equiv : Equivalence pt_eq.
Proof. split; [exact pt_eq_refl|exact pt_eq_sym|exact pt_eq_trans]. Qed.

#[global] Instance cross_proper : Proper (pt_eq ==> pt_eq ==> pt_eq ==> Qeq) cross.
Proof.
  intros a a' [A1 A2] b b' [B1 B2] c c' [C1 C2]. unfold cross.
  now rewrite A1, A2, B1, B2, C1, C2.
Qed.

Lemma pt_eqb_spec : forall a b, reflect (pt_eq a b) (pt_eqb a b).
Proof.
  intros a b. unfold pt_eqb, pt_eq.
  destruct (Qeqb_spec (fst a) (fst b)), (Qeqb_spec (snd a) (snd b)); constructor; tauto.
Qed.

#[global] Instance mix_proper : Proper (Qeq ==> pt_eq ==> pt_eq ==> pt_eq) pmix.
Proof.
  intros t t' T a a' [A1 A2] b b' [B1 B2]. unfold pmix; split; cbn;
  rewrite T, ?A1, ?A2, ?B1, ?B2; reflexivity.
Qed.

Lemma hull2_eq : forall S p q, pt_eq p q -> hull2 S p -> hull2 S q.
Proof.
  intros S p q E H. destruct H as [a p Sa Ea|a b t p Ha Hb T0 T1 Ep].
  - apply (hull2_in S a); auto. now rewrite <- E.
  - apply (hull2_mix S a b t); auto. now rewrite <- E.
Qed.

Lemma hull2_sub : forall (S T : pt -> Prop) p, (forall q, S q -> hull2 T q) -> hull2 S p -> hull2 T p.
Proof.
  intros S T p H K. induction K as [a p Sa Ea|a b t p Ha IHa Hb IHb T0 T1 Ep].
  - apply (hull2_eq T a); [now symmetry|auto].
  - apply (hull2_mix T a b t); auto.
Qed.

(** Any property of points that is convex passes from a set to its hull. *)
Lemma hull2_ind_convex : forall (S C : pt -> Prop),
  (forall p q, pt_eq p q -> C p -> C q) ->
  (forall a b t, C a -> C b -> 0 <= t -> t <= 1 -> C (pmix t a b)) ->
  (forall p, S p -> C p) -> forall p, hull2 S p -> C p.
Proof.
  intros S C CE CM SC p H. induction H as [a p Sa Ea|a b t p Ha IHa Hb IHb T0 T1 Ep].
  - apply (CE a); [now symmetry|auto].
  - apply (CE (pmix t a b)); [now symmetry|auto].
Qed.

Lemma cross_mix : forall u v a b t,
  cross u v (pmix t a b) == (1 - t) * cross u v a + t * cross u v b.
Proof. intros. unfold cross, pmix; cbn. ring. Qed.

Lemma hull2_left : forall (S : pt -> Prop) u v, (forall q, S q -> 0 <= cross u v q) ->
  forall p, hull2 S p -> 0 <= cross u v p.
Proof.
  intros S u v H. apply hull2_ind_convex; auto.
  - intros p q E K. now rewrite <- E.
  - intros a b t A B T0 T1. rewrite cross_mix.
    assert (0 <= (1 - t) * cross u v a) by (apply Qmult_le_0_compat; lra).
    assert (0 <= t * cross u v b) by (apply Qmult_le_0_compat; lra). lra.
Qed.

(** ** [best] *)
Lemma best_ok : forall A (bt : A -> A -> bool),
  (forall a, bt a a = false) ->
  (forall a b, bt a b = true -> bt b a = false) ->
  (forall a b c, bt a b = false -> bt b c = false -> bt a c = false) ->
  forall l b, In (best bt b l) (b :: l) /\ forall t, In t (b :: l) -> bt t (best bt b l) = false.
Proof.
  intros A bt RF AS TR. induction l as [|a l IH]; intros b.
  - split; [now left|]. intros t [<-|[]]. apply RF.
  - cbn [best]. destruct (bt a b) eqn:E.
    + destruct (IH a) as [I1 I2]. split.
      * right. exact I1.
      * intros t [<-|I].
        -- apply (TR b a); [now apply AS|]. apply I2. now left.
        -- now apply I2.
    + destruct (IH b) as [I1 I2]. split.
      * destruct I1 as [I1|I1]; [now left|right; now right].
      * intros t [<-|[<-|I]].
        -- apply I2. now left.
        -- apply (TR a b); [auto|]. apply I2. now left.
        -- apply I2. now right.
Qed.

(** ** Chains *)
Fixpoint chained {A} (R : A -> A -> Prop) (l : list A) : Prop :=
  match l with
  | a :: (b :: _) as l' => R a b /\ chained R l'
  | _ => True
  end.

Lemma chained_cons : forall A (R : A -> A -> Prop) a b l,
  chained R (a :: b :: l) <-> R a b /\ chained R (b :: l).
Proof. reflexivity. Qed.

Lemma chained_impl : forall A (R R' : A -> A -> Prop) l,
  (forall a b, In a l -> In b l -> R a b -> R' a b) -> chained R l -> chained R' l.
Proof.
  induction l as [|a [|b l] IH]; intros H C; auto.
  apply chained_cons in C as [C1 C2]. apply chained_cons. split.
  - apply H; auto; cbn; auto.
  - apply IH; auto. intros c d I J. apply H; cbn; auto.
Qed.

Lemma chained_app : forall A (R : A -> A -> Prop) l a b m,
  chained R (l ++ [a]) -> R a b -> chained R (b :: m) -> chained R (l ++ a :: b :: m).
Proof.
  induction l as [|c l IH]; intros a b m C1 H C2.
  - cbn. auto.
  - destruct l as [|d l].
    + cbn in *. tauto.
    + cbn [app] in *. apply chained_cons in C1 as [K1 K2]. apply chained_cons. split; [auto|].
      apply (IH a b m); auto.
Qed.

Lemma chained_app_l : forall A (R : A -> A -> Prop) l m, chained R (l ++ m) -> chained R l.
Proof.
  induction l as [|a [|b l] IH]; intros m C; cbn [app] in *; auto.
  - exact Logic.I.
  - exact Logic.I.
  - apply chained_cons in C as [C1 C2]. apply chained_cons. split; [auto|]. now apply (IH m).
Qed.

(** Replace the head, or the last element. *)
Lemma chained_hd : forall A (R : A -> A -> Prop) a b l,
  (forall c, R a c -> R b c) -> chained R (a :: l) -> chained R (b :: l).
Proof. intros A R a b [|c l] H C; auto. apply chained_cons in C as [C1 C2]. apply chained_cons. auto. Qed.
Lemma chained_last : forall A (R : A -> A -> Prop) l a b,
  (forall c, R c a -> R c b) -> chained R (l ++ [a]) -> chained R (l ++ [b]).
Proof.
  induction l as [|c [|d l] IH]; intros a b H C; cbn [app] in *.
  - exact Logic.I.
  - apply chained_cons in C as [C1 C2]. apply chained_cons. split; [auto|exact Logic.I].
  - apply chained_cons in C as [C1 C2]. apply chained_cons. split; [auto|]. now apply (IH a b).
Qed.
Lemma chained_glue : forall A (R : A -> A -> Prop) l a m,
  chained R (l ++ [a]) -> chained R (a :: m) -> chained R (l ++ a :: m).
Proof.
  induction l as [|c [|d l] IH]; intros a m C1 C2; cbn [app] in *; auto.
  - apply chained_cons in C1 as [K1 K2]. apply chained_cons. auto.
  - apply chained_cons in C1 as [K1 K2]. apply chained_cons. split; [auto|]. now apply IH.
Qed.

Lemma in_combine_shift : forall A (R : A -> A -> Prop) l a b z,
  chained R (l ++ [z]) -> In (a, b) (combine l (tl l ++ [z])) -> R a b.
Proof.
  induction l as [|c [|d l] IH]; intros a b z C I.
  - destruct I.
  - cbn in I. destruct I as [I|[]]. injection I as <- <-. cbn in C. tauto.
  - cbn [tl app combine] in I. cbn [app] in C. apply chained_cons in C as [C1 C2].
    destruct I as [I|I]; [injection I as <- <-; auto|].
    apply (IH a b z); auto.
Qed.

Lemma cyc_edges_chained : forall A (R : A -> A -> Prop) h l a b,
  chained R ((h :: l) ++ [h]) -> In (a, b) (cyc_edges (h :: l)) -> R a b.
Proof. intros A R h l a b C I. apply (in_combine_shift A R (h :: l) a b h); auto. Qed.

(** Every element starts an edge. *)
Lemma combine_fst : forall A B (l : list A) (m : list B) a, length l = length m -> In a l ->
  exists b, In (a, b) (combine l m).
Proof.
  induction l as [|c l IH]; intros [|d m] a E I; try discriminate; [destruct I|].
  cbn in E. injection E as E. destruct I as [<-|I].
  - exists d. now left.
  - destruct (IH m a E I) as [b K]. exists b. now right.
Qed.
Lemma cyc_edges_start : forall A (l : list A) a, In a l -> exists b, In (a, b) (cyc_edges l).
Proof.
  intros A [|h l] a I; [destruct I|]. apply combine_fst; auto.
  cbn. rewrite app_length. cbn. lia.
Qed.
Lemma cyc_edges_in : forall A (l : list A) a b, In (a, b) (cyc_edges l) -> In a l /\ In b l.
Proof.
  intros A [|h l] a b I; [destruct I|]. unfold cyc_edges in I. split.
  - apply in_combine_l in I. exact I.
  - apply in_combine_r in I. apply in_app_or in I as [I|[<-|[]]]; cbn; auto.
Qed.

Lemma filter_shorter : forall A (f g : A -> bool) l x,
  (forall a, f a = true -> g a = true) -> In x l -> g x = true -> f x = false ->
  (length (filter f l) < length (filter g l))%nat.
Proof.
  intros A f g l x FG I Gx Fx. induction l as [|a l IH]; [destruct I|].
  assert (W : forall m, (length (filter f m) <= length (filter g m))%nat).
  { induction m as [|b m IHm]; cbn; [lia|]. destruct (f b) eqn:Fb; [rewrite (FG b Fb); cbn; lia|].
    destruct (g b); cbn; lia. }
  destruct I as [<-|I].
  - cbn. rewrite Fx, Gx. cbn. specialize (W l). lia.
  - specialize (IH I). cbn. destruct (f a) eqn:Fa; [rewrite (FG a Fa); cbn; lia|].
    destruct (g a); cbn; lia.
Qed.

Lemma filter_length_le' : forall A (f : A -> bool) l, (length (filter f l) <= length l)%nat.
Proof. induction l as [|a l IH]; cbn; [lia|]. destruct (f a); cbn; lia. Qed.

Section Wrap.
Context (P : nat -> pt) (idx : list nat).
Notation px := (px P).
Notation py := (py P).

Lemma lefter_ok : forall l b,
  In (best (lefter P) b l) (b :: l) /\
  forall t, In t (b :: l) ->
    px (best (lefter P) b l) <= px t /\
    (px (best (lefter P) b l) == px t -> py (best (lefter P) b l) <= py t).
Proof.
  assert (F : forall a b, lefter P a b = false ->
    px b <= px a /\ (px b == px a -> py b <= py a)).
  { intros a b H. unfold lefter in H. apply orb_false_iff in H as [H1 H2]. qprop. split; [auto|].
    intros E. destruct (Qeqb_spec (px a) (px b)) as [E2|N]; [|exfalso; apply N; lra].
    cbn in H2. qprop. auto. }
  assert (G : forall a b, px b <= px a /\ (px b == px a -> py b <= py a) -> lefter P a b = false).
  { intros a b [H1 H2]. unfold lefter. apply orb_false_iff. split; [now apply Qltb_false|].
    destruct (Qeqb_spec (px a) (px b)) as [E2|N]; cbn; [|auto].
    apply Qltb_false, H2. lra. }
  intros l b.
  destruct (best_ok nat (lefter P)) with (l := l) (b := b) as [H1 H2].
  - intros a. apply G. split; [lra|intros; lra].
  - intros a c H. apply G. unfold lefter in H. apply orb_true_iff in H. destruct H as [H|H]; qprop; split; intros; lra.
  - intros a c d H1 H2. apply F in H1. apply F in H2. apply G. destruct H1 as [A1 A2], H2 as [B1 B2].
    split; [lra|]. intros E. assert (px d == px c) by lra. assert (px c == px a) by lra.
    specialize (B2 H). specialize (A2 H0). lra.
  - split; auto.
Qed.

(** [u -> v] goes to the right, has every point on its left and every point on
    its line between its ends. *)
Definition redge (u v : nat) : Prop :=
  px u < px v /\
  forall t, In t idx -> 0 <= cross (P u) (P v) (P t) /\
    (cross (P u) (P v) (P t) == 0 -> px u <= px t /\ px t <= px v).

Definition rinv (p : nat) : Prop :=
  In p idx /\
  (forall t, In t idx -> px t == px p -> py p <= py t) /\
  (forall r t, In r idx -> In t idx -> px r < px p -> px p < px t ->
     0 < cross (P p) (P t) (P r)).

Lemma cross_slope : forall p q t, px p < px q -> px p < px t ->
  cross (P p) (P q) (P t) ==
  (px q - px p) * (px t - px p) * (slope_from P p t - slope_from P p q).
Proof.
  intros p q t A B. unfold cross, slope_from, Model_Hull.px, Model_Hull.py in *. field. split; intro; lra.
Qed.

Lemma flatter_ok : forall p l b,
  In (best (flatter P p) b l) (b :: l) /\
  forall t, In t (b :: l) ->
    slope_from P p (best (flatter P p) b l) <= slope_from P p t /\
    (slope_from P p (best (flatter P p) b l) == slope_from P p t -> px t <= px (best (flatter P p) b l)).
Proof.
  intros p.
  assert (F : forall a b, flatter P p a b = false ->
    slope_from P p b <= slope_from P p a /\ (slope_from P p b == slope_from P p a -> px a <= px b)).
  { intros a b H. unfold flatter in H. apply orb_false_iff in H as [H1 H2]. qprop. split; [auto|].
    intros E. destruct (Qeqb_spec (slope_from P p a) (slope_from P p b)) as [E2|N]; [|exfalso; apply N; lra].
    cbn in H2. qprop. auto. }
  assert (G : forall a b, slope_from P p b <= slope_from P p a /\ (slope_from P p b == slope_from P p a -> px a <= px b) ->
    flatter P p a b = false).
  { intros a b [H1 H2]. unfold flatter. apply orb_false_iff. split; [now apply Qltb_false|].
    destruct (Qeqb_spec (slope_from P p a) (slope_from P p b)) as [E2|N]; cbn; [|auto].
    apply Qltb_false, H2. lra. }
  intros l b.
  destruct (best_ok nat (flatter P p)) with (l := l) (b := b) as [H1 H2].
  - intros a. apply G. split; [lra|intros; lra].
  - intros a c H. apply G. unfold flatter in H. apply orb_true_iff in H. destruct H as [H|H]; qprop; split; intros; lra.
  - intros a c d H1 H2. apply F in H1. apply F in H2. apply G. destruct H1 as [A1 A2], H2 as [B1 B2].
    split; [lra|]. intros E. assert (slope_from P p d == slope_from P p c) by lra.
    assert (slope_from P p c == slope_from P p a) by lra.
    specialize (B2 H). specialize (A2 H0). lra.
  - split; auto.
Qed.

Lemma right_of_in : forall p t, In t (right_of P idx p) <-> In t idx /\ px p < px t.
Proof. intros p t. unfold right_of. rewrite filter_In, Qltb_true. reflexivity. Qed.

Lemma next_edge : forall p q0 qs, rinv p -> right_of P idx p = q0 :: qs ->
  let q := best (flatter P p) q0 qs in redge p q /\ rinv q.
Proof.
  intros p q0 qs (Ip & Lo & Tu) E q.
  destruct (flatter_ok p qs q0) as [B1 B2]. fold q in B1, B2.
  rewrite <- E in B1, B2. apply right_of_in in B1 as [Iq Xq].
  assert (ED : redge p q).
  { split; [auto|]. intros t It.
    destruct (Qlt_le_dec (px p) (px t)) as [R|R].
    - destruct (B2 t) as [S1 S2]; [apply right_of_in; auto|].
      rewrite (cross_slope p q t Xq R).
      assert (M : 0 < (px q - px p) * (px t - px p)) by (apply Qmult_lt_0_compat; lra).
      split.
      + apply Qmult_le_0_compat; lra.
      + intros Z. split; [lra|]. apply S2.
        assert (slope_from P p t - slope_from P p q == 0).
        { apply Qmult_integral in Z. destruct Z as [Z|Z]; [exfalso; lra|auto]. }
        lra.
    - apply Qle_lteq in R. destruct R as [R|R].
      + specialize (Tu t q It Iq R Xq). split; [lra|]. intros; exfalso; lra.
      + specialize (Lo t It R). split.
        * unfold cross. unfold Model_Hull.px, Model_Hull.py in *.
          setoid_replace (fst (P t) - fst (P p)) with 0 by lra.
          assert (0 <= (fst (P q) - fst (P p)) * (snd (P t) - snd (P p))) by (apply Qmult_le_0_compat; lra).
          lra.
        * intros _. split; lra. }
  split; [exact ED|]. destruct ED as [_ ED]. split; [auto|]. split.
  - intros t It Et. destruct (ED t It) as [K _]. unfold cross in K.
    unfold Model_Hull.px, Model_Hull.py in *.
    destruct (Qlt_le_dec (snd (P t)) (snd (P q))) as [N|N]; [|auto]. exfalso.
    assert (0 < (fst (P q) - fst (P p)) * (snd (P q) - snd (P t))) by (apply Qmult_lt_0_compat; lra).
    setoid_replace (fst (P t) - fst (P p)) with (fst (P q) - fst (P p)) in K by lra. lra.
  - intros r t Ir It Xr Xt.
    destruct (ED r Ir) as [Kr Kr0]. destruct (ED t It) as [Kt Kt0].
    assert (Pt' : 0 < cross (P p) (P q) (P t)).
    { apply Qle_lteq in Kt. destruct Kt as [Kt|Kt]; [auto|]. symmetry in Kt. specialize (Kt0 Kt). exfalso. lra. }
    assert (ID : cross (P q) (P t) (P r) * (px q - px p) ==
                 cross (P p) (P q) (P r) * (px t - px q) + cross (P p) (P q) (P t) * (px q - px r)).
    { unfold cross, Model_Hull.px, Model_Hull.py. ring. }
    assert (0 < cross (P p) (P q) (P t) * (px q - px r)) by (apply Qmult_lt_0_compat; lra).
    assert (0 <= cross (P p) (P q) (P r) * (px t - px q)) by (apply Qmult_le_0_compat; lra).
    destruct (Qlt_le_dec 0 (cross (P q) (P t) (P r))) as [Y|N]; [auto|]. exfalso.
    assert (0 <= (- cross (P q) (P t) (P r)) * (px q - px p)) by (apply Qmult_le_0_compat; lra). lra.
Qed.

Lemma chain_ok : forall fuel p, (length (right_of P idx p) <= fuel)%nat -> rinv p ->
  exists l e, chain P idx fuel p = l ++ [e] /\ hd O (l ++ [e]) = p /\
    chained redge (l ++ [e]) /\ (forall i, In i (l ++ [e]) -> In i idx) /\
    (forall t, In t idx -> px t <= px e) /\ rinv e.
Proof.
  induction fuel as [|fuel IH]; intros p F Ip.
  - exists [], p. cbn [chain app]. destruct (right_of P idx p) as [|q qs] eqn:E; [|cbn in F; lia].
    split; [auto|]. split; [auto|]. split; [exact Logic.I|]. split; [intros i [<-|[]]; apply Ip|]. split; [|auto].
    intros t It. destruct (Qlt_le_dec (px p) (px t)) as [R|R]; [|auto].
    assert (In t []) as []. rewrite <- E. apply right_of_in. auto.
  - cbn [chain]. destruct (right_of P idx p) as [|q0 qs] eqn:E.
    + exists [], p. split; [auto|]. split; [auto|]. split; [exact Logic.I|]. split; [intros i [<-|[]]; apply Ip|]. split; [|auto].
      intros t It. destruct (Qlt_le_dec (px p) (px t)) as [R|R]; [|auto].
      assert (In t []) as []. rewrite <- E. apply right_of_in. auto.
    + destruct (next_edge p q0 qs Ip E) as [ED Iq]. set (q := best (flatter P p) q0 qs) in *.
      destruct (IH q) as (l & e & Ec & Hd & Ch & In' & Mx & Ie).
      { assert (length (right_of P idx q) < length (right_of P idx p))%nat; [|rewrite E in H; cbn in *; lia].
        unfold right_of. apply (filter_shorter _ _ _ idx q).
        - intros a Ha. qprop. apply Qltb_true. destruct ED as [ED _]. lra.
        - apply Iq.
        - apply Qltb_true. apply ED.
        - apply Qltb_false. lra. }
      { exact Iq. }
      exists (p :: l), e. cbn [app]. rewrite Ec. split; [auto|]. split; [auto|]. split; [|split; [|auto]].
      * destruct (l ++ [e]) as [|a m] eqn:El; [exact Logic.I|]. cbn in Hd. subst a.
        apply chained_cons. auto.
      * intros i [<-|I]; [apply Ip|auto].
Qed.

Lemma lower_chain_ok : idx <> [] ->
  exists l e, lower_chain P idx = l ++ [e] /\
    chained redge (l ++ [e]) /\ (forall i, In i (l ++ [e]) -> In i idx) /\
    (forall t, In t idx -> px t <= px e) /\ (forall t, In t idx -> px t == px e -> py e <= py t) /\
    (forall t, In t idx -> px (hd O (l ++ [e])) <= px t) /\
    (forall t, In t idx -> px t == px (hd O (l ++ [e])) -> py (hd O (l ++ [e])) <= py t).
Proof.
  intros NE. unfold lower_chain. destruct idx as [|i l] eqn:E; [contradiction|]. rewrite <- E.
  destruct (lefter_ok l i) as [B1 B2]. rewrite <- E in B1, B2. set (p := best (lefter P) i l) in *.
  destruct (chain_ok (length idx) p) as (m & e & Ec & Hd & Ch & In' & Mx & Ie).
  - unfold right_of. apply filter_length_le'.
  - split; [auto|]. split.
    + intros t It Et. destruct (B2 t It) as [_ K]. apply K. lra.
    + intros r t Ir It Xr Xt. exfalso. destruct (B2 r Ir) as [K _]. lra.
  - exists m, e. rewrite Hd.
    split; [auto|]. split; [rewrite <- E in *; auto|]. split; [rewrite <- E in *; auto|].
    split; [rewrite <- E in *; auto|]. split; [rewrite <- E in *; apply Ie|]. split.
    + rewrite <- E in *. intros t It. now apply B2.
    + rewrite <- E in *. intros t It Et. destruct (B2 t It) as [_ K]. apply K. lra.
Qed.

(** Supporting lines. *)
Lemma redge_support : forall u v w, redge u v -> w = u \/ w = v ->
  exists s, forall t, In t idx -> s * (px t - px w) <= py t - py w.
Proof.
  intros u v w [X H] Ew. exists ((py v - py u) / (px v - px u)). intros t It.
  destruct (H t It) as [K _]. unfold cross in K. fold (px u) in K. fold (px v) in K. fold (px t) in K.
  fold (py u) in K. fold (py v) in K. fold (py t) in K.
  assert (D : 0 < px v - px u) by lra.
  assert (Z : ~ px v - px u == 0) by (intro; lra).
  apply (Qmult_le_l _ _ (px v - px u)); [auto|].
  destruct Ew as [->| ->].
  - setoid_replace ((px v - px u) * ((py v - py u) / (px v - px u) * (px t - px u)))
      with ((py v - py u) * (px t - px u)) by (field; auto). lra.
  - setoid_replace ((px v - px u) * ((py v - py u) / (px v - px u) * (px t - px v)))
      with ((py v - py u) * (px t - px v)) by (field; auto). lra.
Qed.

Lemma chain_support : forall l w, chained redge l -> (2 <= length l)%nat -> In w l ->
  exists s, forall t, In t idx -> s * (px t - px w) <= py t - py w.
Proof.
  induction l as [|a [|b l] IH]; intros w C L I; cbn in L; try lia.
  apply chained_cons in C as [C1 C2]. destruct I as [<-|I].
  - apply (redge_support a b); auto.
  - destruct l as [|c l].
    + destruct I as [<-|[]]. apply (redge_support a b); auto.
    + apply IH; auto. cbn. lia.
Qed.

(** Strictly increasing abscissae. *)
Lemma chained_sorted : forall l a b m k, chained redge l -> l = k ++ a :: m -> In b m -> px a < px b.
Proof.
  assert (S : forall m a b, chained redge (a :: m) -> In b m -> px a < px b).
  { induction m as [|c m IH]; intros a b C I; [destruct I|].
    apply chained_cons in C as [[C1 _] C2]. destruct I as [<-|I]; [auto|].
    specialize (IH c b C2 I). lra. }
  intros l a b m k C E I. subst l. revert C. induction k as [|c [|d k] IH]; intros C; cbn [app] in *.
  - now apply (S m).
  - apply chained_cons in C as [_ C]. now apply (S m).
  - apply chained_cons in C as [_ C]. now apply IH.
Qed.

Lemma chain_spans : forall l a e x, chained redge (a :: l ++ [e]) -> px a <= x -> x <= px e ->
  exists u v, redge u v /\ In u (a :: l ++ [e]) /\ In v (a :: l ++ [e]) /\ px u <= x /\ x <= px v.
Proof.
  induction l as [|b l IH]; intros a e x C A B.
  - cbn [app] in C. apply chained_cons in C as [C _]. exists a, e. cbn. auto 8.
  - cbn [app] in C. apply chained_cons in C as [C1 C2].
    destruct (Qlt_le_dec x (px b)) as [X|X].
    + exists a, b. cbn. split; [auto|]. split; [auto|]. split; [auto|]. split; [auto|lra].
    + destruct (IH b e x C2 X B) as (u & v & H1 & H2 & H3 & H4 & H5).
      exists u, v. cbn [app]. split; [auto|]. split; [now right|]. split; [now right|]. auto.
Qed.
End Wrap.

(** ** The whole polygon *)
Section Polygon.
Context (P : nat -> pt) (idx : list nat).
Context (NC : ~ forall a b c, In a idx -> In b idx -> In c idx -> cross (P a) (P b) (P c) == 0).
Notation px := (px P).
Notation py := (py P).
Let N := fun i => neg_pt (P i).

Lemma cross_neg : forall a b c, cross (N a) (N b) (N c) == cross (P a) (P b) (P c).
Proof. intros. unfold cross, N, neg_pt; cbn. ring. Qed.
Lemma px_neg : forall a, Model_Hull.px N a == - px a.
Proof. intros. reflexivity. Qed.
Lemma py_neg : forall a, Model_Hull.py N a == - py a.
Proof. intros. reflexivity. Qed.

Lemma spread : exists a b, In a idx /\ In b idx /\ px a < px b.
Proof.
  assert (D : (exists a b, In a idx /\ In b idx /\ px a < px b) \/
              forall a b, In a idx -> In b idx -> px a == px b).
  { clear NC. induction idx as [|i l IH].
    - right. intros a b [].
    - destruct IH as [(a & b & A & B & C)|H].
      + left. exists a, b. cbn. auto.
      + destruct l as [|j l].
        * right. intros a b [<-|[]] [<-|[]]. reflexivity.
        * destruct (Q_dec (px i) (px j)) as [[C|C]|C].
          -- left. exists i, j. cbn. auto.
          -- left. exists j, i. cbn. auto.
          -- right. assert (K : forall a, In a (i :: j :: l) -> px a == px j).
             { intros a [<-|I]; [auto|]. apply H; [auto|now left]. }
             intros a b A B. rewrite (K a A), (K b B). reflexivity. }
  destruct D as [D|D]; [auto|]. exfalso. apply NC. intros a b c A B C.
  unfold cross. fold (px a) (px b) (px c).
  rewrite (D b a), (D c a) by auto. ring.
Qed.

(** A maximal edge. *)
Definition medge (u v : nat) : Prop :=
  ~ pt_eq (P u) (P v) /\
  forall t, In t idx -> 0 <= cross (P u) (P v) (P t) /\
    (cross (P u) (P v) (P t) == 0 -> exists s, 0 <= s /\ s <= 1 /\ pt_eq (P t) (pmix s (P u) (P v))).

Lemma medge_l : forall a b c, pt_eq (P a) (P b) -> medge a c -> medge b c.
Proof.
  intros a b c E [H1 H2]. split.
  - intro K. apply H1. now rewrite E.
  - intros t It. destruct (H2 t It) as [K1 K2]. rewrite <- E. split; [auto|].
    intros Z. destruct (K2 Z) as (s & S0 & S1 & S). exists s. rewrite <- E. auto.
Qed.
Lemma medge_r : forall a b c, pt_eq (P a) (P b) -> medge c a -> medge c b.
Proof.
  intros a b c E [H1 H2]. split.
  - intro K. apply H1. now rewrite E.
  - intros t It. destruct (H2 t It) as [K1 K2]. rewrite <- E. split; [auto|].
    intros Z. destruct (K2 Z) as (s & S0 & S1 & S). exists s. rewrite <- E. auto.
Qed.

Lemma on_line_mix : forall u v t : pt, ~ fst u == fst v -> cross u v t == 0 ->
  pt_eq t (pmix ((fst t - fst u) / (fst v - fst u)) u v).
Proof.
  intros u v t D Z. assert (D' : ~ fst v - fst u == 0) by (intro; apply D; lra).
  unfold pmix; split; cbn.
  - field. auto.
  - unfold cross in Z.
    assert (E : snd t - snd u == (snd v - snd u) * (fst t - fst u) / (fst v - fst u)).
    { setoid_replace ((snd v - snd u) * (fst t - fst u)) with ((fst v - fst u) * (snd t - snd u)) by lra.
      field. auto. }
    setoid_replace (snd t) with (snd u + (snd t - snd u)) by ring. rewrite E. field. auto.
Qed.

Lemma redge_medge : forall u v, redge P idx u v -> medge u v.
Proof.
  intros u v [X H]. unfold Model_Hull.px in *. split.
  - intros [K _]. lra.
  - intros t It. destruct (H t It) as [K1 K2]. split; [auto|]. intros Z. destruct (K2 Z) as [L R].
    exists ((fst (P t) - fst (P u)) / (fst (P v) - fst (P u))). split; [|split].
    + apply Qle_shift_div_l; lra.
    + apply Qle_shift_div_r; lra.
    + apply on_line_mix; auto. intro; lra.
Qed.

Lemma redge_neg_medge : forall u v, redge N idx u v -> medge u v.
Proof.
  intros u v [X H]. rewrite !px_neg in X. split.
  - intros [K _]. unfold Model_Hull.px in X. lra.
  - intros t It. destruct (H t It) as [K1 K2]. rewrite cross_neg in K1, K2. rewrite !px_neg in K2.
    split; [auto|]. intros Z. destruct (K2 Z) as [L R]. unfold Model_Hull.px in *.
    exists ((fst (P u) - fst (P t)) / (fst (P u) - fst (P v))). split; [|split].
    + apply Qle_shift_div_l; lra.
    + apply Qle_shift_div_r; lra.
    + rewrite (on_line_mix (P u) (P v) (P t)) at 1; [|intro; lra|auto].
      setoid_replace ((fst (P t) - fst (P u)) / (fst (P v) - fst (P u))) with
                     ((fst (P u) - fst (P t)) / (fst (P u) - fst (P v))); [reflexivity|].
      field. split; intro; lra.
Qed.

Lemma vertical_medge : forall u v, px u == px v -> ~ pt_eq (P u) (P v) ->
  (forall t, In t idx -> 0 <= (py v - py u) * (px u - px t)) ->
  (forall t, In t idx -> px t == px u -> (py u <= py t /\ py t <= py v) \/ (py v <= py t /\ py t <= py u)) ->
  medge u v.
Proof.
  intros u v X D S B. unfold Model_Hull.px, Model_Hull.py in *. split; [auto|].
  assert (Y : ~ snd (P u) == snd (P v)) by (intro; apply D; split; auto).
  intros t It. specialize (S t It).
  assert (C : cross (P u) (P v) (P t) == (snd (P v) - snd (P u)) * (fst (P u) - fst (P t))).
  { unfold cross. rewrite <- X. ring. }
  rewrite C. split; [auto|]. intros Z.
  assert (Et : fst (P t) == fst (P u)).
  { apply Qmult_integral in Z. destruct Z as [Z|Z]; [exfalso; apply Y; lra|lra]. }
  specialize (B t It Et).
  exists ((snd (P t) - snd (P u)) / (snd (P v) - snd (P u))). split; [|split].
  - destruct B as [B|B].
    + apply Qle_shift_div_l; [|lra]. assert (~ snd (P v) <= snd (P u)) by (intro; apply Y; lra). lra.
    + setoid_replace ((snd (P t) - snd (P u)) / (snd (P v) - snd (P u)))
        with ((snd (P u) - snd (P t)) / (snd (P u) - snd (P v))) by (field; split; intro; apply Y; lra).
      apply Qle_shift_div_l; [|lra]. assert (~ snd (P u) <= snd (P v)) by (intro; apply Y; lra). lra.
  - destruct B as [B|B].
    + apply Qle_shift_div_r; [|lra]. assert (~ snd (P v) <= snd (P u)) by (intro; apply Y; lra). lra.
    + setoid_replace ((snd (P t) - snd (P u)) / (snd (P v) - snd (P u)))
        with ((snd (P u) - snd (P t)) / (snd (P u) - snd (P v))) by (field; split; intro; apply Y; lra).
      apply Qle_shift_div_r; [|lra]. assert (~ snd (P u) <= snd (P v)) by (intro; apply Y; lra). lra.
  - unfold pmix; split; cbn.
    + rewrite Et, X. ring.
    + field. intro; apply Y; lra.
Qed.

(** The shape of the list returned. *)
Lemma wrap_shape : exists l0 lm le u0 um ue W,
  let L := l0 :: lm ++ [le] in
  let U := u0 :: um ++ [ue] in
  chained (redge P idx) L /\ chained (redge N idx) U /\
  (forall i, In i L -> In i idx) /\ (forall i, In i U -> In i idx) /\
  (forall t, In t idx -> px l0 <= px t /\ (px t == px l0 -> py l0 <= py t)) /\
  (forall t, In t idx -> px t <= px le /\ (px t == px le -> py le <= py t)) /\
  (forall t, In t idx -> px t <= px u0 /\ (px t == px u0 -> py t <= py u0)) /\
  (forall t, In t idx -> px ue <= px t /\ (px t == px ue -> py t <= py ue)) /\
  W = (if pt_eqb (P le) (P u0) then um else u0 :: um) /\
  wrap P idx = L ++ (if pt_eqb (P l0) (P ue) then W else W ++ [ue]).
Proof.
  assert (NE : idx <> []).
  { destruct spread as (a & _ & I & _). intros ->. destruct I. }
  assert (NV : forall c, (forall t, In t idx -> px t <= px c) -> (forall t, In t idx -> px c <= px t) -> False).
  { intros c H1 H2. destruct spread as (a & b & A & B & C). specialize (H1 b B). specialize (H2 a A). lra. }
  destruct (lower_chain_ok P idx NE) as (la & le & EL & CL & IL & ML1 & ML2 & ML3 & ML4).
  destruct (lower_chain_ok N idx NE) as (ua & ue & EU & CU & IU & MU1 & MU2 & MU3 & MU4).
  destruct la as [|l0 lm].
  { exfalso. cbn in ML3. apply (NV le); auto. }
  destruct ua as [|u0 um].
  { exfalso. cbn [app hd] in MU3. apply (NV ue).
    - intros t It. specialize (MU3 t It). rewrite !px_neg in MU3. lra.
    - intros t It. specialize (MU1 t It). rewrite !px_neg in MU1. lra. }
  cbn [app hd] in *.
  exists l0, lm, le, u0, um, ue, (if pt_eqb (P le) (P u0) then um else u0 :: um).
  cbn zeta.
  split; [auto|]. split; [auto|]. split; [auto|]. split; [auto|].
  split. { intros t It. split; [auto|]. intros; auto. }
  split. { intros t It. split; [auto|]. intros; auto. }
  split. { intros t It. specialize (MU3 t It). specialize (MU4 t It). rewrite !px_neg in MU3, MU4.
    rewrite !py_neg in MU4. split; [lra|]. intros E. assert (- px t == - px u0) by lra. specialize (MU4 H). lra. }
  split. { intros t It. specialize (MU1 t It). specialize (MU2 t It). rewrite !px_neg in MU1, MU2.
    rewrite !py_neg in MU2. split; [lra|]. intros E. assert (- px t == - px ue) by lra. specialize (MU2 H). lra. }
  split; [auto|].
  unfold wrap. fold N. rewrite EL, EU.
  rewrite app_comm_cons, last_last. cbn [hd app drop_first].
  cbn [app]. f_equal. f_equal.
  set (W := if pt_eqb (P le) (P u0) then um else u0 :: um).
  replace (if pt_eqb (P le) (P u0) then um ++ [ue] else u0 :: um ++ [ue]) with (W ++ [ue])
    by (unfold W; destruct (pt_eqb (P le) (P u0)); reflexivity).
  rewrite rev_app_distr. cbn [rev app drop_first].
  destruct (pt_eqb (P l0) (P ue)).
  - apply rev_involutive.
  - cbn [rev]. now rewrite rev_involutive.
Qed.

Lemma wrap_closed : exists l0 m, wrap P idx = l0 :: m /\ chained medge (wrap P idx ++ [l0]).
Proof.
  destruct wrap_shape as (l0 & lm & le & u0 & um & ue & W & CL & CU & IL & IU & M1 & M2 & M3 & M4 & EW & EV).
  rewrite EV. exists l0. eexists. split; [reflexivity|].
  assert (Il0 : In l0 idx) by (apply IL; cbn; auto).
  assert (Ile : In le idx) by (apply IL; cbn; right; apply in_or_app; cbn; auto).
  assert (Iu0 : In u0 idx) by (apply IU; cbn; auto).
  assert (Iue : In ue idx) by (apply IU; cbn; right; apply in_or_app; cbn; auto).
  assert (CL' : chained medge (l0 :: lm ++ [le])).
  { apply (chained_impl _ (redge P idx)); auto. intros a b _ _. apply redge_medge. }
  assert (CU' : chained medge (u0 :: um ++ [ue])).
  { apply (chained_impl _ (redge N idx)); auto. intros a b _ _. apply redge_neg_medge. }
  assert (A : chained medge ((l0 :: lm) ++ le :: W ++ [ue])).
  { destruct (pt_eqb_spec (P le) (P u0)) as [E|D]; subst W.
    - apply chained_glue; [exact CL'|]. apply (chained_hd _ _ u0); [|auto].
      intros c. apply medge_l. now symmetry.
    - cbn [app]. apply (chained_app nat medge (l0 :: lm) le u0 (um ++ [ue])); [exact CL'| |exact CU'].
      assert (X : px le == px u0).
      { destruct (M2 u0 Iu0) as [K1 _]. destruct (M3 le Ile) as [K2 _]. lra. }
      assert (Y : py le <= py u0). { apply M2; auto. lra. }
      apply vertical_medge; auto.
      + intros t It. apply Qmult_le_0_compat; [lra|]. destruct (M2 t It). lra.
      + intros t It Et. left. split; [now apply M2|]. apply M3; auto. lra. }
  replace ((l0 :: lm) ++ le :: W ++ [ue]) with (((l0 :: lm ++ [le]) ++ W) ++ [ue]) in A
    by (rewrite app_comm_cons, <- !app_assoc; reflexivity).
  destruct (pt_eqb_spec (P l0) (P ue)) as [E|D].
  - apply (chained_last _ _ _ ue); auto. intros c. apply medge_r. now symmetry.
  - rewrite <- app_assoc. rewrite <- (app_assoc W). cbn [app].
    rewrite app_comm_cons, app_assoc. apply (chained_app nat medge ((l0 :: lm ++ [le]) ++ W) ue l0 []); [exact A| |exact Logic.I].
    assert (X : px ue == px l0).
    { destruct (M1 ue Iue) as [K1 _]. destruct (M4 l0 Il0) as [K2 _]. lra. }
    assert (Y : py l0 <= py ue). { apply M1; auto. }
    apply vertical_medge; auto.
    + intro K. apply D. now symmetry.
    + intros t It. setoid_replace ((py l0 - py ue) * (px ue - px t)) with ((py ue - py l0) * (px t - px ue)) by ring.
      apply Qmult_le_0_compat; [lra|]. destruct (M4 t It). lra.
    + intros t It Et. right. split; [apply M1; auto; lra|]. apply M4; auto.
Qed.

Lemma wrap_in : forall i, In i (wrap P idx) -> In i idx.
Proof.
  destruct wrap_shape as (l0 & lm & le & u0 & um & ue & W & CL & CU & IL & IU & _ & _ & _ & _ & EW & EV).
  rewrite EV. intros i I. apply in_app_or in I as [I|I]; [auto|]. apply IU.
  assert (K : forall j, In j W -> In j (u0 :: um ++ [ue])).
  { intros j J. subst W. destruct (pt_eqb (P le) (P u0)).
    - right. apply in_or_app. auto.
    - destruct J as [<-|J]; [now left|right; apply in_or_app; auto]. }
  destruct (pt_eqb (P l0) (P ue)); [auto|]. apply in_app_or in I as [I|[<-|[]]]; [auto|].
  right. apply in_or_app. cbn. auto.
Qed.

Lemma wrap_edge : forall a b, In (a, b) (cyc_edges (wrap P idx)) -> medge a b.
Proof.
  destruct wrap_closed as (l0 & m & E & C). intros a b I. rewrite E in *.
  apply (cyc_edges_chained _ medge l0 m); auto.
Qed.

Lemma wrap_extreme : forall i a b, In i (wrap P idx) -> In a idx -> In b idx ->
  ~ strictly_between (P a) (P i) (P b).
Proof.
  intros i a b I A B (D & t & T0 & T1 & E).
  destruct (cyc_edges_start _ (wrap P idx) i I) as [v Iv]. apply wrap_edge in Iv as [Nv Hv].
  destruct (Hv a A) as [A1 A2]. destruct (Hv b B) as [B1 B2].
  assert (Z : cross (P i) (P v) (pmix t (P a) (P b)) == 0) by (rewrite <- E; unfold cross; ring).
  rewrite cross_mix in Z.
  assert (0 <= (1 - t) * cross (P i) (P v) (P a)) by (apply Qmult_le_0_compat; lra).
  assert (0 <= t * cross (P i) (P v) (P b)) by (apply Qmult_le_0_compat; lra).
  assert (Za : cross (P i) (P v) (P a) == 0).
  { assert (K : (1 - t) * cross (P i) (P v) (P a) == 0) by lra. apply Qmult_integral in K. destruct K; [exfalso; lra|auto]. }
  assert (Zb : cross (P i) (P v) (P b) == 0).
  { assert (K : t * cross (P i) (P v) (P b) == 0) by lra. apply Qmult_integral in K. destruct K; [exfalso; lra|auto]. }
  destruct (A2 Za) as (s1 & S10 & S11 & Ea). destruct (B2 Zb) as (s2 & S20 & S21 & Eb).
  set (s := (1 - t) * s1 + t * s2).
  assert (P1 : 0 <= (1 - t) * s1) by (apply Qmult_le_0_compat; lra).
  assert (P2 : 0 <= t * s2) by (apply Qmult_le_0_compat; lra).
  assert (Ei : pt_eq (P i) (pmix s (P i) (P v))).
  { rewrite E at 1. rewrite Ea, Eb. unfold pmix, s; split; cbn; ring. }
  assert (S0 : s == 0).
  { destruct Ei as [E1 E2]. unfold pmix in E1, E2; cbn in E1, E2.
    assert (K1 : s * (fst (P v) - fst (P i)) == 0) by lra.
    assert (K2 : s * (snd (P v) - snd (P i)) == 0) by lra.
    apply Qmult_integral in K1. apply Qmult_integral in K2.
    destruct K1 as [K1|K1]; [auto|]. destruct K2 as [K2|K2]; [auto|].
    exfalso. apply Nv. split; lra. }
  unfold s in S0.
  assert (Z1 : s1 == 0).
  { assert (K : (1 - t) * s1 == 0) by lra. apply Qmult_integral in K. destruct K; [exfalso; lra|auto]. }
  assert (Z2 : s2 == 0).
  { assert (K : t * s2 == 0) by lra. apply Qmult_integral in K. destruct K; [exfalso; lra|auto]. }
  apply D. rewrite Ea, Eb, Z1, Z2. reflexivity.
Qed.

(** Two chains meet only at their ends. *)
Lemma FOP_app : forall A (R : A -> A -> Prop) l m,
  (forall k a t b, l = k ++ a :: t -> In b t -> R a b) ->
  (forall k a t b, m = k ++ a :: t -> In b t -> R a b) ->
  (forall a b, In a l -> In b m -> R a b) ->
  forall k a t b, l ++ m = k ++ a :: t -> In b t -> R a b.
Proof.
  induction l as [|c l IH]; intros m H1 H2 H3 k a t b E I.
  - eauto.
  - destruct k as [|d k]; cbn in E; injection E as <- E.
    + subst t. apply in_app_or in I as [I|I].
      * apply (H1 [] c l); auto.
      * apply H3; cbn; auto.
    + apply (IH m) with (k := k) (t := t); auto.
      * intros k' a' t' b' E' I'. apply (H1 (c :: k') a' t'); auto. cbn. now rewrite E'.
      * intros a' b' Ja Jb. apply H3; cbn; auto.
Qed.

Lemma wrap_distinct : forall k a t b, wrap P idx = k ++ a :: t -> In b t -> ~ pt_eq (P a) (P b).
Proof.
  destruct wrap_shape as (l0 & lm & le & u0 & um & ue & W & CL & CU & IL & IU & M1 & M2 & M3 & M4 & EW & EV).
  rewrite EV. set (U' := if pt_eqb (P l0) (P ue) then W else W ++ [ue]).
  assert (Il0 : In l0 idx) by (apply IL; cbn; auto).
  assert (Ile : In le idx) by (apply IL; cbn; right; apply in_or_app; cbn; auto).
  assert (Iu0 : In u0 idx) by (apply IU; cbn; auto).
  assert (Iue : In ue idx) by (apply IU; cbn; right; apply in_or_app; cbn; auto).
  assert (SL : forall k a t b, l0 :: lm ++ [le] = k ++ a :: t -> In b t -> px a < px b).
  { intros k a t b E I. apply (chained_sorted P idx (l0 :: lm ++ [le]) a b t k); auto. }
  assert (SU : forall k a t b, u0 :: um ++ [ue] = k ++ a :: t -> In b t -> px b < px a).
  { intros k a t b E I. pose proof (chained_sorted N idx (u0 :: um ++ [ue]) a b t k CU E I) as K.
    rewrite !px_neg in K. lra. }
  (* U' is a contiguous part of the upper chain *)
  assert (PU : exists pre post, u0 :: um ++ [ue] = pre ++ U' ++ post /\
    (In u0 U' -> ~ pt_eq (P le) (P u0)) /\ (In ue U' -> ~ pt_eq (P l0) (P ue))).
  { assert (NU0 : ~ In u0 (um ++ [ue])).
    { intro I. pose proof (SU [] u0 (um ++ [ue]) u0 eq_refl I). lra. }
    assert (NUE : ~ In ue (u0 :: um)).
    { intro I. apply in_split in I as (x & y & E).
      pose proof (SU x ue (y ++ [ue]) ue) as K. rewrite app_comm_cons, E, <- app_assoc in K.
      specialize (K eq_refl ltac:(apply in_or_app; cbn; auto)). lra. }
    unfold U'. subst W.
    destruct (pt_eqb_spec (P le) (P u0)) as [E1|D1], (pt_eqb_spec (P l0) (P ue)) as [E2|D2].
    - exists [u0], [ue]. split; [reflexivity|]. split.
      + intro I. exfalso. apply NU0. apply in_or_app; auto.
      + intro I. exfalso. apply NUE. now right.
    - exists [u0], []. rewrite app_nil_r. split; [reflexivity|]. split; [|auto].
      intro I. exfalso. auto.
    - exists [], [ue]. split; [reflexivity|]. split; [auto|]. intro I. exfalso. auto.
    - exists [], []. rewrite app_nil_r. split; [reflexivity|]. auto. }
  destruct PU as (pre & post & EU & D0 & DE).
  assert (IU' : forall b, In b U' -> In b (u0 :: um ++ [ue])).
  { intros b I. rewrite EU. apply in_or_app. right. apply in_or_app. auto. }
  apply FOP_app.
  - intros k a t b E I [K _]. specialize (SL k a t b E I). unfold Model_Hull.px in SL. lra.
  - intros k a t b E I [K _]. assert (S := SU (pre ++ k) a (t ++ post) b).
    rewrite EU, E in S. rewrite <- !app_assoc in S. specialize (S eq_refl ltac:(apply in_or_app; auto)).
    unfold Model_Hull.px in S. lra.
  - intros w w' Iw Iw' E.
    pose proof (IL w Iw) as Jw. pose proof (IU w' (IU' w' Iw')) as Jw'.
    assert (Ex : px w == px w') by apply E.
    destruct (Qlt_le_dec (px l0) (px w)) as [X1|X1].
    2:{ assert (w = l0).
        { destruct Iw as [<-|Iw]; [auto|]. exfalso.
          pose proof (SL [] l0 (lm ++ [le]) w eq_refl Iw). lra. }
        subst w. assert (w' = ue).
        { specialize (IU' w' Iw'). rewrite app_comm_cons in IU'.
          apply in_app_or in IU' as [I|[<-|[]]]; [|auto]. exfalso.
          apply in_split in I as (x & y & EE).
          pose proof (SU x w' (y ++ [ue]) ue) as K. rewrite app_comm_cons, EE, <- app_assoc in K.
          specialize (K eq_refl ltac:(apply in_or_app; cbn; auto)).
          destruct (M1 ue Iue). lra. }
        subst w'. now apply DE. }
    destruct (Qlt_le_dec (px w) (px le)) as [X2|X2].
    2:{ assert (w = le).
        { rewrite app_comm_cons in Iw. apply in_app_or in Iw as [I|[<-|[]]]; [|auto]. exfalso.
          apply in_split in I as (x & y & EE).
          pose proof (SL x w (y ++ [le]) le) as K. rewrite app_comm_cons, EE, <- app_assoc in K.
          specialize (K eq_refl ltac:(apply in_or_app; cbn; auto)). lra. }
        subst w. assert (w' = u0).
        { specialize (IU' w' Iw'). destruct IU' as [<-|I]; [auto|]. exfalso.
          pose proof (SU [] u0 (um ++ [ue]) w' eq_refl I). destruct (M2 u0 Iu0). lra. }
        subst w'. now apply D0. }
    destruct (chain_support P idx (l0 :: lm ++ [le]) w CL) as [s Hs]; [cbn; rewrite app_length; cbn; lia|auto|].
    destruct (chain_support N idx (u0 :: um ++ [ue]) w' CU) as [s' Hs']; [cbn; rewrite app_length; cbn; lia|auto|].
    assert (Hs2 : forall t, In t idx -> py t - py w <= s' * (px t - px w)).
    { intros t It. specialize (Hs' t It). rewrite !px_neg, !py_neg in Hs'.
      assert (py w == py w') by apply E. rewrite H, Ex. lra. }
    assert (S1 : s' <= s).
    { destruct (Qlt_le_dec s s') as [K|K]; [|auto]. exfalso.
      specialize (Hs l0 Il0). specialize (Hs2 l0 Il0).
      assert (0 < (s' - s) * (px w - px l0)) by (apply Qmult_lt_0_compat; lra). lra. }
    assert (S2 : s <= s').
    { destruct (Qlt_le_dec s' s) as [K|K]; [|auto]. exfalso.
      specialize (Hs le Ile). specialize (Hs2 le Ile).
      assert (0 < (s - s') * (px le - px w)) by (apply Qmult_lt_0_compat; lra). lra. }
    assert (SE : s' == s) by lra.
    assert (OL : forall t, In t idx -> py t == py w + s * (px t - px w)).
    { intros t It. specialize (Hs t It). specialize (Hs2 t It). rewrite SE in Hs2. lra. }
    apply NC. intros a b c A B C. unfold cross. fold (px a) (px b) (px c) (py a) (py b) (py c).
    rewrite (OL a A), (OL b B), (OL c C). ring.
Qed.

Lemma edge_point : forall (u v : pt) x, fst u < fst v -> fst u <= x -> x <= fst v ->
  exists s, 0 <= s /\ s <= 1 /\ fst (pmix s u v) == x.
Proof.
  intros u v x A B C. exists ((x - fst u) / (fst v - fst u)). split; [|split].
  - apply Qle_shift_div_l; lra.
  - apply Qle_shift_div_r; lra.
  - unfold pmix; cbn. field. intro; lra.
Qed.

Lemma wrap_covers : forall t, In t idx ->
  hull2 (fun q => exists i, In i (wrap P idx) /\ q = P i) (P t).
Proof.
  destruct wrap_shape as (l0 & lm & le & u0 & um & ue & W & CL & CU & IL & IU & M1 & M2 & M3 & M4 & EW & EV).
  intros t It. set (S := fun q => exists i, In i (wrap P idx) /\ q = P i).
  assert (SL : forall i, In i (l0 :: lm ++ [le]) -> hull2 S (P i)).
  { intros i I. apply (hull2_in S (P i)); [|reflexivity]. exists i. split; [|auto]. rewrite EV. apply in_or_app; auto. }
  assert (SU : forall i, In i (u0 :: um ++ [ue]) -> hull2 S (P i)).
  { assert (K : forall i, In i (wrap P idx) -> hull2 S (P i)).
    { intros i I. apply (hull2_in S (P i)); [|reflexivity]. exists i. auto. }
    intros i I. rewrite app_comm_cons in I. apply in_app_or in I as [I|[<-|[]]].
    - destruct I as [<-|I].
      + destruct (pt_eqb_spec (P le) (P u0)) as [E|D].
        * apply (hull2_eq _ (P le)); auto. apply SL. right. apply in_or_app; cbn; auto.
        * apply K. rewrite EV, EW. apply in_or_app. right. destruct (pt_eqb (P l0) (P ue)); cbn; auto.
      + apply K. rewrite EV, EW. apply in_or_app. right.
        destruct (pt_eqb (P l0) (P ue)), (pt_eqb (P le) (P u0)); cbn; auto;
          try (apply in_or_app; auto); try (right; apply in_or_app; auto).
    - destruct (pt_eqb_spec (P l0) (P ue)) as [E|D].
      + apply (hull2_eq _ (P l0)); auto. apply SL. now left.
      + apply K. rewrite EV. apply in_or_app. right. apply in_or_app. right. now left. }
  destruct (chain_spans P idx lm l0 le (px t) CL) as (u & v & [Xuv Huv] & Iu & Iv & X1 & X2).
  { now apply M1. } { now apply M2. }
  destruct (chain_spans N idx um u0 ue (- px t) CU) as (u' & v' & [Xuv' Huv'] & Iu' & Iv' & X1' & X2').
  { rewrite px_neg. destruct (M3 t It). lra. } { rewrite px_neg. destruct (M4 t It). lra. }
  rewrite !px_neg in *.
  destruct (edge_point (P u) (P v) (px t)) as (s & S0 & S1 & Es); auto.
  destruct (edge_point (P v') (P u') (px t)) as (s' & S0' & S1' & Es').
  { unfold Model_Hull.px in *. lra. } { unfold Model_Hull.px in *. lra. } { unfold Model_Hull.px in *. lra. }
  set (lo := pmix s (P u) (P v)) in *. set (hi := pmix s' (P v') (P u')) in *.
  assert (Hlo : hull2 S lo) by (apply (hull2_mix S (P u) (P v) s); auto; reflexivity).
  assert (Hhi : hull2 S hi) by (apply (hull2_mix S (P v') (P u') s'); auto; reflexivity).
  assert (Ylo : snd lo <= py t).
  { destruct (Huv t It) as [K _]. unfold lo, pmix in *; cbn in *. unfold cross in K.
    unfold Model_Hull.px, Model_Hull.py in *.
    apply (Qmult_le_l _ _ (fst (P v) - fst (P u))); [lra|].
    rewrite <- Es in K.
    setoid_replace ((fst (P v) - fst (P u)) * ((1 - s) * snd (P u) + s * snd (P v))) with
      ((fst (P v) - fst (P u)) * snd (P u) + (snd (P v) - snd (P u)) * ((1 - s) * fst (P u) + s * fst (P v) - fst (P u))) by ring.
    lra. }
  assert (Yhi : py t <= snd hi).
  { destruct (Huv' t It) as [K _]. rewrite cross_neg in K. unfold hi, pmix in *; cbn in *. unfold cross in K.
    unfold Model_Hull.px, Model_Hull.py in *.
    apply (Qmult_le_l _ _ (fst (P u') - fst (P v'))); [lra|].
    rewrite <- Es' in K.
    setoid_replace ((fst (P u') - fst (P v')) * ((1 - s') * snd (P v') + s' * snd (P u'))) with
      ((fst (P u') - fst (P v')) * snd (P u') + (snd (P v') - snd (P u')) * (- ((1 - s') * fst (P v') + s' * fst (P u')) + fst (P u'))) by ring.
    lra. }
  destruct (Qeq_dec (snd lo) (snd hi)) as [E|D].
  - apply (hull2_eq S lo); auto. split; [exact Es|]. fold (py t). lra.
  - apply (hull2_mix S lo hi ((py t - snd lo) / (snd hi - snd lo))); auto.
    + apply Qle_shift_div_l; lra.
    + apply Qle_shift_div_r; lra.
    + split; unfold pmix at 1; cbn [fst snd].
      * rewrite Es, Es'. fold (px t). ring.
      * fold (py t). field. intro; apply D; lra.
Qed.
End Polygon.

(** ** The contract *)
Lemma collinearb_spec : forall pts, collinearb pts = true <-> collinear pts.
Proof.
  intros pts. split.
  - intros H a b c A B C. destruct pts as [|o pts]; [destruct A|]. cbn [collinearb] in H.
    assert (K : forall b c, In b (o :: pts) -> In c (o :: pts) -> cross o b c == 0).
    { intros x y X Y. rewrite forallb_forall in H. specialize (H x X). rewrite forallb_forall in H.
      specialize (H y Y). now apply Qeqb_true. }
    assert (E : cross a b c == cross o a b + cross o b c - cross o a c) by (unfold cross; ring).
    rewrite E, !K by auto. ring.
  - intros H. destruct pts as [|o pts]; [auto|]. cbn [collinearb]. apply forallb_forall. intros b B.
    apply forallb_forall. intros c C. apply Qeqb_true. apply H; auto. now left.
Qed.

Lemma pts_at_in : forall pts i, (i < length pts)%nat -> In (pts_at pts i) pts.
Proof. intros. unfold pts_at. now apply nth_In. Qed.
Lemma in_pts_at : forall pts p, In p pts -> exists i, (i < length pts)%nat /\ pts_at pts i = p.
Proof. intros pts p I. apply In_nth with (d := (0, 0)) in I as (i & L & E). exists i. auto. Qed.

Theorem wrap_hull_spec : hull_spec wrap_hull.
Proof.
  intros pts. unfold wrap_hull. split.
  - intros C. apply collinearb_spec in C. now rewrite C.
  - intros NC. destruct (collinearb pts) eqn:E; [apply collinearb_spec in E; contradiction|].
    eexists. split; [reflexivity|].
    set (P := pts_at pts). set (idx := seq 0 (length pts)).
    assert (IX : forall i, In i idx <-> (i < length pts)%nat) by (intros i; unfold idx; rewrite in_seq; lia).
    assert (NC' : ~ forall a b c, In a idx -> In b idx -> In c idx -> cross (P a) (P b) (P c) == 0).
    { intros K. apply NC. intros a b c A B C.
      destruct (in_pts_at _ _ A) as (i & Li & <-). destruct (in_pts_at _ _ B) as (j & Lj & <-).
      destruct (in_pts_at _ _ C) as (k & Lk & <-). apply K; now apply IX. }
    split.
    + apply Forall_forall. intros i I. apply IX. now apply (wrap_in P idx NC').
    + intros i j p I Ip. destruct (in_pts_at _ _ Ip) as (k & Lk & <-).
      apply (wrap_edge P idx NC') in I as [_ H]. apply H. now apply IX.
    + intros i j I. apply (wrap_edge P idx NC') in I as [H _]. exact H.
    + intros a b [AB BL]. set (V := wrap P idx) in *.
      destruct (nth_split V O (Nat.lt_trans _ _ _ AB BL)) as (k & t & EV & Lk).
      apply (wrap_distinct P idx NC' k (nth a V O) t); [exact EV|].
      fold V in EV. rewrite EV at 1. rewrite app_nth2 by lia. rewrite Lk.
      destruct (b - a)%nat as [|d] eqn:Ed; [lia|]. cbn [nth].
      apply nth_In. rewrite EV in BL. rewrite app_length in BL. cbn in BL. lia.
    + intros i a b I A B. destruct (in_pts_at _ _ A) as (j & Lj & <-). destruct (in_pts_at _ _ B) as (k & Lk & <-).
      apply (wrap_extreme P idx NC'); auto; now apply IX.
    + intros p Ip. destruct (in_pts_at _ _ Ip) as (k & Lk & <-).
      apply (wrap_covers P idx NC'). now apply IX.
Qed.
