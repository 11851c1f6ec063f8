(** Correctness of [simplify_union_of_polys] for any enumeration order of the
    index set and any sound union function. *)
From Coq Require Import Permutation.
From Verif Require Import Base LinAlg Model_Polytope Spec_Polytope Model_Region Spec_Region.

Lemma combinations2_In : forall {A} (l : list A) a b, In (a, b) (combinations2 l) -> In a l /\ In b l.
Proof.
  induction l as [|c l IH]; simpl; intros a b H; [tauto|]. apply in_app_or in H as [H|H].
  - apply in_map_iff in H as (d & E & H). injection E as <- <-. auto.
  - destruct (IH a b H). auto.
Qed.

Lemma combinations2_NoDup : forall {A} (l : list A) a b, NoDup l -> In (a, b) (combinations2 l) -> a <> b.
Proof.
  induction l as [|c l IH]; simpl; intros a b ND H; [tauto|]. apply NoDup_cons_iff in ND as [N ND]. apply in_app_or in H as [H|H].
  - apply in_map_iff in H as (d & E & H). injection E as <- <-. congruence.
  - eauto.
Qed.

Lemma combinations2_pairs : forall {A} (l : list A), ForallOrdPairs (fun a b => In (a, b) (combinations2 l)) l.
Proof.
  induction l as [|c l IH]; constructor.
  - apply Forall_forall. intros x Hx. simpl. apply in_or_app. left. apply in_map_iff. eauto.
  - clear - IH. assert (H : forall m, ForallOrdPairs (fun a b => In (a, b) (combinations2 l)) m ->
      ForallOrdPairs (fun a b => In (a, b) (combinations2 (c :: l))) m).
    { induction 1; constructor; auto. eapply Forall_impl; [|exact H]. cbv beta. intros b Hb. simpl. apply in_or_app. now right. }
    auto.
Qed.

Lemma mem_In : forall i l, mem i l = true <-> In i l.
Proof.
  intros. unfold mem. rewrite existsb_exists. split.
  - intros (j & H & E). apply Nat.eqb_eq in E. congruence.
  - intro H. exists i. split; [auto|]. apply Nat.eqb_refl.
Qed.

Lemma mem2_In : forall c l, mem2 c l = true <-> In c l.
Proof.
  intros [i j] l. unfold mem2. rewrite existsb_exists. split.
  - intros ([a b] & H & E). apply andb_true_iff in E as [E1 E2]. apply Nat.eqb_eq in E1, E2. simpl in *. congruence.
  - intro H. exists (i, j). split; [auto|]. simpl. now rewrite !Nat.eqb_refl.
Qed.

Lemma del_In : forall i l j, In j (del i l) <-> In j l /\ j <> i.
Proof.
  intros. unfold del. rewrite filter_In. rewrite negb_true_iff, Nat.eqb_neq. intuition.
Qed.

Lemma del_NoDup : forall i l, NoDup l -> NoDup (del i l).
Proof. intros. unfold del. now apply NoDup_filter. Qed.

Lemma del_out : forall i l, ~ In i l -> del i l = l.
Proof.
  induction l as [|a l IH]; simpl; intro H; [auto|]. destruct (Nat.eqb_spec i a) as [->|N]; [tauto|]. simpl. f_equal. auto.
Qed.

Lemma del_length : forall i l, NoDup l -> In i l -> S (length (del i l)) = length l.
Proof.
  induction l as [|a l IH]; simpl; intros ND H; [tauto|]. apply NoDup_cons_iff in ND as [N ND].
  destruct (Nat.eqb_spec i a) as [->|Ne].
  - simpl. now rewrite (del_out a l N).
  - simpl. f_equal. destruct H as [->|H]; [congruence|]. auto.
Qed.

Lemma NoDup_snoc : forall (l : list nat) a, NoDup l -> ~ In a l -> NoDup (l ++ [a]).
Proof.
  induction l as [|b l IH]; simpl; intros a ND H; [constructor; [tauto|constructor]|].
  apply NoDup_cons_iff in ND as [N ND]. constructor; [|auto]. rewrite in_app_iff. simpl. intuition.
Qed.

Section Generic.
Context {T : Type}.
Variable union_fn : T -> T -> res (option T).
Variable order : nat -> list nat -> list nat.
Hypothesis order_ok : forall k l, Permutation (order k l) l.

Variable P : T -> Prop.                       (* usable operands *)
Variable M : T -> point -> Prop.              (* points of an operand *)
Variable D : T -> T -> Prop.                  (* disjoint operands *)
Variable N : T -> T -> Prop.                  (* operands that cannot be merged *)
Hypothesis D_sym : forall a b, D a b -> D b a.
Hypothesis union_ok : forall a b, P a -> P b -> exists r, union_fn a b = Ret r /\
  match r with
  | Some u => P u /\ (forall x, M u x <-> M a x \/ M b x) /\ (forall c, P c -> D c a -> D c b -> D c u)
  | None => N a b
  end.

Definition at_ (st : @sstate T) (i : nat) (p : T) : Prop := In i (s_index st) /\ nth_error (s_polys st) i = Some p.

Record Inv (st : @sstate T) : Prop := {
  inv_nodup : NoDup (s_index st);
  inv_at : forall i, In i (s_index st) -> exists p, nth_error (s_polys st) i = Some p /\ P p;
  inv_bound : forall i j, In (i, j) (s_non st) -> (i < length (s_polys st))%nat /\ (j < length (s_polys st))%nat;
  inv_non : forall i j p q, In (i, j) (s_non st) -> nth_error (s_polys st) i = Some p -> nth_error (s_polys st) j = Some q -> N p q }.

Definition covers (st : @sstate T) (x : point) : Prop := exists i p, at_ st i p /\ M p x.
Definition disjoint (st : @sstate T) : Prop := forall i j p q, at_ st i p -> at_ st j q -> i <> j -> D p q.

Definition settled (st : @sstate T) (c : nat * nat) : Prop := In c (s_non st) \/ In (snd c, fst c) (s_non st).

(** What one step, or a sequence of steps, may do. *)
Definition progress (st st' : @sstate T) : Prop :=
  Inv st' /\ (forall x, covers st' x <-> covers st x) /\ (disjoint st -> disjoint st') /\
  ((s_changed st' = true /\ (length (s_index st') < length (s_index st))%nat) \/
   (s_index st' = s_index st /\ s_polys st' = s_polys st /\ s_changed st' = s_changed st /\ incl (s_non st) (s_non st'))).

Lemma step_ok : forall st c, Inv st -> fst c <> snd c ->
  exists st', simplify_step union_fn st c = Ret st' /\ progress st st' /\
    (s_changed st' = s_changed st -> s_index st' = s_index st ->
       In (fst c) (s_index st) -> In (snd c) (s_index st) -> settled st' c).
Proof.
  intros st [i j] I NE. cbn [fst snd] in *. unfold simplify_step.
  assert (SAME : progress st st).
  { split; [exact I|]. split; [tauto|]. split; [auto|]. right. split; [auto|]. split; [auto|]. split; [auto|]. apply incl_refl. }
  destruct (negb (mem i (s_index st)) || negb (mem j (s_index st))) eqn:C1.
  { exists st. split; [auto|]. split; [exact SAME|]. intros _ _ Hi Hj. apply mem_In in Hi, Hj. rewrite Hi, Hj in C1. discriminate. }
  apply orb_false_iff in C1 as [C1 C2]. apply negb_false_iff in C1, C2. apply mem_In in C1, C2.
  destruct (mem2 (i, j) (s_non st) || mem2 (j, i) (s_non st)) eqn:C3.
  { exists st. split; [auto|]. split; [exact SAME|]. intros _ _ _ _. apply orb_true_iff in C3.
    unfold settled; cbn [fst snd]. rewrite <- !mem2_In. exact C3. }
  destruct (inv_at st I i C1) as (a & Ea & Pa). destruct (inv_at st I j C2) as (b & Eb & Pb). rewrite Ea, Eb.
  destruct (union_ok a b Pa Pb) as (r & Er & Hr). rewrite Er; cbn [bind]. destruct r as [u|].
  - destruct Hr as (Pu & Mu & Du). eexists. split; [reflexivity|].
    set (st' := mkS (s_polys st ++ [u]) (del j (del i (s_index st)) ++ [length (s_polys st)]) (s_non st) true).
    assert (OUT : ~ In (length (s_polys st)) (s_index st)).
    { intro H. destruct (inv_at st I _ H) as (p & Ep & _). assert (nth_error (s_polys st) (length (s_polys st)) <> None) by congruence.
      apply nth_error_Some in H0. lia. }
    assert (OLD : forall k p, nth_error (s_polys st) k = Some p -> nth_error (s_polys st') k = Some p).
    { intros k p H. cbn [st' s_polys]. rewrite nth_error_app1; [auto|]. apply nth_error_Some. congruence. }
    assert (NEW : nth_error (s_polys st') (length (s_polys st)) = Some u).
    { cbn [st' s_polys]. rewrite nth_error_app2, Nat.sub_diag by lia. reflexivity. }
    assert (AT : forall k p, at_ st' k p <-> (k = length (s_polys st) /\ p = u) \/ (k <> i /\ k <> j /\ at_ st k p)).
    { intros k p. unfold at_. cbn [s_index st']. rewrite in_app_iff, !del_In. cbn [In]. split.
      - intros [[[[H1 H2] H3]|[<-|[]]] H4].
        + right. split; [auto|]. split; [auto|]. split; [auto|]. destruct (inv_at st I k H1) as (p' & Ep & _).
          rewrite (OLD _ _ Ep) in H4. congruence.
        + left. split; [auto|]. rewrite NEW in H4. congruence.
      - intros [[-> ->]|(H1 & H2 & H3 & H4)].
        + split; [auto|exact NEW].
        + split; [auto|]. now apply OLD. }
    split.
    + split; [|split; [|split]].
      * constructor.
        -- cbn [s_index st']. apply NoDup_snoc; [exact (del_NoDup _ _ (del_NoDup _ _ (inv_nodup st I)))|].
           rewrite !del_In. tauto.
        -- intros k Hk. cbn [s_index st'] in Hk. rewrite in_app_iff, !del_In in Hk. destruct Hk as [[[Hk _] _]|[<-|[]]].
           ++ destruct (inv_at st I k Hk) as (p & Ep & Pp). exists p. split; [now apply OLD|auto].
           ++ exists u. auto.
        -- intros k l H. cbn [s_non s_polys st'] in *. rewrite app_length. simpl. apply (inv_bound st I) in H. lia.
        -- intros k l p q Hn Hp Hq. cbn [s_non s_polys st'] in *. destruct (inv_bound st I k l Hn) as [B1 B2].
           rewrite nth_error_app1 in Hp, Hq by auto. exact (inv_non st I k l p q Hn Hp Hq).
      * intro x. unfold covers. split.
        -- intros (k & p & Hk & Mp). apply AT in Hk as [[-> ->]|(H1 & H2 & H3)].
           ++ apply Mu in Mp as [Mp|Mp]; [exists i, a|exists j, b]; unfold at_; auto.
           ++ exists k, p. auto.
        -- intros (k & p & Hk & Mp). destruct (Nat.eq_dec k i) as [->|Ni]; [|destruct (Nat.eq_dec k j) as [->|Nj]].
           ++ destruct Hk as [_ Hk]. exists (length (s_polys st)), u. split; [apply AT; auto|]. apply Mu. left. congruence.
           ++ destruct Hk as [_ Hk]. exists (length (s_polys st)), u. split; [apply AT; auto|]. apply Mu. right. congruence.
           ++ exists k, p. split; [apply AT; auto|auto].
      * intros DJ k l p q Hk Hl Nkl. apply AT in Hk as [[-> ->]|(H1 & H2 & H3)]; apply AT in Hl as [[-> ->]|(H4 & H5 & H6)].
        -- congruence.
        -- apply D_sym. destruct (inv_at st I l (proj1 H6)) as (q' & Eq & Pq). assert (q' = q) by (destruct H6; congruence). subst q'.
           apply Du; [auto|exact (DJ l i q a H6 (conj C1 Ea) H4)|exact (DJ l j q b H6 (conj C2 Eb) H5)].
        -- destruct (inv_at st I k (proj1 H3)) as (q' & Eq & Pq). assert (q' = p) by (destruct H3; congruence). subst q'.
           apply Du; [auto|exact (DJ k i p a H3 (conj C1 Ea) H1)|exact (DJ k j p b H3 (conj C2 Eb) H2)].
        -- eapply DJ; eauto.
      * left. split; [auto|]. cbn [s_index st']. rewrite app_length. simpl.
        pose proof (del_length i (s_index st) (inv_nodup st I) C1) as L1.
        pose proof (del_length j (del i (s_index st)) (del_NoDup _ _ (inv_nodup st I)) ltac:(apply del_In; auto)) as L2. lia.
    + intros _ H. exfalso. apply OUT. cbn [s_index st'] in H. rewrite <- H. apply in_or_app. right. simpl. auto.
  - eexists. split; [reflexivity|]. split.
    + split; [|split; [|split]].
      * constructor; [exact (inv_nodup st I)|exact (inv_at st I)| |].
        { intros k l [H|H]; cbn [s_polys]; [|exact (inv_bound st I k l H)]. injection H as <- <-.
          split; apply nth_error_Some; congruence. }
        intros k l p q [H|H] Hp Hq; cbn [s_polys] in *; [injection H as <- <-; congruence|]. exact (inv_non st I k l p q H Hp Hq).
      * intro x. reflexivity.
      * auto.
      * right. split; [auto|]. split; [auto|]. split; [auto|]. intros y Hy. now right.
    + intros _ _ _ _. left. now left.
Qed.

Lemma progress_trans : forall a b c, progress a b -> progress b c -> progress a c.
Proof.
  intros a b c (I1 & C1 & D1 & P1) (I2 & C2 & D2 & P2). split; [auto|]. split; [intro x; rewrite C2; apply C1|]. split; [auto|].
  destruct P1 as [[X1 L1]|(E1 & Q1 & X1 & N1)], P2 as [[X2 L2]|(E2 & Q2 & X2 & N2)].
  - left. split; [auto|lia].
  - left. split; [congruence|]. rewrite E2. auto.
  - left. split; [auto|]. rewrite <- E1. auto.
  - right. split; [congruence|]. split; [congruence|]. split; [congruence|]. eapply incl_tran; eauto.
Qed.

Lemma progress_shrinks : forall a b, progress a b -> (length (s_index b) <= length (s_index a))%nat.
Proof. intros a b (_ & _ & _ & [[_ L]|(E & _)]); [lia|rewrite E; auto]. Qed.

Lemma fold_ok : forall cs st, Inv st -> Forall (fun c => fst c <> snd c) cs ->
  exists st', foldM (simplify_step union_fn) cs st = Ret st' /\ progress st st' /\
    (s_index st' = s_index st -> Forall (fun c => In (fst c) (s_index st) -> In (snd c) (s_index st) -> settled st' c) cs).
Proof.
  induction cs as [|c cs IH]; intros st I F.
  - exists st. split; [reflexivity|]. split; [|constructor].
    split; [exact I|]. split; [tauto|]. split; [auto|]. right. split; [auto|]. split; [auto|]. split; [auto|]. apply incl_refl.
  - apply Forall_cons_iff in F as [Fc F]. destruct (step_ok st c I Fc) as (s1 & E1 & P1 & S1).
    destruct (IH s1 ltac:(apply P1) F) as (s2 & E2 & P2 & S2). exists s2.
    cbn [foldM]. rewrite E1; cbn [bind]. split; [exact E2|]. split; [eapply progress_trans; eauto|].
    intro EQ. pose proof (progress_shrinks _ _ P1) as L1. pose proof (progress_shrinks _ _ P2) as L2. rewrite EQ in L2.
    destruct P1 as (_ & _ & _ & [[_ L]|(Q1 & Q2 & Q3 & Q4)]); [lia|].
    rewrite Q1 in S2. specialize (S2 EQ). constructor; [|exact S2].
    intros Hi Hj. destruct (S1 Q3 Q1 Hi Hj) as [H|H]; destruct P2 as (_ & _ & _ & [[_ L]|(_ & _ & _ & INC)]);
      try (rewrite EQ, Q1 in L; lia); [left|right]; now apply INC.
Qed.

Lemma loop_ok : forall fuel k st, Inv st -> (length (s_index st) < fuel)%nat ->
  exists k' st', simplify_loop union_fn order fuel k st = Ret (k', st') /\ Inv st' /\
    (forall x, covers st' x <-> covers st x) /\ (disjoint st -> disjoint st') /\
    (length (s_index st') <= length (s_index st))%nat /\
    ForallOrdPairs (fun i j => settled st' (i, j)) (order k' (s_index st')).
Proof.
  induction fuel as [|fuel IH]; intros k st I L; [lia|]. cbn [simplify_loop].
  set (st0 := mkS (s_polys st) (s_index st) (s_non st) false).
  assert (I0 : Inv st0) by (constructor; [exact (inv_nodup st I)|exact (inv_at st I)|exact (inv_bound st I)|exact (inv_non st I)]).
  pose proof (order_ok k (s_index st)) as PM.
  assert (ND : NoDup (order k (s_index st))) by (eapply Permutation_NoDup; [symmetry; exact PM|exact (inv_nodup st I)]).
  destruct (fold_ok (combinations2 (order k (s_index st))) st0 I0) as (st1 & E1 & P1 & S1).
  { apply Forall_forall. intros [i j] H. exact (combinations2_NoDup _ i j ND H). }
  rewrite E1; cbn [bind]. pose proof P1 as (I1 & C1 & D1 & X1).
  destruct (s_changed st1) eqn:CH.
  - destruct X1 as [[_ X1]|(_ & _ & X1 & _)]; [|cbn in X1; congruence]. cbn [s_index st0] in X1.
    destruct (IH (S k) st1 I1 ltac:(lia)) as (k' & st' & E' & I' & C' & D' & L' & S'). exists k', st'.
    split; [exact E'|]. split; [auto|]. split; [intro x; rewrite C'; exact (C1 x)|]. split; [intro H; apply D', D1; exact H|].
    split; [lia|auto].
  - destruct X1 as [[X1 _]|(Q1 & Q2 & _ & _)]; [congruence|]. cbn [s_index s_polys st0] in Q1, Q2.
    exists (S k), st1. split; [reflexivity|]. split; [auto|]. split; [exact C1|]. split; [exact D1|]. split; [rewrite Q1; auto|].
    specialize (S1 Q1). rewrite Forall_forall in S1. cbn [s_index st0] in S1.
    assert (ALL : forall i j, In i (s_index st1) -> In j (s_index st1) -> i <> j -> settled st1 (i, j)).
    { intros i j Hi Hj Ne. rewrite Q1 in Hi, Hj.
      assert (Hi' : In i (order k (s_index st))) by (eapply Permutation_in; [symmetry; exact PM|exact Hi]).
      assert (Hj' : In j (order k (s_index st))) by (eapply Permutation_in; [symmetry; exact PM|exact Hj]).
      assert (C : In (i, j) (combinations2 (order k (s_index st))) \/ In (j, i) (combinations2 (order k (s_index st)))).
      { clear - Hi' Hj' Ne. induction (order k (s_index st)) as [|a l IHl]; [destruct Hi'|]. simpl.
        destruct Hi' as [->|Hi'], Hj' as [->|Hj'].
        - congruence.
        - left. apply in_or_app. left. now apply in_map.
        - right. apply in_or_app. left. now apply in_map.
        - destruct (IHl Hi' Hj'); [left|right]; apply in_or_app; now right. }
      destruct C as [C|C].
      - exact (S1 _ C Hi Hj).
      - destruct (S1 _ C Hj Hi) as [H|H]; [right|left]; exact H. }
    pose proof (order_ok (S k) (s_index st1)) as PM1.
    assert (ND1 : NoDup (order (S k) (s_index st1))) by (eapply Permutation_NoDup; [symmetry; exact PM1|exact (inv_nodup st1 I1)]).
    assert (IN1 : forall i, In i (order (S k) (s_index st1)) -> In i (s_index st1)) by (intros i; apply Permutation_in; exact PM1).
    clear - ALL ND1 IN1. induction ND1 as [|a l Na ND IHl]; constructor.
    + apply Forall_forall. intros b Hb. apply ALL; [apply IN1; now left|apply IN1; now right|congruence].
    + apply IHl. intros i Hi. apply IN1. now right.
Qed.

Lemma FOP_map2 : forall {A B} (R : A -> A -> Prop) (R' : B -> B -> Prop) (Q : A -> B -> Prop) l m,
  Forall2 Q l m -> (forall a b x y, In a l -> In b l -> Q a x -> Q b y -> R a b -> R' x y) -> ForallOrdPairs R l -> ForallOrdPairs R' m.
Proof.
  intros A B R R' Q l m F. induction F as [|a x l m H F IH]; intros K FO; [constructor|].
  inversion FO as [|? ? F1 F2]; subst. constructor.
  - clear - F F1 K H. induction F as [|b y l m Hb F IH]; [constructor|]. apply Forall_cons_iff in F1 as [F1 F1']. constructor.
    + eapply (K a b); eauto; simpl; auto.
    + apply IH; [|exact F1']. intros a' b' x' y' H1 H2. apply K; simpl in *; tauto.
  - apply IH; [|exact F2]. intros a' b' x' y' H1 H2. apply K; now right.
Qed.

Lemma FOP_NoDup : forall {A} (l : list A), NoDup l -> ForallOrdPairs (fun a b => a <> b) l.
Proof. induction 1; constructor; auto. apply Forall_forall. intros y Hy E. congruence. Qed.

Theorem simplify_union_generic : forall polys, Forall P polys ->
  exists out, simplify_union_of_polys union_fn order polys = Ret out /\ Forall P out /\
    (forall x, (exists p, In p out /\ M p x) <-> exists p, In p polys /\ M p x) /\
    (length out <= length polys)%nat /\
    (ForallOrdPairs D polys -> ForallOrdPairs D out) /\
    ForallOrdPairs (fun a b => N a b \/ N b a) out.
Proof.
  intros polys F. unfold simplify_union_of_polys. set (st := mkS polys (seq 0 (length polys)) [] true).
  assert (AT : forall i p, at_ st i p <-> nth_error polys i = Some p).
  { intros i p. unfold at_; cbn [s_index s_polys st]. split; [tauto|]. intro H. split; [|auto]. apply in_seq.
    assert (nth_error polys i <> None) by congruence. apply nth_error_Some in H0. lia. }
  assert (I : Inv st).
  { constructor.
    - apply seq_NoDup.
    - intros i Hi. cbn [s_index st] in Hi. apply in_seq in Hi. cbn [s_polys st].
      destruct (nth_error polys i) as [p|] eqn:En; [|apply nth_error_None in En; lia]. exists p. split; [auto|].
      rewrite Forall_forall in F. apply F. eapply nth_error_In; eauto.
    - intros i j [].
    - intros i j p q []. }
  destruct (loop_ok (S (length polys)) 0 st I) as (k & st' & E' & I' & C' & D' & L' & S').
  { cbn [s_index st]. rewrite seq_length. lia. }
  rewrite E'; cbn [bind]. pose proof (order_ok k (s_index st')) as PM.
  assert (MM : exists out, mapM (fun i => match nth_error (s_polys st') i with Some p => Ret p | None => Raise IndexError end)
     (order k (s_index st')) = Ret out /\ Forall2 (fun i p => at_ st' i p) (order k (s_index st')) out).
  { assert (IN : forall i, In i (order k (s_index st')) -> In i (s_index st')) by (intro i; apply Permutation_in; exact PM).
    clear - IN I'. induction (order k (s_index st')) as [|i l IH]; [exists []; split; [reflexivity|constructor]|].
    destruct (inv_at st' I' i (IN i (or_introl eq_refl))) as (p & Ep & Pp).
    destruct IH as (out & Eo & Fo); [intros j Hj; apply IN; now right|].
    exists (p :: out). cbn [mapM]. rewrite Ep; cbn [bind]. rewrite Eo; cbn [bind]. split; [reflexivity|]. constructor; [|auto].
    split; [apply IN; now left|auto]. }
  destruct MM as (out & Eo & Fo). exists out. split; [exact Eo|].
  assert (OUT : forall p, In p out <-> exists i, at_ st' i p).
  { intro p. split.
    - intro H. clear - Fo H. induction Fo; [destruct H|]. destruct H as [<-|H]; eauto.
    - intros (i & Hi). assert (In i (order k (s_index st'))) by (eapply Permutation_in; [symmetry; exact PM|apply Hi]).
      clear - Fo Hi H. induction Fo as [|j q l m Hq Fo IH]; [destruct H|]. destruct H as [->|H]; [|right; auto].
      left. destruct Hi, Hq. congruence. }
  split; [|split; [|split; [|split]]].
  - apply Forall_forall. intros p Hp. apply OUT in Hp as (i & Hi & Ep). destruct (inv_at st' I' i Hi) as (q & Eq & Pq). congruence.
  - intro x. transitivity (covers st' x).
    + unfold covers. split.
      * intros (p & Hp & Mp). apply OUT in Hp as (i & Hi). eauto.
      * intros (i & p & Hi & Mp). exists p. split; [apply OUT; eauto|auto].
    + rewrite C'. unfold covers. split.
      * intros (i & p & Hi & Mp). apply AT in Hi. exists p. split; [eapply nth_error_In; eauto|auto].
      * intros (p & Hp & Mp). apply In_nth_error in Hp as (i & Hi). exists i, p. split; [now apply AT|auto].
  - rewrite <- (Forall2_len _ _ _ Fo), (Permutation_length PM). cbn [s_index st] in L'. rewrite seq_length in L'. exact L'.
  - intro DJ. assert (DS : disjoint st).
    { intros i j p q Hi Hj Ne. apply AT in Hi, Hj. clear - DJ Hi Hj Ne D_sym.
      revert i j Hi Hj Ne. induction DJ as [|a l F FO IH]; intros i j Hi Hj Ne; [destruct i; discriminate|].
      rewrite Forall_forall in F. destruct i as [|i], j as [|j]; simpl in Hi, Hj.
      - congruence.
      - injection Hi as <-. apply F. eapply nth_error_In; eauto.
      - injection Hj as <-. apply D_sym, F. eapply nth_error_In; eauto.
      - eapply (IH i j); eauto. }
    apply D' in DS.
    assert (ND1 : NoDup (order k (s_index st'))) by (eapply Permutation_NoDup; [symmetry; exact PM|exact (inv_nodup st' I')]).
    apply (FOP_map2 (fun a b => a <> b) D (fun i p => at_ st' i p) _ _ Fo); [|now apply FOP_NoDup].
    intros a b p q _ _ Ha Hb Ne. eapply DS; eauto.
  - apply (FOP_map2 (fun i j => settled st' (i, j)) _ (fun i p => at_ st' i p) _ _ Fo); [|exact S'].
    intros a b p q _ _ [_ Ha] [_ Hb] [H|H]; [left|right]; cbn [fst snd] in H; eapply (inv_non st' I'); eauto.
Qed.

End Generic.
