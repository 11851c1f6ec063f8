(** Proofs about the supremum of rho / tau. *)
From Coq Require Import Reals Qreals.
From Verif Require Import Base LinAlg Model_Polytope Spec_Polytope Proof_Polytope Spec_Edges Proof_Edges Model_RationalFunction Spec_RationalFunction
  Proof_RationalFunction Proof_RFOptimal Model_ZeroDensity Spec_ZeroDensity.
From Coq Require Import Lra.
Open Scope list_scope.
Local Open Scope Q_scope.

Lemma Q2R_mul_inv : forall a b, ~ b == 0 -> Q2R (a / b) = (Q2R a / Q2R b)%R.
Proof. intros a b H. now rewrite Q2R_div. Qed.
Lemma Q2R_neq : forall a, ~ a == 0 -> Q2R a <> 0%R.
Proof. intros a H E. apply H. apply eqR_Qeq. rewrite E. now rewrite Q2R_0. Qed.

Lemma line_val : forall s1 y1 s2 y2 x, ~ s1 == s2 ->
  reval (num (line s1 y1 s2 y2)) x = ((Q2R y1 * (x - Q2R s2) + Q2R y2 * (Q2R s1 - x)) / (Q2R s1 - Q2R s2))%R /\
  reval (den (line s1 y1 s2 y2)) x = 1%R.
Proof.
  intros s1 y1 s2 y2 x H. assert (D : ~ s1 - s2 == 0) by (intro K; apply H; Lqa.lra).
  pose proof (Q2R_neq _ D) as D'. rewrite Q2R_minus in D'. split.
  - unfold line, RationalFunction, expr_of_coeffs. cbn [num rev app sum_monomials reval]. rewrite !Q2R_mul_inv by exact D.
    rewrite !Q2R_minus, !Q2R_mult, Q2R_0, Q2R_1. field. lra.
  - unfold line, RationalFunction, expr_of_coeffs. cbn [den rev app sum_monomials reval]. rewrite Q2R_0, Q2R_1. ring.
Qed.

(** The function of an edge. *)
Definition edge_fun (v w : point) : rfun :=
  rf_div (line (nth 0 v 0) (nth 2 v 0) (nth 0 w 0) (nth 2 w 0)) (ORat (line (nth 0 v 0) (nth 1 v 0) (nth 0 w 0) (nth 1 w 0))).
Definition edge_ends (v w : point) : Q * Q := (qmin (nth 0 v 0) (nth 0 w 0), qmax (nth 0 v 0) (nth 0 w 0)).

Lemma edge_fun_den : forall v w x, ~ nth 0 v 0 == nth 0 w 0 ->
  reval (den (edge_fun v w)) x = ((Q2R (nth 1 v 0)%Q * (x - Q2R (nth 0 w 0)%Q) + Q2R (nth 1 w 0)%Q * (Q2R (nth 0 v 0)%Q - x)) / (Q2R (nth 0 v 0)%Q - Q2R (nth 0 w 0)%Q))%R.
Proof.
  intros v w x H. unfold edge_fun, rf_div. cbn [den reval]. destruct (line_val (nth 0 v 0) (nth 2 v 0) (nth 0 w 0) (nth 2 w 0) x H) as [_ E1].
  destruct (line_val (nth 0 v 0) (nth 1 v 0) (nth 0 w 0) (nth 1 w 0) x H) as [E2 _]. rewrite E1, E2. ring.
Qed.
Lemma edge_fun_num : forall v w x, ~ nth 0 v 0 == nth 0 w 0 ->
  reval (num (edge_fun v w)) x = ((Q2R (nth 2 v 0)%Q * (x - Q2R (nth 0 w 0)%Q) + Q2R (nth 2 w 0)%Q * (Q2R (nth 0 v 0)%Q - x)) / (Q2R (nth 0 v 0)%Q - Q2R (nth 0 w 0)%Q))%R.
Proof.
  intros v w x H. unfold edge_fun, rf_div. cbn [num reval]. destruct (line_val (nth 0 v 0) (nth 2 v 0) (nth 0 w 0) (nth 2 w 0) x H) as [E1 _].
  destruct (line_val (nth 0 v 0) (nth 1 v 0) (nth 0 w 0) (nth 1 w 0) x H) as [_ E2]. rewrite E1, E2. ring.
Qed.

Lemma edge_ends_spec : forall v w, ~ nth 0 v 0 == nth 0 w 0 -> fst (edge_ends v w) < snd (edge_ends v w) /\
  ((nth 0 v 0 < nth 0 w 0 /\ edge_ends v w = (nth 0 v 0, nth 0 w 0)) \/ (nth 0 w 0 < nth 0 v 0 /\ edge_ends v w = (nth 0 w 0, nth 0 v 0))).
Proof.
  intros v w H. unfold edge_ends, qmin, qmax. destruct (Qlt_le_dec (nth 0 v 0) (nth 0 w 0)) as [L|L].
  - assert (A : Qltb (nth 0 w 0) (nth 0 v 0) = false) by (apply Qltb_false; Lqa.lra). assert (B : Qltb (nth 0 v 0) (nth 0 w 0) = true) by (now apply Qltb_true).
    rewrite A, B. cbn [fst snd]. auto.
  - assert (A : nth 0 w 0 < nth 0 v 0) by (destruct (Qlt_le_dec (nth 0 w 0) (nth 0 v 0)); [auto|exfalso; apply H; Lqa.lra]).
    assert (A' : Qltb (nth 0 w 0) (nth 0 v 0) = true) by (now apply Qltb_true). assert (B : Qltb (nth 0 v 0) (nth 0 w 0) = false) by (apply Qltb_false; Lqa.lra).
    rewrite A', B. cbn [fst snd]. auto.
Qed.

(** tau is positive between two points where it is positive. *)
Lemma edge_fun_pole : forall v w x, ~ nth 0 v 0 == nth 0 w 0 -> 0 < nth 1 v 0 -> 0 < nth 1 w 0 ->
  (Q2R (fst (edge_ends v w)) <= x <= Q2R (snd (edge_ends v w)))%R -> ~ has_pole (edge_fun v w) x.
Proof.
  intros v w x H Tv Tw B. unfold has_pole. rewrite edge_fun_den by exact H. apply Qlt_Rlt in Tv, Tw. rewrite Q2R_0 in Tv, Tw.
  destruct (edge_ends_spec v w H) as [_ [[L E]|[L E]]]; rewrite E in B; cbn [fst snd] in B; apply Qlt_Rlt in L.
  - assert (P : (0 < (Q2R (nth 1 v 0)%Q * (Q2R (nth 0 w 0)%Q - x) + Q2R (nth 1 w 0)%Q * (x - Q2R (nth 0 v 0)%Q)) / (Q2R (nth 0 w 0)%Q - Q2R (nth 0 v 0)%Q))%R).
    { apply Rdiv_lt_0_compat; [|lra]. destruct (Rlt_or_le x (Q2R (nth 0 w 0)%Q)) as [K|K].
      - assert (0 < Q2R (nth 1 v 0)%Q * (Q2R (nth 0 w 0)%Q - x))%R by (apply Rmult_lt_0_compat; lra).
        assert (0 <= Q2R (nth 1 w 0)%Q * (x - Q2R (nth 0 v 0)%Q))%R by (apply Rmult_le_pos; lra). lra.
      - assert (0 < Q2R (nth 1 w 0)%Q * (x - Q2R (nth 0 v 0)%Q))%R by (apply Rmult_lt_0_compat; lra).
        assert (0 <= Q2R (nth 1 v 0)%Q * (Q2R (nth 0 w 0)%Q - x))%R by (apply Rmult_le_pos; lra). lra. }
    intro Z. apply Rlt_not_eq in P. apply P. rewrite <- Z. field. lra.
  - assert (P : (0 < (Q2R (nth 1 v 0)%Q * (x - Q2R (nth 0 w 0)%Q) + Q2R (nth 1 w 0)%Q * (Q2R (nth 0 v 0)%Q - x)) / (Q2R (nth 0 v 0)%Q - Q2R (nth 0 w 0)%Q))%R).
    { apply Rdiv_lt_0_compat; [|lra]. destruct (Rlt_or_le x (Q2R (nth 0 v 0)%Q)) as [K|K].
      - assert (0 < Q2R (nth 1 w 0)%Q * (Q2R (nth 0 v 0)%Q - x))%R by (apply Rmult_lt_0_compat; lra).
        assert (0 <= Q2R (nth 1 v 0)%Q * (x - Q2R (nth 0 w 0)%Q))%R by (apply Rmult_le_pos; lra). lra.
      - assert (0 < Q2R (nth 1 v 0)%Q * (x - Q2R (nth 0 w 0)%Q))%R by (apply Rmult_lt_0_compat; lra).
        assert (0 <= Q2R (nth 1 w 0)%Q * (Q2R (nth 0 v 0)%Q - x))%R by (apply Rmult_le_pos; lra). lra. }
    lra.
Qed.

(** Its value at a rational sigma is rho / tau at the point of the line. *)
Lemma edge_fun_val : forall v w s, ~ nth 0 v 0 == nth 0 w 0 -> ~ nth 1 (at_first v w s) 0 == 0 ->
  rfval (edge_fun v w) (Q2R s) = Q2R (nth 2 (at_first v w s) 0 / nth 1 (at_first v w s) 0).
Proof.
  intros v w s H T. rewrite Q2R_mul_inv by exact T. unfold rfval. rewrite edge_fun_num, edge_fun_den by exact H.
  assert (D : ~ nth 0 w 0 - nth 0 v 0 == 0) by (intro; apply H; Lqa.lra). pose proof (Q2R_neq _ D) as D'. rewrite Q2R_minus in D'.
  assert (G : forall i, Q2R (nth i (at_first v w s) 0)%Q = ((Q2R (nth i v 0)%Q * (Q2R s - Q2R (nth 0 w 0)%Q) + Q2R (nth i w 0)%Q * (Q2R (nth 0 v 0)%Q - Q2R s)) / (Q2R (nth 0 v 0)%Q - Q2R (nth 0 w 0)%Q))%R).
  { intro i. unfold at_first. rewrite (Qeq_eqR _ _ (nth_mix _ v w i)), Q2R_plus, !Q2R_mult, Q2R_minus, Q2R_mul_inv by exact D. rewrite !Q2R_minus, Q2R_1. field. lra. }
  now rewrite !G.
Qed.

(** ** The loop over the edges *)
Lemma point3 : forall v : point, length v = 3%nat -> v = [nth 0 v 0; nth 1 v 0; nth 2 v 0].
Proof. intros [|a [|b [|c [|]]]] H; try discriminate H. reflexivity. Qed.

Definition same_edge (v w v' w' : point) : Prop := (Forall2 Qeq v v' /\ Forall2 Qeq w w') \/ (Forall2 Qeq v w' /\ Forall2 Qeq w v').
Definition seen (visited : list (list Q)) (v w : point) : Prop := exists a b, length a = 3%nat /\ length b = 3%nat /\ In (a ++ b) visited /\ same_edge v w a b.

Lemma app_len_inj : forall a b c d : list Q, length a = length c -> a ++ b = c ++ d -> a = c /\ b = d.
Proof. induction a as [|x a IH]; intros b [|y c] d L E; try discriminate L; cbn in E; [auto|]. injection E as -> E. destruct (IH b c d) as [-> ->]; auto. Qed.
Lemma F2_app : forall a b c d : list Q, length a = length c -> Forall2 Qeq (a ++ b) (c ++ d) -> Forall2 Qeq a c /\ Forall2 Qeq b d.
Proof.
  induction a as [|x a IH]; intros b [|y c] d L F; try discriminate L; cbn in F; [auto|]. inversion F; subst. destruct (IH b c d) as [A B]; auto.
Qed.

Lemma edge_functions_ok : forall edges visited,
  (forall v w, In (v, w) edges -> length v = 3%nat /\ length w = 3%nat) ->
  (forall l, In l visited -> exists a b, l = a ++ b /\ length a = 3%nat /\ length b = 3%nat) ->
  exists fns, edge_functions edges visited = Ret fns /\
    (forall f ab, In (f, ab) fns -> exists v w, In (v, w) edges /\ ~ nth 0 v 0 == nth 0 w 0 /\ f = edge_fun v w /\ ab = edge_ends v w) /\
    (forall v w, In (v, w) edges -> ~ nth 0 v 0 == nth 0 w 0 ->
       seen visited v w \/ exists v' w', In (v', w') edges /\ In (edge_fun v' w', edge_ends v' w') fns /\ same_edge v w v' w').
Proof.
  induction edges as [|[v w] edges IH]; intros visited LE LV.
  - exists []. split; [reflexivity|]. split; [intros ? ? []|intros ? ? []].
  - destruct (LE v w (or_introl eq_refl)) as [Lv Lw].
    assert (LE' : forall v w, In (v, w) edges -> length v = 3%nat /\ length w = 3%nat) by (intros; apply LE; now right).
    cbn [edge_functions].
    destruct (existsb (qlist_eqb (v ++ w)) visited || existsb (qlist_eqb (w ++ v)) visited) eqn:X.
    + destruct (IH visited LE' LV) as (fns & E & S & C). exists fns. split; [exact E|]. split.
      * intros f ab I. destruct (S f ab I) as (v' & w' & I' & R). exists v', w'. split; [now right|exact R].
      * intros v' w' [Eq|I] N; [|destruct (C v' w' I N) as [K|(a & b & Ia & R)]; [now left|right; exists a, b; split; [now right|exact R]]].
        injection Eq as <- <-. left. apply orb_true_iff in X. destruct X as [X|X]; apply existsb_exists in X; destruct X as (l & Il & Q0); apply qlist_eqb_spec in Q0;
          destruct (LV l Il) as (a & b & -> & La & Lb); exists a, b; (split; [exact La|]); (split; [exact Lb|]); (split; [exact Il|]);
          (apply F2_app in Q0; [|lia]); [left|right]; tauto.
    + rewrite (point3 v Lv), (point3 w Lw). cbv iota. rewrite <- (point3 v Lv), <- (point3 w Lw).
      assert (LV' : forall l, In l ((v ++ w) :: visited) -> exists a b, l = a ++ b /\ length a = 3%nat /\ length b = 3%nat) by (intros l [<- | I]; [exists v, w; auto|auto]).
      destruct (IH ((v ++ w) :: visited) LE' LV') as (fns & E & S & C). destruct (Qeqb (nth 0 v 0) (nth 0 w 0)) eqn:Z.
      * apply Qeqb_true in Z. exists fns. split; [exact E|]. split.
        -- intros f ab I. destruct (S f ab I) as (v' & w' & I' & R). exists v', w'. split; [now right|exact R].
        -- intros v' w' [Eq|I] N; [injection Eq as <- <-; contradiction|]. destruct (C v' w' I N) as [(a & b & La & Lb & [Ev|Iv] & SE)|(a & b & Ia & R)].
           ++ exfalso. apply app_len_inj in Ev; [|lia]. destruct Ev as [-> ->].
                 destruct SE as [[A B]|[A B]]; apply N; rewrite (F2_nth _ _ A 0%nat), (F2_nth _ _ B 0%nat); [exact Z|symmetry; exact Z].
           ++ left. exists a, b. auto.
           ++ right. exists a, b. split; [now right|exact R].
      * apply Qeqb_false in Z. rewrite E. cbn [bind]. eexists. split; [reflexivity|]. split.
        -- intros f ab [Eq|I]; [|destruct (S f ab I) as (v' & w' & I' & R); exists v', w'; split; [now right|exact R]].
           injection Eq as <- <-. exists v, w. split; [now left|]. split; [exact Z|]. split; reflexivity.
        -- intros v' w' [Eq|I] N.
           ++ injection Eq as <- <-. right. exists v, w. split; [now left|]. split; [left; reflexivity|]. left. split; apply peq_F2; auto; reflexivity.
           ++ destruct (C v' w' I N) as [(a & b & La & Lb & [Ev|Iv] & SE)|(a & b & Ia & Ifn & R)].
              ** right. exists v, w. split; [now left|]. split; [left; reflexivity|].
                 apply app_len_inj in Ev; [|lia]. destruct Ev as [-> ->].
                 exact SE.
              ** left. exists a, b. auto.
              ** right. exists a, b. split; [now right|]. split; [now right|exact R].
Qed.

(** ** [get_edges] *)
Lemma mapM_exists : forall A B (f : A -> res B) l (P : A -> B -> Prop), (forall a, In a l -> exists b, f a = Ret b /\ P a b) ->
  exists bs, mapM f l = Ret bs /\ Forall2 P l bs.
Proof.
  induction l as [|a l IH]; intros P H; [exists []; split; [reflexivity|constructor]|].
  destruct (H a (or_introl eq_refl)) as (b & E & Pb). destruct (IH P (fun x I => H x (or_intror I))) as (bs & Es & F).
  exists (b :: bs). cbn [mapM]. rewrite E. cbn [bind]. rewrite Es. cbn [bind]. split; [reflexivity|now constructor].
Qed.
Lemma F2_in_r : forall A B (P : A -> B -> Prop) l bs b, Forall2 P l bs -> In b bs -> exists a, In a l /\ P a b.
Proof. intros A B P l bs b F. induction F as [|x y l bs H F IH]; intros I; [destruct I|]. destruct I as [<- | I]; [exists x; split; [now left|exact H]|]. destruct (IH I) as (a & Ia & Pa). exists a. split; [now right|exact Pa]. Qed.
Lemma F2_in_l : forall A B (P : A -> B -> Prop) l bs a, Forall2 P l bs -> In a l -> exists b, In b bs /\ P a b.
Proof. intros A B P l bs b F. induction F as [|x y l bs H F IH]; intros I; [destruct I|]. destruct I as [<- | I]; [exists y; split; [now left|exact H]|]. destruct (IH I) as (a & Ia & Pa). exists a. split; [now right|exact Pa]. Qed.

Lemma is_edge_set : forall m m' v w, (forall x, mmember m x <-> mmember m' x) -> is_edge m v w -> is_edge m' v w.
Proof.
  intros m m' v w H (A & B & C & D). split; [now apply H|]. split; [now apply H|]. split; [exact C|]. intros x y t Mx My. apply D; now apply H.
Qed.

Section GetEdges.
Variable E : ext.
Hypothesis OK : ext_ok E.
Variable adj : mat -> list (list nat).
Hypothesis AD : adjacency_ok E adj.

Lemma edges_of_matrix : forall m, wf_mat m -> mbounded m -> exists rows, mapM (fun i =>
      let! v1 := item (generators E m) i in
      let! js := item (adj m) i in
      mapM (fun j => let! v2 := item (generators E m) j in Ret (v1, v2)) js)
    (seq 0 (List.length (adj m))) = Ret rows /\
  (forall v w, In (v, w) (concat rows) -> mmember m v /\ mmember m w) /\
  (forall v w, is_edge m v w -> exists v' w', In (v', w') (concat rows) /\ Forall2 Qeq v v' /\ Forall2 Qeq w w').
Proof.
  intros m WF BD. destruct (AD m WF BD) as (LA & RA & CA). pose proof (gen_spans E OK m WF BD) as [GM _]. rewrite Forall_forall in GM.
  destruct (mapM_exists nat (list (point * point)) (fun i =>
      let! v1 := item (generators E m) i in
      let! js := item (adj m) i in
      mapM (fun j => let! v2 := item (generators E m) j in Ret (v1, v2)) js) (seq 0 (List.length (adj m)))
      (fun i row => forall e, In e row <-> exists j, In j (nth i (adj m) []) /\ e = (nth i (generators E m) [], nth j (generators E m) []))) as (rows & ER & F).
  { intros i Hi. apply in_seq in Hi. unfold item at 1. destruct (nth_error (generators E m) i) as [v|] eqn:Ev; [|apply nth_error_None in Ev; lia].
    cbn [bind]. unfold item at 1. destruct (nth_error (adj m) i) as [js|] eqn:Ej; [|apply nth_error_None in Ej; lia]. cbn [bind].
    pose proof (nth_error_nth _ _ [] Ev) as Nv. pose proof (nth_error_nth _ _ [] Ej) as Nj. pose proof (nth_error_In _ _ Ej) as Ij.
    destruct (mapM_exists nat (point * point) (fun j => let! v2 := item (generators E m) j in Ret (v, v2)) js (fun j e => e = (v, nth j (generators E m) []))) as (row & Er & Fr).
    { intros j Hj. specialize (RA js j Ij Hj). unfold item. destruct (nth_error (generators E m) j) as [w|] eqn:Ew; [|apply nth_error_None in Ew; lia].
      exists (v, w). cbn [bind]. split; [reflexivity|]. f_equal. symmetry. exact (nth_error_nth _ _ [] Ew). }
    exists row. split; [exact Er|]. intro e. rewrite Nj. unfold point in *. rewrite Nv. split.
    - intro I. destruct (F2_in_r _ _ _ _ _ _ Fr I) as (j & Hj & ->). eauto.
    - intros (j & Hj & ->). destruct (F2_in_l _ _ _ _ _ _ Fr Hj) as (e & Ie & ->). exact Ie. }
  exists rows. split; [exact ER|]. split.
  - intros v w I. apply in_concat in I. destruct I as (row & Ir & I). destruct (F2_in_r _ _ _ _ _ _ F Ir) as (i & Hi & K). apply in_seq in Hi.
    apply K in I. destruct I as (j & Hj & Eq). injection Eq as -> ->. assert (J : (j < length (generators E m))%nat) by (apply (RA (nth i (adj m) [])); [apply nth_In; lia|exact Hj]).
    split; apply GM, nth_In; unfold point in *; lia.
  - intros v w ED. destruct (CA v w ED) as (i & j & Ij & Ev & Ew). assert (Hi : (i < length (adj m))%nat).
    { destruct (le_lt_dec (length (adj m)) i) as [K|K]; [|exact K]. rewrite nth_overflow in Ij by lia. destruct Ij. }
    destruct (F2_in_l _ _ _ _ _ i F ltac:(apply in_seq; lia)) as (row & Ir & K). exists (nth i (generators E m) []), (nth j (generators E m) []). split; [|auto].
    apply in_concat. exists row. split; [exact Ir|]. apply K. eauto.
Qed.

Lemma get_edges_ok : forall p, wf_mat (pmat p) -> bounded p -> vertices_in_order E p ->
  exists edges, get_edges E adj p = Ret edges /\
  (forall v w, In (v, w) edges -> member p v /\ member p w) /\
  (forall v w, is_edge (pmat p) v w -> exists v' w', In (v', w') edges /\ Forall2 Qeq v v' /\ Forall2 Qeq w w').
Proof.
  intros p WF BD VO. unfold get_edges. destruct (pcanon p) eqn:C.
  - destruct (edges_of_matrix (pmat p) WF BD) as (rows & ER & A & B).
    assert (V : get_vertices E p = generators E (pmat p)) by (unfold get_vertices; destruct (VO C) as [-> | ->]; reflexivity).
    rewrite V, ER. cbn [bind]. exists (concat rows). auto.
  - set (m := canonicalize E (pmat p)). destruct (canon_wf E OK (pmat p) WF) as [WF' N']. fold m in WF', N'.
    assert (S : forall x, mmember m x <-> mmember (pmat p) x) by (intro x; apply canon_set; auto).
    assert (BD' : mbounded m) by (destruct BD as (b & H); exists b; intros x i Mx; apply H, S, Mx).
    destruct (edges_of_matrix m WF' BD') as (rows & ER & A & B). unfold get_vertices. cbn [pverts pmat]. rewrite ER. cbn [bind]. exists (concat rows). split; [reflexivity|]. split.
    + intros v w I. destruct (A v w I). split; now apply S.
    + intros v w ED. apply B. apply (is_edge_set (pmat p)); auto. intro x. symmetry. apply S.
Qed.

(** ** The functions whose maximum is taken *)
Definition tau_row : list Q := [0; 0; 1; 0].
Definition rho_row : list Q := [0; 0; 0; 1].
Lemma tau_val : forall x : point, length x = 3%nat -> rowval tau_row x == nth 1 x 0.
Proof. intros x L. rewrite (point3 x L). unfold rowval, tau_row. cbn. ring. Qed.
Lemma rho_val : forall x : point, length x = 3%nat -> rowval rho_row x == nth 2 x 0.
Proof. intros x L. rewrite (point3 x L). unfold rowval, rho_row. cbn. ring. Qed.

Lemma value_len : forall p x, value_polytope p -> member p x -> length x = 3%nat.
Proof. intros p x (_ & N & _) [L _]. lia. Qed.

Lemma sup_functions_ok : forall ps, (forall p, In p ps -> value_polytope p /\ vertices_in_order E p) ->
  exists fs, sup_functions E adj ps = Ret fs /\
  (forall f i, In (f, i) fs -> exists p v w, In p ps /\ member p v /\ member p w /\ ~ nth 0 v 0 == nth 0 w 0 /\ f = edge_fun v w /\ i = real_interval (edge_ends v w)) /\
  (forall p x, In p ps -> reaches_past p (nth 0 x 0) -> member p x ->
     exists v w, In (edge_fun v w, real_interval (edge_ends v w)) fs /\ member p v /\ member p w /\ ~ nth 0 v 0 == nth 0 w 0 /\
       fst (edge_ends v w) <= nth 0 x 0 /\ nth 0 x 0 < snd (edge_ends v w) /\
       let y := at_first v w (nth 0 x 0) in nth 2 x 0 * nth 1 y 0 <= nth 2 y 0 * nth 1 x 0).
Proof.
  intros ps H. unfold sup_functions.
  destruct (mapM_exists polytope (list (point * point)) (get_edges E adj) ps (fun p edges =>
     (forall v w, In (v, w) edges -> member p v /\ member p w) /\
     (forall v w, is_edge (pmat p) v w -> exists v' w', In (v', w') edges /\ Forall2 Qeq v v' /\ Forall2 Qeq w w'))) as (ess & Ee & Fe).
  { intros p Ip. destruct (H p Ip) as [(WF & N & BD & _) VO]. destruct (get_edges_ok p WF BD VO) as (edges & A & B & C). exists edges. auto. }
  rewrite Ee. cbn [bind].
  assert (ML : forall v w, In (v, w) (concat ess) -> exists p, In p ps /\ member p v /\ member p w).
  { intros v w I. apply in_concat in I. destruct I as (es & Ies & I). destruct (F2_in_r _ _ _ _ _ _ Fe Ies) as (p & Ip & A & _). exists p. split; [exact Ip|]. now apply A. }
  destruct (edge_functions_ok (concat ess) []) as (fns & Ef & S & C); [|intros ? []|].
  { intros v w I. destruct (ML v w I) as (p & Ip & Mv & Mw). destruct (H p Ip) as [V _]. split; apply (value_len p); auto. }
  rewrite Ef. cbn [bind]. eexists. split; [reflexivity|]. split.
  - intros f i I. apply in_map_iff in I. destruct I as ((f', ab) & Eq & I). cbn [fst snd] in Eq. injection Eq as <- <-.
    destruct (S f' ab I) as (v & w & Ivw & N & -> & ->). destruct (ML v w Ivw) as (p & Ip & Mv & Mw). exists p, v, w. auto 6.
  - intros p x Ip (x' & z & Mx' & Mz & X' & Z) Mx. destruct (H p Ip) as [V VO]. pose proof V as (WF & N & BD & POS). destruct (F2_in_l _ _ _ _ _ _ Fe Ip) as (es & Ies & A & B).
    assert (Lx : length x = 3%nat) by (apply (value_len p); auto).
    assert (CG : forall v, is_corner (pmat p) v -> exists v', In v' (generators E (pmat p)) /\ Forall2 Qeq v v') by (intros v Cv; apply (corner_generator (pmat p)); [apply (gen_spans E OK); auto|exact Cv]).
    destruct (ratio_edge (pmat p) WF BD es B (generators E (pmat p)) CG rho_row tau_row x z Mx Mz Z) as (v & w & Ivw & L1 & L2 & R).
    destruct (A v w Ivw) as [Mv Mw]. assert (NE : ~ nth 0 v 0 == nth 0 w 0) by (intro; Lqa.lra).
    assert (VW : nth 0 v 0 < nth 0 w 0) by Lqa.lra.
    assert (Ic : In (v, w) (concat ess)) by (apply in_concat; eauto).
    assert (Lv : length v = 3%nat) by (apply (value_len p); auto). assert (Lw : length w = 3%nat) by (apply (value_len p); auto).
    destruct (C v w Ic NE) as [(a & b & _ & _ & [] & _)|(v' & w' & Ic' & If & SE)].
    assert (My : forall s, length (at_first v w s) = 3%nat) by (intro s; unfold at_first; rewrite mix_length; lia).
    cbv zeta in R. rewrite !rho_val, !tau_val in R by auto.
    assert (Lv' : length v' = 3%nat /\ length w' = 3%nat) by (destruct SE as [[F1 F2]|[F1 F2]]; apply Forall2_len in F1, F2; split; unfold point in *; lia). destruct Lv' as [Lv' Lw'].
    assert (FM : forall u u', Forall2 Qeq u u' -> member p u -> member p u').
    { intros u u' F Mu. apply (mmember_peq (pmat p) u u'); auto; [now apply Forall2_len in F|exact (F2_nth _ _ F)]. }
    exists v', w'. split; [apply in_map_iff; exists (edge_fun v' w', edge_ends v' w'); auto|].
    destruct SE as [[F1 F2]|[F1 F2]].
    + pose proof (F2_nth _ _ F1 0%nat) as Z1. pose proof (F2_nth _ _ F2 0%nat) as Z2. assert (NE' : ~ nth 0 v' 0 == nth 0 w' 0) by (rewrite <- Z1, <- Z2; exact NE).
      split; [now apply (FM v)|]. split; [now apply (FM w)|]. split; [exact NE'|].
      destruct (edge_ends_spec v' w' NE') as [_ [[L Ee']|[L _]]]; [|exfalso; Lqa.lra]. rewrite Ee'. cbn [fst snd]. split; [Lqa.lra|]. split; [Lqa.lra|]. cbv zeta.
      assert (G : forall i, nth i (at_first v' w' (nth 0 x 0)) 0 == nth i (at_first v w (nth 0 x 0)) 0).
      { intro i. unfold at_first. rewrite !nth_mix, <- Z1, <- Z2, <- (F2_nth _ _ F1 i), <- (F2_nth _ _ F2 i). reflexivity. }
      rewrite !G. exact R.
    + pose proof (F2_nth _ _ F1 0%nat) as Z1. pose proof (F2_nth _ _ F2 0%nat) as Z2. assert (NE' : ~ nth 0 v' 0 == nth 0 w' 0) by (rewrite <- Z1, <- Z2; intro; Lqa.lra).
      split; [now apply (FM w)|]. split; [now apply (FM v)|]. split; [exact NE'|].
      destruct (edge_ends_spec v' w' NE') as [_ [[L _]|[L Ee']]]; [exfalso; Lqa.lra|]. rewrite Ee'. cbn [fst snd]. split; [Lqa.lra|]. split; [Lqa.lra|]. cbv zeta.
      assert (G : forall i, nth i (at_first v' w' (nth 0 x 0)) 0 == nth i (at_first v w (nth 0 x 0)) 0).
      { intro i. unfold at_first. rewrite !nth_mix, <- Z1, <- Z2, <- (F2_nth _ _ F1 i), <- (F2_nth _ _ F2 i). field. split; intro; Lqa.lra. }
      rewrite !G. exact R.
Qed.
End GetEdges.
