(** Every point of a polytope is exceeded by a point of an edge with the same
    first coordinate, or by a corner. *)
From Verif Require Import Base LinAlg Model_Polytope Spec_Polytope Proof_Polytope Proof_PolytopeSets FM_Ext Spec_Edges.
Open Scope list_scope.

Definition move (y d : point) (s : Q) : point := vadd y (vscale s d).
Lemma rowval_move : forall r y d s, rowval r (move y d s) == rowval r y + s * dot (tl r) d.
Proof. intros r y d s. unfold rowval, move. rewrite dot_vadd_r, dot_vscale_r. ring. Qed.
Lemma nth_move : forall y d s i, nth i (move y d s) 0 == nth i y 0 + s * nth i d 0.
Proof. intros. unfold move. rewrite nth_vadd, nth_vscale. reflexivity. Qed.
Lemma move_length : forall y d s, length d = length y -> length (move y d s) = length y.
Proof. intros y d s L. unfold move. rewrite vadd_length, vscale_length. lia. Qed.

Lemma seq_dec : forall (P : nat -> Prop) k, (forall i, P i \/ ~ P i) -> (exists i, (i < k)%nat /\ P i) \/ forall i, (i < k)%nat -> ~ P i.
Proof.
  intros P k D. induction k as [|k IH]; [right; intros; lia|]. destruct IH as [(i & L & H)|IH]; [left; exists i; split; [lia|exact H]|].
  destruct (D k) as [H|H]; [left; exists k; split; [lia|exact H]|]. right. intros i L. destruct (Nat.eq_dec i k) as [-> | X]; [exact H|]. apply IH. lia.
Qed.

Section Poly.
Variable m : mat.
Variable n : nat.
Hypothesis WF : wf_mat m.
Hypothesis N : ncol m = S n.
Hypothesis BD : mbounded m.

Definition tightb (y : point) (rb : list Q * bool) : bool := Qeqb (rowval (fst rb) y) 0.
Definition loose (y : point) : nat := length (filter (fun rb => negb (tightb y rb)) (mrows m)).
(** Directions along which the tight rows stay tight. *)
Definition dir (y d : point) : Prop :=
  length d = n /\ forall rb, In rb (mrows m) -> rowval (fst rb) y == 0 -> dot (tl (fst rb)) d == 0.

Lemma member_len : forall x, mmember m x -> length x = n.
Proof. intros x [L _]. lia. Qed.

Definition slope (d : point) (rb : list Q * bool) : Q := dot (tl (fst rb)) d.
Definition reach (y d : point) (rb : list Q * bool) : Q := rowval (fst rb) y / - slope d rb.

(** The nearest row that is met when moving along [d]. *)
Fixpoint nearest (y d : point) (l : list (list Q * bool)) : option (list Q * bool) :=
  match l with
  | [] => None
  | rb :: l' =>
      if Qltb (slope d rb) 0 then
        match nearest y d l' with
        | None => Some rb
        | Some rb' => if Qleb (reach y d rb) (reach y d rb') then Some rb else Some rb'
        end
      else nearest y d l'
  end.
Lemma nearest_none : forall y d l, nearest y d l = None -> forall rb, In rb l -> 0 <= slope d rb.
Proof.
  induction l as [|a l IH]; intros H rb I; [destruct I|]. cbn [nearest] in H. destruct (Qltb (slope d a) 0) eqn:E.
  - destruct (nearest y d l); [destruct (Qleb _ _)|]; discriminate.
  - destruct I as [<- | I]; [|auto]. apply Qltb_false in E. lra.
Qed.
Lemma nearest_some : forall y d l rb, nearest y d l = Some rb -> In rb l /\ slope d rb < 0 /\
  forall rb', In rb' l -> slope d rb' < 0 -> reach y d rb <= reach y d rb'.
Proof.
  induction l as [|a l IH]; intros rb H; [discriminate|]. cbn [nearest] in H. destruct (Qltb (slope d a) 0) eqn:E.
  - apply Qltb_true in E. destruct (nearest y d l) as [b|] eqn:Eb.
    + destruct (IH b eq_refl) as (I & S & M). destruct (Qleb (reach y d a) (reach y d b)) eqn:K; injection H as <-.
      * apply Qleb_true in K. split; [now left|]. split; [exact E|]. intros rb' [<- | I'] S'; [apply Qle_refl|]. specialize (M rb' I' S'). lra.
      * apply Qleb_false in K. split; [now right|]. split; [exact S|]. intros rb' [<- | I'] S'; [lra|auto].
    + injection H as <-. split; [now left|]. split; [exact E|]. intros rb' [<- | I'] S'; [apply Qle_refl|].
      pose proof (nearest_none y d l Eb rb' I'). lra.
  - apply Qltb_false in E. destruct (IH rb H) as (I & S & M). split; [now right|]. split; [exact S|]. intros rb' [<- | I'] S'; [lra|auto].
Qed.

Lemma filter_loose_le : forall (f g : list Q * bool -> bool) l, (forall a, In a l -> f a = true -> g a = true) -> (length (filter f l) <= length (filter g l))%nat.
Proof.
  induction l as [|a l IH]; intro H; [cbn; lia|]. cbn [filter]. specialize (IH (fun b I => H b (or_intror I))). destruct (f a) eqn:Ef.
  - rewrite (H a (or_introl eq_refl) Ef). cbn [length]. lia.
  - destruct (g a); cbn [length]; lia.
Qed.
Lemma filter_loose_lt : forall (f g : list Q * bool -> bool) l b, (forall a, In a l -> f a = true -> g a = true) -> In b l -> f b = false -> g b = true ->
  (length (filter f l) < length (filter g l))%nat.
Proof.
  induction l as [|a l IH]; intros b H I Fb Gb; [destruct I|]. cbn [filter]. pose proof (filter_loose_le f g l (fun b I => H b (or_intror I))) as LE. destruct I as [-> | I].
  - rewrite Fb, Gb. cbn [length]. lia.
  - specialize (IH b (fun b I => H b (or_intror I)) I Fb Gb). destruct (f a) eqn:Ef.
    + rewrite (H a (or_introl eq_refl) Ef). cbn [length]. lia.
    + destruct (g a); cbn [length]; lia.
Qed.

(** Moving along a direction that is not zero meets a row, and goes no further. *)
Lemma hit : forall y d, mmember m y -> dir y d -> ~ peq d [] -> exists s, 0 < s /\ mmember m (move y d s) /\ (loose (move y d s) < loose y)%nat /\
  (forall rb, In rb (mrows m) -> rowval (fst rb) y == 0 -> rowval (fst rb) (move y d s) == 0) /\
  (forall s', mmember m (move y d s') -> s' <= s).
Proof.
  intros y d My [Ld D] NZ. pose proof (member_len y My) as Ly.
  assert (L : forall s, S (length (move y d s)) = ncol m) by (intro s; rewrite move_length; lia).
  destruct My as [_ H]. rewrite Forall_forall in H.
  destruct (nearest y d (mrows m)) as [rb|] eqn:E.
  - destruct (nearest_some _ _ _ _ E) as (I & S & M). pose proof (H rb I) as Hr.
    assert (V : 0 < rowval (fst rb) y).
    { destruct (Qlt_le_dec 0 (rowval (fst rb) y)) as [K|K]; [exact K|]. assert (Z : rowval (fst rb) y == 0) by (unfold holds in Hr; destruct (snd rb); lra).
      specialize (D rb I Z). unfold slope in S. lra. }
    assert (Fb : snd rb = false) by (unfold holds in Hr; destruct (snd rb); [lra|reflexivity]).
    set (s := reach y d rb). assert (Es : s * - slope d rb == rowval (fst rb) y) by (unfold s, reach; field; intro; lra).
    assert (Ps : 0 < s). { unfold s, reach. apply Qlt_shift_div_l; lra. }
    exists s. split; [exact Ps|]. split; [|split; [|split]].
    + split; [apply L|]. apply Forall_forall. intros rb' I'. specialize (H rb' I'). unfold holds in *. pose proof (rowval_move (fst rb') y d s) as Ev.
      destruct (snd rb') eqn:Eb.
      * rewrite Ev, H, (D rb' I' H). ring.
      * rewrite Ev. destruct (Qlt_le_dec (slope d rb') 0) as [K|K].
        -- specialize (M rb' I' K). fold s in M. assert (X : reach y d rb' * - slope d rb' == rowval (fst rb') y) by (unfold reach; field; intro; lra).
           unfold slope in *. nra.
        -- unfold slope in K. nra.
    + unfold loose. apply (filter_loose_lt _ _ _ rb).
      * intros a Ia T. unfold tightb in *. destruct (Qeqb (rowval (fst a) y) 0) eqn:K; [|reflexivity]. apply Qeqb_true in K.
        assert (Z : Qeqb (rowval (fst a) (move y d s)) 0 = true); [|rewrite Z in T; discriminate]. apply Qeqb_true. rewrite rowval_move, K, (D a Ia K). ring.
      * exact I.
      * unfold tightb. assert (Z : Qeqb (rowval (fst rb) (move y d s)) 0 = true); [|now rewrite Z]. apply Qeqb_true. rewrite rowval_move. unfold slope in Es. lra.
      * unfold tightb. destruct (Qeqb (rowval (fst rb) y) 0) eqn:K; [apply Qeqb_true in K; lra|reflexivity].
    + intros a Ia K. rewrite rowval_move, K, (D a Ia K). ring.
    + intros s' [_ F]. rewrite Forall_forall in F. specialize (F rb I). unfold holds in F. rewrite Fb, rowval_move in F. unfold slope in *.
      destruct (Qlt_le_dec s s') as [K|K]; [|exact K]. nra.
  - exfalso. pose proof (nearest_none _ _ _ E) as P. destruct BD as (B & HB). apply NZ. intro i. rewrite (nth_overflow []) by (cbn; lia).
    destruct (Qeq_dec (nth i d 0) 0) as [K|K]; [exact K|]. exfalso.
    assert (MM : forall s, 0 <= s -> mmember m (move y d s)).
    { intros s Hs. split; [apply L|]. apply Forall_forall. intros rb I. specialize (H rb I). specialize (P rb I). unfold holds, slope in *. pose proof (rowval_move (fst rb) y d s) as Ev. destruct (snd rb).
      - rewrite Ev, H, (D rb I H). ring.
      - rewrite Ev. nra. }
    assert (X : 0 <= B) by (specialize (HB _ 0%nat (MM 0 (Qle_refl 0))); pose proof (Qabs_nonneg (nth 0 (move y d 0) 0)); lra).
    set (s := (B + Qabs (nth i y 0) + 1) / Qabs (nth i d 0)).
    assert (Pd : 0 < Qabs (nth i d 0)) by (apply Qabs_case; intro; [destruct (Qlt_le_dec 0 (nth i d 0)); [auto|exfalso; apply K; lra]|destruct (Qlt_le_dec (nth i d 0) 0); [lra|exfalso; apply K; lra]]).
    pose proof (Qabs_nonneg (nth i y 0)) as Py.
    assert (Hs : s * Qabs (nth i d 0) == B + Qabs (nth i y 0) + 1) by (unfold s; field; intro; lra).
    assert (S0 : 0 <= s) by (unfold s; apply Qle_shift_div_l; lra).
    specialize (HB _ i (MM s S0)). rewrite nth_move in HB.
    assert (T : Qabs (s * nth i d 0) <= Qabs (nth i y 0 + s * nth i d 0) + Qabs (nth i y 0)).
    { setoid_replace (s * nth i d 0) with ((nth i y 0 + s * nth i d 0) + - nth i y 0) at 1 by ring. eapply Qle_trans; [apply Qabs_triangle|]. rewrite Qabs_opp. lra. }
    rewrite Qabs_Qmult, (Qabs_pos s S0) in T. lra.
Qed.

(** The directions at [y] with given values of coordinates. *)
Definition dirmat (y : point) (conds : list (nat * Q)) : mat :=
  mkMat (map (fun rb => (0 :: tl (fst rb), true)) (filter (tightb y) (mrows m)) ++ map (fun ic => (- snd ic :: unit (fst ic), true)) conds) (S n).
Lemma dirmat_ok : forall y conds d, mmember (dirmat y conds) d <-> dir y d /\ Forall (fun ic => nth (fst ic) d 0 == snd ic) conds.
Proof.
  intros y conds d. unfold mmember, dirmat, dir. cbn [ncol mrows]. rewrite Forall_app, !Forall_map, !Forall_forall. split.
  - intros (L & A & B). split; [split; [lia|]|].
    + intros rb I T. specialize (A rb). cbn in A. assert (X : In rb (filter (tightb y) (mrows m))) by (apply filter_In; split; [exact I|apply Qeqb_true; exact T]).
      specialize (A X). unfold holds, rowval in A. cbn [fst snd hd tl] in A. lra.
    + intros ic I. specialize (B ic I). unfold holds, rowval in B. cbn [fst snd hd tl] in B. rewrite dot_unit in B. lra.
  - intros ((L & A) & B). split; [lia|]. split.
    + intros rb I. apply filter_In in I. destruct I as [I T]. apply Qeqb_true in T. specialize (A rb I T). unfold holds, rowval. cbn [fst snd hd tl]. lra.
    + intros ic I. specialize (B ic I). unfold holds, rowval. cbn [fst snd hd tl]. rewrite dot_unit. lra.
Qed.
Lemma dir_dec : forall y conds, (exists d, dir y d /\ Forall (fun ic => nth (fst ic) d 0 == snd ic) conds) \/ ~ (exists d, dir y d /\ Forall (fun ic => nth (fst ic) d 0 == snd ic) conds).
Proof.
  intros y conds. destruct (feasible (dirmat y conds)) eqn:E.
  - left. apply feasible_iff in E; [|cbn; lia]. destruct E as (d & Hd). exists d. now apply dirmat_ok.
  - right. intros (d & Hd). apply dirmat_ok in Hd. assert (X : feasible (dirmat y conds) = true) by (apply feasible_iff; [cbn; lia|eauto]). congruence.
Qed.

Lemma dir_scale : forall y d a, dir y d -> dir y (vscale a d).
Proof. intros y d a [L D]. split; [now rewrite vscale_length|]. intros rb I T. rewrite dot_vscale_r, (D rb I T). ring. Qed.
Lemma dir_add : forall y d e, dir y d -> dir y e -> dir y (vadd d e).
Proof. intros y d e [L D] [L' D']. split; [rewrite vadd_length; lia|]. intros rb I T. rewrite dot_vadd_r, (D rb I T), (D' rb I T). ring. Qed.


(** Three cases: a direction with constant first coordinate, exactly one
    direction, none. *)
Inductive dir_case (y : point) : Prop :=
| d_flat d : dir y d -> nth 0 d 0 == 0 -> ~ peq d [] -> dir_case y
| d_one d : dir y d -> nth 0 d 0 == 1 -> (forall e, dir y e -> peq e (vscale (nth 0 e 0) d)) -> dir_case y
| d_none : (forall e, dir y e -> peq e []) -> dir_case y.

Lemma dir_cases : forall y, dir_case y.
Proof.
  intro y.
  destruct (seq_dec (fun i => exists d, dir y d /\ Forall (fun ic => nth (fst ic) d 0 == snd ic) [(0%nat, 0); (i, 1)]) n (fun i => dir_dec y _)) as [(i & L & d & D & F)|A].
  - inversion F as [|? ? F0 F1]; subst. inversion F1 as [|? ? F2 F3]; subst. cbn [fst snd] in *. apply (d_flat y d D F0). intro P. specialize (P i). destruct i; cbn in *; lra.
  - assert (Z : forall e, dir y e -> nth 0 e 0 == 0 -> peq e []).
    { intros e De E0 i. destruct (Qeq_dec (nth i e 0) 0) as [K|K]; [rewrite K; destruct i; reflexivity|]. exfalso.
      assert (Li : (i < n)%nat). { destruct De as [Le _]. destruct (le_lt_dec n i) as [X|X]; [|exact X]. exfalso. apply K. rewrite nth_overflow; [reflexivity|lia]. }
      apply (A i Li). exists (vscale (/ nth i e 0) e). split; [now apply dir_scale|]. repeat apply Forall_cons; [| |apply Forall_nil]; cbn [fst snd]; rewrite nth_vscale.
      - rewrite E0. ring.
      - field. exact K. }
    destruct (dir_dec y [(0%nat, 1)]) as [(d & D & F)|B].
    + inversion F as [|? ? F0 F1]; subst. cbn [fst snd] in *. apply (d_one y d D F0). intros e De i.
      assert (X : dir y (vadd e (vscale (- nth 0 e 0) d))) by (apply dir_add; [exact De|now apply dir_scale]).
      assert (X0 : nth 0 (vadd e (vscale (- nth 0 e 0) d)) 0 == 0) by (rewrite nth_vadd, nth_vscale, F0; ring).
      specialize (Z _ X X0 i). rewrite nth_vadd, nth_vscale in Z. rewrite nth_vscale. replace (nth i [] 0) with 0 in Z by (destruct i; reflexivity). lra.
    + apply d_none. intros e De. apply Z; [exact De|]. destruct (Qeq_dec (nth 0 e 0) 0) as [K|K]; [exact K|]. exfalso. apply B.
      exists (vscale (/ nth 0 e 0) e). split; [now apply dir_scale|]. apply Forall_cons; [|apply Forall_nil]. cbn [fst snd]. rewrite nth_vscale. field. exact K.
Qed.

(** A row that is tight at a mixture is tight at both points. *)
Lemma tight_mix : forall rb x z t, In rb (mrows m) -> mmember m x -> mmember m z -> 0 < t -> t < 1 -> rowval (fst rb) (mix t x z) == 0 ->
  rowval (fst rb) x == 0 /\ rowval (fst rb) z == 0.
Proof.
  intros rb x z t I [_ Mx] [_ Mz] T0 T1 H. rewrite Forall_forall in Mx, Mz. specialize (Mx rb I). specialize (Mz rb I). rewrite rowval_mix in H.
  unfold holds in *. destruct (snd rb); [tauto|]. assert (rowval (fst rb) x == 0) by nra. split; [auto|nra].
Qed.
Lemma tight_dir : forall y x, length x = n -> length y = n -> (forall rb, In rb (mrows m) -> rowval (fst rb) y == 0 -> rowval (fst rb) x == 0) -> dir y (vadd x (vscale (-(1)) y)).
Proof.
  intros y x L Ly H. split; [rewrite vadd_length, vscale_length; lia|]. intros rb I T. specialize (H rb I T). unfold rowval in *. rewrite dot_vadd_r, dot_vscale_r. lra.
Qed.

Lemma peq_nil : forall i, nth i (@nil Q) 0 = 0.
Proof. destruct i; reflexivity. Qed.
Lemma peq_F2 : forall x y : point, length x = length y -> (forall i, nth i x 0 == nth i y 0) -> Forall2 Qeq x y.
Proof. intros x y L H. now apply peq_Forall2. Qed.
Lemma F2_nth : forall x y : point, Forall2 Qeq x y -> forall i, nth i x 0 == nth i y 0.
Proof. intros x y F. induction F as [|a b x y E F IH]; intro i; [reflexivity|]. destruct i; cbn; auto. Qed.
Lemma rowval_F2 : forall r x y, Forall2 Qeq x y -> rowval r x == rowval r y.
Proof. intros r x y F. unfold rowval. rewrite (dot_peq_r (tl r) x y (F2_nth x y F)). reflexivity. Qed.

Lemma corner_no_dir : forall y, mmember m y -> (forall e, dir y e -> peq e []) -> is_corner m y.
Proof.
  intros y My Z. split; [exact My|]. intros x z t Mx Mz T0 T1 F. pose proof (member_len y My) as Ly.
  assert (T : forall rb, In rb (mrows m) -> rowval (fst rb) y == 0 -> rowval (fst rb) x == 0 /\ rowval (fst rb) z == 0).
  { intros rb I K. apply (tight_mix rb x z t); auto. now rewrite <- (rowval_F2 _ _ _ F). }
  assert (G : forall u, mmember m u -> (forall rb, In rb (mrows m) -> rowval (fst rb) y == 0 -> rowval (fst rb) u == 0) -> Forall2 Qeq y u).
  { intros u Mu H. pose proof (member_len u Mu) as Lu. apply peq_F2; [lia|]. intro i. pose proof (Z _ (tight_dir y u Lu Ly H) i) as X.
    rewrite nth_vadd, nth_vscale, peq_nil in X. lra. }
  split; apply G; auto; intros rb I K; destruct (T rb I K); auto.
Qed.

Lemma edge_one_dir : forall y d, mmember m y -> dir y d -> nth 0 d 0 == 1 -> (forall e, dir y e -> peq e (vscale (nth 0 e 0) d)) ->
  exists v w, is_edge m v w /\ nth 0 v 0 < nth 0 y 0 /\ nth 0 y 0 < nth 0 w 0 /\ between v w y.
Proof.
  intros y d My D D0 U. pose proof (member_len y My) as Ly. pose proof (proj1 D) as Ld.
  assert (NZ : ~ peq d []) by (intro P; specialize (P 0%nat); cbn in P; lra).
  set (d' := vscale (-(1)) d). assert (D' : dir y d') by now apply dir_scale.
  assert (NZ' : ~ peq d' []) by (intro P; specialize (P 0%nat); unfold d' in P; rewrite nth_vscale in P; cbn in P; lra).
  destruct (hit y d My D NZ) as (s & Ps & Mw & _ & Tw & Xw). destruct (hit y d' My D' NZ') as (s' & Ps' & Mv & _ & Tv & Xv).
  set (w := move y d s) in *. set (v := move y d' s') in *.
  assert (Lw : length w = n) by exact (member_len w Mw). assert (Lv : length v = n) by exact (member_len v Mv).
  assert (Nw : forall i, nth i w 0 == nth i y 0 + s * nth i d 0) by (intro i; apply nth_move).
  assert (Nv : forall i, nth i v 0 == nth i y 0 - s' * nth i d 0) by (intro i; unfold v; rewrite nth_move; unfold d'; rewrite nth_vscale; ring).
  assert (BT : forall u, length u = n -> (exists a, a <= s /\ - a <= s' /\ forall i, nth i u 0 == nth i y 0 + a * nth i d 0) -> between v w u).
  { intros u Lu (a & A1 & A2 & A3). exists ((a + s') / (s + s')). assert (P : 0 < s + s') by lra.
    split; [apply Qle_shift_div_l; lra|]. split; [apply Qle_shift_div_r; lra|]. apply peq_F2; [rewrite mix_length; lia|]. intro i. rewrite nth_mix, Nw, Nv, A3. field. intro; lra. }
  exists v, w. split; [|split; [rewrite Nv; nra|split; [rewrite Nw; nra|]]].
  - split; [exact Mv|]. split; [exact Mw|]. split.
    + intro F. pose proof (F2_nth _ _ F 0%nat) as X. rewrite Nw, Nv in X. nra.
    + intros x z t Mx Mz T0 T1 (b & B0 & B1 & F).
      assert (T : forall rb, In rb (mrows m) -> rowval (fst rb) y == 0 -> rowval (fst rb) x == 0 /\ rowval (fst rb) z == 0).
      { intros rb I K. apply (tight_mix rb x z t); auto. rewrite (rowval_F2 _ _ _ F), rowval_mix, (Tv rb I K), (Tw rb I K). ring. }
      assert (G : forall u, mmember m u -> (forall rb, In rb (mrows m) -> rowval (fst rb) y == 0 -> rowval (fst rb) u == 0) -> between v w u).
      { intros u Mu H. pose proof (member_len u Mu) as Lu. pose proof (tight_dir y u Lu Ly H) as Du. pose proof (U _ Du) as E.
        set (a := nth 0 (vadd u (vscale (-(1)) y)) 0) in E.
        assert (A : forall i, nth i u 0 == nth i y 0 + a * nth i d 0) by (intro i; specialize (E i); rewrite nth_vadd, !nth_vscale in E; lra).
        apply BT; [exact Lu|]. exists a. split; [|split; [|exact A]].
        - apply Xw. apply (mmember_peq m u (move y d a)); [rewrite move_length; lia| |exact Mu]. intro i. rewrite nth_move. apply A.
        - apply Xv. apply (mmember_peq m u (move y d' (- a))); [rewrite move_length; [lia|unfold d'; rewrite vscale_length; lia]| |exact Mu]. intro i. rewrite nth_move. unfold d'. rewrite nth_vscale, A. ring. }
      split; apply G; auto; intros rb I K; destruct (T rb I K); auto.
  - apply BT; [exact Ly|]. exists 0. split; [lra|]. split; [lra|]. intro i. ring.
Qed.

(** For every linear function [g]: no point is better than all points with the
    same first coordinate that are on an edge or a corner. *)
Theorem edge_or_corner : forall g x, mmember m x -> exists y, mmember m y /\ nth 0 y 0 == nth 0 x 0 /\ rowval g x <= rowval g y /\
  (is_corner m y \/ exists v w, is_edge m v w /\ nth 0 v 0 < nth 0 y 0 /\ nth 0 y 0 < nth 0 w 0 /\ between v w y).
Proof.
  intros g x. remember (loose x) as k eqn:K. revert x K. induction k as [k IH] using lt_wf_ind. intros x K Mx.
  destruct (dir_cases x) as [d D D0 NZ|d D D0 U|Z].
  - assert (G : exists d, dir x d /\ nth 0 d 0 == 0 /\ ~ peq d [] /\ 0 <= dot (tl g) d).
    { destruct (Qlt_le_dec (dot (tl g) d) 0) as [C|C]; [|eauto 6]. exists (vscale (-(1)) d). split; [now apply dir_scale|]. split; [rewrite nth_vscale, D0; ring|]. split.
      - intro P. apply NZ. intro i. specialize (P i). rewrite nth_vscale in P. rewrite peq_nil in *. lra.
      - rewrite dot_vscale_r. lra. }
    clear d D D0 NZ. destruct G as (d & D & D0 & NZ & C). destruct (hit x d Mx D NZ) as (s & Ps & Mm & L & _).
    destruct (IH (loose (move x d s)) ltac:(lia) (move x d s) eq_refl Mm) as (y & My & Y0 & Yg & Y). exists y. split; [exact My|]. split; [rewrite Y0, nth_move, D0; ring|].
    split; [|exact Y]. rewrite rowval_move in Yg. nra.
  - exists x. split; [exact Mx|]. split; [reflexivity|]. split; [apply Qle_refl|]. right. exact (edge_one_dir x d Mx D D0 U).
  - exists x. split; [exact Mx|]. split; [reflexivity|]. split; [apply Qle_refl|]. left. now apply corner_no_dir.
Qed.
End Poly.

Lemma between_ends : forall v w x, length v = length w -> between v w x -> length x = length v.
Proof. intros v w x L (t & _ & _ & F). rewrite (Forall2_len _ _ _ F), mix_length; auto. Qed.

Lemma edge_sym : forall m v w, is_edge m v w -> is_edge m w v.
Proof.
  intros m v w (Mv & Mw & NE & H).
  assert (L : length v = length w) by (destruct Mv, Mw; lia).
  assert (B : forall x, between v w x <-> between w v x).
  { assert (G : forall v w x, length v = length w -> between v w x -> between w v x).
    { intros a b x L' (t & T0 & T1 & F). exists (1 - t). split; [lra|]. split; [lra|]. pose proof (Forall2_len _ _ _ F) as Lx. rewrite mix_length in Lx by lia.
      apply peq_F2; [rewrite mix_length; lia|]. intro i. rewrite (F2_nth _ _ F i), !nth_mix. ring. }
    intro x. split; apply G; lia. }
  split; [exact Mw|]. split; [exact Mv|]. split.
  - intro F. apply NE. apply peq_F2; [lia|]. intro i. symmetry. now apply F2_nth.
  - intros x y t Mx My T0 T1 K. apply B in K. destruct (H x y t Mx My T0 T1 K) as [K1 K2]. split; now apply B.
Qed.

Lemma edge_corner : forall m v w, is_edge m v w -> is_corner m v.
Proof.
  intros m v w (Mv & Mw & NE & H). split; [exact Mv|]. intros x y t Mx My T0 T1 F.
  assert (L : length v = length w /\ length x = length v /\ length y = length v) by (destruct Mv, Mw, Mx, My; lia). destruct L as (L & Lx & Ly).
  assert (K : between v w (mix t x y)). { exists 0. split; [lra|]. split; [lra|]. apply peq_F2; [rewrite !mix_length; lia|]. intro i. rewrite <- (F2_nth _ _ F i), nth_mix. ring. }
  destruct (H x y t Mx My T0 T1 K) as [(a & A0 & A1 & Fa) (b & B0 & B1 & Fb)].
  assert (NI : exists i, ~ nth i v 0 == nth i w 0).
  { destruct (seq_dec (fun i => ~ nth i v 0 == nth i w 0) (length v)) as [(i & _ & Hi)|Q].
    - intro i. destruct (Qeq_dec (nth i v 0) (nth i w 0)) as [X|X]; [right; tauto|left; exact X].
    - eauto.
    - exfalso. apply NE. apply peq_F2; [exact L|]. intro i. destruct (Qeq_dec (nth i v 0) (nth i w 0)) as [X|X]; [exact X|].
      destruct (le_lt_dec (length v) i) as [Y|Y]; [rewrite !nth_overflow by lia; reflexivity|]. exfalso. exact (Q i Y X). }
  destruct NI as (i & Hi).
  assert (E : (1 - t) * a + t * b == 0).
  { pose proof (F2_nth _ _ F i) as X. pose proof (F2_nth _ _ Fa i) as Xa. pose proof (F2_nth _ _ Fb i) as Xb. rewrite nth_mix in *. rewrite Xa, Xb in X.
    assert (Z : ((1 - t) * a + t * b) * (nth i w 0 - nth i v 0) == 0) by lra. apply Qmult_integral in Z. destruct Z as [Z|Z]; [exact Z|]. exfalso. apply Hi. lra. }
  assert (a == 0) by nra. assert (b == 0) by nra.
  split; apply peq_F2; try lia; intro j.
  - rewrite (F2_nth _ _ Fa j), nth_mix, H0. ring.
  - rewrite (F2_nth _ _ Fb j), nth_mix, H1. ring.
Qed.

Lemma conv_split : forall v vs x, Forall (fun u => length u = length v) vs -> conv (v :: vs) x ->
  conv vs x \/ peq x v \/ exists t y, 0 < t /\ t < 1 /\ length y = length v /\ conv vs y /\ peq x (mix t y v).
Proof.
  intros v vs x LV (ws & L & P & S & H). destruct ws as [|w ws]; [discriminate|]. cbn [length] in L. injection L as L.
  inversion P as [|? ? P0 P1]; subst. cbn [qsum fold_right] in S. change (fold_right Qplus 0 ws) with (qsum ws) in S.
  assert (N : 0 <= qsum ws) by now apply qsum_nonneg.
  destruct (Qeq_dec w 0) as [Z|Z]; [|destruct (Qeq_dec (qsum ws) 0) as [O|O]].
  - left. exists ws. split; [exact L|]. split; [exact P1|]. split; [lra|]. intro i. rewrite (H i). cbn [wsum]. rewrite nth_vadd, nth_vscale, Z. ring.
  - right. left. intro i. rewrite (H i). cbn [wsum]. rewrite nth_vadd, nth_vscale.
    assert (W : forall l us, Forall (fun w => 0 <= w) l -> qsum l == 0 -> nth i (wsum l us) 0 == 0).
    { clear. induction l as [|a l IH]; intros us F E; [destruct us; apply Qeq_refl || (destruct i; reflexivity)|]. destruct us as [|u us]; [destruct i; reflexivity|].
      inversion F; subst. cbn [qsum fold_right] in E. change (fold_right Qplus 0 l) with (qsum l) in E. pose proof (qsum_nonneg l H2). cbn [wsum]. rewrite nth_vadd, nth_vscale.
      rewrite IH; [|exact H2|lra]. assert (a == 0) by lra. rewrite H0. ring. }
    rewrite (W ws vs P1 O). assert (w == 1) by lra. rewrite H0. ring.
  - right. right. set (s := qsum ws) in *. assert (Ps : 0 < s) by (destruct (Qlt_le_dec 0 s); [auto|exfalso; apply O; lra]).
    assert (NV : vs <> []). { destruct vs; [|discriminate]. destruct ws; [|discriminate]. exfalso. apply O. reflexivity. }
    exists w, (wsum (vscale (/ s) ws) vs). split; [destruct (Qlt_le_dec 0 w); [auto|exfalso; apply Z; lra]|]. split; [lra|]. split; [|split].
    + apply wsum_length; [exact LV|rewrite vscale_length; exact L|exact NV].
    + exists (vscale (/ s) ws). split; [now rewrite vscale_length|]. split; [|split; [|intro i; reflexivity]].
      * apply Forall_map. eapply Forall_impl; [|exact P1]. cbv beta. intros a A. apply Qmult_le_0_compat; [apply Qlt_le_weak; now apply Qinv_lt_0_compat|exact A].
      * rewrite qsum_vscale. fold s. field. exact O.
    + intro i. rewrite (H i). cbn [wsum]. rewrite nth_vadd, nth_mix, nth_vscale, !nth_wsum.
      assert (D : forall l us, dot (vscale (/ s) l) us == / s * dot l us). { intros l us. rewrite dot_comm, dot_vscale_r, dot_comm. reflexivity. }
      rewrite D. setoid_replace (1 - w) with s by lra. field. exact O.
Qed.

Lemma corner_generator : forall m vs v, spans m vs -> is_corner m v -> exists u, In u vs /\ Forall2 Qeq v u.
Proof.
  intros m vs v [F S] [Mv C]. specialize (S v Mv). clear - F S Mv C.
  induction vs as [|u vs IH]; [destruct S as (ws & L & _ & E & _); destruct ws; [cbn in E; lra|discriminate]|].
  inversion F as [|? ? Fu Fv]; subst. assert (Lu : length u = length v) by (destruct Fu, Mv; lia).
  destruct (conv_split u vs v) as [K|[K|(t & y & T0 & T1 & Ly & Cy & K)]].
  - apply Forall_forall. intros a I. rewrite Forall_forall in Fv. destruct (Fv a I), Fu. lia.
  - exact S.
  - destruct (IH Fv K) as (a & I & E). exists a. split; [now right|exact E].
  - exists u. split; [now left|]. apply peq_F2; [lia|exact K].
  - exists u. split; [now left|]. assert (My : mmember m y) by (apply (conv_member m vs); auto; destruct Fu; lia).
    apply (proj2 (C y u t My Fu T0 T1 ltac:(apply peq_F2; [rewrite mix_length; lia|exact K]))).
Qed.

(** Listing every vertex next to every vertex meets the assumption. *)
Lemma all_pairs_adjacency : forall E, ext_ok E -> adjacency_ok E (fun m => map (fun _ => seq 0 (length (generators E m))) (generators E m)).
Proof.
  intros E OK m WF BD. pose proof (gen_spans E OK m WF BD) as SP. split; [now rewrite map_length|]. split.
  - intros l j I J. apply in_map_iff in I. destruct I as (? & <- & _). apply in_seq in J. lia.
  - intros v w ED. destruct (corner_generator m _ v SP (edge_corner m v w ED)) as (v' & Iv & Ev). destruct (corner_generator m _ w SP (edge_corner m w v (edge_sym m v w ED))) as (w' & Iw & Ew).
    destruct (In_nth _ _ [] Iv) as (i & Li & Ni). destruct (In_nth _ _ [] Iw) as (j & Lj & Nj). rewrite <- Ni in Ev. rewrite <- Nj in Ew. exists i, j. split; [|split; [exact Ev|exact Ew]].
    rewrite (nth_indep _ _ (seq 0 (length (generators E m)))) by (now rewrite map_length).
    rewrite (map_nth (fun _ => seq 0 (length (generators E m))) _ ([]:list Q)). apply in_seq. unfold point in *. lia.
Qed.

(** The point of the line through [v] and [w] with first coordinate [s]. *)
Definition at_first (v w : point) (s : Q) : point := mix ((s - nth 0 v 0) / (nth 0 w 0 - nth 0 v 0)) v w.
Lemma at_first_nth : forall v w s, nth 0 v 0 < nth 0 w 0 -> nth 0 (at_first v w s) 0 == s.
Proof. intros v w s L. unfold at_first. rewrite nth_mix. field. intro; lra. Qed.
Lemma at_first_row : forall r v w s d, nth 0 v 0 < nth 0 w 0 ->
  rowval r (at_first v w (s + d)) == rowval r (at_first v w s) + d * ((rowval r w - rowval r v) / (nth 0 w 0 - nth 0 v 0)).
Proof. intros r v w s d L. unfold at_first. rewrite !rowval_mix. field. intro; lra. Qed.
Lemma at_first_between : forall v w s, length v = length w -> nth 0 v 0 < nth 0 w 0 -> nth 0 v 0 <= s -> s <= nth 0 w 0 -> between v w (at_first v w s).
Proof.
  intros v w s L H A B. unfold at_first. eexists. split; [|split]; [| |apply peq_F2; [rewrite !mix_length; auto|reflexivity]].
  - apply Qle_shift_div_l; lra.
  - apply Qle_shift_div_r; lra.
Qed.
Lemma between_at_first : forall v w y, length v = length w -> nth 0 v 0 < nth 0 w 0 -> between v w y -> Forall2 Qeq y (at_first v w (nth 0 y 0)).
Proof.
  intros v w y L H (t & T0 & T1 & F). pose proof (Forall2_len _ _ _ F) as Ly. rewrite mix_length in Ly by exact L.
  apply peq_F2; [unfold at_first; rewrite mix_length; lia|]. intro i. unfold at_first. rewrite nth_mix, (F2_nth _ _ F 0%nat), (F2_nth _ _ F i), !nth_mix. field. intro; lra.
Qed.
Lemma between_member : forall m v w x, mmember m v -> mmember m w -> between v w x -> mmember m x.
Proof.
  intros m v w x Mv Mw (t & T0 & T1 & F). assert (L : length v = length w) by (destruct Mv, Mw; lia).
  pose proof (Forall2_len _ _ _ F) as Lx. rewrite mix_length in Lx by exact L. destruct Mv as [L1 V], Mw as [L2 W]. rewrite Forall_forall in *.
  split; [lia|]. apply Forall_forall. intros rb I. specialize (V rb I). specialize (W rb I). unfold holds in *.
  pose proof (rowval_F2 (fst rb) _ _ F) as E. rewrite rowval_mix in E. destruct (snd rb); rewrite E; nra.
Qed.

Lemma quad_pos : forall p q r, 0 < p -> exists e, 0 < e /\ e <= 1 /\ forall x, 0 <= x -> x <= e -> 0 < p + x * q + x * x * r.
Proof.
  intros p q r P. set (d := Qabs q + Qabs r + 1). pose proof (Qabs_nonneg q). pose proof (Qabs_nonneg r). assert (D : 1 <= d) by (unfold d; lra).
  exists (qmin 1 (p / (2 * d))). assert (Z : 0 < p / (2 * d)) by (apply Qlt_shift_div_l; lra).
  assert (M : qmin 1 (p / (2 * d)) <= 1 /\ qmin 1 (p / (2 * d)) <= p / (2 * d) /\ 0 < qmin 1 (p / (2 * d))) by (unfold qmin; destruct (Qltb (p / (2 * d)) 1) eqn:K; [apply Qltb_true in K|apply Qltb_false in K]; repeat split; lra).
  destruct M as (M1 & M2 & M3). split; [exact M3|]. split; [exact M1|]. intros x X0 X1.
  assert (E : x * d <= p * (1 # 2)). { assert (x <= p / (2 * d)) by lra. assert (Y : x * d <= p / (2 * d) * d) by (apply Qmult_le_compat_r; lra). assert (Y' : p / (2 * d) * d == p * (1 # 2)) by (field; lra). rewrite Y' in Y. exact Y. }
  assert (A : - Qabs q <= q) by (pose proof (Qle_Qabs (- q)) as Y; rewrite Qabs_opp in Y; lra). assert (B : - Qabs r <= r) by (pose proof (Qle_Qabs (- r)) as Y; rewrite Qabs_opp in Y; lra).
  assert (x * q >= - (x * Qabs q)) by nra. assert (x * x <= x) by nra. assert (x * x * r >= - (x * Qabs r)) by nra. unfold d in E. lra.
Qed.

Section Ratio.
Variable m : mat.
Hypothesis WF : wf_mat m.
Hypothesis BD : mbounded m.
Variable L : list (point * point).
Hypothesis Le : forall v w, is_edge m v w -> exists v' w', In (v', w') L /\ Forall2 Qeq v v' /\ Forall2 Qeq w w'.
Variable C : list point.
Hypothesis Cc : forall v, is_corner m v -> exists v', In v' C /\ Forall2 Qeq v v'.
Variables num den : list Q.

(** At every first coordinate short of the largest, the quotient of two linear
    functions is nowhere larger than on some edge that goes on to the right. *)
Theorem ratio_edge : forall x z, mmember m x -> mmember m z -> nth 0 x 0 < nth 0 z 0 ->
  exists v w, In (v, w) L /\ nth 0 v 0 <= nth 0 x 0 /\ nth 0 x 0 < nth 0 w 0 /\
    let y := at_first v w (nth 0 x 0) in rowval num x * rowval den y <= rowval num y * rowval den x.
Proof.
  intros x z Mx Mz XZ. set (s := nth 0 x 0) in *.
  set (good := fun e : point * point => Qleb (nth 0 (fst e) 0) s && Qltb s (nth 0 (snd e) 0) &&
     Qleb (rowval num x * rowval den (at_first (fst e) (snd e) s)) (rowval num (at_first (fst e) (snd e) s) * rowval den x)).
  destruct (existsb good L) eqn:EX.
  { apply existsb_exists in EX. destruct EX as ((v, w) & I & G). unfold good in G. cbn [fst snd] in G. apply andb_prop in G. destruct G as [G G3]. apply andb_prop in G. destruct G as [G1 G2].
    apply Qleb_true in G1, G3. apply Qltb_true in G2. exists v, w. cbv zeta. auto. }
  exfalso.
  assert (NG : forall v w, In (v, w) L -> nth 0 v 0 <= s -> s < nth 0 w 0 -> rowval num (at_first v w s) * rowval den x < rowval num x * rowval den (at_first v w s)).
  { intros v w I A B. destruct (Qlt_le_dec (rowval num (at_first v w s) * rowval den x) (rowval num x * rowval den (at_first v w s))) as [K|K]; [exact K|]. exfalso.
    assert (T : existsb good L = true); [|congruence]. apply existsb_exists. exists (v, w). split; [exact I|]. unfold good. cbn [fst snd].
    apply Qleb_true in A. apply Qltb_true in B. apply Qleb_true in K. now rewrite A, B, K. }
  set (dl := nth 0 z 0 - s). assert (Pd : 0 < dl) by (unfold dl; lra).
  assert (XE : forall e r, rowval r (mix e x z) == rowval r x + e * (rowval r z - rowval r x)) by (intros; rewrite rowval_mix; ring).
  (* small enough for the edges *)
  assert (E1 : exists e1, 0 < e1 /\ e1 <= 1 /\ forall v w, In (v, w) L -> nth 0 v 0 <= s -> s < nth 0 w 0 -> forall e, 0 <= e -> e <= e1 ->
     rowval num (at_first v w (s + e * dl)) * rowval den (mix e x z) < rowval num (mix e x z) * rowval den (at_first v w (s + e * dl))).
  { clear EX good Le. induction L as [|(v, w) L' IH].
    - exists 1. split; [lra|]. split; [lra|]. intros ? ? [].
    - destruct IH as (e1 & P1 & Q1 & H1); [intros; apply NG; auto; now right|].
      assert (E0 : exists e0, 0 < e0 /\ e0 <= 1 /\ (nth 0 v 0 <= s -> s < nth 0 w 0 -> forall e, 0 <= e -> e <= e0 ->
         rowval num (at_first v w (s + e * dl)) * rowval den (mix e x z) < rowval num (mix e x z) * rowval den (at_first v w (s + e * dl)))).
      { destruct (Qlt_le_dec s (nth 0 v 0)) as [K|K]; [exists 1; split; [lra|]; split; [lra|]; intros; lra|].
        destruct (Qlt_le_dec s (nth 0 w 0)) as [K'|K']; [|exists 1; split; [lra|]; split; [lra|]; intros; lra].
        specialize (NG v w (or_introl eq_refl) K K'). assert (VW : nth 0 v 0 < nth 0 w 0) by lra.
        set (a := rowval num x) in *. set (a' := rowval num z - a). set (b := rowval den (at_first v w s)) in *. set (b' := dl * ((rowval den w - rowval den v) / (nth 0 w 0 - nth 0 v 0))).
        set (c := rowval num (at_first v w s)) in *. set (c' := dl * ((rowval num w - rowval num v) / (nth 0 w 0 - nth 0 v 0))). set (d := rowval den x) in *. set (d' := rowval den z - d).
        destruct (quad_pos (a * b - c * d) (a * b' + a' * b - c * d' - c' * d) (a' * b' - c' * d') ltac:(lra)) as (e0 & P0 & Q0 & H0).
        exists e0. split; [exact P0|]. split; [exact Q0|]. intros _ _ e X0 X1. specialize (H0 e X0 X1). rewrite !XE, !(at_first_row _ v w s (e * dl) VW). fold a b c d a' d'.
        setoid_replace (e * dl * ((rowval num w - rowval num v) / (nth 0 w 0 - nth 0 v 0))) with (e * c') by (unfold c'; ring).
        setoid_replace (e * dl * ((rowval den w - rowval den v) / (nth 0 w 0 - nth 0 v 0))) with (e * b') by (unfold b'; ring). lra. }
      destruct E0 as (e0 & P0 & Q0 & H0). destruct (Qlt_le_dec e0 e1) as [K|K].
      + exists e0. split; [exact P0|]. split; [exact Q0|]. intros v' w' [E|I] A B e X0 X1; [injection E as <- <-; apply H0; auto|apply H1; auto; lra].
      + exists e1. split; [exact P1|]. split; [exact Q1|]. intros v' w' [E|I] A B e X0 X1; [injection E as <- <-; apply H0; auto; lra|apply H1; auto]. }
  (* small enough for the corners *)
  assert (E2 : exists e2, 0 < e2 /\ forall v, In v C -> s < nth 0 v 0 -> forall e, e <= e2 -> s + e * dl < nth 0 v 0).
  { clear -Pd. induction C as [|c C' IH]; [exists 1; split; [lra|intros ? []]|]. destruct IH as (e2 & P2 & H2).
    destruct (Qlt_le_dec s (nth 0 c 0)) as [K|K].
    - set (e0 := (nth 0 c 0 - s) / (2 * dl)). assert (P0 : 0 < e0) by (unfold e0; apply Qlt_shift_div_l; lra).
      assert (X0 : e0 * dl == (nth 0 c 0 - s) * (1 # 2)) by (unfold e0; field; intro; lra).
      destruct (Qlt_le_dec e0 e2) as [J|J].
      + exists e0. split; [exact P0|]. intros v [<- | I] A e Y; [|apply H2; auto; lra]. assert (e * dl <= e0 * dl) by (apply Qmult_le_compat_r; lra). lra.
      + exists e2. split; [exact P2|]. intros v [<- | I] A e Y; [|apply H2; auto]. assert (e * dl <= e0 * dl) by (apply Qmult_le_compat_r; lra). lra.
    - exists e2. split; [exact P2|]. intros v [<- | I] A e Y; [lra|apply H2; auto]. }
  destruct E1 as (e1 & P1 & Q1 & H1). destruct E2 as (e2 & P2 & H2).
  assert (E3 : exists e, 0 < e /\ e <= e1 /\ e <= e2 /\ e <= 1) by (destruct (Qlt_le_dec e1 e2); [exists e1|exists e2]; repeat split; lra).
  destruct E3 as (e & Pe & Le1 & Le2 & Lo).
  assert (LXZ : length x = length z) by (destruct Mx, Mz; lia).
  assert (Mxe : mmember m (mix e x z)). { apply (between_member m x z); auto. exists e. split; [lra|]. split; [exact Lo|]. apply peq_F2; [reflexivity|]. intro; reflexivity. }
  set (xe := mix e x z) in *. assert (Nx : nth 0 xe 0 == s + e * dl) by (unfold xe; rewrite nth_mix; unfold dl, s; ring).
  destruct WF as [W1 W2]. destruct (ncol m) as [|n] eqn:N; [lia|].
  set (g := vadd (vscale (rowval den xe) num) (vscale (- rowval num xe) den)).
  assert (G : forall u, rowval g u == rowval den xe * rowval num u - rowval num xe * rowval den u) by (intro u; unfold g; rewrite rowval_vadd, !rowval_vscale; ring).
  destruct (edge_or_corner m n N BD g xe Mxe) as (y & My & Y0 & Yg & [Y|(v & w & ED & V & W & B)]).
  - destruct (Cc y Y) as (y' & I & F). pose proof (F2_nth _ _ F 0%nat) as F0. assert (A : s < nth 0 y' 0) by (rewrite <- F0, Y0, Nx; nra). specialize (H2 y' I A e Le2). lra.
  - pose proof (edge_corner m v w ED) as CV. destruct (Cc v CV) as (v1 & Iv & Fv). destruct (Le v w ED) as (v' & w' & I & Fv' & Fw').
    pose proof (F2_nth _ _ Fv 0%nat) as Fv0. pose proof (F2_nth _ _ Fv' 0%nat) as Fv0'. pose proof (F2_nth _ _ Fw' 0%nat) as Fw0'.
    assert (A : nth 0 v 0 <= s). { destruct (Qlt_le_dec s (nth 0 v 0)) as [K|K]; [|exact K]. specialize (H2 v1 Iv ltac:(lra) e Le2). lra. }
    assert (B' : s < nth 0 w 0) by (assert (0 < e * dl) by nra; lra).
    specialize (H1 v' w' I ltac:(lra) ltac:(lra) e ltac:(lra) Le1). fold xe in H1.
    assert (LVW : length v = length w) by (destruct (proj1 ED), (proj1 (proj2 ED)); lia).
    pose proof (between_at_first v w y LVW ltac:(lra) B) as FY.
    assert (FE : Forall2 Qeq y (at_first v' w' (s + e * dl))).
    { pose proof (Forall2_len _ _ _ Fv') as L1. pose proof (Forall2_len _ _ _ Fw') as L2. pose proof (Forall2_len _ _ _ FY) as L3. unfold at_first in L3. rewrite mix_length in L3 by exact LVW.
      apply peq_F2; [unfold at_first; rewrite mix_length; lia|]. intro i. rewrite (F2_nth _ _ FY i). unfold at_first. rewrite !nth_mix, <- (F2_nth _ _ Fv' i), <- (F2_nth _ _ Fw' i), <- Fv0', <- Fw0', Y0, Nx. reflexivity. }
    rewrite <- !(rowval_F2 _ _ _ FE) in H1. rewrite !G in Yg. lra.
Qed.
End Ratio.
