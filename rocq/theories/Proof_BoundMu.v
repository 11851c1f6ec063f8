(** Bounds on mu. *)
From Verif Require Import Base Model_Text Model_Reference Spec_Reference Proof_Reference
  Model_Interval Spec_Interval Model_Affine Spec_Affine Proof_Interval
  Model_Hull Spec_Hull Proof_Hull Model_ExponentPair Spec_ExponentPair Proof_ExponentPair Proof_ExpSearch Proof_ExpLit
  Proof_Region Proof_ExpDual Model_BoundMu Spec_BoundMu.
Open Scope list_scope.

Lemma mu_pt_inv : forall h s m, mu_pt h = Ret (s, m) <-> n_data h = DMu s m.
Proof. intros h s m. unfold mu_pt. destruct (n_data h); split; intro E; try discriminate; injection E as <- <-; auto. Qed.
Lemma mu_key_data : forall h s m, n_data h = DMu s m -> mu_key h = (s, m).
Proof. intros h s m E. unfold mu_key. now rewrite E. Qed.
Lemma is_mu_data : forall h, is_mu h = true <-> n_data h = DMu (fst (mu_key h)) (snd (mu_key h)).
Proof. intros h. unfold is_mu, mu_key. destruct (n_data h); split; intro E; try discriminate; auto. Qed.

Lemma derived_mu_inv : forall s m deps h, derived_bound_mu s m deps = Ret h -> n_data h = DMu s m /\ n_deps h = deps.
Proof. intros s m deps h E. apply derived_node_inv in E as (E1 & E2 & _). auto. Qed.
Lemma derived_mu_ret : forall s m deps, Forall proper_node deps ->
  exists h, derived_bound_mu s m deps = Ret h /\ n_data h = DMu s m /\ n_deps h = deps /\ proper_node h.
Proof. intros s m deps F. unfold derived_bound_mu. now apply derived_node_ret. Qed.

Lemma fe_inv : forall b h, apply_functional_equation b = Ret h ->
  exists s m, n_data b = DMu s m /\ n_data h = DMu (1 - s) (m + s - (1#2)) /\ n_deps h = [b].
Proof.
  intros b h H. unfold apply_functional_equation in H. destruct (mu_pt b) as [[s m]|] eqn:E; [|discriminate]. cbn [bind] in H.
  apply mu_pt_inv in E. apply derived_mu_inv in H as [H1 H2]. exists s, m. auto.
Qed.
Lemma conv_inv : forall b1 b2 t h, apply_mu_convexity b1 b2 t = Ret h ->
  exists s1 m1 s2 m2, n_data b1 = DMu s1 m1 /\ n_data b2 = DMu s2 m2 /\
    n_data h = DMu ((1 - t) * s1 + t * s2) ((1 - t) * m1 + t * m2) /\ n_deps h = [b1; b2].
Proof.
  intros b1 b2 t h H. unfold apply_mu_convexity in H. destruct (mu_pt b1) as [[s1 m1]|] eqn:E1; [|discriminate]. cbn [bind] in H.
  destruct (mu_pt b2) as [[s2 m2]|] eqn:E2; [|discriminate]. cbn [bind] in H.
  apply mu_pt_inv in E1, E2. apply derived_mu_inv in H as [H1 H2]. exists s1, m1, s2, m2. auto.
Qed.
Lemma from_pair_inv : forall p h, obtain_mu_bound_from_exponent_pair p = Ret h ->
  exists k l, n_data p = DPair k l /\ n_data h = DMu (l - k) k /\ n_deps h = [p].
Proof.
  intros p h H. unfold obtain_mu_bound_from_exponent_pair in H. destruct (pair_of p) as [[k l]|] eqn:E; [|discriminate]. cbn [bind] in H.
  apply pair_of_inv in E. apply derived_mu_inv in H as [H1 H2]. exists k, l. auto.
Qed.

(** ** Truth *)
Lemma trivial_true : forall W s, admissible W -> mu_le W s (trivial_mu_bound s).
Proof.
  intros W s Ad. unfold trivial_mu_bound. destruct (Qleb_spec s 0) as [L|L].
  - pose proof (mu_functional W Ad (1 - s) 0 (mu_right W Ad (1 - s) ltac:(lra))) as H.
    apply (mu_upper W Ad (1 - (1 - s)) s (0 + (1 - s) - (1#2))); [ring|lra|exact H].
  - destruct (Qleb_spec 1 s) as [R|R]; [now apply (mu_right W Ad)|].
    pose proof (mu_right W Ad 1 ltac:(lra)) as H1.
    pose proof (mu_functional W Ad 1 0 H1) as H0.
    pose proof (mu_convex W Ad _ _ _ _ s H0 H1 ltac:(lra) ltac:(lra)) as H.
    apply (mu_upper W Ad ((1 - s) * (1 - 1) + s * 1) s ((1 - s) * (0 + 1 - (1#2)) + s * 0)); [ring| |exact H].
    apply Qle_lteq. right. field.
Qed.

(** ** The list of bounds *)
Definition big (b : hnode) : bool := Qltb 1 (2 * fst (mu_key b)).

Lemma extend_fe_eq : forall q done fuel seen, Forall (fun b => is_mu b = true) q -> Forall (fun b => is_mu b = true /\ big b = false) done ->
  (List.length q + List.length (filter big q) + List.length done <= fuel)%nat ->
  extend_fe fuel seen (q ++ done) = (let! imgs := mapM apply_functional_equation (filter big q) in Ret (seen ++ q ++ done ++ imgs)).
Proof.
  induction q as [|b q IH]; intros done fuel seen Fq Fd L.
  - cbn [app filter mapM bind]. rewrite app_nil_r. cbn in L. revert fuel seen L. induction done as [|b done IHd]; intros fuel seen L.
    + destruct fuel; cbn; now rewrite app_nil_r.
    + inversion Fd as [|? ? [M B] Fd']; subst. destruct fuel as [|f]; [cbn in L; lia|]. cbn [extend_fe].
      unfold big in B. apply is_mu_data in M. destruct (mu_key b) as [s m] eqn:K. cbn [fst snd] in *.
      rewrite (proj2 (mu_pt_inv b s m) M). cbn [bind]. rewrite B. rewrite IHd; [now rewrite <- app_assoc|auto|cbn in L; lia].
  - inversion Fq as [|? ? M Fq']; subst. cbn [app]. destruct fuel as [|f]; [cbn in L; lia|]. cbn [extend_fe filter].
    cbn [filter] in L. pose proof M as M'. apply is_mu_data in M.
    assert (EB : big b = Qltb 1 (2 * fst (mu_key b))) by reflexivity.
    destruct (mu_key b) as [s m] eqn:K. cbn [fst snd] in *. rewrite (proj2 (mu_pt_inv b s m) M). cbn [bind].
    rewrite <- EB. destruct (big b) eqn:B.
    + cbn [mapM]. destruct (apply_functional_equation b) as [b'|e] eqn:E; [|reflexivity]. cbn [bind].
      replace ((q ++ done) ++ [b']) with (q ++ (done ++ [b'])) by (now rewrite app_assoc).
      rewrite IH; auto.
      * destruct (mapM _ (filter big q)) as [imgs|]; [|reflexivity]. cbn [bind]. f_equal. rewrite <- !app_assoc. reflexivity.
      * apply Forall_app. split; [auto|]. constructor; [|constructor].
        apply fe_inv in E as (s' & m' & D & D' & _). rewrite M in D. injection D as <- <-.
        split; [unfold is_mu; now rewrite D'|]. unfold big, mu_key. rewrite D'. cbn [fst]. apply Qltb_false.
        symmetry in EB. apply Qltb_true in EB. lra.
      * rewrite app_length. cbn in L |- *. lia.
    + rewrite IH; auto; [|cbn in L; lia]. destruct (mapM _ (filter big q)) as [imgs|]; [|reflexivity]. cbn [bind].
      rewrite <- !app_assoc. reflexivity.
Qed.

Section Bounds.
Context (ch : hull_routine) (Hch : hull_spec ch) (tr : nat -> hnode -> res hnode).

Lemma get_bounds_inv : forall hs out, get_bounds ch tr hs = Ret out ->
  exists pairs fps imgs, compute_exp_pairs ch tr hs 5 true = Ret pairs /\
    Forall2 (fun p h => obtain_mu_bound_from_exponent_pair p = Ret h) pairs fps /\
    Forall2 (fun b h => apply_functional_equation b = Ret h)
      (filter big (filter is_mu hs ++ [bound_mu_trivial] ++ fps)) imgs /\
    out = (filter is_mu hs ++ [bound_mu_trivial] ++ fps) ++ imgs.
Proof.
  intros hs out H. unfold get_bounds in H. destruct (compute_exp_pairs ch tr hs 5 true) as [pairs|]; [|discriminate].
  cbn [bind] in H. destruct (mapM obtain_mu_bound_from_exponent_pair pairs) as [fps|] eqn:M; [|discriminate]. cbn [bind] in H.
  apply mapM_Forall2 in M. set (bs := (filter is_mu hs ++ [bound_mu_trivial]) ++ fps) in *.
  assert (F : Forall (fun b => is_mu b = true) bs).
  { unfold bs. rewrite !Forall_app. split; [split|].
    - apply Forall_forall. intros h I. now apply filter_In in I.
    - repeat constructor.
    - apply Forall_forall. intros h I. destruct (Forall2_in_r _ _ _ _ _ _ M I) as (p & _ & E).
      apply from_pair_inv in E as (k & l & _ & D & _). unfold is_mu. now rewrite D. }
  assert (E := extend_fe_eq bs [] (2 * List.length bs) [] F (Forall_nil _)). rewrite app_nil_r in E.
  rewrite E in H by (pose proof (filter_length_le' _ big bs); cbn; lia).
  destruct (mapM apply_functional_equation (filter big bs)) as [imgs|] eqn:M2; [|discriminate]. cbn [bind app] in H.
  injection H as <-. apply mapM_Forall2 in M2. exists pairs, fps, imgs.
  replace (filter is_mu hs ++ [bound_mu_trivial] ++ fps) with bs by (unfold bs; now rewrite <- app_assoc).
  split; [reflexivity|]. split; [auto|]. split; [auto|reflexivity].
Qed.

Lemma get_bounds_listed : forall hs out, get_bounds ch tr hs = Ret out ->
  exists pairs, compute_exp_pairs ch tr hs 5 true = Ret pairs /\
    forall s m, (exists b, In b out /\ n_data b = DMu s m) <-> listed_bound hs pairs s m.
Proof.
  intros hs out H. destruct (get_bounds_inv hs out H) as (pairs & fps & imgs & E & F1 & F2 & ->). exists pairs. split; [auto|].
  assert (D : forall s m, (exists b, In b (filter is_mu hs ++ [bound_mu_trivial] ++ fps) /\ n_data b = DMu s m) <-> direct_bound hs pairs s m).
  { intros s m. split.
    - intros (b & I & Db). apply in_app_or in I as [I|[<-|I]].
      + apply filter_In in I as [I _]. left. eauto.
      + cbn in Db. injection Db as <- <-. right. left. auto.
      + destruct (Forall2_in_r _ _ _ _ _ _ F1 I) as (p & Ip & Ep). apply from_pair_inv in Ep as (k & l & D1 & D2 & _).
        rewrite Db in D2. injection D2 as -> ->. right. right. exists p, k, l. auto.
    - intros [(h & I & Dh)|[[-> ->]|(p & k & l & Ip & Dp & -> & ->)]].
      + exists h. split; [|auto]. apply in_or_app. left. apply filter_In. split; [auto|]. unfold is_mu. now rewrite Dh.
      + exists bound_mu_trivial. split; [|reflexivity]. apply in_or_app. right. now left.
      + destruct (Forall2_in_l _ _ _ _ _ _ F1 Ip) as (h & Ih & Eh). apply from_pair_inv in Eh as (k' & l' & D1 & D2 & _).
        rewrite Dp in D1. injection D1 as <- <-. exists h. split; [|auto]. apply in_or_app. right. now right. }
  intros s m. unfold listed_bound. split.
  - intros (b & I & Db). apply in_app_or in I as [I|I]; [left; apply D; eauto|right].
    destruct (Forall2_in_r _ _ _ _ _ _ F2 I) as (b0 & I0 & E0). apply filter_In in I0 as [I0 B0].
    apply fe_inv in E0 as (s' & m' & D1 & D2 & _). rewrite Db in D2. injection D2 as -> ->.
    exists s', m'. split; [apply D; eauto|]. split; [|auto]. unfold big, mu_key in B0. rewrite D1 in B0. apply Qltb_true in B0. cbn [fst] in B0. lra.
  - intros [H'|(s' & m' & H' & L & -> & ->)].
    + apply D in H' as (b & I & Db). exists b. split; [apply in_or_app; auto|auto].
    + apply D in H' as (b & I & Db).
      assert (I' : In b (filter big (filter is_mu hs ++ [bound_mu_trivial] ++ fps))).
      { apply filter_In. split; [auto|]. unfold big, mu_key. rewrite Db. apply Qltb_true. cbn [fst]. lra. }
      destruct (Forall2_in_l _ _ _ _ _ _ F2 I') as (h & Ih & Eh). apply fe_inv in Eh as (s'' & m'' & D1 & D2 & _).
      rewrite Db in D1. injection D1 as <- <-. exists h. split; [apply in_or_app; auto|auto].
Qed.

Lemma get_bounds_mu : forall hs out b, get_bounds ch tr hs = Ret out -> In b out -> is_mu b = true.
Proof.
  intros hs out b H I. destruct (get_bounds_inv hs out H) as (pairs & fps & imgs & E & F1 & F2 & ->).
  apply in_app_or in I as [I|I].
  - apply in_app_or in I as [I|[<-|I]]; [now apply filter_In in I|reflexivity|].
    destruct (Forall2_in_r _ _ _ _ _ _ F1 I) as (p & _ & Ep). apply from_pair_inv in Ep as (k & l & _ & D & _). unfold is_mu. now rewrite D.
  - destruct (Forall2_in_r _ _ _ _ _ _ F2 I) as (p & _ & Ep). apply fe_inv in Ep as (k & l & _ & D & _). unfold is_mu. now rewrite D.
Qed.

Lemma get_bounds_true : forall btr W hs out, admissible W -> Forall (holds tr btr W) hs ->
  get_bounds ch tr hs = Ret out -> Forall (holds tr btr W) out.
Proof.
  intros btr W hs out Ad Ho H. destruct (get_bounds_inv hs out H) as (pairs & fps & imgs & E & F1 & F2 & ->).
  assert (Hp : forall p, In p pairs -> holds tr btr W p).
  { intros p I. destruct (compute_sound ch tr Hch hs 5 true pairs p E I) as [_ (n & _ & R)].
    assert (S : forall g, Forall (holds tr btr W) (filter g hs)).
    { intro g. apply Forall_forall. intros x Ix. apply filter_In in Ix as [Ix _]. rewrite Forall_forall in Ho. auto. }
    apply (reach_true tr btr W _ _ n p (S is_pair) (S is_trans)); [apply filter_pairs|auto]. }
  assert (D : forall b, In b (filter is_mu hs ++ [bound_mu_trivial] ++ fps) -> holds tr btr W b).
  { intros b I. apply in_app_or in I as [I|[<-|I]].
    - apply filter_In in I as [I _]. rewrite Forall_forall in Ho. auto.
    - cbn. apply (mu_right W Ad). lra.
    - destruct (Forall2_in_r _ _ _ _ _ _ F1 I) as (p & Ip & Ep). apply from_pair_inv in Ep as (k & l & D1 & D2 & _).
      pose proof (Hp p Ip) as P. unfold holds in P |- *. rewrite D1 in P. rewrite D2. now apply (mu_from_pair W Ad). }
  apply Forall_forall. intros b I. apply in_app_or in I as [I|I]; [auto|].
  destruct (Forall2_in_r _ _ _ _ _ _ F2 I) as (b0 & I0 & E0). apply filter_In in I0 as [I0 _].
  apply fe_inv in E0 as (s' & m' & D1 & D2 & _). pose proof (D b0 I0) as P. unfold holds in P |- *. rewrite D1 in P. rewrite D2.
  now apply (mu_functional W Ad).
Qed.

(** ** Edges *)
Lemma edge_bound_inv : forall s b1 b2 o, edge_bound s b1 b2 = Ret o ->
  exists s1 m1 s2 m2, n_data b1 = DMu s1 m1 /\ n_data b2 = DMu s2 m2 /\
   ((o = None /\ ~ (s1 <= s /\ s <= s2)) \/
    (s1 <= s /\ s <= s2 /\ s1 == s2 /\ o = Some (if Qltb m1 m2 then b1 else b2)) \/
    (s1 <= s /\ s <= s2 /\ ~ s1 == s2 /\ exists b t, o = Some b /\ t == (s - s1) / (s2 - s1) /\ apply_mu_convexity b1 b2 t = Ret b)).
Proof.
  intros s b1 b2 o H. unfold edge_bound in H. destruct (mu_pt b1) as [[s1 m1]|] eqn:E1; [|discriminate]. cbn [bind] in H.
  destruct (mu_pt b2) as [[s2 m2]|] eqn:E2; [|discriminate]. cbn [bind] in H. apply mu_pt_inv in E1, E2.
  exists s1, m1, s2, m2. split; [auto|]. split; [auto|].
  destruct (Qleb_spec s1 s) as [A|A]; cbn [andb] in H; [|injection H as <-; left; split; [auto|lra]].
  destruct (Qleb_spec s s2) as [B|B]; [|injection H as <-; left; split; [auto|lra]].
  destruct (Qeqb_spec s1 s2) as [C|C]; [injection H as <-; right; left; auto|]. right. right.
  destruct (qdiv (s - s1) (s2 - s1)) as [t|] eqn:Q; [|discriminate]. cbn [bind] in H. apply qdiv_ret in Q as [_ Q].
  destruct (apply_mu_convexity b1 b2 t) as [b|] eqn:E; [|discriminate]. cbn [bind] in H. injection H as <-.
  split; [auto|]. split; [auto|]. split; [auto|]. exists b, t. auto.
Qed.

Lemma theta_range : forall s s1 s2 t, s1 <= s -> s <= s2 -> ~ s1 == s2 -> t == (s - s1) / (s2 - s1) ->
  0 <= t /\ t <= 1 /\ (1 - t) * s1 + t * s2 == s.
Proof.
  intros s s1 s2 t A B C E. assert (D : 0 < s2 - s1).
  { destruct (Qlt_le_dec s1 s2); [lra|]. exfalso. apply C. lra. }
  rewrite E. split; [|split].
  - apply Qle_shift_div_l; [auto|lra].
  - apply Qle_shift_div_r; [auto|lra].
  - field. lra.
Qed.

Lemma edge_bound_true : forall btr W s b1 b2 b, admissible W -> holds tr btr W b1 -> holds tr btr W b2 ->
  edge_bound s b1 b2 = Ret (Some b) -> holds tr btr W b.
Proof.
  intros btr W s b1 b2 b Ad H1 H2 H. destruct (edge_bound_inv s b1 b2 _ H) as (s1 & m1 & s2 & m2 & D1 & D2 & C).
  destruct C as [[E _]|[(A & B & C & E)|(A & B & C & b' & t & E & Et & Ec)]]; [discriminate| |].
  - injection E as ->. destruct (Qltb m1 m2); auto.
  - injection E as <-. apply conv_inv in Ec as (s1' & m1' & s2' & m2' & D1' & D2' & Db & _).
    rewrite D1 in D1'. injection D1' as <- <-. rewrite D2 in D2'. injection D2' as <- <-.
    unfold holds in *. rewrite D1 in H1. rewrite D2 in H2. rewrite Db.
    destruct (theta_range s s1 s2 t A B C Et) as (T0 & T1 & _). now apply (mu_convex W Ad).
Qed.

Lemma best_of_edges_inv : forall s edges ans r, best_of_edges s edges ans = Ret r ->
  (r = ans \/ exists b1 b2, In (b1, b2) edges /\ edge_bound s b1 b2 = Ret (Some r) /\ snd (mu_key r) < snd (mu_key ans)) /\
  snd (mu_key r) <= snd (mu_key ans) /\
  forall b1 b2, In (b1, b2) edges -> exists o, edge_bound s b1 b2 = Ret o /\ forall b, o = Some b -> snd (mu_key r) <= snd (mu_key b).
Proof.
  intros s. induction edges as [|[b1 b2] edges IH]; intros ans r H; cbn [best_of_edges] in H.
  - injection H as <-. split; [auto|]. split; [lra|]. intros b1 b2 [].
  - destruct (edge_bound s b1 b2) as [o|] eqn:E; [|discriminate]. cbn [bind] in H. destruct o as [b|].
    + destruct (IH _ _ H) as (A & B & C). destruct (Qltb_spec (snd (mu_key b)) (snd (mu_key ans))) as [L|L].
      * split; [|split; [lra|]].
        -- right. destruct A as [->|(c1 & c2 & I & Ec & Lc)]; [exists b1, b2; split; [now left|auto]|].
           exists c1, c2. split; [now right|]. split; [auto|lra].
        -- intros c1 c2 [I|I]; [injection I as <- <-; exists (Some b); split; [auto|]; intros b' Eb; injection Eb as <-; lra|auto].
      * split; [|split; [lra|]].
        -- destruct A as [->|(c1 & c2 & I & Ec & Lc)]; [auto|]. right. exists c1, c2. split; [now right|auto].
        -- intros c1 c2 [I|I]; [injection I as <- <-; exists (Some b); split; [auto|]; intros b' Eb; injection Eb as <-; lra|auto].
    + destruct (IH _ _ H) as (A & B & C). split; [|split; [auto|]].
      * destruct A as [->|(c1 & c2 & I & Ec & Lc)]; [auto|]. right. exists c1, c2. split; [now right|auto].
      * intros c1 c2 [I|I]; [injection I as <- <-; exists None; split; [auto|discriminate]|auto].
Qed.

Lemma best_of_edges_total : forall s edges ans, (forall b1 b2, In (b1, b2) edges -> exists o, edge_bound s b1 b2 = Ret o) ->
  exists r, best_of_edges s edges ans = Ret r.
Proof.
  intros s. induction edges as [|[b1 b2] edges IH]; intros ans H; cbn [best_of_edges]; [eauto|].
  destruct (H b1 b2 (or_introl eq_refl)) as (o & E). rewrite E. cbn [bind].
  destruct o; apply IH; intros c1 c2 I; apply H; now right.
Qed.

Lemma cyc_edges_map : forall A B (f : A -> B) l, cyc_edges (map f l) = map (fun e => (f (fst e), f (snd e))) (cyc_edges l).
Proof.
  intros A B f l. destruct l as [|a l]; [auto|]. unfold cyc_edges. cbn [map].
  replace (map f l ++ [f a]) with (map f (l ++ [a])) by (now rewrite map_app).
  assert (C : forall (x y : list A), combine (map f x) (map f y) = map (fun e => (f (fst e), f (snd e))) (combine x y)).
  { induction x as [|x xs IH]; intros [|y ys]; cbn; auto. f_equal. apply IH. }
  exact (C (a :: l) (l ++ [a])).
Qed.

Lemma key_at : forall bs v, (v < List.length bs)%nat -> mu_key (nth v bs bound_mu_trivial) = pts_at (map mu_key bs) v.
Proof.
  intros bs v L. unfold pts_at. rewrite (nth_indep _ (0, 0) (mu_key bound_mu_trivial)) by (now rewrite map_length). symmetry. apply map_nth.
Qed.

(** The hull as a list of hypotheses. *)
Lemma mu_hull_inv : forall bs verts, mu_convex_hull ch bs = Ret verts ->
  exists vs, is_hull (map mu_key bs) vs /\ verts = map (fun v => nth v bs bound_mu_trivial) vs /\
    (forall v, In v vs -> In (nth v bs bound_mu_trivial) bs /\ mu_key (nth v bs bound_mu_trivial) = pts_at (map mu_key bs) v) /\
    forall b1 b2, In (b1, b2) (cyc_edges verts) -> exists i j, In (i, j) (cyc_edges vs) /\
      b1 = nth i bs bound_mu_trivial /\ b2 = nth j bs bound_mu_trivial.
Proof.
  intros bs verts H. unfold mu_convex_hull in H. destruct (ch (map mu_key bs)) as [vs|] eqn:E; [|discriminate]. cbn [bind] in H.
  injection H as <-. exists vs. pose proof (hull_inv ch Hch _ _ E) as Hv. split; [auto|]. split; [auto|].
  pose proof (hull_range _ _ Hv) as R. rewrite Forall_forall in R. split.
  - intros v I. specialize (R v I). rewrite map_length in R. split; [now apply nth_In|now apply key_at].
  - intros b1 b2 I. rewrite cyc_edges_map in I. apply in_map_iff in I as ([i j] & Ee & I). cbn in Ee. injection Ee as <- <-. eauto.
Qed.

Lemma best_mu_true : forall btr W s hs r, admissible W -> Forall (holds tr btr W) hs ->
  best_mu_bound ch tr s hs = Ret r -> holds tr btr W r.
Proof.
  intros btr W s hs r Ad Ho H. unfold best_mu_bound in H.
  assert (T : forall h, apply_trivial_mu_bound s = Ret h -> holds tr btr W h).
  { intros h E. apply derived_mu_inv in E as [D _]. unfold holds. rewrite D. now apply trivial_true. }
  destruct (Qleb s 0 || Qleb 1 s); [auto|]. destruct (apply_trivial_mu_bound s) as [ans|] eqn:Ea; [|discriminate]. cbn [bind] in H.
  destruct (get_bounds ch tr hs) as [bounds|] eqn:Eb; [|discriminate]. cbn [bind] in H.
  destruct (mu_convex_hull ch (bounds ++ [placeholder])) as [verts|] eqn:Ev; [|discriminate]. cbn [bind] in H.
  destruct (best_of_edges_inv _ _ _ _ H) as ([->|(b1 & b2 & I & E & _)] & _); [auto|].
  pose proof (get_bounds_true btr W hs bounds Ad Ho Eb) as Fb.
  assert (Hb : forall b, In b (bounds ++ [placeholder]) -> holds tr btr W b).
  { intros b Ib. apply in_app_or in Ib as [Ib|[<-|[]]]; [rewrite Forall_forall in Fb; auto|].
    cbn. apply (mu_upper W Ad (1#2) (1#2) (trivial_mu_bound (1#2))); [reflexivity|apply Qleb_true; reflexivity|now apply trivial_true]. }
  destruct (mu_hull_inv _ _ Ev) as (vs & Hv & _ & Kv & Ev'). destruct (Ev' b1 b2 I) as (i & j & Ie & -> & ->).
  apply cyc_edges_in in Ie as [Ii Ij]. apply (edge_bound_true btr W s _ _ r Ad) in E; auto; apply Hb; now apply Kv.
Qed.

(** ** Optimality *)
Lemma mu_pts_key : forall bs, Forall (fun b => is_mu b = true) bs -> forall p, In p (map mu_key bs) <-> mu_pts bs p.
Proof.
  intros bs F p. rewrite Forall_forall in F. split.
  - intros I. apply in_map_iff in I as (b & <- & I). exists b. split; [auto|]. apply is_mu_data. auto.
  - intros (b & I & D). apply in_map_iff. exists b. split; [|auto]. rewrite (mu_key_data _ _ _ D). now destruct p.
Qed.


Lemma hull_above : forall (S : pt -> Prop) p1 p2 q, fst p1 < fst p2 -> (forall p, S p -> 0 <= cross p1 p2 p) -> hull2 S q ->
  lineto p1 p2 (fst q) <= snd q.
Proof.
  intros S p1 p2 q L HS H. assert (C : 0 <= cross p1 p2 q) by (apply (hull2_left S p1 p2); auto).
  rewrite line_cross in C by (intro; lra). apply pos_factor in C; lra.
Qed.

Lemma theta_line : forall s s1 m1 s2 m2 t, ~ s1 == s2 -> t == (s - s1) / (s2 - s1) ->
  (1 - t) * m1 + t * m2 == lineto (s1, m1) (s2, m2) s.
Proof.
  intros s s1 m1 s2 m2 t N E. rewrite E. unfold lineto, icpt_of, slope_of. cbn [fst snd]. field. intro; apply N; lra.
Qed.

Lemma vertex_exists : forall pts vs (P : Q -> bool) p c d, is_hull pts vs -> In p pts ->
  ~ d < c * fst p -> (forall q : pt, P (fst q) = true -> d < c * fst q) ->
  exists v, In v vs /\ P (fst (pts_at pts v)) = false.
Proof.
  intros pts vs P p c d H I N HP.
  destruct (existsb (fun v => negb (P (fst (pts_at pts v)))) vs) eqn:E.
  - apply existsb_exists in E as (v & Iv & Ev). exists v. split; [auto|]. now apply negb_true_iff.
  - exfalso. apply N. apply (hull_x_bound _ p c d (hull_covers _ _ H p I)). intros q (i & Ii & ->).
    apply HP. destruct (P (fst (pts_at pts i))) eqn:X; [auto|]. exfalso.
    assert (existsb (fun v => negb (P (fst (pts_at pts v)))) vs = true); [|congruence].
    apply existsb_exists. exists i. split; [auto|]. now rewrite X.
Qed.

(** Between two points of the set the hull has an edge from left to right over
    every abscissa. *)
Lemma lower_edge : forall pts vs p q s, is_hull pts vs -> In p pts -> In q pts -> fst p <= s -> s < fst q ->
  exists i j, In (i, j) (cyc_edges vs) /\ fst (pts_at pts i) <= s /\ s < fst (pts_at pts j).
Proof.
  intros pts vs p q s H Ip Iq L1 L2.
  destruct (vertex_exists pts vs (fun x => Qltb s x) p 1 s H Ip) as (v & Iv & Pv); [lra|intros r Hr; apply Qltb_true in Hr; lra|].
  destruct (vertex_exists pts vs (fun x => Qleb x s) q (-1) (- ((1#2) * s + (1#2) * fst q)) H Iq) as (w & Iw & Pw).
  { lra. } { intros r Hr. apply Qleb_true in Hr. lra. }
  destruct (cyc_crossing _ (fun v => Qleb (fst (pts_at pts v)) s) vs v w Iv Iw) as (i & j & Ie & Fi & Fj).
  - apply Qleb_true. now apply Qltb_false in Pv.
  - exact Pw.
  - apply Qleb_true in Fi. apply Qleb_false in Fj. exists i, j. auto.
Qed.

Lemma get_bounds_ends : forall hs bounds, get_bounds ch tr hs = Ret bounds -> mu_pts bounds (1, 0) /\ exists p, mu_pts bounds p /\ pt_eq p (0, 1#2).
Proof.
  intros hs bounds H. destruct (get_bounds_listed hs bounds H) as (pairs & _ & L). split.
  - apply L. left. right. left. auto.
  - exists (1 - 1, 0 + 1 - (1#2)). split; [|split; reflexivity]. apply L. right. exists 1, 0. split; [right; left; auto|]. split; [reflexivity|auto].
Qed.

Lemma trivial_in_hull : forall hs bounds s, get_bounds ch tr hs = Ret bounds -> 0 < s -> s < 1 -> mu_hull bounds (s, trivial_mu_bound s).
Proof.
  intros hs bounds s H S0 S1. destruct (get_bounds_ends hs bounds H) as [E1 (p & E0 & Ep)].
  apply (hull2_mix _ (1, 0) p (1 - s)); [apply (hull2_in _ (1, 0)); [auto|reflexivity]|apply (hull2_in _ p); [auto|reflexivity]|lra|lra|].
  unfold trivial_mu_bound. destruct (Qleb_spec s 0); [lra|]. destruct (Qleb_spec 1 s); [lra|].
  destruct Ep as [Ep1 Ep2]. cbn in Ep1, Ep2. split; cbn [fst snd pmix]; rewrite ?Ep1, ?Ep2; field.
Qed.

Lemma best_mu_least : forall s hs r bounds, 0 < s -> s < 1 -> get_bounds ch tr hs = Ret bounds -> best_mu_bound ch tr s hs = Ret r ->
  is_mu r = true /\ fst (mu_key r) == s /\ least_at bounds s (snd (mu_key r)) /\ snd (mu_key r) <= trivial_mu_bound s.
Proof.
  intros s hs r bounds S0 S1 Eb H. unfold best_mu_bound in H.
  destruct (Qleb_spec s 0) as [X|_]; [lra|]. destruct (Qleb_spec 1 s) as [X|_]; [lra|]. cbn [orb] in H.
  destruct (apply_trivial_mu_bound s) as [ans|] eqn:Ea; [|discriminate]. cbn [bind] in H. rewrite Eb in H. cbn [bind] in H.
  destruct (mu_convex_hull ch (bounds ++ [placeholder])) as [verts|] eqn:Ev; [|discriminate]. cbn [bind] in H.
  apply derived_mu_inv in Ea as [Da _]. pose proof (mu_key_data _ _ _ Da) as Ka.
  set (bs := bounds ++ [placeholder]) in *. set (pts := map mu_key bs) in *.
  destruct (mu_hull_inv _ _ Ev) as (vs & Hv & -> & Kv & Ev'). fold pts in Hv, Kv.
  assert (Fb : Forall (fun b => is_mu b = true) bounds) by (apply Forall_forall; intros b; now apply (get_bounds_mu hs)).
  assert (Fbs : Forall (fun b => is_mu b = true) bs) by (apply Forall_app; split; [auto|repeat constructor]).
  destruct (get_bounds_ends hs bounds Eb) as [P1 (p0 & P0 & Ep0)].
  assert (Ib : forall p, mu_pts bounds p -> In p pts).
  { intros p Ip. apply (mu_pts_key bs Fbs). destruct Ip as (b & I & D). exists b. split; [apply in_or_app; auto|auto]. }
  destruct (best_of_edges_inv _ _ _ _ H) as (A & B & C). rewrite Ka in B. cbn [snd] in B.
  assert (T : trivial_mu_bound s < 1).
  { unfold trivial_mu_bound. destruct (Qleb_spec s 0); [lra|]. destruct (Qleb_spec 1 s); [lra|].
    assert (E : (1#2) - s / 2 == (1#2) - (1#2) * s) by field. rewrite E. lra. }
  assert (E0 : fst p0 == 0 /\ snd p0 == 1#2) by exact Ep0. destruct E0 as [E01 E02].
  (* the placeholder is not on a lower edge *)
  assert (NP : forall i j, In (i, j) (cyc_edges vs) -> fst (pts_at pts i) < fst (pts_at pts j) ->
    lineto (pts_at pts i) (pts_at pts j) (1#2) <= 1).
  { intros i j Ie L. assert (K : forall p, In p pts -> lineto (pts_at pts i) (pts_at pts j) (fst p) <= snd p).
    { intros p Ip. pose proof (hull_left _ _ Hv i j p Ie Ip) as Cx. rewrite line_cross in Cx by (intro; lra). apply pos_factor in Cx; lra. }
    pose proof (K _ (Ib _ P1)) as K1. pose proof (K _ (Ib _ P0)) as K0. unfold lineto in *. cbn [fst snd] in K1. rewrite E01, E02 in K0. lra. }
  assert (BP : forall i j, In (i, j) (cyc_edges vs) -> fst (pts_at pts i) < fst (pts_at pts j) ->
    mu_pts bounds (pts_at pts i) /\ mu_pts bounds (pts_at pts j)).
  { intros i j Ie L. pose proof (NP i j Ie L) as N. pose proof (cyc_edges_in _ _ _ _ Ie) as [Ii Ij].
    destruct (line_ends (pts_at pts i) (pts_at pts j)) as [L1 L2]; [intro; lra|].
    assert (G : forall v, In v vs -> ~ (pts_at pts v = (1#2, 10)) -> mu_pts bounds (pts_at pts v)).
    { intros v Iv Nv. destruct (Kv v Iv) as [I K]. apply in_app_or in I as [I|[I|[]]].
      - rewrite <- K. exists (nth v bs bound_mu_trivial). split; [auto|]. apply is_mu_data. rewrite Forall_forall in Fb. auto.
      - exfalso. apply Nv. rewrite <- K, <- I. reflexivity. }
    split; apply G; auto; intro X; rewrite X in *; cbn [fst snd] in *; lra. }
  assert (Low : exists i j, In (i, j) (cyc_edges vs) /\ fst (pts_at pts i) <= s /\ s < fst (pts_at pts j)).
  { apply (lower_edge pts vs p0 (1, 0) s Hv); [now apply Ib|now apply Ib|lra|cbn; lra]. }
  assert (Lb : forall m, mu_hull bounds (s, m) -> snd (mu_key r) <= m).
  { intros m Hm. destruct Low as (i & j & Ie & L1 & L2).
    assert (Iv : In (nth i bs bound_mu_trivial, nth j bs bound_mu_trivial) (cyc_edges (map (fun v => nth v bs bound_mu_trivial) vs))).
    { rewrite cyc_edges_map. apply in_map_iff. exists (i, j). auto. }
    destruct (C _ _ Iv) as (o & Eo & Ho). destruct (edge_bound_inv _ _ _ _ Eo) as (s1 & m1 & s2 & m2 & D1 & D2 & Cs).
    pose proof (cyc_edges_in _ _ _ _ Ie) as [Ii Ij].
    destruct (Kv i Ii) as [_ K1], (Kv j Ij) as [_ K2]. rewrite (mu_key_data _ _ _ D1) in K1. rewrite (mu_key_data _ _ _ D2) in K2.
    rewrite <- K1 in L1. rewrite <- K2 in L2. cbn [fst] in L1, L2.
    destruct Cs as [[_ N]|[(_ & _ & E & _)|(A1 & A2 & N & b & t & -> & Et & Ec)]]; [exfalso; apply N; lra|lra|].
    specialize (Ho b eq_refl). apply conv_inv in Ec as (s1' & m1' & s2' & m2' & D1' & D2' & Db & _).
    rewrite D1 in D1'. injection D1' as <- <-. rewrite D2 in D2'. injection D2' as <- <-.
    rewrite (mu_key_data _ _ _ Db) in Ho. cbn [snd] in Ho. rewrite (theta_line s s1 m1 s2 m2 t N Et) in Ho.
    assert (X : lineto (s1, m1) (s2, m2) (fst (s, m)) <= snd (s, m)).
    { apply (hull_above (mu_pts bounds)); [cbn; lra| |exact Hm]. intros p Ip. rewrite K1, K2. apply (hull_left _ _ Hv i j p Ie). now apply Ib. }
    cbn [fst snd] in X. lra. }
  assert (In_hull : is_mu r = true /\ fst (mu_key r) == s /\ mu_hull bounds (s, snd (mu_key r))).
  { destruct A as [->|(b1 & b2 & I & E & Lr)].
    { rewrite Ka. cbn [fst snd]. split; [unfold is_mu; now rewrite Da|]. split; [reflexivity|]. now apply (trivial_in_hull hs). }
    destruct (Ev' b1 b2 I) as (i & j & Ie & -> & ->). rewrite Ka in Lr. cbn [snd] in Lr.
    pose proof (cyc_edges_in _ _ _ _ Ie) as [Ii Ij]. destruct (Kv i Ii) as [In1 K1], (Kv j Ij) as [In2 K2].
    destruct (edge_bound_inv _ _ _ _ E) as (s1 & m1 & s2 & m2 & D1 & D2 & Cs).
    rewrite (mu_key_data _ _ _ D1) in K1. rewrite (mu_key_data _ _ _ D2) in K2.
    destruct Cs as [[X _]|[(A1 & A2 & Eq & X)|(A1 & A2 & N & b & t & X & Et & Ec)]]; [discriminate| |].
    - injection X as ->.
      assert (G : forall b, In b bs -> (exists a m, n_data b = DMu a m /\ a == s) -> snd (mu_key b) < trivial_mu_bound s ->
        is_mu b = true /\ fst (mu_key b) == s /\ mu_hull bounds (s, snd (mu_key b))).
      { intros b Inb (a & m & D & Ea') Lb'. rewrite (mu_key_data _ _ _ D) in *. cbn [fst snd] in *.
        split; [unfold is_mu; now rewrite D|]. split; [auto|]. apply in_app_or in Inb as [Inb|[<-|[]]].
        - apply (hull2_in _ (a, m)); [exists b; auto|]. split; [cbn; now symmetry|reflexivity].
        - cbn in D. injection D as <- <-. exfalso. lra. }
      destruct (Qltb m1 m2).
      + apply G; [auto| |exact Lr]. exists s1, m1. split; [auto|lra].
      + apply G; [auto| |exact Lr]. exists s2, m2. split; [auto|lra].
    - injection X as <-. apply conv_inv in Ec as (s1' & m1' & s2' & m2' & D1' & D2' & Db & _).
      rewrite D1 in D1'. injection D1' as <- <-. rewrite D2 in D2'. injection D2' as <- <-.
      destruct (theta_range s s1 s2 t A1 A2 N Et) as (T0 & T1 & Es).
      rewrite (mu_key_data _ _ _ Db). cbn [fst snd]. split; [unfold is_mu; now rewrite Db|]. split; [auto|].
      assert (Lt : fst (pts_at pts i) < fst (pts_at pts j)).
      { rewrite <- K1, <- K2. cbn [fst]. destruct (Qlt_le_dec s1 s2); [auto|]. exfalso. apply N. lra. }
      destruct (BP i j Ie Lt) as [B1 B2].
      apply (hull2_mix _ (s1, m1) (s2, m2) t); [rewrite K1; apply (hull2_in _ (pts_at pts i)); [auto|reflexivity]|rewrite K2; apply (hull2_in _ (pts_at pts j)); [auto|reflexivity]|auto|auto|].
      split; cbn [fst snd pmix]; [now symmetry|reflexivity]. }
  destruct In_hull as (H1 & H2 & H3). split; [auto|]. split; [auto|]. split; [split; auto|exact B].
Qed.

(** ** Totality *)
Lemma get_bounds_total : forall hs pairs, compute_exp_pairs ch tr hs 5 true = Ret pairs -> Forall proper_node hs -> Forall proper_node pairs ->
  (forall p, In p pairs -> is_pair p = true) ->
  exists bounds, get_bounds ch tr hs = Ret bounds /\ Forall proper_node bounds.
Proof.
  intros hs pairs E Ph Pp Fp. unfold get_bounds. rewrite E. cbn [bind].
  assert (M : exists fps, mapM obtain_mu_bound_from_exponent_pair pairs = Ret fps /\ Forall (fun h => is_mu h = true /\ proper_node h) fps).
  { clear E. induction pairs as [|p pairs IH]; [exists []; split; [reflexivity|constructor]|].
    inversion Pp; subst. destruct IH as (fps & M & F); [auto|intros q I; apply Fp; now right|].
    specialize (Fp p (or_introl eq_refl)). unfold is_pair in Fp. cbn [mapM].
    unfold obtain_mu_bound_from_exponent_pair at 1, pair_of. destruct (n_data p) as [k l| | | |] eqn:D; try discriminate. cbn [bind].
    destruct (derived_mu_ret (l - k) k [p]) as (h & Eh & Dh & _ & Prh); [constructor; [auto|constructor]|].
    rewrite Eh. cbn [bind]. rewrite M. cbn [bind]. exists (h :: fps). split; [reflexivity|]. constructor; [|auto].
    split; [unfold is_mu; now rewrite Dh|auto]. }
  destruct M as (fps & M & Ff). rewrite M. cbn [bind]. set (bs := (filter is_mu hs ++ [bound_mu_trivial]) ++ fps).
  assert (Fb : Forall (fun h => is_mu h = true /\ proper_node h) bs).
  { unfold bs. rewrite !Forall_app. split; [split|auto].
    - apply Forall_forall. intros h I. apply filter_In in I as [I Im]. rewrite Forall_forall in Ph. auto.
    - constructor; [|constructor]. split; [reflexivity|]. vm_compute. auto. }
  assert (Fm : Forall (fun h => is_mu h = true) bs) by (eapply Forall_impl; [|exact Fb]; intros h [X _]; exact X).
  assert (Ex := extend_fe_eq bs [] (2 * List.length bs) [] Fm (Forall_nil _)). rewrite app_nil_r in Ex.
  rewrite Ex by (pose proof (filter_length_le' _ big bs); cbn; lia).
  assert (MI : forall l, Forall (fun h => is_mu h = true /\ proper_node h) l ->
    exists imgs, mapM apply_functional_equation l = Ret imgs /\ Forall proper_node imgs).
  { clear. induction l as [|b l IH]; intros F; [exists []; split; [reflexivity|constructor]|]. inversion F as [|? ? [Mb Pb] F']; subst.
    destruct (IH F') as (imgs & M & Fi). cbn [mapM]. apply is_mu_data in Mb. destruct (mu_key b) as [s m]. cbn [fst snd] in Mb.
    unfold apply_functional_equation at 1. rewrite (proj2 (mu_pt_inv b s m) Mb). cbn [bind].
    destruct (derived_mu_ret (1 - s) (m + s - (1#2)) [b]) as (h & Eh & _ & _ & Ph); [constructor; [auto|constructor]|].
    rewrite Eh. cbn [bind]. rewrite M. cbn [bind]. exists (h :: imgs). split; [reflexivity|constructor; auto]. }
  destruct (MI (filter big bs)) as (imgs & Mi & Fi).
  { apply Forall_forall. intros h I. apply filter_In in I as [I _]. rewrite Forall_forall in Fb. auto. }
  rewrite Mi. cbn [bind app]. exists (bs ++ imgs). split; [reflexivity|]. apply Forall_app. split; [|auto].
  eapply Forall_impl; [|exact Fb]. intros h [_ X]. exact X.
Qed.

Lemma edge_bound_total : forall s b1 b2, is_mu b1 = true -> is_mu b2 = true -> proper_node b1 -> proper_node b2 ->
  exists o, edge_bound s b1 b2 = Ret o.
Proof.
  intros s b1 b2 M1 M2 P1 P2. apply is_mu_data in M1, M2. destruct (mu_key b1) as [s1 m1], (mu_key b2) as [s2 m2]. cbn [fst snd] in *.
  unfold edge_bound. rewrite (proj2 (mu_pt_inv b1 s1 m1) M1), (proj2 (mu_pt_inv b2 s2 m2) M2). cbn [bind].
  destruct (Qleb s1 s && Qleb s s2); [|eauto]. destruct (Qeqb_spec s1 s2) as [E|E]; [eauto|].
  rewrite qdiv_ok by (intro X; apply E; lra). cbn [bind]. set (t := (s - s1) / (s2 - s1)).
  unfold apply_mu_convexity. rewrite (proj2 (mu_pt_inv b1 s1 m1) M1), (proj2 (mu_pt_inv b2 s2 m2) M2). cbn [bind].
  destruct (derived_mu_ret ((1 - t) * s1 + t * s2) ((1 - t) * m1 + t * m2) [b1; b2]) as (h & Eh & _); [constructor; [auto|constructor; [auto|constructor]]|].
  rewrite Eh. cbn [bind]. eauto.
Qed.

Lemma best_mu_total : forall s hs bounds, get_bounds ch tr hs = Ret bounds -> Forall proper_node bounds ->
  exists r, best_mu_bound ch tr s hs = Ret r.
Proof.
  intros s hs bounds Eb Fp. unfold best_mu_bound.
  destruct (derived_mu_ret s (trivial_mu_bound s) [] (Forall_nil _)) as (ans & Ea & _).
  assert (Ea' : apply_trivial_mu_bound s = Ret ans) by exact Ea.
  destruct (Qleb s 0 || Qleb 1 s); [eauto|]. rewrite Ea'. cbn [bind]. rewrite Eb. cbn [bind].
  set (bs := bounds ++ [placeholder]).
  assert (Fb : forall b, In b bs -> is_mu b = true /\ proper_node b).
  { intros b I. apply in_app_or in I as [I|[<-|[]]].
    - split; [now apply (get_bounds_mu hs bounds)|]. rewrite Forall_forall in Fp. auto.
    - split; [reflexivity|]. vm_compute. auto. }
  assert (Fbs : Forall (fun b => is_mu b = true) bs) by (apply Forall_forall; intros b I; now apply Fb).
  assert (NC : ~ collinear (map mu_key bs)).
  { intro C. destruct (get_bounds_ends hs bounds Eb) as [P1 (p0 & P0 & E1 & E2)]. cbn [fst snd] in *.
    assert (Up : forall p, mu_pts bounds p -> In p (map mu_key bs)).
    { intros p (b & I & D). apply (mu_pts_key bs Fbs). exists b. split; [apply in_or_app; auto|auto]. }
    pose proof (C (1, 0) p0 (1#2, 10) (Up _ P1) (Up _ P0)) as X. unfold cross in X. cbn [fst snd] in X. rewrite E1, E2 in X.
    assert (Y : In ((1#2), 10) (map mu_key bs)).
    { apply (mu_pts_key bs Fbs). exists placeholder. split; [apply in_or_app; right; now left|reflexivity]. }
    specialize (X Y). vm_compute in X. discriminate. }
  destruct (proj2 (Hch (map mu_key bs)) NC) as (vs & Ev & Hv). unfold mu_convex_hull. rewrite Ev. cbn [bind].
  assert (Ec : mu_convex_hull ch bs = Ret (map (fun v => nth v bs bound_mu_trivial) vs)) by (unfold mu_convex_hull; now rewrite Ev).
  destruct (mu_hull_inv _ _ Ec) as (vs' & _ & Evv & _ & _).
  pose proof (hull_range _ _ Hv) as R. rewrite Forall_forall in R.
  apply best_of_edges_total. intros b1 b2 I. rewrite cyc_edges_map in I. apply in_map_iff in I as ([i j] & Ee & I). cbn in Ee. injection Ee as <- <-.
  apply cyc_edges_in in I as [Ii Ij]. apply R in Ii, Ij. rewrite map_length in Ii, Ij.
  apply edge_bound_total; apply Fb; now apply nth_In.
Qed.

(** ** Piecewise *)
Lemma interval_default_ret : forall a b i, Interval_default a b = Ret i -> i = mkI a b true false /\ a <= b.
Proof.
  intros a b i H. unfold Interval_default, Interval in H. destruct (Qltb_spec 0 (a - b)) as [L|L]; [discriminate|].
  injection H as <-. split; [auto|lra].
Qed.
Lemma interval_default_raise : forall a b, b < a -> Interval_default a b = Raise ValueError.
Proof. intros a b L. unfold Interval_default, Interval. destruct (Qltb_spec 0 (a - b)) as [X|X]; [auto|lra]. Qed.
Lemma interval_default_ok : forall a b, a <= b -> Interval_default a b = Ret (mkI a b true false).
Proof. intros a b L. unfold Interval_default, Interval. destruct (Qltb_spec 0 (a - b)) as [X|X]; [lra|auto]. Qed.

Definition blocking (s0 s1 : Q) (e : hnode * hnode) : Prop :=
  exists a1 m1 a2 m2, n_data (fst e) = DMu a1 m1 /\ n_data (snd e) = DMu a2 m2 /\ a2 < a1 /\ s0 <= a2 /\ a1 <= s1.

Lemma qmax_cases : forall a b, (qmax a b == a /\ b <= a) \/ (qmax a b == b /\ a <= b).
Proof. intros a b. unfold qmax. destruct (Qltb_spec a b); [right|left]; split; try reflexivity; lra. Qed.
Lemma qmin_cases : forall a b, (qmin a b == a /\ a <= b) \/ (qmin a b == b /\ b <= a).
Proof. intros a b. unfold qmin. destruct (Qltb_spec b a); [right|left]; split; try reflexivity; lra. Qed.

Lemma edge_piece_raise : forall s0 s1 e, blocking s0 s1 e -> edge_piece s0 s1 e = Raise ValueError.
Proof.
  intros s0 s1 [b1 b2] (a1 & m1 & a2 & m2 & D1 & D2 & L & L0 & L1). cbn [fst snd] in *. unfold edge_piece. cbn [fst snd].
  rewrite (proj2 (mu_pt_inv _ _ _) D1), (proj2 (mu_pt_inv _ _ _) D2). cbn [bind].
  destruct (Qltb_spec a2 s0); [lra|]. destruct (Qltb_spec s1 a1); [lra|]. cbn [orb].
  rewrite interval_default_raise; [auto|]. destruct (qmax_cases s0 a1) as [[-> ?]|[-> ?]], (qmin_cases s1 a2) as [[-> ?]|[-> ?]]; lra.
Qed.

Lemma edge_piece_ok : forall s0 s1 b1 b2 a1 m1 a2 m2, s0 <= s1 -> n_data b1 = DMu a1 m1 -> n_data b2 = DMu a2 m2 ->
  ~ blocking s0 s1 (b1, b2) ->
  exists l, edge_piece s0 s1 (b1, b2) = Ret l /\
    ((l = [] /\ ~ (a1 < a2 /\ exists x, s0 <= x /\ x < s1 /\ a1 <= x /\ x < a2)) \/
     (exists f, l = [MAff f] /\ a1 < a2 /\ (forall x, covers f x <-> s0 <= x /\ x < s1 /\ a1 <= x /\ x < a2) /\
        (forall x, Spec_Affine.value f x == lineto (a1, m1) (a2, m2) x))).
Proof.
  intros s0 s1 b1 b2 a1 m1 a2 m2 L D1 D2 NB. unfold edge_piece. cbn [fst snd].
  rewrite (proj2 (mu_pt_inv _ _ _) D1), (proj2 (mu_pt_inv _ _ _) D2). cbn [bind].
  destruct (Qltb_spec a2 s0) as [X|X]; cbn [orb].
  { exists []. split; [auto|]. left. split; [auto|]. intros (_ & x & ? & ? & ? & ?). lra. }
  destruct (Qltb_spec s1 a1) as [Y|Y].
  { exists []. split; [auto|]. left. split; [auto|]. intros (_ & x & ? & ? & ? & ?). lra. }
  assert (LI : qmax s0 a1 <= qmin s1 a2).
  { destruct (Qlt_le_dec a2 a1) as [Z|Z]; [exfalso; apply NB; exists a1, m1, a2, m2; cbn; auto 8|].
    destruct (qmax_cases s0 a1) as [[-> ?]|[-> ?]], (qmin_cases s1 a2) as [[-> ?]|[-> ?]]; lra. }
  rewrite (interval_default_ok _ _ LI). cbn [bind].
  assert (Cov : forall x, in_set (mkI (qmax s0 a1) (qmin s1 a2) true false) x <-> s0 <= x /\ x < s1 /\ a1 <= x /\ x < a2).
  { intro x. unfold in_set. cbn. destruct (qmax_cases s0 a1) as [[-> ?]|[-> ?]], (qmin_cases s1 a2) as [[-> ?]|[-> ?]]; lra. }
  destruct (Qltb_spec a1 a2) as [Z|Z]; cbn [andb].
  2:{ exists []. split; [auto|]. left. split; [auto|]. intros (? & _). lra. }
  destruct (is_empty _) eqn:Em; cbn [negb].
  - exists []. split; [auto|]. left. split; [auto|]. intros (_ & x & Hx). unfold is_empty, length in Em. cbn in Em.
    destruct (Qeqb_spec (qmin s1 a2 - qmax s0 a1) 0) as [E0|E0]; [|discriminate].
    apply Cov in Hx. unfold in_set in Hx. cbn in Hx. lra.
  - rewrite !qdiv_ok by (intro; lra). cbn [bind]. eexists. split; [reflexivity|]. right.
    eexists. split; [reflexivity|]. split; [auto|]. split; [exact Cov|].
    intro x. unfold Spec_Affine.value, lineto, icpt_of, slope_of. cbn [slope icpt fst snd]. field. intro; lra.
Qed.

Lemma piecewise_inside_spec : forall s0 s1 hs ps bounds, s0 <= s1 -> get_bounds ch tr hs = Ret bounds -> piecewise_inside ch tr s0 s1 hs = Ret ps ->
  (forall p, In p ps -> exists f, p = MAff f /\ forall x, covers f x -> s0 <= x /\ x < s1 /\ least_at bounds x (Spec_Affine.value f x)) /\
  (0 <= s0 -> s1 <= 1 -> forall x, s0 <= x -> x < s1 -> exists f, In (MAff f) ps /\ covers f x).
Proof.
  intros s0 s1 hs ps bounds L Eb H. unfold piecewise_inside in H. rewrite Eb in H. cbn [bind] in H.
  destruct (mu_convex_hull ch bounds) as [verts|] eqn:Ev; [|discriminate]. cbn [bind] in H.
  destruct (mapM (edge_piece s0 s1) (cyc_edges verts)) as [pss|] eqn:M; [|discriminate]. cbn [bind] in H. injection H as <-.
  apply mapM_Forall2 in M. set (pts := map mu_key bounds) in *.
  destruct (mu_hull_inv _ _ Ev) as (vs & Hv & -> & Kv & Ev'). fold pts in Hv, Kv.
  assert (Fb : Forall (fun b => is_mu b = true) bounds) by (apply Forall_forall; intros b; now apply (get_bounds_mu hs)).
  assert (Ed : forall b1 b2 l, In (b1, b2) (cyc_edges (map (fun v => nth v bounds bound_mu_trivial) vs)) -> edge_piece s0 s1 (b1, b2) = Ret l ->
    exists i j a1 m1 a2 m2, In (i, j) (cyc_edges vs) /\ n_data b1 = DMu a1 m1 /\ n_data b2 = DMu a2 m2 /\
      pts_at pts i = (a1, m1) /\ pts_at pts j = (a2, m2) /\ mu_pts bounds (a1, m1) /\ mu_pts bounds (a2, m2) /\ ~ blocking s0 s1 (b1, b2)).
  { intros b1 b2 l I El. destruct (Ev' b1 b2 I) as (i & j & Ie & E1 & E2). pose proof (cyc_edges_in _ _ _ _ Ie) as [Ii Ij].
    destruct (Kv i Ii) as [In1 K1], (Kv j Ij) as [In2 K2]. rewrite <- E1 in In1, K1. rewrite <- E2 in In2, K2. rewrite Forall_forall in Fb.
    pose proof (proj1 (is_mu_data _) (Fb _ In1)) as D1. pose proof (proj1 (is_mu_data _) (Fb _ In2)) as D2. rewrite K1 in D1. rewrite K2 in D2.
    destruct (pts_at pts i) as [a1 m1] eqn:P1, (pts_at pts j) as [a2 m2] eqn:P2. cbn [fst snd] in *.
    exists i, j, a1, m1, a2, m2. split; [auto|]. split; [auto|]. split; [auto|]. split; [auto|]. split; [auto|].
    split; [exists b1; auto|]. split; [exists b2; auto|]. intro B. rewrite (edge_piece_raise _ _ _ B) in El. discriminate. }
  split.
  - intros p Ip. apply in_concat in Ip as (l & Il & Ip). destruct (Forall2_in_r _ _ _ _ _ _ M Il) as ([b1 b2] & Ie & El).
    destruct (Ed b1 b2 l Ie El) as (i & j & a1 & m1 & a2 & m2 & Iij & D1 & D2 & P1 & P2 & B1 & B2 & NB).
    destruct (edge_piece_ok s0 s1 b1 b2 a1 m1 a2 m2 L D1 D2 NB) as (l' & El' & [[-> _]|(f & -> & La & Cov & V)]);
      rewrite El in El'; injection El' as ->; [destruct Ip|].
    destruct Ip as [<-|[]]. exists f. split; [auto|]. intros x Cx. apply Cov in Cx as (X0 & X1 & X2 & X3).
    split; [auto|]. split; [auto|]. split.
    + apply (hull2_mix _ (a1, m1) (a2, m2) ((x - a1) / (a2 - a1))).
      * apply (hull2_in _ (a1, m1)); [auto|split; reflexivity].
      * apply (hull2_in _ (a2, m2)); [auto|split; reflexivity].
      * apply Qle_shift_div_l; lra.
      * apply Qle_shift_div_r; lra.
      * split; cbn [fst snd pmix]; [field; intro; lra|]. rewrite V. unfold lineto, icpt_of, slope_of. cbn [fst snd]. field. intro; lra.
    + intros m Hm. rewrite V.
      apply (hull_above (mu_pts bounds) (a1, m1) (a2, m2) (x, m)); [cbn; lra| |exact Hm].
      intros q Iq. rewrite <- P1, <- P2. apply (hull_left _ _ Hv i j q Iij). now apply (mu_pts_key bounds Fb).
  - intros L0 L1 x X0 X1. destruct (get_bounds_ends hs bounds Eb) as [P1 (p0 & P0 & E01 & E02)]. cbn [fst snd] in E01, E02.
    destruct (lower_edge pts vs p0 (1, 0) x Hv) as (i & j & Ie & Lx1 & Lx2);
      [now apply (mu_pts_key bounds Fb)|now apply (mu_pts_key bounds Fb)|lra|cbn; lra|].
    assert (Iv : In (nth i bounds bound_mu_trivial, nth j bounds bound_mu_trivial) (cyc_edges (map (fun v => nth v bounds bound_mu_trivial) vs))).
    { rewrite cyc_edges_map. apply in_map_iff. exists (i, j). auto. }
    destruct (Forall2_in_l _ _ _ _ _ _ M Iv) as (l & Il & El). pose proof (cyc_edges_in _ _ _ _ Ie) as [Ii Ij].
    destruct (Kv i Ii) as [In1 K1], (Kv j Ij) as [In2 K2]. rewrite Forall_forall in Fb.
    pose proof (proj1 (is_mu_data _) (Fb _ In1)) as D1. pose proof (proj1 (is_mu_data _) (Fb _ In2)) as D2. rewrite K1 in D1. rewrite K2 in D2.
    assert (NB : ~ blocking s0 s1 (nth i bounds bound_mu_trivial, nth j bounds bound_mu_trivial)).
    { intro B. rewrite (edge_piece_raise _ _ _ B) in El. discriminate. }
    destruct (edge_piece_ok s0 s1 _ _ _ _ _ _ L D1 D2 NB) as (l' & El' & [[-> N]|(f & -> & La & Cov & V)]);
      rewrite El in El'; injection El' as ->.
    + exfalso. apply N. split; [lra|]. exists x. auto.
    + exists f. split; [|apply Cov; auto]. apply in_concat. exists [MAff f]. split; [auto|now left].
Qed.

Lemma mapM_raise : forall A B (f : A -> res B) l e, (exists a, In a l /\ f a = Raise e) ->
  (forall a e', In a l -> f a = Raise e' -> e' = e) -> mapM f l = Raise e.
Proof.
  intros A B f l e. induction l as [|a l IH]; intros (x & I & Ex) U; [destruct I|]. cbn [mapM].
  destruct (f a) as [b|e'] eqn:Ea.
  - cbn [bind]. rewrite IH; [reflexivity| |].
    + destruct I as [->|I]; [congruence|]. exists x. auto.
    + intros y e' Iy Ey. apply (U y e'); [now right|auto].
  - cbn [bind]. f_equal. apply (U a e'); [now left|auto].
Qed.

Lemma mapM_raise_inv : forall A B (f : A -> res B) l e, mapM f l = Raise e -> exists a, In a l /\ f a = Raise e.
Proof.
  intros A B f l e. induction l as [|a l IH]; cbn [mapM]; [discriminate|]. intro H. destruct (f a) as [b|e'] eqn:Ea; cbn [bind] in H.
  - destruct (mapM f l) as [bs|e'']; cbn [bind] in H; [discriminate|]. injection H as ->. destruct (IH eq_refl) as (x & I & E). exists x. split; [now right|auto].
  - injection H as ->. exists a. split; [now left|auto].
Qed.

Lemma edge_piece_only_value_error : forall s0 s1 b1 b2 e, s0 <= s1 -> is_mu b1 = true -> is_mu b2 = true ->
  edge_piece s0 s1 (b1, b2) = Raise e -> e = ValueError /\ blocking s0 s1 (b1, b2).
Proof.
  intros s0 s1 b1 b2 e L M1 M2 E. apply is_mu_data in M1, M2.
  set (a1 := fst (mu_key b1)) in *. set (m1 := snd (mu_key b1)) in *. set (a2 := fst (mu_key b2)) in *. set (m2 := snd (mu_key b2)) in *.
  assert (B : blocking s0 s1 (b1, b2) \/ ~ blocking s0 s1 (b1, b2)).
  { destruct (Qlt_le_dec a2 a1) as [X|X]; [|right; intros (? & ? & ? & ? & D1 & D2 & ?); cbn in *; rewrite M1 in D1; rewrite M2 in D2; injection D1 as <- <-; injection D2 as <- <-; lra].
    destruct (Qlt_le_dec a2 s0) as [Y|Y]; [right; intros (? & ? & ? & ? & D1 & D2 & ?); cbn in *; rewrite M1 in D1; rewrite M2 in D2; injection D1 as <- <-; injection D2 as <- <-; lra|].
    destruct (Qlt_le_dec s1 a1) as [Z|Z]; [right; intros (? & ? & ? & ? & D1 & D2 & ?); cbn in *; rewrite M1 in D1; rewrite M2 in D2; injection D1 as <- <-; injection D2 as <- <-; lra|].
    left. exists a1, m1, a2, m2. cbn. auto. }
  destruct B as [B|B].
  - rewrite (edge_piece_raise _ _ _ B) in E. injection E as <-. auto.
  - destruct (edge_piece_ok s0 s1 b1 b2 _ _ _ _ L M1 M2 B) as (l & El & _). congruence.
Qed.

Lemma inside_full_raises : forall hs bounds, get_bounds ch tr hs = Ret bounds ->
  (forall p, mu_pts bounds p -> 0 <= fst p /\ fst p <= 1) -> piecewise_inside ch tr 0 1 hs = Raise ValueError.
Proof.
  intros hs bounds Eb R. unfold piecewise_inside. rewrite Eb. cbn [bind].
  assert (Fb : Forall (fun b => is_mu b = true) bounds) by (apply Forall_forall; intros b; now apply (get_bounds_mu hs)).
  unfold mu_convex_hull. destruct (ch (map mu_key bounds)) as [vs|e] eqn:Ec.
  2:{ cbn [bind]. f_equal. destruct (collinearb (map mu_key bounds)) eqn:Co.
      - apply collinearb_spec in Co. apply (proj1 (Hch _)) in Co. congruence.
      - assert (NC : ~ collinear (map mu_key bounds)) by (rewrite <- collinearb_spec; congruence).
        apply (proj2 (Hch _)) in NC as (vs & Ev & _). congruence. }
  cbn [bind]. pose proof (hull_inv ch Hch _ _ Ec) as Hv. set (pts := map mu_key bounds) in *.
  assert (Ev : mu_convex_hull ch bounds = Ret (map (fun v => nth v bounds bound_mu_trivial) vs)) by (unfold mu_convex_hull; fold pts; now rewrite Ec).
  destruct (mu_hull_inv _ _ Ev) as (vs' & Hv' & _ & _ & _).
  pose proof (hull_range _ _ Hv) as Rg. rewrite Forall_forall in Rg.
  assert (Kv : forall v, In v vs -> In (nth v bounds bound_mu_trivial) bounds /\ mu_key (nth v bounds bound_mu_trivial) = pts_at pts v).
  { intros v Iv. specialize (Rg v Iv). unfold pts in Rg. rewrite map_length in Rg. split; [now apply nth_In|now apply key_at]. }
  assert (Dv : forall v, In v vs -> n_data (nth v bounds bound_mu_trivial) = DMu (fst (pts_at pts v)) (snd (pts_at pts v))).
  { intros v Iv. destruct (Kv v Iv) as [I K]. rewrite <- K. apply is_mu_data. rewrite Forall_forall in Fb. auto. }
  rewrite (mapM_raise _ _ _ _ ValueError); [reflexivity| |].
  - destruct (get_bounds_ends hs bounds Eb) as [P1 (p0 & P0 & E01 & E02)]. cbn [fst snd] in E01, E02.
    apply (mu_pts_key bounds Fb) in P1, P0. fold pts in P1, P0.
    destruct (vertex_exists pts vs (fun x => Qltb (1#2) x) p0 1 (1#2) Hv P0) as (w & Iw & Pw); [lra|intros r Hr; apply Qltb_true in Hr; lra|].
    destruct (vertex_exists pts vs (fun x => Qleb x (1#2)) (1, 0) (-1) (-(3#4)) Hv P1) as (v & Iv & Pv);
      [cbn; lra|intros r Hr; apply Qleb_true in Hr; lra|].
    destruct (cyc_crossing _ (fun v => negb (Qleb (fst (pts_at pts v)) (1#2))) vs v w Iv Iw) as (i & j & Ie & Fi & Fj).
    + now rewrite Pv.
    + apply negb_false_iff. apply Qleb_true. now apply Qltb_false in Pw.
    + apply negb_true_iff, Qleb_false in Fi. apply negb_false_iff, Qleb_true in Fj.
      exists (nth i bounds bound_mu_trivial, nth j bounds bound_mu_trivial). split; [rewrite cyc_edges_map; apply in_map_iff; exists (i, j); auto|].
      apply edge_piece_raise. pose proof (cyc_edges_in _ _ _ _ Ie) as [Ii Ij].
      assert (B : forall u, In u vs -> 0 <= fst (pts_at pts u) /\ fst (pts_at pts u) <= 1).
      { intros u Iu. apply R. exists (nth u bounds bound_mu_trivial). split; [now apply Kv|now apply Dv]. }
      exists (fst (pts_at pts i)), (snd (pts_at pts i)), (fst (pts_at pts j)), (snd (pts_at pts j)). cbn [fst snd].
      split; [now apply Dv|]. split; [now apply Dv|]. destruct (B i Ii), (B j Ij). split; [lra|]. split; [lra|lra].
  - intros [b1 b2] e Ib Eb'. rewrite cyc_edges_map in Ib. apply in_map_iff in Ib as ([i j] & Ee & Ie). cbn in Ee. injection Ee as <- <-.
    apply cyc_edges_in in Ie as [Ii Ij]. rewrite Forall_forall in Fb.
    apply (edge_piece_only_value_error 0 1 _ _ e) in Eb'; [tauto|lra|apply Fb; now apply Kv|apply Fb; now apply Kv].
Qed.

Lemma inside_returns : forall hs bounds s0 s1, get_bounds ch tr hs = Ret bounds -> 0 <= s0 -> s0 <= s1 -> s1 <= 1 ->
  (forall s m, mu_pts bounds (s, m) -> s0 <= s -> s <= s1 -> m < (1 - s) / 2) ->
  (exists s m, mu_pts bounds (s, m) /\ ~ m == (1 - s) / 2) ->
  exists ps, piecewise_inside ch tr s0 s1 hs = Ret ps.
Proof.
  intros hs bounds s0 s1 Eb L0 L L1 Beat (s & m & Ps & Ns). unfold piecewise_inside. rewrite Eb. cbn [bind].
  assert (Fb : Forall (fun b => is_mu b = true) bounds) by (apply Forall_forall; intros b; now apply (get_bounds_mu hs)).
  destruct (get_bounds_ends hs bounds Eb) as [P1 (p0 & P0 & E01 & E02)]. cbn [fst snd] in E01, E02.
  assert (NC : ~ collinear (map mu_key bounds)).
  { intro C. pose proof (C (1, 0) p0 (s, m) (proj2 (mu_pts_key bounds Fb _) P1) (proj2 (mu_pts_key bounds Fb _) P0) (proj2 (mu_pts_key bounds Fb _) Ps)) as X.
    unfold cross in X. cbn [fst snd] in X. rewrite E01, E02 in X. apply Ns. assert (Y : (1 - s) / 2 == (1#2) * (1 - s)) by field. lra. }
  destruct (proj2 (Hch _) NC) as (vs & Ec & Hv).
  assert (Ev : mu_convex_hull ch bounds = Ret (map (fun v => nth v bounds bound_mu_trivial) vs)) by (unfold mu_convex_hull; now rewrite Ec).
  rewrite Ev. cbn [bind]. set (pts := map mu_key bounds) in *.
  pose proof (hull_range _ _ Hv) as Rg. rewrite Forall_forall in Rg.
  assert (Kv : forall v, In v vs -> In (nth v bounds bound_mu_trivial) bounds /\ mu_key (nth v bounds bound_mu_trivial) = pts_at pts v).
  { intros v Iv. specialize (Rg v Iv). unfold pts in Rg. rewrite map_length in Rg. split; [now apply nth_In|now apply key_at]. }
  rewrite Forall_forall in Fb.
  assert (Dv : forall v, In v vs -> n_data (nth v bounds bound_mu_trivial) = DMu (fst (pts_at pts v)) (snd (pts_at pts v))).
  { intros v Iv. destruct (Kv v Iv) as [I K]. rewrite <- K. apply is_mu_data. auto. }
  destruct (mapM (edge_piece s0 s1) _) as [ps|e] eqn:M; [cbn [bind]; eauto|]. exfalso.
  apply mapM_raise_inv in M as ([b1 b2] & I & E). rewrite cyc_edges_map in I. apply in_map_iff in I as ([i j] & Ee & Ie). cbn in Ee. injection Ee as <- <-.
  pose proof (cyc_edges_in _ _ _ _ Ie) as [Ii Ij].
  apply edge_piece_only_value_error in E as [_ (a1 & m1 & a2 & m2 & D1 & D2 & La & La0 & La1)]; [|auto|apply Fb; now apply Kv|apply Fb; now apply Kv].
  cbn [fst snd] in D1, D2. pose proof D1 as D1'. pose proof D2 as D2'. rewrite (Dv i Ii) in D1'. rewrite (Dv j Ij) in D2'.
  assert (Q1 : pts_at pts i = (a1, m1)) by (injection D1' as <- <-; now destruct (pts_at pts i)).
  assert (Q2 : pts_at pts j = (a2, m2)) by (injection D2' as <- <-; now destruct (pts_at pts j)).
  assert (B1 : m1 < (1 - a1) / 2) by (apply Beat; [exists (nth i bounds bound_mu_trivial); split; [now apply Kv|auto]|lra|lra]).
  assert (B2 : m2 < (1 - a2) / 2) by (apply Beat; [exists (nth j bounds bound_mu_trivial); split; [now apply Kv|auto]|lra|lra]).
  assert (F' : Forall (fun b => is_mu b = true) bounds) by (now apply Forall_forall).
  pose proof (hull_left _ _ Hv i j _ Ie (proj2 (mu_pts_key bounds F' _) P1)) as C1.
  pose proof (hull_left _ _ Hv i j _ Ie (proj2 (mu_pts_key bounds F' _) P0)) as C0.
  rewrite Q1, Q2 in C1, C0. unfold cross in C1, C0. cbn [fst snd] in C1, C0. rewrite E01, E02 in C0.
  assert (Y1 : (1 - a1) / 2 == (1#2) * (1 - a1)) by field. assert (Y2 : (1 - a2) / 2 == (1#2) * (1 - a2)) by field.
  rewrite Y1 in B1. rewrite Y2 in B2. clear - C1 C0 B1 B2 La La0 La1 L0 L1. nra.
Qed.
End Bounds.
