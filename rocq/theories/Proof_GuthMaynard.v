(** Proofs about the derivation of the Guth-Maynard large value theorem. *)
From Coq Require Import Permutation.
From Verif Require Import Base Model_Text Model_Reference Spec_Reference LinAlg Model_Polytope Spec_Polytope Proof_Polytope Proof_PolytopeMaps Proof_PolytopeLP
  Proof_PolytopeSets Proof_PolytopeUnion Model_Region Spec_Region Proof_Region Proof_RegionSolid Prop_Region FM_Ext Model_ExponentPair Spec_ExponentPair Model_Format Proof_Interval
  Model_LargeValues Spec_LargeValues Proof_LargeValues Model_AdditiveEnergy Spec_AdditiveEnergy Proof_AdditiveEnergy Prop_AdditiveEnergy Proof_Piecewise
  Model_LiteratureLV Model_LiteratureEnergy Spec_LiteratureEnergy Prop_LiteratureEnergy Model_GuthMaynard Spec_GuthMaynard.
Require Import Lqa.
Open Scope list_scope.

(** ** Inequalities *)
Lemma div2 : forall x, x / inject_Z 2 == x * (1#2).
Proof. intro x. unfold Qdiv. reflexivity. Qed.
Lemma bound_at_gm : forall s, 7#10 <= s -> s <= 8#10 -> gm_theorem_bound s (6#5) == (18#5) - 4 * s.
Proof. intros s A B. unfold gm_theorem_bound, max3. qmax_cases; lra. Qed.

Lemma gm_second_cases : forall s t r e, gm_with 2 (gm_S3b t r e) s t r <->
  r <= 2 - 2 * s \/ r <= 1 - 2 * s - (10#3) \/ r <= 1 - 2 * s + (2 + 2 * r) * (1#3) \/ r <= 1 - 2 * s + (t + 1 + (3#2) * r) * (1#3) \/
  r <= 1 - 2 * s + (2 + (13#8) * r + t * (1#4)) * (1#3) \/ r <= 1 - 2 * s + (2 * t + r * (3#2)) * (1#3) \/
  r <= 1 - 2 * s + (t + 1 + r * (1#2) + e * (1#2)) * (1#3).
Proof.
  intros s t r e. unfold gm_with, max3, gm_S1, gm_S2, gm_S3b, max3. cbv zeta. rewrite !le_qmax, !le_third.
  assert (D : forall x, x / inject_Z 2 == x * (1#2)) by (intro x; reflexivity). rewrite !D.
  change (1 / inject_Z 2) with (1#2). split; intro H; decompose [or] H; clear H; try lra.
Qed.

Lemma third_at : forall s r e, e <= gm_third_bound s (6#5) r -> e <= r + 4 - 4 * s \/ e <= (21#8) * r + (3#10) + 1 - 2 * s \/ e <= 3 * r + 1 - 2 * s.
Proof. intros s r e H. unfold gm_third_bound, max3 in H. rewrite !le_qmax in H. lra. Qed.

(** The second bound on S_3 and the third relation suffice. *)
Lemma gm_upper : forall s r e, 7#10 <= s -> s <= 8#10 -> gm_with 2 (gm_S3b (6#5) r e) s (6#5) r -> e <= gm_third_bound s (6#5) r -> r <= (18#5) - 4 * s.
Proof.
  intros s r e A B H T. apply gm_second_cases in H. apply third_at in T. lra.
Qed.

(** ** Polytopes with rows of zeros *)
Section Ext.
Context (E : ext) (OK : ext_ok E).

Lemma is_empty_open_strict : forall p, wf_mat (pmat p) ->
  exists b, is_empty_open E p = Ret b /\ if b then ~ (exists x, strict (pmat p) x) else exists x, strict (pmat p) x.
Proof.
  intros p W. unfold is_empty_open.
  pose proof W as [W1 W2].
  destruct (matrix_as_list (pmat p) true) as [|q0 qs] eqn:EQ.
  2:{ exists true. split; auto. intros (x & Hx). destruct Hx as [_ Hx].
      assert (In (q0, true) (mrows (pmat p))) by (apply as_list_In; rewrite EQ; now left).
      apply Hx in H as [H _]. discriminate. }
  assert (ST : forall x, strict (pmat p) x <-> S (length x) = ncol (pmat p) /\
             Forall (fun r => 0 < rowval r x) (matrix_as_list (pmat p) false)).
  { intro x. unfold strict. rewrite Forall_forall. split; intros [L H]; split; auto.
    - intros r Hr. apply as_list_In in Hr. now apply H in Hr as [_ Hr].
    - intros [r b] Hr. cbn [fst snd]. destruct b.
      + apply as_list_In in Hr. rewrite EQ in Hr. destruct Hr.
      + split; auto. apply H. now apply as_list_In. }
  rewrite (matrix_of_ok _ false (S (ncol (pmat p)))).
  2:{ destruct (map _ _); discriminate. }
  2:{ rewrite !Forall_app. repeat split.
      - apply Forall_map, Forall_forall. intros r Hr. rewrite app_length. simpl.
        rewrite (as_list_length _ _ _ W Hr). lia.
      - constructor; auto. rewrite app_length, repeat_length. simpl. lia.
      - constructor; auto. simpl. rewrite app_length, repeat_length. simpl. lia. }
  cbn [bind]. fold (eps_mat (pmat p)).
  set (A := eps_mat (pmat p)). set (c := repeat 0 (ncol (pmat p)) ++ [1]).
  assert (WA : wf_mat A).
  { split; cbn [ncol mrows A eps_mat]; [lia|]. apply Forall_map. cbn [fst]. rewrite !Forall_app. repeat split.
    - apply Forall_map, Forall_forall. intros r Hr. rewrite app_length. simpl.
      rewrite (as_list_length _ _ _ W Hr). lia.
    - constructor; auto. rewrite app_length, repeat_length. simpl. lia.
    - constructor; auto. simpl. rewrite app_length, repeat_length. simpl. lia. }
  assert (Lc : length c = ncol A) by (unfold c; rewrite app_length, repeat_length; simpl; lia).
  assert (Vc : forall x e, S (length x) = ncol (pmat p) -> rowval c (x ++ [e]) == e).
  { intros x e L. unfold c. rewrite rowval_snoc; rewrite ?repeat_length; try lia. rewrite rowval_zero. ring. }
  assert (SN : forall z, mmember A z -> exists x e, z = x ++ [e] /\ S (length x) = ncol (pmat p)).
  { intros z [Lz _]. cbn [ncol A eps_mat] in Lz. destruct (snoc_exists z) as (x & e & ->); [lia|].
    exists x, e. split; auto. rewrite app_length in Lz. simpl in Lz. lia. }
  assert (STA : forall x, strict (pmat p) x -> exists e, 0 < e /\ mmember A (x ++ [e])).
  { intros x Hx. apply ST in Hx as [L F]. destruct (slack _ _ F) as (e & E0 & E1 & F').
    exists e. split; auto. apply eps_member; auto. repeat split; auto; lra. }
  destruct (lp_optimal (linprog E A true c)) eqn:O; cbn [negb].
  - destruct (lp_max_optimal E OK A c WA Lc O) as (M & V & U).
    set (lp := linprog E A true c) in *. clearbody lp.
    destruct (SN _ M) as (x & e & Ez & L). rewrite Ez in *. rewrite last_last.
    rewrite (Vc x e L) in V. apply eps_member in M as (F & E0 & E1); auto.
    eexists. split; [reflexivity|]. destruct (Qeqb_spec e 0) as [Z|Z].
    + intros (y & Hy). destruct (STA y Hy) as (e' & P & M').
      specialize (U _ M'). rewrite Vc in U by (apply ST in Hy; tauto). lra.
    + exists x. apply ST. split; auto.
      eapply Forall_impl; [|exact F]. cbv beta; intros. lra.
  - exists true. split; auto. intros (y & Hy).
    apply (lp_max_other E OK A c WA Lc O). apply (max_exists A c 1 WA).
    + destruct (STA y Hy) as (e' & P & M'). eauto.
    + intros z Mz. destruct (SN z Mz) as (x & e & -> & L). rewrite Vc by auto. apply eps_member in Mz; auto. lra.
Qed.

(** [intersect] when the first polytope may have rows of zeros *)
Lemma intersect_wf : drops_trivial_rows E -> forall p q, wf_mat (pmat p) -> good q -> ncol (pmat q) = ncol (pmat p) ->
  exists r, intersect E p q = Ret r /\ wf_mat (pmat r) /\ ncol (pmat r) = ncol (pmat p) /\
    (forall x, member r x <-> member p x /\ member q x) /\ ((exists x, member r x) -> good r).
Proof.
  intros DT p q W (Wq & NZq & _) Nq. unfold intersect, intersection. cbn [flat_map]. rewrite !app_nil_r.
  assert (L : forall b, Forall (fun r => length r = ncol (pmat p)) (matrix_as_list (pmat q) b)).
  { intro b. apply Forall_forall. intros r Hr. rewrite <- Nq. now apply (as_list_length _ b). }
  destruct (opt_extend (pmat p) _ false W (L false)) as (m1 & E1 & W1 & N1 & _ & M1).
  pose proof (L true) as L2. rewrite <- N1 in L2.
  destruct (opt_extend m1 _ true W1 L2) as (m2 & E2 & W2 & N2 & _ & M2).
  assert (M : forall x, mmember m2 x <-> member p x /\ member q x).
  { intro x. rewrite M2, M1. unfold member. split.
    - intros [[A B] C]. split; [exact A|]. apply mmember_split. split; [destruct A as [A _]; congruence|auto].
    - intros [A B]. apply mmember_split in B. tauto. }
  rewrite E1. cbn [bind]. rewrite E2. cbn [bind]. eexists. split; [reflexivity|].
  destruct (canon_wf E OK m2 W2) as [W3 N3]. unfold member at 1 3. cbn [pmat]. split; [exact W3|]. split; [congruence|].
  split; [intro x; rewrite (canon_set E OK m2 x W2); apply M|].
  intros (x & Mx). apply (canon_set E OK m2 x W2) in Mx. destruct (DT m2 W2 (ex_intro _ x Mx)) as [NZ CM].
  unfold good. cbn [pmat pcanon pverts]. split; [exact W3|]. split; [exact NZ|]. split; [intros _; exact CM|exact Logic.I].
Qed.
End Ext.

(** ** The projection *)
Lemma member_eq : forall p x y, Forall2 Qeq x y -> member p x -> member p y.
Proof. intros p x y H. apply mmember_peq; [now apply Forall2_len in H|]. apply peq_Forall2; [now apply Forall2_len in H|]. clear - H. induction H; constructor; auto. now symmetry. Qed.

Lemma convex_member : forall p, convex_set (member p).
Proof.
  intros p x y t Mx My T0 T1. destruct Mx as [Lx Fx], My as [Ly Fy]. split; [rewrite mix_length; lia|].
  rewrite Forall_forall in *. intros rb Hr. specialize (Fx rb Hr). specialize (Fy rb Hr). unfold Spec_Polytope.holds in *. destruct (snd rb); setoid_rewrite rowval_mix; nra.
Qed.

Lemma leaf_polys_map : forall ps, leaf_polys (map RPoly ps) = Some ps.
Proof. induction ps as [|p ps IH]; [reflexivity|]. cbn [map leaf_polys]. now rewrite IH. Qed.
Lemma tree_polys_map : forall ps, flat_map tree_polys (map RPoly ps) = ps.
Proof. induction ps as [|p ps IH]; [reflexivity|]. cbn [map flat_map tree_polys app]. now rewrite IH. Qed.

Section Lv.
Context (E : ext) (OK : ext_ok E) (order : nat -> list nat -> list nat) (OO : forall k l, Permutation (order k l) l).

(** If the projection is not convex it is a union of solid pieces. *)
Lemma lver_to_lv_pieces : forall h ps, e_data h = DLVER (RDisj (map RPoly ps)) -> Forall (solid 5) ps ->
  ~ convex_set (fun y => exists s t r e z, denote (RDisj (map RPoly ps)) [s; t; r; e; z] /\ Forall2 Qeq y [s; t; r]) ->
  (exists x, denote (RDisj (map RPoly ps)) x) ->
  exists h' qs, lver_to_lv E order h = Ret h' /\ e_region h' = Ret (RUnion (map RPoly qs)) /\ Forall (solid 3) qs /\
    forall y, denote (RUnion (map RPoly qs)) y <-> exists s t r e z, denote (RDisj (map RPoly ps)) [s; t; r; e; z] /\ Forall2 Qeq y [s; t; r].
Proof.
  intros h ps D F NC (x0 & D0). destruct (solid_dims ps F) as (S5 & UO & GB & L5).
  assert (DO : disj_only (RDisj (map RPoly ps))).
  { cbn [disj_only]. apply allP_iff. intros a Ha. apply in_map_iff in Ha as (p & <- & _). exact Logic.I. }
  destruct (disj_only_exact E order _ DO) as (ps' & Eps & Eq' & _). cbn [tree_polys] in Eq'. rewrite tree_polys_map in Eq'. subst ps'.
  destruct (region_project E OK [0; 1; 2]%nat 5 _ UO GB) as (q & Eq & Hq). destruct q as [q|]; [|exfalso; exact (Hq x0 D0)].
  destruct Hq as [_ Hq]. destruct (rproject_solid E OK 5 [0; 1; 2]%nat _ q UO S5 Eq) as [Sq _].
  change (solid (length (selected [0; 1; 2]%nat 0 (repeat 0 5)))) with (solid 3) in Sq.
  assert (Hq' : forall y, denote q y <-> exists s t r e z, denote (RDisj (map RPoly ps)) [s; t; r; e; z] /\ Forall2 Qeq y [s; t; r]).
  { intro y. rewrite Hq. split.
    - intros (x & Dx & A). destruct (L5 x Dx) as (s & t & r & e & z & ->). exists s, t, r, e, z. split; [exact Dx|exact A].
    - intros (s & t & r & e & z & Dx & A). exists [s; t; r; e; z]. split; [exact Dx|exact A]. }
  assert (SH : exists qs, q = RUnion (map RPoly qs)).
  { cbn [rproject] in Eq. destruct (mapM (rproject E [0; 1; 2]%nat) (map RPoly ps)) as [os|] eqn:EM; cbn [bind] in Eq; [|discriminate].
    assert (SM : exists ls, somes os = map RPoly ls).
    { clear - EM. revert os EM. induction ps as [|p ps IH]; intros os EM; cbn [map mapM] in EM.
      - injection EM as <-. exists []. reflexivity.
      - cbn [rproject] in EM. destruct (project E (body p) [0; 1; 2]%nat) as [o|]; cbn [bind] in EM; [|discriminate].
        destruct (mapM (rproject E [0; 1; 2]%nat) (map RPoly ps)) as [os'|]; cbn [bind] in EM; [|destruct o; discriminate].
        destruct (IH os' eq_refl) as (ls & El). destruct o as [u|]; cbn [bind] in EM; injection EM as <-; cbn [somes]; rewrite El; [|eauto].
        eexists (_ :: ls). reflexivity. }
    destruct SM as (ls & El). rewrite El in Eq. destruct ls as [|l1 [|l2 ls]]; cbn [map] in Eq; [discriminate| |injection Eq as <-; now exists (l1 :: l2 :: ls)].
    exfalso. injection Eq as <-. apply NC. intros x y t Hx Hy T0 T1. apply Hq'. cbn [denote]. apply convex_member; auto; [now apply Hq' in Hx|now apply Hq' in Hy]. }
  destruct SH as (qs & ->). assert (FQ : Forall (solid 3) qs).
  { apply Forall_forall. intros p Hp. cbn [leaves] in Sq. rewrite allP_iff in Sq. exact (Sq (RPoly p) (in_map RPoly _ _ Hp)). }
  destruct (simplify_union_of_polys_correct E OK order OO 3 qs ltac:(lia) FQ) as (qs' & Es & FQ' & Hs & _).
  unfold lver_to_lv. rewrite D, Eps. cbn [bind]. rewrite Eq. cbn [bind]. cbn [simplify]. rewrite leaf_polys_map, Es. cbn [bind].
  rewrite derived_e_one. do 2 eexists. split; [reflexivity|]. split; [reflexivity|]. split; [exact FQ'|].
  intro v. rewrite Hs. apply Hq'.
Qed.
End Lv.

(** ** The three regions *)
Definition allowed (s t r e z : Q) : Prop :=
  in_range5 s t r e z /\ gm_recorded 2 s t r e z /\ gm_simple_open s t r e z /\ gm_third_open s t r e z.

Lemma near5 : forall d s t r e z y, near d [s; t; r; e; z] y -> exists s' t' r' e' z', y = [s'; t'; r'; e'; z'] /\
  s - d <= s' /\ s' <= s + d /\ t - d <= t' /\ t' <= t + d /\ r - d <= r' /\ r' <= r + d /\ e - d <= e' /\ e' <= e + d /\ z - d <= z' /\ z' <= z + d.
Proof.
  intros d s t r e z y [L H]. destruct y as [|s' [|t' [|r' [|e' [|z' [|]]]]]]; try discriminate. exists s', t', r', e', z'. split; [reflexivity|].
  pose proof (H 0%nat) as H0. pose proof (H 1%nat) as H1. pose proof (H 2%nat) as H2. pose proof (H 3%nat) as H3. pose proof (H 4%nat) as H4. cbn [nth] in *.
  apply Qabs_Qle_condition in H0, H1, H2, H3, H4. lra.
Qed.

(** Room around the tuples below the bound *)
Lemma allowed_open : forall s r, 7#10 < s -> s < 8#10 -> 0 < r -> r < (18#5) - 4 * s ->
  exists d, 0 < d /\ forall y, near d [s; 6#5; r; 1#100; 1#2] y -> exists s t r e z, y = [s; t; r; e; z] /\ allowed s t r e z.
Proof.
  intros s r A B C D. set (d := qmin r (qmin ((18#5) - 4 * s - r) (1#100)) * (1#10)).
  assert (Hd : 0 < d /\ 10 * d <= r /\ 10 * d <= (18#5) - 4 * s - r /\ 10 * d <= 1#100).
  { unfold d. destruct (FM.qmin_le r (qmin ((18#5) - 4 * s - r) (1#100))) as [M1 M2]. destruct (FM.qmin_le ((18#5) - 4 * s - r) (1#100)) as [M3 M4].
    split; [|lra]. unfold qmin. destruct (Qltb (1#100) ((18#5) - 4 * s - r)); match goal with |- context [if ?b then _ else _] => destruct b end; lra. }
  clearbody d. destruct Hd as (D0 & D1 & D2 & D3). exists d. split; [exact D0|]. intros y N. apply near5 in N as (s' & t' & r' & e' & z' & -> & N).
  decompose [and] N. clear N. exists s', t', r', e', z'. split; [reflexivity|]. unfold allowed. split.
  { unfold in_range5, in_range, TAU_UPPER_LIMIT, LV_DEFAULT_UPPER_BOUND. lra. }
  split; [split; [right; lra|apply gm_second_cases; do 5 right; left; lra]|]. split.
  - intros _. unfold gm_simple_bound. rewrite le_qmax. right. lra.
  - intros _ _. unfold gm_third_bound, max3. rewrite le_qmax. left. lra.
Qed.
Lemma allowed_corner : forall y, near (1#1000) [9#10; 6#5; 19#100; 1#100; 1#2] y -> exists s t r e z, y = [s; t; r; e; z] /\ allowed s t r e z.
Proof.
  intros y N. apply near5 in N as (s' & t' & r' & e' & z' & -> & N).
  decompose [and] N. clear N. exists s', t', r', e', z'. split; [reflexivity|]. unfold allowed. split.
  { unfold in_range5, in_range, TAU_UPPER_LIMIT, LV_DEFAULT_UPPER_BOUND. lra. }
  split; [split; [right; lra|apply gm_second_cases; left; lra]|]. split.
  - intros _. unfold gm_simple_bound. rewrite le_qmax. right. lra.
  - intros _ _. unfold gm_third_bound, max3. rewrite le_qmax. left. lra.
Qed.
Lemma allowed_upper : forall s t r e z, t == 6#5 -> 7#10 <= s -> s <= 8#10 -> allowed s t r e z -> 0 <= r /\ r <= (18#5) - 4 * s.
Proof.
  intros s t r e z T A B (I & (_ & S) & _ & U). split; [unfold in_range5, in_range in I; lra|]. specialize (U ltac:(lra) ltac:(lra)).
  apply gm_second_cases in S. unfold gm_third_bound, max3 in U. rewrite !le_qmax in U. lra.
Qed.
Lemma allowed_gap : forall s t r e z, s == 161#200 -> t == 6#5 -> r == 47#100 -> ~ allowed s t r e z.
Proof.
  intros s t r e z S T R (I & (_ & X) & _ & U). specialize (U ltac:(lra) ltac:(lra)). apply gm_second_cases in X. unfold gm_third_bound, max3 in U. rewrite !le_qmax in U. lra.
Qed.

Section Three.
Context (E : ext) (OK : ext_ok E) (order : nat -> list nat -> list nat) (OO : forall k l, Permutation (order k l) l) (DT : drops_trivial_rows E).
Context (hs : list enode) (h1 h2 h3 : enode) (ref : reference) (n1 n2 n3 : str) (HS : forall h, In h hs <-> h = h1 \/ h = h2 \/ h = h3)
  (R1 : records h1 ref n1 (gm_recorded 2)) (R2 : records h2 ref n2 gm_simple_open) (R3 : records h3 ref n3 gm_third_open)
  (PY : proper_year (r_year ref)).

Lemma no_transforms : forall t k, In t hs -> e_data t <> DLVERTrans k.
Proof.
  destruct R1 as (_ & _ & _ & r1 & D1 & _), R2 as (_ & _ & _ & r2 & D2 & _), R3 as (_ & _ & _ & r3 & D3 & _).
  intros t k I. apply HS in I as [-> | [-> | ->]]; rewrite ?D1, ?D2, ?D3; discriminate.
Qed.
Lemma three_usable : usable_lvers hs.
Proof.
  destruct R1 as (_ & _ & _ & r1 & D1 & A1 & B1 & _), R2 as (_ & _ & _ & r2 & D2 & A2 & B2 & _), R3 as (_ & _ & _ & r3 & D3 & A3 & B3 & _).
  intros t R I D. apply HS in I as [-> | [-> | ->]]; rewrite ?D1, ?D2, ?D3 in D; injection D as <-; auto.
Qed.
Lemma meet_iff : forall dom, (forall s t, denote dom [s; t] <-> 1#2 <= s /\ s <= 1 /\ 0 <= t /\ t <= TAU_UPPER_LIMIT) ->
  forall x, lver_meet hs false dom x <-> exists s t r e z, x = [s; t; r; e; z] /\ allowed s t r e z.
Proof.
  destruct R1 as (_ & _ & _ & r1 & D1 & _ & _ & _ & X1), R2 as (_ & _ & _ & r2 & D2 & _ & _ & _ & X2), R3 as (_ & _ & _ & r3 & D3 & _ & _ & _ & X3).
  intros dom Hd x. split.
  - intros (s & t & r & e & z & -> & Ds & A1 & A2 & A3 & A4 & A5 & A6 & U). exists s, t, r, e, z. split; [reflexivity|].
    assert (G : forall h R, In h hs -> e_data h = DLVER R -> denote R [s; t; r; e; z]) by (intros h R I D; apply (U h R); [left; eauto|auto]).
    pose proof (G h1 r1 ltac:(apply HS; auto) D1) as G1. pose proof (G h2 r2 ltac:(apply HS; auto) D2) as G2. pose proof (G h3 r3 ltac:(apply HS; auto) D3) as G3.
    apply X1 in G1 as (s1 & t1 & u1 & e1 & z1 & Q1 & I1 & G1). injection Q1 as <- <- <- <- <-.
    apply X2 in G2 as (s1 & t1 & u1 & e1 & z1 & Q1 & _ & G2). injection Q1 as <- <- <- <- <-.
    apply X3 in G3 as (s1 & t1 & u1 & e1 & z1 & Q1 & _ & G3). injection Q1 as <- <- <- <- <-.
    exact (conj I1 (conj G1 (conj G2 G3))).
  - intros (s & t & r & e & z & -> & I & G1 & G2 & G3). exists s, t, r, e, z. split; [reflexivity|].
    pose proof I as ((J1 & J2 & J3 & J4 & J5 & J6) & J7 & J8 & J9 & J10).
    split; [apply Hd; auto|]. repeat (split; [assumption|]).
    intros g R [(Ig & _)|[(tt & k & h & R' & It & Dt & _)|(F & _)]] Dg; [|exfalso; exact (no_transforms tt k It Dt)|discriminate].
    apply HS in Ig as [-> | [-> | ->]]; rewrite ?D1, ?D2, ?D3 in Dg; destruct Dg as [Dg|Dg]; try discriminate; injection Dg as <-;
      [apply X1|apply X2|apply X3]; exists s, t, r, e, z; auto.
Qed.

Lemma box_domain : exists box, Model_Polytope.rect E [(1#2, 1); (0, TAU_UPPER_LIMIT)] = Ret box /\ disjoint_form (RPoly (plain box)) /\ leaves (solid 2) (RPoly (plain box)) /\
  forall s t, denote (RPoly (plain box)) [s; t] <-> 1#2 <= s /\ s <= 1 /\ 0 <= t /\ t <= TAU_UPPER_LIMIT.
Proof.
  destruct (rect_ok E OK [(1#2, 1); (0, TAU_UPPER_LIMIT)] ltac:(discriminate)) as (p & Ep & G & N & NE & M). exists p. split; [exact Ep|]. split; [exact Logic.I|].
  assert (M2 : forall s t, member p [s; t] <-> 1#2 <= s /\ s <= 1 /\ 0 <= t /\ t <= TAU_UPPER_LIMIT).
  { intros s t. rewrite M. split.
    - intros [_ H]. pose proof (H 0%nat _ _ eq_refl) as H0. pose proof (H 1%nat _ _ eq_refl) as H1. cbn [nth] in *. tauto.
    - intros (A & B & C & D). split; [reflexivity|]. intros [|[|[|]]] lo hi K; try discriminate; injection K as <- <-; cbn [nth]; auto. }
  split; [|exact M2]. cbn [leaves]. unfold solid. cbn [body plain]. split; [exact G|]. split.
  - exists (1 + TAU_UPPER_LIMIT). intros x i Mx. assert (L : length x = 2%nat) by (apply M in Mx; apply Mx). destruct x as [|s [|t [|]]]; try discriminate.
    apply M2 in Mx. unfold TAU_UPPER_LIMIT in *. apply Qabs_Qle_condition. destruct i as [|[|[|]]]; cbn [nth]; lra.
  - split; [exact N|]. intros _. exists [3#4; 1]. split; [apply M2; unfold TAU_UPPER_LIMIT; lra|]. exists (1#10). split; [lra|].
    intros y [L H]. destruct y as [|s [|t [|]]]; try discriminate. pose proof (H 0%nat) as H0. pose proof (H 1%nat) as H1. cbn [nth] in *.
    apply Qabs_Qle_condition in H0, H1. apply M2. unfold TAU_UPPER_LIMIT. lra.
Qed.

Lemma subst_pieces : forall qs, Forall (solid 3) qs -> exists ps, mapM (rsubstitute [(1%nat, gm_tau)]) (map RPoly qs) = Ret (map RPoly ps) /\
  Forall (fun p => wf_mat (pmat (body p)) /\ ncol (pmat (body p)) = 3%nat /\ bounded (body p)) ps /\
  forall y, (exists p, In p ps /\ member (body p) y) <-> exists q s r, In q qs /\ Forall2 Qeq y [s; r] /\ member (body q) [s; gm_tau; r].
Proof.
  intros qs F. induction F as [|q qs Sq F IH].
  - exists []. split; [reflexivity|]. split; [constructor|]. intro y. split; [intros (p & [] & _)|intros (q & s & r & [] & _)].
  - destruct IH as (ps & Ep & Fp & Hp). pose proof (solid_rows 3 q ltac:(lia) Sq) as NE. destruct Sq as ((W & _) & B & N & _).
    destruct (substitute_ok (body q) [(1%nat, gm_tau)] W NE) as (r & Er & Wr & Nr & Mr).
    { repeat constructor. intros []. }
    { intros k v [K|[]]. injection K as <- <-. rewrite N. lia. }
    rewrite N in Nr. cbn in Nr.
    assert (MQ : forall y, member r y <-> exists s r, Forall2 Qeq y [s; r] /\ member (body q) [s; gm_tau; r]).
    { intro y. rewrite Mr. split.
      - intros (x & Mx & V & A). assert (L : length x = 3%nat) by (destruct Mx as [L _]; rewrite N in L; lia). destruct x as [|s [|t [|u [|]]]]; try discriminate.
        specialize (V 1%nat gm_tau (or_introl eq_refl)). cbn [nth] in V. exists s, u. split; [exact A|]. apply (member_eq _ [s; t; u]); [|exact Mx]. now repeat constructor.
      - intros (s & u & A & Mx). exists [s; gm_tau; u]. split; [exact Mx|]. split; [|exact A]. intros k v [K|[]]. injection K as <- <-. reflexivity. }
    exists (plain r :: ps). split; [cbn [map mapM rsubstitute]; rewrite Er; cbn [bind]; rewrite Ep; reflexivity|]. split.
    + constructor; [|exact Fp]. cbn [body plain]. split; [exact Wr|]. split; [exact Nr|]. destruct B as (K & HK). exists K. intros x i Mx. apply MQ in Mx as (s & u & A & Mx).
      apply peq_Forall2 in A; [|now apply Forall2_len in A]. rewrite (A i). pose proof (HK _ 0%nat Mx) as K0. pose proof (HK _ 2%nat Mx) as K2. pose proof (HK _ 3%nat Mx) as K3. destruct i as [|[|i]]; cbn [nth] in *; auto. destruct i; exact K3.
    + intro y. split.
      * intros (p & [<-|Ip] & M); [cbn [body plain] in M; apply MQ in M as (s & u & A & M); exists q, s, u; auto using in_eq|].
        destruct (proj1 (Hp y) (ex_intro _ p (conj Ip M))) as (q' & s & u & I & A & M'). exists q', s, u. auto using in_cons.
      * intros (q' & s & u & [<-|I] & A & M); [exists (plain r); split; [now left|]; cbn [body plain]; apply MQ; eauto|].
        destruct (proj2 (Hp y)) as (p & Ip & M'); [eauto 10|]. exists p. auto using in_cons.
Qed.

Lemma denote_pieces : forall ps x, denote (RUnion (map RPoly ps)) x <-> exists p, In p ps /\ member (body p) x.
Proof.
  intros ps x. cbn [denote]. rewrite anyP_iff. split.
  - intros (a & Ha & D). apply in_map_iff in Ha as (p & <- & Hp). exists p. auto.
  - intros (p & Hp & D). exists (RPoly p). split; [now apply in_map|exact D].
Qed.

Lemma slice_ok : exists ps, gm_slice E order hs = Ret (RUnion (map RPoly ps)) /\
  Forall (fun p => wf_mat (pmat (body p)) /\ ncol (pmat (body p)) = 3%nat /\ bounded (body p)) ps /\
  (forall p x, In p ps -> member (body p) x -> exists s r, x = [s; r] /\ exists e z, allowed s (6#5) r e z) /\
  (forall s r, 7#10 < s -> s < 8#10 -> 0 < r -> r < (18#5) - 4 * s -> exists p, In p ps /\ member (body p) [s; r]).
Proof.
  destruct box_domain as (box & Eb & DF & S2 & Mb).
  assert (NZ : nonzero_lver_powers hs) by (intros t k I D; exfalso; exact (no_transforms t k I D)).
  assert (Y : Forall (fun h => proper_year (r_year (e_ref h))) hs).
  { apply Forall_forall. intros h I. destruct R1 as (Q1 & _), R2 as (Q2 & _), R3 as (Q3 & _). apply HS in I as [-> | [-> | ->]]; rewrite ?Q1, ?Q2, ?Q3; exact PY. }
  destruct (compute_best_lver_exact E OK order OO hs (RPoly (plain box)) false three_usable ltac:(discriminate) NZ Y DF S2)
    as (h & lvers & cs & Eh & Dh & _ & _ & Fc & C1 & C2 & _).
  assert (M := meet_iff _ Mb).
  assert (AL : forall s t r e z, denote (RDisj (map RPoly cs)) [s; t; r; e; z] -> allowed s t r e z).
  { intros s t r e z D. apply C1, M in D as (s' & t' & r' & e' & z' & Q & A). injection Q as <- <- <- <- <-. exact A. }
  assert (OP : forall s r, 7#10 < s -> s < 8#10 -> 0 < r -> r < (18#5) - 4 * s -> denote (RDisj (map RPoly cs)) [s; 6#5; r; 1#100; 1#2]).
  { intros s r A B C D. apply C2. destruct (allowed_open s r A B C D) as (d & Pd & H). exists d. split; [exact Pd|]. intros y N. apply M. now apply H. }
  assert (CO : denote (RDisj (map RPoly cs)) [9#10; 6#5; 19#100; 1#100; 1#2]).
  { apply C2. exists (1#1000). split; [lra|]. intros y N. apply M. now apply allowed_corner. }
  destruct (lver_to_lv_pieces E OK order OO h cs Dh Fc) as (h' & qs & El & Er & Fq & Hq).
  { intro CV. assert (X := CV [71#100; 6#5; 3#4] [9#10; 6#5; 19#100] (1#2)).
    destruct X as (s & t & r & e & z & D & A); [|  |lra|lra|].
    - exists (71#100), (6#5), (3#4), (1#100), (1#2). split; [apply OP; lra|]. repeat constructor.
    - exists (9#10), (6#5), (19#100), (1#100), (1#2). split; [exact CO|]. repeat constructor.
    - apply AL in D. inversion A as [|? ? ? ? A1 A']; subst. inversion A' as [|? ? ? ? A2 A'']; subst. inversion A'' as [|? ? ? ? A3 _]; subst.
      revert D. apply allowed_gap; [rewrite <- A1|rewrite <- A2|rewrite <- A3]; reflexivity. }
  { eauto. }
  destruct (subst_pieces qs Fq) as (ps & Ep & Fp & Hp). exists ps. split.
  { unfold gm_slice. rewrite Eb. cbn [bind]. rewrite Eh. cbn [bind]. rewrite El. cbn [bind]. rewrite Er. cbn [bind]. cbn [rsubstitute]. rewrite Ep. reflexivity. }
  split; [exact Fp|]. split.
  - intros p x Ip Mx. assert (L : length x = 2%nat). { rewrite Forall_forall in Fp. destruct (Fp p Ip) as (_ & N & _). destruct Mx as [L _]. rewrite N in L. lia. }
    destruct x as [|s [|r [|]]]; try discriminate. exists s, r. split; [reflexivity|].
    destruct (proj1 (Hp [s; r]) (ex_intro _ p (conj Ip Mx))) as (q & s' & r' & Iq & A & Mq).
    assert (D : denote (RUnion (map RPoly qs)) [s; 6#5; r]).
    { apply denote_pieces. exists q. split; [exact Iq|]. apply (member_eq _ [s'; gm_tau; r']); [|exact Mq].
      inversion A as [|? ? ? ? A1 A']; subst. inversion A' as [|? ? ? ? A2 _]; subst. constructor; [now symmetry|]. constructor; [reflexivity|]. constructor; [now symmetry|constructor]. }
    apply Hq in D as (s1 & t1 & r1 & e1 & z1 & D & A'). exists e1, z1. apply AL. revert D. apply F2_3 in A' as (B1 & B2 & B3). apply denote5; try reflexivity; now symmetry.
  - intros s r A B C D. apply Hp. pose proof (OP s r A B C D) as X.
    assert (Y2 : denote (RUnion (map RPoly qs)) [s; 6#5; r]) by (apply Hq; exists s, (6#5), r, (1#100), (1#2); split; [exact X|repeat constructor; reflexivity]).
    apply denote_pieces in Y2 as (q & Iq & Mq). exists q, s, r. split; [exact Iq|]. split; [repeat constructor; reflexivity|exact Mq].
Qed.
End Three.

(** ** The union *)
Lemma filterM_ok : forall (A : Type) (f : A -> res bool) (P : A -> Prop) l, (forall a, In a l -> exists b, f a = Ret b /\ (b = true <-> P a)) ->
  exists kept, filterM f l = Ret kept /\ forall a, In a kept <-> In a l /\ P a.
Proof.
  intros A f P l. induction l as [|a l IH]; intro H; [exists []; split; [reflexivity|]; cbn; tauto|].
  destruct (H a (or_introl eq_refl)) as (b & Eb & Hb). destruct IH as (kept & Ek & Hk); [intros x Hx; apply H; now right|].
  cbn [filterM]. rewrite Eb. cbn [bind]. rewrite Ek. cbn [bind]. eexists. split; [reflexivity|]. intro x. destruct b; cbn [In]; rewrite Hk.
  - split; [intros [<-|]; [split; [now left|now apply Hb]|tauto]|tauto].
  - split; [tauto|]. intros [[<-|I] X]; [|tauto]. apply Hb in X. discriminate.
Qed.
Lemma nonempty_dec : forall p, wf_mat (pmat p) -> (exists x, member p x) \/ ~ exists x, member p x.
Proof. intros p W. pose proof (is_empty_closed_ok fm_ext fm_ext_ok p W) as H. destruct (is_empty_closed fm_ext p); auto. Qed.
Lemma select : forall (A : Type) (P : A -> Prop) l, (forall a, In a l -> P a \/ ~ P a) -> exists l', forall a, In a l' <-> In a l /\ P a.
Proof.
  intros A P l. induction l as [|a l IH]; intro H; [exists []; cbn; tauto|]. destruct IH as (l' & Hl); [intros x Hx; apply H; now right|].
  destruct (H a (or_introl eq_refl)) as [X|X]; [exists (a :: l')|exists l']; intro b; cbn [In]; rewrite Hl.
  - split; [intros [<-|]; tauto|tauto].
  - split; [tauto|]. intros [[<-|I] Y]; [contradiction|tauto].
Qed.
Lemma strict_in : forall m x, strict m x -> mmember m x.
Proof. intros m x [L H]. split; [exact L|]. apply Forall_forall. intros [r b] Hr. destruct (H _ Hr) as [A B]. cbn [fst snd] in *. subst b. unfold Spec_Polytope.holds. cbn [snd fst]. lra. Qed.

Definition range_matrix : mat := mkMat [([-(7#10); 1; 0], false); ([8#10; -(1); 0], false); ([0; 0; 1], false); ([18#5; -(4); -(1)], false)] 3.
Definition range_poly : polytope := mkPoly range_matrix false None.
Lemma range_good : good range_poly.
Proof.
  split; [split; [cbn; lia|repeat constructor]|]. split; [|split; [discriminate|exact Logic.I]].
  assert (Z : forall a b c, ~ a == 0 \/ ~ b == 0 \/ ~ c == 0 -> ~ zero_row [a; b; c]).
  { intros a b c H Z. apply Forall_cons_iff in Z as [A Z]. apply Forall_cons_iff in Z as [B Z]. apply Forall_cons_iff in Z as [C _]. tauto. }
  repeat (constructor; [apply Z; cbn [fst]; lra|]). constructor.
Qed.
Lemma range_member : forall x, member range_poly x <-> exists s r, x = [s; r] /\ 7#10 <= s /\ s <= 8#10 /\ 0 <= r /\ r <= (18#5) - 4 * s.
Proof.
  intro x. split.
  - intros [L F]. destruct x as [|s [|r [|]]]; try discriminate. exists s, r. split; [reflexivity|]. cbn [pmat range_poly range_matrix mrows] in F.
    rewrite !Forall_cons_iff in F. unfold Spec_Polytope.holds, rowval in F. cbn [snd fst dot hd tl] in F. lra.
  - intros (s & r & -> & H). split; [reflexivity|]. cbn [pmat range_poly range_matrix mrows]. rewrite !Forall_cons_iff. unfold Spec_Polytope.holds, rowval. cbn [snd fst dot hd tl].
    repeat split; try lra. constructor.
Qed.
Lemma range_strict : forall x, strict (pmat range_poly) x -> exists s r, x = [s; r] /\ 7#10 < s /\ s < 8#10 /\ 0 < r /\ r < (18#5) - 4 * s.
Proof.
  intros x [L H]. destruct x as [|s [|r [|]]]; try discriminate. exists s, r. split; [reflexivity|].
  pose proof (H _ (or_introl eq_refl)) as [_ H1]. pose proof (H _ (or_intror (or_introl eq_refl))) as [_ H2]. pose proof (H _ (or_intror (or_intror (or_introl eq_refl)))) as [_ H3].
  pose proof (H _ (or_intror (or_intror (or_intror (or_introl eq_refl))))) as [_ H4]. cbn [fst] in H1, H2, H3, H4. rewrite rowval3 in H1, H2, H3, H4. lra.
Qed.
Lemma range_point : strict (pmat range_poly) [3#4; 1#10].
Proof. split; [reflexivity|]. intros rb [<-|[<-|[<-|[<-|[]]]]]; (split; [reflexivity|reflexivity]). Qed.

Section Union.
Context (E : ext) (OK : ext_ok E) (DT : drops_trivial_rows E).

Lemma simplify_ok : forall ps, Forall (fun p => wf_mat (pmat (body p)) /\ ncol (pmat (body p)) = 3%nat /\ bounded (body p)) ps ->
  (forall p x, In p ps -> member (body p) x -> exists s r, x = [s; r] /\ exists e z, allowed s (6#5) r e z) ->
  (forall s r, 7#10 < s -> s < 8#10 -> 0 < r -> r < (18#5) - 4 * s -> exists p, In p ps /\ member (body p) [s; r]) ->
  exists u, (forall x, member u x <-> exists s r, x = [s; r] /\ 7#10 <= s /\ s <= 8#10 /\ 0 <= r /\ r <= (18#5) - 4 * s) /\ good u /\
    gm_simplify E (RUnion (map RPoly ps)) = let! text := polytope_str u gm_names in Ret (u, text).
Proof.
  intros ps F UP OP.
  destruct (Polytope_ok E OK [[-(7#10); 1; 0]; [8#10; -(1); 0]] false false 3) as (dom & Ed & Gd & Nd & _ & Md); [lia|repeat constructor| |].
  { exists [-(7#10); 1; 0]. split; [now left|]. intro Z. apply Forall_cons_iff in Z as [Z _]. lra. }
  assert (MD : forall s r, member dom [s; r] <-> 7#10 <= s /\ s <= 8#10).
  { intros s r. rewrite Md, !Forall_cons_iff. unfold Spec_Polytope.holds, rowval. cbn [snd fst dot hd tl length]. split; [intros (_ & A & B & _); lra|].
    intros [A B]. split; [reflexivity|]. repeat split; try lra. constructor. }
  assert (CUT : exists all, mapM (fun r => let! p := child_polytope r in intersect E p dom) (map RPoly ps) = Ret all /\
    (forall a, In a all -> wf_mat (pmat a) /\ ncol (pmat a) = 3%nat /\ bounded a /\ ((exists x, member a x) -> good a)) /\
    forall x, in_union all x <-> (exists p, In p ps /\ member (body p) x) /\ member dom x).
  { clear UP OP. induction F as [|p ps (W & N & B) F IH].
    - exists []. split; [reflexivity|]. split; [intros a []|]. intro x. split; [intros (a & [] & _)|intros ((p & [] & _) & _)].
    - destruct IH as (all & Ea & Ha & Ua). destruct (intersect_wf E OK DT (body p) dom W Gd ltac:(congruence)) as (a & Ei & Wa & Na & Ma & Ga).
      exists (a :: all). split; [cbn [map mapM child_polytope bind]; rewrite Ei; cbn [bind]; rewrite Ea; reflexivity|]. split.
      + intros c [<-|I]; [|auto]. split; [exact Wa|]. split; [congruence|]. split; [|exact Ga]. destruct B as (K & HK). exists K. intros x i Mx. apply Ma in Mx as [Mx _]. now apply HK.
      + intro x. split.
        * intros (c & [<-|I] & M); [apply Ma in M as [M1 M2]; split; [exists p; auto using in_eq|exact M2]|].
          destruct (proj1 (Ua x) (ex_intro _ c (conj I M))) as ((p' & I' & M') & M2). split; [exists p'; auto using in_cons|exact M2].
        * intros ((p' & [<-|I] & M) & M2); [exists a; split; [now left|apply Ma; auto]|].
          destruct (proj2 (Ua x)) as (c & Ic & Mc); [eauto|]. exists c. auto using in_cons. }
  destruct CUT as (all & Ea & Ha & Ua).
  destruct (filterM_ok _ (fun p => let! e := is_empty E p false in Ret (negb e)) (fun p => exists x, strict (pmat p) x) all) as (kept & Ek & Hk).
  { intros a I. destruct (Ha a I) as (W & _). destruct (is_empty_open_strict E OK a W) as (b & Eb & Hb). unfold is_empty. rewrite Eb. cbn [bind]. eexists. split; [reflexivity|].
    destruct b; cbn [negb]; split; intro X; [discriminate|contradiction|exact Hb|reflexivity]. }
  assert (GK : forall a, In a kept -> good a /\ bounded a /\ ncol (pmat a) = 3%nat).
  { intros a I. apply Hk in I as [I (x & Sx)]. destruct (Ha a I) as (_ & N & B & G). split; [|auto]. apply G. exists x. now apply strict_in. }
  destruct (select _ (fun a => exists x, member a x) all) as (full & Hf). { intros a I. apply nonempty_dec. exact (proj1 (Ha a I)). }
  assert (GF : Forall (fun q => good q /\ ncol (pmat q) = 3%nat) full).
  { apply Forall_forall. intros a I. apply Hf in I as [I X]. destruct (Ha a I) as (_ & N & _ & G). auto. }
  assert (IR : exists z, interior range_poly z). { exists [3#4; 1#10]. destruct range_good as (W & NZ & _). apply (interior_iff _ _ W NZ). exact range_point. }
  assert (CV : forall y, member range_poly y -> exists q, In q full /\ member q y).
  { apply closure_cover; [exists [3#4; 1#10]; exact range_point| |].
    - eapply Forall_impl; [|exact GF]. intros q [_ N]. exact N.
    - intros x Sx. apply range_strict in Sx as (s & r & -> & A & B & C & D). destruct (OP s r A B C D) as (p & Ip & Mp).
      destruct (proj2 (Ua [s; r])) as (a & Ia & Ma); [split; [eauto|apply MD; lra]|]. exists a. split; [apply Hf; eauto|exact Ma]. }
  assert (UK : forall x, in_union kept x <-> member range_poly x).
  { intro x. split.
    - intros (a & I & M). apply Hk in I as [I _]. destruct (proj1 (Ua x) (ex_intro _ a (conj I M))) as ((p & Ip & Mp) & M2).
      destruct (UP p x Ip Mp) as (s & r & -> & e & z & A). apply range_member. exists s, r. split; [reflexivity|]. apply MD in M2 as [B C].
      destruct (allowed_upper s (6#5) r e z ltac:(reflexivity) B C A). auto.
    - intro Mx. destruct (thick_cover 2 range_poly full x range_good eq_refl IR GF CV Mx) as (q & Iq & Mq & z & Iz). exists q. split; [|exact Mq].
      apply Hf in Iq as [Ia X]. apply Hk. split; [exact Ia|]. exists z. destruct (Ha q Ia) as (_ & _ & _ & G). destruct (G X) as (W & NZ & _). now apply (interior_iff _ _ W NZ). }
  destruct (try_union_ok E OK kept 3 ltac:(lia)) as (r & Er & Hr).
  { apply Forall_forall. exact GK. }
  { destruct IR as (z & Iz). assert (Mz : member range_poly z) by (apply Iz). apply UK in Mz as (a & Ia & _). pose proof Ia as Ia'. apply Hk in Ia as [I (x & Sx)].
    exists a, x. split; [exact Ia'|]. destruct (GK a Ia') as ((W & NZ & _) & _). now apply (interior_iff _ _ W NZ). }
  destruct r as [u|].
  - destruct Hr as [Gu Mu]. exists u. split; [|split; [exact Gu|]].
    + intro x. rewrite Mu, UK. apply range_member.
    + unfold gm_simplify, gm_domain. rewrite Ed. cbn [bind child_list]. rewrite Ea. cbn [bind]. rewrite Ek. cbn [bind]. rewrite Er. reflexivity.
  - exfalso. apply Hr.
    + intros q Iq. apply Hk in Iq as [_ (x & Sx)]. exists x. now apply strict_in.
    + intros x y t Hx Hy T0 T1. apply UK. apply convex_member; auto; now apply UK.
Qed.
End Union.
