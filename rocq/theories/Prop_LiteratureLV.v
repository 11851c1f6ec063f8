(** C61: the large value estimates recorded from the literature say what the theorems
    of Huxley, Heath-Brown, Jutila, Bourgain and Guth-Maynard say. *)
From Verif Require Import Base Model_Text Model_Reference Spec_Reference LinAlg Model_Polytope Spec_Polytope Proof_Polytope Proof_PolytopeLP
  Model_Region Spec_Region Proof_Region Prop_Region FM_Ext Model_ExponentPair Spec_ExponentPair Model_Format Proof_Interval
  Model_LargeValues Spec_LargeValues Proof_LargeValues Prop_LargeValues Model_ZetaLargeValues Prop_ZetaLargeValues Spec_AdditiveEnergy Proof_Piecewise Model_LiteratureLV Spec_LiteratureLV.
Require Import Lqa.
Open Scope list_scope.

Ltac qmax_cases := repeat match goal with
  | |- context [qmax ?a ?b] => let H := fresh "Q" in destruct (qmax_spec a b) as (? & ? & [H|H]); rewrite H in *; clear H
  | _ : context [qmax ?a ?b] |- _ => let H := fresh "Q" in destruct (qmax_spec a b) as (? & ? & [H|H]); rewrite H in *; clear H
  end.

(** ** The estimates given by a maximum *)
Lemma literature_max : forall E, ext_ok E -> forall bounds r params bound, bounds <> [] -> Forall (fun b => List.length b = 3%nat) bounds ->
  (forall s t u, u <= bound s t <-> Exists (fun b => u <= bound_at b s t) bounds) ->
  exists h reg rep, literature_bound_LV_max E bounds r params = Ret h /\ l_data h = DLV reg rep /\ l_ref h = r /\ l_deps h = [] /\
    l_name h = author_str r ++ s_of " large value estimate" ++ params /\ forall W, lv_estimate W reg <-> lv_at_most W bound.
Proof.
  intros E OK bounds r params bound N F B.
  destruct (convert_bounds_exact E OK bounds N F) as (ps & rep & Ec & _). unfold literature_bound_LV_max. rewrite Ec. cbn [bind].
  do 3 eexists. do 5 (split; [reflexivity|]). intro W. rewrite (convert_bounds_meaning E OK bounds _ _ W F Ec). unfold lv_at_most.
  split; intros H s t u I L; specialize (H s t u I L).
  - apply B, Exists_exists. destruct H as (b & Hb & Hu). eauto.
  - apply B, Exists_exists in H. destruct H as (b & Hb & Hu). eauto.
Qed.

Ltac bound_rows := intros s t u; unfold max3; rewrite !Exists_cons, Exists_nil; unfold bound_at; cbn [nth]; qmax_cases;
  (split; [intro; try (left; lra); right; try (left; lra); right; left; lra|intuition lra]).

(** LV(s, t) <= max(2 - 2s, 4 + t - 6s), and no more and no less is recorded. *)
Theorem huxley_lv_exact : forall E get, ext_ok E ->
  exists h reg rep, add_huxley_large_values_estimate E get = Ret h /\ l_data h = DLV reg rep /\ l_ref h = get (s_of "Huxley") /\ l_deps h = [] /\
    l_name h = author_str (get (s_of "Huxley")) ++ s_of " large value estimate" /\ forall W, lv_estimate W reg <-> lv_at_most W huxley_bound.
Proof.
  intros E get OK. destruct (literature_max E OK [[2; -(2); 0]; [4; -(6); 1]] (get (s_of "Huxley")) [] huxley_bound) as (h & reg & rep & A & B & C & D & N & M);
    [discriminate|repeat constructor|unfold huxley_bound; bound_rows|]. exists h, reg, rep. rewrite app_nil_r in N. auto 10.
Qed.
Print Assumptions huxley_lv_exact.

(** LV(s, t) <= max(2 - 2s, 10 + t - 13s) *)
Theorem heath_brown_lv_exact : forall E get, ext_ok E ->
  exists h reg rep, add_heath_brown_large_values_estimate E get = Ret h /\ l_data h = DLV reg rep /\ l_ref h = get (s_of "heathbrown_zero_1979") /\ l_deps h = [] /\
    l_name h = author_str (get (s_of "heathbrown_zero_1979")) ++ s_of " large value estimate" /\ forall W, lv_estimate W reg <-> lv_at_most W heath_brown_bound.
Proof.
  intros E get OK. destruct (literature_max E OK [[2; -(2); 0]; [10; -(13); 1]] (get (s_of "heathbrown_zero_1979")) [] heath_brown_bound) as (h & reg & rep & A & B & C & D & N & M);
    [discriminate|repeat constructor|unfold heath_brown_bound; bound_rows|]. exists h, reg, rep. rewrite app_nil_r in N. auto 10.
Qed.
Print Assumptions heath_brown_lv_exact.

(** LV(s, t) <= max(2 - 2s, 18/5 - 4s, t + 12/5 - 4s) *)
Theorem guth_maynard_lv_exact : forall E get, ext_ok E ->
  exists h reg rep, add_guth_maynard_large_values_estimate E get = Ret h /\ l_data h = DLV reg rep /\ l_ref h = get (s_of "guth-maynard") /\ l_deps h = [] /\
    l_name h = author_str (get (s_of "guth-maynard")) ++ s_of " large value estimate" /\ forall W, lv_estimate W reg <-> lv_at_most W guth_maynard_bound.
Proof.
  intros E get OK. destruct (literature_max E OK [[2; -(2); 0]; [18#5; -(4); 0]; [12#5; -(4); 1]] (get (s_of "guth-maynard")) [] guth_maynard_bound) as (h & reg & rep & A & B & C & D & N & M);
    [discriminate|repeat constructor|unfold guth_maynard_bound; bound_rows|]. exists h, reg, rep. rewrite app_nil_r in N. auto 10.
Qed.
Print Assumptions guth_maynard_lv_exact.

(** One estimate for every k from 1 to K - 1, in that order, each named after its k:
    LV(s, t) <= max(2 - 2s, (4 - 2/k) - (6 - 2/k)s + t, 6k - 8ks + t). *)
Theorem jutila_lv_exact : forall E get K, ext_ok E ->
  exists hs, add_jutila_large_values_estimate E get K = Ret hs /\ List.length hs = Z.to_nat (K - 1) /\
    forall k, (1 <= k < K)%Z -> exists h reg rep, nth_error hs (Z.to_nat (k - 1)) = Some h /\ l_data h = DLV reg rep /\
      l_ref h = get (s_of "jutila_zero_density_1977") /\ l_deps h = [] /\
      l_name h = author_str (get (s_of "jutila_zero_density_1977")) ++ s_of " large value estimate" ++ s_of " with k = " ++ z_str k /\
      forall W, lv_estimate W reg <-> lv_at_most W (jutila_bound k).
Proof.
  intros E get K OK. unfold add_jutila_large_values_estimate.
  assert (X : forall k, exists h reg rep, jutila_estimate E get k = Ret h /\ l_data h = DLV reg rep /\
      l_ref h = get (s_of "jutila_zero_density_1977") /\ l_deps h = [] /\
      l_name h = author_str (get (s_of "jutila_zero_density_1977")) ++ s_of " large value estimate" ++ s_of " with k = " ++ z_str k /\
      forall W, lv_estimate W reg <-> lv_at_most W (jutila_bound k)).
  { intro k. apply literature_max; [exact OK|discriminate|repeat constructor|]. unfold jutila_bound, jutila_bounds. cbv zeta.
    intros s t u. unfold max3. set (a := 2 / inject_Z k). set (b := inject_Z k). unfold bound_at.
    rewrite !Exists_cons, Exists_nil; cbn [nth].
    destruct (qmax_spec (t + (4 - a) - (6 - a) * s) (t + (6 - 8 * s) * b)) as (? & ? & [Q1|Q1]);
    destruct (qmax_spec (2 - 2 * s) (qmax (t + (4 - a) - (6 - a) * s) (t + (6 - 8 * s) * b))) as (? & ? & [Q2|Q2]); rewrite ?Q2, ?Q1 in *;
    (split; [intro; try (left; lra); right; try (left; nra); right; left; nra | intros [J|[J|[J|[]]]]; nra]). }
  destruct (mapM_ret _ _ (jutila_estimate E get) (range1 K)) as (hs & Eh).
  { intros k _. destruct (X k) as (h & _ & _ & A & _). eauto. }
  exists hs. split; [exact Eh|]. apply mapM_Forall2 in Eh. assert (L : List.length (range1 K) = List.length hs) by (clear - Eh; induction Eh; cbn [List.length]; congruence). unfold range1 in L. rewrite map_length, seq_length in L.
  split; [lia|]. intros k Hk. destruct (X k) as (h & reg & rep & A & B). exists h, reg, rep. split; [|exact B].
  assert (Nk : nth_error (range1 K) (Z.to_nat (k - 1)) = Some k).
  { unfold range1. rewrite nth_error_map. rewrite (nth_error_nth' _ 0%nat) by (rewrite seq_length; lia). rewrite seq_nth by lia. cbn [option_map]. f_equal. lia. }
  revert Nk A. generalize (Z.to_nat (k - 1)) as i. clear - Eh. induction Eh as [|a b l l' H F IH]; intros [|i]; cbn [nth_error]; intros Hi A; try discriminate.
  - injection Hi as ->. congruence.
  - now apply IH.
Qed.
Print Assumptions jutila_lv_exact.

(** ** Bourgain's estimate *)

(** With these choices of alpha_1 and alpha_2 every row of the table follows. *)
Definition follows (row : table_row) (a1 a2 : Q -> Q -> Q) : Prop := forall s t r, tr_set row s t -> 1#2 < s -> s < 1 -> 1 <= t -> 0 <= r -> r <= t -> r <= qmax (2 - 2 * s) (4 + t - 6 * s) ->
  0 <= a1 s t /\ 0 <= a2 s t /\ (bourgain_first (a1 s t) (a2 s t) s t r -> r <= tr_bound row s t) /\
  (bourgain_second (a1 s t) (a2 s t) s t r -> r <= tr_bound row s t).
Ltac row := unfold follows; cbn [tr_set tr_a1 tr_a2 tr_bound]; unfold bourgain_first, bourgain_second, max3; intros s t r S S1 S2 T R TR HX;
    split; [|split; [|split]]; [try lra|try lra|intros F; qmax_cases; lra|intros (z & Z & F); qmax_cases; lra].
Ltac positive := match goal with |- 0 <= qmax ?a ?b => destruct (qmax_spec a b) as (? & ? & _); lra end.
Lemma row0 : follows (row_at 0) (tr_a1 (row_at 0)) (tr_a2 (row_at 0)).
Proof. unfold row_at. cbn [nth bourgain_table]. row. Qed.
Lemma row1 : follows (row_at 1) (tr_a1 (row_at 1)) (tr_a2 (row_at 1)).
Proof. unfold row_at. cbn [nth bourgain_table]. row. Qed.
Lemma row2 : follows (row_at 2) (fun s t => qmax 0 ((9#2) - (11#2) * s)) (tr_a2 (row_at 2)).
Proof. unfold row_at. cbn [nth bourgain_table]. row. positive. Qed.
Lemma row3 : follows (row_at 3) (tr_a1 (row_at 3)) (tr_a2 (row_at 3)).
Proof. unfold row_at. cbn [nth bourgain_table]. row. Qed.
Lemma row4 : follows (row_at 4) (tr_a1 (row_at 4)) (fun s t => qmax 0 (-(4) + 4 * s + (2#3) * t)).
Proof. unfold row_at. cbn [nth bourgain_table]. row. positive. Qed.
Lemma row5 : follows (row_at 5) (tr_a1 (row_at 5)) (tr_a2 (row_at 5)).
Proof. unfold row_at. cbn [nth bourgain_table]. row. Qed.
Lemma row6 : follows (row_at 6) (tr_a1 (row_at 6)) (tr_a2 (row_at 6)).
Proof. unfold row_at. cbn [nth bourgain_table]. row. Qed.

Lemma row_follows : forall i, (i < 7)%nat -> exists a1 a2, follows (row_at i) a1 a2.
Proof.
  intros i Hi. do 7 (destruct i as [|i]; [do 2 eexists; (exact row0 || exact row1 || exact row2 || exact row3 || exact row4 || exact row5 || exact row6)|]). lia.
Qed.

(** All seven bounds of the table follow from Bourgain's theorem, together with the
    trivial bound and Huxley's. *)
Theorem bourgain_table_follows : forall W, bourgain_lv_facts W -> forall row, In row bourgain_table ->
  forall s t r, in_range s t r -> 1#2 < s -> s < 1 -> 1 <= t -> tr_set row s t -> lv W s t r -> r <= tr_bound row s t.
Proof.
  intros W [BT TR HU] row In_row s t r R S1 S2 T S L. apply (In_nth _ _ (mkTR (fun _ _ => 0) (fun _ _ => 0) (fun _ _ => 0) (fun _ _ => True))) in In_row as (i & Hi & <-).
  fold (row_at i) in *. destruct (row_follows i Hi) as (a1 & a2 & F). destruct R as (R1 & R2 & R3 & R4 & R5 & R6).
  assert (Hr : r <= t) by (apply (TR s t r); [repeat split; assumption|exact L]). assert (Hh : r <= qmax (2 - 2 * s) (4 + t - 6 * s)) by (apply (HU s t r); [repeat split; assumption|exact L]).
  destruct (F s t r S S1 S2 T R5 Hr Hh) as (P1 & P2 & F1 & F2).
  destruct (BT (a1 s t) (a2 s t) s t r P1 P2 S1 S2 ltac:(lra) R5 L); auto.
Qed.
Print Assumptions bourgain_table_follows.

(** The values of alpha_1 and alpha_2 that the table prints do not do it: in the third
    row alpha_1 can be negative, and in the fifth the theorem then allows more. *)
Theorem bourgain_table_choice_refuted :
  (exists s t, 1#2 < s /\ s < 1 /\ 1 <= t /\ tr_set (row_at 2) s t /\ tr_a1 (row_at 2) s t < 0) /\
  (exists s t r, 1#2 < s /\ s < 1 /\ 1 <= t /\ tr_set (row_at 4) s t /\ 0 <= tr_a1 (row_at 4) s t /\ 0 <= tr_a2 (row_at 4) s t /\
     r <= t /\ r <= huxley_bound s t /\ bourgain_second (tr_a1 (row_at 4) s t) (tr_a2 (row_at 4) s t) s t r /\ tr_bound (row_at 4) s t < r).
Proof.
  split.
  - exists (9#10), (9#5). unfold row_at. cbn [nth bourgain_table tr_set tr_a1]. repeat split; lra.
  - exists (61#80), (3#2), (87#100). unfold row_at. cbn [nth bourgain_table tr_set tr_a1 tr_a2 tr_bound]. assert (B : bourgain_second ((fun s t => 2 - 2 * s - (1 # 6) * t) (61#80) (3#2)) ((fun s t => 6 - 10 * s + (4 # 3) * t) (61#80) (3#2)) (61#80) (3#2) (87#100)).
    { exists (87#100). split; vm_compute; discriminate. }
    assert (H : 87#100 <= huxley_bound (61#80) (3#2)) by (vm_compute; discriminate).
    repeat (split; [lra|]). split; [exact B|]. lra.
Qed.
Print Assumptions bourgain_table_choice_refuted.

(** A polytope in three variables given by rows, none of them zero. *)
Lemma polytope3 : forall E, ext_ok E -> forall rows, rows <> [] -> Forall (fun r => List.length r = 4%nat) rows -> Forall (fun r => ~ zero_row r) rows ->
  exists p, Polytope E rows false false = Ret p /\ good p /\ ncol (pmat p) = 4%nat /\
    (forall s t u, member p [s; t; u] <-> Forall (fun r => 0 <= rowval r [s; t; u]) rows) /\
    (forall x, interior p x -> exists s t u, x = [s; t; u] /\ Forall (fun r => 0 < rowval r [s; t; u]) rows).
Proof.
  intros E OK rows N F Z.
  destruct (Polytope_ok E OK rows false false 4) as (p & Ep & G & Np & _ & M); [lia|exact F|destruct rows as [|r rs]; [congruence|exists r; split; [now left|now inversion Z]]|].
  exists p. split; [exact Ep|]. split; [exact G|]. split; [exact Np|]. split.
  { intros s t u. rewrite M. cbn [List.length]. split; [intros [_ H]|intro H; split; [reflexivity|]]; exact H. }
  intros x I. assert (J : minterior (mkMat (map (fun r => (r, false)) rows) 4) x).
  { assert (MM : forall y, member p y -> mmember (mkMat (map (fun r => (r, false)) rows) 4) y).
    { intros y My. apply M in My as [Ly Hy]. split; [exact Ly|]. cbn [mrows]. apply Forall_map. exact Hy. }
    destruct I as [I1 (e & He & I2)]. split; [now apply MM|]. exists e. split; [exact He|]. intros y Hy. apply MM. apply I2, Hy. }
  apply interior_strict in J.
  - destruct J as [Lx J]. cbn [ncol mrows] in *. destruct x as [|s [|t [|u [|]]]]; try discriminate Lx. exists s, t, u. split; [reflexivity|].
    apply Forall_forall. intros r Hr. apply (J (r, false)). apply in_map_iff. eauto.
  - split; [cbn; lia|]. cbn [mrows]. apply Forall_map. exact F.
  - unfold no_zero_rows. cbn [mrows]. apply Forall_map. exact Z.
Qed.

(** The eight pieces *)
Definition bourgain_pieces : list (list (list Q)) := rect_rows 3 0 [(1#2, 1); (0, 1); (0, LV_DEFAULT_UPPER_BOUND)] :: bourgain_polys.

Ltac nonzero := let Z := fresh in intro Z; unfold zero_row in Z; rewrite !Forall_cons_iff in Z; decompose [and] Z; lra.

Lemma piece_rows : Forall (fun rows => rows <> [] /\ Forall (fun r => List.length r = 4%nat) rows /\ Forall (fun r => ~ zero_row r) rows) bourgain_pieces.
Proof.
  unfold bourgain_pieces, bourgain_polys. cbn [rect_rows]. unfold rect_row, LV_DEFAULT_UPPER_BOUND, TAU_UPPER_LIMIT. cbn [repeat app Nat.sub fst snd].
  repeat (apply Forall_cons; [split; [discriminate|split; [repeat constructor|repeat (apply Forall_cons; [nonzero|]); apply Forall_nil]]|]). apply Forall_nil.
Qed.

Lemma bourgain_pieces_ok : forall E get, ext_ok E -> exists ps,
  add_bourgain_large_values_estimate E get = Ret (LNode (author_str (get (s_of "bourgain_large_2000")) ++ s_of " optimized large value estimate")
    (DLV (RDisj (map (fun p => RPoly (plain p)) ps)) None) (get (s_of "bourgain_large_2000")) []) /\
  Forall2 (fun rows p => good p /\ ncol (pmat p) = 4%nat /\
    (forall s t u, member p [s; t; u] <-> Forall (fun r => 0 <= rowval r [s; t; u]) rows) /\
    (forall x, interior p x -> exists s t u, x = [s; t; u] /\ Forall (fun r => 0 < rowval r [s; t; u]) rows)) bourgain_pieces ps.
Proof.
  intros E get OK. assert (X : exists ps, mapM (fun rows => Polytope E rows false false) bourgain_pieces = Ret ps /\
    Forall2 (fun rows p => good p /\ ncol (pmat p) = 4%nat /\
    (forall s t u, member p [s; t; u] <-> Forall (fun r => 0 <= rowval r [s; t; u]) rows) /\
    (forall x, interior p x -> exists s t u, x = [s; t; u] /\ Forall (fun r => 0 < rowval r [s; t; u]) rows)) bourgain_pieces ps).
  { generalize piece_rows. generalize bourgain_pieces as l. induction l as [|rows l IH]; intro F; [exists []; split; [reflexivity|constructor]|].
    inversion F as [|? ? (N & L & Z) F']; subst. destruct (IH F') as (ps & Em & F2). destruct (polytope3 E OK rows N L Z) as (p & Ep & G).
    exists (p :: ps). split; [|now constructor]. cbn [mapM]. rewrite Ep. cbn [bind]. rewrite Em. reflexivity. }
  destruct X as (ps & Em & F2). exists ps. split; [|exact F2]. unfold bourgain_pieces in Em. cbn [mapM] in Em.
  unfold add_bourgain_large_values_estimate, rect. cbn [List.length]. destruct (Polytope E (rect_rows 3 0 [(1#2, 1); (0, 1); (0, LV_DEFAULT_UPPER_BOUND)]) false false) as [p0|]; [|discriminate Em].
  cbn [bind] in *. destruct (mapM (fun rows => Polytope E rows false false) bourgain_polys) as [qs|]; [|discriminate Em]. cbn [bind] in *. injection Em as <-. reflexivity.
Qed.

Lemma pieces_denote : forall (P : list (list Q) -> polytope -> Prop) l ps s t u, Forall2 P l ps ->
  (forall rows p, P rows p -> (member p [s; t; u] <-> Forall (fun r => 0 <= rowval r [s; t; u]) rows)) ->
  (denote (RDisj (map (fun p => RPoly (plain p)) ps)) [s; t; u] <-> Exists (fun rows => Forall (fun r => 0 <= rowval r [s; t; u]) rows) l).
Proof.
  intros P l ps s t u F M. cbn [denote]. induction F as [|rows p l ps H F IH].
  - cbn [map anyP]. split; intro X; [destruct X|inversion X].
  - cbn [map anyP]. rewrite Exists_cons. rewrite <- IH. rewrite <- (M rows p H). cbn [denote]. reflexivity.
Qed.

Ltac rows_in H := repeat (rewrite Forall_cons_iff in H); unfold rowval in H; cbn [hd tl dot] in H.
(** What the region is, for points in the range: all of them with t <= 1, and otherwise
    those over the sets of the table that lie under its bounds - except that over the
    fifth set there is no bound. *)
Theorem bourgain_region_exact : forall E get, ext_ok E -> exists h reg,
  add_bourgain_large_values_estimate E get = Ret h /\ l_data h = DLV reg None /\ l_ref h = get (s_of "bourgain_large_2000") /\ l_deps h = [] /\
  l_name h = author_str (get (s_of "bourgain_large_2000")) ++ s_of " optimized large value estimate" /\
  forall s t u, in_range s t u -> (denote reg [s; t; u] <->
    t <= 1 \/ exists i row, nth_error bourgain_table i = Some row /\ tr_set row s t /\ (i = 4%nat \/ u <= tr_bound row s t)).
Proof.
  intros E get OK. destruct (bourgain_pieces_ok E get OK) as (ps & Eb & F2). do 2 eexists. split; [exact Eb|]. do 4 (split; [reflexivity|]).
  intros s t u (R1 & R2 & R3 & R4 & R5 & R6). rewrite (pieces_denote _ _ _ s t u F2) by (intros rows p (_ & _ & M & _); apply M). clear F2 Eb.
  unfold bourgain_pieces, bourgain_polys. cbn [rect_rows]. unfold rect_row, LV_DEFAULT_UPPER_BOUND, TAU_UPPER_LIMIT in *. cbn [repeat app Nat.sub fst snd].
  rewrite !Exists_cons, Exists_nil, !Forall_cons_iff, Forall_nil_iff. unfold rowval. cbn [hd tl dot]. split.
  - intros [H|[H|[H|[H|[H|[H|[H|[H|[]]]]]]]]].
    + left. lra.
    + right. exists 0%nat. eexists. split; [reflexivity|]. cbn [tr_set tr_bound]. split; [|right]; lra.
    + right. exists 1%nat. eexists. split; [reflexivity|]. cbn [tr_set tr_bound]. split; [|right]; lra.
    + right. exists 2%nat. eexists. split; [reflexivity|]. cbn [tr_set tr_bound]. split; [|right]; lra.
    + right. exists 3%nat. eexists. split; [reflexivity|]. cbn [tr_set tr_bound]. split; [|right]; lra.
    + right. exists 4%nat. eexists. split; [reflexivity|]. cbn [tr_set tr_bound]. split; [lra|now left].
    + right. exists 5%nat. eexists. split; [reflexivity|]. cbn [tr_set tr_bound]. split; [|right]; lra.
    + right. exists 6%nat. eexists. split; [reflexivity|]. cbn [tr_set tr_bound]. split; [|right]; lra.
  - intros [H|(i & row & Hi & S & B)]; [left; lra|]. right.
    destruct i as [|i]; [injection Hi as <-; cbn [tr_set tr_bound] in *; left; destruct B as [B|B]; [discriminate B|lra]|].
    destruct i as [|i]; [injection Hi as <-; cbn [tr_set tr_bound] in *; right; left; destruct B as [B|B]; [discriminate B|lra]|].
    destruct i as [|i]; [injection Hi as <-; cbn [tr_set tr_bound] in *; do 2 right; left; destruct B as [B|B]; [discriminate B|lra]|].
    destruct i as [|i]; [injection Hi as <-; cbn [tr_set tr_bound] in *; do 3 right; left; destruct B as [B|B]; [discriminate B|lra]|].
    destruct i as [|i]; [injection Hi as <-; cbn [tr_set tr_bound] in *; do 4 right; left; lra|].
    destruct i as [|i]; [injection Hi as <-; cbn [tr_set tr_bound] in *; do 5 right; left; destruct B as [B|B]; [discriminate B|lra]|].
    destruct i as [|i]; [injection Hi as <-; cbn [tr_set tr_bound] in *; do 6 right; left; destruct B as [B|B]; [discriminate B|lra]|].
    destruct i; discriminate Hi.
Qed.
Print Assumptions bourgain_region_exact.

(** The sets of the table cover everything. *)
Lemma table_covers : forall s t, 1#2 <= s -> s <= 1 -> 1 <= t -> exists i row, nth_error bourgain_table i = Some row /\ tr_set row s t.
Proof.
  intros s t S1 S2 T.
  assert (X : (0 <= -(1) + t /\ 0 <= 10 - 14 * s + t /\ 0 <= 4 + 4 * s - 5 * t /\ 0 <= -(11) + 16 * s - t) \/
   (0 <= 8 - 8 * s - t /\ 0 <= -(16) + 20 * s + (1#3) * t /\ 0 <= -(6) + 10 * s - (7#6) * t /\ 0 <= -(4) - 4 * s + 5 * t) \/
   (0 <= -(8) + 8 * s + t /\ 0 <= 2 - 6 * s + 2 * t /\ 0 <= -(10) + 14 * s - (2#3) * t /\ 0 <= 6 - 2 * s - 2 * t) \/
   (0 <= -(6) + 2 * s + 2 * t /\ 0 <= -(12) + 12 * s + t /\ 0 <= 1 - s) \/
   (0 <= 15 - 21 * s + t /\ 0 <= 12 - 12 * s - t /\ 0 <= -(3#2) + t /\ 0 <= 6 - 10 * s + (7#6) * t) \/
   (0 <= 1 - s /\ 0 <= -(10) + 14 * s - t /\ 0 <= -(1) + t /\ 0 <= -(2) + 6 * s - 2 * t) \/
   (0 <= (3#2) - t /\ 0 <= -(1#2) + s /\ 0 <= -(1) + t /\ 0 <= 11 - 16 * s + t /\ 0 <= 16 - 20 * s - (1#3) * t)).
  {
    destruct (Qlt_le_dec 0 (-(10) + 14 * s - t)); destruct (Qlt_le_dec 0 (-(2) + 6 * s - 2 * t)); try (exfalso; lra); try (do 5 right; left; lra);
    destruct (Qlt_le_dec 0 (6 - 2 * s - 2 * t)); try (exfalso; lra);
    destruct (Qlt_le_dec 0 (12 - 12 * s - t)); try (exfalso; lra); try (do 3 right; left; lra);
    destruct (Qlt_le_dec 0 (-(6) + 10 * s - (7#6) * t)); try (exfalso; lra);
    destruct (Qlt_le_dec 0 (-(3#2) + t)); try (exfalso; lra);
    destruct (Qlt_le_dec 0 (15 - 21 * s + t)); try (exfalso; lra); try (do 4 right; left; lra);
    destruct (Qlt_le_dec 0 (8 - 8 * s - t)); try (exfalso; lra); try (do 2 right; left; lra);
    destruct (Qlt_le_dec 0 (-(16) + 20 * s + (1#3) * t)); try (exfalso; lra);
    destruct (Qlt_le_dec 0 (4 + 4 * s - 5 * t)); try (exfalso; lra); try (right; left; lra);
    destruct (Qlt_le_dec 0 (-(11) + 16 * s - t)); try (exfalso; lra); try (left; lra); try (do 6 right; lra).
  }
  destruct X as [X|[X|[X|[X|[X|[X|X]]]]]]; [exists 0%nat|exists 1%nat|exists 2%nat|exists 3%nat|exists 4%nat|exists 5%nat|exists 6%nat]; eexists; (split; [reflexivity|exact X]).
Qed.

(** If Bourgain's theorem holds, and with it the trivial bound and Huxley's, the
    recorded estimate holds, on the whole range. *)
Theorem bourgain_lv_sound : forall E get h reg W, ext_ok E -> bourgain_lv_facts W ->
  add_bourgain_large_values_estimate E get = Ret h -> l_data h = DLV reg None -> lv_estimate W reg.
Proof.
  intros E get h reg W OK B Eh Ed. destruct (bourgain_region_exact E get OK) as (h' & reg' & Eh' & Ed' & _ & _ & _ & X).
  assert (reg' = reg) as -> by congruence. intros s t u R L. apply X; [exact R|]. destruct (Qlt_le_dec t 1) as [T|T]; [left; lra|]. right.
  pose proof R as (R1 & R2 & R3 & R4 & R5 & R6). destruct (table_covers s t R1 R2 T) as (i & row & Hi & S). exists i, row. split; [exact Hi|]. split; [exact S|].
  destruct (Qlt_le_dec (1#2) s) as [S1|S1]; [destruct (Qlt_le_dec s 1) as [S2|S2]|].
  - right. exact (bourgain_table_follows W B row (nth_error_In _ _ Hi) s t u R S1 S2 T S L).
  - pose proof (bl_huxley W B s t u R L) as H. unfold huxley_bound in H. right.
    do 7 (destruct i as [|i]; [injection Hi as <-; cbn [tr_set tr_bound] in *; qmax_cases; lra|]). destruct i; discriminate Hi.
  - pose proof (bl_trivial W B s t u R L) as H.
    do 7 (destruct i as [|i]; [injection Hi as <-; cbn [tr_set tr_bound] in *; first [left; reflexivity|right; lra]|]). destruct i; discriminate Hi.
Qed.
Print Assumptions bourgain_lv_sound.

(** The pieces of the region overlap at most in their boundaries, as the label
    "disjoint union" demands. *)
Theorem bourgain_pieces_disjoint : forall E get, ext_ok E -> exists h ps,
  add_bourgain_large_values_estimate E get = Ret h /\ l_data h = DLV (RDisj (map (fun p => RPoly (plain p)) ps)) None /\ List.length ps = 8%nat /\
  Forall (fun p => good p /\ ncol (pmat p) = 4%nat) ps /\ ForallOrdPairs (fun p q => forall x, ~ (interior p x /\ interior q x)) ps.
Proof.
  intros E get OK. destruct (bourgain_pieces_ok E get OK) as (ps & Eb & F2). do 2 eexists. split; [exact Eb|]. split; [reflexivity|].
  assert (L : List.length bourgain_pieces = List.length ps) by (clear - F2; induction F2; cbn [List.length]; congruence). split; [rewrite <- L; reflexivity|].
  split. { clear - F2. induction F2 as [|rows p l ps (G & N & _) F IH]; constructor; auto. }
  assert (D : ForallOrdPairs (fun a b => forall s t u, Forall (fun r => 0 < rowval r [s; t; u]) a -> Forall (fun r => 0 < rowval r [s; t; u]) b -> False) bourgain_pieces).
  { unfold bourgain_pieces, bourgain_polys. cbn [rect_rows]. unfold rect_row, LV_DEFAULT_UPPER_BOUND, TAU_UPPER_LIMIT. cbn [repeat app Nat.sub fst snd].
    repeat (apply FOP_cons; [repeat (apply Forall_cons; [intros s t u A B; rows_in A; rows_in B; lra|]); apply Forall_nil|]). apply FOP_nil. }
  clear - F2 D. induction F2 as [|rows p l ps (G & N & M & I) F IH]; [constructor|]. inversion D as [|? ? D1 D2]; subst. constructor; [|auto].
  clear - I D1 F. induction F as [|rows' q l ps (G' & N' & M' & I') F IH]; [constructor|]. inversion D1 as [|? ? D3 D4]; subst. constructor; [|auto].
  intros x [Ip Iq]. destruct (I x Ip) as (s & t & u & -> & A). destruct (I' _ Iq) as (s' & t' & u' & Eq & B). injection Eq as <- <- <-. exact (D3 s t u A B).
Qed.
Print Assumptions bourgain_pieces_disjoint.

(** Over the fifth set of the table, where the comment beside the polytope says
    "rho <= 8 - 12 sigma + 4/3 tau", nothing is recorded: the row of the polytope lacks
    the coefficient of rho, so the estimate holds even where LV is as large as can be
    written down - although the bound of the table follows from Bourgain's theorem. *)
Theorem bourgain_unbounded_refuted : forall E get h reg, ext_ok E -> add_bourgain_large_values_estimate E get = Ret h -> l_data h = DLV reg None ->
  (forall W, (forall s t r, in_range s t r -> 1 < t -> ~ tr_set (row_at 4) s t -> ~ lv W s t r) -> lv_estimate W reg) /\
  (exists W s t r, lv_estimate W reg /\ in_range s t r /\ lv W s t r /\ tr_set (row_at 4) s t /\ tr_bound (row_at 4) s t < r /\ r == LV_DEFAULT_UPPER_BOUND).
Proof.
  intros E get h reg OK Eh Ed. destruct (bourgain_region_exact E get OK) as (h' & reg' & Eh' & Ed' & _ & _ & _ & X).
  assert (reg' = reg) as -> by congruence.
  assert (G : forall W, (forall s t r, in_range s t r -> 1 < t -> ~ tr_set (row_at 4) s t -> ~ lv W s t r) -> lv_estimate W reg).
  { intros W H s t u R L. apply X; [exact R|]. destruct (Qlt_le_dec 1 t) as [T|T]; [right|left; lra].
    assert (D : tr_set (row_at 4) s t \/ ~ tr_set (row_at 4) s t).
    { unfold row_at. cbn [nth bourgain_table tr_set]. destruct (Qlt_le_dec (15 - 21 * s + t) 0); [right; lra|]. destruct (Qlt_le_dec (12 - 12 * s - t) 0); [right; lra|].
      destruct (Qlt_le_dec (-(3#2) + t) 0); [right; lra|]. destruct (Qlt_le_dec (6 - 10 * s + (7#6) * t) 0); [right; lra|]. left. lra. }
    destruct D as [D|D]; [|exfalso; exact (H s t u R T D L)]. exists 4%nat. eexists. split; [reflexivity|]. split; [exact D|now left]. }
  split; [exact G|]. exists (one_world (Spec_ExponentPair.mkZ (fun _ _ => True) (fun _ _ => True)) (3#4) 2), (3#4), 2, LV_DEFAULT_UPPER_BOUND.
  split. { apply G. intros s t r R T N [S1 S2]. apply N. unfold row_at. cbn [nth bourgain_table tr_set]. rewrite S1, S2. lra. }
  split. { unfold in_range, TAU_UPPER_LIMIT, LV_DEFAULT_UPPER_BOUND. lra. }
  split; [split; reflexivity|]. unfold row_at. cbn [nth bourgain_table tr_set tr_bound]. unfold LV_DEFAULT_UPPER_BOUND. repeat split; lra.
Qed.
Print Assumptions bourgain_unbounded_refuted.

(** Elsewhere the estimate says no less than the table. *)
Theorem bourgain_lv_meaning : forall E get h reg W, ext_ok E -> add_bourgain_large_values_estimate E get = Ret h -> l_data h = DLV reg None -> lv_estimate W reg ->
  forall s t r, in_range s t r -> 1 < t -> ~ tr_set (row_at 4) s t -> lv W s t r -> exists row, In row bourgain_table /\ tr_set row s t /\ r <= tr_bound row s t.
Proof.
  intros E get h reg W OK Eh Ed LE s t r R T N L. destruct (bourgain_region_exact E get OK) as (h' & reg' & Eh' & Ed' & _ & _ & _ & X).
  assert (reg' = reg) as -> by congruence. specialize (LE s t r R L). apply X in LE; [|exact R]. destruct LE as [LE|(i & row & Hi & S & [->|B])]; [lra| |].
  - injection Hi as <-. now destruct N.
  - exists row. split; [exact (nth_error_In _ _ Hi)|auto].
Qed.
Print Assumptions bourgain_lv_meaning.

(** ** The twelfth moment: LV_zeta(s, t) <= 2 t - 12 (s - 1/2) *)
Theorem twelfth_moment_exact : forall E get, ext_ok E ->
  exists h reg rep, twelfth_moment_estimate E get = Ret h /\ l_data h = DZLV reg rep /\ l_ref h = get (s_of "heathbrown_twelfth_1978") /\ l_deps h = [] /\
    forall W, zlv_estimate W reg <-> forall s t r, in_range s t r -> 2 <= t -> zlv W s t r -> r <= twelfth_bound s t.
Proof.
  intros E get OK. destruct (literature_bound_ZLV_exact E OK [[6; -(12); 2]] (get (s_of "heathbrown_twelfth_1978")) []) as (h & reg & rep & A & B & C & D & M);
    [discriminate|repeat constructor|]. exists h, reg, (Some rep). do 4 (split; [assumption|]). intro W. rewrite M.
  unfold twelfth_bound. split; intros H s t u I T L; specialize (H s t u I T L).
  - destruct H as (b & [<-|[]] & Hu). unfold bound_at in Hu. cbn [nth] in Hu. lra.
  - eexists. split; [now left|]. unfold bound_at. cbn [nth]. lra.
Qed.
Print Assumptions twelfth_moment_exact.

(** ** Examples *)
(** Worlds in which Bourgain's theorem holds exist: the one of the conjecture. *)
Definition best_world (Z : zworld) : lworld := mkLW Z (fun s t r => r <= t /\ (s <= 1#2 \/ r <= 2 - 2 * s)) (fun _ _ _ => False).
Example best_world_bourgain : forall Z, bourgain_lv_facts (best_world Z).
Proof.
  intro Z. split.
  - intros a1 a2 s t r A1 A2 S1 S2 T R [L1 [L2|L2]]; [lra|]. left. unfold bourgain_first, max3. qmax_cases; lra.
  - intros s t r _ [L _]. exact L.
  - intros s t r (R1 & R2 & R3 & R4 & R5 & R6) [L1 [L2|L2]]; unfold huxley_bound; qmax_cases; lra.
Qed.
(** The bound of the second row at sigma = 4/5, tau = 3/2 - below both 2 - 2s and Huxley. *)
Example bourgain_better : tr_set (row_at 1) (4#5) (3#2) /\ tr_bound (row_at 1) (4#5) (3#2) < huxley_bound (4#5) (3#2).
Proof. unfold row_at. cbn [nth bourgain_table tr_set tr_bound]. assert (H : huxley_bound (4#5) (3#2) == 7#10) by (vm_compute; reflexivity). rewrite H. repeat split; lra. Qed.
