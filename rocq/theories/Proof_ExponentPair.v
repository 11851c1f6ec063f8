(** Transforms, van der Corput pairs and [in_triangle]. *)
From Verif Require Import Base Model_Text Model_Reference Spec_Reference Proof_Reference
  Model_Interval Spec_Interval Model_Affine Spec_Affine Proof_Interval
  Model_Hull Spec_Hull Proof_Hull Model_ExponentPair Spec_ExponentPair.
Open Scope list_scope.

Lemma derived_node_inv : forall n d deps h, derived_node n d deps = Ret h ->
  n_data h = d /\ n_deps h = deps /\ exists y, max_year (map n_ref deps) = Ret y /\ n_ref h = ref_derived y.
Proof.
  intros n d deps h H. unfold derived_node in H. destruct (max_year (map n_ref deps)) as [y|e] eqn:E; [|discriminate].
  cbn in H. injection H as <-. cbn. eauto.
Qed.


Lemma derived_node_ret : forall n d deps, Forall proper_node deps ->
  exists h, derived_node n d deps = Ret h /\ n_data h = d /\ n_deps h = deps /\ proper_node h.
Proof.
  intros n d deps F. unfold derived_node.
  destruct (max_year_ok (map n_ref deps)) as (v & E & A & B & C).
  { apply Forall_map. exact F. }
  rewrite E. cbn. eexists. split; [reflexivity|]. cbn. split; [auto|]. split; [auto|].
  unfold proper_node; cbn. change (r_year (ref_derived v)) with v.
  destruct deps as [|d0 deps]; [rewrite A by auto; left; exact Logic.I|].
  destruct (in_dec (fun a b : Model_Reference.value => ltac:(repeat decide equality)) unknown_date (map r_year (map n_ref (d0 :: deps)))) as [I|I].
  - right. now apply B.
  - left. destruct (C ltac:(discriminate) I) as [Iv _]. apply in_map_iff in Iv as (r & <- & Ir).
    apply in_map_iff in Ir as (h & <- & Ih). rewrite Forall_forall in F. destruct (F h Ih) as [D|D]; [auto|].
    exfalso. apply I. rewrite <- D. apply in_map_iff. exists (n_ref h). split; [auto|]. now apply in_map.
Qed.

Lemma proper_make : forall a y, proper_year (r_year (ref_make a y)).
Proof. intros. left. exact Logic.I. Qed.

Lemma qdiv_ret : forall a b c, qdiv a b = Ret c -> ~ b == 0 /\ c == a / b.
Proof.
  intros a b c H. unfold qdiv in H. destruct (Qeqb_spec b 0); [discriminate|]. injection H as <-. split; [auto|reflexivity].
Qed.
Lemma qdiv_ok : forall a b, ~ b == 0 -> qdiv a b = Ret (a / b).
Proof. intros a b H. unfold qdiv. destruct (Qeqb_spec b 0); [contradiction|auto]. Qed.

Lemma pair_of_inv : forall h k l, pair_of h = Ret (k, l) -> n_data h = DPair k l.
Proof. intros h k l H. unfold pair_of in H. destruct (n_data h); try discriminate. injection H as <- <-. auto. Qed.

Section Lit.
Context (rc rd : reference).
Notation C_fun := (C_fun rc).

Definition maps (h h' : hnode) (f : pt -> pt) (t : hnode) : Prop :=
  exists k l k' l', n_data h = DPair k l /\ n_data h' = DPair k' l' /\ pt_eq (k', l') (f (k, l)) /\
    n_deps h' = [h; t].

Lemma A_inv : forall h h', A_fun h = Ret h' -> maps h h' A_map A_hyp.
Proof.
  intros h h' H. unfold A_fun in H. destruct (pair_of h) as [[k l]|] eqn:E; [|discriminate]. cbn [bind] in H.
  apply pair_of_inv in E.
  destruct (qdiv k (2 * k + 2)) as [k'|] eqn:E1; [|discriminate]. cbn [bind] in H.
  destruct (qdiv l (2 * k + 2)) as [l'|] eqn:E2; [|discriminate]. cbn [bind] in H.
  apply derived_node_inv in H as (D1 & D2 & _).
  apply qdiv_ret in E1 as [_ E1]. apply qdiv_ret in E2 as [_ E2].
  exists k, l, k', ((1#2) + l'). split; [auto|]. split; [auto|]. split; [|auto].
  split; cbn; [auto|]. now rewrite E2.
Qed.
Lemma B_inv : forall h h', B_fun h = Ret h' -> maps h h' B_map B_hyp.
Proof.
  intros h h' H. unfold B_fun in H. destruct (pair_of h) as [[k l]|] eqn:E; [|discriminate]. cbn [bind] in H.
  apply pair_of_inv in E. apply derived_node_inv in H as (D1 & D2 & _).
  exists k, l, (l - (1#2)), (k + (1#2)). split; [auto|]. split; [auto|]. split; [reflexivity|auto].
Qed.
Lemma C_inv : forall h h', C_fun h = Ret h' -> maps h h' C_map (C_hyp rc).
Proof.
  intros h h' H. unfold Model_ExponentPair.C_fun in H. destruct (pair_of h) as [[k l]|] eqn:E; [|discriminate]. cbn [bind] in H.
  apply pair_of_inv in E.
  destruct (qdiv k (12 * (1 + 4 * k))) as [k'|] eqn:E1; [|discriminate]. cbn [bind] in H.
  destruct (qdiv (11 * (1 + 4 * k) + l) (12 * (1 + 4 * k))) as [l'|] eqn:E2; [|discriminate]. cbn [bind] in H.
  apply derived_node_inv in H as (D1 & D2 & _).
  apply qdiv_ret in E1 as [_ E1]. apply qdiv_ret in E2 as [_ E2].
  exists k, l, k', l'. split; [auto|]. split; [auto|]. split; [|auto]. split; cbn; auto.
Qed.

Lemma A_total : forall h k l, n_data h = DPair k l -> 0 <= k -> proper_node h ->
  exists h', A_fun h = Ret h' /\ proper_node h'.
Proof.
  intros h k l D K P. unfold A_fun, pair_of. rewrite D. cbn [bind].
  rewrite !qdiv_ok by (intro; lra). cbn [bind].
  destruct (derived_node_ret (s_of "Derived exponent pair (" ++ q_str (k / (2 * k + 2)) ++ s_of ", " ++ q_str ((1#2) + l / (2 * k + 2)) ++ s_of ")")
    (DPair (k / (2 * k + 2)) ((1#2) + l / (2 * k + 2))) [h; A_hyp]) as (h' & E & _ & _ & P').
  { constructor; [auto|constructor; [apply proper_make|constructor]]. }
  exists h'. split; auto.
Qed.
Lemma B_total : forall h k l, n_data h = DPair k l -> proper_node h ->
  exists h', B_fun h = Ret h' /\ proper_node h'.
Proof.
  intros h k l D P. unfold B_fun, pair_of. rewrite D. cbn [bind].
  destruct (derived_node_ret (s_of "Derived exponent pair (" ++ q_str (l - (1#2)) ++ s_of ", " ++ q_str (k + (1#2)) ++ s_of ")")
    (DPair (l - (1#2)) (k + (1#2))) [h; B_hyp]) as (h' & E & _ & _ & P').
  { constructor; [auto|constructor; [apply proper_make|constructor]]. }
  exists h'. split; auto.
Qed.
Lemma C_total : forall h k l, n_data h = DPair k l -> 0 <= k -> proper_node h -> proper_year (r_year rc) ->
  exists h', C_fun h = Ret h' /\ proper_node h'.
Proof.
  intros h k l D K P PC. unfold Model_ExponentPair.C_fun, pair_of. rewrite D. cbn [bind].
  rewrite !qdiv_ok by (intro; lra). cbn [bind].
  match goal with |- context [derived_exp_pair ?a ?b ?c] =>
    destruct (derived_node_ret (s_of "Derived exponent pair (" ++ q_str a ++ s_of ", " ++ q_str b ++ s_of ")")
      (DPair a b) c) as (h' & E & _ & _ & P') end.
  { constructor; [auto|constructor; [exact PC|constructor]]. }
  exists h'. split; auto.
Qed.

Lemma triangle_eq : forall k l k' l', k == k' -> l == l' -> triangle k l -> triangle k' l'.
Proof. intros k l k' l' E1 E2 (A & B & C & D & F). unfold triangle. repeat split; lra. Qed.

Lemma A_bounds : forall k l, triangle k l -> triangle (fst (A_map (k, l))) (snd (A_map (k, l))) /\
  fst (A_map (k, l)) <= k / 2.
Proof.
  intros k l (A & B & C & D & F). cbn.
  assert (P : 0 < 2 * k + 2) by lra.
  assert (E1 : k / (2 * k + 2) <= k / 2).
  { apply Qle_shift_div_r; auto. setoid_replace (k / 2 * (2 * k + 2)) with (k + k * k) by field.
    assert (0 <= k * k) by (apply Qmult_le_0_compat; auto). lra. }
  assert (E2 : 0 <= k / (2 * k + 2)) by (apply Qle_shift_div_l; lra).
  assert (E3 : 0 <= l / (2 * k + 2)) by (apply Qle_shift_div_l; lra).
  assert (E4 : l / (2 * k + 2) <= 1#2) by (apply Qle_shift_div_r; lra).
  assert (E5 : k / (2 * k + 2) + l / (2 * k + 2) <= 1#2).
  { setoid_replace (k / (2 * k + 2) + l / (2 * k + 2)) with ((k + l) / (2 * k + 2)) by (field; lra).
    apply Qle_shift_div_r; lra. }
  assert (E6 : k / 2 <= 1#4) by (apply Qle_shift_div_r; lra).
  unfold triangle. split; [|exact E1]. repeat split; lra.
Qed.
Lemma B_bounds : forall k l, triangle k l -> triangle (fst (B_map (k, l))) (snd (B_map (k, l))).
Proof. intros k l (A & B & C & D & F). cbn. unfold triangle. repeat split; lra. Qed.
Lemma C_bounds : forall k l, triangle k l -> triangle (fst (C_map (k, l))) (snd (C_map (k, l))).
Proof.
  intros k l (A & B & C & D & F). cbn.
  assert (P : 0 < 12 * (1 + 4 * k)) by lra.
  assert (E2 : 0 <= k / (12 * (1 + 4 * k))) by (apply Qle_shift_div_l; lra).
  assert (E3 : k / (12 * (1 + 4 * k)) <= 1#2) by (apply Qle_shift_div_r; lra).
  assert (E4 : 1#2 <= (11 * (1 + 4 * k) + l) / (12 * (1 + 4 * k))) by (apply Qle_shift_div_l; lra).
  assert (E5 : (11 * (1 + 4 * k) + l) / (12 * (1 + 4 * k)) <= 1) by (apply Qle_shift_div_r; lra).
  assert (E6 : k / (12 * (1 + 4 * k)) + (11 * (1 + 4 * k) + l) / (12 * (1 + 4 * k)) <= 1).
  { setoid_replace (k / (12 * (1 + 4 * k)) + (11 * (1 + 4 * k) + l) / (12 * (1 + 4 * k)))
      with ((k + 11 * (1 + 4 * k) + l) / (12 * (1 + 4 * k))) by (field; lra).
    apply Qle_shift_div_r; lra. }
  unfold triangle. repeat split; auto.
Qed.

(** ** Van der Corput *)
Lemma vdc_den_S : forall k, vdc_den (S k) == 2 * vdc_den k + 2.
Proof.
  intros k. unfold vdc_den. rewrite Nat2Z.inj_succ, Z.pow_succ_r by lia.
  setoid_replace 2 with (inject_Z 2) by reflexivity.
  rewrite <- inject_Z_mult, <- inject_Z_plus. apply inject_Z_injective. ring.
Qed.
Lemma vdc_den_pos : forall k, (2 <= k)%nat -> 2 <= vdc_den k.
Proof.
  intros k H. induction H as [|k H IH]; [apply Qleb_true; reflexivity|]. rewrite vdc_den_S. lra.
Qed.

Lemma inject_nat_S : forall n, inject_Z (Z.of_nat (S n)) == inject_Z (Z.of_nat n) + 1.
Proof. intros. rewrite Nat2Z.inj_succ, <- Z.add_1_r, inject_Z_plus. reflexivity. Qed.

Lemma A_vdc : forall j h h', (2 <= j)%nat -> is_vdc j h -> A_fun h = Ret h' -> is_vdc (S j) h'.
Proof.
  intros j h h' J (k & l & D & K & L) H.
  apply A_inv in H as (k0 & l0 & k' & l' & D0 & D' & [E1 E2] & _).
  rewrite D in D0. injection D0 as <- <-. cbn in E1, E2.
  exists k', l'. split; [auto|]. pose proof (vdc_den_pos j J) as P. pose proof (vdc_den_S j) as S.
  rewrite E1, E2, K, L, S, inject_nat_S. split; field; split; lra.
Qed.

Lemma vdc_triangle : forall j k l, (2 <= j)%nat -> k == 1 / vdc_den j ->
  l == 1 - (inject_Z (Z.of_nat j) - 1) / vdc_den j -> triangle k l.
Proof.
  intros j k l J K L. pose proof (vdc_den_pos j J) as P.
  assert (G : 2 * (inject_Z (Z.of_nat j) - 1) <= vdc_den j).
  { clear -J. induction J as [|j J IH]; [apply Qleb_true; reflexivity|].
    rewrite vdc_den_S, inject_nat_S.
    assert (1 <= inject_Z (Z.of_nat j)) by (change 1 with (inject_Z 1); rewrite <- Zle_Qle; lia). lra. }
  assert (J1 : 2 <= inject_Z (Z.of_nat j)) by (change 2 with (inject_Z 2); rewrite <- Zle_Qle; lia).
  set (t := inject_Z (Z.of_nat j)) in *. set (d := vdc_den j) in *.
  assert (E1 : 0 <= 1 / d) by (apply Qle_shift_div_l; lra).
  assert (E2 : 1 / d <= 1#2) by (apply Qle_shift_div_r; lra).
  assert (E3 : (t - 1) / d <= 1#2) by (apply Qle_shift_div_r; lra).
  assert (E4 : 1 / d <= (t - 1) / d).
  { apply Qle_shift_div_l; [lra|]. setoid_replace (1 / d * d) with 1 by (field; lra). lra. }
  unfold triangle. repeat split; lra.
Qed.

(** Data of the trees built. *)
Lemma complexity_derived : forall h a b, n_deps h = [a; b] ->
  complexity h = S (complexity a + complexity b).
Proof. intros [n d r ds] a b E. cbn in E. subst ds. cbn. lia. Qed.

Lemma year_derived : forall h a b n d, derived_node n d [a; b] = Ret h ->
  forall y z, r_year (n_ref a) = VInt y -> r_year (n_ref b) = VInt z -> r_year (n_ref h) = VInt (Z.max y z).
Proof.
  intros h a b n d H y z Ya Yb. apply derived_node_inv in H as (_ & _ & v & M & R). rewrite R.
  change (r_year (ref_derived v)) with v.
  cbn in M. rewrite Ya, Yb in M. cbn in M. destruct (y <? z)%Z eqn:E; cbn in M; injection M as <-; f_equal; lia.
Qed.

Lemma A_year : forall h h' y, A_fun h = Ret h' -> r_year (n_ref h) = VInt y ->
  r_year (n_ref h') = VInt (Z.max y 1920).
Proof.
  intros h h' y H Y. unfold A_fun in H. destruct (pair_of h) as [[k l]|]; [|discriminate]. cbn [bind] in H.
  destruct (qdiv k (2 * k + 2)) as [k'|]; [|discriminate]. cbn [bind] in H.
  destruct (qdiv l (2 * k + 2)) as [l'|]; [|discriminate]. cbn [bind] in H.
  apply (year_derived _ _ _ _ _ H y 1920); auto.
Qed.

Lemma iterate_vdc : forall n j h, (2 <= j)%nat -> is_vdc j h -> r_year (n_ref h) = VInt 1920 ->
  exists h', iterate_A n h = Ret h' /\ is_vdc (j + n) h' /\ r_year (n_ref h') = VInt 1920 /\
    complexity h' = (complexity h + 2 * n)%nat.
Proof.
  induction n as [|n IH]; intros j h J V Y.
  - exists h. cbn. rewrite !Nat.add_0_r. auto.
  - cbn [iterate_A]. destruct V as (k & l & D & K & L).
    destruct (A_total h k l D) as (h1 & E & P1).
    { destruct (vdc_triangle j k l J K L) as (T & _). exact T. }
    { left. rewrite Y. exact Logic.I. }
    rewrite E. cbn [bind].
    assert (V1 : is_vdc (S j) h1) by (apply (A_vdc j h); auto; exists k, l; auto).
    pose proof (A_year h h1 1920 E Y) as Y1. rewrite Z.max_id in Y1.
    destruct (IH (S j) h1 ltac:(lia) V1 Y1) as (h' & E' & V' & Y' & C').
    exists h'. split; [auto|]. replace (j + S n)%nat with (S j + n)%nat by lia. split; [auto|]. split; [auto|].
    rewrite C'. apply A_inv in E as (_ & _ & _ & _ & _ & _ & _ & Dp).
    rewrite (complexity_derived h1 h A_hyp Dp). cbn [complexity A_hyp fold_right]. lia.
Qed.

Lemma van_der_corput_ok : forall k, (2 <= k)%nat ->
  exists h, van_der_corput_pair k = Ret h /\ is_vdc k h /\ r_year (n_ref h) = VInt 1920 /\
    complexity h = (2 * k - 1)%nat.
Proof.
  intros k K. unfold van_der_corput_pair. destruct (Nat.ltb_spec k 2) as [C|_]; [lia|].
  destruct (B_total trivial_exp_pair 0 1 eq_refl) as (h1 & E & _); [left; exact Logic.I|]. rewrite E. cbn [bind].
  assert (V1 : is_vdc 2 h1).
  { apply B_inv in E as (k0 & l0 & k' & l' & D0 & D' & [E1 E2] & _).
    injection D0 as <- <-. cbn in E1, E2. exists k', l'. split; [auto|]. rewrite E1, E2. split; reflexivity. }
  assert (Y1 : r_year (n_ref h1) = VInt 1920).
  { unfold B_fun in E. cbn [pair_of n_data trivial_exp_pair bind] in E.
    exact (year_derived _ _ _ _ _ E (-1)%Z 1920%Z eq_refl eq_refl). }
  destruct (iterate_vdc (k - 2) 2 h1 (Nat.le_refl 2) V1 Y1) as (h & Eh & Vh & Yh & Ch).
  exists h. split; [auto|]. replace (2 + (k - 2))%nat with k in Vh by lia. split; [auto|]. split; [auto|].
  rewrite Ch. apply B_inv in E as (_ & _ & _ & _ & _ & _ & _ & Dp).
  rewrite (complexity_derived h1 _ _ Dp). cbn [complexity trivial_exp_pair B_hyp fold_right]. lia.
Qed.
End Lit.

(** ** [in_triangle] *)
Lemma in_triangle_iff : forall a b c p, in_triangle a b c p = true <->
  0 <= cross b c p /\ 0 <= cross c a p /\ 0 <= cross a b p.
Proof.
  intros a b c p. unfold in_triangle.
  set (d := (snd b - snd c) * (fst a - fst c) + (fst c - fst b) * (snd a - snd c)).
  set (x := (snd b - snd c) * (fst p - fst c) + (fst c - fst b) * (snd p - snd c)).
  set (y := (snd c - snd a) * (fst p - fst c) + (fst a - fst c) * (snd p - snd c)).
  assert (X : x == cross b c p) by (unfold x, cross; ring).
  assert (Y : y == cross c a p) by (unfold y, cross; ring).
  assert (Z : d - x - y == cross a b p) by (unfold d, x, y, cross; ring).
  rewrite !andb_true_iff, !Qleb_true. split.
  - intros ((((H1 & H2) & H3) & H4) & H5). split; [lra|]. split; lra.
  - intros (H1 & H2 & H3). repeat split; lra.
Qed.

Lemma conv3_cross : forall a b c p, in_conv3 a b c p -> 0 <= cross a b c ->
  0 <= cross b c p /\ 0 <= cross c a p /\ 0 <= cross a b p.
Proof.
  intros a b c p (u & v & w & U & V & W & S & E1 & E2) D.
  assert (Wd : w == 1 - u - v) by lra.
  assert (X : cross b c p == u * cross a b c) by (unfold cross; rewrite E1, E2, Wd; ring).
  assert (Y : cross c a p == v * cross a b c) by (unfold cross; rewrite E1, E2, Wd; ring).
  assert (Z : cross a b p == w * cross a b c).
  { unfold cross. rewrite E1, E2. setoid_replace u with (1 - v - w) by lra. ring. }
  rewrite X, Y, Z. repeat split; apply Qmult_le_0_compat; auto.
Qed.

Lemma cross_conv3 : forall a b c p, 0 < cross a b c ->
  0 <= cross b c p -> 0 <= cross c a p -> 0 <= cross a b p -> in_conv3 a b c p.
Proof.
  intros a b c p D X Y Z.
  assert (S : cross b c p + cross c a p + cross a b p == cross a b c) by (unfold cross; ring).
  exists (cross b c p / cross a b c), (cross c a p / cross a b c), (cross a b p / cross a b c).
  split; [apply Qle_shift_div_l; lra|]. split; [apply Qle_shift_div_l; lra|]. split; [apply Qle_shift_div_l; lra|].
  split; [|split].
  - rewrite <- S. field. rewrite S. lra.
  - assert (E : fst p * cross a b c == cross b c p * fst a + cross c a p * fst b + cross a b p * fst c) by (unfold cross; ring).
    setoid_replace (fst p) with (fst p * cross a b c / cross a b c) by (field; lra).
    rewrite E. field. lra.
  - assert (E : snd p * cross a b c == cross b c p * snd a + cross c a p * snd b + cross a b p * snd c) by (unfold cross; ring).
    setoid_replace (snd p) with (snd p * cross a b c / cross a b c) by (field; lra).
    rewrite E. field. lra.
Qed.
