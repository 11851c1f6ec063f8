(** Proofs about reference.py. *)
From Coq Require Import Permutation.
From Verif Require Import Base Model_Text Model_Reference Spec_Reference.
Open Scope list_scope.
Open Scope char_scope.

(** ** Years *)
Lemma val_eqb_true : forall a b, val_eqb a b = true <-> a = b.
Proof.
  intros [m| |s] [n| |t]; simpl; split; intros H; try discriminate; auto.
  - apply Z.eqb_eq in H. now subst.
  - inversion H. apply Z.eqb_refl.
  - apply str_eqb_true in H. now subst.
  - inversion H. apply str_eqb_refl.
Qed.

Lemma year_le_refl : forall v, has_date v -> year_le v v.
Proof. intros [n| |s]; simpl; auto; lia. Qed.
Lemma year_le_trans : forall a b c, year_le a b -> year_le b c -> year_le a c.
Proof. intros [m| |s] [n| |t] [p| |u]; simpl; auto; try contradiction; lia. Qed.
Lemma year_le_antisym : forall a b, year_le a b -> year_le b a -> a = b.
Proof. intros [m| |s] [n| |t]; simpl; intros; try contradiction; auto; f_equal; lia. Qed.

Lemma val_lt_known : forall a b, has_date a -> has_date b ->
  exists r, val_lt a b = Ret r /\ (if r then year_le a b else year_le b a).
Proof.
  intros [m| |s] [n| |t]; simpl; intros HA HB; try contradiction;
    (eexists; split; [reflexivity|]); auto.
  destruct (m <? n)%Z eqn:E; [apply Z.ltb_lt in E|apply Z.ltb_ge in E]; simpl; lia.
Qed.

Lemma val_max_from_ok : forall l b, has_date b -> Forall has_date l ->
  exists v, val_max_from b l = Ret v /\ latest (b :: l) v /\ has_date v.
Proof.
  induction l as [|w l IH]; intros b HB F; simpl.
  - exists b. split; [auto|]. split; [|auto]. split; [now left|].
    intros x [E|[]]. subst. now apply year_le_refl.
  - inversion F; subst.
    destruct (val_lt_known b w HB H1) as (r & E & C). rewrite E. simpl. destruct r.
    + destruct (IH w H1 H2) as (v & E' & (L1 & L2) & D). exists v. split; [auto|]. split; [|auto].
      split; [now right|]. intros x [Ex|[Ex|Ex]]; subst.
      * apply (year_le_trans x w v); auto. apply L2. now left.
      * apply L2. now left.
      * apply L2. now right.
    + destruct (IH b HB H2) as (v & E' & (L1 & L2) & D). exists v. split; [auto|]. split; [|auto].
      split.
      * destruct L1; [now left|right; now right].
      * intros x [Ex|[Ex|Ex]]; subst.
        -- apply L2. now left.
        -- apply (year_le_trans x b v); auto. apply L2. now left.
        -- apply L2. now right.
Qed.

Lemma val_max_ok : forall l, l <> [] -> Forall has_date l ->
  exists v, val_max l = Ret v /\ latest l v.
Proof.
  intros [|b l] NE F; [contradiction|]. inversion F; subst.
  destruct (val_max_from_ok l b H1 H2) as (v & E & L & _). exists v. auto.
Qed.

Lemma latest_unique : forall l v w, latest l v -> latest l w -> v = w.
Proof.
  intros l v w [I1 L1] [I2 L2]. apply year_le_antisym; auto.
Qed.

Lemma has_unknown_iff : forall refs,
  existsb (fun r => val_eqb (r_year r) unknown_date) refs = true <->
  In unknown_date (map r_year refs).
Proof.
  intros refs. rewrite existsb_exists, in_map_iff. split.
  - intros (r & I & E). apply val_eqb_true in E. exists r. auto.
  - intros (r & E & I). exists r. split; auto. now apply val_eqb_true.
Qed.

Lemma max_year_ok : forall refs, Forall (fun r => proper_year (r_year r)) refs ->
  exists v, max_year refs = Ret v /\
    (refs = [] -> v = VInt (-1)) /\
    (v = unknown_date <-> In unknown_date (map r_year refs)) /\
    (refs <> [] -> ~ In unknown_date (map r_year refs) -> latest (map r_year refs) v).
Proof.
  intros refs F. unfold max_year. destruct refs as [|r refs].
  - exists (VInt (-1)). simpl. split; [auto|]. split; [auto|]. split; [|tauto].
    split; [discriminate|tauto].
  - destruct (existsb _ (r :: refs)) eqn:E.
    + exists unknown_date. split; [auto|]. split; [discriminate|].
      apply has_unknown_iff in E. split; [tauto|]. intros; contradiction.
    + assert (NU : ~ In unknown_date (map r_year (r :: refs))).
      { intro H. apply has_unknown_iff in H. congruence. }
      destruct (val_max_ok (map r_year (r :: refs))) as (v & E' & L).
      * discriminate.
      * apply Forall_forall. intros v I. apply in_map_iff in I. destruct I as (x & Ex & I).
        rewrite Forall_forall in F. destruct (F x I) as [D|D]; subst; auto.
        exfalso. apply NU. rewrite <- D. now apply in_map.
      * exists v. split; [auto|]. split; [discriminate|]. split.
        -- split; [|tauto]. intros Ev. subst. destruct L as [L _]. contradiction.
        -- auto.
Qed.

(** ** Nesting *)
Lemma count_app : forall c s t, count_ch c (s ++ t) = (count_ch c s + count_ch c t)%Z.
Proof. induction s as [|d s IH]; intros; cbn [count_ch app]; rewrite ?IH; lia. Qed.

Lemma depth_app : forall op cl s t, depth op cl (s ++ t) = (depth op cl s + depth op cl t)%Z.
Proof. intros. unfold depth. rewrite !count_app. lia. Qed.

Lemma depth_nil : forall op cl, depth op cl [] = 0%Z.
Proof. reflexivity. Qed.

Lemma depth_step : forall op cl c l,
  (let l1 := if ch_eqb c cl then (l - 1)%Z else l in
   if ch_eqb c op then (l1 + 1)%Z else l1) = (l + depth op cl [c])%Z.
Proof.
  intros. unfold depth. cbn [count_ch].
  replace (ch_eqb op c) with (ch_eqb c op) by (unfold ch_eqb; apply Ascii.eqb_sym).
  replace (ch_eqb cl c) with (ch_eqb c cl) by (unfold ch_eqb; apply Ascii.eqb_sym).
  destruct (ch_eqb c cl), (ch_eqb c op); cbv zeta; lia.
Qed.

Lemma count_notin : forall c s, ~ In c s -> count_ch c s = 0%Z.
Proof.
  induction s as [|d s IH]; intros H; cbn [count_ch]; auto.
  destruct (ch_eqb c d) eqn:E.
  - apply ch_eqb_true in E. subst. exfalso. apply H. now left.
  - rewrite IH; auto. intro. apply H. now right.
Qed.

(** [split_level] cuts at every delimiter of the given depth, and drops the
    empty pieces. *)
Lemma split_level_go_ok : forall op cl delim level, delim <> cl ->
  forall item pre chs, uncut op cl delim level pre (rev chs) ->
  exists segs, cuts op cl delim level pre (rev chs ++ item) segs /\
    split_level_go op cl delim level (depth op cl (pre ++ rev chs)) chs item =
    filter nonempty segs.
Proof.
  intros op cl delim level ND. induction item as [|c item IH]; intros pre chs U.
  - exists [rev chs]. rewrite app_nil_r. split; [now constructor|].
    simpl. unfold flush. destruct chs as [|d chs]; [reflexivity|].
    simpl. destruct (rev chs ++ [d]) eqn:E; [|reflexivity].
    destruct (rev chs); discriminate.
  - cbn [split_level_go]. rewrite depth_step.
    destruct ((if ch_eqb c cl then _ else _) =? level)%Z eqn:E.
    + apply Z.eqb_eq in E. destruct (ch_eqb c delim) eqn:ED; cbn [andb].
      * apply ch_eqb_true in ED. subst c.
        assert (CL : ch_eqb delim cl = false) by now apply ch_eqb_false.
        rewrite CL in E.
        destruct (IH (pre ++ rev chs ++ [delim]) []) as (segs & C & E2).
        { intros u v Ev. destruct u; discriminate. }
        exists (rev chs :: segs). split.
        -- constructor; auto.
        -- cbn [rev] in E2. rewrite app_nil_r in E2.
           rewrite (app_assoc pre) in E2. rewrite depth_app in E2. rewrite E2.
           cbn [filter]. unfold flush. destruct chs as [|d chs]; [reflexivity|].
           simpl. destruct (rev chs ++ [d]) eqn:E3; [destruct (rev chs); discriminate|].
           reflexivity.
      * destruct (IH pre (c :: chs)) as (segs & C & E2).
        { intros u v Ev. simpl in Ev. apply ch_eqb_false in ED.
          destruct v as [|x v'] using rev_ind.
          - apply app_inj_tail in Ev. destruct Ev. congruence.
          - rewrite app_comm_cons, app_assoc in Ev. apply app_inj_tail in Ev.
            destruct Ev as [Ev _]. apply (U u v'). auto. }
        exists segs. simpl rev in C, E2. rewrite <- app_assoc in C. split; [exact C|].
        rewrite <- E2. rewrite (app_assoc pre), (depth_app _ _ (pre ++ rev chs) [c]). reflexivity.
    + cbn [andb]. apply Z.eqb_neq in E.
      destruct (IH pre (c :: chs)) as (segs & C & E2).
      { intros u v Ev. simpl in Ev.
        destruct v as [|x v'] using rev_ind.
        - apply app_inj_tail in Ev. destruct Ev as [Ev1 Ev2]. subst c.
          assert (CL : ch_eqb delim cl = false) by now apply ch_eqb_false.
          rewrite CL in E. rewrite <- Ev1. auto.
        - rewrite app_comm_cons, app_assoc in Ev. apply app_inj_tail in Ev.
          destruct Ev as [Ev _]. apply (U u v'). auto. }
      exists segs. simpl rev in C, E2. rewrite <- app_assoc in C. split; [exact C|].
      rewrite <- E2. rewrite (app_assoc pre), (depth_app _ _ (pre ++ rev chs) [c]). reflexivity.
Qed.

Lemma cuts_join : forall op cl delim level pre s segs,
  cuts op cl delim level pre s segs -> segs <> [] /\ join [delim] segs = s.
Proof.
  induction 1; split; try discriminate; auto.
  destruct IHcuts as [NE E]. destruct segs as [|x segs]; [contradiction|].
  change (join [delim] (s :: x :: segs)) with (s ++ delim :: join [delim] (x :: segs)).
  now rewrite E.
Qed.

Lemma app_cut_unique : forall op cl delim level pre (s s' t t' : str),
  uncut op cl delim level pre s -> uncut op cl delim level pre s' ->
  depth op cl (pre ++ s) = level -> depth op cl (pre ++ s') = level ->
  s ++ delim :: t = s' ++ delim :: t' -> s = s' /\ t = t'.
Proof.
  intros op cl delim level pre s. revert pre.
  induction s as [|a s IH]; intros pre [|b s'] t t' U U' D D' E.
  - simpl in E. inversion E. auto.
  - simpl in E. injection E as E0 E1. exfalso. apply (U' [] s'); [now rewrite E0|exact D].
  - simpl in E. injection E as E0 E1. exfalso. apply (U [] s); [now rewrite E0|exact D'].
  - simpl in E. injection E as E0 E1. rewrite <- E0 in *.
    destruct (IH (pre ++ [a]) s' t t') as [E2 E3]; auto.
    + intros u v Ev. rewrite <- app_assoc. apply (U (a :: u) v). now rewrite Ev.
    + intros u v Ev. rewrite <- app_assoc. apply (U' (a :: u) v). now rewrite Ev.
    + rewrite <- app_assoc. exact D.
    + rewrite <- app_assoc. exact D'.
    + rewrite E2, E3. auto.
Qed.

Lemma cuts_inv : forall op cl delim level pre s segs, cuts op cl delim level pre s segs ->
  (segs = [s] /\ uncut op cl delim level pre s) \/
  exists s1 t segs1, s = s1 ++ delim :: t /\ segs = s1 :: segs1 /\
    uncut op cl delim level pre s1 /\ depth op cl (pre ++ s1) = level /\
    cuts op cl delim level (pre ++ s1 ++ [delim]) t segs1.
Proof. destruct 1; [left|right]; eauto 10. Qed.

Lemma cuts_unique : forall op cl delim level pre s segs,
  cuts op cl delim level pre s segs -> forall segs', cuts op cl delim level pre s segs' ->
  segs = segs'.
Proof.
  induction 1 as [pre s U|pre s t segs U D C IH]; intros segs' C'.
  - destruct (cuts_inv _ _ _ _ _ _ _ C') as [[E U']|(s1 & t & segs1 & E1 & E2 & U' & D' & C'')].
    + now symmetry.
    + exfalso. apply (U s1 t); auto.
  - destruct (cuts_inv _ _ _ _ _ _ _ C') as [[E U']|(s1 & t1 & segs1 & E1 & E2 & U' & D' & C'')].
    + exfalso. apply (U' s t); auto.
    + destruct (app_cut_unique _ _ _ _ _ _ _ _ _ U U' D D' E1) as [E3 E4].
      rewrite E2, E3. f_equal. apply IH. rewrite E3, E4. exact C''.
Qed.

Lemma split_level_ok : forall op cl delim level s, delim <> cl ->
  exists segs, cuts op cl delim level [] s segs /\
    split_level s op cl delim level = filter nonempty segs.
Proof.
  intros. destruct (split_level_go_ok op cl delim level H s [] []) as (segs & C & E).
  - intros u v Ev. destruct u; discriminate.
  - exists segs. split; [exact C|exact E].
Qed.

Lemma split_level_cuts : forall op cl delim level s segs, delim <> cl ->
  cuts op cl delim level [] s segs -> Forall (fun x => x <> []) segs ->
  split_level s op cl delim level = segs.
Proof.
  intros op cl delim level s segs ND C F.
  destruct (split_level_ok op cl delim level s ND) as (segs' & C' & E).
  rewrite E, <- (cuts_unique _ _ _ _ _ _ _ C _ C').
  clear -F. induction F as [|x l NE F IH]; simpl; auto.
  destruct x; [contradiction|]. simpl. now rewrite IH.
Qed.

(** ** Balanced strings *)
Lemma balanced_depth : forall op cl s, op <> cl -> balanced op cl s -> depth op cl s = 0%Z.
Proof.
  intros op cl s N B. induction B as [|c s N1 N2 B IH|a s B1 IH1 B2 IH2].
  - reflexivity.
  - change (c :: s) with ([c] ++ s). rewrite depth_app, IH.
    unfold depth. rewrite !count_notin; [lia| |]; intros [E|[]]; congruence.
  - change (op :: a ++ cl :: s) with ([op] ++ a ++ [cl] ++ s).
    rewrite !depth_app, IH1, IH2. unfold depth. cbn [count_ch].
    rewrite !ch_eqb_refl.
    replace (ch_eqb cl op) with false by (symmetry; apply ch_eqb_false; congruence).
    replace (ch_eqb op cl) with false by (symmetry; now apply ch_eqb_false).
    lia.
Qed.

Lemma free_balanced : forall op cl s, free_of op s -> free_of cl s -> balanced op cl s.
Proof.
  induction s as [|c s IH]; intros H1 H2; constructor.
  - intro; subst; apply H1; now left.
  - intro; subst; apply H2; now left.
  - apply IH; intro; [apply H1|apply H2]; now right.
Qed.

Lemma balanced_app : forall op cl s t, balanced op cl s -> balanced op cl t -> balanced op cl (s ++ t).
Proof.
  intros op cl s t B BT. induction B; simpl; auto.
  - now constructor.
  - rewrite <- app_assoc. simpl. now constructor.
Qed.

(** Inside a group everything is kept. *)
Lemma extract_inside : forall op cl s, op <> cl -> balanced op cl s ->
  forall l rest, (1 <= l)%Z -> extract_go op cl l (s ++ rest) = s ++ extract_go op cl l rest.
Proof.
  intros op cl s N B. induction B as [|c s N1 N2 B IH|a s B1 IH1 B2 IH2]; intros l rest L.
  - reflexivity.
  - simpl. apply ch_eqb_false in N1, N2. rewrite N1, N2.
    replace (1 <=? l)%Z with true by (symmetry; now apply Z.leb_le).
    now rewrite IH.
  - simpl. rewrite ch_eqb_refl.
    replace (ch_eqb op cl) with false by (symmetry; now apply ch_eqb_false).
    replace (1 <=? l)%Z with true by (symmetry; now apply Z.leb_le).
    rewrite <- app_assoc. rewrite IH1 by lia. simpl.
    rewrite ch_eqb_refl.
    replace (ch_eqb cl op) with false by (symmetry; apply ch_eqb_false; congruence).
    replace (l + 1 - 1)%Z with l by lia.
    replace (1 <=? l)%Z with true by (symmetry; now apply Z.leb_le).
    rewrite IH2 by lia. rewrite <- app_assoc. reflexivity.
Qed.

Lemma extract_outside : forall op cl s, free_of op s -> free_of cl s ->
  forall l rest, (l <= 0)%Z -> extract_go op cl l (s ++ rest) = extract_go op cl l rest.
Proof.
  induction s as [|c s IH]; intros F1 F2 l rest L; auto. simpl.
  replace (ch_eqb c cl) with false
    by (symmetry; apply ch_eqb_false; intro; subst; apply F2; now left).
  replace (ch_eqb c op) with false
    by (symmetry; apply ch_eqb_false; intro; subst; apply F1; now left).
  replace (1 <=? l)%Z with false by (symmetry; apply Z.leb_gt; lia).
  apply IH; auto; intro; [apply F1|apply F2]; now right.
Qed.

Lemma extract_group : forall op cl b rest, op <> cl -> balanced op cl b ->
  extract_go op cl 0 (op :: b ++ cl :: rest) = b ++ extract_go op cl 0 rest.
Proof.
  intros op cl b rest N B. simpl. rewrite ch_eqb_refl.
  replace (ch_eqb op cl) with false by (symmetry; now apply ch_eqb_false).
  simpl. rewrite extract_inside by (auto; lia). simpl. rewrite ch_eqb_refl.
  replace (ch_eqb cl op) with false by (symmetry; apply ch_eqb_false; congruence).
  reflexivity.
Qed.

Lemma extract_ok : forall op cl a0 groups, op <> cl ->
  free_of op a0 -> free_of cl a0 ->
  Forall (fun g => balanced op cl (fst g) /\ free_of op (snd g) /\ free_of cl (snd g)) groups ->
  extract (a0 ++ flat_map (fun g => op :: fst g ++ cl :: snd g) groups) op cl =
  flat_map fst groups.
Proof.
  intros op cl a0 groups N F1 F2 F. unfold extract. rewrite extract_outside by (auto; lia).
  clear a0 F1 F2. induction F as [|[b a] groups (B & G1 & G2) F IH]; auto.
  cbn [flat_map fst snd]. simpl in B, G1, G2.
  change ((op :: b ++ cl :: a) ++ ?r) with (op :: (b ++ cl :: a) ++ r).
  rewrite <- app_assoc. simpl app. rewrite extract_group by auto.
  rewrite extract_outside by (auto; lia). now rewrite IH.
Qed.

(** ** Multi-character separators *)
Lemma starts_with_app : forall p x t, (length p <= length x)%nat ->
  starts_with p (x ++ t) = starts_with p x.
Proof.
  induction p as [|a p IH]; intros [|b x] t L; simpl in *; auto; try lia.
  rewrite IH by lia. reflexivity.
Qed.

Lemma split_go_skip : forall sep w t cur,
  split_go sep (length w) cur (w ++ t) = split_go sep 0 cur t.
Proof. induction w as [|c w IH]; intros; simpl; auto. Qed.

Lemma split_go_sep : forall a sep p t cur,
  contains (a :: sep) (p ++ removelast (a :: sep)) = false ->
  split_go (a :: sep) 0 cur (p ++ (a :: sep) ++ t) =
  (rev cur ++ p) :: split_go (a :: sep) 0 [] t.
Proof.
  intros a sep p t. induction p as [|c p IH]; intros cur H.
  - cbn [app]. cbn [split_go].
    replace (starts_with (a :: sep) (a :: sep ++ t)) with true
      by (symmetry; apply starts_with_true; now exists t).
    rewrite app_nil_r. f_equal.
    replace (length (a :: sep) - 1)%nat with (length sep) by (simpl; lia).
    apply split_go_skip.
  - change ((c :: p) ++ (a :: sep) ++ t) with (c :: p ++ (a :: sep) ++ t).
    cbn [split_go].
    change ((c :: p) ++ removelast (a :: sep)) with (c :: p ++ removelast (a :: sep)) in H.
    cbn [contains] in H. apply orb_false_iff in H. destruct H as [H1 H2].
    replace (starts_with (a :: sep) (c :: p ++ (a :: sep) ++ t)) with false.
    + rewrite IH by exact H2. simpl. now rewrite <- app_assoc.
    + symmetry. rewrite <- H1.
      assert (E : (a :: sep) ++ t = removelast (a :: sep) ++ last (a :: sep) a :: t).
      { rewrite (app_removelast_last a (l := a :: sep)) at 1 by discriminate.
        rewrite <- app_assoc. reflexivity. }
      rewrite E, app_assoc, app_comm_cons.
      apply starts_with_app. simpl length. rewrite app_length.
      assert (L : length (a :: sep) = S (length (removelast (a :: sep)))).
      { rewrite (app_removelast_last a (l := a :: sep)) at 1 by discriminate.
        rewrite app_length. simpl. lia. }
      simpl length in L. lia.
Qed.

Lemma split_go_last : forall a sep p cur,
  contains (a :: sep) p = false -> split_go (a :: sep) 0 cur p = [rev cur ++ p].
Proof.
  intros a sep. induction p as [|c p IH]; intros cur H.
  - simpl. now rewrite app_nil_r.
  - cbn [split_go]. cbn [contains] in H. apply orb_false_iff in H. destruct H as [H1 H2].
    rewrite H1. rewrite IH by auto. simpl. now rewrite <- app_assoc.
Qed.

Lemma contains_prefix : forall sep p t, contains sep (p ++ t) = false -> contains sep p = false.
Proof.
  intros sep p t H. destruct (contains sep p) eqn:E; auto.
  apply contains_true in E. destruct E as (u & v & E). subst.
  assert (C : contains sep ((u ++ sep ++ v) ++ t) = true).
  { apply contains_true. exists u, (v ++ t). now rewrite <- !app_assoc. }
  congruence.
Qed.

Lemma split_join_and : forall ps, ps <> [] -> Forall no_and ps ->
  split sep_and (join sep_and ps) = ps.
Proof.
  unfold split. induction ps as [|p ps IH]; intros NE F; [contradiction|].
  inversion F as [|x y NA F']; subst. unfold no_and in NA.
  destruct ps as [|q ps].
  - simpl join. apply contains_prefix in NA.
    unfold sep_and, s_of in *. cbn [list_ascii_of_string] in *.
    rewrite split_go_last by exact NA. reflexivity.
  - change (join sep_and (p :: q :: ps)) with (p ++ sep_and ++ join sep_and (q :: ps)).
    unfold sep_and in *. unfold s_of in NA |- *. cbn [list_ascii_of_string] in NA |- *.
    rewrite split_go_sep by exact NA. simpl rev. simpl app. f_equal.
    apply IH; [discriminate|auto].
Qed.

(** ** Authors *)
Lemma split_go_nonnil : forall sep s k cur, split_go sep k cur s <> [].
Proof.
  induction s as [|c s IH]; intros k cur; cbn [split_go]; [discriminate|].
  destruct k; [|apply IH]. destruct (starts_with sep (c :: s)); [discriminate|apply IH].
Qed.

Lemma split_space_last : forall first sur, free_of " " sur ->
  last (split [" "] (first ++ " " :: sur)) [] = sur.
Proof.
  intros first sur F. unfold split.
  assert (G : forall f cur, last (split_go [" "] 0 cur (f ++ " " :: sur)) [] = sur).
  { induction f as [|c f IH]; intros cur.
    - rewrite (split_go_cut " " cur [] sur) by (intros []).
      rewrite split_go_free by exact F. reflexivity.
    - cbn [app split_go]. destruct (starts_with [" "] (c :: f ++ " " :: sur)) eqn:E.
      + simpl Nat.sub. rewrite <- (IH []) at 2.
        pose proof (split_go_nonnil [" "] (f ++ " " :: sur) 0 []) as NE.
        destruct (split_go [" "] 0 [] (f ++ " " :: sur)); [contradiction|]. reflexivity.
      + apply IH. }
  apply G.
Qed.

Lemma contains_ch : forall c s, contains [c] s = true <-> In c s.
Proof.
  intros. rewrite contains_true. split.
  - intros (u & v & E). subst. apply in_or_app. right. now left.
  - intros H. apply in_split in H. destruct H as (u & v & E). exists u, v. auto.
Qed.

Lemma surname_ok : forall p sur, person p sur -> surname (strip p) = sur.
Proof.
  intros p sur P. unfold surname. destruct P as [sur first F T|first sur F1 F2 F3 T|sur F1 F2 T].
  - rewrite strip_trimmed by auto.
    replace (contains [","] (sur ++ "," :: first)) with true.
    + unfold split. rewrite split_go_cut by exact F. reflexivity.
    + symmetry. apply contains_ch. apply in_or_app. right. now left.
  - rewrite strip_trimmed by auto.
    replace (contains [","] (first ++ " " :: sur)) with false.
    + now apply split_space_last.
    + symmetry. destruct (contains _ _) eqn:E; auto. apply contains_ch in E.
      apply in_app_or in E. destruct E as [E|[E|E]]; [now apply F1 in E|discriminate|now apply F2 in E].
  - rewrite strip_trimmed by auto.
    replace (contains [","] sur) with false.
    + unfold split. rewrite split_go_free by exact F2. reflexivity.
    + symmetry. destruct (contains _ _) eqn:E; auto. apply contains_ch in E. now apply F1 in E.
Qed.

Lemma parse_authors_ok : forall ps surs, ps <> [] -> Forall2 person ps surs -> Forall no_and ps ->
  parse_authors (join sep_and ps) = join "--"%string surs.
Proof.
  intros ps surs NE F2 FN. unfold parse_authors. rewrite split_join_and by auto.
  f_equal. clear NE FN. induction F2; simpl; auto. rewrite IHF2. f_equal. now apply surname_ok.
Qed.

(** ** One field *)
Lemma balanced_prefix : forall op cl s, op <> cl -> balanced op cl s ->
  forall u v, s = u ++ v -> (0 <= depth op cl u)%Z.
Proof.
  intros op cl s N B. induction B as [|c s N1 N2 B IH|a s B1 IH1 B2 IH2]; intros u v E.
  - destruct u; [|discriminate]. rewrite depth_nil. lia.
  - destruct u as [|d u]; [rewrite depth_nil; lia|].
    injection E as E0 E1. subst d. change (c :: u) with ([c] ++ u). rewrite depth_app.
    assert (D : depth op cl [c] = 0%Z)
      by (unfold depth; rewrite !count_notin; [lia| |]; intros [X|[]]; congruence).
    rewrite D. specialize (IH u v E1). lia.
  - destruct u as [|d u]; [rewrite depth_nil; lia|].
    injection E as E0 E1. subst d. change (op :: u) with ([op] ++ u). rewrite depth_app.
    assert (DO : depth op cl [op] = 1%Z).
    { unfold depth. cbn [count_ch]. rewrite ch_eqb_refl.
      replace (ch_eqb cl op) with false by (symmetry; apply ch_eqb_false; congruence). lia. }
    assert (DC : depth op cl [cl] = (-1)%Z).
    { unfold depth. cbn [count_ch]. rewrite ch_eqb_refl.
      replace (ch_eqb op cl) with false by (symmetry; apply ch_eqb_false; congruence). lia. }
    rewrite DO.
    apply app_eq_app in E1. destruct E1 as (l & [[E1 E2]|[E1 E2]]).
    + specialize (IH1 u l E1). lia.
    + destruct l as [|x l].
      * rewrite app_nil_r in E1. subst u. rewrite (balanced_depth op cl a N B1). lia.
      * injection E2 as E2 E3. subst x u.
        rewrite depth_app, (balanced_depth op cl a N B1).
        change (cl :: l) with ([cl] ++ l). rewrite depth_app, DC.
        specialize (IH2 l v E3). lia.
Qed.

Lemma free_depth : forall op cl s, free_of op s -> free_of cl s -> depth op cl s = 0%Z.
Proof. intros. unfold depth. rewrite !count_notin; auto. Qed.

Lemma uncut_free : forall op cl d level pre s, free_of d s -> uncut op cl d level pre s.
Proof. intros op cl d level pre s F u v E. exfalso. apply F. subst. apply in_or_app. right. now left. Qed.

(** A delimiter inside a braced group is not at the outer level. *)
Lemma uncut_group : forall op cl d pre x t y, op <> cl -> d <> op -> d <> cl ->
  depth op cl pre = 0%Z -> free_of op x -> free_of cl x -> free_of d x -> free_of d y ->
  balanced op cl t -> uncut op cl d 0 pre (x ++ op :: t ++ cl :: y).
Proof.
  intros op cl d pre x t y N N1 N2 DP X1 X2 X3 Y B u v E H.
  rewrite depth_app, DP in H.
  symmetry in E. apply app_eq_app in E. destruct E as (l & [[E1 E2]|[E1 E2]]).
  - (* u = x ++ l *)
    subst u. rewrite depth_app, (free_depth op cl x X1 X2) in H.
    destruct l as [|c l]; [simpl in E2; congruence|].
    injection E2 as E2 E3. subst c.
    symmetry in E3. apply app_eq_app in E3. destruct E3 as (m & [[E4 E5]|[E4 E5]]).
    + subst l. destruct m as [|c m].
      * simpl in E5. congruence.
      * injection E5 as E5 E6. apply Y. rewrite E6. apply in_or_app. right. now left.
    + pose proof (balanced_prefix op cl t N B l m E4) as P.
      change (op :: l) with ([op] ++ l) in H. rewrite depth_app in H.
      assert (DO : depth op cl [op] = 1%Z).
      { unfold depth. cbn [count_ch]. rewrite ch_eqb_refl.
        replace (ch_eqb cl op) with false by (symmetry; apply ch_eqb_false; congruence). lia. }
      lia.
  - destruct l as [|c l].
    + rewrite app_nil_r in E1. subst u. simpl in E2. congruence.
    + injection E2 as E2 E3. subst c. apply X3. rewrite E1. apply in_or_app. right. now left.
Qed.

Lemma spaces_free : forall c w, is_space c = false -> spaces w -> free_of c w.
Proof.
  intros c w H F I. unfold spaces in F. rewrite Forall_forall in F. apply F in I. congruence.
Qed.

Lemma free_app : forall c s t, free_of c s -> free_of c t -> free_of c (s ++ t).
Proof. intros c s t F G I. apply in_app_or in I. destruct I; auto. Qed.

Lemma means_ok : forall k s v fields, means k s v ->
  (if str_eqb k key_year then
     let! y := parse_year s in Ret (dict_set fields k (VInt y))
   else if str_eqb k key_author then Ret (dict_set fields k (VStr (parse_authors s)))
   else Ret (dict_set fields k (VStr s))) = Ret (dict_set fields k v).
Proof.
  intros k s v fields M. destruct M as [n rest POS R|ps surs NE F2 FN|k s N1 N2].
  - rewrite str_eqb_refl. unfold parse_year.
    assert (NS : forall m, (0 <= m)%Z -> free_of "/" (z_str m) /\
      exists c t, z_str m = c :: t /\ Forall (fun c => is_space c = false /\ c <> "+") (c :: t)).
    { intros m Hm. unfold z_str.
      assert (AD : forall d, Forall (fun c => c <> "/" /\ is_space c = false /\ c <> "+")
                     (list_ascii_of_string (DecimalString.NilEmpty.string_of_uint d))).
      { induction d; simpl; constructor; auto; (split; [discriminate|split; [reflexivity|discriminate]]). }
      assert (Z0 : exists d, Z.to_int m = Decimal.Pos d).
      { destruct m; simpl; [eexists; reflexivity|eexists; reflexivity|lia]. }
      destruct Z0 as (d & Ed). rewrite Ed.
      assert (AZ : Forall (fun c => c <> "/" /\ is_space c = false /\ c <> "+")
                     (list_ascii_of_string (DecimalString.NilZero.string_of_int (Decimal.Pos d)))).
      { simpl. destruct d; try apply (AD _). simpl. constructor; auto.
        split; [discriminate|split; [reflexivity|discriminate]]. }
      split.
      - intro I. rewrite Forall_forall in AZ. apply AZ in I. tauto.
      - destruct (list_ascii_of_string _) as [|c t] eqn:E.
        + simpl in E. destruct d; discriminate.
        + exists c, t. split; auto. eapply Forall_impl; [|exact AZ]. simpl. tauto. }
    destruct (NS n POS) as (FS & c & t & EQ & FA).
    assert (SP : hd [] (split ["/"] (z_str n ++ rest)) = z_str n).
    { unfold split. destruct R as [R|[r R]]; subst rest.
      - rewrite app_nil_r, split_go_free by exact FS. reflexivity.
      - rewrite split_go_cut by exact FS. reflexivity. }
    rewrite SP. unfold py_int.
    rewrite strip_trimmed.
    2:{ rewrite EQ. rewrite Forall_forall in FA. split.
        - intros d u E. apply FA. rewrite E. now left.
        - intros d u E. apply FA. rewrite E. apply in_or_app. right. now left. }
    assert (HD : ch_eqb c "+" = false).
    { apply ch_eqb_false. inversion FA; subst. tauto. }
    pose proof (z_read_str n) as RD. rewrite EQ in RD |- *.
    destruct t as [|d t]; [|rewrite HD; simpl andb; cbv iota]; rewrite RD; reflexivity.
  - change (str_eqb key_author key_year) with false. rewrite str_eqb_refl.
    now rewrite (parse_authors_ok ps surs NE F2 FN).
  - apply str_eqb_false in N1, N2. now rewrite N1, N2.
Qed.

Lemma parse_field_ok : forall f v fields, good_field f v ->
  parse_field (field_text f) fields = Ret (dict_set fields (lower (f_key f)) v).
Proof.
  intros f v fields (W1 & W2 & W3 & W4 & KN & KT & K1 & K2 & K3 & K4 & TN & B & M).
  destruct f as [w1 key w2 w3 text w4]. cbn [f_w1 f_key f_w2 f_w3 f_text f_w4] in *.
  unfold parse_field, field_text. cbn [f_w1 f_key f_w2 f_w3 f_text f_w4].
  set (core := key ++ w2 ++ "=" :: w3 ++ "{" :: text ++ ["}"]).
  assert (E : w1 ++ key ++ w2 ++ "=" :: w3 ++ "{" :: text ++ "}" :: w4 = w1 ++ core ++ w4).
  { unfold core. rewrite <- !app_assoc. simpl. do 4 f_equal. rewrite <- app_assoc. simpl.
    do 2 f_equal. rewrite <- app_assoc. reflexivity. }
  rewrite E, strip_pad; auto.
  2:{ destruct KT as [T1 T2]. destruct key as [|c key]; [contradiction|]. split.
      - intros d t Ed. unfold core in Ed. simpl in Ed. injection Ed as Ed _. subst d.
        apply (T1 c key eq_refl).
      - intros d t Ed. unfold core in Ed.
        assert (A : (c :: key) ++ w2 ++ "=" :: w3 ++ "{" :: text ++ ["}"] =
                    ((c :: key) ++ w2 ++ "=" :: w3 ++ "{" :: text) ++ ["}"]).
        { rewrite <- !app_assoc. simpl. do 3 f_equal. rewrite <- app_assoc. reflexivity. }
        rewrite A in Ed. apply app_inj_tail in Ed. destruct Ed as [_ Ed]. subst d. reflexivity. }
  assert (SL : split_level core "{" "}" "=" 0 = [key ++ w2; w3 ++ "{" :: text ++ ["}"]]).
  { apply split_level_cuts.
    - discriminate.
    - unfold core. rewrite app_assoc. constructor.
      + apply uncut_free. apply free_app; auto. apply spaces_free; auto.
      + simpl app. apply free_depth; apply free_app; auto; apply spaces_free; auto.
      + constructor. apply uncut_group; try discriminate; auto;
          try (apply spaces_free; auto; fail).
        all: try (simpl app; rewrite depth_app; rewrite free_depth; [reflexivity| |];
          apply free_app; auto; apply spaces_free; auto; fail).
        intros [].
    - constructor; [|constructor; [|constructor]].
      + destruct key; [contradiction|discriminate].
      + destruct w3; discriminate. }
  rewrite SL.
  assert (SK : strip (key ++ w2) = key).
  { change (key ++ w2) with ([] ++ key ++ w2). apply strip_pad; auto; try constructor. }
  assert (SV : strip (w3 ++ "{" :: text ++ ["}"]) = "{" :: text ++ ["}"]).
  { rewrite <- (app_nil_r ("{" :: text ++ ["}"])) at 1. apply strip_pad; auto; try (constructor; fail).
    split.
    - intros c t Ec. injection Ec as Ec _. subst c. reflexivity.
    - intros c t Ec. rewrite app_comm_cons in Ec. apply app_inj_tail in Ec.
      destruct Ec as [_ Ec]. subst c. reflexivity. }
  rewrite SK, SV.
  assert (EX : extract ("{" :: text ++ ["}"]) "{" "}" = text).
  { unfold extract. rewrite extract_group by (auto; discriminate). simpl. apply app_nil_r. }
  rewrite EX.
  assert (CN : core <> []) by (unfold core; destruct key; [contradiction|discriminate]).
  destruct core; [contradiction|].
  assert (LN : lower key <> []) by (destruct key; [contradiction|discriminate]).
  pose proof (means_ok _ _ _ fields M) as MO.
  destruct (lower key) as [|c0 k0]; [contradiction|].
  destruct text as [|t0 ts]; [contradiction|]. exact MO.
Qed.

(** ** One entry *)
Lemma field_balanced : forall f v, good_field f v -> balanced "{" "}" (field_text f).
Proof.
  intros f v (W1 & W2 & W3 & W4 & KN & KT & K1 & K2 & K3 & K4 & TN & B & M).
  unfold field_text.
  repeat apply balanced_app; try (apply free_balanced; auto; apply spaces_free; auto; fail).
  constructor; try discriminate.
  apply balanced_app; [apply free_balanced; apply spaces_free; auto|].
  apply bal_group; auto. apply free_balanced; apply spaces_free; auto.
Qed.

Lemma field_uncut : forall f v pre, good_field f v -> depth "{" "}" pre = 0%Z ->
  uncut "{" "}" "," 0 pre (field_text f).
Proof.
  intros f v pre (W1 & W2 & W3 & W4 & KN & KT & K1 & K2 & K3 & K4 & TN & B & M) D.
  unfold field_text.
  replace (f_w1 f ++ f_key f ++ f_w2 f ++ "=" :: f_w3 f ++ "{" :: f_text f ++ "}" :: f_w4 f)
    with ((f_w1 f ++ f_key f ++ f_w2 f ++ "=" :: f_w3 f) ++ "{" :: f_text f ++ "}" :: f_w4 f)
    by (rewrite <- !app_assoc; reflexivity).
  assert (EQF : forall c, c <> "=" -> is_space c = false -> free_of c (f_key f) ->
            free_of c (f_w1 f ++ f_key f ++ f_w2 f ++ "=" :: f_w3 f)).
  { intros c NE S FK. repeat apply free_app; auto; try (apply spaces_free; auto; fail).
    intros [X|X]; [congruence|]. revert X. apply (spaces_free c (f_w3 f)); auto. }
  apply uncut_group; try discriminate; auto; try (apply EQF; auto; discriminate).
  apply spaces_free; auto.
Qed.

Lemma fields_cuts : forall fs vs s pre, Forall2 good_field fs vs ->
  depth "{" "}" (pre ++ s) = 0%Z -> uncut "{" "}" "," 0 pre s ->
  cuts "{" "}" "," 0 pre (s ++ flat_map (fun f => "," :: field_text f) fs)
    (s :: map field_text fs).
Proof.
  intros fs vs s pre F. revert s pre. induction F as [|f v fs vs G F IH]; intros s pre D U.
  - simpl. rewrite app_nil_r. now constructor.
  - cbn [flat_map map]. rewrite <- app_comm_cons. constructor; auto.
    assert (DC : depth "{" "}" (pre ++ s ++ [","]) = 0%Z).
    { rewrite app_assoc, depth_app, D. reflexivity. }
    apply IH.
    + rewrite depth_app, DC. rewrite (balanced_depth "{" "}"); [reflexivity|discriminate|].
      now apply (field_balanced f v).
    + now apply (field_uncut f v).
Qed.

Lemma parse_fields_ok : forall fs vs d, Forall2 good_field fs vs ->
  parse_fields (map field_text fs) d =
  Ret (fold_left (fun d kv => dict_set d (fst kv) (snd kv))
         (combine (map (fun f => lower (f_key f)) fs) vs) d).
Proof.
  intros fs vs d F. revert d. induction F as [|f v fs vs G F IH]; intros d; simpl; auto.
  rewrite (parse_field_ok f v d G). simpl. apply IH.
Qed.

Lemma field_nonempty : forall f v, good_field f v -> field_text f <> [].
Proof.
  intros f v (W1 & W2 & W3 & W4 & KN & KT & _). unfold field_text.
  destruct (f_w1 f); [|discriminate]. destruct (f_key f); [contradiction|discriminate].
Qed.

(** Dictionaries: looking up after a series of assignments finds the last one. *)
Lemma dict_get_set : forall (V : Type) (d : dict V) k v k',
  dict_get (dict_set d k v) k' = if str_eqb k' k then Some v else dict_get d k'.
Proof.
  induction d as [|[k0 v0] d IH]; intros k v k'; simpl.
  - reflexivity.
  - destruct (str_eqb k k0) eqn:E.
    + apply str_eqb_true in E. subst k0. simpl. destruct (str_eqb k' k); reflexivity.
    + simpl. destruct (str_eqb k' k0) eqn:E'.
      * apply str_eqb_true in E'. subst k0.
        destruct (str_eqb k' k) eqn:E2; auto.
        apply str_eqb_true in E2. subst. rewrite str_eqb_refl in E. discriminate.
      * apply IH.
Qed.

Lemma dict_get_fold : forall (V : Type) (l : list (str * V)) (d : dict V) k o,
  last_bound l k o ->
  dict_get (fold_left (fun d kv => dict_set d (fst kv) (snd kv)) l d) k =
  match o with Some v => Some v | None => dict_get d k end.
Proof.
  intros V l. induction l as [|[k0 v0] l IH] using rev_ind; intros d k o L.
  - destruct o as [v|]; simpl; auto. destruct L as (l1 & l2 & E & _). destruct l1; discriminate.
  - rewrite fold_left_app. cbn [fold_left fst snd]. rewrite dict_get_set.
    destruct (str_eqb k k0) eqn:E.
    + apply str_eqb_true in E. subst k0. destruct o as [v|].
      * destruct L as (l1 & l2 & E & NI). destruct l2 as [|x l2 _] using rev_ind.
        -- apply app_inj_tail in E. destruct E as [_ E]. now inversion E.
        -- rewrite app_comm_cons, app_assoc in E. apply app_inj_tail in E.
           destruct E as [_ E]. subst x. exfalso. apply NI. rewrite map_app.
           apply in_or_app. right. now left.
      * exfalso. apply L. rewrite map_app. apply in_or_app. right. now left.
    + apply str_eqb_false in E. apply IH. destruct o as [v|].
      * destruct L as (l1 & l2 & E' & NI). destruct l2 as [|x l2 _] using rev_ind.
        -- apply app_inj_tail in E'. destruct E' as [_ E']. inversion E'. congruence.
        -- rewrite app_comm_cons, app_assoc in E'. apply app_inj_tail in E'.
           destruct E' as [E' Ex]. exists l1, l2. split; [exact E'|].
           intro I. apply NI. rewrite map_app. apply in_or_app. now left.
      * intro I. apply L. rewrite map_app. apply in_or_app. now left.
Qed.

Lemma parse_item_ok : forall typ w1 label w2 fs vs tail,
  free_of "{" typ -> free_of "}" typ -> spaces w1 -> spaces w2 ->
  label <> [] -> trimmed label ->
  free_of "{" label -> free_of "}" label -> free_of "," label ->
  Forall2 good_field fs vs -> free_of "{" tail -> free_of "}" tail ->
  exists ref, parse_item (entry_text typ w1 label w2 fs tail) = Ret ref /\
    r_label ref = label /\ r_type ref = lower typ /\
    forall k o, last_bound (combine (map (fun f => lower (f_key f)) fs) vs) k o ->
      dict_get (r_entries ref) k = o.
Proof.
  intros typ w1 label w2 fs vs tail T1 T2 W1 W2 LN LT L1 L2 L3 F E1 E2.
  unfold parse_item, entry_text.
  assert (TY : hd [] (split ["{"] (typ ++ "{" :: w1 ++ label ++ w2 ++
            flat_map (fun f => "," :: field_text f) fs ++ "}" :: tail)) = typ).
  { unfold split. rewrite split_go_cut by exact T1. reflexivity. }
  rewrite TY.
  assert (BF : balanced "{" "}" (flat_map (fun f => "," :: field_text f) fs)).
  { clear -F. induction F as [|f v fs vs G F IH]; simpl; [constructor|].
    constructor; try discriminate. apply balanced_app; auto. now apply (field_balanced f v). }
  assert (EX : extract (typ ++ "{" :: w1 ++ label ++ w2 ++
            flat_map (fun f => "," :: field_text f) fs ++ "}" :: tail) "{" "}" =
            (w1 ++ label ++ w2) ++ flat_map (fun f => "," :: field_text f) fs).
  { unfold extract. rewrite extract_outside by (auto; lia).
    replace (w1 ++ label ++ w2 ++ flat_map (fun f => "," :: field_text f) fs ++ "}" :: tail)
      with (((w1 ++ label ++ w2) ++ flat_map (fun f => "," :: field_text f) fs) ++ "}" :: tail)
      by (rewrite <- !app_assoc; reflexivity).
    rewrite extract_group.
    - rewrite <- (app_nil_r tail). rewrite extract_outside by (auto; lia).
      simpl. now rewrite app_nil_r.
    - discriminate.
    - apply balanced_app; auto. repeat apply balanced_app; apply free_balanced; auto;
        apply spaces_free; auto. }
  rewrite EX.
  assert (SL : split_level ((w1 ++ label ++ w2) ++ flat_map (fun f => "," :: field_text f) fs)
                 "{" "}" "," 0 = (w1 ++ label ++ w2) :: map field_text fs).
  { apply split_level_cuts.
    - discriminate.
    - apply (fields_cuts fs vs); auto.
      + simpl app. apply free_depth; repeat apply free_app; auto; apply spaces_free; auto.
      + apply uncut_free. repeat apply free_app; auto; apply spaces_free; auto.
    - constructor.
      + destruct w1; [|discriminate]. destruct label; [contradiction|discriminate].
      + clear -F. induction F as [|f v fs vs G F IH]; simpl; constructor; auto.
        now apply (field_nonempty f v). }
  rewrite SL. rewrite (parse_fields_ok fs vs [] F). simpl bind.
  eexists. split; [reflexivity|]. cbn [r_label r_type r_entries].
  split; [apply strip_pad; auto|]. split; [reflexivity|].
  intros k o LB. rewrite (dict_get_fold _ _ _ _ _ LB). destruct o; reflexivity.
Qed.

(** ** The whole file *)
Lemma load_items_ok : forall items refs d,
  Forall2 (fun it r => it <> [] /\ parse_item it = Ret r /\ r_label r <> []) items refs ->
  load_items items d =
  Ret (fold_left (fun d kv => dict_set d (fst kv) (snd kv))
         (map (fun r => (r_label r, r)) refs) d).
Proof.
  intros items refs d F. revert d.
  induction F as [|it r items refs (NE & P & L) F IH]; intros d; simpl; auto.
  destruct it as [|c it]; [contradiction|]. rewrite P. simpl.
  rewrite IH. destruct (r_label r); [contradiction|reflexivity].
Qed.

Lemma split_ats : forall items, Forall (free_of "@") items ->
  split ["@"] (flat_map (fun it => "@" :: it) items) = [] :: items.
Proof.
  intros items F. unfold split.
  assert (G : forall s, free_of "@" s ->
    split_go ["@"] 0 [] (s ++ flat_map (fun it => "@" :: it) items) = s :: items).
  { induction F as [|it items N F IH]; intros s S.
    - simpl. rewrite app_nil_r, split_go_free by exact S. reflexivity.
    - cbn [flat_map]. rewrite <- app_comm_cons, split_go_cut by exact S.
      rewrite IH by exact N. reflexivity. }
  apply (G []). intros [].
Qed.

Lemma load_ok : forall lines items refs,
  join [" "] (map strip lines) = flat_map (fun it => "@" :: it) items ->
  Forall (free_of "@") items ->
  Forall2 (fun it r => it <> [] /\ parse_item it = Ret r /\ r_label r <> []) items refs ->
  exists d, load lines [] = Ret d /\
    forall l o, last_bound (map (fun r => (r_label r, r)) refs) l o ->
      get_ref d l = match o with Some r => Ret r | None => Raise ValueError end.
Proof.
  intros lines items refs E FA F. unfold load. rewrite E, split_ats by auto.
  change (load_items ([] :: items) []) with (load_items items []).
  rewrite (load_items_ok items refs [] F). eexists. split; [reflexivity|].
  intros l o LB. unfold get_ref. rewrite (dict_get_fold _ _ _ _ _ LB). destruct o; reflexivity.
Qed.
