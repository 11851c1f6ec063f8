(** Properties of reference.py: C28 (years) and C29 (the bibtex reader). *)
From Coq Require Import Permutation.
From Verif Require Import Base Model_Text Model_Reference Spec_Reference Proof_Reference.
Open Scope list_scope.
Open Scope char_scope.

Lemma free_of_b : forall c s, existsb (ch_eqb c) s = false -> free_of c s.
Proof.
  intros c s E I. assert (existsb (ch_eqb c) s = true); [|congruence].
  apply existsb_exists. exists c. split; auto. apply ch_eqb_refl.
Qed.

(** ** C28 *)

(** [max_year] of references whose years are integers, infinite or unknown
    always returns: -1 for no references, "Unknown date" exactly when some year
    is unknown, and otherwise the latest of the years. *)
Theorem max_year_correct : forall refs, Forall (fun r => proper_year (r_year r)) refs ->
  exists v, max_year refs = Ret v /\
    (refs = [] -> v = VInt (-1)) /\
    (v = unknown_date <-> In unknown_date (map r_year refs)) /\
    (refs <> [] -> ~ In unknown_date (map r_year refs) -> latest (map r_year refs) v).
Proof. exact max_year_ok. Qed.
Print Assumptions max_year_correct.

(** The order (and repetition) in which the references are listed does not matter. *)
Theorem max_year_same_members : forall refs refs',
  Forall (fun r => proper_year (r_year r)) refs ->
  (forall r, In r refs <-> In r refs') -> max_year refs = max_year refs'.
Proof.
  intros refs refs' F S.
  assert (F' : Forall (fun r => proper_year (r_year r)) refs').
  { rewrite Forall_forall in *. intros r I. apply F, S, I. }
  destruct (max_year_ok refs F) as (v & E & A & B & C).
  destruct (max_year_ok refs' F') as (v' & E' & A' & B' & C').
  rewrite E, E'. f_equal.
  assert (M : forall w, In w (map r_year refs) <-> In w (map r_year refs')).
  { intros w. rewrite !in_map_iff. split; intros (r & X & Y); exists r; split; auto; now apply S. }
  destruct refs as [|r refs].
  - destruct refs' as [|r' refs']; [rewrite A, A' by auto; auto|].
    exfalso. destruct (S r') as [_ H]. apply H. now left.
  - destruct refs' as [|r' refs'].
    + exfalso. destruct (S r) as [H _]. apply H. now left.
    + destruct (existsb (fun r => val_eqb (r_year r) unknown_date) (r :: refs)) eqn:U.
      * apply has_unknown_iff in U. assert (V := proj2 B U).
        assert (V' := proj2 B' (proj1 (M _) U)). congruence.
      * assert (NU : ~ In unknown_date (map r_year (r :: refs))).
        { intro H. apply has_unknown_iff in H. congruence. }
        assert (NU' : ~ In unknown_date (map r_year (r' :: refs'))) by (rewrite <- M; auto).
        specialize (C ltac:(discriminate) NU). specialize (C' ltac:(discriminate) NU').
        destruct C as [C1 C2], C' as [C1' C2']. apply year_le_antisym.
        -- apply C2'. now apply M.
        -- apply C2. now apply M.
Qed.
Print Assumptions max_year_same_members.

(** Two groups of references can be dated separately and the results combined:
    the year of a result derived from both is the year of all of them. *)
Theorem max_year_combine : forall a b va vb,
  a <> [] -> b <> [] ->
  Forall (fun r => proper_year (r_year r)) a -> Forall (fun r => proper_year (r_year r)) b ->
  max_year a = Ret va -> max_year b = Ret vb ->
  max_year (a ++ b) = max_year [ref_derived va; ref_derived vb].
Proof.
  intros a b va vb NA NB FA FB EA EB.
  destruct (max_year_ok a FA) as (wa & E1 & _ & B1 & C1).
  destruct (max_year_ok b FB) as (wb & E2 & _ & B2 & C2).
  rewrite EA in E1. rewrite EB in E2. injection E1 as <-. injection E2 as <-.
  assert (FAB : Forall (fun r => proper_year (r_year r)) (a ++ b)) by (apply Forall_app; auto).
  destruct (max_year_ok (a ++ b) FAB) as (v & E & _ & B & C). rewrite E.
  assert (NU : forall l, ~ In unknown_date (map r_year l) <->
     existsb (fun r => val_eqb (r_year r) unknown_date) l = false).
  { intros l. destruct (existsb _ l) eqn:X.
    - apply has_unknown_iff in X. split; [tauto|discriminate].
    - split; auto. intros _ H. apply has_unknown_iff in H. congruence. }
  assert (PD : forall l w, l <> [] -> Forall (fun r => proper_year (r_year r)) l ->
     latest (map r_year l) w -> ~ In unknown_date (map r_year l) -> has_date w).
  { intros l w _ F [I _] N. apply in_map_iff in I. destruct I as (r & Er & I).
    rewrite Forall_forall in F. destruct (F r I) as [D|D]; [now subst|].
    exfalso. apply N. rewrite <- D. now apply in_map. }
  assert (Y : forall w, r_year (ref_derived w) = w) by reflexivity.
  destruct (existsb (fun r => val_eqb (r_year r) unknown_date) a) eqn:UA.
  - apply has_unknown_iff in UA. assert (va = unknown_date) by tauto. subst va.
    rewrite map_app in B. assert (v = unknown_date) by (apply B, in_or_app; now left). subst v.
    reflexivity.
  - apply NU in UA. destruct (existsb (fun r => val_eqb (r_year r) unknown_date) b) eqn:UB.
    + apply has_unknown_iff in UB. assert (vb = unknown_date) by tauto. subst vb.
      rewrite map_app in B. assert (v = unknown_date) by (apply B, in_or_app; now right). subst v.
      unfold max_year. cbn [existsb]. rewrite !Y.
      replace (val_eqb unknown_date unknown_date) with true by reflexivity.
      now rewrite orb_true_r.
    + apply NU in UB.
      assert (UAB : ~ In unknown_date (map r_year (a ++ b))).
      { rewrite map_app. intro I. apply in_app_or in I. tauto. }
      specialize (C1 NA UA). specialize (C2 NB UB).
      specialize (C ltac:(destruct a; [contradiction|discriminate]) UAB).
      assert (DA := PD a va NA FA C1 UA). assert (DB := PD b vb NB FB C2 UB).
      destruct (max_year_ok [ref_derived va; ref_derived vb]) as (w & Ew & _ & Bw & Cw).
      { constructor; [left; exact DA|constructor; [left; exact DB|constructor]]. }
      rewrite Ew. f_equal.
      assert (NW : ~ In unknown_date (map r_year [ref_derived va; ref_derived vb])).
      { simpl. rewrite !Y. intros [X|[X|[]]]; [rewrite X in DA|rewrite X in DB]; contradiction. }
      specialize (Cw ltac:(discriminate) NW). simpl map in Cw. rewrite !Y in Cw.
      rewrite map_app in C. destruct C as [I L], C1 as [I1 L1], C2 as [I2 L2], Cw as [Iw Lw].
      apply year_le_antisym.
      * apply in_app_or in I. destruct I as [I|I].
        -- apply (year_le_trans _ va); auto. apply Lw. now left.
        -- apply (year_le_trans _ vb); auto. apply Lw. right. now left.
      * apply L. apply in_or_app. destruct Iw as [X|[X|[]]]; subst; auto.
Qed.
Print Assumptions max_year_combine.

(** The year of an undated reference is "Unknown date"; classical and trivial
    results are dated -1 and conjectures after every year. *)
Theorem reference_years :
  r_year ref_classical = VInt (-1) /\ r_year ref_trivial = VInt (-1) /\
  (forall n, val_le (VInt n) (r_year ref_conjectured) = Ret true) /\
  (forall n, val_le (r_year ref_conjectured) (VInt n) = Ret false) /\
  (forall y, r_year (ref_derived y) = y) /\
  (forall l t e, dict_get e key_year = None -> r_year (mkRef l t e) = unknown_date).
Proof.
  split; [reflexivity|]. split; [reflexivity|]. split; [reflexivity|]. split; [reflexivity|].
  split; [reflexivity|]. intros l t e H. unfold r_year. simpl. now rewrite H.
Qed.
Print Assumptions reference_years.

Example ex_max_year :
  max_year [ref_derived (VInt 1999); ref_classical; ref_derived (VInt 2016)] = Ret (VInt 2016) /\
  max_year [ref_derived (VInt 1999); mkRef [] [] []] = Ret unknown_date /\
  max_year [ref_conjectured; ref_derived (VInt 2016)] = Ret VInf.
Proof. repeat split. Qed.

(** ** C29 *)

(** Splitting at a nesting level: the string is the pieces joined by the
    delimiter, the cuts are exactly the delimiters at that level, and the
    result is the pieces that are not empty, in order. *)
Theorem bibtex_split_level : forall op cl delim level s, delim <> cl ->
  exists segs, cuts op cl delim level [] s segs /\ join [delim] segs = s /\
    split_level s op cl delim level = filter nonempty segs.
Proof.
  intros op cl delim level s N. destruct (split_level_ok op cl delim level s N) as (segs & C & E).
  exists segs. split; [auto|]. split; [now apply (cuts_join _ _ _ _ _ _ _ C)|auto].
Qed.
Print Assumptions bibtex_split_level.

(** So when no piece is empty, joining the result gives the string back. *)
Theorem bibtex_split_level_joins : forall op cl delim level s segs, delim <> cl ->
  cuts op cl delim level [] s segs -> Forall (fun x => x <> []) segs ->
  join [delim] (split_level s op cl delim level) = s.
Proof.
  intros op cl delim level s segs N C F.
  rewrite (split_level_cuts _ _ _ _ _ _ N C F). now apply (cuts_join _ _ _ _ _ _ _ C).
Qed.
Print Assumptions bibtex_split_level_joins.

(** With an empty piece it does not. *)
Theorem bibtex_split_level_joins_refuted :
  exists s, join [","] (split_level s "{" "}" "," 0) <> s.
Proof. exists (s_of "a,,b"). vm_compute. discriminate. Qed.
Print Assumptions bibtex_split_level_joins_refuted.

(** [_extract] returns the contents of the outermost braces, inner braces kept. *)
Theorem bibtex_extract : forall op cl a0 groups, op <> cl ->
  free_of op a0 -> free_of cl a0 ->
  Forall (fun g => balanced op cl (fst g) /\ free_of op (snd g) /\ free_of cl (snd g)) groups ->
  extract (a0 ++ flat_map (fun g => op :: fst g ++ cl :: snd g) groups) op cl =
  flat_map fst groups.
Proof. exact extract_ok. Qed.
Print Assumptions bibtex_extract.

(** A well-formed entry is read back: its label, its type in lower case, and
    under every key in lower case the meaning of the last value written for it
    (the year as a number, the authors as surnames joined by dashes). *)
Theorem bibtex_parse_entry : forall typ w1 label w2 fs vs tail,
  free_of "{" typ -> free_of "}" typ -> spaces w1 -> spaces w2 ->
  label <> [] -> trimmed label ->
  free_of "{" label -> free_of "}" label -> free_of "," label ->
  Forall2 good_field fs vs -> free_of "{" tail -> free_of "}" tail ->
  exists ref, parse_item (entry_text typ w1 label w2 fs tail) = Ret ref /\
    r_label ref = label /\ r_type ref = lower typ /\
    forall k o, last_bound (combine (map (fun f => lower (f_key f)) fs) vs) k o ->
      dict_get (r_entries ref) k = o.
Proof. exact parse_item_ok. Qed.
Print Assumptions bibtex_parse_entry.

(** A file that is a sequence of entries, none with an [@] inside, is loaded
    entry by entry: looking a label up gives the last entry with it, and
    ValueError if there is none. *)
Theorem bibtex_load : forall lines items refs,
  join [" "] (map strip lines) = flat_map (fun it => "@" :: it) items ->
  Forall (free_of "@") items ->
  Forall2 (fun it r => it <> [] /\ parse_item it = Ret r /\ r_label r <> []) items refs ->
  exists d, load lines [] = Ret d /\
    forall l o, last_bound (map (fun r => (r_label r, r)) refs) l o ->
      get_ref d l = match o with Some r => Ret r | None => Raise ValueError end.
Proof. exact load_ok. Qed.
Print Assumptions bibtex_load.

(** An [@] inside a value breaks the whole file. *)
Theorem bibtex_at_sign_refuted :
  exists lines, load lines [] = Raise IndexError /\
    exists typ label fs, Forall2 good_field fs [VStr (s_of "x@y")] /\
      lines = [ "@" :: entry_text typ [] label [] fs [] ].
Proof.
  exists ["@" :: entry_text (s_of "article") [] (s_of "a") []
            [mkField [] (s_of "title") [] [] (s_of "x@y") []] []].
  split; [vm_compute; reflexivity|].
  exists (s_of "article"), (s_of "a"), [mkField [] (s_of "title") [] [] (s_of "x@y") []].
  split; [|reflexivity].
  constructor; [|constructor].
  unfold good_field. cbn [f_w1 f_key f_w2 f_w3 f_text f_w4].
  do 4 (split; [constructor|]). split; [discriminate|].
  split.
  { split; intros c t E.
    - injection E as E _. subst. reflexivity.
    - change (s_of "title") with (s_of "titl" ++ ["e"]) in E.
      apply app_inj_tail in E. destruct E as [_ E]. subst. reflexivity. }
  do 4 (split; [apply free_of_b; reflexivity|]).
  split; [discriminate|]. split.
  - repeat (apply bal_char; [discriminate|discriminate|]). constructor.
  - constructor; discriminate.
Qed.
Print Assumptions bibtex_at_sign_refuted.

(** A value without braces, as in [year = 2016], is dropped without notice. *)
Theorem bibtex_unbraced_value_refuted : forall v, free_of "{" v -> free_of "}" v ->
  free_of "=" v -> free_of "," v ->
  exists ref, parse_item (s_of "article{key, year = " ++ v ++ s_of "}") = Ret ref /\
    r_year ref = unknown_date.
Proof.
  intros v F1 F2 F3 F4. unfold parse_item.
  assert (EX : extract (s_of "article{key, year = " ++ v ++ s_of "}") "{" "}" =
               s_of "key, year = " ++ v).
  { change (s_of "article{key, year = " ++ v ++ s_of "}")
      with (s_of "article" ++ "{" :: (s_of "key, year = " ++ v) ++ "}" :: []).
    unfold extract. rewrite extract_outside.
    - rewrite extract_group; [apply app_nil_r|discriminate|].
      apply balanced_app; apply free_balanced; try assumption; apply free_of_b; reflexivity.
    - apply free_of_b; reflexivity.
    - apply free_of_b; reflexivity.
    - lia. }
  rewrite EX.
  assert (SL : split_level (s_of "key, year = " ++ v) "{" "}" "," 0 =
               [s_of "key"; s_of " year = " ++ v]).
  { apply split_level_cuts; [discriminate| |].
    - change (s_of "key, year = " ++ v) with (s_of "key" ++ "," :: (s_of " year = " ++ v)).
      apply cuts_more.
      + apply uncut_free. apply free_of_b; reflexivity.
      + reflexivity.
      + apply cuts_last, uncut_free. apply free_app; auto.
        apply free_of_b; reflexivity.
    - repeat constructor; discriminate. }
  rewrite SL. cbn [parse_fields bind].
  assert (SP : exists t, strip (s_of " year = " ++ v) = s_of "year =" ++ t /\
                 free_of "{" t /\ free_of "}" t /\ free_of "=" t).
  { change (s_of " year = " ++ v) with (" " :: s_of "year =" ++ " " :: v).
    unfold strip. change (lstrip (" " :: s_of "year =" ++ " " :: v))
      with (s_of "year =" ++ " " :: v).
    unfold rstrip. rewrite rev_app_distr.
    assert (G : forall x, exists y, lstrip (x ++ rev (s_of "year =")) = y ++ rev (s_of "year =") /\
                  incl y x).
    { induction x as [|c x IH].
      - exists []. split; [reflexivity|apply incl_refl].
      - simpl app. cbn [lstrip]. destruct (is_space c).
        + destruct IH as (y & E & I). exists y. split; [auto|]. now apply incl_tl.
        + exists (c :: x). split; [reflexivity|apply incl_refl]. }
    destruct (G (rev (" " :: v))) as (y & E & I). rewrite E, rev_app_distr, rev_involutive.
    exists (rev y). split; [reflexivity|].
    assert (S : forall c, is_space c = false -> free_of c v -> free_of c (rev y)).
    { intros c NS F H. apply in_rev in H. apply I in H. apply in_rev in H.
      destruct H as [H|H]; [subst; discriminate|contradiction]. }
    split; [apply S; auto|]. split; apply S; auto. }
  destruct SP as (t & SP & T1 & T2 & T3). unfold parse_field. rewrite SP.
  cbn [s_of list_ascii_of_string app]. 
  assert (X : exists o, (o = [] \/ exists v1 o', o = v1 :: o' /\ free_of "{" v1 /\ free_of "}" v1) /\
     split_level (s_of "year =" ++ t) "{" "}" "=" 0 = s_of "year " :: o).
  { destruct t as [|c t].
    - exists []. split; [now left|reflexivity].
    - exists [c :: t]. split; [right; exists (c :: t), []; auto|].
      change (s_of "year =" ++ c :: t) with (s_of "year " ++ "=" :: c :: t).
      apply split_level_cuts; [discriminate| |].
      + apply cuts_more.
        * apply uncut_free. apply free_of_b; reflexivity.
        * reflexivity.
        * apply cuts_last, uncut_free. exact T3.
      + repeat constructor; discriminate. }
  destruct X as (o & O & X). cbn [s_of list_ascii_of_string app] in X. rewrite X.
  destruct O as [O|(v1 & o' & O & V1 & V2)]; subst o; cbn [bind].
  - eexists. split; reflexivity.
  - assert (XT : extract (strip v1) "{" "}" = []).
    { assert (S : forall c, free_of c v1 -> free_of c (strip v1)).
      { intros c F H. apply F. unfold strip, rstrip in H. apply in_rev in H.
        assert (L : forall s x, In x (lstrip s) -> In x s).
        { induction s as [|d s IH]; intros x Hx; auto. simpl in Hx.
          destruct (is_space d); [right; auto|auto]. }
        apply L in H. apply in_rev in H. now apply L in H. }
      unfold extract. rewrite <- (app_nil_r (strip v1)). rewrite extract_outside; auto. lia. }
    rewrite XT. cbn [bind]. eexists. split; reflexivity.
Qed.
Print Assumptions bibtex_unbraced_value_refuted.

(** [find_all] returns exactly the references by that author (a substring of
    the surnames) in that year, when every reference has both entries ... *)
Theorem bibtex_find_all : forall author year refs,
  Forall (fun r => (exists s, dict_get (r_entries r) key_author = Some (VStr s)) /\
                   exists v, dict_get (r_entries r) key_year = Some v) refs ->
  exists l, find_all author year refs = Ret l /\
    forall r, In r l <-> In r refs /\
      (forall a, author = Some a -> exists u w, r_author r = VStr (u ++ a ++ w)) /\
      (forall y, year = Some y -> r_year r = y).
Proof.
  intros author year refs F. induction F as [|r refs [(s & A) (v & Y)] F IH].
  - exists []. split; auto. intros r. simpl. tauto.
  - destruct IH as (l & E & C). cbn [find_all]. rewrite E, A, Y.
    assert (RA : r_author r = VStr s) by (unfold r_author; now rewrite A).
    assert (RY : r_year r = v) by (unfold r_year; now rewrite Y).
    set (ba := match author with None => true | Some a => contains a s end).
    set (b := ba && match year with None => true | Some y => val_eqb v y end).
    exists (if b then r :: l else l). split.
    + subst b ba. destruct author as [a|]; destruct year as [y|]; cbn [bind andb];
        try destruct (contains a s); cbn [bind andb]; try destruct (val_eqb v y); reflexivity.
    + intros x.
      assert (B : b = true <->
        (forall a, author = Some a -> exists u w, r_author r = VStr (u ++ a ++ w)) /\
        (forall y, year = Some y -> r_year r = y)).
      { subst b ba. rewrite RA, RY, andb_true_iff. split.
        - intros [B1 B2]. split.
          + intros a Ea. subst author. apply contains_true in B1.
            destruct B1 as (u & w & B1). exists u, w. now subst.
          + intros y Ey. subst year. now apply val_eqb_true in B2.
        - intros [B1 B2]. split.
          + destruct author as [a|]; auto. apply contains_true.
            destruct (B1 a eq_refl) as (u & w & B3). inversion B3. eauto.
          + destruct year as [y|]; auto. apply val_eqb_true. now apply B2. }
      destruct b.
      * simpl. rewrite C. split.
        -- intros [X|X]; [subst x; split; [now left|now apply B]|].
           destruct X as [X1 X2]. split; [now right|auto].
        -- intros [[X|X] X2]; [now left|right; auto].
      * rewrite C. simpl. split.
        -- intros [X1 X2]. split; [now right|auto].
        -- intros [[X|X] X2]; [|auto]. subst x. apply B in X2. discriminate.
Qed.
Print Assumptions bibtex_find_all.

(** ... and raises KeyError as soon as one reference has no author. *)
Theorem bibtex_find_all_missing_refuted : exists refs a,
  find_all (Some a) None refs = Raise KeyError /\
  exists r, In r refs /\ r_author r = unknown_author.
Proof.
  exists [mkRef (s_of "a") (s_of "misc") []], (s_of "Tao"). split; [reflexivity|].
  eexists. split; [now left|reflexivity].
Qed.
Print Assumptions bibtex_find_all_missing_refuted.

(** A concrete file in the style of references.bib. *)
Definition ex_lines : list str :=
  [ s_of "@article{bourgain_decoupling_2016,";
    s_of "   AUTHOR = {Bourgain, Jean and Terence Tao},";
    s_of "   title = {Decoupling, {E}xponential sums = zeta},";
    s_of "   year = {2017/01} }";
    s_of "@Book{tit, year={1986}}" ].

Example ex_load : exists d r1 r2,
  load ex_lines [] = Ret d /\
  get_ref d (s_of "bourgain_decoupling_2016") = Ret r1 /\ get_ref d (s_of "tit") = Ret r2 /\
  r_author r1 = VStr (s_of "Bourgain--Tao") /\ r_year r1 = VInt 2017 /\
  dict_get (r_entries r1) (s_of "title") = Some (VStr (s_of "Decoupling, {E}xponential sums = zeta")) /\
  r_type r2 = s_of "book" /\ r_year r2 = VInt 1986 /\ r_author r2 = unknown_author /\
  get_ref d (s_of "x") = Raise ValueError.
Proof. vm_compute. do 3 eexists. repeat split. Qed.

Example ex_extract : extract (s_of "A{B}C{{D}}") "{" "}" = s_of "B{D}".
Proof. reflexivity. Qed.
