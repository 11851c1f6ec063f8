(** Properties of hypotheses.py: C23 (sets grow), C24 (cached values are
    current), C25 (queries), C26 (recursive dependencies), C27 (complexity and
    date). *)
From Coq Require Import Permutation Relations.
From Verif Require Import Base Model_Text Model_Reference Spec_Reference Proof_Reference
  Model_Hypotheses Spec_Hypotheses Proof_Hypotheses.
Open Scope list_scope.

(** ** C23 *)

(** Adding a hypothesis, a set, a list or any iterable makes the members
    exactly the old ones and the added ones, without repetition, and touches no
    other set. *)
Theorem set_add_exact : forall (V : Type) (w : world V) s x a inv,
  nth_error (w_sets w) s = Some x -> NoDup (s_members x) ->
  exists x', nth_error (w_sets (add_hypotheses s a inv w)) s = Some x' /\
    NoDup (s_members x') /\
    (forall h, In h (s_members x') <-> In h (s_members x) \/
       match a with
       | AOne g => h = g
       | ASet t => exists y, nth_error (w_sets w) t = Some y /\ In h (s_members y)
       | AList l | AIter l => In h l
       end) /\
    (forall t, t <> s -> nth_error (w_sets (add_hypotheses s a inv w)) t = nth_error (w_sets w) t).
Proof.
  intros V w s x a inv H N. unfold add_hypotheses. rewrite H. cbn [w_sets].
  assert (L : (s < length (w_sets w))%nat) by (apply nth_error_Some; congruence).
  rewrite nth_error_upd_eq by auto. eexists. split; [reflexivity|]. cbn [s_members].
  split; [now apply set_update_NoDup|]. split.
  - intros h. rewrite set_update_In. destruct a as [g|t|l|l]; simpl; try tauto.
    + split; intros [A|A]; auto. destruct A as [A|[]]; auto.
    + destruct (nth_error (w_sets w) t) as [y|].
      * split; intros [A|A]; auto.
        -- right. eauto.
        -- destruct A as (z & E & A). inversion E; subst. auto.
      * split; intros [A|A]; auto; [contradiction|]. destruct A as (z & E & A). discriminate.
  - intros t T. apply nth_error_upd_neq. auto.
Qed.
Print Assumptions set_add_exact.

(** After any sequence of additions of hypotheses, lists and iterables a new
    set has exactly the hypotheses it was created with and the added ones. *)
Theorem set_history_exact : forall (V : Type) (w : world V) l (adds : list (add_arg * bool)),
  Forall (fun ai => match fst ai with ASet _ => False | _ => True end) adds ->
  let s := length (w_sets w) in
  exists x, nth_error (w_sets (snd (run (ONew l :: map (fun ai => OAdd s (fst ai) (snd ai)) adds) w))) s
            = Some x /\
    NoDup (s_members x) /\
    forall h, In h (s_members x) <-> In h l \/
      exists ai, In ai adds /\
        match fst ai with AOne g => h = g | ASet _ => False | AList m | AIter m => In h m end.
Proof.
  intros V w l adds F s.
  assert (G : forall adds (w : world V) x, nth_error (w_sets w) s = Some x -> NoDup (s_members x) ->
    Forall (fun ai => match fst ai with ASet _ => False | _ => True end) adds ->
    exists x', nth_error (w_sets (snd (run (map (fun ai => OAdd s (fst ai) (snd ai)) adds) w))) s
               = Some x' /\
      NoDup (s_members x') /\
      forall h, In h (s_members x') <-> In h (s_members x) \/
        exists ai, In ai adds /\
          match fst ai with AOne g => h = g | ASet _ => False | AList m | AIter m => In h m end).
  { clear F adds l. clearbody s. clear w. induction adds as [|[a i] adds IH]; intros w x H N F.
    - exists x. split; [auto|]. split; [auto|]. intros h. split; [auto|].
      intros [A|(ai & [] & _)]; auto.
    - inversion F as [|y z FA FS]; subst.
      destruct (set_add_exact V w s x a i H N) as (x1 & H1 & N1 & C1 & _).
      destruct (IH (add_hypotheses s a i w) x1 H1 N1 FS) as (x2 & H2 & N2 & C2).
      cbn [map run step fst snd]. 
      destruct (run (map (fun ai => OAdd s (fst ai) (snd ai)) adds) (add_hypotheses s a i w))
        as [rs w2]. cbn [snd] in *.
      exists x2. split; [auto|]. split; [auto|]. intros h. rewrite C2, C1. split.
      + intros [[A|A]|(ai & I & A)]; auto; right.
        * exists (a, i). split; [now left|]. simpl. destruct a; auto; contradiction.
        * exists ai. split; [now right|auto].
      + intros [A|(ai & [I|I] & A)]; auto.
        * subst ai. simpl in A. left. right. destruct a; auto; contradiction.
        * right. exists ai. auto. }
  cbn [run step].
  destruct (G adds (new_set l w) (mkSet (set_update [] l) (length (w_dicts w)) false))
    as (x & H & N & C); auto.
  - unfold new_set. cbn [w_sets]. rewrite nth_error_app2 by (unfold s; lia).
    unfold s. now rewrite Nat.sub_diag.
  - apply set_update_NoDup. constructor.
  - destruct (run (map (fun ai => OAdd s (fst ai) (snd ai)) adds) (new_set l w)) as [rs w2].
    cbn [snd] in *. exists x. split; [auto|]. split; [auto|]. intros h. rewrite C.
    cbn [s_members]. rewrite set_update_In. simpl. tauto.
Qed.
Print Assumptions set_history_exact.

(** A copy starts with the same members; adding to either later leaves the
    other as it was (by [set_add_exact], the copy being a new set). *)
Theorem set_copy_members : forall (V : Type) (w : world V) s x,
  nth_error (w_sets w) s = Some x ->
  exists x', nth_error (w_sets (copy_set s w)) (length (w_sets w)) = Some x' /\
    NoDup (s_members x') /\ (forall h, In h (s_members x') <-> In h (s_members x)) /\
    (forall t, (t < length (w_sets w))%nat ->
       nth_error (w_sets (copy_set s w)) t = nth_error (w_sets w) t).
Proof.
  intros V w s x H. unfold copy_set. rewrite H. cbn [w_sets].
  rewrite nth_error_app2 by lia. rewrite Nat.sub_diag. eexists. split; [reflexivity|].
  cbn [s_members]. split; [apply set_update_NoDup; constructor|]. split.
  - intros h. rewrite set_update_In. simpl. tauto.
  - intros t T. now rewrite nth_error_app1.
Qed.
Print Assumptions set_copy_members.

(** Whatever a program does afterwards, no member is ever lost. *)
Theorem set_members_never_lost : forall (V : Type) ops (w : world V) s x,
  nth_error (w_sets w) s = Some x ->
  exists x', nth_error (w_sets (snd (run ops w))) s = Some x' /\
    incl (s_members x) (s_members x') /\ (NoDup (s_members x) -> NoDup (s_members x')).
Proof. intros. now apply run_grows. Qed.
Print Assumptions set_members_never_lost.

Example ex_sets :
  let w := snd (run (V := nat)
    [ONew [1; 2; 1]; OCopy 0; OAdd 1 (AList [3; 3]) true; OAdd 0 (ASet 1) true]%nat empty_world) in
  map s_members (w_sets w) = [[1; 2; 3]; [1; 2; 3]]%nat.
Proof. reflexivity. Qed.

(** ** C24 *)

(** As long as sets are not copied, each set is used by one routine only, and
    the invalidation is skipped only for additions that do not change that
    routine's value, every answer is the one computed from the current
    members. *)
Theorem cache_current : forall (V : Type) (owner : nat -> client V) ops,
  tame owner ops [] -> fst (run ops empty_world) = fst (irun ops []).
Proof.
  intros V owner ops T. apply (run_fresh owner); auto.
  - reflexivity.
  - split; [reflexivity|]. intros i x H. destruct i; discriminate.
Qed.
Print Assumptions cache_current.

(** With a copy it is not so: asking about the copy changes what the original
    answers. *)
Theorem cache_current_copy_refuted :
  exists (c : client nat) ops,
    fst (run ops empty_world) <> fst (irun ops []) /\
    (forall s c', In (OAsk c' s) ops -> c' = c) /\
    (forall s a, ~ In (OAdd s a false) ops).
Proof.
  exists (mkClient (fun l => length l) (fun _ => true)).
  exists [ONew [1%nat]; OAsk (mkClient (fun l => length l) (fun _ => true)) 0; OCopy 0;
          OAdd 1 (AOne 2%nat) true; OAsk (mkClient (fun l => length l) (fun _ => true)) 1;
          OAsk (mkClient (fun l => length l) (fun _ => true)) 0].
  split; [vm_compute; discriminate|]. split.
  - intros s c' H. simpl in H.
    repeat (destruct H as [H|H]; [try discriminate; inversion H; reflexivity|]). contradiction.
  - intros s a H. simpl in H.
    repeat (destruct H as [H|H]; [try discriminate|]). contradiction.
Qed.
Print Assumptions cache_current_copy_refuted.

(** Nor with two routines on one set: the second is handed the value of the
    first (exponent_pair.py and bound_mu.py use the same key). *)
Theorem cache_current_two_routines_refuted :
  exists (c1 c2 : client nat) l,
    cl_value c1 l <> cl_value c2 l /\
    fst (run [ONew l; OAsk c1 0; OAsk c2 0] empty_world) =
      [None; Some (cl_value c1 l); Some (cl_value c1 l)].
Proof.
  exists (mkClient (fun l => length l) (fun _ => true)),
         (mkClient (fun l => (length l + 1)%nat) (fun _ => true)), [7%nat].
  split; [simpl; lia|]. reflexivity.
Qed.
Print Assumptions cache_current_two_routines_refuted.

(** A tame program with a skipped invalidation, whose answers are current. *)
Example ex_tame :
  let c := mkClient (fun l => length (filter Nat.even l)) (fun l => Nat.ltb 1 (length l)) in
  let ops := [ONew [2; 4]; OAsk c 0; OAdd 0 (AOne 3) false; OAsk c 0; OAdd 0 (AList [6]) true;
              OAsk c 0; ONew [1]; OAsk c 1]%nat in
  tame (fun _ => c) ops [] /\
  fst (run ops empty_world) = [None; Some 2; None; Some 2; None; Some 3; None; Some 0]%nat.
Proof.
  split; [|reflexivity]. cbn [tame istep snd]. split; [exact Logic.I|]. split; [reflexivity|].
  split; [|split; [reflexivity|split; [discriminate|split; [reflexivity|split; [exact Logic.I|
           split; [reflexivity|exact Logic.I]]]]]].
  intros _ m E. simpl in E. inversion E. reflexivity.
Qed.

(** ** C25 *)

(** [list_hypotheses] returns exactly the members admissible for the type and
    year, in iteration order. *)
Theorem list_hypotheses_exact : forall (D : Type) (st : nat -> hyp D) ms typ year,
  (forall y, year = Some y -> has_date y) ->
  (forall h, In h ms -> proper_year (r_year (h_ref (st h)))) ->
  exists p, list_hypotheses st ms typ year = Ret (filter p ms) /\
    forall h, In h ms -> (p h = true <-> admissible st typ year h).
Proof.
  intros D st ms typ year HY HP.
  assert (X : forall h, proper_year (r_year (h_ref (st h))) ->
    exists b, is_match st h typ year = Ret b /\ (b = true <-> admissible st typ year h)).
  { intros h P. unfold is_match, admissible.
    destruct (match typ with Some t => str_eqb t (h_type (st h)) | None => true end) eqn:T.
    2:{ exists false. split; auto. split; [discriminate|]. intros [H _].
        destruct typ as [t|]; [|discriminate]. specialize (H t eq_refl). subst t.
        now rewrite str_eqb_refl in T. }
    assert (T' : forall t, typ = Some t -> h_type (st h) = t).
    { intros t E. subst typ. now apply str_eqb_true in T. }
    destruct year as [y|].
    2:{ exists true. split; [auto|]. split; [|auto]. intros _. split; [auto|discriminate]. }
    destruct (str_eqb (r_label (h_ref (st h))) lab_derived) eqn:E1; cbn [orb].
    { apply str_eqb_true in E1. exists true. split; [auto|]. split; [|auto]. intros _. auto. }
    apply str_eqb_false in E1.
    destruct (str_eqb (r_label (h_ref (st h))) lab_classical) eqn:E2.
    { apply str_eqb_true in E2. exists true. split; [auto|]. split; [|auto]. intros _. auto. }
    apply str_eqb_false in E2.
    destruct (str_eqb (r_label (h_ref (st h))) lab_conjectured) eqn:E3.
    { apply str_eqb_true in E3. exists false. split; [auto|]. split; [discriminate|].
      intros [_ H]. destruct (H y eq_refl) as [A|[A|[A B]]]; contradiction. }
    apply str_eqb_false in E3.
    destruct (val_eqb (r_year (h_ref (st h))) unknown_date) eqn:E4.
    { apply val_eqb_true in E4. exists false. split; [auto|]. split; [discriminate|].
      intros [_ H]. destruct (H y eq_refl) as [A|[A|[A B]]]; try contradiction.
      rewrite E4 in B. contradiction. }
    assert (E5 : has_date (r_year (h_ref (st h)))).
    { destruct P as [P|P]; auto. rewrite P in E4. vm_compute in E4. discriminate. }
    specialize (HY y eq_refl).
    assert (Z : exists b, val_le (r_year (h_ref (st h))) y = Ret b /\
                  (b = true <-> year_le (r_year (h_ref (st h))) y)).
    { destruct (r_year (h_ref (st h))) as [m| |s]; destruct y as [n| |t]; simpl in *;
        try contradiction; (eexists; split; [reflexivity|]); try tauto.
      - split; intros; [now apply Z.leb_le|now apply Z.leb_le in H].
      - split; [discriminate|tauto]. }
    destruct Z as (b & Eb & Z). exists b. split; [auto|]. rewrite Z. split.
    - intros H. split; [auto|]. intros y' Ey. inversion Ey; subst. auto.
    - intros [_ H]. destruct (H y eq_refl) as [A|[A|[A B]]]; try contradiction. auto. }
  induction ms as [|h ms IH].
  - exists (fun _ => true). split; [reflexivity|]. intros h [].
  - destruct IH as (p & E & C); [intros; apply HP; now right|].
    destruct (X h) as (b & Eb & Cb); [apply HP; now left|].
    (* a test that agrees with [p] except at [h] *)
    exists (fun x => if Nat.eqb x h then b else p x). split.
    + cbn [list_hypotheses]. rewrite Eb, E. cbn [bind]. f_equal. cbn [filter].
      rewrite Nat.eqb_refl.
      assert (F : filter p ms = filter (fun x => if Nat.eqb x h then b else p x) ms).
      { apply filter_ext_in. intros x I. destruct (Nat.eqb_spec x h) as [J|J]; auto. subst x.
        specialize (C h I). destruct (p h), b; auto; exfalso; intuition discriminate. }
      rewrite F. reflexivity.
    + intros x I. destruct (Nat.eqb_spec x h) as [J|J]; [now subst|].
      apply C. destruct I as [I|I]; [congruence|auto].
Qed.
Print Assumptions list_hypotheses_exact.

(** "Up to a given year" is not honoured by derived results: one derived from a
    2020 paper is listed for the year 1990. *)
Theorem list_hypotheses_year_refuted :
  exists (st : nat -> hyp unit) ms y r, list_hypotheses st ms None (Some (VInt y)) = Ret r /\
    exists h n, In h r /\ r_year (h_ref (st h)) = VInt n /\ (n > y)%Z.
Proof.
  exists (fun _ => mkHyp [] [] tt (ref_derived (VInt 2020)) []), [0%nat], 1990%Z, [0%nat].
  split; [reflexivity|]. exists 0%nat, 2020%Z. split; [now left|]. split; [reflexivity|lia].
Qed.
Print Assumptions list_hypotheses_year_refuted.

Lemma split_go_pieces : forall c s cur, ~ In c cur ->
  join [c] (split_go [c] 0 cur s) = rev cur ++ s /\
  Forall (fun p => ~ In c p) (split_go [c] 0 cur s).
Proof.
  intros c. induction s as [|d s IH]; intros cur N; cbn [split_go].
  - split; [simpl; now rewrite app_nil_r|]. constructor; auto. intro H. now apply in_rev in H.
  - cbn [starts_with]. rewrite andb_true_r. destruct (ch_eqb c d) eqn:E.
    + apply ch_eqb_true in E. subst d. simpl Nat.sub.
      destruct (IH []) as [J F]; [intros []|]. split.
      * pose proof (split_go_nonnil [c] s 0 []) as NE.
        destruct (split_go [c] 0 [] s) as [|p ps]; [contradiction|].
        change (join [c] (rev cur :: p :: ps)) with (rev cur ++ c :: join [c] (p :: ps)).
        now rewrite J.
      * constructor; auto. intro H. now apply in_rev in H.
    + apply ch_eqb_false in E. destruct (IH (d :: cur)) as [J F].
      { intros [H|H]; [congruence|contradiction]. }
      split; [|auto]. rewrite J. simpl. now rewrite <- app_assoc.
Qed.

Lemma keywords_ok : forall ks name,
  forallb (fun k => contains (strip k) name) (split [","%char] ks) = true <-> has_keywords ks name.
Proof.
  intros ks name. unfold has_keywords. split.
  - intros H pieces NE F E p I. subst ks. rewrite split_join in H by auto.
    rewrite forallb_forall in H. now apply contains_true, H.
  - intros H. apply forallb_forall. intros p I. apply contains_true.
    destruct (split_go_pieces ","%char ks []) as [J F]; [intros []|].
    apply (H (split [","%char] ks)); auto.
    apply split_go_nonnil.
Qed.

(** [find_hypothesis] returns the first member, in iteration order, with the
    given type, data, keywords in its name and year, and None exactly when no
    member has them. *)
Theorem find_hypothesis_first : forall (D : Type) (st : nat -> hyp D) (data_eqb : D -> D -> bool),
  (forall a b, data_eqb a b = true <-> a = b) ->
  forall ms typ data keywords year,
  let good h :=
    (forall t, typ = Some t -> h_type (st h) = t) /\
    (forall d, data = Some d -> h_data (st h) = d) /\
    (forall ks, keywords = Some ks -> has_keywords ks (h_name (st h))) /\
    (forall y, year = Some y -> r_year (h_ref (st h)) = y) in
  match find_hypothesis st data_eqb ms typ data keywords year with
  | Some h => exists l1 l2, ms = l1 ++ h :: l2 /\ good h /\ forall x, In x l1 -> ~ good x
  | None => forall x, In x ms -> ~ good x
  end.
Proof.
  intros D st data_eqb DE ms typ data keywords year good.
  assert (X : forall h, find_test st data_eqb typ data keywords year h = true <-> good h).
  { intros h. unfold find_test, good. rewrite !andb_true_iff.
    assert (A1 : match typ with Some t => str_eqb (h_type (st h)) t | None => true end = true <->
                 forall t, typ = Some t -> h_type (st h) = t).
    { destruct typ as [t|].
      - rewrite str_eqb_true. split; [intros A t' E; inversion E; now subst|auto].
      - split; [discriminate|auto]. }
    assert (A2 : match data with Some d => data_eqb (h_data (st h)) d | None => true end = true <->
                 forall d, data = Some d -> h_data (st h) = d).
    { destruct data as [d|].
      - rewrite DE. split; [intros A t' E; inversion E; now subst|auto].
      - split; [discriminate|auto]. }
    assert (A3 : match keywords with
                 | Some ks => forallb (fun k => contains (strip k) (h_name (st h))) (split [","%char] ks)
                 | None => true end = true <->
                 forall ks, keywords = Some ks -> has_keywords ks (h_name (st h))).
    { destruct keywords as [ks|].
      - rewrite keywords_ok. split; [intros A t' E; inversion E; now subst|auto].
      - split; [discriminate|auto]. }
    assert (A4 : match year with Some y => val_eqb (r_year (h_ref (st h))) y | None => true end = true <->
                 forall y, year = Some y -> r_year (h_ref (st h)) = y).
    { destruct year as [y|].
      - rewrite val_eqb_true. split; [intros A t' E; inversion E; now subst|auto].
      - split; [discriminate|auto]. }
    rewrite A1, A2, A3, A4. tauto. }
  unfold find_hypothesis. induction ms as [|h ms IH]; simpl.
  - intros x [].
  - destruct (find_test st data_eqb typ data keywords year h) eqn:E.
    + exists [], ms. split; [auto|]. split; [now apply X|]. intros x [].
    + assert (NG : ~ good h) by (rewrite <- X; congruence).
      destruct (find _ ms) as [g|].
      * destruct IH as (l1 & l2 & E1 & G & F). exists (h :: l1), l2. split; [simpl; now f_equal|].
        split; auto. intros x [I|I]; [now subst|auto].
      * intros x [I|I]; [now subst|auto].
Qed.
Print Assumptions find_hypothesis_first.

Definition ex_store (n : nat) : hyp nat :=
  match n with
  | 0 => mkHyp (s_of "Bourgain bound on mu(1/2)") (s_of "Upper bound on mu") 5
           (mkRef (s_of "b17") (s_of "article") [(key_year, VInt 2017)]) []
  | 1 => mkHyp (s_of "van der Corput B transform") (s_of "Exponent pair transform") 6 ref_classical []
  | 2 => mkHyp (s_of "Lindelof") (s_of "Upper bound on mu") 7 ref_conjectured []
  | 3 => mkHyp (s_of "undated") (s_of "Upper bound on mu") 8 (mkRef (s_of "u") (s_of "misc") []) []
  | _ => mkHyp (s_of "derived") (s_of "Upper bound on mu") 9 (ref_derived (VInt 2017)) [0; 1]
  end%nat.

Example ex_list :
  list_hypotheses ex_store [0; 1; 2; 3; 4]%nat (Some (s_of "Upper bound on mu")) (Some (VInt 2017))
    = Ret [0; 4]%nat /\
  list_hypotheses ex_store [0; 1; 2; 3; 4]%nat (Some (s_of "Upper bound on mu")) None
    = Ret [0; 2; 3; 4]%nat /\
  find_hypothesis ex_store Nat.eqb [0; 1; 2; 3; 4]%nat None None (Some (s_of " B transform, Corput")) None
    = Some 1%nat.
Proof. repeat split. Qed.

(** ** C26 *)

(** On an acyclic dependency graph (with chains shorter than the recursion
    limit) [recursive_dependencies] is exactly what [h] reaches by one or more
    steps, whatever the iteration order; [h] itself is not included. *)
Theorem recursive_dependencies_exact : forall (D : Type) (st : nat -> hyp D) ord rank fuel h,
  (forall h l, Permutation (ord h l) l) -> ranked st rank -> (rank h < fuel)%nat ->
  exists l, recursive_dependencies st ord fuel h = Ret l /\ NoDup l /\
    (forall x, In x l <-> reaches st h x) /\ ~ In h l.
Proof.
  intros D st ord rank fuel h O R L.
  destruct (add_recursive_ok st ord O rank R fuel h [] L) as (l & E & C & N).
  exists l. split; [exact E|]. split; [apply N; constructor|].
  assert (C' : forall x, In x l <-> reaches st h x).
  { intros x. rewrite C. simpl. tauto. }
  split; [exact C'|]. rewrite C'. intros H.
  assert (G : forall a b, reaches st a b -> (rank b < rank a)%nat).
  { intros a b X. induction X; [now apply R|lia]. }
  specialize (G h h H). lia.
Qed.
Print Assumptions recursive_dependencies_exact.

(** The result does not depend on the iteration orders or the recursion limit. *)
Theorem recursive_dependencies_order_free : forall (D : Type) (st : nat -> hyp D) ord ord' rank fuel fuel' h l l',
  (forall h l, Permutation (ord h l) l) -> (forall h l, Permutation (ord' h l) l) ->
  ranked st rank -> (rank h < fuel)%nat -> (rank h < fuel')%nat ->
  recursive_dependencies st ord fuel h = Ret l -> recursive_dependencies st ord' fuel' h = Ret l' ->
  Permutation l l'.
Proof.
  intros D st ord ord' rank fuel fuel' h l l' O O' R L L' E E'.
  destruct (recursive_dependencies_exact D st ord rank fuel h O R L) as (m & Em & N & C & _).
  destruct (recursive_dependencies_exact D st ord' rank fuel' h O' R L') as (m' & Em' & N' & C' & _).
  rewrite E in Em. rewrite E' in Em'. injection Em as <-. injection Em' as <-.
  apply NoDup_Permutation; auto. intros x. now rewrite C, C'.
Qed.
Print Assumptions recursive_dependencies_order_free.

(** A hypothesis that depends on itself, however indirectly, has no recursive
    dependencies: the call raises RecursionError under every recursion limit. *)
Theorem recursive_dependencies_cycle : forall (D : Type) (st : nat -> hyp D) ord fuel h,
  (forall h l, Permutation (ord h l) l) -> reaches st h h ->
  recursive_dependencies st ord fuel h = Raise RecursionError.
Proof. intros. now apply add_recursive_cycle. Qed.
Print Assumptions recursive_dependencies_cycle.

Definition ex_graph (n : nat) : hyp unit :=
  match n with
  | 0 => mkHyp [] [] tt (mkRef [] [] [(key_year, VInt 1921)]) []
  | 1 => mkHyp [] [] tt (mkRef [] [] [(key_year, VInt 1986)]) []
  | 2 => mkHyp [] [] tt (ref_derived (VInt 1986)) [0; 1]
  | 3 => mkHyp [] [] tt (ref_derived (VInt 1986)) [2; 1]
  | 4 => mkHyp [] [] tt (mkRef [] [] []) [3]
  | 5 => mkHyp [] [] tt (ref_derived (VInt 5)) [6]
  | 6 => mkHyp [] [] tt (ref_derived (VInt 6)) [5]
  | _ => mkHyp [] [] tt ref_classical []
  end%nat.

Example ex_recursive :
  recursive_dependencies ex_graph (fun _ l => l) 10 3 = Ret [2; 1; 0]%nat /\
  recursive_dependencies ex_graph (fun _ l => rev l) 10 3 = Ret [1; 2; 0]%nat /\
  reaches ex_graph 5 5 /\ recursive_dependencies ex_graph (fun _ l => l) 100 5 = Raise RecursionError.
Proof.
  split; [reflexivity|]. split; [reflexivity|]. split; [|reflexivity].
  apply t_trans with 6%nat; apply t_step; now left.
Qed.

(** ** C27 *)

(** [proof_complexity] is the number of nodes of the proof tree, in which a
    dependency used twice counts twice. *)
Theorem proof_complexity_is_tree_size : forall (D : Type) (st : nat -> hyp D) ord rank fuel h,
  (forall h l, Permutation (ord h l) l) -> ranked st rank -> (rank h < fuel)%nat ->
  exists t, unfolds st h t /\ proof_complexity st ord fuel h = Ret (size t).
Proof.
  intros D st ord rank fuel h O R L.
  destruct (unfolds_exists st rank R (S (rank h)) h) as (t & T); [lia|].
  exists t. split; auto. now apply (complexity_ok st ord O rank R).
Qed.
Print Assumptions proof_complexity_is_tree_size.

(** The nodes of a proof tree. *)
Fixpoint nodes (t : tree) : list nat := match t with node h ts => h :: flat_map nodes ts end.

Section TreeInd.
Variable P : tree -> Prop.
Hypothesis H : forall h ts, Forall P ts -> P (node h ts).
Fixpoint tree_ind' (t : tree) : P t :=
  match t with
  | node h ts => H h ts ((fix go ts := match ts return Forall P ts with
                          | [] => Forall_nil P
                          | t :: ts' => Forall_cons t (tree_ind' t) (go ts')
                          end) ts)
  end.
End TreeInd.

Lemma size_nodes : forall t, size t = Z.of_nat (length (nodes t)).
Proof.
  induction t as [h ts F] using tree_ind'. cbn [size nodes length].
  assert (E : fold_right Z.add 0%Z (map size ts) = Z.of_nat (length (flat_map nodes ts))).
  { induction F as [|t ts Ht F IH]; auto. cbn [map fold_right flat_map]. rewrite app_length, IH, Ht. lia. }
  rewrite E. lia.
Qed.

Lemma size_pos : forall t, (1 <= size t)%Z.
Proof. intros t. rewrite size_nodes. destruct t. cbn [nodes length]. lia. Qed.

Lemma nodes_reached : forall (D : Type) (st : nat -> hyp D) h x, reaches st h x ->
  forall ts, unfolds st h (node h ts) -> In x (flat_map nodes ts).
Proof.
  intros D st h x R. apply clos_trans_t1n in R. induction R as [h x S|h d x S R IH]; intros ts U.
  - inversion U as [h' ts' F]; subst. unfold depends in S.
    clear U. induction F as [|d t ds ts T F IHF]; [contradiction|].
    cbn [flat_map]. apply in_or_app. destruct S as [S|S]; [left|right; auto].
    subst. inversion T; subst. now left.
  - inversion U as [h' ts' F]; subst. unfold depends in S. clear U.
    induction F as [|d' t ds ts T F IHF]; [contradiction|].
    cbn [flat_map]. apply in_or_app. destruct S as [S|S]; [left|right; auto].
    subst. inversion T as [d'' ts'' F'']; subst. cbn [nodes]. right. apply IH. exact T.
Qed.

(** Complexity is 1 exactly for a hypothesis without dependencies, is larger
    than that of every dependency, and is larger than the number of distinct
    recursive dependencies. *)
Theorem proof_complexity_bounds : forall (D : Type) (st : nat -> hyp D) ord rank fuel h c,
  (forall h l, Permutation (ord h l) l) -> ranked st rank -> (rank h < fuel)%nat ->
  proof_complexity st ord fuel h = Ret c ->
  (c = 1%Z <-> h_deps (st h) = []) /\
  (forall d c', depends st h d -> proof_complexity st ord fuel d = Ret c' -> (c' < c)%Z) /\
  (forall l, recursive_dependencies st ord fuel h = Ret l -> (Z.of_nat (length l) < c)%Z).
Proof.
  intros D st ord rank fuel h c O R L E.
  destruct (proof_complexity_is_tree_size D st ord rank fuel h O R L) as (t & T & E').
  rewrite E in E'. injection E' as ->. destruct t as [h' ts].
  assert (h' = h) by (inversion T; auto). subst h'. inversion T as [h' ts' F]; subst h' ts'.
  assert (SB : forall (d : nat) t, In t ts -> (size t <= fold_right Z.add 0 (map size ts))%Z /\
                 (1 <= fold_right Z.add 0 (map size ts))%Z).
  { intros _ t I. clear -I. induction ts as [|u ts IH]; [contradiction|].
    cbn [map fold_right]. pose proof (size_pos u) as PU.
    assert (NN : (0 <= fold_right Z.add 0 (map size ts))%Z).
    { clear. induction ts as [|v ts IH]; simpl; [lia|]. pose proof (size_pos v). lia. }
    destruct I as [I|I]; [subst; lia|]. destruct (IH I). lia. }
  split; [|split].
  - cbn [size]. split.
    + intros X. destruct (h_deps (st h)) as [|d ds]; auto. exfalso.
      inversion F as [|d' t' ds' ts' Ft Fs]; subst.
      destruct (SB d t' (or_introl eq_refl)). lia.
    + intros X. rewrite X in F. inversion F; subst. reflexivity.
  - intros d c' S EC.
    assert (Ld : (rank d < fuel)%nat) by (specialize (R h d S); lia).
    destruct (proof_complexity_is_tree_size D st ord rank fuel d O R Ld) as (td & Td & Ed).
    assert (X : exists u, In u ts /\ unfolds st d u).
    { unfold depends in S. clear -F S. induction F as [|x y l l' Hx F IH]; [contradiction|].
      destruct S as [S|S]; [subst; exists y; simpl; auto|].
      destruct (IH S) as (u & I & U). exists u. simpl. auto. }
    destruct X as (u & I & U).
    pose proof (complexity_ok st ord O rank R fuel d u Ld U) as Eu.
    rewrite EC in Eu. injection Eu as ->. cbn [size]. destruct (SB d u I). lia.
  - intros l El.
    destruct (recursive_dependencies_exact D st ord rank fuel h O R L) as (m & Em & N & C & NH).
    rewrite El in Em. injection Em as <-. rewrite size_nodes. cbn [nodes length].
    assert (X : (length l <= length (flat_map nodes ts))%nat); [|lia].
    apply NoDup_incl_length; auto. intros x I. apply C in I.
    now apply (nodes_reached D st h x).
Qed.
Print Assumptions proof_complexity_bounds.

(** [proof_date] is the latest year among the hypothesis and everything it
    depends on, counting unknown dates as -1. *)
Theorem proof_date_is_latest : forall (D : Type) (st : nat -> hyp D) ord rank fuel h,
  (forall h l, Permutation (ord h l) l) -> ranked st rank -> (rank h < fuel)%nat ->
  (forall h, proper_year (r_year (h_ref (st h)))) ->
  exists y, proof_date st ord fuel h = Ret y /\ has_date y /\ latest_counted st h y.
Proof. intros D st ord rank fuel h O R L P. now apply (date_ok st ord O rank R P). Qed.
Print Assumptions proof_date_is_latest.

(** So a proof resting on an undated result is given a date all the same. *)
Theorem proof_date_unknown_refuted :
  exists (st : nat -> hyp unit) h d, reaches st h d /\ r_year (h_ref (st d)) = unknown_date /\
    proof_date st (fun _ l => l) 10 h = Ret (VInt 1986).
Proof.
  exists (fun n => match n with
                   | 0%nat => mkHyp [] [] tt (mkRef [] [] []) []
                   | _ => mkHyp [] [] tt (ref_derived (VInt 1986)) [0%nat] end), 1%nat, 0%nat.
  split; [apply t_step; now left|]. split; reflexivity.
Qed.
Print Assumptions proof_date_unknown_refuted.

(** When every hypothesis with dependencies carries the year of the latest of
    them, as the [derived_*] constructors arrange, the proof date is the
    hypothesis's own year. *)
Theorem proof_date_well_derived : forall (D : Type) (st : nat -> hyp D) ord rank fuel h,
  (forall h l, Permutation (ord h l) l) -> ranked st rank -> (rank h < fuel)%nat ->
  (forall h, has_date (r_year (h_ref (st h)))) -> well_derived st ->
  proof_date st ord fuel h = Ret (r_year (h_ref (st h))).
Proof.
  intros D st ord rank fuel h O R L P W.
  destruct (date_ok st ord O rank R (fun h => or_introl (P h)) fuel h L) as (y & E & HY & (X & M)).
  rewrite E. f_equal.
  assert (CY : forall x, counted_year st x (r_year (h_ref (st x)))).
  { intros x. right. split; auto. intro U. specialize (P x). rewrite U in P. contradiction. }
  assert (G : forall a b, reaches st a b -> year_le (r_year (h_ref (st b))) (r_year (h_ref (st a)))).
  { intros a b Rab. induction Rab as [a b S|a b c R1 I1 R2 I2].
    - assert (NE : h_deps (st a) <> []) by (intro Z; unfold depends in S; rewrite Z in S; contradiction).
      destruct (W a NE) as [_ Wl]. apply Wl. apply in_map_iff. exists b. auto.
    - now apply (year_le_trans _ (r_year (h_ref (st b)))). }
  apply year_le_antisym.
  - destruct X as (x & [Hx|Hx] & Cx).
    + subst x. rewrite (counted_unique st h y _ Cx (CY h)). now apply year_le_refl.
    + rewrite (counted_unique st x y _ Cx (CY x)). now apply G.
  - apply (M h); auto.
Qed.
Print Assumptions proof_date_well_derived.

Example ex_complexity :
  proof_complexity ex_graph (fun _ l => l) 10 3 = Ret 5%Z /\
  proof_date ex_graph (fun _ l => l) 10 4 = Ret (VInt 1986) /\
  proof_date ex_graph (fun _ l => l) 10 3 = Ret (VInt 1986).
Proof. repeat split. Qed.
