(** C72: the derivation of the Guth-Maynard large value theorem. *)
From Coq Require Import Permutation.
From Verif Require Import Base Model_Text Model_Reference Spec_Reference LinAlg Model_Polytope Spec_Polytope Proof_Polytope Model_Region Spec_Region FM_Ext
  Model_Format Spec_Format Proof_Format Prop_Format Model_LargeValues Spec_LargeValues Proof_LargeValues Model_AdditiveEnergy Spec_AdditiveEnergy Proof_AdditiveEnergy Prop_AdditiveEnergy
  Model_LiteratureEnergy Spec_LiteratureEnergy Prop_LiteratureEnergy Model_BourgainOptimum Prop_BourgainOptimum Model_GuthMaynard Spec_GuthMaynard Proof_GuthMaynard.
Require Import Lqa.
Open Scope list_scope.

(** ** The hypotheses that are found *)
Lemma e_find_only : forall lit kw h, In h lit -> e_keyword_match kw h = true -> (forall g, In g lit -> e_keyword_match kw g = true -> g = h) -> e_find lit kw = Some h.
Proof.
  intros lit kw h I M U. unfold e_find. destruct (find (e_keyword_match kw) lit) as [g|] eqn:F.
  - apply find_some in F as [Ig Mg]. f_equal. now apply U.
  - exfalso. pose proof (find_none _ _ F h I) as N. congruence.
Qed.
Definition match_name (kw n : str) : bool := forallb (fun k => Model_Text.contains (Model_Text.strip k) n) (Model_Text.split [","%char] kw).
Lemma match_by_name : forall kw g, e_keyword_match kw g = match_name kw (e_name g).
Proof. reflexivity. Qed.

Section Literature.
Context (E : ext) (OK : ext_ok E) (get : str -> reference) (GR : gm_reference get) (lit : list enode) (GL : gm_literature E get lit).

Theorem guth_maynard_found : exists h1 h2 h3,
  e_find lit gm_first_keywords = Some h1 /\ e_find lit gm_second_keywords = Some h2 /\ e_find lit gm_third_keywords = Some h3 /\
  records h1 (get (s_of "guth-maynard")) (s_of " 1 with k = 2") (gm_recorded 2) /\
  records h2 (get (s_of "guth-maynard")) (s_of " 2") gm_simple_open /\ records h3 (get (s_of "guth-maynard")) (s_of " 3") gm_third_open.
Proof.
  destruct GL as (hs & g2 & g3 & E1 & E2 & E3 & I & O). destruct GR as [AU _].
  destruct (gm_relation_regions E get 4 OK) as (hs' & E1' & L & X). rewrite E1 in E1'. apply (f_equal (fun x => match x with Ret y => y | _ => hs end)) in E1'. subst hs'.
  destruct (gm_simple_region E get OK) as (g2' & E2' & X2). rewrite E2 in E2'. apply (f_equal (fun x => match x with Ret y => y | _ => g2 end)) in E2'. subst g2'.
  destruct (gm_third_region E get OK) as (g3' & E3' & X3). rewrite E3 in E3'. apply (f_equal (fun x => match x with Ret y => y | _ => g3 end)) in E3'. subst g3'.
  destruct (X 1%Z ltac:(lia)) as (a1 & N1 & Y1). destruct (X 2%Z ltac:(lia)) as (a2 & N2 & Y2). destruct (X 3%Z ltac:(lia)) as (a3 & N3 & Y3).
  change (Z.to_nat (4 - 1)) with 3%nat in L. change (Z.to_nat (1 - 1)) with 0%nat in N1. change (Z.to_nat (2 - 1)) with 1%nat in N2. change (Z.to_nat (3 - 1)) with 2%nat in N3.
  destruct hs as [|b1 [|b2 [|b3 [|]]]]; try discriminate. cbn in N1, N2, N3.
  assert (b1 = a1 /\ b2 = a2 /\ b3 = a3) as (-> & -> & ->) by (split; [congruence|split; congruence]). clear N1 N2 N3 L X E1 E2 E3.
  assert (M1 : e_name a1 = s_of "Guth--Maynard large value energy region 1 with k = 1") by (destruct Y1 as (_ & _ & -> & _); rewrite AU; reflexivity).
  assert (M2 : e_name a2 = s_of "Guth--Maynard large value energy region 1 with k = 2") by (destruct Y2 as (_ & _ & -> & _); rewrite AU; reflexivity).
  assert (M3 : e_name a3 = s_of "Guth--Maynard large value energy region 1 with k = 3") by (destruct Y3 as (_ & _ & -> & _); rewrite AU; reflexivity).
  assert (M4 : e_name g2 = s_of "Guth--Maynard large value energy region 2") by (destruct X2 as (_ & _ & -> & _); rewrite AU; reflexivity).
  assert (M5 : e_name g3 = s_of "Guth--Maynard large value energy region 3") by (destruct X3 as (_ & _ & -> & _); rewrite AU; reflexivity).
  assert (OUT : forall kw tail g, Model_Text.split [","%char] kw = [kw] -> Model_Text.strip kw = s_of "Guth--Maynard large value energy region" ++ tail ->
     Model_Text.contains (s_of "Guth--Maynard large value energy region") (e_name g) = false -> e_keyword_match kw g = false).
  { intros kw tail g Sp St N. unfold e_keyword_match. rewrite Sp. cbn [forallb]. rewrite St, andb_true_r.
    destruct (Model_Text.contains (s_of "Guth--Maynard large value energy region" ++ tail) (e_name g)) eqn:C; [|reflexivity]. exfalso.
    apply Model_Text.contains_true in C as (u & v & Ev). rewrite <- app_assoc in Ev.
    assert (Y : Model_Text.contains (s_of "Guth--Maynard large value energy region") (e_name g) = true) by (apply Model_Text.contains_true; eauto). congruence. }
  exists a2, g2, g3. split; [|split; [|split; [|auto]]].
  - apply e_find_only; [apply I; cbn; auto|rewrite match_by_name, M2; vm_compute; reflexivity|].
    intros g Ig Mg. destruct (O g Ig) as [[<-|[<-|[<-|[<-|[<-|[]]]]]]|N]; try reflexivity; exfalso;
      [rewrite match_by_name, M1 in Mg|rewrite match_by_name, M3 in Mg|rewrite match_by_name, M4 in Mg|rewrite match_by_name, M5 in Mg|]; try (vm_compute in Mg; discriminate).
    rewrite (OUT _ (s_of " 1 with k = 2") g) in Mg; [discriminate|vm_compute; reflexivity|vm_compute; reflexivity|exact N].
  - apply e_find_only; [apply I; cbn; auto 10|rewrite match_by_name, M4; vm_compute; reflexivity|].
    intros g Ig Mg. destruct (O g Ig) as [[<-|[<-|[<-|[<-|[<-|[]]]]]]|N]; try reflexivity; exfalso;
      [rewrite match_by_name, M1 in Mg|rewrite match_by_name, M2 in Mg|rewrite match_by_name, M3 in Mg|rewrite match_by_name, M5 in Mg|]; try (vm_compute in Mg; discriminate).
    rewrite (OUT _ (s_of " 2") g) in Mg; [discriminate|vm_compute; reflexivity|vm_compute; reflexivity|exact N].
  - apply e_find_only; [apply I; cbn; auto 10|rewrite match_by_name, M5; vm_compute; reflexivity|].
    intros g Ig Mg. destruct (O g Ig) as [[<-|[<-|[<-|[<-|[<-|[]]]]]]|N]; try reflexivity; exfalso;
      [rewrite match_by_name, M1 in Mg|rewrite match_by_name, M2 in Mg|rewrite match_by_name, M3 in Mg|rewrite match_by_name, M4 in Mg|]; try (vm_compute in Mg; discriminate).
    rewrite (OUT _ (s_of " 3") g) in Mg; [discriminate|vm_compute; reflexivity|vm_compute; reflexivity|exact N].
Qed.
End Literature.
Print Assumptions guth_maynard_found.

(** ** What is proved *)
Lemma three_run : forall E, ext_ok E -> drops_trivial_rows E -> forall order, (forall k l, Permutation (order k l) l) ->
  forall iteration, (forall l x, In x (iteration l) <-> In x l) -> forall get lit, gm_reference get -> gm_literature E get lit ->
  exists poly, good poly /\ (forall x, member poly x <-> exists s r, x = [s; r] /\ 7#10 <= s /\ s <= 8#10 /\ 0 <= r /\ r <= (18#5) - 4 * s) /\
    prove_guth_maynard_large_values_theorem E order iteration lit = let! text := polytope_str poly gm_names in Ret (poly, text).
Proof.
  intros E OK DT order OO iteration IT get lit GR GL. destruct (guth_maynard_found E OK get GR lit GL) as (h1 & h2 & h3 & E1 & E2 & E3 & R1 & R2 & R3).
  destruct GR as [_ PY]. set (hs := iteration [h1; h2; h3]).
  assert (HS : forall h, In h hs <-> h = h1 \/ h = h2 \/ h = h3) by (intro h; unfold hs; rewrite IT; cbn [In]; intuition congruence).
  destruct (slice_ok E OK order OO hs h1 h2 h3 _ _ _ _ HS R1 R2 R3 PY) as (ps & Es & F & UP & OP).
  destruct (simplify_ok E OK DT ps F UP OP) as (u & Mu & Gu & Eu). exists u. split; [exact Gu|]. split; [exact Mu|].
  unfold prove_guth_maynard_large_values_theorem. rewrite E1, E2, E3. cbn [e_found bind]. fold hs. rewrite Es. cbn [bind]. exact Eu.
Qed.

Lemma poly_ncol : forall p x y, member p [x; y] -> ncol (pmat p) = 3%nat.
Proof. intros p x y [L _]. cbn in L. congruence. Qed.
Lemma names_ok : Forall name gm_names /\ NoDup gm_names.
Proof.
  split.
  - repeat constructor; cbn; try discriminate; intuition discriminate.
  - repeat constructor; cbn; intuition discriminate.
Qed.

(** The range that is printed is that of the theorem with tau = 6/5, whatever the order
    in which the pieces are met. *)
Theorem guth_maynard_proved : forall E, ext_ok E -> drops_trivial_rows E -> forall order, (forall k l, Permutation (order k l) l) ->
  forall iteration, (forall l x, In x (iteration l) <-> In x l) -> forall get lit, gm_reference get -> gm_literature E get lit ->
  exists poly text, prove_guth_maynard_large_values_theorem E order iteration lit = Ret (poly, text) /\
    forall x, member poly x <-> exists s r, x = [s; r] /\ gm_range s r.
Proof.
  intros E OK DT order OO iteration IT get lit GR GL. destruct (three_run E OK DT order OO iteration IT get lit GR GL) as (u & (W & _) & Mu & Eu).
  assert (N : ncol (pmat u) = 3%nat) by (apply (poly_ncol u (3#4) 0), Mu; exists (3#4), 0; split; [reflexivity|lra]).
  destruct names_ok as [NA ND]. destruct (polytope_text u gm_names W NA ND) as (text & rows & Et & _); [rewrite N; cbn; lia|].
  rewrite Et in Eu. exists u, text. split; [exact Eu|]. intro x. rewrite Mu.
  split; intros (s & r & -> & A & B & C & D); exists s, r; (split; [reflexivity|]); pose proof (bound_at_gm s A B) as Q; unfold gm_range in *; repeat split; auto; lra.
Qed.
Print Assumptions guth_maynard_proved.

(** The printed text calls the second variable, which is rho, tau: read with the names it
    uses it says nothing of rho and holds for no tuple with tau = 6/5. *)
Theorem guth_maynard_text_refuted : forall E, ext_ok E -> drops_trivial_rows E -> forall order, (forall k l, Permutation (order k l) l) ->
  forall iteration, (forall l x, In x (iteration l) <-> In x l) -> forall get lit, gm_reference get -> gm_literature E get lit ->
  exists poly text rows, prove_guth_maynard_large_values_theorem E order iteration lit = Ret (poly, text) /\ read_polytope text = Some rows /\
    (forall s t r, text_says rows s t r <-> gm_range s t) /\ forall s r, ~ text_says rows s gm_tau r.
Proof.
  intros E OK DT order OO iteration IT get lit GR GL. destruct (three_run E OK DT order OO iteration IT get lit GR GL) as (u & (W & _) & Mu & Eu).
  assert (N : ncol (pmat u) = 3%nat) by (apply (poly_ncol u (3#4) 0), Mu; exists (3#4), 0; split; [reflexivity|lra]).
  destruct names_ok as [NA ND]. destruct (polytope_text u gm_names W NA ND) as (text & rows & Et & Er & H); [rewrite N; cbn; lia|].
  destruct (polytope_read u gm_names W NA) as (text' & rows' & Et' & Er' & H'); [rewrite N; cbn; lia|].
  rewrite Et in Et'. injection Et' as <-. rewrite Er in Er'. injection Er' as <-.
  rewrite Et in Eu. exists u, text, rows. split; [exact Eu|]. split; [exact Er|].
  assert (X : forall s t r, text_says rows s t r <-> member u [s; t]).
  { intros s t r. unfold text_says, member, mmember. rewrite N. destruct W as [_ W]. rewrite N in W, H.
    assert (G : Forall (fun row : list (Q * str) * bool => if snd row then sum_at (fst row) s t r == 0 else 0 <= sum_at (fst row) s t r) rows <->
                Forall (fun rb => Spec_Polytope.holds rb [s; t]) (mrows (pmat u))).
    { clear - H H' W. revert H H' W. generalize (mrows (pmat u)). intros l H. induction H as [|[c b] [ts b'] l rows (Hb & H0 & Hi) H IH]; intros H' W; [split; constructor|].
      inversion H' as [|? ? ? ? [_ T] H2]; subst. apply Forall_cons_iff in W as [L W]. cbn [fst snd] in *. subst b'.
      rewrite !Forall_cons_iff, (IH H2 W). cbn [fst snd].
      destruct c as [|c0 [|c1 [|c2 [|]]]]; try discriminate. cbn [hd tl nth] in *.
      pose proof (Hi 0%nat ltac:(cbn; lia)) as K1. pose proof (Hi 1%nat ltac:(cbn; lia)) as K2. cbn [nth gm_names] in K1, K2.
      assert (K3 : coefficient (s_of "ρ") ts == 0).
      { rewrite (coefficient_same _ _ _ T). apply coefficient_absent. unfold with_constant, terms. intro I.
        assert (J : In (s_of "ρ") (map snd ((c0, []) :: combine [c1; c2] gm_names))).
        { destruct (Qeqb c0 0); [right|destruct I as [I|I]; [discriminate|right]]; apply in_map_iff in I as (w & Ew & I); apply filter_In in I as [I _]; apply in_map_iff; eauto. }
        cbn in J. intuition discriminate. }
      assert (K : sum_at ts s t r == rowval [c0; c1; c2] [s; t]) by (unfold sum_at; rewrite rowval3, H0, K1, K2, K3; ring).
      unfold Spec_Polytope.holds. cbn [fst snd]. destruct b; rewrite K; tauto. }
    rewrite G. cbn [length]. tauto. }
  assert (Y : forall s t r, text_says rows s t r <-> gm_range s t).
  { intros s t r. rewrite X, Mu. unfold gm_range. split.
    - intros (s' & t' & Q & A & B & C & D). injection Q as <- <-. rewrite (bound_at_gm s A B). auto.
    - intros (A & B & C & D). rewrite (bound_at_gm s A B) in D. exists s, t. auto. }
  split; [exact Y|]. intros s r T. apply Y in T as (A & B & _ & D). rewrite (bound_at_gm s A B) in D. unfold gm_tau in D. lra.
Qed.
Print Assumptions guth_maynard_text_refuted.

(** What the printed range says of rho is true wherever the published relations hold,
    although one of them is not recorded as published (C62). *)
Theorem guth_maynard_true : forall W, en_admissible W -> obeys W (gm_relation 2) -> obeys W gm_third ->
  forall s r, 7#10 <= s -> s <= 8#10 -> 0 <= r -> 3 * r + 2 <= LV_DEFAULT_UPPER_BOUND -> lv (low W) s (6#5) r -> gm_range s r.
Proof.
  intros W Ad O1 O3 s r A B C D L. destruct (lv_en W Ad s (6#5) r ltac:(lra) ltac:(lra) ltac:(lra) C L) as (e & z & En).
  destruct (en_sizes W Ad _ _ _ _ _ En) as (_ & S1 & S2 & S3 & S4).
  assert (Rc : recorded s (6#5) r e z) by (unfold recorded, in_range5, in_range, TAU_UPPER_LIMIT, LV_DEFAULT_UPPER_BOUND in *; lra).
  destruct (O1 _ _ _ _ _ Rc En) as [_ G]. pose proof (O3 _ _ _ _ _ Rc En ltac:(lra) ltac:(lra)) as T.
  unfold gm_range. rewrite (bound_at_gm s A B). repeat split; auto. now apply (gm_upper s r e).
Qed.
Print Assumptions guth_maynard_true.

(** Nothing is proved if one of the regions is not recorded. *)
Theorem guth_maynard_missing : forall E order iteration lit,
  e_find lit gm_first_keywords = None \/ e_find lit gm_second_keywords = None \/ e_find lit gm_third_keywords = None ->
  prove_guth_maynard_large_values_theorem E order iteration lit = Raise AttributeError.
Proof.
  intros E order iteration lit H. unfold prove_guth_maynard_large_values_theorem.
  destruct (e_find lit gm_first_keywords); [|reflexivity]. destruct (e_find lit gm_second_keywords); [|reflexivity]. destruct (e_find lit gm_third_keywords); [|reflexivity].
  destruct H as [H|[H|H]]; discriminate.
Qed.
Print Assumptions guth_maynard_missing.

(** Asked for all derivations, the program stops at Bourgain's theorem and this one is
    not reached, whatever is recorded. *)
Theorem prove_all_refuted : forall E order iteration rest lit, prove_bourgain_large_values_theorem rest = Raise TypeError /\
  prove_all_large_value_estimates E order iteration rest lit = Raise TypeError.
Proof.
  intros E order iteration rest lit. unfold prove_all_large_value_estimates, prove_bourgain_large_values_theorem.
  rewrite optimize_bourgain_refuted. split; reflexivity.
Qed.
Print Assumptions prove_all_refuted.

(** ** The assumptions can be met *)
Definition without_zero_rows (m : mat) : mat := mkMat (filter (fun rb => negb (is_zero_row (fst rb))) (mrows m)) (ncol m).
Definition tidy_ext : ext := mkExt (fun m => fm_canonicalize (without_zero_rows m)) fm_lp fm_generators fm_inequalities dedup.
Lemma without_wf : forall m, wf_mat m -> wf_mat (without_zero_rows m) /\ no_zero_rows (without_zero_rows m) /\ forall x, mmember (without_zero_rows m) x <-> mmember m x.
Proof.
  intros m [W1 W2]. split; [split; [exact W1|]|split].
  - cbn [without_zero_rows mrows ncol]. apply Forall_forall. intros rb I. apply filter_In in I as [I _]. rewrite Forall_forall in W2. auto.
  - unfold no_zero_rows. cbn [without_zero_rows mrows]. apply Forall_forall. intros rb I Z. apply filter_In in I as [_ I]. apply is_zero_row_iff in Z. rewrite Z in I. discriminate.
  - intro x. unfold mmember. cbn [without_zero_rows mrows ncol]. rewrite !Forall_forall. split; intros [L H]; (split; [exact L|]); intros rb I.
    + destruct (is_zero_row (fst rb)) eqn:Z; [|apply H; apply filter_In; now rewrite Z]. apply is_zero_row_iff in Z.
      assert (V : rowval (fst rb) x == 0).
      { rewrite rowval_dot. clear - Z. generalize (1 :: x). induction Z as [|c r C Z IH]; intro y; [reflexivity|]. destruct y as [|v y]; simpl; [reflexivity|]. rewrite C, IH. ring. }
      unfold Spec_Polytope.holds. destruct (snd rb); rewrite V; lra.
    + apply filter_In in I as [I _]. auto.
Qed.
Lemma tidy_ext_ok : ext_ok tidy_ext.
Proof.
  pose proof fm_ext_ok as OK. constructor; cbn [canonicalize linprog generators inequalities set_list tidy_ext].
  - intros m W. destruct (without_wf m W) as (W' & _ & _). destruct (canon_wf fm_ext OK _ W') as [A B]. split; [exact A|exact B].
  - intros m x W. destruct (without_wf m W) as (W' & _ & M). rewrite <- M. exact (canon_set fm_ext OK _ x W').
  - intros m W _. destruct (without_wf m W) as (W' & N & _). exact (canon_nz fm_ext OK _ W' N).
  - intros m W _. destruct (without_wf m W) as (W' & N & _). exact (canon_canonical fm_ext OK _ W' N).
  - exact (lp_max_optimal fm_ext OK).
  - exact (lp_max_other fm_ext OK).
  - exact (lp_min_optimal fm_ext OK).
  - exact (lp_min_other fm_ext OK).
  - exact (gen_spans fm_ext OK).
  - exact (ineq_ok fm_ext OK).
  - exact (set_list_sub fm_ext OK).
  - exact (set_list_all fm_ext OK).
Qed.
Lemma tidy_ext_drops : drops_trivial_rows tidy_ext.
Proof.
  intros m W _. destruct (without_wf m W) as (W' & N & _). split; [exact (canon_nz fm_ext fm_ext_ok _ W' N)|exact (canon_canonical fm_ext fm_ext_ok _ W' N)].
Qed.
Definition gm_get (label : str) : reference := ref_make (s_of "Guth--Maynard") 2024.
Lemma gm_get_ok : gm_reference gm_get.
Proof. split; [reflexivity|]. left. cbn. exact Logic.I. Qed.

(** A literature with these regions, and what is then printed. *)
Example guth_maynard_case : exists lit, gm_literature tidy_ext gm_get lit /\ (exists g1 g2 g3 g4 g5, lit = [g1; g2; g3; g4; g5]) /\
  exists poly text, prove_guth_maynard_large_values_theorem tidy_ext (fun _ l => l) (fun l => l) lit = Ret (poly, text) /\
    member poly [3#4; 3#5] /\ ~ member poly [3#4; 61#100] /\ ~ member poly [69#100; 1#2].
Proof.
  destruct (gm_relation_regions tidy_ext gm_get 4 tidy_ext_ok) as (hs & E1 & L & _).
  destruct (gm_simple_region tidy_ext gm_get tidy_ext_ok) as (h2 & E2 & _). destruct (gm_third_region tidy_ext gm_get tidy_ext_ok) as (h3 & E3 & _).
  assert (GL : gm_literature tidy_ext gm_get (hs ++ [h2; h3])).
  { exists hs, h2, h3. split; [exact E1|]. split; [exact E2|]. split; [exact E3|]. split; [apply incl_refl|]. intros g I. now left. }
  exists (hs ++ [h2; h3]). split; [exact GL|]. split; [destruct hs as [|a [|b [|c [|]]]]; try discriminate L; exists a, b, c, h2, h3; reflexivity|].
  destruct (guth_maynard_proved tidy_ext tidy_ext_ok tidy_ext_drops (fun _ l => l) (fun k l => Permutation_refl l) (fun l => l) (fun l x => conj (fun H => H) (fun H => H)) gm_get _ gm_get_ok GL) as (u & text & Eu & Mu).
  exists u, text. split; [exact Eu|]. rewrite !Mu. split; [|split].
  - exists (3#4), (3#5). split; [reflexivity|]. unfold gm_range. rewrite (bound_at_gm (3#4)); lra.
  - intros (s & r & Q & A & B & C & D). rewrite (bound_at_gm s A B) in D. injection Q as <- <-. lra.
  - intros (s & r & Q & A & B & C & D). injection Q as <- <-. lra.
Qed.
(** A world with the published relations in which there are patterns in the range. *)
Example guth_maynard_world : en_admissible (w0 true) /\ obeys (w0 true) (gm_relation 2) /\ obeys (w0 true) gm_third /\ lv (low (w0 true)) (3#4) (6#5) (1#2).
Proof.
  split; [apply w0_admissible|]. split; [|split].
  - intros s t r e z Rc En. apply w0_en in En. unfold conj_en, conj_lv in En. destruct En as [[B D] En].
    assert (H' : r <= 2 - 2 * s \/ s == 1#2) by (destruct D as [D|D]; [right; lra|now left]).
    split; unfold gm_with; rewrite le_qmax; (destruct H' as [X|X]; [now left|right]); unfold max3, gm_S3a, gm_S3b; cbv zeta; rewrite !le_third.
    + right; right. lra.
    + right; right; left. lra.
  - intros s t r e z Rc En T1 T2. apply w0_en in En. unfold conj_en, conj_lv in En. decompose [and] En. clear En.
    unfold gm_third_bound, max3. rewrite !le_qmax. lra.
  - cbn. unfold conj_lv. lra.
Qed.
