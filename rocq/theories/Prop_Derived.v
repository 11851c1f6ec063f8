(** Theorems about the derivations of single exponent pairs (C68). *)
From Verif Require Import Base Model_Text Model_Reference Spec_Reference Proof_Reference
  Model_Interval Spec_Interval Model_Affine Spec_Affine Model_BoundBeta Model_Polytope
  Model_Hull Spec_Hull Proof_Hull Model_ExponentPair Spec_ExponentPair Proof_ExponentPair Proof_ExpSearch Proof_ExpLit Proof_ExpDual
  Spec_ExpProof Model_BoundMu Proof_BoundMu Model_LiteratureBeta Spec_LiteratureBeta Prop_LiteratureBeta
  Model_LiteraturePairs Spec_LiteraturePairs Proof_LiteraturePairs Prop_LiteraturePairs Model_Derived Spec_Derived Proof_Derived Proof_Derived2 Proof_Derived3.
Open Scope list_scope.
Local Open Scope Q_scope.
Import Lqa.

(** What is returned is the pair that was asked for, and it is true wherever the
    hypotheses are. *)
Theorem derivation_sound : forall rc ch btr ord W hs k l h, hull_spec ch -> traversal ord -> admissible W -> ready hs ->
  Forall (holds (lit_trans rc) btr W) hs ->
  prove_exponent_pair_with_hypotheses ch (lit_trans rc) btr ord hs k l = Ret (Some h) ->
  is_pair h = true /\ pt_eq (key_of h) (k, l) /\ exp_pair W k l.
Proof.
  intros rc ch btr ord W hs k l h Hch Ho Ad R T H. destruct (prove_some rc ch Hch btr ord hs k l h H) as [P K].
  split; [auto|]. split; [auto|]. exact (prove_true rc ch Hch btr ord Ho W hs k l h Ad R T H).
Qed.
Print Assumptions derivation_sound.

(** The recorded proof rests on the given hypotheses and on nothing else. *)
Theorem derivation_rests : forall rc ch btr ord hs k l h, hull_spec ch -> traversal ord -> wf_bounds hs -> own_trans rc hs ->
  (forall t, In t hs -> is_beta_trans t = false) ->
  prove_exponent_pair_with_hypotheses ch (lit_trans rc) btr ord hs k l = Ret (Some h) -> rests_on hs h.
Proof. intros rc ch btr ord hs k l h Hch Ho. exact (prove_rests rc ch Hch btr ord Ho hs k l h). Qed.
Print Assumptions derivation_rests.

(** A pair that is among the hypotheses is found. *)
Theorem derivation_finds_known : forall rc ch btr ord hs k l r g, hull_spec ch -> traversal ord -> ready hs ->
  In g hs -> is_pair g = true -> pt_eq (key_of g) (k, l) ->
  prove_exponent_pair_with_hypotheses ch (lit_trans rc) btr ord hs k l = Ret r -> exists h, r = Some h.
Proof. intros rc ch btr ord hs k l r g Hch Ho. exact (prove_known rc ch Hch btr ord Ho hs k l r g). Qed.
Print Assumptions derivation_finds_known.

(** ** The literature *)

Lemma traversal_id : traversal (fun l => l).
Proof. intros l x. tauto. Qed.

(** The set that is collected from the literature meets the conditions. *)
Theorem literature_is_ready : forall get Kr Kh M rc lit ord, (forall k, citable (get k)) -> is_literature get Kr Kh M rc lit -> traversal ord ->
  ready (ord (collect ord lit)) /\ own_trans rc (ord (collect ord lit)) /\ wf_bounds (ord (collect ord lit)).
Proof.
  intros get Kr Kh M rc lit ord C (bs & ps & Eb & Ep & _ & Ip & Hb & Hp & Ht) Ho.
  exact (literature_ready get Kr Kh M rc bs ps lit C Eb Ep Hb Hp Ip Ht ord Ho).
Qed.
Print Assumptions literature_is_ready.

Lemma collect_in : forall ord lit h, traversal ord -> In h (collect ord lit) -> h = trivial_exp_pair \/ (In h lit /\ (is_beta h = true \/ is_pair h = true \/ is_trans h = true)).
Proof.
  intros ord lit h Ho I. unfold collect in I. apply (Ho (trivial_exp_pair :: filter is_beta lit ++ filter is_pair lit ++ filter is_trans lit) h) in I.
  destruct I as [<-|I]; [auto|]. rewrite !in_app_iff, !filter_In in I. tauto.
Qed.

Lemma sub_wf : forall ord (S sub : list hnode), traversal ord -> incl sub S -> wf_bounds (ord S) -> wf_bounds (ord sub).
Proof.
  intros ord S sub Ho I W. unfold wf_bounds in *. rewrite Forall_forall in *. intros x Ix. apply W, (Ho S x), I. now apply (Ho sub x).
Qed.

(** With or without simplification: if the first attempt succeeds, then a proof of the
    pair that was asked for is returned, which rests on the literature and the trivial
    pair, and the pair is true wherever those are. *)
Theorem prove_exponent_pair_sound : forall get Kr Kh M rc ch btr ord pick W lit k l b h0 r,
  (forall k, citable (get k)) -> is_literature get Kr Kh M rc lit -> hull_spec ch -> traversal ord -> admissible W ->
  exp_pair W 0 1 -> (forall h, In h lit -> is_beta h = true \/ is_pair h = true \/ is_trans h = true -> holds (lit_trans rc) btr W h) ->
  prove_exponent_pair ch (lit_trans rc) btr ord pick lit k l false = Ret (Some h0) ->
  prove_exponent_pair ch (lit_trans rc) btr ord pick lit k l b = Ret r ->
  exists h, r = Some h /\ is_pair h = true /\ pt_eq (key_of h) (k, l) /\ exp_pair W k l /\ rests_on (trivial_exp_pair :: lit) h.
Proof.
  intros get Kr Kh M rc ch btr ord pick W lit k l b h0 r C L Hch Ho Ad T0 T H0 H.
  destruct (literature_is_ready get Kr Kh M rc lit ord C L Ho) as (R & O & Wf).
  assert (HT : Forall (holds (lit_trans rc) btr W) (ord (collect ord lit))).
  { apply Forall_forall. intros x I. apply (Ho (collect ord lit) x) in I. apply (collect_in ord lit x Ho) in I as [->|[I P]]; [exact T0|auto]. }
  assert (Inc : incl (ord (collect ord lit)) (trivial_exp_pair :: lit)).
  { intros x I. apply (Ho (collect ord lit) x) in I. apply (collect_in ord lit x Ho) in I as [->|[I _]]; [now left|now right]. }
  unfold prove_exponent_pair in H0, H.
  destruct (prove_exponent_pair_with_hypotheses ch (lit_trans rc) btr ord (ord (collect ord lit)) k l) as [e|] eqn:E; [|discriminate]. cbn [bind] in H0, H. injection H0 as ->.
  destruct (derivation_sound rc ch btr ord W _ k l h0 Hch Ho Ad R HT E) as (P & K & X).
  assert (Rh : rests_on (trivial_exp_pair :: lit) h0).
  { apply (rests_mono (ord (collect ord lit))); [auto|]. apply (derivation_rests rc ch btr ord _ k l h0 Hch Ho Wf O); [|exact E]. apply (r_plain _ R). }
  destruct b; [|injection H as <-; exists h0; auto].
  apply (simplify_inv rc ch btr ord pick k l 100 0 _ _ r) in H as [->|(sub & h & Is & -> & Es)]; [exists h0; auto|].
  exists h. destruct (prove_some rc ch Hch btr ord _ k l h Es) as [Ph Kh']. split; [auto|]. split; [auto|]. split; [auto|]. split; [auto|].
  apply (rests_mono (ord sub)).
  - intros x I. apply Inc, (Ho (collect ord lit) x), Is. now apply (Ho sub x).
  - apply (derivation_rests rc ch btr ord (ord sub) k l h Hch Ho); [eapply sub_wf; eauto| | |exact Es].
    + intros t I Pt. apply O; [|auto]. apply (Ho (collect ord lit) t), Is. now apply (Ho sub t).
    + intros t I. apply (r_plain _ R). apply (Ho (collect ord lit) t), Is. now apply (Ho sub t).
Qed.
Print Assumptions prove_exponent_pair_sound.

(** So every pair that is found follows from the published bounds on beta, the reflection
    law, van der Corput's A process and Sargos's C process. *)
Theorem prove_exponent_pair_published : forall get Kr Kh M rc ch btr ord pick W lit k l h,
  (forall k, citable (get k)) -> is_literature get Kr Kh M rc lit -> hull_spec ch -> traversal ord ->
  admissible W -> beta_basic W -> beta_published W -> process_A W -> holds (lit_trans rc) btr W (C_hyp rc) ->
  prove_exponent_pair ch (lit_trans rc) btr ord pick lit k l false = Ret (Some h) -> exp_pair W k l.
Proof.
  intros get Kr Kh M rc ch btr ord pick W lit k l h C L Hch Ho Ad Bb Bp PA HC H.
  assert (T0 : exp_pair W 0 1).
  { split; [unfold Spec_ExponentPair.triangle; lra|]. intros a A0 A1. apply (beta_upper W Ad a a a); [lra|lra|]. now apply (bb_trivial W Bb). }
  assert (B00 : beta_le W 0 0). { destruct T0 as [_ T0]. apply (beta_upper W Ad 0 0 (0 + (1 - 0) * 0) 0); [lra|lra|]. apply T0; lra. }
  destruct (prove_exponent_pair_sound get Kr Kh M rc ch btr ord pick W lit k l false h (Some h) C L Hch Ho Ad T0) as (_ & _ & _ & _ & X & _); auto.
  destruct L as (bs & ps & Eb & Ep & _ & _ & Hb & Hp & Ht). intros x I [P|[P|P]].
  - pose proof (proj2 (beta_table_exact (lit_trans rc) btr get W C Bb) Bp Kr Kh bs Eb) as F. rewrite Forall_forall in F. auto.
  - pose proof (pairs_follow (lit_trans rc) btr W get M ps Ad B00 Bp PA Ep) as F. rewrite Forall_forall in F. auto.
  - destruct (Ht x I P) as [E|[E|E]]; subst x; [| |exact HC].
    + unfold holds. cbn [n_data A_hyp]. intros h1 k1 l1 h' D E1 Et. cbn in Et. apply A_inv in Et as (k2 & l2 & k' & l' & D2 & D3 & (M1 & M2) & _).
      rewrite D in D2. injection D2 as <- <-. exists k', l'. split; [auto|]. apply (Proof_LiteraturePairs.pair_eq W (beta_upper W Ad) _ _ k' l' (PA k1 l1 E1)); cbn [fst snd] in *; symmetry; auto.
    + unfold holds. cbn [n_data B_hyp]. intros h1 k1 l1 h' D E1 Et. cbn in Et. apply B_inv in Et as (k2 & l2 & k' & l' & D2 & D3 & (M1 & M2) & _).
      rewrite D in D2. injection D2 as <- <-. exists k', l'. split; [auto|]. apply (Proof_LiteraturePairs.pair_eq W (beta_upper W Ad) _ _ k' l' (B_true W k1 l1 Ad E1)); cbn [fst snd] in *; symmetry; auto.
Qed.
Print Assumptions prove_exponent_pair_published.

(** The removal of hypotheses is not random: a set gives the same member every time it is
    asked.  So as soon as the first member cannot be spared nothing at all is removed, and
    the hundred attempts repeat one another. *)
Theorem simplification_stalls : forall rc ch btr ord pick lit k l cpy, (forall i j s, pick i s = pick j s) ->
  pop pick 0 (collect ord lit) = Ret cpy -> prove_exponent_pair_with_hypotheses ch (lit_trans rc) btr ord (ord cpy) k l = Ret None ->
  prove_exponent_pair ch (lit_trans rc) btr ord pick lit k l true = prove_exponent_pair ch (lit_trans rc) btr ord pick lit k l false.
Proof.
  intros rc ch btr ord pick lit k l cpy P E F. unfold prove_exponent_pair.
  destruct (prove_exponent_pair_with_hypotheses ch (lit_trans rc) btr ord (ord (collect ord lit)) k l) as [e|]; [|reflexivity]. cbn [bind].
  exact (simplify_stuck rc ch btr ord pick k l 100 0 _ e cpy P E F).
Qed.
Print Assumptions simplification_stalls.

(** No attempt finds the set empty, however the members are picked. *)
Theorem simplification_never_empty : forall rc ch btr ord pick lit k l b, traversal ord ->
  (forall sub e, incl sub (collect ord lit) -> prove_exponent_pair_with_hypotheses ch (lit_trans rc) btr ord (ord sub) k l = Raise e -> e <> KeyError) ->
  prove_exponent_pair ch (lit_trans rc) btr ord pick lit k l b <> Raise KeyError.
Proof.
  intros rc ch btr ord pick lit k l b Ho HE. unfold prove_exponent_pair.
  destruct (prove_exponent_pair_with_hypotheses ch (lit_trans rc) btr ord (ord (collect ord lit)) k l) as [e|e] eqn:E; cbn [bind].
  - destruct b; [|discriminate]. apply (simplify_no_key_error rc ch btr ord Ho pick); [|auto]. unfold collect. intro Z.
    assert (J : In trivial_exp_pair (ord (trivial_exp_pair :: filter is_beta lit ++ filter is_pair lit ++ filter is_trans lit))) by (apply (Ho _ trivial_exp_pair); now left).
    rewrite Z in J. destruct J.
  - intro Z. injection Z as ->. exact (HE (collect ord lit) KeyError (incl_refl _) E eq_refl).
Qed.
Print Assumptions simplification_never_empty.

(** ** The bound of Hardy and Littlewood *)

Lemma keyword_only : forall kw lit t, In t lit -> Model_Text.contains kw (n_name t) = true -> (forall h, In h lit -> Model_Text.contains kw (n_name h) = true -> h = t) -> find_keyword kw lit = Some t.
Proof.
  intros kw lit t I P U. unfold find_keyword. destruct (find (fun h => Model_Text.contains kw (n_name h)) lit) as [x|] eqn:E.
  - apply find_some in E as [J Q]. now rewrite (U x J Q).
  - exfalso. pose proof (find_none _ _ E t I) as X. cbn in X. congruence.
Qed.

(** The bound mu(1/2) <= 1/6 is derived anew, from the trivial pair and the transforms A
    and B alone, if these are what the literature holds under their names. *)
Theorem hardy_littlewood_derived : forall rc lit, (exists h s m, In h lit /\ n_data h = DMu s m /\ s == (1#2) /\ m == (1#6)) ->
  In A_hyp lit -> In B_hyp lit ->
  (forall h, In h lit -> Model_Text.contains A_name (n_name h) = true -> h = A_hyp) ->
  (forall h, In h lit -> Model_Text.contains B_name (n_name h) = true -> h = B_hyp) ->
  exists h s m, prove_hardy_littlewood_mu_bound (lit_trans rc) lit = Ret h /\ n_data h = DMu s m /\ s == (1#2) /\ m == (1#6) /\
    rests_on [trivial_exp_pair; A_hyp; B_hyp] h /\
    forall btr W, admissible W -> exp_pair W 0 1 -> holds (lit_trans rc) btr W A_hyp -> holds (lit_trans rc) btr W h.
Proof.
  intros rc lit (g & s0 & m0 & Ig & Dg & S0 & M0) IA IB UA UB. unfold prove_hardy_littlewood_mu_bound.
  rewrite (keyword_only A_name lit A_hyp IA eq_refl UA), (keyword_only B_name lit B_hyp IB eq_refl UB).
  destruct (find (mu_is (1#2) (1#6)) lit) as [HL|] eqn:EF.
  2: { exfalso. pose proof (find_none _ _ EF g Ig) as X. unfold mu_is in X. rewrite Dg in X. rewrite (proj2 (Qeqb_true s0 (1#2)) S0), (proj2 (Qeqb_true m0 (1#6)) M0) in X. discriminate. }
  destruct (apply_trans (lit_trans rc) B_hyp trivial_exp_pair) as [b|e] eqn:Eb; [|vm_compute in Eb; discriminate]. cbn [bind].
  destruct (apply_trans (lit_trans rc) A_hyp b) as [ab|e] eqn:Ea; [|revert Ea; assert (X : Ret b = apply_trans (lit_trans rc) B_hyp trivial_exp_pair) by (symmetry; exact Eb); vm_compute in X; injection X as ->; vm_compute; discriminate]. cbn [bind].
  destruct (obtain_mu_bound_from_exponent_pair ab) as [h|e] eqn:Eh.
  2: { exfalso. assert (X : Ret b = apply_trans (lit_trans rc) B_hyp trivial_exp_pair) by (symmetry; exact Eb). vm_compute in X. injection X as ->.
       assert (Y := Ea). vm_compute in Y. injection Y as <-. vm_compute in Eh. discriminate. }
  assert (Eb' := Eb). assert (Ea' := Ea). change (B_fun trivial_exp_pair = Ret b) in Eb'. apply B_inv in Eb' as (k1 & l1 & k2 & l2 & D1 & D2 & (M1 & M2) & N2).
  change (A_fun b = Ret ab) in Ea'. apply A_inv in Ea' as (k3 & l3 & k4 & l4 & D3 & D4 & (M3 & M4) & N4). rewrite D2 in D3. injection D3 as <- <-.
  injection D1 as <- <-. apply from_pair_inv in Eh as (k5 & l5 & D5 & D6 & N6). rewrite D4 in D5. injection D5 as <- <-.
  unfold B_map in M1, M2. unfold A_map in M3, M4. cbn [fst snd] in *.
  assert (K2 : k2 == (1#2)) by lra. assert (L2 : l2 == (1#2)) by lra.
  assert (K4 : k4 == (1#6)) by (rewrite M3, K2; reflexivity). assert (L4 : l4 == (2#3)) by (rewrite M4, K2, L2; reflexivity).
  exists h, (l4 - k4), k4. split; [reflexivity|]. split; [auto|]. split; [rewrite K4, L4; reflexivity|]. split; [auto|]. split.
  - apply deps_rest; rewrite N6; [discriminate|]. intros d [<-|[]]. apply deps_rest; rewrite N4; [discriminate|].
    intros d [<-|[<-|[]]]; [|apply rests_in; right; now left]. apply deps_rest; rewrite N2; [discriminate|].
    intros d [<-|[<-|[]]]; apply rests_in; [now left|right; right; now left].
  - intros btr W Ad T0 HA. unfold holds. rewrite D6. apply (mu_from_pair W Ad).
    assert (E2 : exp_pair W k2 l2) by (apply (Proof_LiteraturePairs.pair_eq W (beta_upper W Ad) _ _ k2 l2 (B_true W 0 1 Ad T0)); lra).
    destruct (HA b k2 l2 ab D2 E2 Ea) as (k' & l' & D' & E'). rewrite D4 in D'. injection D' as <- <-. exact E'.
Qed.
Print Assumptions hardy_littlewood_derived.

(** ** The condition is needed, and is met *)

Definition bourgain_node : hnode := HNode (s_of "Bourgain") (DBeta (mkA (1#2) (13#84) (mkI (3#7) (1#2) true true) None)) ref_trivial [].
Definition no_beta_trans : nat -> hnode -> res (list hnode) := fun _ _ => Ret [].

(** From true hypotheses that do not meet the condition, the trivial pair and Bourgain's
    bound on beta, a pair is derived that is false. *)
Theorem derivation_unready_refuted : exists hs W h k l, admissible W /\ Forall (holds (lit_trans ref_trivial) no_beta_trans W) hs /\
  wf_bounds hs /\ prove_exponent_pair_with_hypotheses wrap_hull (lit_trans ref_trivial) no_beta_trans (fun l => l) hs k l = Ret (Some h) /\
  ~ beta_le W 1 (k + (l - k) * 1).
Proof.
  exists [trivial_exp_pair; bourgain_node], lindelof_world.
  let e := eval vm_compute in (prove_exponent_pair_with_hypotheses wrap_hull (lit_trans ref_trivial) no_beta_trans (fun l => l) [trivial_exp_pair; bourgain_node] (4#7) (5#21)) in
  match e with Ret (Some ?h) => exists h end. exists (4#7), (5#21).
  split; [exact (proj1 ex_world)|]. split; [|split; [|split; [vm_compute; reflexivity|]]].
  - apply Forall_cons; [|apply Forall_cons; [|apply Forall_nil]].
    + apply lindelof_pair. unfold Spec_ExponentPair.triangle. lra.
    + intros a [A0 A1]. cbn in A0, A1. unfold value. cbn. split; intro; lra.
  - apply Forall_cons; [discriminate|]. apply Forall_cons; [|apply Forall_nil]. intros _. unfold wf. cbn. lra.
  - cbn. intros [X _]. specialize (X ltac:(lra)). lra.
Qed.
Print Assumptions derivation_unready_refuted.

(** Non-vacuity: the pair (13/194, 76/97) from Bourgain's pair and bound. *)
Definition ready_hs : list hnode := [trivial_exp_pair; HNode (s_of "Bourgain") (DPair (13#84) (55#84)) ref_trivial []; bourgain_node; A_hyp; B_hyp].
Example ex_ready : ready ready_hs /\ own_trans ref_trivial ready_hs /\ wf_bounds ready_hs /\ Forall (holds (lit_trans ref_trivial) no_beta_trans lindelof_world) ready_hs.
Proof.
  split; [|split; [|split]].
  - split.
    + intros h k l [<-|[<-|[<-|[<-|[<-|[]]]]]] D; try discriminate; injection D as <- <-; (split; [unfold Spec_ExponentPair.triangle|]; lra).
    + intros h [<-|[<-|[<-|[<-|[<-|[]]]]]] P; try discriminate; unfold lit_node; cbn; auto.
    + intros h [<-|[<-|[<-|[<-|[<-|[]]]]]]; reflexivity.
    + intros h b [<-|[<-|[<-|[<-|[<-|[]]]]]] D; try discriminate. injection D as <-. split; [unfold wf; cbn; lra|]. split.
      * intros a _ A0 A1. unfold value. cbn. lra.
      * intros _. eexists _, _, _. split; [right; left; reflexivity|]. split; [reflexivity|]. apply Qleb_true. reflexivity.
    + eexists _, _, _. split; [left; reflexivity|]. split; [reflexivity|]. split; reflexivity.
    + eexists _, _, _. split; [right; left; reflexivity|]. split; [reflexivity|]. lra.
  - intros t [<-|[<-|[<-|[<-|[<-|[]]]]]] P; try discriminate; auto.
  - repeat (apply Forall_cons; [intros P; try discriminate; unfold wf; cbn; lra|]). apply Forall_nil.
  - apply Forall_cons; [apply lindelof_pair; unfold Spec_ExponentPair.triangle; lra|].
    apply Forall_cons; [apply lindelof_pair; unfold Spec_ExponentPair.triangle; lra|].
    apply Forall_cons; [intros a [A0 A1]; cbn in A0, A1; unfold value; cbn; split; intro; lra|].
    destruct ex_world as (Ad & _ & _ & PA & _).
    apply Forall_cons; [|apply Forall_cons; [|apply Forall_nil]]; intros h1 k1 l1 h' D E1 Et.
    + apply A_inv in Et as (k2 & l2 & k' & l' & D2 & D3 & (M1 & M2) & _). rewrite D in D2. injection D2 as <- <-. exists k', l'. split; [auto|].
      apply (Proof_LiteraturePairs.pair_eq _ (beta_upper _ Ad) _ _ k' l' (PA k1 l1 E1)); cbn [fst snd] in *; symmetry; auto.
    + apply B_inv in Et as (k2 & l2 & k' & l' & D2 & D3 & (M1 & M2) & _). rewrite D in D2. injection D2 as <- <-. exists k', l'. split; [auto|].
      apply (Proof_LiteraturePairs.pair_eq _ (beta_upper _ Ad) _ _ k' l' (B_true _ k1 l1 Ad E1)); cbn [fst snd] in *; symmetry; auto.
Qed.
Example ex_derivation : match prove_exponent_pair_with_hypotheses wrap_hull (lit_trans ref_trivial) no_beta_trans (fun l => l) ready_hs (13#194) (76#97) with
  | Ret (Some h) => n_deps h = [HNode (s_of "Bourgain") (DPair (13#84) (55#84)) ref_trivial []; A_hyp] | _ => False end /\
  prove_exponent_pair_with_hypotheses wrap_hull (lit_trans ref_trivial) no_beta_trans (fun l => l) ready_hs (0#1) (1#2) = Ret None.
Proof. split; vm_compute; reflexivity. Qed.

(** There is such a literature, for every truncation. *)
Example ex_literature : forall get Kr Kh M rc, (forall k, citable (get k)) -> exists lit, is_literature get Kr Kh M rc lit.
Proof.
  intros get Kr Kh M rc C. destruct (beta_table_recorded get Kr Kh C) as (gs & Eb & Fb). destruct (pairs_recorded get M) as (ps & Ep & Fp).
  exists (concat gs ++ ps ++ [A_hyp; B_hyp; C_hyp rc]), (concat gs), ps. split; [auto|]. split; [auto|].
  assert (B : forall h, In h (concat gs) -> is_beta h = true).
  { intros h I. apply in_concat in I as (g & Ig & Ih). destruct (Forall2_in_l _ _ _ _ _ _ Fb Ig) as (r & _ & (R & _)). rewrite Forall_forall in R.
    destruct (R h Ih) as (_ & _ & b & D & _). unfold is_beta. now rewrite D. }
  assert (P : forall h, In h ps -> is_pair h = true).
  { intros h I. destruct (Forall2_in_l _ _ _ _ _ _ Fp I) as (w & _ & (_ & _ & _ & k & l & D & _)). unfold is_pair. now rewrite D. }
  assert (Ex : forall h, In h (concat gs ++ ps ++ [A_hyp; B_hyp; C_hyp rc]) -> (In h (concat gs) /\ is_beta h = true) \/ (In h ps /\ is_pair h = true) \/ ((h = A_hyp \/ h = B_hyp \/ h = C_hyp rc) /\ is_trans h = true)).
  { intros h I. apply in_app_iff in I as [I|I]; [auto|]. apply in_app_iff in I as [I|[<-|[<-|[<-|[]]]]]; auto 8. }
  assert (X : forall h, is_beta h = true -> is_pair h = false /\ is_trans h = false) by (intros h; unfold is_beta, is_pair, is_trans; destruct (n_data h); now auto).
  assert (Y : forall h, is_pair h = true -> is_trans h = false) by (intros h; unfold is_pair, is_trans; destruct (n_data h); now auto).
  split; [intros x I; apply in_app_iff; auto|]. split; [intros x I; apply in_app_iff; right; apply in_app_iff; auto|]. split; [|split].
  - intros h I Q. destruct (X h Q) as [X1 X2]. destruct (Ex h I) as [[J _]|[[_ J]|[_ J]]]; [auto|congruence|congruence].
  - intros h I Q. pose proof (Y h Q). destruct (Ex h I) as [[_ J]|[[J _]|[_ J]]]; [destruct (X h J); congruence|auto|congruence].
  - intros h I Q. destruct (Ex h I) as [[_ J]|[[_ J]|[J _]]]; [destruct (X h J); congruence|rewrite (Y h J) in Q; discriminate|auto].
Qed.
