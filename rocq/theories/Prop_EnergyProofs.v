(** Property C73: the worked derivations of bounds on A*(sigma). *)
From Coq Require Import Reals Qreals Permutation.
From Verif Require Import Base LinAlg FM Model_Text Model_Reference Spec_Reference Model_Polytope Spec_Polytope Proof_Polytope FM_Ext Spec_Edges Proof_Edges Proof_Interval
  Model_Region Spec_Region Model_ExponentPair Spec_ExponentPair Model_LargeValues Spec_LargeValues Proof_LargeValues Prop_LargeValues Model_ZetaLargeValues
  Model_AdditiveEnergy Spec_AdditiveEnergy Prop_AdditiveEnergy Model_RationalFunction Spec_RationalFunction Prop_Roots
  Model_ZeroDensity Spec_ZeroDensity Model_DensityEstimate Spec_DensityEstimate Model_DensityDerivation Spec_DensityDerivation Prop_DensityDerivation
  Model_DensityEnergy Spec_DensityEnergy Model_EnergyDerivation Spec_EnergyDerivation Prop_EnergyDerivation Model_LiteratureLV Prop_LiteratureLV Model_LiteratureEnergy Spec_LiteratureEnergy Prop_LiteratureEnergy
  Spec_DerivedDensity Proof_DerivedDensity Prop_DerivedDensity Model_EnergyProofs Spec_EnergyProofs Proof_EnergyProofs Proof_EnergyTwoValue Proof_EnergyJutila Proof_EnergyGM.
From Verif Require Spec_BoundMu Prop_DensityEnergy Spec_LargeValueRegion.
From Coq Require Import Lra.
Open Scope list_scope.
Local Open Scope Q_scope.

(** ** Finding the estimates in the literature *)
Lemma e_find_only : forall lit kw h, In h lit -> e_keyword_match (s_of kw) h = true -> (forall g, In g lit -> e_keyword_match (s_of kw) g = true -> g = h) -> e_find lit kw = Some h.
Proof.
  intros lit kw h I F U. unfold e_find. destruct (find _ lit) as [g|] eqn:Ef.
  - apply find_some in Ef as [Ig Fg]. f_equal. now apply U.
  - exfalso. rewrite (find_none _ lit Ef h I) in F. discriminate.
Qed.
Lemma e_keyword_name : forall kw g n, e_name g = n -> e_keyword_match kw g = forallb (fun k => Model_Text.contains (strip k) n) (Model_Text.split [","%char] kw).
Proof. intros kw g n <-. reflexivity. Qed.
Lemma base_name : forall l, e_name (EBase l) = l_name l.
Proof. reflexivity. Qed.
(** The names of the recorded estimates by Jutila *)
Definition plain_names (kw : string) : bool := forallb (fun k => negb (forallb (fun w => Model_Text.contains (strip w) (s_of "Jutila" ++ s_of " large value estimate" ++ s_of " with k = " ++ z_str k)) (Model_Text.split [","%char] (s_of kw)))) (map Z.of_nat (seq 1 29)).

(** Text that contains another contains the beginning of that one. *)
Lemma prefix_front : forall a b x, starts_with (a ++ b) x = true -> starts_with a x = true.
Proof. induction a as [|c a IH]; intros b x H; [reflexivity|]. destruct x as [|d x]; [discriminate|]. cbn in *. apply andb_true_iff in H as [H1 H2]. rewrite H1. cbn. eapply IH; eassumption. Qed.
Lemma contains_front : forall a b x, Model_Text.contains (a ++ b) x = true -> Model_Text.contains a x = true.
Proof.
  intros a b x. induction x as [|d x IH]; intro H; cbn [Model_Text.contains] in *; [rewrite orb_false_r in *; exact (prefix_front _ _ _ H)|]. apply orb_true_iff in H as [H|H]; apply orb_true_iff; [left; eapply prefix_front; exact H|right; now apply IH].
Qed.

Section Literature.
Context (E : ext) (OK : ext_ok E) (get : str -> reference) (EB : energy_bibliography get) (K : Z) (K2 : (K <= 30)%Z) (lit : list enode) (RL : energy_literature E get K lit).

Lemma jutila_each : forall js, add_jutila_large_values_estimate E get K = Ret js -> forall g, In g js -> exists k, (1 <= k < 30)%Z /\ jutila_estimate E get k = Ret g.
Proof.
  intros js H g Ig. unfold add_jutila_large_values_estimate, range1 in H. apply (Proof_Piecewise.mapM_In _ _ _ _ _ _ H) in Ig as (k & Ik & Eg). exists k. split; [|exact Eg]. apply in_map_iff in Ik as (n & <- & In'). apply in_seq in In'. lia.
Qed.
Lemma not_jutila : forall kw js, plain_names kw = true -> add_jutila_large_values_estimate E get K = Ret js -> forall l, In l js -> e_keyword_match (s_of kw) (EBase l) = false.
Proof.
  intros kw js PN Ej l Il. destruct (jutila_each js Ej l Il) as (k & Bk & Ek). destruct (literature_max_is _ _ _ _ _ Ek) as (N & _). rewrite (by_jutila get (proj1 EB)) in N.
  rewrite (e_keyword_name _ _ _ (eq_trans (base_name l) N)). unfold plain_names in PN. rewrite forallb_forall in PN. specialize (PN k). apply negb_true_iff, PN. apply in_map_iff. exists (Z.to_nat k). split; [lia|apply in_seq; lia].
Qed.
Ltac other_name N B F := rewrite (e_keyword_name _ _ _ (eq_trans (base_name _) N)), B in F; vm_compute in F; discriminate.

(** The keywords find the estimate of Guth-Maynard and Heath-Brown's region. *)
Theorem energy_hypotheses_found : exists gm er, add_guth_maynard_large_values_estimate E get = Ret gm /\ add_lver_heath_brown_1979b1 E get = Ret er /\
  e_find lit "Guth--Maynard large value estimate" = Some (EBase gm) /\ e_find lit "Heath-Brown large value energy region 2a" = Some er.
Proof.
  destruct EB as [BIB _]. destruct RL as (hux & hb & js & bo & gm & er & others & Eu & Eh & Ej & Eb & Eg & Ee & OT & M). exists gm, er. split; [exact Eg|]. split; [exact Ee|].
  destruct (literature_max_is _ _ _ _ _ Eu) as (Nu & _). destruct (literature_max_is _ _ _ _ _ Eh) as (Nh & _). destruct (literature_max_is _ _ _ _ _ Eg) as (Ng & _). pose proof (bourgain_name E get _ OK Eb) as Nb.
  destruct (hb_relation_region E get OK) as (er' & Ee' & RR). assert (er' = er) by congruence. subst er'. destruct RR as (_ & _ & Ne & _).
  split; apply e_find_only.
  - apply M. do 3 right. now left.
  - rewrite (e_keyword_name _ _ _ (eq_trans (base_name _) Ng)), (by_guth_maynard get BIB). vm_compute. reflexivity.
  - intros g Ig F. apply M in Ig. apply in_app_iff in Ig as [[<-|[<-|[<-|[<-|Ig]]]]|[<-|Ig]].
    + other_name Nu (by_huxley get BIB) F.
    + other_name Nh (by_heath_brown get BIB) F.
    + other_name Nb (by_bourgain get BIB) F.
    + reflexivity.
    + apply in_map_iff in Ig as (l & <- & Il). rewrite (not_jutila _ js) in F; [discriminate|vm_compute; reflexivity|exact Ej|exact Il].
    + rewrite (e_keyword_name _ _ _ Ne), (by_heath_brown get BIB) in F. vm_compute in F. discriminate.
    + destruct (OT g Ig) as (C & _). exfalso. unfold e_keyword_match in F. change (Model_Text.split [","%char] (s_of "Guth--Maynard large value estimate")) with [s_of "Guth--Maynard large value estimate"] in F.
      cbn [forallb] in F. change (strip (s_of "Guth--Maynard large value estimate")) with (s_of "Guth--Maynard large value estimate") in F. rewrite C in F. discriminate.
  - apply M. apply in_or_app. right. now left.
  - rewrite (e_keyword_name _ _ _ Ne), (by_heath_brown get BIB). vm_compute. reflexivity.
  - intros g Ig F. apply M in Ig. apply in_app_iff in Ig as [[<-|[<-|[<-|[<-|Ig]]]]|[<-|Ig]].
    + other_name Nu (by_huxley get BIB) F.
    + other_name Nh (by_heath_brown get BIB) F.
    + other_name Nb (by_bourgain get BIB) F.
    + other_name Ng (by_guth_maynard get BIB) F.
    + apply in_map_iff in Ig as (l & <- & Il). rewrite (not_jutila _ js) in F; [discriminate|vm_compute; reflexivity|exact Ej|exact Il].
    + reflexivity.
    + destruct (OT g Ig) as (_ & _ & C). exfalso. unfold e_keyword_match in F. change (Model_Text.split [","%char] (s_of "Heath-Brown large value energy region 2a")) with [s_of "Heath-Brown large value energy region 2a"] in F.
      cbn [forallb] in F. change (strip (s_of "Heath-Brown large value energy region 2a")) with (s_of "Heath-Brown large value energy region 2a") in F. rewrite C in F. discriminate.
Qed.
(** Those with "Jutila large value estimate with k = n" find the n-th of Jutila's. *)
Definition only_k (kw : string) (n : Z) : bool := forallb (fun k => Bool.eqb (Z.eqb k n) (forallb (fun w => Model_Text.contains (strip w) (s_of "Jutila" ++ s_of " large value estimate" ++ s_of " with k = " ++ z_str k)) (Model_Text.split [","%char] (s_of kw)))) (map Z.of_nat (seq 1 29)).
Lemma jutila_found_as : forall kw n tail, (1 <= n < K)%Z -> s_of kw = s_of "Jutila large value estimate" ++ tail -> strip (s_of kw) = s_of kw -> Model_Text.split [","%char] (s_of kw) = [s_of kw] -> only_k kw n = true ->
  forallb (fun name => negb (Model_Text.contains (s_of kw) name)) [s_of "Huxley" ++ s_of " large value estimate" ++ []; s_of "Heath-Brown" ++ s_of " large value estimate" ++ []; s_of "Bourgain" ++ s_of " optimized large value estimate";
    s_of "Guth--Maynard" ++ s_of " large value estimate" ++ []; s_of "Heath-Brown" ++ s_of " large value energy region" ++ s_of " 2a"] = true ->
  exists h, jutila_estimate E get n = Ret h /\ e_find lit kw = Some (EBase h).
Proof.
  intros kw n tail Bn Ekw St Sp OK' NN. destruct EB as [BIB _]. destruct RL as (hux & hb & js & bo & gm & er & others & Eu & Eh & Ej & Eb & Eg & Ee & OT & M).
  destruct (literature_max_is _ _ _ _ _ Eu) as (Nu & _). destruct (literature_max_is _ _ _ _ _ Eh) as (Nh & _). destruct (literature_max_is _ _ _ _ _ Eg) as (Ng & _). pose proof (bourgain_name E get _ OK Eb) as Nb.
  destruct (hb_relation_region E get OK) as (er' & Ee' & RR). assert (er' = er) by congruence. subst er'. destruct RR as (_ & _ & Ne & _).
  rewrite (by_huxley get BIB) in Nu. rewrite (by_heath_brown get BIB) in Nh, Ne. rewrite (by_guth_maynard get BIB) in Ng. rewrite (by_bourgain get BIB) in Nb.
  assert (KM : forall h, e_keyword_match (s_of kw) h = Model_Text.contains (s_of kw) (e_name h)).
  { intro h. unfold e_keyword_match. rewrite Sp. cbn [forallb]. rewrite St. apply andb_true_r. }
  rewrite forallb_forall in NN.
  assert (NO : forall h nm, e_name h = nm -> In nm [s_of "Huxley" ++ s_of " large value estimate" ++ []; s_of "Heath-Brown" ++ s_of " large value estimate" ++ []; s_of "Bourgain" ++ s_of " optimized large value estimate";
    s_of "Guth--Maynard" ++ s_of " large value estimate" ++ []; s_of "Heath-Brown" ++ s_of " large value energy region" ++ s_of " 2a"] -> e_keyword_match (s_of kw) h = true -> False).
  { intros h nm En Inm F. rewrite KM, En in F. specialize (NN nm Inm). rewrite F in NN. discriminate. }
  assert (KJ : forall k h, (1 <= k < 30)%Z -> jutila_estimate E get k = Ret h -> e_keyword_match (s_of kw) (EBase h) = Z.eqb k n).
  { intros k h Bk Ek. destruct (literature_max_is _ _ _ _ _ Ek) as (N & _). rewrite (by_jutila get BIB) in N. rewrite (e_keyword_name _ _ _ (eq_trans (base_name h) N)).
    unfold only_k in OK'. rewrite forallb_forall in OK'. specialize (OK' k). symmetry. apply eqb_prop, OK'. apply in_map_iff. exists (Z.to_nat k). split; [lia|apply in_seq; lia]. }
  assert (EX : exists h, jutila_estimate E get n = Ret h /\ In h js).
  { unfold add_jutila_large_values_estimate, range1 in Ej.
    assert (I3 : In n (map Z.of_nat (seq 1 (Z.to_nat (K - 1))))) by (apply in_map_iff; exists (Z.to_nat n); split; [lia|apply in_seq; lia]).
    clear - Ej I3. revert js Ej. induction (map Z.of_nat (seq 1 (Z.to_nat (K - 1)))) as [|k l IH]; intros js H; [destruct I3|]. cbn [mapM] in H.
    destruct (jutila_estimate E get k) as [g|] eqn:Eg; [|discriminate]. cbn [bind] in H. destruct (mapM (jutila_estimate E get) l) as [gs|] eqn:Egs; [|discriminate]. cbn [bind] in H.
    assert (Ejs : js = g :: gs) by congruence. subst js. destruct I3 as [->|I3]; [exists g; split; [exact Eg|now left]|]. destruct (IH I3 gs eq_refl) as (h & Eh & Ih). exists h. split; [exact Eh|now right]. }
  destruct EX as (h & En & Ih). exists h. split; [exact En|]. apply e_find_only.
  - apply M. apply in_or_app. left. do 4 right. apply in_map, Ih.
  - rewrite (KJ n h ltac:(lia) En). apply Z.eqb_refl.
  - intros g Ig F. apply M in Ig. apply in_app_iff in Ig as [[<-|[<-|[<-|[<-|Ig]]]]|[<-|Ig]].
    + destruct (NO (EBase hux) _ (eq_trans (base_name _) Nu) ltac:(cbn [In]; tauto) F).
    + destruct (NO (EBase hb) _ (eq_trans (base_name _) Nh) ltac:(cbn [In]; tauto) F).
    + destruct (NO (EBase bo) _ (eq_trans (base_name _) Nb) ltac:(cbn [In]; tauto) F).
    + destruct (NO (EBase gm) _ (eq_trans (base_name _) Ng) ltac:(cbn [In]; tauto) F).
    + apply in_map_iff in Ig as (l & <- & Il). destruct (jutila_each js Ej l Il) as (k & Bk & Ek). rewrite (KJ k l Bk Ek) in F. apply Z.eqb_eq in F. subst k. congruence.
    + destruct (NO er _ Ne ltac:(cbn [In]; tauto) F).
    + destruct (OT g Ig) as (_ & C & _). exfalso. rewrite KM, Ekw in F. now rewrite (contains_front _ _ _ F) in C.
Qed.
End Literature.
Print Assumptions energy_hypotheses_found.

(** ** Truth *)
Lemma hb_closed : forall s t r e z r' e' z1 z2, r' <= r -> e' <= e -> hb_relation s t r e' z1 -> hb_relation s t r' e z2 -> hb_relation s t r e z.
Proof. unfold hb_relation, max3. intros. qmax_cases; Lqa.lra. Qed.

Lemma world_energy : forall E, ext_ok E -> forall tr btr W er (ls : list (lnode * list (list Q))) ks s v, a_admissible W -> says er hb_relation -> eholds tr btr (ener (dens W)) er ->
  Forall (fun lb => Spec_DerivedDensity.records E (fst lb) (snd lb) /\ lholds tr btr (Spec_AdditiveEnergy.low (ener (dens W))) (fst lb)) ls -> Forall natural_power ks -> 1#2 < s -> s < 1 ->
  (forall t r e z, 2 <= t <= 4 -> 0 <= r -> 0 <= e -> obeyed (hb_relation :: map (fun lb => lv_relation (snd lb)) ls) ks s t r e z -> e <= v * t) ->
  ze W s (Q2R (v / (1 - s))).
Proof.
  intros E OK tr btr W er ls ks s v Ad Se Te F KS S1 S2 B. pose proof (a_dens W Ad) as Dd. pose proof (d_en _ Dd) as De.
  replace (Q2R (v / (1 - s))) with (Q2R v / (1 - Q2R s))%R by (rewrite Q2R_div by (intro; Lqa.lra); rewrite Q2R_minus; f_equal; f_equal; unfold Q2R; cbn; Lra.lra).
  assert (Rec : forall t r e z, 0 <= t <= 4 -> en (ener (dens W)) [s; t; r; e; z] -> recorded s t r e z).
  { intros t r e z [T1 T2] En. destruct (en_sizes _ De _ _ _ _ _ En) as (E1 & E2 & E3 & E4 & E5). pose proof (lv_trivial _ Dd s t r ltac:(Lqa.lra) ltac:(Lqa.lra) T1 (en_lv _ De _ _ _ _ _ En)) as E6.
    unfold recorded, in_range5, in_range. unfold TAU_UPPER_LIMIT in *. unfold LV_DEFAULT_UPPER_BOUND. repeat split; Lqa.lra. }
  apply (ze_large W Ad s 2 (Q2R v) S1 S2); [Lqa.lra| |intros t r e z T1 T2; exfalso; Lqa.lra].
  intros t r e z T1 T2 En. rewrite <- Q2R_mult. apply Qle_Rle. destruct (en_sizes _ De _ _ _ _ _ En) as (E1 & E2 & _).
  apply (B t r e z); [split; Lqa.lra|exact E1|Lqa.lra|]. intros rel k Ir Ik. rewrite Forall_forall in KS. destruct (KS k Ik) as (n & N & KQ).
  assert (RP : rel_proper rel) by (destruct Ir as [<-|Ir]; [exact hb_proper|apply in_map_iff in Ir as (lb & <- & _); apply lv_proper]).
  apply (RP s (t / inject_Z n) (r / inject_Z n) (e / inject_Z n) (z / inject_Z n)); try (rewrite KQ; reflexivity); [reflexivity|].
  assert (K1 : 1 <= inject_Z n) by (change 1 with (inject_Z 1); rewrite <- Zle_Qle; exact N).
  assert (T : 0 <= t / inject_Z n <= 4) by (split; [apply Qle_shift_div_l|apply Qle_shift_div_r]; Lqa.lra).
  destruct (en_power _ De s t r e z n N En) as ((e' & z' & Le & P1) & (r' & z'' & Lr & P2)). pose proof (Rec _ _ _ _ T P1) as C1. pose proof (Rec _ _ _ _ T P2) as C2.
  destruct Ir as [<-|Ir].
  - destruct Se as (_ & R & D & _ & _ & M). unfold eholds in Te. rewrite D in Te. apply (hb_closed _ _ _ _ _ r' e' z' z''); [exact Lr|exact Le| |]; apply M, Te; assumption.
  - apply in_map_iff in Ir as ((l & Bs) & <- & Il). rewrite Forall_forall in F. destruct (F _ Il) as [RL T']. cbn [fst snd] in *. destruct (record_region E OK l Bs RL) as (R & rep & D & _ & _ & M).
    unfold lholds in T'. rewrite D in T'. unfold lv_estimate in T'. destruct C1 as [[IR _] _]. apply (proj1 (M _ _ _) (T' _ _ _ IR (en_lv _ De _ _ _ _ _ P1))).
Qed.

(** ** The second derivation *)
Lemma energy_over_and : forall l a b (P R : Q -> Rdefinitions.R -> Prop), energy_over l a b P -> (forall s, a <= s -> s < b -> forall v, P s v -> R s v) -> energy_over l a b R.
Proof.
  intros l a b P R [T V] H. split; [exact T|]. intros o Io. destruct (V o Io) as (x & i & f & p & r & ds & Eo & NP & Vs). exists x, i, f, p, r, ds. split; [exact Eo|]. split; [exact NP|].
  intros s Is. pose proof (proj2 (tile_within l _ _ T) o Io) as TW. rewrite Eo in TW. cbn [z_int] in TW. destruct TW as (T1 & T2 & T3).
  assert (IN : (Q2R a <= Q2R s /\ Q2R s < Q2R b)%R) by (pose proof Is as Ix; unfold Spec_RationalFunction.inside in Ix; rewrite T3 in Ix; destruct (ilo i); cbn in Ix; Lra.lra).
  destruct IN as [I1 I2]. apply Rle_Qle in I1. apply Rlt_Qlt in I2. apply H; auto.
Qed.

(** What the derivations with tau0 = 2 have in common *)
Lemma two_derivation : forall E, ext_ok E -> forall adjacency, adjacency_ok E adjacency -> forall solve, solve_complete solve ->
  forall order, (forall k l, Permutation (order k l) l) -> forall iteration, (forall l x, In x (iteration l) <-> In x l) -> forall rf_str er (ls : list (lnode * list (list Q))) ks a b v,
  says er hb_relation -> Forall (fun lb => Spec_DerivedDensity.records E (fst lb) (snd lb)) ls -> Forall (fun k => natural_power k /\ k <= 10) ks -> 1#2 <= a -> a < b -> b < 1 ->
  let rels := hb_relation :: map (fun lb => lv_relation (snd lb)) ls in
  (forall s t r e z, a <= s <= b -> 2 <= t <= 4 -> 0 <= r -> 0 <= e -> obeyed rels (1 :: ks) s t r e z -> e <= v s * t) ->
  (forall S : point -> Prop, (forall s t r e z, S [s; t; r; e; z] <-> seen rels (1 :: ks) a b s t r e z) ->
    (forall s, a <= s -> s < b -> exists t0 e0, 0 < t0 /\ e0 == v s * t0 /\ 0 <= e0 /\ forall eps, 0 < eps -> exists s' t' r' e' z', near eps [s; t0; e0] [s'; t'; e'] /\ s < s' /\ Spec_Region.inside S [s'; t'; r'; e'; z']) /\
    exists x y, Spec_Region.inside S x /\ Spec_Region.inside S y /\ List.length x = List.length y /\ ~ S (mix (1#2) x y)) ->
  Forall (fun lb => Forall (fun b => Forall (fun k => k * (nth 0 b 0 + nth 1 b 0 * a) + nth 2 b 0 * 2 < LV_DEFAULT_UPPER_BOUND) (1 :: ks)) (snd lb)) ls ->
  exists hs, add_lvers iteration (with_powers iteration ks (map (fun lb => EBase (fst lb)) ls ++ [er])) false = Ret hs /\
    (forall h, In h hs -> e_is_zlv h = false) /\
    forall hs', (forall h, In h hs' <-> In h hs) -> exists l, lver_to_energy_bound E order adjacency solve rf_str hs' 0 2 a b = Ret l /\ energy_over l a b (fun s w => w = Q2R (v s / (1 - s))).
Proof.
  intros E OK adj AD solve SC order OO iter IT rf_str er ls ks a b v Se RC KS A0 AB B1 rels UP LT MISS.
  destruct (add_lvers_set E OK iter IT er ls ks Se RC) as (hs & Eh & H1 & H2 & H3 & H4).
  assert (KS' : Forall natural_power ks) by (eapply Forall_impl; [|exact KS]; intros k [H _]; exact H).
  assert (RP : forall rel, In rel rels -> rel_proper rel) by (intros rel [<-|Ir]; [exact hb_proper|apply in_map_iff in Ir as (lb & <- & _); apply lv_proper]).
  assert (L : forall lb, In lb ls -> exists r rep, l_data (fst lb) = DLV r rep /\ proper_year (r_year (l_ref (fst lb)))).
  { intros lb Il. rewrite Forall_forall in RC. specialize (RC lb Il). destruct (record_region E OK _ _ RC) as (r & rep & D & _). exists r, rep. split; [exact D|]. destruct RC as (_ & Y & _). exact Y. }
  assert (H1' : forall h, In h hs -> (exists k, In k ks /\ h = get_raise_to_power_hypothesis k) \/ (exists l r rep, h = EBase l /\ l_data l = DLV r rep /\ proper_year (r_year (l_ref l))) \/ exists rel, In rel rels /\ says h rel).
  { intros h Ih. destruct (H1 h Ih) as [X|[(lb & Il & ->)|[X|(lb & Il & X)]]]; [now left| | |].
    - right; left. destruct (L lb Il) as (r & rep & D & Y). exists (fst lb), r, rep. auto.
    - right; right. exists hb_relation. split; [now left|exact X].
    - right; right. exists (lv_relation (snd lb)). split; [right; apply in_map_iff; now exists lb|exact X]. }
  assert (H3' : forall rel, In rel rels -> exists h, In h hs /\ says h rel).
  { intros rel [<-|Ir]; [now exists er|]. apply in_map_iff in Ir as (lb & <- & Il). now apply H4. }
  exists hs. split; [exact Eh|]. split.
  { intros h Ih. destruct (H1' h Ih) as [(k & _ & ->)|[(l' & r & rep & -> & D & _)|(rel & _ & _ & R & D & _)]]; [reflexivity| |]; unfold e_is_zlv; cbn [e_data]; rewrite D; reflexivity. }
  clear Eh H1 H3 H4. intros hs' SM. 
  assert (H1s : forall h, In h hs' -> (exists k, In k ks /\ h = get_raise_to_power_hypothesis k) \/ (exists l r rep, h = EBase l /\ l_data l = DLV r rep /\ proper_year (r_year (l_ref l))) \/ exists rel, In rel rels /\ says h rel) by (intros h Ih; apply H1', SM, Ih).
  assert (H2s : forall k, In k ks -> In (get_raise_to_power_hypothesis k) hs') by (intros k Ik; apply SM, H2, Ik).
  assert (H3s : forall rel, In rel rels -> exists h, In h hs' /\ says h rel) by (intros rel Ir; destruct (H3' rel Ir) as (h & Ih & X); exists h; split; [apply SM, Ih|exact X]).
  clear H1' H2 H3' SM hs.
  assert (HS : forall s t r e z, allowed hs' false (long_range 0 2 a b) [s; t; r; e; z] <-> seen rels (1 :: ks) a b s t r e z) by (intros; apply (S_is hs' rels ks KS' RP H1s H2s H3s a b); assumption).
  destruct (LT _ HS) as [LOW TWO].
  destruct (two_value hs' rels ks KS' RP H1s H2s H3s E OK adj AD solve SC order OO rf_str a b A0 AB B1 v) as (l & El & V).
  - discriminate.
  - exact UP.
  - exact LOW.
  - exact TWO.
  - intros rel k Ir Ik. assert (KB : 1 <= k /\ k <= 10).
    { destruct Ik as [<-|Ik]; [split; discriminate|]. rewrite Forall_forall in KS. destruct (KS k Ik) as ((n & N & KQ) & KU). split; [|exact KU]. rewrite KQ. change 1 with (inject_Z 1). rewrite <- Zle_Qle. exact N. }
    destruct KB as [K1 K2]. destruct Ir as [<-|Ir]; [apply miss_hb; Lqa.lra|]. apply in_map_iff in Ir as (lb & <- & Il). rewrite Forall_forall in MISS. specialize (MISS lb Il).
    apply miss_lv; [exact K1|exact K2|]. eapply Forall_impl; [|exact MISS]. intros bb F. rewrite Forall_forall in F. now apply F.
  - now exists l.
Qed.

Lemma heath_brown_says : forall E get, ext_ok E -> energy_bibliography get -> forall er, add_lver_heath_brown_1979b1 E get = Ret er -> says er hb_relation.
Proof.
  intros E get OK [_ Y] er Ee. destruct (hb_relation_region E get OK) as (er' & Ee' & RR). assert (er' = er) by congruence. subst er'. exact (records_says _ _ _ _ RR Y).
Qed.
Lemma gm_recorded_as : forall E get, ext_ok E -> energy_bibliography get -> forall gm, add_guth_maynard_large_values_estimate E get = Ret gm -> Spec_DerivedDensity.records E gm gm_bounds.
Proof.
  intros E get OK [BIB _] gm Eg. destruct (literature_max_is _ _ _ _ _ Eg) as (_ & RF & C). split; [exact gm_proper|]. split; [rewrite RF; exact (guth_maynard_dated get BIB)|exact C].
Qed.

(** The second derivation gives the larger of the two bounds of the literature and
    nothing else, on all of [7/10, 3/4); this bound follows from the classical estimate,
    that of Guth and Maynard and the energy region 2a. *)
Theorem energy_2_derivation : forall E, ext_ok E -> forall adjacency, adjacency_ok E adjacency -> forall solve, solve_complete solve ->
  forall order, (forall k l, Permutation (order k l) l) -> forall iteration, (forall l x, In x (iteration l) <-> In x l) ->
  forall rf_str get K lit, energy_bibliography get -> (K <= 30)%Z -> energy_literature E get K lit ->
  exists l, prove_zero_density_energy_2 E order adjacency solve rf_str iteration lit = Ret l /\
    energy_over l (7#10) (3#4) (fun s v => v = Q2R (energy_2 s / (1 - s)) /\
      follows_from E get [large_value_estimate_L2 E; add_guth_maynard_large_values_estimate E get] s (energy_2 s / (1 - s))).
Proof.
  intros E OK adj AD solve SC order OO iter IT rf_str get K lit EB K2 RL.
  destruct (energy_hypotheses_found E OK get EB K K2 lit RL) as (gm & er & Eg & Ee & Fg & Fe). destruct (l2_records E OK) as (l2 & E2 & R2).
  pose proof (heath_brown_says E get OK EB er Ee) as Se. pose proof (gm_recorded_as E get OK EB gm Eg) as Rg.
  set (ls := [(l2, l2_bounds); (gm, gm_bounds)]).
  assert (RC : Forall (fun lb => Spec_DerivedDensity.records E (fst lb) (snd lb)) ls) by (constructor; [exact R2|constructor; [exact Rg|constructor]]).
  assert (KS : Forall (fun k => natural_power k /\ k <= 10) [2; 3; 4]) by (repeat (constructor; [split; [eexists; split; [|reflexivity]; lia|discriminate]|]); constructor).
  destruct (two_derivation E OK adj AD solve SC order OO iter IT rf_str er ls [2; 3; 4] (7#10) (3#4) energy_2) as (hs & Eh & _ & V); auto; try reflexivity; try discriminate.
  - intros s t r e z Hs Ht Hr He O. exact (up2 s t r e z Hs Ht Hr He O).
  - intros S HS. split; [exact (low2 S HS)|exact (two2 S HS)].
  - repeat constructor; cbn [nth]; reflexivity.
  - destruct (V hs) as (l & El & D); [tauto|]. exists l. split.
    { unfold prove_zero_density_energy_2, find_all. rewrite E2. cbn [bind mapM]. rewrite Fg, Fe. cbn [e_found bind]. cbn [map app ls fst] in Eh. rewrite Eh. cbn [bind]. exact El. }
    eapply energy_over_and; [exact D|]. intros s S1 S2 v ->. split; [reflexivity|]. intros tr btr W er' Ad Ee' Te Tl. assert (er' = er) by congruence. subst er'.
    inversion Tl as [|? ? T2 Tl']. inversion Tl' as [|? ? Tg _]. subst.
    apply (world_energy E OK tr btr W er ls (1 :: [2; 3; 4]) s); auto; try Lqa.lra.
    + constructor; [split; [exact R2|now apply T2]|constructor; [split; [exact Rg|now apply Tg]|constructor]].
    + constructor; [exists 1%Z; split; [lia|reflexivity]|eapply Forall_impl; [|exact KS]; intros k [H _]; exact H].
    + intros t r e z Ht Hr He O. apply (up2 s t r e z); auto. split; Lqa.lra.
Qed.
Print Assumptions energy_2_derivation.

(** ** The fifth and the sixth derivation *)
Lemma jutila_proper_all : forall n, (3 <= n)%Z -> proper_bounds (jutila_bounds n).
Proof.
  intros n N. assert (Z3 : 3 <= inject_Z n) by (change 3 with (inject_Z 3); rewrite <- Zle_Qle; exact N). assert (D3 : 0 < 2 / inject_Z n /\ 2 / inject_Z n <= 2#3) by (split; [apply Qlt_shift_div_l; Lqa.lra|apply Qle_shift_div_r; Lqa.lra]).
  unfold jutila_bounds. set (q := 2 / inject_Z n) in *. set (K := inject_Z n) in *. clearbody q K.
  split; [discriminate|]. split; [repeat constructor; cbn [nth]; Lqa.lra|]. split.
  - intros pre b post Eq. destruct pre as [|a1 [|a2 [|a3 [|]]]]; cbn [app] in Eq; try discriminate.
    + assert (Eb : b = [2; -(2); 0]) by congruence. subst b. exists (3#4), 1, (1#4). unfold Spec_LargeValueRegion.well_in_range, TAU_UPPER_LIMIT, LV_DEFAULT_UPPER_BOUND, bound_at. cbn [nth]. split; [Lqa.lra|]. split; [Lqa.lra|constructor].
    + assert (Eb : b = [4 - q; -(6 - q); 1]) by congruence. assert (Ea : a1 = [2; -(2); 0]) by congruence. subst b a1. exists (3#4), 2, 1.
      unfold Spec_LargeValueRegion.well_in_range, TAU_UPPER_LIMIT, LV_DEFAULT_UPPER_BOUND, bound_at. cbn [nth]. split; [Lqa.lra|]. split; [Lqa.lra|]. constructor; [cbn [nth]; Lqa.lra|constructor].
    + assert (Eb : b = [6 * K; -(8) * K; 1]) by congruence. assert (Ea : a1 = [2; -(2); 0]) by congruence. assert (Ea' : a2 = [4 - q; -(6 - q); 1]) by congruence. subst b a1 a2. exists (3#5), 2, 4.
      unfold Spec_LargeValueRegion.well_in_range, TAU_UPPER_LIMIT, LV_DEFAULT_UPPER_BOUND, bound_at. cbn [nth]. split; [Lqa.lra|]. split; [Lqa.lra|]. constructor; [cbn [nth]; Lqa.lra|constructor; [cbn [nth]; Lqa.lra|constructor]].
  - exists [2; -(2); 0]. split; [now left|]. intros s t. unfold bound_at. cbn [nth]. Lqa.lra.
Qed.
Lemma no_more_lvers : forall iteration, (forall l x, In x (iteration l) <-> In x l) -> forall hs, (forall h, In h hs -> e_is_zlv h = false) ->
  exists hs', add_lvers iteration hs true = Ret hs' /\ forall h, In h hs' <-> In h hs.
Proof.
  intros iter IT hs Z. exists (iter (hs ++ [])). split.
  - unfold add_lvers, lv_to_lver. replace (filter e_is_zlv hs) with (@nil enode); [reflexivity|]. clear IT. induction hs as [|h hs IH]; [reflexivity|]. cbn [filter]. rewrite (Z h (or_introl eq_refl)). apply IH. intros g Ig. apply Z. now right.
  - intro h. rewrite IT, app_nil_r. reflexivity.
Qed.
Lemma jutila_derivation : forall E, ext_ok E -> forall adjacency, adjacency_ok E adjacency -> forall solve, solve_complete solve ->
  forall order, (forall k l, Permutation (order k l) l) -> forall iteration, (forall l x, In x (iteration l) <-> In x l) ->
  forall rf_str get, energy_bibliography get -> forall (ls : list (lnode * list (list Q))) er a b v (used : list (res lnode)) members,
  add_lver_heath_brown_1979b1 E get = Ret er -> Forall (fun lb => Spec_DerivedDensity.records E (fst lb) (snd lb)) ls -> used = map (fun lb => Ret (fst lb)) ls ->
  members = Ret (map (fun lb => EBase (fst lb)) ls ++ [er]) -> 1#2 < a -> a < b -> b < 1 ->
  let rels := hb_relation :: map (fun lb => lv_relation (snd lb)) ls in
  (forall s t r e z, a <= s <= b -> 2 <= t <= 4 -> 0 <= r -> 0 <= e -> obeyed rels ks3 s t r e z -> e <= v s * t) ->
  (forall S : point -> Prop, (forall s t r e z, S [s; t; r; e; z] <-> seen rels ks3 a b s t r e z) ->
    (forall s, a <= s -> s < b -> exists t0 e0, 0 < t0 /\ e0 == v s * t0 /\ 0 <= e0 /\ forall eps, 0 < eps -> exists s' t' r' e' z', near eps [s; t0; e0] [s'; t'; e'] /\ s < s' /\ Spec_Region.inside S [s'; t'; r'; e'; z']) /\
    exists x y, Spec_Region.inside S x /\ Spec_Region.inside S y /\ List.length x = List.length y /\ ~ S (mix (1#2) x y)) ->
  Forall (fun lb => Forall (fun b => Forall (fun k => k * (nth 0 b 0 + nth 1 b 0 * a) + nth 2 b 0 * 2 < LV_DEFAULT_UPPER_BOUND) ks3) (snd lb)) ls ->
  exists l, energy_derivation E order adjacency solve rf_str iteration [2; 3] members 0 2 a b = Ret l /\
    energy_over l a b (fun s w => w = Q2R (v s / (1 - s)) /\ follows_from E get used s (v s / (1 - s))).
Proof.
  intros E OK adj AD solve SC order OO iter IT rf_str get EB ls er a b v used members Ee RC Eu Em A0 AB B1 rels UP LT MISS.
  pose proof (heath_brown_says E get OK EB er Ee) as Se.
  assert (KS : Forall (fun k => natural_power k /\ k <= 10) [2; 3]) by (repeat (constructor; [split; [eexists; split; [|reflexivity]; lia|discriminate]|]); constructor).
  destruct (two_derivation E OK adj AD solve SC order OO iter IT rf_str er ls [2; 3] a b v Se RC KS (Qlt_le_weak _ _ A0) AB B1 UP LT MISS) as (hs & Eh & NZ & V).
  destruct (no_more_lvers iter IT hs NZ) as (hs' & Eh' & SM). destruct (V hs' SM) as (l & El & D). exists l. split.
  - unfold energy_derivation. rewrite Em. cbn [bind]. rewrite Eh. cbn [bind]. rewrite Eh'. cbn [bind]. exact El.
  - eapply energy_over_and; [exact D|]. intros s S1 S2 w ->. split; [reflexivity|]. intros tr btr W er' Ad Ee' Te Tl. assert (er' = er) by congruence. subst er'. subst used.
    apply (world_energy E OK tr btr W er ls (1 :: [2; 3]) s); auto; try Lqa.lra.
    + rewrite Forall_forall in *. intros lb Il. split; [now apply RC|]. apply (Tl (Ret (fst lb))); [apply in_map_iff; now exists lb|reflexivity].
    + constructor; [exists 1%Z; split; [lia|reflexivity]|eapply Forall_impl; [|exact KS]; intros k [H _]; exact H].
    + intros t r e z Ht Hr He O. apply (UP s t r e z); auto. split; Lqa.lra.
Qed.
Lemma jutila_recorded_as : forall E get n, ext_ok E -> energy_bibliography get -> (3 <= n)%Z -> forall h, jutila_estimate E get n = Ret h -> Spec_DerivedDensity.records E h (jutila_bounds n).
Proof.
  intros E get n OK [BIB _] N h Eg. destruct (literature_max_is _ _ _ _ _ Eg) as (_ & RF & C). split; [exact (jutila_proper_all n N)|]. split; [rewrite RF; exact (jutila_dated get BIB)|exact C].
Qed.
Ltac found_j E OK get EB K K2 lit RL kw n tl := destruct (jutila_found_as E OK get EB K K2 lit RL kw n (s_of tl) ltac:(lia) ltac:(vm_compute; reflexivity) ltac:(vm_compute; reflexivity) ltac:(vm_compute; reflexivity) ltac:(vm_compute; reflexivity) ltac:(vm_compute; reflexivity)) as (h & Ej & Fj).

(** The fifth and the sixth derivation give exactly the bounds of the literature, which
    follow from Jutila's estimate with k = 6 or k = 5 and the energy region 2a. *)
Theorem energy_5_derivation : forall E, ext_ok E -> forall adjacency, adjacency_ok E adjacency -> forall solve, solve_complete solve ->
  forall order, (forall k l, Permutation (order k l) l) -> forall iteration, (forall l x, In x (iteration l) <-> In x l) ->
  forall rf_str get K lit, energy_bibliography get -> (6 < K <= 30)%Z -> energy_literature E get K lit ->
  exists l, prove_zero_density_energy_5 E order adjacency solve rf_str iteration lit = Ret l /\
    energy_over l (42#55) (79#103) (fun s v => v = Q2R (energy_5 s / (1 - s)) /\ follows_from E get [jutila_estimate E get 6] s (energy_5 s / (1 - s))).
Proof.
  intros E OK adj AD solve SC order OO iter IT rf_str get K lit EB [K1 K2] RL.
  destruct (energy_hypotheses_found E OK get EB K K2 lit RL) as (gm & er & Eg & Ee & Fg & Fe).
  found_j E OK get EB K K2 lit RL "Jutila large value estimate with k = 6"%string 6%Z " with k = 6"%string.
  pose proof (jutila_recorded_as E get 6 OK EB ltac:(lia) h Ej) as Rj. rewrite Ej.
  apply (jutila_derivation E OK adj AD solve SC order OO iter IT rf_str get EB [(h, jutila_bounds 6)] er); auto; try reflexivity.
  - unfold find_all. cbn [mapM]. rewrite Fj, Fe. reflexivity.
  - exact up5.
  - intros S HS. split; [exact (low5 S HS)|exact (two5 S HS)].
  - repeat constructor; cbn [nth]; reflexivity.
Qed.
Print Assumptions energy_5_derivation.
Theorem energy_6_derivation : forall E, ext_ok E -> forall adjacency, adjacency_ok E adjacency -> forall solve, solve_complete solve ->
  forall order, (forall k l, Permutation (order k l) l) -> forall iteration, (forall l x, In x (iteration l) <-> In x l) ->
  forall rf_str get K lit, energy_bibliography get -> (5 < K <= 30)%Z -> energy_literature E get K lit ->
  exists l, prove_zero_density_energy_6 E order adjacency solve rf_str iteration lit = Ret l /\
    energy_over l (79#103) (84#109) (fun s v => v = Q2R (energy_6 s / (1 - s)) /\ follows_from E get [jutila_estimate E get 5] s (energy_6 s / (1 - s))).
Proof.
  intros E OK adj AD solve SC order OO iter IT rf_str get K lit EB [K1 K2] RL.
  destruct (energy_hypotheses_found E OK get EB K K2 lit RL) as (gm & er & Eg & Ee & Fg & Fe).
  found_j E OK get EB K K2 lit RL "Jutila large value estimate with k = 5"%string 5%Z " with k = 5"%string.
  pose proof (jutila_recorded_as E get 5 OK EB ltac:(lia) h Ej) as Rj. rewrite Ej.
  apply (jutila_derivation E OK adj AD solve SC order OO iter IT rf_str get EB [(h, jutila_bounds 5)] er); auto; try reflexivity.
  - unfold find_all. cbn [mapM]. rewrite Fj, Fe. reflexivity.
  - exact up6.
  - intros S HS. split; [exact (low6 S HS)|exact (two6 S HS)].
  - repeat constructor; cbn [nth]; reflexivity.
Qed.
Print Assumptions energy_6_derivation.

(** ** The fourth, the eighth and the tenth derivation

    They use the estimate of Guth and Maynard and one of Jutila's. *)
Theorem energy_4_derivation : forall E, ext_ok E -> forall adjacency, adjacency_ok E adjacency -> forall solve, solve_complete solve ->
  forall order, (forall k l, Permutation (order k l) l) -> forall iteration, (forall l x, In x (iteration l) <-> In x l) ->
  forall rf_str get K lit, energy_bibliography get -> (10 < K <= 30)%Z -> energy_literature E get K lit ->
  exists l, prove_zero_density_energy_4 E order adjacency solve rf_str iteration lit = Ret l /\
    energy_over l (664#877) (31#40) (fun s v => v = Q2R (energy_4 s / (1 - s)) /\ follows_from E get [add_guth_maynard_large_values_estimate E get; jutila_estimate E get 10] s (energy_4 s / (1 - s))).
Proof.
  intros E OK adj AD solve SC order OO iter IT rf_str get K lit EB [K1 K2] RL.
  destruct (energy_hypotheses_found E OK get EB K K2 lit RL) as (gm & er & Eg & Ee & Fg & Fe).
  found_j E OK get EB K K2 lit RL "Jutila large value estimate with k = 10"%string 10%Z " with k = 10"%string.
  pose proof (jutila_recorded_as E get 10 OK EB ltac:(lia) h Ej) as Rj. pose proof (gm_recorded_as E get OK EB gm Eg) as Rg. rewrite Ej, Eg.
  apply (jutila_derivation E OK adj AD solve SC order OO iter IT rf_str get EB [(gm, gm_bounds); (h, jutila_bounds 10)] er); auto; try reflexivity.
  - unfold find_all. cbn [mapM]. rewrite Fg, Fj, Fe. reflexivity.
  - exact up4.
  - intros S HS. split; [exact (low4 S HS)|exact (two4 S HS)].
  - repeat constructor; cbn [nth]; reflexivity.
Qed.
Print Assumptions energy_4_derivation.
Theorem energy_8_derivation : forall E, ext_ok E -> forall adjacency, adjacency_ok E adjacency -> forall solve, solve_complete solve ->
  forall order, (forall k l, Permutation (order k l) l) -> forall iteration, (forall l x, In x (iteration l) <-> In x l) ->
  forall rf_str get K lit, energy_bibliography get -> (13 < K <= 30)%Z -> energy_literature E get K lit ->
  exists l, prove_zero_density_energy_8 E order adjacency solve rf_str iteration lit = Ret l /\
    energy_over l (37#49) (443#586) (fun s v => v = Q2R (energy_8 s / (1 - s)) /\ follows_from E get [add_guth_maynard_large_values_estimate E get; jutila_estimate E get 13] s (energy_8 s / (1 - s))).
Proof.
  intros E OK adj AD solve SC order OO iter IT rf_str get K lit EB [K1 K2] RL.
  destruct (energy_hypotheses_found E OK get EB K K2 lit RL) as (gm & er & Eg & Ee & Fg & Fe).
  found_j E OK get EB K K2 lit RL "Jutila large value estimate with k = 13"%string 13%Z " with k = 13"%string.
  pose proof (jutila_recorded_as E get 13 OK EB ltac:(lia) h Ej) as Rj. pose proof (gm_recorded_as E get OK EB gm Eg) as Rg. rewrite Ej, Eg.
  apply (jutila_derivation E OK adj AD solve SC order OO iter IT rf_str get EB [(gm, gm_bounds); (h, jutila_bounds 13)] er); auto; try reflexivity.
  - unfold find_all. cbn [mapM]. rewrite Fg, Fj, Fe. reflexivity.
  - exact up8.
  - intros S HS. split; [exact (low8 S HS)|exact (two8 S HS)].
  - repeat constructor; cbn [nth]; reflexivity.
Qed.
Print Assumptions energy_8_derivation.
Theorem energy_10_derivation : forall E, ext_ok E -> forall adjacency, adjacency_ok E adjacency -> forall solve, solve_complete solve ->
  forall order, (forall k l, Permutation (order k l) l) -> forall iteration, (forall l x, In x (iteration l) <-> In x l) ->
  forall rf_str get K lit, energy_bibliography get -> (11 < K <= 30)%Z -> energy_literature E get K lit ->
  exists l, prove_zero_density_energy_10 E order adjacency solve rf_str iteration lit = Ret l /\
    energy_over l (373#493) (103#136) (fun s v => v = Q2R (energy_10 s / (1 - s)) /\ follows_from E get [add_guth_maynard_large_values_estimate E get; jutila_estimate E get 11] s (energy_10 s / (1 - s))).
Proof.
  intros E OK adj AD solve SC order OO iter IT rf_str get K lit EB [K1 K2] RL.
  destruct (energy_hypotheses_found E OK get EB K K2 lit RL) as (gm & er & Eg & Ee & Fg & Fe).
  found_j E OK get EB K K2 lit RL "Jutila large value estimate with k = 11"%string 11%Z " with k = 11"%string.
  pose proof (jutila_recorded_as E get 11 OK EB ltac:(lia) h Ej) as Rj. pose proof (gm_recorded_as E get OK EB gm Eg) as Rg. rewrite Ej, Eg.
  apply (jutila_derivation E OK adj AD solve SC order OO iter IT rf_str get EB [(gm, gm_bounds); (h, jutila_bounds 11)] er); auto; try reflexivity.
  - unfold find_all. cbn [mapM]. rewrite Fg, Fj, Fe. reflexivity.
  - exact up10.
  - intros S HS. split; [exact (low10 S HS)|exact (two10 S HS)].
  - repeat constructor; cbn [nth]; reflexivity.
Qed.
Print Assumptions energy_10_derivation.
(** The bounds displayed for the fourth and the tenth are larger than those derived, the
    one for the eighth is the same. *)
Theorem displayed_energy_bounds : forall s,
  (664#877 <= s <= 31#40 -> energy_4 s <= qmax ((72 - 91 * s) / (7 * (11 * s - 8))) (5 * (18 - 19 * s) / (2 * (5 * s + 3)))) /\
  (373#493 <= s <= 103#136 -> energy_10 s <= qmax (qmax ((533 - 730 * s) / (30 * (26 - 35 * s))) (3 * (26 - 33 * s) / (85 * s - 62))) ((174 - 185 * s) / (31 * s + 2))) /\
  (37#49 <= s <= 443#586 -> energy_8 s == qmax ((173 - 270 * s) / (16 * (93 - 125 * s))) (qmax ((653 - 890 * s) / (10 * (93 - 125 * s))) ((1151 - 1190 * s) / (20 * (15 * s - 2))))).
Proof.
  intro s. split; [|split].
  - intros _. unfold energy_4. destruct (qmin_spec ((650 * s - 473) / (5 * (190 * s - 141))) ((72 - 91 * s) / (7 * (11 * s - 8)))) as (_ & M & _).
    destruct (qmax_spec ((72 - 91 * s) / (7 * (11 * s - 8))) (5 * (18 - 19 * s) / (2 * (5 * s + 3)))) as (X1 & X2 & _).
    set (m := qmin _ _) in *. destruct (qmax_spec m (5 * (18 - 19 * s) / (2 * (5 * s + 3)))) as (_ & _ & [-> | ->]); [eapply Qle_trans; eassumption|exact X2].
  - intros _. unfold energy_10. destruct (qmin_spec ((730 * s - 533) / (30 * (35 * s - 26))) (3 * (26 - 33 * s) / (85 * s - 62))) as (_ & M & _).
    destruct (qmax_spec ((533 - 730 * s) / (30 * (26 - 35 * s))) (3 * (26 - 33 * s) / (85 * s - 62))) as (_ & Y & _). set (y := qmax ((533 - 730 * s) / (30 * (26 - 35 * s))) _) in *.
    destruct (qmax_spec y ((174 - 185 * s) / (31 * s + 2))) as (X1 & X2 & _).
    set (m := qmin _ _) in *. destruct (qmax_spec m ((174 - 185 * s) / (31 * s + 2))) as (_ & _ & [-> | ->]); [eapply Qle_trans; [exact M|eapply Qle_trans; eassumption]|exact X2].
  - intros [S1 S2]. unfold energy_8. assert (E1 : (270 * s - 173) / (16 * (125 * s - 93)) == (173 - 270 * s) / (16 * (93 - 125 * s))) by (field; split; Lqa.lra).
    assert (E2 : (890 * s - 653) / (10 * (125 * s - 93)) == (653 - 890 * s) / (10 * (93 - 125 * s))) by (field; split; Lqa.lra).
    set (a1 := (270 * s - 173) / _) in *. set (a2 := (890 * s - 653) / _) in *. set (b1 := (173 - 270 * s) / _) in *. set (b2 := (653 - 890 * s) / _) in *. set (c := (1151 - 1190 * s) / _). clearbody a1 a2 b1 b2 c.
    destruct (qmax_spec a2 c) as (A1 & A2 & A3). set (u := qmax a2 c) in *. destruct (qmax_spec a1 u) as (A4 & A5 & A6). set (u' := qmax a1 u) in *.
    destruct (qmax_spec b2 c) as (B1 & B2 & B3). set (w := qmax b2 c) in *. destruct (qmax_spec b1 w) as (B4 & B5 & B6). set (w' := qmax b1 w) in *. clearbody u u' w w'.
    apply Qle_antisym; [destruct A6 as [-> | ->]; [|destruct A3 as [-> | ->]]|destruct B6 as [-> | ->]; [|destruct B3 as [-> | ->]]]; Lqa.lra.
Qed.
Print Assumptions displayed_energy_bounds.
(** They are strictly larger at the left end of the range. *)
Example displayed_strictly_larger : energy_4 (664#877) < (72 - 91 * (664#877)) / (7 * (11 * (664#877) - 8)) /\ energy_10 (373#493) < 3 * (26 - 33 * (373#493)) / (85 * (373#493) - 62).
Proof. split; vm_compute; reflexivity. Qed.

(** ** The derivations that do not end *)
(** derived.py 662-812: the last call is given a hypothesis in the place of the set, and the function raises. *)
Theorem heath_brown_energy_refuted : forall E order adjacency solve rf_str iteration lit,
  (exists e, prove_heath_brown_energy_estimate E order adjacency solve rf_str iteration lit = Raise e) /\
  (exists e, prove_improved_heath_brown_energy_estimate E order adjacency solve rf_str iteration lit = Raise e).
Proof.
  intros E order adj solve rf_str iter lit.
  assert (S : forall hs hsz m c a b i, exists e, star_call E order adj solve rf_str hs hsz m c a b i = Raise e).
  { intros. unfold star_call. destruct (lver_domain E m c a b); [|eexists; reflexivity]. cbn [bind]. destruct (compute_LV_star E order hs _ false); [|eexists; reflexivity]. cbn [bind].
    destruct (lver_zeta_domain E m c a b); [|eexists; reflexivity]. cbn [bind]. destruct (compute_LV_star E order hsz _ true); [|eexists; reflexivity]. cbn [bind lver_to_energy_bound_any]. eexists. reflexivity. }
  split.
  - unfold prove_heath_brown_energy_estimate. destruct (large_value_estimate_L2 E); [|eexists; reflexivity]. cbn [bind]. destruct (find_all lit _); [|eexists; reflexivity]. cbn [bind].
    destruct (add_lvers iter _ false) as [hs|]; [|eexists; reflexivity]. cbn [bind]. destruct (S hs hs 0 2 (1#2) (3#4) (ArgInterval (1#2) (3#4))) as (e & ->). exists e. reflexivity.
  - unfold prove_improved_heath_brown_energy_estimate.
    repeat match goal with |- exists e, bind ?x _ = Raise e => destruct x; [|eexists; reflexivity]; cbn [bind] end. cbn [lver_to_energy_bound_any]. eexists. reflexivity.
Qed.
Print Assumptions heath_brown_energy_refuted.
(** derived.py 986-998: the list of all derivations raises in its first line. *)
Theorem all_energy_estimates_refuted : forall E order adjacency solve rf_str iteration lit, exists e,
  prove_all_zero_density_energy_estimates E order adjacency solve rf_str iteration lit = Raise e /\
  prove_heath_brown_energy_estimate E order adjacency solve rf_str iteration lit = Raise e.
Proof.
  intros E order adj solve rf_str iter lit. destruct (proj1 (heath_brown_energy_refuted E order adj solve rf_str iter lit)) as (e & He). exists e. split; [|exact He].
  unfold prove_all_zero_density_energy_estimates. rewrite He. reflexivity.
Qed.
Print Assumptions all_energy_estimates_refuted.

(** ** The assumptions are met *)
Lemma energy_literature_exists : forall E get K, ext_ok E -> exists lit, energy_literature E get K lit.
Proof.
  intros E get K OK. destruct (literature_recorded E get K OK) as (_ & hux & hb & js & bo & gm & _ & Eu & Eh & Ej & Eb & Eg & _). destruct (hb_relation_region E get OK) as (er & Ee & _).
  exists (map EBase (hux :: hb :: bo :: gm :: js) ++ er :: []). exists hux, hb, js, bo, gm, er, []. split; [exact Eu|]. split; [exact Eh|]. split; [exact Ej|]. split; [exact Eb|]. split; [exact Eg|]. split; [exact Ee|].
  split; [intros h []|reflexivity].
Qed.
Lemma sample_energy_bibliography : energy_bibliography sample_get.
Proof. split; [exact sample_bibliography|]. left. vm_compute. exact Logic.I. Qed.
Definition sample_energy_world : aworld := energy_world Spec_BoundMu.trivial_world (fun _ => False).
Lemma sample_region : forall tr btr er, says er hb_relation -> eholds tr btr (ener (dens sample_energy_world)) er.
Proof.
  intros tr btr er (_ & R & D & _ & _ & M). unfold eholds. rewrite D. intros s t r e z (Rc & _) (s' & t' & r' & e' & z' & Eq & (C1 & C2 & C3 & C4 & C5 & C6 & C7 & C8)). injection Eq as <- <- <- <- <-.
  apply M. split; [exact Rc|]. unfold hb_relation. set (m1 := max3 (r + 1) (2 * r) _). set (m2 := max3 (e + 1) (4 * r) _).
  assert (A : r + 1 <= m1 /\ 2 * r <= m1) by (destruct (max3_ge (r + 1) (2 * r) ((5#4) * r + t / 2)) as (X & Y & _); split; [exact X|exact Y]).
  assert (B : e + 1 <= m2 /\ 4 * r <= m2) by (destruct (max3_ge (e + 1) (4 * r) ((3#4) * e + r + t / 2)) as (X & Y & _); split; [exact X|exact Y]). clearbody m1 m2.
  destruct C1 as [C1 [C0|C0]]; Lqa.lra.
Qed.

(** With the verified solver the derivation runs, and there is a world in which the
    estimates that it starts from hold. *)
Example energy_2_case : exists adjacency solve lit, energy_bibliography sample_get /\ energy_literature fm_ext sample_get 20 lit /\
  (exists l, prove_zero_density_energy_2 fm_ext (fun _ l => l) adjacency solve (fun _ => []) (fun l => l) lit = Ret l) /\
  exists W, a_admissible W /\ forall tr btr, (exists er, add_lver_heath_brown_1979b1 fm_ext sample_get = Ret er /\ eholds tr btr (ener (dens W)) er) /\
    Forall (fun h => exists l, h = Ret l /\ lholds tr btr (Spec_AdditiveEnergy.low (ener (dens W))) l) [large_value_estimate_L2 fm_ext; add_guth_maynard_large_values_estimate fm_ext sample_get].
Proof.
  destruct solver_exists as [solve SC]. exists (fun m => map (fun _ => seq 0 (List.length (generators fm_ext m))) (generators fm_ext m)), solve.
  destruct (energy_literature_exists fm_ext sample_get 20 fm_ext_ok) as (lit & RL). exists lit. split; [exact sample_energy_bibliography|]. split; [exact RL|].
  pose proof (all_pairs_adjacency fm_ext fm_ext_ok) as AD. assert (OO : forall (k : nat) (l : list nat), Permutation l l) by (intros; apply Permutation_refl). assert (IT : forall (l : list enode) x, In x l <-> In x l) by tauto.
  split; [destruct (energy_2_derivation fm_ext fm_ext_ok _ AD solve SC (fun _ l => l) OO (fun l => l) IT (fun _ => []) sample_get 20 lit sample_energy_bibliography ltac:(lia) RL) as (l & El & _); exists l; exact El|].
  exists sample_energy_world. split; [apply Prop_DensityEnergy.energy_world_admissible; tauto|]. intros tr btr.
  destruct (energy_hypotheses_found fm_ext fm_ext_ok sample_get sample_energy_bibliography 20 ltac:(lia) lit RL) as (gm & er & Eg & Ee & _). destruct (l2_records fm_ext fm_ext_ok) as (l2 & E2 & R2).
  pose proof (gm_recorded_as fm_ext sample_get fm_ext_ok sample_energy_bibliography gm Eg) as Rg.
  assert (H01 : forall s t u, in_range s t u -> conj_lv s t u -> u <= 2 - 2 * s \/ s == 1#2 /\ u <= t).
  { intros s t u (I1 & _) (L1 & [L2|L2]); [right; split; [apply Qle_antisym; assumption|exact L1]|left; exact L2]. }
  split; [exists er; split; [exact Ee|apply sample_region; exact (heath_brown_says fm_ext sample_get fm_ext_ok sample_energy_bibliography er Ee)]|].
  constructor; [exists l2; split; [exact E2|]|constructor; [exists gm; split; [exact Eg|]|constructor]]; eapply (sample_world fm_ext); try exact fm_ext_ok; try eassumption; intros s t u I C; destruct (H01 s t u I C) as [L|[Es L]];
    try (exists [2; -(2); 0]; split; [now left|unfold bound_at; cbn [nth]; Lqa.lra]).
  - exists [1; -(2); 1]. split; [right; now left|unfold bound_at; cbn [nth]; rewrite Es; Lqa.lra].
  - exists [12#5; -(4); 1]. split; [right; right; now left|unfold bound_at; cbn [nth]; rewrite Es; Lqa.lra].
Qed.

(** The bound at sigma = 7/10 and at sigma = 3/4: a different one of the two each time. *)
Example energy_2_values : energy_2 (7#10) == 47#26 /\ energy_2 (3#4) == 16#11.
Proof. split; vm_compute; reflexivity. Qed.
(** The fifth and the sixth run too, and there is a world in which Jutila's estimates hold. *)
Example energy_5_case : exists adjacency solve lit, energy_literature fm_ext sample_get 20 lit /\
  (exists l, prove_zero_density_energy_5 fm_ext (fun _ l => l) adjacency solve (fun _ => []) (fun l => l) lit = Ret l) /\
  (exists l, prove_zero_density_energy_6 fm_ext (fun _ l => l) adjacency solve (fun _ => []) (fun l => l) lit = Ret l) /\
  exists W, a_admissible W /\ forall tr btr, (exists er, add_lver_heath_brown_1979b1 fm_ext sample_get = Ret er /\ eholds tr btr (ener (dens W)) er) /\
    Forall (fun h => exists l, h = Ret l /\ lholds tr btr (Spec_AdditiveEnergy.low (ener (dens W))) l) [jutila_estimate fm_ext sample_get 6; jutila_estimate fm_ext sample_get 5].
Proof.
  destruct solver_exists as [solve SC]. exists (fun m => map (fun _ => seq 0 (List.length (generators fm_ext m))) (generators fm_ext m)), solve.
  destruct (energy_literature_exists fm_ext sample_get 20 fm_ext_ok) as (lit & RL). exists lit. split; [exact RL|].
  pose proof (all_pairs_adjacency fm_ext fm_ext_ok) as AD. assert (OO : forall (k : nat) (l : list nat), Permutation l l) by (intros; apply Permutation_refl). assert (IT : forall (l : list enode) x, In x l <-> In x l) by tauto.
  split; [destruct (energy_5_derivation fm_ext fm_ext_ok _ AD solve SC (fun _ l => l) OO (fun l => l) IT (fun _ => []) sample_get 20 lit sample_energy_bibliography ltac:(lia) RL) as (l & El & _); exists l; exact El|].
  split; [destruct (energy_6_derivation fm_ext fm_ext_ok _ AD solve SC (fun _ l => l) OO (fun l => l) IT (fun _ => []) sample_get 20 lit sample_energy_bibliography ltac:(lia) RL) as (l & El & _); exists l; exact El|].
  exists sample_energy_world. split; [apply Prop_DensityEnergy.energy_world_admissible; tauto|]. intros tr btr.
  destruct (energy_hypotheses_found fm_ext fm_ext_ok sample_get sample_energy_bibliography 20 ltac:(lia) lit RL) as (gm & er & Eg & Ee & _).
  split; [exists er; split; [exact Ee|apply sample_region; exact (heath_brown_says fm_ext sample_get fm_ext_ok sample_energy_bibliography er Ee)]|].
  assert (H01 : forall s t u, in_range s t u -> conj_lv s t u -> u <= 2 - 2 * s \/ s == 1#2 /\ u <= t).
  { intros s t u (I1 & _) (L1 & [L2|L2]); [right; split; [apply Qle_antisym; assumption|exact L1]|left; exact L2]. }
  assert (JH : forall n l, (3 <= n < 20)%Z -> jutila_estimate fm_ext sample_get n = Ret l -> lholds tr btr (Spec_AdditiveEnergy.low (ener (dens sample_energy_world))) l).
  { intros n l Bn El. eapply (sample_world fm_ext); [exact fm_ext_ok|exact (jutila_recorded_as fm_ext sample_get n fm_ext_ok sample_energy_bibliography ltac:(lia) l El)|].
    intros s t u I C. destruct (H01 s t u I C) as [L|[Es L]]; [exists [2; -(2); 0]; split; [now left|unfold bound_at; cbn [nth]; Lqa.lra]|].
    exists [6 * inject_Z n; -(8) * inject_Z n; 1]. split; [do 2 right; now left|unfold bound_at; cbn [nth]; rewrite Es; assert (0 <= inject_Z n) by (change 0 with (inject_Z 0); rewrite <- Zle_Qle; lia); Lqa.lra]. }
  assert (K20 : (20 <= 30)%Z) by lia. constructor; [|constructor; [|constructor]].
  - found_j fm_ext fm_ext_ok sample_get sample_energy_bibliography 20%Z K20 lit RL "Jutila large value estimate with k = 6"%string 6%Z " with k = 6"%string. exists h. split; [exact Ej|]. apply (JH 6%Z); [lia|exact Ej].
  - found_j fm_ext fm_ext_ok sample_get sample_energy_bibliography 20%Z K20 lit RL "Jutila large value estimate with k = 5"%string 5%Z " with k = 5"%string. exists h. split; [exact Ej|]. apply (JH 5%Z); [lia|exact Ej].
Qed.
(** So do the fourth, the eighth and the tenth. *)
Example energy_8_case : exists adjacency solve lit, energy_literature fm_ext sample_get 20 lit /\
  (exists l, prove_zero_density_energy_4 fm_ext (fun _ l => l) adjacency solve (fun _ => []) (fun l => l) lit = Ret l) /\
  (exists l, prove_zero_density_energy_8 fm_ext (fun _ l => l) adjacency solve (fun _ => []) (fun l => l) lit = Ret l) /\
  (exists l, prove_zero_density_energy_10 fm_ext (fun _ l => l) adjacency solve (fun _ => []) (fun l => l) lit = Ret l).
Proof.
  destruct solver_exists as [solve SC]. exists (fun m => map (fun _ => seq 0 (List.length (generators fm_ext m))) (generators fm_ext m)), solve.
  destruct (energy_literature_exists fm_ext sample_get 20 fm_ext_ok) as (lit & RL). exists lit. split; [exact RL|].
  pose proof (all_pairs_adjacency fm_ext fm_ext_ok) as AD. assert (OO : forall (k : nat) (l : list nat), Permutation l l) by (intros; apply Permutation_refl). assert (IT : forall (l : list enode) x, In x l <-> In x l) by tauto.
  split; [destruct (energy_4_derivation fm_ext fm_ext_ok _ AD solve SC (fun _ l => l) OO (fun l => l) IT (fun _ => []) sample_get 20 lit sample_energy_bibliography ltac:(lia) RL) as (l & El & _); exists l; exact El|].
  split; [destruct (energy_8_derivation fm_ext fm_ext_ok _ AD solve SC (fun _ l => l) OO (fun l => l) IT (fun _ => []) sample_get 20 lit sample_energy_bibliography ltac:(lia) RL) as (l & El & _); exists l; exact El|].
  destruct (energy_10_derivation fm_ext fm_ext_ok _ AD solve SC (fun _ l => l) OO (fun l => l) IT (fun _ => []) sample_get 20 lit sample_energy_bibliography ltac:(lia) RL) as (l & El & _). exists l. exact El.
Qed.
Example energy_8_values : energy_8 (37#49) == 89#64 /\ energy_4 (31#40) == 131#110.
Proof. repeat split; vm_compute; reflexivity. Qed.
Example energy_5_values : energy_5 (42#55) == 32#25 /\ energy_5 (153#200) == 2079#1648 /\ energy_6 (79#103) == 353#284 /\ energy_6 (77#100) == 1685#1402.
Proof. repeat split; vm_compute; reflexivity. Qed.
