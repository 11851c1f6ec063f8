(** Lemmas on the derivation of bounds on A*(sigma): the shape of the projected
    regions, and the loops over them. *)
From Coq Require Import Reals Qreals Permutation.
From Verif Require Import Base Model_Text Model_Reference LinAlg Model_Polytope Spec_Polytope FM_Ext Proof_Polytope Proof_PolytopeMaps Prop_Polytope Model_Region Spec_Region Proof_Region Proof_RegionSolid Prop_Region
  Model_ExponentPair Spec_ExponentPair Model_LargeValues Spec_LargeValues Model_AdditiveEnergy Spec_AdditiveEnergy Proof_AdditiveEnergy Prop_AdditiveEnergy
  Model_RationalFunction Spec_RationalFunction Proof_RationalFunction Proof_RFOptimal Prop_RationalFunction Prop_Roots
  Model_ZeroDensity Spec_ZeroDensity Proof_ZeroDensity Prop_ZeroDensity Model_DensityEstimate Spec_DensityEstimate Prop_DensityEstimate Model_DensityDerivation Spec_DensityDerivation Prop_DensityDerivation
  Model_DensityEnergy Spec_DensityEnergy Prop_DensityEnergy Model_EnergyDerivation Spec_EnergyDerivation Spec_Reference Proof_Reference Proof_Interval Spec_Edges Proof_Edges.
From Coq Require Import Lra.
Open Scope list_scope.
Local Open Scope Q_scope.

(** Everything left by the merging loop is from the list or was merged. *)
Lemma simplify_forall : forall (T : Type) (merge : T -> T -> res (option T)) order (P : T -> Prop),
  (forall a b u, merge a b = Ret (Some u) -> P u) ->
  forall l out, Forall P l -> simplify_union_of_polys merge order l = Ret out -> Forall P out.
Proof.
  intros T merge order P M l out F H.
  assert (S1 : forall st c st', Forall P (s_polys st) -> simplify_step merge st c = Ret st' -> Forall P (s_polys st')).
  { intros st [i j] st' Fs Hs. unfold simplify_step in Hs. destruct (negb _ || negb _); [injection Hs as <-; exact Fs|]. destruct (mem2 _ _ || mem2 _ _); [injection Hs as <-; exact Fs|].
    destruct (nth_error (s_polys st) i) as [a|]; [|discriminate]. destruct (nth_error (s_polys st) j) as [b|]; [|discriminate].
    destruct (merge a b) as [[u|]|] eqn:Em; cbn [bind] in Hs; [| |discriminate]; injection Hs as <-; cbn [s_polys]; [|exact Fs].
    apply Forall_app. split; [exact Fs|]. constructor; [exact (M _ _ _ Em)|constructor]. }
  assert (S2 : forall cs st st', Forall P (s_polys st) -> foldM (simplify_step merge) cs st = Ret st' -> Forall P (s_polys st')).
  { induction cs as [|c cs IH]; intros st st' Fs Hs; cbn in Hs; [injection Hs as <-; exact Fs|].
    destruct (simplify_step merge st c) as [st1|] eqn:E1; [|discriminate]. cbn [bind] in Hs. eapply IH; [|exact Hs]. eapply S1; eauto. }
  assert (S3 : forall n k st k' st', Forall P (s_polys st) -> simplify_loop merge order n k st = Ret (k', st') -> Forall P (s_polys st')).
  { induction n as [|n IH]; intros k st k' st' Fs Hs; cbn in Hs; [discriminate|].
    destruct (foldM (simplify_step merge) _ _) as [st1|] eqn:E1; [|discriminate]. cbn [bind] in Hs. apply S2 in E1; [|exact Fs].
    destruct (s_changed st1); [eapply IH; eauto|injection Hs as <- <-; exact E1]. }
  unfold simplify_union_of_polys in H. destruct (simplify_loop merge order _ 0 _) as [[k st]|] eqn:El; [|discriminate]. cbn [bind] in H.
  apply S3 in El; [|exact F]. apply Forall_forall. intros p Ip. apply (Proof_Piecewise.mapM_In _ _ _ _ _ _ H) in Ip as (i & _ & Hi).
  destruct (nth_error (s_polys st) i) as [q|] eqn:Eq; [|discriminate]. injection Hi as <-. rewrite Forall_forall in El. apply El. eapply nth_error_In; eauto.
Qed.

Lemma try_union2_order : forall E a b u, try_union2 E false a b = Ret (Some u) -> vertices_in_order E (body u).
Proof.
  intros E a b u H. unfold try_union2 in H. cbn [try_union] in H.
  destruct (Model_Polytope.intersection E [body a; body b] false) as [q|]; [|discriminate]. cbn [bind] in H.
  destruct (is_empty E q true) as [[|]|]; [| |discriminate]; cbn [bind] in H; [discriminate|].
  destruct (all_empty E _ _) as [[|]|]; [| |discriminate]; cbn [bind] in H; [|discriminate].
  match type of H with context [Polytope E ?l false true] => destruct (Polytope E l false true) as [w|] eqn:Ew; [|discriminate] end. cbn [bind] in H. injection H as <-. cbn [body plain].
  unfold Polytope in Ew. destruct (matrix_of _ false); [|discriminate]. cbn [bind] in Ew. injection Ew as <-. intros _. now left.
Qed.

Lemma somes_map : forall (A B : Type) (f : A -> B) os, somes (map (option_map f) os) = map f (somes os).
Proof. intros A B f. induction os as [|[a|] os IH]; cbn; [reflexivity| |exact IH]. now rewrite IH. Qed.

Section Shape.
Variable E : ext.
Hypothesis OK : ext_ok E.
Variable order : nat -> list nat -> list nat.
Hypothesis OO : forall k l, Permutation (order k l) l.

Definition projects (p : lpoly) (o : option polytope) : Prop :=
  match o with
  | None => forall x, ~ member (body p) x
  | Some q => solid 3 (plain q) /\ pcanon q = false /\ (exists x, member (body p) x) /\
      forall s t e, member q [s; t; e] <-> exists r z, member (body p) [s; t; r; e; z]
  end.

Lemma project_one : forall p, solid 5 p -> exists o, rproject E [0; 1; 3]%nat (RPoly p) = Ret (option_map (fun q => RPoly (plain q)) o) /\ projects p o.
Proof.
  intros p S. destruct S as (G & B & N & I). destruct (polytope_project E OK (body p) [0; 1; 3]%nat G B) as (o & Eo & Ho).
  exists o. cbn [rproject]. rewrite Eo. cbn [bind]. destruct o as [q|]; cbn [option_map]; (split; [reflexivity|]).
  - destruct Ho as (Gq & Ex & Hq).
    assert (Er : rproject E [0; 1; 3]%nat (RPoly p) = Ret (Some (RPoly (plain q)))) by (cbn [rproject]; rewrite Eo; reflexivity).
    destruct (rproject_solid E OK 5 [0; 1; 3]%nat (RPoly p) (RPoly (plain q)) Logic.I (conj G (conj B (conj N I))) Er) as [Sq _].
    split; [exact Sq|]. split.
    { unfold project, from_V_rep in Eo. destruct (map _ _) as [|v vs] eqn:Em; [discriminate|]. destruct (matrix_of _ false); [|discriminate]. cbn [bind] in Eo. injection Eo as <-. reflexivity. }
    split; [exact Ex|]. intros s t e. rewrite Hq. split.
    + intros (x & Mx & A). assert (L : List.length x = 5%nat) by (destruct Mx as [L _]; lia). apply len5 in L as (s' & t' & r & e' & z & ->). rewrite selected_en in A. apply F2_3 in A as (A1 & A2 & A3).
      exists r, z. assert (D5 : denote (RDisj [RPoly p]) [s; t; r; e; z]); [|cbn in D5; tauto]. apply (denote5 (RDisj [RPoly p]) s' t' r e' z); try reflexivity; try (symmetry; assumption). cbn. now left.
    + intros (r & z & M). exists [s; t; r; e; z]. split; [exact M|]. rewrite selected_en. apply F2_3. repeat split; reflexivity.
  - intros x M. apply Ho. now exists x.
Qed.

Lemma project_pieces : forall ps, Forall (solid 5) ps -> exists os, mapM (rproject E [0; 1; 3]%nat) (map RPoly ps) = Ret (map (option_map (fun q => RPoly (plain q))) os) /\ Forall2 projects ps os.
Proof.
  induction 1 as [|p ps S _ (os & Eo & F)]; [exists []; split; [reflexivity|constructor]|].
  destruct (project_one p S) as (o & E1 & P). exists (o :: os). split; [|constructor; auto]. cbn [map mapM]. rewrite E1. cbn [bind]. rewrite Eo. reflexivity.
Qed.

Lemma one_survivor : forall ps os, Forall2 projects ps os -> (exists q, somes os = [q]) <-> one_nonempty ps.
Proof.
  intros ps os F. split.
  - intros (q & Eq). revert q Eq. induction F as [|p o ps os P F IH]; intros q Eq; [discriminate|]. destruct o as [q'|]; cbn in Eq.
    + injection Eq as <- Eq. exists [], p, ps. split; [reflexivity|]. split; [apply P|]. intros p' x I. cbn in I. clear IH P.
      induction F as [|p1 o1 ps1 os1 P1 F1 IH1]; [destruct I|]. destruct o1; [discriminate|]. destruct I as [<-|I]; [exact (P1 x)|auto].
    + destruct (IH q Eq) as (l & p0 & l' & -> & Ex & N). exists (p :: l), p0, l'. split; [reflexivity|]. split; [exact Ex|]. intros p' x [<-|I]; [exact (P x)|now apply N].
  - intros (l & p & l' & -> & (x & Mx) & N). apply Forall2_app_inv_l in F as (o1 & o2 & F1 & F2 & ->).
    inversion F2 as [|? o ? os2 P F3]; subst. destruct o as [q|]; [|destruct (P x Mx)].
    assert (K : forall qs os, Forall2 projects qs os -> (forall q, In q qs -> In q (l ++ l')) -> somes os = []).
    { clear - N. induction 1 as [|p1 o1 ps1 os1 P1 F1 IH1]; intro H; [reflexivity|]. destruct o1 as [q1|].
      - destruct P1 as (_ & _ & (y & My) & _). destruct (N p1 y); [apply H; now left|exact My].
      - cbn. apply IH1. intros q Iq. apply H. now right. }
    exists q. assert (SA : forall (a b : list (option polytope)), somes (a ++ b) = somes a ++ somes b). { clear. induction a as [|[u|] a IH]; intro b; cbn; [reflexivity| |apply IH]. now rewrite IH. }
    rewrite SA. cbn [somes]. rewrite (K _ _ F1), (K _ _ F3); [reflexivity| |]; intros; apply in_or_app; tauto.
Qed.

Lemma energy_shape : forall h ps, e_data h = DLVER (RDisj (map RPoly ps)) \/ e_data h = DZLVER (RDisj (map RPoly ps)) -> Forall (solid 5) ps ->
  (one_nonempty ps /\ exists e p, lver_to_energy E order h = Ret (Some e) /\ e_data e = DEnergy (RPoly p)) \/
  (~ one_nonempty ps /\
   (((forall p x, In p ps -> ~ member (body p) x) /\ lver_to_energy E order h = Ret None) \/
    exists e qs, lver_to_energy E order h = Ret (Some e) /\ e_data e = DEnergy (RUnion (map RPoly qs)) /\ e_deps e = [h] /\ r_year (e_ref e) = r_year (e_ref h) /\
      Forall (solid 3) qs /\ Forall (fun q => vertices_in_order E (body q)) qs /\
      forall s t u, (exists q, In q qs /\ member (body q) [s; t; u]) <-> exists p r z, In p ps /\ member (body p) [s; t; r; u; z])).
Proof.
  intros h ps D F.
  assert (DO : disj_only (RDisj (map RPoly ps))) by (cbn [disj_only]; apply allP_iff; intros r I; apply in_map_iff in I as (p & <- & _); exact Logic.I).
  assert (Ed : as_disjoint_union E order false (RDisj (map RPoly ps)) = Ret (RDisj (map RPoly ps))).
  { destruct (disj_only_exact E order _ DO) as (ps' & E1 & -> & _). rewrite E1. do 2 f_equal. f_equal. clear. cbn [tree_polys]. induction ps as [|p ps IH]; [reflexivity|]. cbn in *. now rewrite IH. }
  destruct (project_pieces ps F) as (os & Eo & Fo). pose proof (one_survivor ps os Fo) as ON.
  assert (El : lver_to_energy E order h = match somes os with
     | [] => Ret None
     | [q] => let! h := derived_energy (RPoly (plain q)) [h] in Ret (Some h)
     | qs => let! ps' := simplify_union_of_polys (try_union2 E false) order (map plain qs) in
             let! h := derived_energy (RUnion (map RPoly ps')) [h] in Ret (Some h)
     end).
  { unfold lver_to_energy. assert (X : forall r, e_data h = DLVER r \/ e_data h = DZLVER r -> forall k : region -> res (option enode), match e_data h with DLVER r | DZLVER r => k r | _ => Raise ValueError end = k r) by (intros r [-> | ->] k; reflexivity).
    rewrite (X _ D). rewrite Ed. cbn [bind rproject]. rewrite Eo. cbn [bind]. rewrite somes_map.
    destruct (somes os) as [|q [|q2 qs]]; [reflexivity|reflexivity|].
    cbn [bind map simplify].
    assert (LP : forall qs, leaf_polys (map (fun q => RPoly (plain q)) qs) = Some (map plain qs)). { clear. induction qs as [|q qs IH]; [reflexivity|]. cbn [map leaf_polys]. now rewrite IH. }
    pose proof (LP (q :: q2 :: qs)) as LP'. cbn [map] in LP'. rewrite LP'. cbn [map]. destruct (simplify_union_of_polys _ _ _) as [ps'|]; reflexivity. }
  destruct (somes os) as [|q [|q2 qs]] eqn:Es.
  - right. split; [intro O; apply ON in O as (q & O); discriminate|]. left. split; [|exact El]. clear - Fo Es. induction Fo as [|p o ps os P Fo IH]; [intros p x []|].
    destruct o; [discriminate|]. intros p' x [<-|I]; [exact (P x)|exact (IH Es p' x I)].
  - left. split; [apply ON; eauto|]. unfold derived_energy in El. rewrite derived_e_one in El. cbn [bind] in El. do 2 eexists. split; [exact El|reflexivity].
  - right. split; [intro O; apply ON in O as (q' & O); discriminate|]. right. rewrite <- Es in El. 
    assert (SP : forall q, In q (somes os) -> exists p, In p ps /\ projects p (Some q)).
    { clear - Fo. induction Fo as [|p o ps os P Fo IH]; intros q I; [destruct I|]. destruct o as [q'|]; cbn in I.
      - destruct I as [<-|I]; [exists p; split; [now left|exact P]|]. destruct (IH q I) as (p' & Ip & P'). exists p'. split; [now right|exact P'].
      - destruct (IH q I) as (p' & Ip & P'). exists p'. split; [now right|exact P']. }
    assert (PS : forall p, In p ps -> (exists q, In q (somes os) /\ projects p (Some q)) \/ forall x, ~ member (body p) x).
    { clear - Fo. induction Fo as [|p o ps os P Fo IH]; intros p' I; [destruct I|]. destruct I as [<-|I].
      - destruct o as [q|]; [left; exists q; split; [now left|exact P]|now right].
      - destruct (IH p' I) as [(q & Iq & Pq)|N]; [left; exists q; split; [destruct o; [now right|exact Iq]|exact Pq]|now right]. }
    destruct (simplify_union_of_polys_correct E OK order OO 3 (map plain (somes os)) ltac:(lia)) as (ps' & Ep & Sp & Up & _).
    { apply Forall_forall. intros lp I. apply in_map_iff in I as (q' & <- & I). destruct (SP q' I) as (p & _ & S & _). exact S. }
    rewrite Es in El, Ep. cbn [map] in El, Ep. rewrite Ep in El. cbn [bind] in El. unfold derived_energy in El. rewrite derived_e_one in El. cbn [bind] in El.
    do 2 eexists. split; [exact El|]. split; [reflexivity|]. split; [reflexivity|]. split; [reflexivity|]. split; [exact Sp|]. split.
    + eapply simplify_forall; [intros a b u; apply try_union2_order| |exact Ep]. apply Forall_forall. change (plain q :: plain q2 :: map plain qs) with (map plain (q :: q2 :: qs)). rewrite <- Es.
      intros lp I. apply in_map_iff in I as (q' & <- & I). destruct (SP q' I) as (p & _ & _ & Cn & _). unfold vertices_in_order. cbn [body plain]. rewrite Cn. discriminate.
    + intros s t u. assert (IU : forall l x, (exists q, In q l /\ member (body q) x) <-> denote (RUnion (map RPoly l)) x).
      { clear. intros l x. cbn [denote]. rewrite anyP_iff. split; [intros (q & I & M); exists (RPoly q); split; [now apply in_map|exact M]|intros (r & I & M); apply in_map_iff in I as (q & <- & I); eauto]. }
      rewrite IU, Up, <- IU. split.
      * intros (lp & I & M). apply in_map_iff in I as (q' & <- & I). destruct (SP q' I) as (p & Ip & _ & _ & _ & X). destruct (proj1 (X s t u) M) as (r & z & M'). eauto.
      * intros (p & r & z & Ip & M). destruct (PS p Ip) as [(q' & Iq & _ & _ & _ & X)|N]; [|destruct (N _ M)]. exists (plain q'). split; [now apply in_map|]. apply X. eauto.
Qed.
End Shape.
(** ** Years *)
Lemma max_year_proper : forall refs y, Forall (fun r => proper_year (r_year r)) refs -> max_year refs = Ret y -> proper_year y.
Proof.
  intros refs y F H. destruct (max_year_ok refs F) as (v & Ev & V0 & VU & VL). rewrite H in Ev. injection Ev as <-.
  destruct refs as [|r0 refs]; [rewrite (V0 eq_refl); left; exact Logic.I|].
  destruct (existsb (fun r => val_eqb (r_year r) unknown_date) (r0 :: refs)) eqn:U.
  - apply has_unknown_iff in U. right. now apply VU.
  - destruct VL as [I _]; [discriminate|intro X; apply has_unknown_iff in X; congruence|].
    apply in_map_iff in I as (r & <- & I). rewrite Forall_forall in F. now apply F.
Qed.

Lemma best_dated : forall E order hs dom zeta h, usable_lvers hs -> nonzero_lver_powers hs -> Forall (fun h => proper_year (r_year (e_ref h))) hs ->
  compute_best_lver E order hs dom zeta = Ret h -> (forall g, In g (e_deps h) -> used_lver hs zeta g) -> proper_year (r_year (e_ref h)).
Proof.
  intros E order hs dom zeta h U NZ Y H D. unfold compute_best_lver in H. destruct (known_lvers hs zeta) as [lvers|]; [|discriminate]. cbn [bind] in H.
  destruct (rlift domain_lift dom); [|discriminate]. cbn [bind] in H. destruct (mapM e_region lvers); [|discriminate]. cbn [bind] in H.
  destruct (as_disjoint_union E order false _) as [E1|]; [|discriminate]. cbn [bind] in H.
  assert (X : exists n d y, max_year (map e_ref lvers) = Ret y /\ h = ENode n d (ref_derived y) lvers).
  { destruct zeta; unfold derived_zlver, derived_lver, derived_e in H; (destruct (max_year (map e_ref lvers)) as [y|]; [|discriminate]); injection H as <-; do 3 eexists; (split; [reflexivity|reflexivity]). }
  destruct X as (n & d & y & Ey & ->). cbn [e_ref e_deps] in *. change (r_year (ref_derived y)) with y.
  apply (max_year_proper (map e_ref lvers)); [|exact Ey]. apply Forall_map. apply Forall_forall. intros g Ig. rewrite Forall_forall in Y.
  destruct (D g Ig) as [(A & _)|[(t & k & h & R & Ht & Dt & Hh & Dh & Ag)|(_ & A & _)]]; [now apply Y| |now apply Y].
  destruct (raise_energy_region k h R Dh (usable_sized hs h R U Hh Dh) (NZ t k Ht Dt)) as (g' & R' & Eg & _ & _ & Yg & _). rewrite Ag in Eg. injection Eg as <-. rewrite Yg. now apply Y.
Qed.

(** ** The two domains *)
Lemma rows2 : forall E, ext_ok E -> forall rows, Forall (fun r => List.length r = 3%nat) rows -> (exists r, In r rows /\ ~ zero_row r) ->
  exists d, Polytope E rows false false = Ret d /\ Spec_Polytope.good d /\ ncol (pmat d) = 3%nat /\
    forall s t, member d [s; t] <-> Forall (fun r => 0 <= rowval r [s; t]) rows.
Proof.
  intros E OK rows L Z. destruct (Polytope_ok E OK rows false false 3 ltac:(lia) L Z) as (d & Ed & G & N & _ & M).
  exists d. split; [exact Ed|]. split; [exact G|]. split; [exact N|]. intros s t. rewrite M. unfold Spec_Polytope.holds. cbn [fst snd]. split; [tauto|]. intro F. split; [reflexivity|exact F].
Qed.
Lemma line_between : forall m c a b s, a <= s <= b -> 0 < m * a + c -> 0 < m * b + c -> 0 < m * s + c.
Proof. intros m c a b s [A B] P1 P2. destruct (Qlt_le_dec m 0); Lqa.nra. Qed.
Lemma line_below : forall m c a b s q, a <= s <= b -> m * a + c <= q -> m * b + c <= q -> m * s + c <= q.
Proof. intros m c a b s q [A B] P1 P2. destruct (Qlt_le_dec m 0); Lqa.nra. Qed.
Lemma member2 : forall d x, ncol (pmat d) = 3%nat -> member d x -> exists s t, x = [s; t].
Proof. intros d x N [L _]. destruct x as [|s [|t [|]]]; cbn in L; try lia. eauto. Qed.
Lemma bounded2 : forall d a b B, ncol (pmat d) = 3%nat -> (forall s t, member d [s; t] -> a <= s <= b /\ 0 <= t <= B) -> bounded d.
Proof.
  intros d a b B N H. exists (Qabs a + Qabs b + Qabs B). intros x i M. destruct (member2 d x N M) as (s & t & ->). destruct (H s t M) as [S T].
  assert (K : forall q, - Qabs q <= q /\ q <= Qabs q) by (intro q; apply Qabs_Qle_condition; apply Qle_refl).
  pose proof (K a). pose proof (K b). pose proof (K B). pose proof (Qabs_nonneg a). pose proof (Qabs_nonneg b). pose proof (Qabs_nonneg B).
  destruct i as [|[|i]]; cbn [nth]; [| |destruct i; cbn [nth]]; apply Qabs_Qle_condition; Lqa.lra.
Qed.

Lemma long_domain : forall E, ext_ok E -> forall m c a b, proper_tau0 m c a b ->
  exists d, lver_domain E m c a b = Ret d /\ solid 2 (plain d) /\ forall s t, member d [s; t] <-> long_range m c a b s t.
Proof.
  intros E OK m c a b (AB & P1 & P2 & _). unfold lver_domain.
  set (rows := [[-a; 1; 0]; [b; -(1); 0]; [-c; -m; 1]; [2 * c; 2 * m; -(1)]]).
  destruct (rows2 E OK rows) as (d & Ed & G & N & M).
  { repeat constructor. }
  { exists [b; -(1); 0]. split; [right; now left|]. intro Z. inversion Z as [|? ? _ Z1]; subst. inversion Z1; subst. Lqa.lra. }
  assert (M' : forall s t, member d [s; t] <-> long_range m c a b s t).
  { intros s t. rewrite M. unfold rows, long_range. rewrite !Forall_cons_iff, !rowval3. split; [intros (A & B & C & D & _)|intros ((A & B) & C & D)]; repeat split; try Lqa.lra. constructor. }
  exists d. split; [exact Ed|]. split; [|exact M']. split; [exact G|]. split; [|split; [exact N|]].
  - apply (bounded2 d a b (2 * qmax (m * a + c) (m * b + c)) N). intros s t Ms. apply M' in Ms as [S T]. split; [exact S|].
    pose proof (line_between m c a b s S P1 P2). pose proof (line_below m c a b s (qmax (m * a + c) (m * b + c)) S (proj1 (qmax_spec _ _)) (proj1 (proj2 (qmax_spec _ _)))). Lqa.lra.
  - intros _. set (s := (1#2) * (a + b)). set (t := (3#2) * (m * s + c)). exists [s; t].
    apply (rows_interior 2 rows); [repeat constructor|exact N|reflexivity| |].
    + pose proof (line_between m c a b s ltac:(unfold s; split; Lqa.lra) P1 P2). unfold rows. repeat (constructor; [rewrite rowval3; unfold t; unfold s in *; Lqa.lra|]). constructor.
    + intros y Ly F. destruct y as [|s' [|t' [|]]]; try discriminate. now apply M.
Qed.
Lemma zeta_domain : forall E, ext_ok E -> forall m c a b, proper_tau0 m c a b ->
  exists d, lver_zeta_domain E m c a b = Ret d /\ solid 2 (plain d) /\ forall s t, member d [s; t] <-> zeta_range m c a b s t.
Proof.
  intros E OK m c a b (AB & P1 & P2 & P3). unfold lver_zeta_domain.
  set (rows := [[-a; 1; 0]; [b; -(1); 0]; [-(2); 0; 1]; [c; m; -(1)]]).
  destruct (rows2 E OK rows) as (d & Ed & G & N & M).
  { repeat constructor. }
  { exists [b; -(1); 0]. split; [right; now left|]. intro Z. inversion Z as [|? ? _ Z1]; subst. inversion Z1; subst. Lqa.lra. }
  assert (M' : forall s t, member d [s; t] <-> zeta_range m c a b s t).
  { intros s t. rewrite M. unfold rows, zeta_range. rewrite !Forall_cons_iff, !rowval3. split; [intros (A & B & C & D & _)|intros ((A & B) & C & D)]; repeat split; try Lqa.lra. constructor. }
  exists d. split; [exact Ed|]. split; [|exact M']. split; [exact G|]. split; [|split; [exact N|]].
  - apply (bounded2 d a b (qmax (m * a + c) (m * b + c)) N). intros s t Ms. apply M' in Ms as [S T]. split; [exact S|].
    pose proof (line_below m c a b s (qmax (m * a + c) (m * b + c)) S (proj1 (qmax_spec _ _)) (proj1 (proj2 (qmax_spec _ _)))). Lqa.lra.
  - intros (x & Mx). destruct (member2 d x N Mx) as (s0 & t0 & ->). apply M' in Mx as [S0 T0].
    assert (K : exists s, a < s < b /\ 2 < m * s + c).
    { destruct P3 as [[B1 B2]|[B|B]].
      - pose proof (line_between (-m) (2 - c) a b s0 S0 ltac:(Lqa.lra) ltac:(Lqa.lra)). Lqa.lra.
      - set (k := m * a + c - 2). assert (Kp : 0 < k) by (unfold k; Lqa.lra). destruct (Qlt_le_dec m 0) as [L|L].
        + set (u := qmin ((1#2) * (b - a)) ((1#2) * (k / - m))). assert (U0 : 0 < k / - m) by (apply Qlt_shift_div_l; Lqa.lra).
          assert (U1 : 0 < u) by (unfold u; match goal with |- _ < qmin ?p ?q => destruct (qmin_spec p q) as (_ & _ & [-> | ->]) end; Lqa.lra). assert (U2 : u <= (1#2) * (b - a)) by apply qmin_spec. assert (U3 : u <= (1#2) * (k / -m)) by apply qmin_spec.
          assert (U4 : - m * (k / - m) == k) by (field; Lqa.lra). exists (a + u). split; [split; Lqa.lra|]. unfold k in *. Lqa.nra.
        + exists ((1#2) * (a + b)). split; [split; Lqa.lra|]. unfold k in *. Lqa.nra.
      - set (k := m * b + c - 2). assert (Kp : 0 < k) by (unfold k; Lqa.lra). destruct (Qlt_le_dec 0 m) as [L|L].
        + set (u := qmin ((1#2) * (b - a)) ((1#2) * (k / m))). assert (U0 : 0 < k / m) by (apply Qlt_shift_div_l; Lqa.lra).
          assert (U1 : 0 < u) by (unfold u; match goal with |- _ < qmin ?p ?q => destruct (qmin_spec p q) as (_ & _ & [-> | ->]) end; Lqa.lra). assert (U2 : u <= (1#2) * (b - a)) by apply qmin_spec. assert (U3 : u <= (1#2) * (k / m)) by apply qmin_spec.
          assert (U4 : m * (k / m) == k) by (field; Lqa.lra). exists (b - u). split; [split; Lqa.lra|]. unfold k in *. Lqa.nra.
        + exists ((1#2) * (a + b)). split; [split; Lqa.lra|]. unfold k in *. Lqa.nra. }
    destruct K as (s & S & T). exists [s; (1#2) * (2 + (m * s + c))].
    apply (rows_interior 2 rows); [repeat constructor|exact N|reflexivity| |].
    + unfold rows. repeat (constructor; [rewrite rowval3; Lqa.lra|]). constructor.
    + intros y Ly F. destruct y as [|s' [|t' [|]]]; try discriminate. now apply M.
Qed.

(** ** The suprema *)
Section Sup.
Variable E : ext.
Hypothesis OK : ext_ok E.
Variable adjacency : mat -> list (list nat).
Hypothesis AD : adjacency_ok E adjacency.
Variable solve : rfun -> rfun -> list R.
Hypothesis SC : solve_complete solve.

Lemma polys_sup : forall qs a b, usable_pieces E qs -> a < b ->
  exists l, compute_sup_rho_on_tau E adjacency solve (map body qs) (real_interval (a, b)) = Ret l /\ tiles l (Q2R a) (Q2R b) /\
    (forall f i r x, In (f, i, r) l -> Spec_RationalFunction.inside i x -> ~ has_pole f x) /\
    (forall f i r s, In (f, i, r) l -> Spec_RationalFunction.inside i (Q2R s) -> sup_value (map body qs) s (rfval f (Q2R s))).
Proof.
  intros qs a b U AB. set (h := LNode [] (DLV (RDisj (map RPoly qs)) None) ref_trivial []).
  assert (P : region_pieces h qs) by reflexivity.
  destruct (region_sup_ok E OK adjacency AD solve SC h qs a b P U AB) as (l & El & R). exists l. split; [|exact R].
  unfold region_sup in El. rewrite (child_polytopes_ok h qs P) in El. exact El.
Qed.

Lemma sup_value_of : forall qs s v, usable_pieces E qs ->
  (v = Q2R (inject_Z (-1000000)) \/ exists p x, In p (map body qs) /\ reaches_past p s /\ member p x /\ nth 0 x 0 == s /\ v = Q2R (nth 2 x 0 / nth 1 x 0)) ->
  (forall p x, In p (map body qs) -> reaches_past p s -> member p x -> nth 0 x 0 == s -> (Q2R (nth 2 x 0 / nth 1 x 0)%Q <= v)%R) ->
  sup_value (map body qs) s v.
Proof.
  intros qs s v U H UB. split; [|exact UB]. destruct H as [-> | H]; [right|now left]. split; [reflexivity|]. intros p Ip RP.
  pose proof RP as (x & z & Mx & _ & Xs & _). specialize (UB p x Ip RP Mx Xs). apply in_map_iff in Ip as (q & <- & Iq). destruct (U q Iq) as [(_ & _ & _ & POS) _]. destruct (POS x Mx) as [T R].
  assert (P : 0 <= nth 2 x 0 / nth 1 x 0) by (apply Qle_shift_div_l; [exact T|Lqa.lra]). apply Rle_Qle in UB. assert (L : 0 <= inject_Z (-1000000)) by (eapply Qle_trans; eauto). discriminate (proj1 (Z.leb_le _ _) (proj1 (Qle_bool_iff _ _) (proj2 (Qle_bool_iff _ _) L))) || (apply Qle_bool_iff in L; discriminate).
Qed.

(** A list of functions with their intervals that represents the supremum over
    some polytopes; no functions for no polytopes. *)
Definition represents (l : list (piece R)) (qs : list lpoly) (a b : Q) : Prop :=
  (l = [] /\ qs = []) \/
  (tiles l (Q2R a) (Q2R b) /\
    (forall f i r x, In (f, i, r) l -> Spec_RationalFunction.inside i x -> ~ has_pole f x) /\
    (forall f i r s, In (f, i, r) l -> Spec_RationalFunction.inside i (Q2R s) -> sup_value (map body qs) s (rfval f (Q2R s)))).

Lemma tiles_flags : forall l u v f i r, tiles l u v -> In (f, i, r) l -> ilo i = true /\ ihi i = false /\ (u <= lo i)%R /\ (hi i <= v)%R.
Proof.
  assert (Up : forall l u v, tiles l u v -> (u <= v)%R). { clear. induction l as [|[[g j] k] l IH]; intros u v T; cbn in T; [Lra.lra|]. destruct T as (A & B & _ & _ & T). apply IH in T. Lra.lra. }
  induction l as [|[[g j] k] l IH]; intros u v f i r T I; [destruct I|]. cbn in T. destruct T as (A & B & F1 & F2 & T). pose proof (Up _ _ _ T).
  destruct I as [Eq|I]; [injection Eq as <- <- <-; repeat split; auto; Lra.lra|]. destruct (IH _ _ _ _ _ T I) as (G1 & G2 & G3 & G4). repeat split; auto. Lra.lra.
Qed.

Lemma max_represents : forall l1 l2 qs1 qs2 a b, a < b -> represents l1 qs1 a b -> represents l2 qs2 a b -> usable_pieces E (qs1 ++ qs2) ->
  exists l, rf_max R Rltb Reqb Rmid rf_atR solve (map fst (l1 ++ l2)) (real_interval (a, b)) true = Ret l /\ represents l (qs1 ++ qs2) a b /\ tiles l (Q2R a) (Q2R b).
Proof.
  intros l1 l2 qs1 qs2 a b AB R1 R2 U. pose proof (Qlt_Rlt _ _ AB) as AB'.
  assert (FL : forall f i r, In (f, i, r) (l1 ++ l2) -> ilo i = true /\ ihi i = false /\ forall x, Spec_RationalFunction.inside i x -> ~ has_pole f x).
  { intros f i r I. apply in_app_iff in I as [I|I]; [destruct R1 as [[-> _]|(T & N & _)]; [destruct I|]|destruct R2 as [[-> _]|(T & N & _)]; [destruct I|]];
      destruct (tiles_flags _ _ _ _ _ _ T I) as (F1 & F2 & _); (split; [exact F1|]); (split; [exact F2|]); intros x J; exact (N f i r x I J). }
  destruct (l1 ++ l2) as [|x0 l0] eqn:El.
  - cbn [map]. rewrite rational_max_no_functions. eexists. split; [reflexivity|].
    assert (T : tiles [(RationalFunction [inject_Z (-1000000)] None, real_interval (a, b), (-1)%Z)] (Q2R a) (Q2R b)) by (cbn; repeat split; auto).
    split; [|exact T]. right. split; [exact T|]. split.
    + intros f i r x [Eq|[]] _. injection Eq as <- <- <-. apply fdef_pole.
    + intros f i r s [Eq|[]] _. injection Eq as <- <- <-. apply app_eq_nil in El as [-> ->].
      assert (N : forall qs, represents [] qs a b -> qs = []). { intros qs [[_ ->]|(T' & _)]; [reflexivity|]. cbn in T'. Lra.lra. }
      rewrite (N _ R1), (N _ R2). split; [right; split; [apply (fdef_val (inject_Z (-1000000)))|intros p []]|intros p x []].
  - rewrite <- El in *. assert (Ne : map fst (l1 ++ l2) <> []) by (rewrite El; discriminate). clear El x0 l0.
    assert (HI : forall f i, In (f, i) (map fst (l1 ++ l2)) -> exists r, In (f, i, r) (l1 ++ l2)).
    { intros f i I. apply in_map_iff in I as ([[f' i'] r] & Eq & I). injection Eq as <- <-. eauto. }
    assert (NP : forall f i x, In (f, i) (map fst (l1 ++ l2)) -> (lo i <= x < hi i)%R -> ~ has_pole f x).
    { intros f i x I B. destruct (HI f i I) as (r & I'). destruct (FL f i r I') as (F1 & F2 & N). apply N. unfold Spec_RationalFunction.inside. now rewrite F1, F2. }
    destruct (rational_max_everywhere solve SC (map fst (l1 ++ l2)) (real_interval (a, b)) true AB' Ne) as (l & El & T & V).
    + intros f i x I _. split; [|discriminate]. intro B. apply (NP f i); auto. Lra.lra.
    + intros f i I. destruct (HI f i I) as (r & I'). destruct (FL f i r I') as (F1 & F2 & _). auto.
    + intros f i x I _ B. now apply (NP f i).
    + exists l. split; [exact El|]. split; [|exact T]. right. split; [exact T|]. split.
      * intros f i r x I J. now apply (V f i r I).
      * intros f i r s I J. destruct (V f i r I) as [_ V']. destruct (V' _ J) as [_ (O1 & O2 & O3)].
        assert (B : (Q2R a <= Q2R s < Q2R b)%R).
        { destruct (tiles_flags _ _ _ _ _ _ T I) as (F1 & F2 & G1 & G2). unfold Spec_RationalFunction.inside in J. rewrite F1, F2 in J. cbn [real_interval lo hi fst snd] in *. Lra.lra. }
        assert (X : forall l' qs, represents l' qs a b -> (forall f i r, In (f, i, r) l' -> In (f, i, r) (l1 ++ l2)) ->
           (forall p x, In p (map body qs) -> reaches_past p s -> member p x -> nth 0 x 0 == s -> (Q2R (nth 2 x 0 / nth 1 x 0)%Q <= rfval f (Q2R s))%R)).
        { intros l' qs [[_ ->]|(T' & _ & V2)] Inc p x Ip RP Mx Xs; [destruct Ip|]. destruct (tiles_cover _ _ _ (Q2R s) T' B) as (g & j & k & Ig & Jg).
          destruct (V2 g j k s Ig Jg) as [_ UB]. eapply Rle_trans; [exact (UB p x Ip RP Mx Xs)|]. apply (O3 g j); [|exact Jg]. apply in_map_iff. exists (g, j, k). auto. }
        apply sup_value_of; [exact U| |].
        -- destruct O1 as [O1|(g & j & Ig & Jg & O1)]; [now left|]. apply HI in Ig as (k & Ig). rewrite map_app.
           apply in_app_iff in Ig as [Ig|Ig]; [destruct R1 as [[-> _]|(_ & _ & V2)]|destruct R2 as [[-> _]|(_ & _ & V2)]]; try destruct Ig;
             destruct (V2 g j k s Ig Jg) as [[(p & x & Ip & RP & Mx & Xs & Ev)|[Ev _]] _]; rewrite O1; try (left; exact Ev); right; exists p, x; (split; [apply in_or_app; auto|auto]).
        -- intros p x Ip. rewrite map_app in Ip. apply in_app_iff in Ip as [Ip|Ip]; [apply (X l1 qs1 R1)|apply (X l2 qs2 R2)]; auto; intros; apply in_or_app; auto.
Qed.
End Sup.
