(** C73: the tuples that a set of relations and powers allows, and the bound with tau0 = 2. *)
From Coq Require Import Reals Qreals Permutation Classical.
From Verif Require Import Base Model_Text Model_Reference Spec_Reference Proof_Reference LinAlg Model_Polytope Spec_Polytope Proof_Polytope Proof_PolytopeLP Prop_Polytope Proof_Piecewise FM_Ext Spec_Edges Proof_Edges Proof_Interval Model_Region Spec_Region
  Proof_Region Proof_RegionDisjoint Proof_RegionSolid Model_ExponentPair Spec_ExponentPair Model_LargeValues Spec_LargeValues Spec_LargeValueRegion Prop_LargeValueRegion Model_AdditiveEnergy Spec_AdditiveEnergy Proof_AdditiveEnergy Prop_AdditiveEnergy
  Model_RationalFunction Spec_RationalFunction Proof_RationalFunction Proof_RFOptimal Prop_RationalFunction Prop_Roots
  Model_ZeroDensity Spec_ZeroDensity Proof_ZeroDensity Prop_ZeroDensity Model_DensityEstimate Spec_DensityEstimate Prop_DensityEstimate Model_DensityDerivation Spec_DensityDerivation Prop_DensityDerivation
  Model_DensityEnergy Spec_DensityEnergy Prop_DensityEnergy Model_EnergyDerivation Spec_EnergyDerivation Proof_EnergyDerivation Prop_EnergyDerivation Proof_EnergyFlat Proof_EnergyTwo
  Model_LiteratureEnergy Spec_LiteratureEnergy Spec_EnergyProofs Model_EnergyProofs.
From Verif Require Spec_DerivedDensity.
From Coq Require Import Lra.
Open Scope list_scope.
Local Open Scope Q_scope.

(** A hypothesis that records the relation. *)
Definition says (h : enode) (rel : Spec_LiteratureEnergy.relation) : Prop :=
  proper_year (r_year (e_ref h)) /\ exists R, e_data h = DLVER R /\ disjoint_form R /\ leaves (solid 5) R /\
    forall s t r e z, denote R [s; t; r; e; z] <-> in_range5 s t r e z /\ rel s t r e z.
Definition rel_proper (rel : Spec_LiteratureEnergy.relation) : Prop := forall s t r e z s' t' r' e' z', s == s' -> t == t' -> r == r' -> e == e' -> z == z' -> rel s t r e z -> rel s' t' r' e' z'.

Lemma records_says : forall h ref params rel, records h ref params rel -> proper_year (r_year ref) -> says h rel.
Proof.
  intros h ref params rel (Er & _ & _ & R & D & DF & S5 & _ & X) Y. split; [now rewrite Er|]. exists R. split; [exact D|]. split; [exact DF|]. split; [exact S5|].
  intros s t r e z. rewrite X. split.
  - intros (s' & t' & r' & e' & z' & Eq & I & H). injection Eq as <- <- <- <- <-. auto.
  - intros [I H]. exists s, t, r, e, z. auto.
Qed.

Lemma solid_sized5 : forall r, leaves (solid 5) r -> sized 5 r.
Proof. intro r. apply leaves_mono. intros p Sp. split; [apply Sp|]. split; [exact (solid_rows 5 p ltac:(lia) Sp)|apply Sp]. Qed.

Section Lifted.
Context (E : ext) (OK : ext_ok E) (iteration : list enode -> list enode) (IT : forall l x, In x (iteration l) <-> In x l).

Lemma record_region : forall h B, Spec_DerivedDensity.records E h B -> exists r rep, l_data h = DLV r rep /\ disjoint_form r /\ leaves (solid 3) r /\
  forall s t u, denote r [s; t; u] <-> in_range s t u /\ Exists (fun b => u <= bound_at b s t) B.
Proof.
  intros h B ((NE & F & EN & _) & Y & Ec).
  destruct (convert_bounds_usable E OK B NE) as (r & rep & Ec' & DF & S3 & X); [eapply Forall_impl; [|exact F]; intros b [L _]; exact L|exact EN|].
  rewrite Ec' in Ec. exists r, rep. split; [congruence|]. split; [exact DF|]. split; [exact S3|]. intros s t u. rewrite X. tauto.
Qed.

(** The set after the large value estimates have been converted. *)
Lemma add_lvers_set : forall hb (ls : list (lnode * list (list Q))) ks, says hb hb_relation -> Forall (fun lb => Spec_DerivedDensity.records E (fst lb) (snd lb)) ls ->
  let hs0 := with_powers iteration ks (map (fun lb => EBase (fst lb)) ls ++ [hb]) in
  exists hs, add_lvers iteration hs0 false = Ret hs /\
    (forall h, In h hs -> (exists k, In k ks /\ h = get_raise_to_power_hypothesis k) \/ (exists lb, In lb ls /\ h = EBase (fst lb)) \/ says h hb_relation \/ exists lb, In lb ls /\ says h (lv_relation (snd lb))) /\
    (forall k, In k ks -> In (get_raise_to_power_hypothesis k) hs) /\
    In hb hs /\ forall lb, In lb ls -> exists h, In h hs /\ says h (lv_relation (snd lb)).
Proof.
  intros hb ls ks SH F hs0. rewrite Forall_forall in F.
  assert (I0 : forall h, In h hs0 <-> (exists k, In k ks /\ h = get_raise_to_power_hypothesis k) \/ (exists lb, In lb ls /\ h = EBase (fst lb)) \/ h = hb).
  { intro h. unfold hs0, with_powers. rewrite IT, !in_app_iff, !in_map_iff. cbn [In]. split.
    - intros [(k & <- & Ik)|[(lb & <- & Il)|[<- | []]]]; [left|right; left|right; right]; eauto.
    - intros [(k & Ik & ->)|[(lb & Il & ->)| ->]]; [left|right; left|right; right]; eauto. }
  destruct SH as (Yh & Rh & Dh & DFh & S5h & Xh).
  assert (LV : forall h r rep, In h hs0 -> e_data h = DLow (DLV r rep) -> exists lb, In lb ls /\ h = EBase (fst lb)).
  { intros h r rep Ih D. apply I0 in Ih as [(k & _ & ->)|[X| ->]]; [discriminate D|exact X|rewrite Dh in D; discriminate D]. }
  destruct (lv_to_lver_exact hs0 false) as (out & Eo & O1 & O2).
  { intros h r rep Ih D. destruct (LV h r rep Ih D) as (lb & Il & ->). destruct (record_region _ _ (F lb Il)) as (r' & rep' & D' & DF & S3 & _). cbn [e_data] in D. rewrite D' in D.
    assert (r' = r) by congruence. subst r'. split; [now apply solid_sized3|now apply disjoint_form_positive]. }
  exists (iteration (hs0 ++ out)). split; [unfold add_lvers; rewrite Eo; reflexivity|].
  assert (CV : forall lb h g r rep q, In lb ls -> h = EBase (fst lb) -> e_data h = DLow (DLV r rep) -> e_data g = DLVER q -> r_year (e_ref g) = r_year (e_ref h) -> (leaves (solid 3) r -> leaves (solid 5) q) -> (disjoint_form r -> disjoint_form q) ->
      (forall s t u e z, denote q [s; t; u; e; z] <-> denote r [s; t; u] /\ 0 <= e /\ e <= LV_DEFAULT_UPPER_BOUND /\ 0 <= z /\ z <= LV_DEFAULT_UPPER_BOUND) -> says g (lv_relation (snd lb))).
  { intros lb h g r rep q Il -> D Dg Y L5 DF5 X. destruct (record_region _ _ (F lb Il)) as (r' & rep' & D' & DF & S3 & X3). cbn [e_data] in D. rewrite D' in D. assert (r' = r) by congruence. subst r'.
    split; [rewrite Y; cbn [e_ref]; apply (F lb Il)|]. exists q. split; [exact Dg|]. split; [auto|]. split; [auto|]. intros s t u e z. rewrite X, X3. unfold in_range5, lv_relation. tauto. }
  split; [|split; [|split]].
  - intros h Ih. apply IT, in_app_iff in Ih as [Ih|Ih].
    + apply I0 in Ih as [X|[X| ->]]; [auto|auto|]. right. right. left. split; [exact Yh|]. exists Rh. auto.
    + right. right. right. destruct (O2 h Ih) as (h0 & Ih0 & r & rep & q & D & Dq & _ & Y & L5 & DF5 & _ & X). destruct (LV h0 r rep Ih0 D) as (lb & Il & Eh). exists lb. split; [exact Il|]. exact (CV lb h0 h r rep q Il Eh D Dq Y L5 DF5 X).
  - intros k Ik. apply IT, in_app_iff. left. apply I0. left. eauto.
  - apply IT, in_app_iff. left. apply I0. auto.
  - intros lb Il. destruct (record_region _ _ (F lb Il)) as (r & rep & D & _). destruct (O1 (EBase (fst lb)) r rep) as (g & Ig & r' & rep' & q & D' & Dq & _ & Y & L5 & DF5 & _ & X); [apply I0; eauto|cbn [e_data]; now rewrite D|].
    exists g. split; [apply IT, in_app_iff; now right|]. exact (CV lb _ g r' rep' q Il eq_refl D' Dq Y L5 DF5 X).
Qed.
End Lifted.

Section Allowed.
Context (hs : list enode) (rels : list Spec_LiteratureEnergy.relation) (ks : list Q) (KS : Forall natural_power ks)
  (RP : forall rel, In rel rels -> rel_proper rel)
  (H1 : forall h, In h hs -> (exists k, In k ks /\ h = get_raise_to_power_hypothesis k) \/ (exists l r rep, h = EBase l /\ l_data l = DLV r rep /\ proper_year (r_year (l_ref l))) \/ exists rel, In rel rels /\ says h rel)
  (H2 : forall k, In k ks -> In (get_raise_to_power_hypothesis k) hs)
  (H3 : forall rel, In rel rels -> exists h, In h hs /\ says h rel).

Lemma lver_says : forall h R, In h hs -> e_data h = DLVER R -> exists rel, In rel rels /\ says h rel.
Proof. intros h R Ih D. destruct (H1 h Ih) as [(k & _ & ->)|[(l & r & rep & -> & Dl & _)|X]]; [discriminate D|cbn [e_data] in D; discriminate D|exact X]. Qed.
Lemma no_zlver : forall h R, In h hs -> e_data h = DZLVER R -> False.
Proof. intros h R Ih D. destruct (H1 h Ih) as [(k & _ & ->)|[(l & r & rep & -> & Dl & _)|(rel & _ & _ & R' & D' & _)]]; [discriminate D|cbn [e_data] in D; discriminate D|congruence]. Qed.
Lemma trans_in : forall h k, In h hs -> e_data h = DLVERTrans k -> In k ks.
Proof. intros h k Ih D. destruct (H1 h Ih) as [(k' & Ik & ->)|[(l & r & rep & -> & Dl & _)|(rel & _ & _ & R' & D' & _)]]; [cbn in D; congruence|cbn [e_data] in D; discriminate D|congruence]. Qed.
Lemma ks_one : forall k, In k ks -> 1 <= k.
Proof. intros k Ik. rewrite Forall_forall in KS. destruct (KS k Ik) as (n & N & ->). change 1 with (inject_Z 1). rewrite <- Zle_Qle. exact N. Qed.

Lemma set_usable : usable_set hs.
Proof.
  split; [|split; [|split]].
  - intros h R Ih D. destruct (lver_says h R Ih D) as (rel & _ & _ & R' & D' & DF & S5 & _). assert (R' = R) by congruence. subst R'. auto.
  - intros h R Ih D. destruct (no_zlver h R Ih D).
  - intros t k It D Z. pose proof (ks_one k (trans_in t k It D)) as P. rewrite Z in P. now apply P.
  - apply Forall_forall. intros h Ih. destruct (H1 h Ih) as [(k & _ & ->)|[(l & r & rep & -> & _ & Y)|(rel & _ & Y & _)]]; [left; cbn; exact Logic.I|exact Y|exact Y].
Qed.

Definition powered (g : enode) (rel : Spec_LiteratureEnergy.relation) (k : Q) : Prop := exists R, e_data g = DLVER R /\
  forall s t r e z, denote R [s; t; r; e; z] <-> in_range5 s (t / k) (r / k) (e / k) (z / k) /\ rel s (t / k) (r / k) (e / k) (z / k).
Lemma range5_proper : forall s t r e z t' r' e' z', t == t' -> r == r' -> e == e' -> z == z' -> in_range5 s t r e z -> in_range5 s t' r' e' z'.
Proof. intros s t r e z t' r' e' z' A B C D ((I1 & I2 & I3 & I4 & I5 & I6) & I7 & I8 & I9 & I10). unfold in_range5, in_range. repeat split; Lqa.lra. Qed.
Lemma says_powered : forall h rel, In rel rels -> says h rel -> powered h rel 1.
Proof.
  intros h rel Ir (_ & R & D & _ & _ & X). exists R. split; [exact D|]. intros s t r e z. rewrite X. assert (T : forall q, q / 1 == q) by (intro q; field). pose proof (RP rel Ir) as P.
  split; intros [A B]; (split; [revert A; apply range5_proper; rewrite T; reflexivity|revert B; apply P; try rewrite T; reflexivity]).
Qed.
Lemma raised_powered : forall k h rel g, In k ks -> In rel rels -> says h rel -> raise_energy k h = Ret g -> powered g rel k.
Proof.
  intros k h rel g Ik Ir (_ & R & D & _ & S5 & X) Eg. pose proof (ks_one k Ik) as K1. assert (NZ : ~ k == 0) by (intro Z; rewrite Z in K1; now apply K1).
  destruct (raise_energy_region k h R D (solid_sized5 R S5) NZ) as (g' & R' & Eg' & Dg & _ & _ & _ & _ & _ & Y). assert (g' = g) by congruence. subst g'. exists R'. split; [exact Dg|].
  intros s t r e z. rewrite <- X, <- Y. split; apply denote5; try reflexivity; field; exact NZ.
Qed.
Lemma used_powered : forall zeta g, used_lver hs zeta g -> exists rel k, In rel rels /\ In k (1 :: ks) /\ powered g rel k.
Proof.
  intros zeta g [(Ig & R & D)|[(t & k & h & R & It & Dt & Ih & Dh & Eg)|(_ & Ig & R & D)]].
  - destruct (lver_says g R Ig D) as (rel & Ir & S). exists rel, 1. split; [exact Ir|]. split; [now left|now apply says_powered].
  - destruct (lver_says h R Ih Dh) as (rel & Ir & S). pose proof (trans_in t k It Dt) as Ik. exists rel, k. split; [exact Ir|]. split; [now right|now apply (raised_powered k h)].
  - destruct (no_zlver g R Ig D).
Qed.
Lemma powered_used : forall zeta rel k, In rel rels -> In k (1 :: ks) -> exists g, used_lver hs zeta g /\ powered g rel k.
Proof.
  intros zeta rel k Ir Ik. destruct (H3 rel Ir) as (h & Ih & S). pose proof S as (_ & R & D & _ & S5 & _). destruct Ik as [<- | Ik].
  - exists h. split; [left; split; [exact Ih|]; eauto|now apply says_powered].
  - pose proof (ks_one k Ik) as K1. destruct (raise_energy_region k h R D (solid_sized5 R S5)) as (g & R' & Eg & _); [intro Z; rewrite Z in K1; now apply K1|].
    exists g. split; [right; left; exists (get_raise_to_power_hypothesis k), k, h, R; auto 6|now apply (raised_powered k h)].
Qed.
Lemma range5_div : forall s t r e z k, 1 <= k -> in_range5 s t r e z -> in_range5 s (t / k) (r / k) (e / k) (z / k).
Proof.
  intros s t r e z k Pk ((I1 & I2 & I3 & I4 & I5 & I6) & I7 & I8 & I9 & I10). assert (K : forall x, 0 <= x -> 0 <= x / k /\ x / k <= x).
  { intros x Px. split; [apply Qle_shift_div_l; Lqa.lra|]. apply Qle_shift_div_r; [Lqa.lra|]. Lqa.nra. }
  destruct (K t I3), (K r I5), (K e I7), (K z I9). unfold in_range5, in_range. repeat split; Lqa.lra.
Qed.
Lemma in_one : forall k, In k (1 :: ks) -> 1 <= k.
Proof. intros k [<- | Ik]; [Lqa.lra|now apply ks_one]. Qed.
Lemma allowed_iff : forall zeta (D : Q -> Q -> Prop) s t r e z, (D s t -> 1#2 <= s <= 1 /\ 0 <= t <= TAU_UPPER_LIMIT) ->
  allowed hs zeta D [s; t; r; e; z] <-> D s t /\ 0 <= r <= LV_DEFAULT_UPPER_BOUND /\ 0 <= e <= LV_DEFAULT_UPPER_BOUND /\ 0 <= z <= LV_DEFAULT_UPPER_BOUND /\ obeyed rels (1 :: ks) s t r e z.
Proof.
  intros zeta D s t r e z HD. split.
  - intros (s' & t' & r' & e' & z' & Eq & Ds & A1 & A2 & A3 & A4 & A5 & A6 & K). injection Eq as <- <- <- <- <-. repeat (split; [auto|]).
    intros rel k Ir Ik. destruct (powered_used zeta rel k Ir Ik) as (g & U & R & Dg & X). apply (X s t r e z). apply (K g R U). now left.
  - intros (Ds & [A1 A2] & [A3 A4] & [A5 A6] & O). exists s, t, r, e, z. repeat (split; [try reflexivity; assumption|]). intros g R U DR.
    destruct (used_powered zeta g U) as (rel & k & Ir & Ik & R' & Dg & X). assert (R' = R) by (destruct DR; congruence). subst R'. apply X. split; [|now apply O].
    apply range5_div; [now apply in_one|]. destruct (HD Ds). unfold in_range5, in_range. repeat split; Lqa.lra.
Qed.

Lemma tile_within : forall l a b, bounds_tile l a b -> (a <= b)%R /\ forall o, In o l -> match o with ANode _ _ d _ _ _ => (a <= lo (z_int d))%R /\ (hi (z_int d) <= b)%R /\ ihi (z_int d) = false | _ => False end.
Proof.
  induction l as [|o l IH]; intros a b T; [cbn in T; subst; split; [Lra.lra|intros o []]|]. destruct o as [n k d p r ds|]; [|destruct T]. destruct T as (T1 & T2 & _ & T3 & T4). destruct (IH _ _ T4) as [L H]. split; [Lra.lra|].
  intros o [<- | Io]; [repeat split; try Lra.lra; exact T3|]. specialize (H o Io). destruct o; [|exact H]. destruct H as (H4 & H5 & H6). repeat split; try Lra.lra; exact H6.
Qed.

Section Value.
Context (E : ext) (OK : ext_ok E) (adjacency : mat -> list (list nat)) (AD : adjacency_ok E adjacency) (solve : rfun -> rfun -> list R) (SC : solve_complete solve)
  (order : nat -> list nat -> list nat) (OO : forall k l, Permutation (order k l) l) (rf_str : rfun -> str)
  (a b : Q) (A0 : 1#2 <= a) (AB : a < b) (B1 : b < 1) (v : Q -> Q).
Let D := long_range 0 2 a b.
Let S := allowed hs false D.
Lemma D_is : forall s t, D s t <-> a <= s <= b /\ 2 <= t <= 4.
Proof. intros s t. unfold D, long_range. split; intros (A & B); (split; [exact A|]); Lqa.lra. Qed.
Lemma S_is : forall s t r e z, S [s; t; r; e; z] <-> a <= s <= b /\ 2 <= t <= 4 /\ 0 <= r <= LV_DEFAULT_UPPER_BOUND /\ 0 <= e <= LV_DEFAULT_UPPER_BOUND /\ 0 <= z <= LV_DEFAULT_UPPER_BOUND /\ obeyed rels (1 :: ks) s t r e z.
Proof.
  intros. unfold S. rewrite allowed_iff; [rewrite D_is; tauto|]. intro K. apply D_is in K as [K1 K2]. unfold TAU_UPPER_LIMIT. split; Lqa.lra.
Qed.
Context (NE : rels <> [])
  (UP : forall s t r e z, a <= s <= b -> 2 <= t <= 4 -> 0 <= r -> 0 <= e -> obeyed rels (1 :: ks) s t r e z -> e <= v s * t)
  (LOW : forall s, a <= s -> s < b -> exists t0 e0, 0 < t0 /\ e0 == v s * t0 /\ 0 <= e0 /\ forall eps, 0 < eps -> exists s' t' r' e' z', near eps [s; t0; e0] [s'; t'; e'] /\ s < s' /\ Spec_Region.inside S [s'; t'; r'; e'; z'])
  (TWO : exists x y, Spec_Region.inside S x /\ Spec_Region.inside S y /\ List.length x = List.length y /\ ~ S (mix (1#2) x y))
  (MISS : forall rel k, In rel rels -> In k (1 :: ks) -> exists r e z, 0 <= r <= LV_DEFAULT_UPPER_BOUND /\ 0 <= e <= LV_DEFAULT_UPPER_BOUND /\ 0 <= z <= LV_DEFAULT_UPPER_BOUND /\ ~ rel a (2 / k) (r / k) (e / k) (z / k)).

Lemma two_split : forall ps, pieces_for S ps -> ~ one_nonempty ps.
Proof.
  intros ps (_ & In1 & Out1) (l & p & l' & -> & _ & N). destruct TWO as (x & y & Ix & Iy & Lxy & NM).
  assert (K : forall x, Spec_Region.inside S x -> member (body p) x).
  { intros w Iw. destruct (Out1 w Iw) as (q & Iq & Mq). apply in_app_iff in Iq as [Iq|[<- | Iq]]; [destruct (N q w); [apply in_or_app; now left|exact Mq]|exact Mq|destruct (N q w); [apply in_or_app; now right|exact Mq]]. }
  apply NM. apply (In1 _ p); [apply in_or_app; right; now left|]. pose proof (K x Ix) as A. pose proof (K y Iy) as B.
  destruct A as [LA FA], B as [LB FB]. split; [rewrite mix_length by exact Lxy; exact LA|]. rewrite Forall_forall in *. intros [r b0] Ir. specialize (FA _ Ir). specialize (FB _ Ir).
  unfold Spec_Polytope.holds in *. cbn [fst snd] in *. pose proof (rowval_mix r (1#2) x y). destruct b0; Lqa.lra.
Qed.

Lemma two_value : exists l, lver_to_energy_bound E order adjacency solve rf_str hs 0 2 a b = Ret l /\ energy_over l a b (fun s w => w = Q2R (v s / (1 - s))).
Proof.
  destruct (energy_bound_two E OK adjacency AD solve SC order OO rf_str hs a b set_usable AB) as (ps1 & P1 & [(K & _)|(_ & l & qs & El & BT & X & VP & V)]).
  { assert (exists rel, In rel rels) as (rel & Ir) by (clear - NE; destruct rels as [|rel rels']; [now destruct NE|exists rel; now left]). destruct (powered_used true rel 1 Ir) as (g & U & _); [now left|]. eauto. }
  { intros g R U DR. destruct (used_powered true g U) as (rel & k & Ir & Ik & R' & Dg & XR). assert (R' = R) by (destruct DR; congruence). subst R'.
    destruct (MISS rel k Ir Ik) as (r & e & z & C1 & C2 & C3 & NR). exists a, r, e, z. split; [split; Lqa.lra|]. repeat (split; [assumption|]). intro DN. apply XR in DN as [_ DN]. now apply NR. }
  { exfalso. revert K. now apply two_split. }
  exists l. split; [exact El|]. split; [exact BT|]. intros o Io. destruct (V o Io) as (f & i & p & r & deps & Eo & Np & Sv & _). exists (rf_str f), i, f, p, r, deps. split; [exact Eo|].
  pose proof (proj2 (tile_within l _ _ BT) o Io) as TW. rewrite Eo in TW. cbn [z_int] in TW. destruct TW as (T1 & T2 & T3). pose proof (Qlt_Rlt _ _ B1) as B1R. replace (Q2R 1) with 1%R in B1R by (unfold Q2R; cbn; Lra.lra).
  assert (IN : forall x, Spec_RationalFunction.inside i x -> (Q2R a <= x /\ x < Q2R b)%R).
  { intros x Ix. unfold Spec_RationalFunction.inside in Ix. rewrite T3 in Ix. destruct (ilo i); cbn in Ix; Lra.lra. }
  split; [intros x Ix; destruct (IN x Ix); apply (Np x Ix); Lra.lra|]. intros s Is. destruct (IN _ Is) as [Is1 Is2]. apply Rle_Qle in Is1. apply Rlt_Qlt in Is2.
  assert (NS : ~ s == 1). { intro Z. apply Qeq_eqR in Z. rewrite Z in *. apply Qlt_Rlt in Is2. rewrite Z in Is2. replace (Q2R 1) with 1%R in Is2 by (unfold Q2R; cbn; Lra.lra). Lra.lra. }
  specialize (Sv s Is NS). destruct Sv as [SV UB]. destruct (LOW s Is1 Is2) as (t0 & e0 & T0 & E0 & E00 & LIM).
  assert (Ge : (Q2R (e0 / t0) <= rfval f (Q2R s) * (1 - Q2R s))%R).
  { destruct (limit_member qs [s; t0; e0] s (Qeq_refl _)) as (q & Iq & Mq & Rq).
    - intros ep Hep. destruct (LIM ep Hep) as (s' & t' & r' & e' & z' & Nr & Ls & Iy). destruct P1 as (_ & _ & Out). destruct (Out _ Iy) as (p0 & Ip & Mp).
      destruct (proj2 (X s' t' e')) as (q & Iq & Mq); [exists p0, r', z'; auto|]. exists [s'; t'; e'], q. auto.
    - specialize (UB q _ Iq Rq Mq (Qeq_refl _)). cbn [nth] in UB. exact UB. }
  assert (Le : (rfval f (Q2R s) * (1 - Q2R s) <= Q2R (v s))%R).
  { destruct SV as [(q & x & Iq & _ & Mx & Xs & Ev)|(Ev & _)].
    - destruct (VP q Iq) as (_ & Nq & _). assert (Lx : List.length x = 3%nat) by (destruct Mx as [Lx _]; lia). destruct x as [|s1 [|t [|e [|]]]]; try discriminate. cbn [nth] in *.
      destruct (proj1 (X s1 t e)) as (p0 & r0 & z0 & Ip & Mp); [eauto|]. destruct P1 as (_ & In1 & _). specialize (In1 _ p0 Ip Mp).
      assert (Sx : S [s; t; r0; e; z0]).
      { apply S_is in In1 as (C1 & C2 & C3 & C4 & C5 & C6). apply S_is. repeat (split; [try assumption; split; Lqa.lra|]). intros rel k Ir Ik. generalize (C6 rel k Ir Ik). apply (RP rel Ir); try reflexivity. exact Xs. }
      apply S_is in Sx as (C1 & C2 & C3 & C4 & C5 & C6). pose proof (UP s t r0 e z0 C1 C2 (proj1 C3) (proj1 C4) C6) as H. rewrite Ev. apply Qle_Rle. apply Qle_shift_div_r; Lqa.lra.
    - exfalso. rewrite Ev in Ge. apply Rle_Qle in Ge. assert (0 <= e0 / t0) by (apply Qle_shift_div_l; Lqa.lra). assert (inject_Z (-1000000) < 0) by reflexivity. Lqa.lra. }
  assert (EV : e0 / t0 == v s) by (rewrite E0; field; intro Z; rewrite Z in T0; now apply Qlt_irrefl in T0). apply Qeq_eqR in EV.
  assert (VV : (rfval f (Q2R s) * (1 - Q2R s) = Q2R (v s))%R) by Lra.lra.
  assert (N1 : ~ 1 - s == 0) by (intro Z; apply NS; Lqa.lra). rewrite Q2R_div by exact N1. rewrite <- VV. rewrite Q2R_minus. replace (Q2R 1) with 1%R by (unfold Q2R; cbn; Lra.lra).
  field. apply Qlt_Rlt in Is2. Lra.lra.
Qed.
End Value.
End Allowed.
