(** Large value estimates (C37, C38). *)
From Verif Require Import Base Model_Text Model_Reference Spec_Reference LinAlg Model_Polytope Spec_Polytope Proof_Polytope
  Model_Region Spec_Region Proof_Region Prop_Region FM_Ext Model_ExponentPair Spec_ExponentPair Model_Format
  Model_BoundMu Spec_BoundMu Proof_BoundMu Prop_BoundMu Model_LargeValues Spec_LargeValues Proof_LargeValues.
Open Scope list_scope.

(** ** C37 *)

(** A list of bounds becomes the region of all (s, t, r) in the default range
    with r at most the largest of the bounds; the pieces do not overlap. *)
Theorem convert_bounds_exact : forall E, ext_ok E -> forall bounds,
  bounds <> [] -> Forall (fun b => List.length b = 3%nat) bounds ->
  exists ps rep, convert_bounds E bounds = Ret (DLV (RDisj (map (fun p => RPoly (plain p)) ps)) (Some rep)) /\
    lv_repr bounds = Ret rep /\ List.length ps = List.length bounds /\
    sized 3 (RDisj (map (fun p => RPoly (plain p)) ps)) /\
    (forall x, denote (RDisj (map (fun p => RPoly (plain p)) ps)) x <->
       exists s t u, x = [s; t; u] /\ in_range s t u /\ Exists (fun b => u <= bound_at b s t) bounds) /\
    ForallOrdPairs (fun p q => forall x, ~ (interior p x /\ interior q x)) ps.
Proof. intros E OK. exact (convert_bounds_ok E OK). Qed.
Print Assumptions convert_bounds_exact.

(** The estimate is true exactly when LV is at most the largest bound. *)
Theorem convert_bounds_meaning : forall E, ext_ok E -> forall bounds r rep W,
  Forall (fun b => List.length b = 3%nat) bounds -> convert_bounds E bounds = Ret (DLV r rep) ->
  (lv_estimate W r <-> forall s t u, in_range s t u -> lv W s t u -> exists b, In b bounds /\ u <= bound_at b s t).
Proof.
  intros E OK bounds r rep W F H. destruct bounds as [|b0 bs]; [discriminate|].
  destruct (convert_bounds_ok E OK (b0 :: bs) ltac:(discriminate) F) as (ps & s & Ec & _ & _ & _ & X & _).
  rewrite Ec in H. injection H as <- _. unfold lv_estimate. split.
  - intros T s0 t u R L. specialize (T s0 t u R L). apply X in T as (s1 & t1 & u1 & Eq & _ & Ex). injection Eq as <- <- <-.
    apply Exists_exists in Ex. exact Ex.
  - intros T s0 t u R L. apply X. exists s0, t, u. split; [reflexivity|]. split; [exact R|]. apply Exists_exists. eauto.
Qed.
Print Assumptions convert_bounds_meaning.

(** Without bounds there is nothing to print, and a bound with a coefficient too
    many or too few is refused. *)
Theorem convert_bounds_empty : forall E, convert_bounds E [] = Raise IndexError.
Proof. reflexivity. Qed.
Print Assumptions convert_bounds_empty.

Theorem convert_bounds_malformed : forall E, ext_ok E -> forall bounds,
  (exists b, In b bounds /\ List.length b <> 3%nat) -> convert_bounds E bounds = Raise ValueError.
Proof.
  intros E OK bounds (b & Hb & Lb). unfold convert_bounds, from_union_of_halfplanes.
  enough (X : forall neg, Forall (fun r => List.length r = 4%nat) neg -> halfplane_polys E lv_box neg (map (fun b => b ++ [-1]) bounds) = Raise ValueError)
    by (rewrite X by constructor; reflexivity).
  revert Hb. induction bounds as [|a bs IH]; intros Hb neg FN; [destruct Hb|]. cbn [map halfplane_polys].
  assert (LB : Forall (fun r => List.length r = 4%nat) lv_box) by (repeat constructor).
  destruct (Nat.eq_dec (List.length a) 3) as [La|La].
  - destruct Hb as [->|Hb]; [congruence|].
    assert (L4 : List.length (a ++ [-1]) = 4%nat) by (rewrite app_length; cbn; lia).
    destruct (Polytope_ok E OK (lv_box ++ [a ++ [-1]] ++ neg) false true 4 ltac:(lia)) as (p & Ep & _).
    + apply Forall_app. split; [exact LB|]. apply Forall_app. split; [constructor; [exact L4|constructor]|exact FN].
    + exists [1; -1; 0; 0]. split; [right; left; reflexivity|]. intro Z. inversion Z; lra.
    + rewrite Ep. cbn [bind]. rewrite IH; [reflexivity|exact Hb|]. apply Forall_app. split; [exact FN|]. constructor; [|constructor].
      unfold vopp. now rewrite map_length.
  - assert (Z : is_zero_row (a ++ [-1]) = false).
    { unfold is_zero_row. rewrite forallb_app. cbn. apply andb_false_r. }
    unfold Polytope. set (l := filter _ _).
    assert (I : In (a ++ [-1]) l) by (apply filter_In; rewrite Z; split; [apply in_or_app; right; left; reflexivity|reflexivity]).
    assert (H : List.length (hd [] l) = 4%nat) by reflexivity.
    unfold matrix_of. destruct (forallb _ l) eqn:F; [|reflexivity]. exfalso. rewrite forallb_forall in F. specialize (F _ I).
    apply Nat.eqb_eq in F. rewrite H, app_length in F. cbn in F. lia.
Qed.
Print Assumptions convert_bounds_malformed.

(** The two estimates defined in the module. *)
Theorem large_value_estimate_L2_exact : forall E, ext_ok E -> exists h r rep, large_value_estimate_L2 E = Ret h /\
  l_data h = DLV r rep /\ forall s t u, denote r [s; t; u] <-> in_range s t u /\ (u <= 2 - 2 * s \/ u <= 1 - 2 * s + t).
Proof.
  intros E OK. destruct (convert_bounds_ok E OK [[2; -2; 0]; [1; -2; 1]] ltac:(discriminate) ltac:(repeat constructor)) as (ps & s & Ec & _ & _ & _ & X & _).
  unfold large_value_estimate_L2, classical_LV_estimate. rewrite Ec. do 3 eexists. split; [reflexivity|]. split; [reflexivity|].
  intros s0 t u. rewrite X. unfold bound_at. split.
  - intros (s1 & t1 & u1 & Eq & R & Ex). injection Eq as <- <- <-. split; [exact R|].
    inversion Ex as [? ? H|? ? Ex']; subst; [left; cbn in H; lra|]. inversion Ex' as [? ? H|? ? Ex'']; subst; [right; cbn in H; lra|inversion Ex''].
  - intros (R & H). exists s0, t, u. split; [reflexivity|]. split; [exact R|]. destruct H as [H|H]; [left|right; left]; cbn; lra.
Qed.
Print Assumptions large_value_estimate_L2_exact.

Theorem montgomery_conjecture_exact : forall E, ext_ok E -> exists h r rep, montgomery_conjecture E = Ret h /\
  l_data h = DLV r rep /\ l_ref h = ref_conjectured /\
  forall s t u, denote r [s; t; u] <-> in_range s t u /\ u <= 2 - 2 * s.
Proof.
  intros E OK. destruct (convert_bounds_ok E OK [[2; -2; 0]] ltac:(discriminate) ltac:(repeat constructor)) as (ps & s & Ec & _ & _ & _ & X & _).
  unfold montgomery_conjecture, conjectured_LV_estimate. rewrite Ec. do 3 eexists. split; [reflexivity|]. split; [reflexivity|]. split; [reflexivity|].
  intros s0 t u. rewrite X. unfold bound_at. split.
  - intros (s1 & t1 & u1 & Eq & R & Ex). injection Eq as <- <- <-. split; [exact R|].
    inversion Ex as [? ? H|? ? Ex']; subst; [cbn in H; lra|inversion Ex'].
  - intros (R & H). exists s0, t, u. split; [reflexivity|]. split; [exact R|]. left; cbn; lra.
Qed.
Print Assumptions montgomery_conjecture_exact.

(** The conjecture as it is stored is stronger than the one in the blueprint,
    which is LV(s, t) <= 2 - 2s for s > 1/2: at s = 1/2 the blueprint has
    LV(1/2, t) = t, so that the stored region excludes what happens. *)
Theorem montgomery_conjecture_half_refuted : forall E, ext_ok E -> forall h r rep W,
  montgomery_conjecture E = Ret h -> l_data h = DLV r rep -> (forall t, 0 <= t -> lv W (1#2) t t) -> ~ lv_estimate W r.
Proof.
  intros E OK h r rep W Hm Hd H T. destruct (montgomery_conjecture_exact E OK) as (h' & r' & rep' & Em & Ed & _ & X).
  rewrite Em in Hm. injection Hm as <-. rewrite Ed in Hd. injection Hd as <- _.
  assert (R : in_range (1#2) 2 2) by (unfold in_range; repeat split; apply Qleb_true; reflexivity).
  specialize (T (1#2) 2 2 R (H 2 ltac:(lra))). apply X in T as [_ T]. lra.
Qed.
Print Assumptions montgomery_conjecture_half_refuted.

(** ** C38 *)

(** Raising to the k-th power: the new region is the old one with tau and rho
    multiplied by k, so it says LV(s, k t) <= k LV(s, t). *)
Theorem raise_to_power_region : forall k h r rep, l_data h = DLV r rep -> sized 3 r -> ~ k == 0 ->
  exists h' r', raise_to_power k h = Ret h' /\ l_data h' = DLV r' None /\ l_deps h' = [h] /\
    r_year (l_ref h') = r_year (l_ref h) /\ sized 3 r' /\
    forall s t u, denote r' [s; k * t; k * u] <-> denote r [s; t; u].
Proof.
  intros k h r rep D S K. destruct (scale3_iff k r S K) as (q & Eq & Sq & Hq).
  unfold raise_to_power, region_of. rewrite D. cbn [bind]. rewrite Eq. cbn [bind]. unfold derived_bound_LV. rewrite derived_l_one.
  do 2 eexists. split; [reflexivity|]. split; [reflexivity|]. split; [reflexivity|]. split; [reflexivity|]. split; [exact Sq|].
  intros s t u. rewrite Hq. split; apply denote3; try reflexivity; field; auto.
Qed.
Print Assumptions raise_to_power_region.

(** Powers compose. *)
Theorem raise_to_power_compose : forall j k h r rep, l_data h = DLV r rep -> sized 3 r -> ~ j == 0 -> ~ k == 0 ->
  exists h1 h2 h12 r2 r12, raise_to_power j h = Ret h1 /\ raise_to_power k h1 = Ret h2 /\ raise_to_power (j * k) h = Ret h12 /\
    l_data h2 = DLV r2 None /\ l_data h12 = DLV r12 None /\
    forall s t u, denote r2 [s; t; u] <-> denote r12 [s; t; u].
Proof.
  intros j k h r rep D S J K.
  destruct (raise_to_power_region j h r rep D S J) as (h1 & r1 & E1 & D1 & _ & _ & S1 & X1).
  destruct (raise_to_power_region k h1 r1 None D1 S1 K) as (h2 & r2 & E2 & D2 & _ & _ & _ & X2).
  assert (JK : ~ j * k == 0) by (intro C; apply Qmult_integral in C as [C|C]; auto).
  destruct (raise_to_power_region (j * k) h r rep D S JK) as (h3 & r3 & E3 & D3 & _ & _ & _ & X3).
  exists h1, h2, h3, r2, r3. split; [exact E1|]. split; [exact E2|]. split; [exact E3|]. split; [exact D2|]. split; [exact D3|].
  assert (A2 : forall s t u, denote r2 [s; t; u] <-> denote r [s; t / (j * k); u / (j * k)]).
  { intros s t u. specialize (X2 s (t / k) (u / k)). specialize (X1 s (t / (j * k)) (u / (j * k))). split; intro H.
    - apply X1. apply (denote3 r1 s (t / k) (u / k)); [reflexivity|field; auto|field; auto|]. apply X2. revert H. apply denote3; [reflexivity|field; auto|field; auto].
    - apply (denote3 r2 s (k * (t / k)) (k * (u / k))); [reflexivity|field; auto|field; auto|]. apply X2.
      apply X1 in H. revert H. apply denote3; [reflexivity|field; auto|field; auto]. }
  intros s t u. rewrite A2. specialize (X3 s (t / (j * k)) (u / (j * k))). rewrite <- X3. split; apply denote3; try reflexivity; field; auto.
Qed.
Print Assumptions raise_to_power_compose.

(** A natural power of a true estimate is true, and the recorded dependency
    suffices. *)
Theorem raise_to_power_supported : forall tr btr k h r rep h', natural_power k -> l_data h = DLV r rep -> sized 3 r ->
  raise_to_power k h = Ret h' -> l_deps h' = [h] /\ lsupported tr btr h'.
Proof.
  intros tr btr k h r rep h' (n & N & Kn) D S H.
  assert (K1 : 1 <= k) by (rewrite Kn; change 1 with (inject_Z 1); rewrite <- Zle_Qle; lia).
  destruct (raise_to_power_region k h r rep D S ltac:(lra)) as (h2 & r' & E & D' & Ed & _ & _ & X).
  rewrite E in H. injection H as <-. split; [exact Ed|]. intros W Ad F. rewrite Ed in F. inversion F as [|? ? Hh _]; subst.
  unfold lholds in *. rewrite D'. rewrite D in Hh. intros s t u (R1 & R2 & R3 & R4 & R5 & R6) L.
  assert (Q1 : forall x, 0 <= x -> 0 <= x / k /\ x / k <= x).
  { intros x Hx. split; [apply Qle_shift_div_l; lra|]. apply Qle_shift_div_r; [lra|]. nra. }
  destruct (Q1 t R3) as [T1 T2]. destruct (Q1 u R5) as [U1 U2].
  assert (L' : lv W s (t / k) (u / k)).
  { apply (lv_power W Ad s (t / k) (u / k) n N R1 R2 T1). revert L. apply (lv_proper W Ad); [reflexivity| |]; rewrite <- Kn; field; lra. }
  assert (IR : in_range s (t / k) (u / k)) by (unfold in_range, TAU_UPPER_LIMIT, LV_DEFAULT_UPPER_BOUND in *; lra).
  specialize (Hh s (t / k) (u / k) IR L'). apply X in Hh.
  revert Hh. apply denote3; [reflexivity| |]; field; lra.
Qed.
Print Assumptions raise_to_power_supported.

(** So the transform as a hypothesis is true in every admissible world. *)
Theorem raise_to_power_true : forall tr btr k W, natural_power k -> lv_admissible W -> lholds tr btr W (raise_to_power_hypothesis k).
Proof.
  intros tr btr k W K Ad. unfold lholds. cbn [l_data raise_to_power_hypothesis]. intros h h' r rep D S T E.
  destruct (raise_to_power_supported tr btr k h r rep h' K D S E) as [Ed Sp].
  assert (H : lholds tr btr W h') by (apply Sp; [auto|]; rewrite Ed; constructor; [unfold lholds; rewrite D; exact T|constructor]).
  unfold raise_to_power, region_of in E. rewrite D in E. cbn [bind] in E. destruct (rscale_all _ r) as [q|]; [|discriminate]. cbn [bind] in E.
  apply derived_l_inv in E as (Dh & _). unfold lholds in H. rewrite Dh in H. eauto.
Qed.
Print Assumptions raise_to_power_true.

(** The limit on tau is not imposed again, although the comment says so: beyond
    the limit the raised region is as large as the old one is below it. *)
Theorem raise_to_power_limit_refuted : forall k h r rep h' r', l_data h = DLV r rep -> sized 3 r -> 1 < k ->
  raise_to_power k h = Ret h' -> l_data h' = DLV r' None ->
  forall s u, denote r [s; TAU_UPPER_LIMIT; u] -> exists t, TAU_UPPER_LIMIT < t /\ denote r' [s; t; k * u].
Proof.
  intros k h r rep h' r' D S K E D' s u H.
  destruct (raise_to_power_region k h r rep D S ltac:(lra)) as (h2 & r2 & E2 & D2 & _ & _ & _ & X).
  rewrite E2 in E. injection E as <-. rewrite D2 in D'. injection D' as <-.
  exists (k * TAU_UPPER_LIMIT). split; [unfold TAU_UPPER_LIMIT; lra|]. now apply X.
Qed.
Print Assumptions raise_to_power_limit_refuted.

(** Power 0 is refused. *)
Theorem raise_to_power_zero : forall k p, k == 0 -> good (body p) -> mrows (pmat (body p)) <> [] -> has_dim 3 p ->
  forall h rep, l_data h = DLV (RPoly p) rep -> raise_to_power k h = Raise ZeroDivisionError.
Proof.
  intros k p K (W & _) NE HD h rep D. unfold raise_to_power, region_of. rewrite D. cbn [bind rscale_all].
  unfold scale_all. unfold has_dim in HD.
  assert (Dm : negb (Z.eqb (Z.of_nat (List.length [1; k; k])) (dimension (body p))) = false).
  { unfold dimension. rewrite HD. reflexivity. }
  rewrite Dm.
  assert (Z0 : Qeqb k 0 = true) by (destruct (Qeqb_spec k 0); auto; contradiction).
  assert (R : forall b r rs, matrix_as_list (pmat (body p)) b = r :: rs -> mapM (scale_all_row [1; k; k]) (r :: rs) = Raise ZeroDivisionError).
  { intros b r rs Er. assert (L : List.length r = 4%nat) by (rewrite <- HD; apply (as_list_length _ b); [apply W|rewrite Er; now left]).
    destruct r as [|c0 [|c1 [|c2 [|c3 [|]]]]]; try discriminate. cbn [mapM scale_all_row div_all].
    replace (Qeqb 1 0) with false by reflexivity. rewrite Z0. reflexivity. }
  destruct (matrix_as_list (pmat (body p)) false) as [|i0 I0] eqn:EI.
  - destruct (matrix_as_list (pmat (body p)) true) as [|q0 Q0] eqn:EQ.
    + exfalso. apply NE. destruct (mrows (pmat (body p))) as [|[r b] rows] eqn:ER; auto.
      assert (H : In r (matrix_as_list (pmat (body p)) b)) by (apply as_list_In; rewrite ER; now left).
      destruct b; [rewrite EQ in H|rewrite EI in H]; destruct H.
    + cbn [bind]. rewrite (R true q0 Q0 EQ). reflexivity.
  - rewrite (R false i0 I0 EI). reflexivity.
Qed.
Print Assumptions raise_to_power_zero.

(** ** The facts assumed are consistent *)

Theorem widest_admissible : forall Z, admissible Z -> (forall s m, 1 <= s -> mu_le Z s m -> 0 <= m) -> lv_admissible (widest Z).
Proof.
  intros Z Ad M. constructor; cbn.
  - exact Ad.
  - intros s s' t t' r r' _ B C H. lra.
  - intros s s' t t' r r' A B C (H1 & H2 & H3). split; [lra|]. split.
    + intros v T Hv. assert (X : s <= t * v). { apply H2; [lra|]. revert Hv. apply (beta_upper Z Ad); [rewrite B; reflexivity|lra]. } rewrite <- A, <- B. exact X.
    + intros s0 m T S0 S1 Hm. rewrite <- A, <- B. apply H3; auto. lra.
  - intros s t r k K _ _ _ H. assert (0 < inject_Z k) by (change 0 with (inject_Z 0); rewrite <- Zlt_Qlt; lia). nra.
  - intros s t r _ _ _ (H & _). exact H.
  - intros s t r _ _ _ (H & _). exact H.
  - intros s t r v T Hv L (_ & H & _). specialize (H v T Hv). lra.
  - intros s t r s0 m T S0 S1 Hm L (_ & _ & H). specialize (H s0 m T S0 S1 Hm). lra.
  - exact M.
Qed.
Print Assumptions widest_admissible.

(** A fractional power below 1 is accepted but not true: with power 1/2 nothing
    is allowed beyond half the limit on tau. *)
Theorem raise_to_power_fraction_refuted : forall E, ext_ok E -> exists h r rep h' r' W, l_data h = DLV r rep /\ sized 3 r /\
  lv_admissible W /\ lv_estimate W r /\ raise_to_power (1#2) h = Ret h' /\ l_data h' = DLV r' None /\ ~ lv_estimate W r'.
Proof.
  intros E OK. destruct (convert_bounds_ok E OK [[0; 0; 1]] ltac:(discriminate) ltac:(repeat constructor)) as (ps & rep & Ec & _ & _ & S & X & _).
  set (r := RDisj (map (fun p => RPoly (plain p)) ps)) in *.
  set (h := LNode [] (DLV r (Some rep)) ref_trivial []).
  destruct (raise_to_power_region (1#2) h r (Some rep) eq_refl S ltac:(lra)) as (h' & r' & E' & D' & _ & _ & _ & X').
  exists h, r, (Some rep), h', r', (widest trivial_world). split; [reflexivity|]. split; [exact S|].
  split; [apply widest_admissible; [exact trivial_world_admissible|]; cbn; intros s m L (_ & _ & H); lra|].
  split.
  { intros s t u R L. apply X. exists s, t, u. split; [reflexivity|]. split; [exact R|]. left. unfold bound_at. cbn. cbn in L. lra. }
  split; [exact E'|]. split; [exact D'|]. intro T.
  assert (R : in_range 1 TAU_UPPER_LIMIT 0) by (unfold in_range; repeat split; apply Qleb_true; reflexivity).
  specialize (T 1 TAU_UPPER_LIMIT 0 R ltac:(cbn; apply Qleb_true; reflexivity)).
  assert (T' : denote r' [1; (1#2) * (2 * TAU_UPPER_LIMIT); (1#2) * 0]) by (revert T; apply denote3; [reflexivity|ring|ring]).
  apply X' in T'. apply X in T' as (s & t & u & Eq & (_ & _ & _ & B & _) & _). injection Eq as <- <- <-. apply Qleb_true in B. discriminate.
Qed.
Print Assumptions raise_to_power_fraction_refuted.

(** ** Examples *)

(** Huxley's estimate, literature.py 717-720, and its square at (3/4, 4, 1):
    LV(3/4, 2) <= 3/2 gives LV(3/4, 4) <= 3, and 4 - 6 * 3/4 + 4 = 7/2 directly. *)
Example ex_convert : exists h h' r r', classical_LV_estimate fm_ext [[2; -2; 0]; [4; -6; 1]] = Ret h /\ l_data h = DLV r (Some (s_of "ρ <= max(2 - 2σ, 4 - 6σ + τ)")) /\
  raise_to_power 2 h = Ret h' /\ l_data h' = DLV r' None /\
  rcontains r [3#4; 2; 3#2] = Ret true /\ rcontains r [3#4; 2; 8#5] = Ret false /\
  rcontains r' [3#4; 4; 3] = Ret true /\ rcontains r' [3#4; 4; 16#5] = Ret false /\ rcontains r [3#4; 4; 16#5] = Ret true.
Proof.
  do 4 eexists. split; [vm_compute; reflexivity|]. split; [vm_compute; reflexivity|]. split; [vm_compute; reflexivity|]. split; [vm_compute; reflexivity|].
  repeat split; vm_compute; reflexivity.
Qed.

Example ex_natural_power : natural_power 2.
Proof. exists 2%Z. split; [lia|reflexivity]. Qed.
