(** Property C40: the supremum of rho / tau as a function of sigma. *)
From Coq Require Import Reals Qreals.
From Verif Require Import Base LinAlg Model_Polytope Spec_Polytope Proof_Polytope FM_Ext Spec_Edges Proof_Edges Model_RationalFunction Spec_RationalFunction
  Proof_RationalFunction Proof_RFOptimal Prop_RationalFunction Prop_Roots Model_ZeroDensity Spec_ZeroDensity Proof_ZeroDensity.
From Coq Require Import Lra.
Open Scope list_scope.
Local Open Scope Q_scope.

(** Property C52: [get_edges] of a bounded polytope lists pairs of its points and
    every edge is among them. *)
Theorem polytope_edges : forall E adjacency, ext_ok E -> adjacency_ok E adjacency ->
  forall p, wf_mat (pmat p) -> bounded p -> vertices_in_order E p ->
  exists edges, get_edges E adjacency p = Ret edges /\
    (forall v w, In (v, w) edges -> member p v /\ member p w) /\
    (forall v w, is_edge (pmat p) v w -> exists v' w', In (v', w') edges /\ Forall2 Qeq v v' /\ Forall2 Qeq w w').
Proof. intros E adj OK AD p. now apply get_edges_ok. Qed.
Print Assumptions polytope_edges.

(** For bounded sets of points with tau > 0 and rho >= 0: the pieces tile the
    given range of sigma, and at every rational sigma the value is the largest
    rho / tau over the points with this sigma of the polytopes that go on to the
    right. *)
Theorem sup_rho_on_tau : forall E adjacency solve, ext_ok E -> adjacency_ok E adjacency -> solve_complete solve ->
  forall ps domain, (lo domain < hi domain)%R ->
  (forall p, In p ps -> value_polytope p /\ vertices_in_order E p) ->
  exists l, compute_sup_rho_on_tau E adjacency solve ps domain = Ret l /\
    (tiles l (lo domain) (hi domain) \/
     (l = [(RationalFunction [inject_Z (-1000000)] None, domain, (-1)%Z)] /\ forall p s, In p ps -> ~ reaches_past p s)) /\
    forall f i r s, In (f, i, r) l -> inside i (Q2R s) -> ~ has_pole f (Q2R s) /\ sup_value ps s (rfval f (Q2R s)).
Proof.
  intros E adj solve OK AD SC ps domain D H. unfold compute_sup_rho_on_tau.
  destruct (sup_functions_ok E OK adj AD ps H) as (fs & Ef & S & C). rewrite Ef. cbn [bind].
  assert (FE : forall x a b, (Q2R a <= Q2R x < Q2R b)%R -> a <= x /\ x < b) by (intros x a b [A B]; split; [now apply Rle_Qle|now apply Rlt_Qlt]).
  assert (UB : forall s v, (forall f i, In (f, i) fs -> inside i (Q2R s) -> (rfval f (Q2R s) <= v)%R) ->
     forall p x, In p ps -> reaches_past p s -> member p x -> nth 0 x 0 == s -> (Q2R (nth 2 x 0 / nth 1 x 0)%Q <= v)%R).
  { intros s v B p x Ip RP Mx X0. destruct (H p Ip) as [V _]. pose proof V as (_ & _ & _ & POS).
    assert (RP' : reaches_past p (nth 0 x 0)) by (destruct RP as (x' & z & A1 & A2 & A3 & A4); exists x', z; split; [exact A1|]; split; [exact A2|]; unfold point in *; split; Lqa.lra).
    destruct (C p x Ip RP' Mx) as (v' & w & If & Mv & Mw & NE & L1 & L2 & R). cbv zeta in R.
    assert (I : inside (real_interval (edge_ends v' w)) (Q2R s)).
    { unfold inside, real_interval. cbn [lo hi ilo ihi]. unfold point in *. split; [apply Qle_Rle|apply Qlt_Rlt]; Lqa.lra. }
    specialize (B _ _ If I).
    assert (My : member p (at_first v' w (nth 0 x 0))).
    { destruct (edge_ends_spec v' w NE) as [_ [[L Ee]|[L Ee]]]; rewrite Ee in L1, L2; cbn [fst snd] in L1, L2; assert (LL : length v' = length w) by (destruct Mv, Mw; lia).
      - apply (between_member (pmat p) v' w); auto. apply at_first_between; auto. Lqa.lra.
      - apply (between_member (pmat p) w v'); auto. pose proof (at_first_between w v' (nth 0 x 0) (eq_sym LL) L L1 ltac:(Lqa.lra)) as (t & T0 & T1 & F).
        exists t. split; [exact T0|]. split; [exact T1|]. apply peq_F2; [unfold at_first; rewrite !mix_length; auto|]. intro k. rewrite <- (F2_nth _ _ F k). unfold at_first. rewrite !nth_mix. field. split; intro; Lqa.lra. }
    destruct (POS _ My) as [Ty _]. destruct (POS x Mx) as [Tx _].
    assert (Ty' : 0 < nth 1 (at_first v' w s) 0) by (unfold at_first in *; rewrite nth_mix in *; unfold point in *; rewrite <- X0; exact Ty).
    rewrite edge_fun_val in B by (auto; intro; Lqa.lra). eapply Rle_trans; [|exact B]. apply Qle_Rle.
    assert (G : forall i, nth i (at_first v' w s) 0 == nth i (at_first v' w (nth 0 x 0)) 0) by (intro i; unfold at_first; rewrite !nth_mix; unfold point in *; rewrite X0; reflexivity).
    rewrite !G. apply Qle_shift_div_l; [exact Ty|]. setoid_replace (nth 2 x 0 / nth 1 x 0 * nth 1 (at_first v' w (nth 0 x 0)) 0) with ((nth 2 x 0 * nth 1 (at_first v' w (nth 0 x 0)) 0) / nth 1 x 0) by (field; intro; Lqa.lra).
    apply Qle_shift_div_r; auto. }
  destruct fs as [|f0 fs0] eqn:Efs.
  - eexists. split; [reflexivity|].
    assert (NR : forall p s, In p ps -> ~ reaches_past p s).
    { intros p s Ip (x & z & Mx & Mz & X0 & Z). destruct (C p x Ip) as (v & w & [] & _); auto. exists x, z. split; [exact Mx|]. split; [exact Mz|]. unfold point in *. split; [reflexivity|Lqa.lra]. }
    split; [right; split; [reflexivity|exact NR]|]. intros f i r s [Eq|[]] I. injection Eq as <- <- <-. split; [apply fdef_pole|]. split.
    + right. split; [apply (fdef_val (inject_Z (-1000000)))|]. auto.
    + intros p x Ip RP. exfalso. exact (NR p s Ip RP).
  - rewrite <- Efs in *. assert (Ne : fs <> []) by (rewrite Efs; discriminate). clear Efs f0 fs0.
    assert (PF : forall f i x, In (f, i) fs -> (lo i <= x <= hi i)%R -> ~ has_pole f x).
    { intros f i x I B. destruct (S f i I) as (p & v & w & Ip & Mv & Mw & NE & -> & ->). destruct (H p Ip) as [(_ & _ & _ & POS) _].
      apply edge_fun_pole; auto; apply POS; auto. }
    destruct (rational_max_everywhere solve SC fs domain true D Ne) as (l & El & Tl & Pl).
    + intros f i x I _. split; [|discriminate]. intros B. apply (PF f i); auto. lra.
    + intros f i I. destruct (S f i I) as (p & v & w & _ & _ & _ & _ & _ & ->). split; reflexivity.
    + intros f i x I _ B. apply (PF f i); auto. lra.
    + exists l. split; [exact El|]. split; [left; exact Tl|]. intros f i r s I Is. destruct (Pl f i r I) as [_ O]. destruct (O (Q2R s) Is) as [NP [O1 [O2 O3]]].
      split; [exact NP|]. split; [|apply UB; exact O3].
      destruct O1 as [O1|(g & j & Ig & Ij & O1)].
      * destruct (classic_inside domain (Q2R s)) as [_|_].
        -- right. split; [exact O1|]. intros p Ip RP. pose proof RP as (x & z & Mx & Mz & X0 & Z). pose proof (UB s _ O3 p x Ip RP Mx X0) as K.
           destruct (H p Ip) as [(_ & _ & _ & POS) _]. destruct (POS x Mx) as [T R]. rewrite O1 in K. apply Rle_Qle in K.
           assert (P : 0 <= nth 2 x 0 / nth 1 x 0) by (apply Qle_shift_div_l; [exact T|Lqa.lra]). apply Qle_not_lt in K. apply K. eapply Qlt_le_trans; [|exact P]. reflexivity.
        -- right. split; [exact O1|]. intros p Ip RP. pose proof RP as (x & z & Mx & Mz & X0 & Z). pose proof (UB s _ O3 p x Ip RP Mx X0) as K.
           destruct (H p Ip) as [(_ & _ & _ & POS) _]. destruct (POS x Mx) as [T R]. rewrite O1 in K. apply Rle_Qle in K.
           assert (P : 0 <= nth 2 x 0 / nth 1 x 0) by (apply Qle_shift_div_l; [exact T|Lqa.lra]). apply Qle_not_lt in K. apply K. eapply Qlt_le_trans; [|exact P]. reflexivity.
      * left. destruct (S g j Ig) as (p & v & w & Ip & Mv & Mw & NE & -> & ->). destruct (H p Ip) as [V _]. pose proof V as (_ & _ & _ & POS).
        unfold inside, real_interval in Ij. cbn [lo hi ilo ihi] in Ij. apply FE in Ij. destruct Ij as [J1 J2].
        assert (My : member p (at_first v w s) /\ nth 0 (at_first v w s) 0 == s /\ reaches_past p s).
        { destruct (edge_ends_spec v w NE) as [_ [[L Ee]|[L Ee]]]; rewrite Ee in J1, J2; cbn [fst snd] in J1, J2; assert (LL : length v = length w) by (destruct Mv, Mw; lia).
          - assert (M : member p (at_first v w s)) by (apply (between_member (pmat p) v w); auto; apply at_first_between; auto; Lqa.lra).
            assert (N0 : nth 0 (at_first v w s) 0 == s) by now apply at_first_nth. split; [exact M|]. split; [exact N0|]. exists (at_first v w s), w. auto.
          - assert (N0 : nth 0 (at_first v w s) 0 == s) by (unfold at_first; rewrite nth_mix; field; intro; Lqa.lra).
            assert (M : member p (at_first v w s)).
            { apply (between_member (pmat p) w v); auto. pose proof (at_first_between w v s (eq_sym LL) L J1 ltac:(Lqa.lra)) as (t & T0 & T1 & F).
              exists t. split; [exact T0|]. split; [exact T1|]. apply peq_F2; [unfold at_first; rewrite !mix_length; auto|]. intro k. rewrite <- (F2_nth _ _ F k). unfold at_first. rewrite !nth_mix. field. split; intro; Lqa.lra. }
            split; [exact M|]. split; [exact N0|]. exists (at_first v w s), v. auto. }
        destruct My as (My & N0 & RP). exists p, (at_first v w s). split; [exact Ip|]. split; [exact RP|]. split; [exact My|]. split; [exact N0|].
        rewrite O1. apply edge_fun_val; [exact NE|]. destruct (POS _ My). intro; Lqa.lra.
Qed.
Print Assumptions sup_rho_on_tau.

(** The box 1/2 <= sigma <= 3/4, 1 <= tau <= 2, 0 <= rho <= 1 meets the
    hypotheses, with the adjacency list that joins all vertices. *)
Definition ex_box : polytope := mkPoly (mkMat [
  ([-(1#2); 1; 0; 0], false); ([3#4; -(1); 0; 0], false);
  ([-(1); 0; 1; 0], false); ([2; 0; -(1); 0], false);
  ([0; 0; 0; 1], false); ([1; 0; 0; -(1)], false)] 4) false None.
Lemma ex_box_member : forall x, member ex_box x <-> exists s t r, x = [s; t; r] /\ (1#2) <= s <= 3#4 /\ 1 <= t <= 2 /\ 0 <= r <= 1.
Proof.
  intro x. split.
  - intros [L F]. destruct x as [|s [|t [|r [|? ?]]]]; try discriminate. exists s, t, r. split; auto.
    unfold Spec_Polytope.holds in F. cbn in F. rewrite !Forall_cons_iff in F. cbn in F. decompose [and] F. unfold rowval in *. cbn in *. repeat split; Lqa.lra.
  - intros (s & t & r & -> & S & T & R). split; [reflexivity|]. repeat constructor; unfold Spec_Polytope.holds, rowval; cbn; Lqa.lra.
Qed.
Lemma ex_box_ok : value_polytope ex_box /\ vertices_in_order fm_ext ex_box.
Proof.
  split; [|discriminate]. split; [split; [cbn; lia|repeat constructor]|]. split; [reflexivity|]. split.
  - exists 3. intros x i M. pose proof (proj1 (ex_box_member x) M) as (s & t & r & -> & S & T & R). apply Qabs_Qle_condition. destruct i as [|[|[|[|i]]]]; cbn; try (destruct i; cbn); split; Lqa.lra.
  - intros x M. apply ex_box_member in M. destruct M as (s & t & r & -> & S & T & R). cbn. split; Lqa.lra.
Qed.
Lemma ex_box_past : forall s, reaches_past ex_box s <-> (1#2) <= s /\ s < 3#4.
Proof.
  intro s. split.
  - intros (x & z & Mx & Mz & X & Z). apply ex_box_member in Mx, Mz. destruct Mx as (s1 & t1 & r1 & -> & S1 & _), Mz as (s2 & t2 & r2 & -> & S2 & _). cbn in *. split; Lqa.lra.
  - intros [A B]. exists [s; 1; 0], [3#4; 1; 0]. split; [apply ex_box_member; exists s, 1, 0; repeat split; Lqa.lra|].
    split; [apply ex_box_member; exists (3#4), 1, 0; repeat split; Lqa.lra|]. cbn. split; [reflexivity|exact B].
Qed.
Lemma tiles_cover : forall l a b x, tiles l a b -> (a <= x < b)%R -> exists f i r, In (f, i, r) l /\ inside i x.
Proof.
  induction l as [|[[f i] r] l IH]; intros a b x T B; cbn in T; [lra|]. destruct T as (L & LH & I1 & I2 & T).
  destruct (Rlt_or_le x (hi i)) as [K|K].
  - exists f, i, r. split; [now left|]. unfold inside. rewrite I1, I2. split; lra.
  - destruct (IH _ _ x T ltac:(lra)) as (f' & i' & r' & I & J). exists f', i', r'. split; [now right|exact J].
Qed.

(** At sigma = 5/8 the result on [1/2, 1) is 1, taken at (5/8, 1, 1). *)
Theorem sup_rho_on_tau_case : exists E adjacency solve, ext_ok E /\ adjacency_ok E adjacency /\ solve_complete solve /\
  exists l, compute_sup_rho_on_tau E adjacency solve [ex_box] (mkV (Q2R (1#2)) (Q2R 1) true false) = Ret l /\
    exists f i r, In (f, i, r) l /\ inside i (Q2R (5#8)) /\ rfval f (Q2R (5#8)) = 1%R.
Proof.
  destruct solver_exists as [solve SC]. exists fm_ext, (fun m => map (fun _ => seq 0 (length (generators fm_ext m))) (generators fm_ext m)), solve.
  pose proof (all_pairs_adjacency fm_ext fm_ext_ok) as AD. split; [exact fm_ext_ok|]. split; [exact AD|]. split; [exact SC|].
  destruct (sup_rho_on_tau fm_ext _ solve fm_ext_ok AD SC [ex_box] (mkV (Q2R (1#2)) (Q2R 1) true false)) as (l & El & T & V).
  { apply Qlt_Rlt. reflexivity. }
  { intros p [<-|[]]. exact ex_box_ok. }
  exists l. split; [exact El|]. destruct T as [T|[_ NR]]; [|exfalso; apply (NR ex_box (5#8)); [now left|apply ex_box_past; split; [discriminate|reflexivity]]].
  destruct (tiles_cover _ _ _ (Q2R (5#8)) T) as (f & i & r & I & J).
  { cbn [lo hi]. split; [apply Qle_Rle; discriminate|apply Qlt_Rlt; reflexivity]. }
  exists f, i, r. split; [exact I|]. split; [exact J|]. destruct (V f i r (5#8) I J) as [_ [W U]].
  apply Rle_antisym.
  - destruct W as [(p & x & [<-|[]] & _ & M & _ & ->)|[_ N]].
    + apply ex_box_member in M. destruct M as (s & t & q & -> & _ & [T1 T2] & [R1 R2]). cbn [nth]. rewrite <- Q2R_1. apply Qle_Rle. apply Qle_shift_div_r; Lqa.lra.
    + exfalso. apply (N ex_box); [now left|apply ex_box_past; split; [discriminate|reflexivity]].
  - rewrite <- Q2R_1. apply (U ex_box [5#8; 1; 1]); [now left|apply ex_box_past; split; [discriminate|reflexivity]|apply ex_box_member; exists (5#8), 1, 1; repeat split; discriminate|reflexivity].
Qed.
Print Assumptions sup_rho_on_tau_case.

(** The supremum over the whole fibre is not what is returned at the last sigma of
    a polytope: there the box has points with rho / tau = 1, and the result is the
    default. *)
Theorem sup_rho_on_tau_right_end_refuted : forall solve, solve_complete solve ->
  exists E adjacency, ext_ok E /\ adjacency_ok E adjacency /\
  exists l, compute_sup_rho_on_tau E adjacency solve [ex_box] (mkV (Q2R (1#2)) (Q2R 1) true false) = Ret l /\
    member ex_box [3#4; 1; 1] /\
    exists f i r, In (f, i, r) l /\ inside i (Q2R (3#4)) /\ rfval f (Q2R (3#4)) = Q2R (inject_Z (-1000000)).
Proof.
  intros solve SC. exists fm_ext, (fun m => map (fun _ => seq 0 (length (generators fm_ext m))) (generators fm_ext m)).
  pose proof (all_pairs_adjacency fm_ext fm_ext_ok) as AD. split; [exact fm_ext_ok|]. split; [exact AD|].
  destruct (sup_rho_on_tau fm_ext _ solve fm_ext_ok AD SC [ex_box] (mkV (Q2R (1#2)) (Q2R 1) true false)) as (l & El & T & V).
  { apply Qlt_Rlt. reflexivity. }
  { intros p [<-|[]]. exact ex_box_ok. }
  exists l. split; [exact El|]. split; [apply ex_box_member; exists (3#4), 1, 1; repeat split; discriminate|].
  destruct T as [T|[_ NR]]; [|exfalso; apply (NR ex_box (5#8)); [now left|apply ex_box_past; split; [discriminate|reflexivity]]].
  destruct (tiles_cover _ _ _ (Q2R (3#4)) T) as (f & i & r & I & J).
  { cbn [lo hi]. split; [apply Qle_Rle; discriminate|apply Qlt_Rlt; reflexivity]. }
  exists f, i, r. split; [exact I|]. split; [exact J|]. destruct (V f i r (3#4) I J) as [_ [W _]].
  destruct W as [(p & x & [<-|[]] & RP & _)|[-> _]]; [|reflexivity]. apply ex_box_past in RP. destruct RP as [_ RP]. discriminate RP.
Qed.
Print Assumptions sup_rho_on_tau_right_end_refuted.

(** An edge of the box. *)
Example polytope_edges_case : is_edge (pmat ex_box) [1#2; 1; 0] [3#4; 1; 0].
Proof.
  assert (BE : forall a b c, (1#2) <= a -> a <= 3#4 -> b == 1 -> c == 0 -> between [1#2; 1; 0] [3#4; 1; 0] [a; b; c]).
  { intros a b c A B Hb Hc. exists (4 * (a - (1#2))). split; [Lqa.lra|]. split; [Lqa.lra|]. apply peq_F2; [reflexivity|]. intros [|[|[|i]]]; rewrite nth_mix; cbn; try (destruct i; cbn); Lqa.lra. }
  split; [apply ex_box_member; exists (1#2), 1, 0; repeat split; discriminate|]. split; [apply ex_box_member; exists (3#4), 1, 0; repeat split; discriminate|].
  split; [intro F; inversion F; discriminate|]. intros x y t Mx My T0 T1 (u & U0 & U1 & F).
  pose proof (F2_nth _ _ F 1) as F1. pose proof (F2_nth _ _ F 2) as F2. rewrite !nth_mix in F1, F2.
  apply ex_box_member in Mx, My. destruct Mx as (s1 & t1 & r1 & -> & S1 & A1 & B1), My as (s2 & t2 & r2 & -> & S2 & A2 & B2). cbn [nth] in F1, F2.
  assert (G1 : t1 == 1 /\ t2 == 1 /\ r1 == 0 /\ r2 == 0).
  { assert (P : forall u v, 0 <= u -> 0 <= v -> (1 - t) * u + t * v == 0 -> u == 0 /\ v == 0).
    { intros a b A B H. assert (0 <= (1 - t) * a) by (apply Qmult_le_0_compat; Lqa.lra). assert (0 <= t * b) by (apply Qmult_le_0_compat; Lqa.lra).
      assert (X : (1 - t) * a == 0) by Lqa.lra. assert (Y : t * b == 0) by Lqa.lra. apply Qmult_integral in X, Y. destruct X as [X|X], Y as [Y|Y]; split; Lqa.lra. }
    destruct (P (t1 - 1) (t2 - 1)) as [P1 P2]; [Lqa.lra|Lqa.lra|Lqa.lra|]. destruct (P r1 r2) as [P3 P4]; [Lqa.lra|Lqa.lra|Lqa.lra|]. repeat split; Lqa.lra. }
  destruct G1 as (G1 & G2 & G3 & G4). split; apply BE; try assumption; apply S1 || apply S2.
Qed.
