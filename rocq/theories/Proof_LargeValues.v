(** Proofs about large value estimates. *)
From Verif Require Import Base Model_Text Model_Reference Spec_Reference Proof_Reference LinAlg Model_Polytope Spec_Polytope Proof_Polytope
  Proof_PolytopeMaps Model_Region Spec_Region Proof_Region Model_ExponentPair Spec_ExponentPair Model_Format
  Model_LargeValues Spec_LargeValues.
Open Scope list_scope.

Lemma derived_l_inv : forall n d deps h, derived_l n d deps = Ret h ->
  l_data h = d /\ l_deps h = deps /\ exists y, max_year (map l_ref deps) = Ret y /\ l_ref h = ref_derived y.
Proof.
  intros n d deps h H. unfold derived_l in H. destruct (max_year (map l_ref deps)) as [y|e] eqn:E; [|discriminate].
  cbn in H. injection H as <-. cbn. eauto.
Qed.

Lemma max_year_one : forall r, max_year [r] = Ret (r_year r).
Proof.
  intro r. unfold max_year. cbn [existsb map]. destruct (val_eqb (r_year r) unknown_date) eqn:E.
  - cbn. f_equal. destruct (r_year r) as [n| |s]; try discriminate. cbn in E. apply str_eqb_true in E. now subst.
  - reflexivity.
Qed.

Lemma derived_l_one : forall n d h, derived_l n d [h] = Ret (LNode n d (ref_derived (r_year (l_ref h))) [h]).
Proof. intros. unfold derived_l. cbn [map]. rewrite max_year_one. reflexivity. Qed.

Lemma rowval4 : forall a b c d s t u, rowval [a; b; c; d] [s; t; u] == a + b * s + c * t + d * u.
Proof. intros. unfold rowval. cbn. lra. Qed.

Lemma len3 : forall x : list Q, List.length x = 3%nat -> exists s t u, x = [s; t; u].
Proof. intros [|s [|t [|u [|]]]] H; try discriminate. eauto. Qed.

(** A polytope that is not the whole space has rows. *)
Lemma has_rows : forall p d, has_dim d (plain p) -> (exists x, List.length x = d /\ ~ member p x) -> mrows (pmat p) <> [].
Proof.
  intros p d D (x & L & N) E. apply N. unfold has_dim in D; cbn in D. split; [lia|]. rewrite E. constructor.
Qed.

Lemma fmt_total : forall cs vars f, (List.length cs <= List.length vars)%nat -> exists s, fmt_loop f cs vars = Ret s.
Proof.
  induction cs as [|c cs IH]; intros vars f L; cbn; [eauto|]. destruct vars as [|v vars]; [cbn in L; lia|].
  destruct (Qeqb c 0); apply IH; cbn in L; lia.
Qed.

Lemma lv_repr_total : forall bounds, bounds <> [] -> Forall (fun b => List.length b = 3%nat) bounds ->
  exists s, lv_repr bounds = Ret s.
Proof.
  intros bounds NE F.
  assert (X : forall b, List.length b = 3%nat -> exists s, fmt b lv_vars = Ret s).
  { intros b L. apply len3 in L as (x & y & z & ->). unfold fmt. apply fmt_total. cbn. lia. }
  destruct bounds as [|b [|b2 bs]]; [congruence| |].
  - inversion F as [|? ? L _]; subst. destruct (X b L) as (s & Es). cbn. rewrite Es. cbn. eauto.
  - assert (M : exists ss, mapM (fun b => fmt b lv_vars) (b :: b2 :: bs) = Ret ss).
    { clear NE. induction F as [|a l La F IH]; [cbn; eauto|]. destruct (X a La) as (s & Es). destruct IH as (ss & Ess).
      cbn [mapM]. rewrite Es. cbn [bind]. rewrite Ess. cbn. eauto. }
    destruct M as (ss & Ess). unfold lv_repr. rewrite Ess. cbn. eauto.
Qed.

Lemma box_iff : forall s t u, Forall (fun r => 0 <= rowval r [s; t; u]) lv_box <-> in_range s t u.
Proof.
  intros s t u. unfold lv_box, in_range. rewrite !Forall_cons_iff, !rowval4.
  split; [intros (A & B & C & D & F & G & _)|intros (A & B & C & D & F & G)]; repeat split; try lra; constructor.
Qed.

Lemma rscale_sized : forall d fs r, List.length fs = d -> Forall (fun f => ~ f == 0) fs -> sized d r ->
  exists q, rscale_all fs r = Ret q /\ sized d q /\
    forall y, List.length y = d -> (denote q y <-> exists x, (List.length x = d /\ Forall2 Qeq y (stretch_all fs x)) /\ denote r x).
Proof.
  intros d fs r Lf NZ HL. rewrite rscale_all_rmap.
  destruct (rmap_ok (fun p => scale_all p fs)
    (fun p => good (body p) /\ mrows (pmat (body p)) <> [] /\ has_dim d p)
    (fun p => good (body p) /\ mrows (pmat (body p)) <> [] /\ has_dim d p)
    (fun y => List.length y = d) (fun y x => List.length x = d /\ Forall2 Qeq y (stretch_all fs x))) with (r := r)
    as (q & Eq & Lq & Hq); auto.
  - intros p (G & NE & HD). unfold has_dim in HD.
    destruct (scale_all_ok (body p) fs G ltac:(lia) NZ NE) as (q & Eq & Gq & Nq & Hq).
    exists q. split; [exact Eq|]. split.
    + cbn [body plain]. split; [auto|]. split; [|unfold has_dim; cbn [body plain]; lia].
      intro C. apply NE. unfold scale_all in Eq.
      destruct (negb _); [discriminate|].
      assert (L : forall m b, mrows m = [] -> matrix_as_list m b = []) by (intros m b Em; unfold matrix_as_list; now rewrite Em).
      destruct (matrix_as_list (pmat (body p)) false) as [|i0 I0] eqn:EI.
      * cbn [bind] in Eq. destruct (matrix_as_list (pmat (body p)) true) as [|q0 Q0] eqn:EQ; [discriminate|].
        destruct (mapM _ _) as [rows|] eqn:EM; [|discriminate]. cbn [bind] in Eq. unfold matrix_of in Eq.
        destruct (forallb _ rows); [|discriminate]. cbn in Eq. injection Eq as <-. cbn in C.
        cbn [mapM] in EM. destruct (scale_all_row _ q0); [|discriminate]. cbn [bind] in EM. destruct (mapM _ Q0); [|discriminate].
        injection EM as <-. discriminate.
      * destruct (mapM _ (i0 :: I0)) as [rows|] eqn:EM; [|discriminate]. cbn [bind] in Eq. unfold matrix_of in Eq at 1.
        destruct (forallb _ rows); [|discriminate]. cbn [bind] in Eq.
        cbn [mapM] in EM. destruct (scale_all_row _ i0); [|discriminate]. cbn [bind] in EM. destruct (mapM _ I0); [|discriminate].
        injection EM as <-. exfalso.
        destruct (matrix_as_list (pmat (body p)) true) as [|q0 Q0] eqn:EQ.
        -- cbn in Eq. injection Eq as <-. discriminate.
        -- destruct (mapM _ (q0 :: Q0)) as [rows|]; [|discriminate]. cbn [bind] in Eq. unfold mat_extend in Eq.
           destruct (forallb _ rows); [|discriminate]. cbn in Eq. injection Eq as <-. discriminate.
    + intros y _. rewrite Hq. split.
      * intros (x & Mx & A). exists x. split; [|exact Mx]. split; [destruct Mx; lia|auto].
      * intros (x & (_ & A) & Mx). exists x. auto.
  - intros y Ly. exists (stretch_all (map Qinv fs) y). split; [rewrite stretch_all_length; [lia|rewrite map_length; lia]|].
    apply stretch_all_inverse; auto. lia.
  - intros y x x' _ (L1 & B1) (L2 & B2). split; [lia|]. apply (stretch_all_unique fs); auto; [lia|lia|].
    exact (Forall2_Qeq_common _ _ _ B1 B2).
  - exists q. auto.
Qed.

Lemma scale3_iff : forall k r, sized 3 r -> ~ k == 0 ->
  exists q, rscale_all [1; k; k] r = Ret q /\ sized 3 q /\
    forall s t u, denote q [s; t; u] <-> denote r [s; t / k; u / k].
Proof.
  intros k r HL K.
  assert (NZ : Forall (fun f => ~ f == 0) [1; k; k]) by (repeat constructor; auto; lra).
  destruct (rscale_sized 3 [1; k; k] r eq_refl NZ HL) as (q & Eq & Lq & Hq).
  exists q. split; [exact Eq|]. split; [exact Lq|]. intros s t u. rewrite Hq by reflexivity. split.
    + intros (x & (L & A) & D). apply len3 in L as (a & b & c & ->). cbn in A.
      inversion A as [|? ? ? ? A1 A']; subst. inversion A' as [|? ? ? ? A2 A'']; subst. inversion A'' as [|? ? ? ? A3 _]; subst.
      revert D. apply denote_peq; [reflexivity|]. apply peq_Forall2; [reflexivity|].
      constructor; [rewrite A1; ring|]. constructor; [rewrite A2; field; auto|]. constructor; [rewrite A3; field; auto|constructor].
    + intro D. exists [s; t / k; u / k]. split; [|exact D]. split; [reflexivity|]. cbn.
      constructor; [ring|]. constructor; [field; auto|]. constructor; [field; auto|constructor].
Qed.

Lemma denote3 : forall r s t u s' t' u', s == s' -> t == t' -> u == u' -> denote r [s; t; u] -> denote r [s'; t'; u'].
Proof.
  intros r s t u s' t' u' A B C. apply denote_peq; [reflexivity|]. apply peq_Forall2; [reflexivity|].
  constructor; [lra|]. constructor; [lra|]. constructor; [lra|constructor].
Qed.

Section Ext.
Context (E : ext) (OK : ext_ok E).

Lemma convert_bounds_ok : forall bounds, bounds <> [] -> Forall (fun b => List.length b = 3%nat) bounds ->
  exists ps s, convert_bounds E bounds = Ret (DLV (RDisj (map (fun p => RPoly (plain p)) ps)) (Some s)) /\
    lv_repr bounds = Ret s /\ List.length ps = List.length bounds /\ sized 3 (RDisj (map (fun p => RPoly (plain p)) ps)) /\
    (forall x, denote (RDisj (map (fun p => RPoly (plain p)) ps)) x <->
       exists s t u, x = [s; t; u] /\ in_range s t u /\ Exists (fun b => u <= bound_at b s t) bounds) /\
    ForallOrdPairs (fun p q => forall x, ~ (interior p x /\ interior q x)) ps.
Proof.
  intros bounds NE F.
  assert (FH : Forall (fun r => List.length r = 4%nat /\ ~ zero_row r) (map (fun b => b ++ [-1]) bounds)).
  { apply Forall_map. eapply Forall_impl; [|exact F]. cbv beta. intros b L. apply len3 in L as (x & y & z & ->). split; [reflexivity|].
    intro Z. unfold zero_row in Z. rewrite Forall_forall in Z. specialize (Z (-1) ltac:(cbn; auto)). lra. }
  assert (LB : Forall (fun r => List.length r = 4%nat) lv_box) by (repeat constructor).
  assert (NZ : exists r, In r lv_box /\ ~ zero_row r).
  { exists [1; -1; 0; 0]. split; [right; left; reflexivity|]. intro Z. inversion Z; lra. }
  destruct (halfplane_polys_ok E OK 4 lv_box ltac:(lia) LB NZ _ [] FH ltac:(constructor)) as (ps & Eps & F1 & F2 & _ & F4).
  destruct (lv_repr_total bounds NE F) as (s & Es).
  exists ps, s. unfold convert_bounds, from_union_of_halfplanes. rewrite Eps. cbn [bind]. rewrite Es. cbn [bind].
  split; [reflexivity|]. split; [reflexivity|].
  assert (IU : forall x, denote (RDisj (map (fun p => RPoly (plain p)) ps)) x <-> in_union ps x).
  { intro x. cbn [denote]. rewrite anyP_iff. unfold in_union. split.
    - intros (a & Ha & D). apply in_map_iff in Ha as (p & <- & Hp). exists p. auto.
    - intros (p & Hp & M). eexists. split; [apply in_map; exact Hp|exact M]. }
  assert (LP : forall hps neg qs, halfplane_polys E lv_box neg hps = Ret qs -> List.length qs = List.length hps).
  { clear. induction hps as [|h hps IH]; cbn [halfplane_polys]; intros neg qs H; [injection H as <-; reflexivity|].
    destruct (Polytope E _ false true); [|discriminate]. cbn [bind] in H.
    destruct (halfplane_polys E lv_box (neg ++ [vopp h]) hps) as [l|] eqn:El; [|discriminate]. injection H as <-. cbn. f_equal. eauto. }
  split; [apply LP in Eps; now rewrite !map_length in Eps|].
  assert (X : forall x, denote (RDisj (map (fun p => RPoly (plain p)) ps)) x <->
       exists s t u, x = [s; t; u] /\ in_range s t u /\ Exists (fun b => u <= bound_at b s t) bounds).
  { intro x. rewrite IU, F2.
    assert (Y : forall s t u, Exists (fun h => 0 <= rowval h [s; t; u]) (map (fun b => b ++ [-1]) bounds) <-> Exists (fun b => u <= bound_at b s t) bounds).
    { intros s0 t u. rewrite Exists_exists. rewrite Exists_exists. rewrite Forall_forall in F. split.
      - intros (h & Hh & Vh). apply in_map_iff in Hh as (b & <- & Hb). exists b. split; [auto|].
        destruct (len3 b (F b Hb)) as (c0 & c1 & c2 & ->). cbn [app] in Vh. rewrite rowval4 in Vh. unfold bound_at. cbn [nth]. lra.
      - intros (b & Hb & V). exists (b ++ [-1]). split; [apply in_map_iff; eauto|].
        destruct (len3 b (F b Hb)) as (c0 & c1 & c2 & ->). cbn [app]. rewrite rowval4. unfold bound_at in V. cbn [nth] in V. lra. }
    split.
    - intros (L & B & _ & X). destruct (len3 x ltac:(lia)) as (s0 & t & u & ->). exists s0, t, u. split; [reflexivity|].
      rewrite <- box_iff, <- Y. auto.
    - intros (s0 & t & u & -> & B & X). rewrite box_iff, Y. split; [reflexivity|]. split; [exact B|]. split; [constructor|exact X]. }
  split; [|split; [exact X|exact F4]].
  cbn [sized leaves]. apply allP_iff. intros a Ha. apply in_map_iff in Ha as (p & <- & Hp). cbn [leaves].
  rewrite Forall_forall in F1. destruct (F1 p Hp) as [G N]. split; [exact G|].
  assert (D : has_dim 3 (plain p)) by exact N. split; [|exact D].
  apply (has_rows p 3 D). exists [2; 0; 0]. split; [reflexivity|]. intro M.
  assert (U : denote (RDisj (map (fun p => RPoly (plain p)) ps)) [2; 0; 0]) by (apply IU; exists p; auto).
  apply X in U as (s0 & t & u & E0 & B & _). injection E0 as <- <- <-. unfold in_range in B. lra.
Qed.
End Ext.
