(** Property C41: the best zero density estimate and the merging of pieces. *)
From Coq Require Import Reals Qreals.
From Verif Require Import Base Model_Text Model_Reference Model_Interval Model_Affine LinAlg Model_Polytope Spec_Polytope Model_Region Spec_Region
  Model_ExponentPair Spec_ExponentPair Model_LargeValues Spec_LargeValues Model_AdditiveEnergy Spec_AdditiveEnergy
  Model_RationalFunction Spec_RationalFunction Proof_RationalFunction Proof_RFOptimal Prop_RationalFunction Prop_Roots
  Spec_BoundMu Prop_BoundMu Proof_AdditiveEnergy Prop_AdditiveEnergy Model_DensityEstimate Spec_DensityEstimate.
From Coq Require Import Lra.
Import Model_RationalFunction.
Open Scope list_scope.
Local Open Scope R_scope.

(** ** Merging of pieces *)
Definition reduced (f : rfun) : Prop := forall x, has_pole f x -> reval (num f) x <> 0.
Lemma eqb_pole : forall f g x, reduced f -> reduced g -> rf_eqb f g = true -> (has_pole f x <-> has_pole g x).
Proof.
  intros f g x Rf Rg E. pose proof (expr_zero_R _ x E) as K. cbn [reval] in K. unfold has_pole. split; intro P; rewrite P in K.
  - specialize (Rf x P). assert (M : reval (num f) x * reval (den g) x = 0) by lra. apply Rmult_integral in M. tauto.
  - specialize (Rg x P). assert (M : reval (den f) x * reval (num g) x = 0) by lra. apply Rmult_integral in M. tauto.
Qed.

Lemma grow_pair_ok : forall l f a b, a <= b -> reduced f -> plain_pieces l ->
  exists out, grow_pair f a b l = Ret out /\
    (forall x v, piecewise out x v <-> piecewise ((f, mkV a b true false) :: l) x v) /\
    (exists i out', out = (f, i) :: out' /\ lo i = a) /\ no_merge out /\ plain_pieces out /\ (List.length out <= S (List.length l))%nat /\
    forall g j, In (g, j) out -> g = f \/ exists j', In (g, j') l.
Proof.
  assert (MK : forall a b, a <= b -> mk_interval R Rltb a b = Ret (mkV a b true false)).
  { intros a b H. unfold mk_interval. assert (E : Rltb b a = false) by (apply Rltb_false; lra). now rewrite E. }
  induction l as [|[g j] l IH]; intros f a b AB Rf Pl; cbn [grow_pair].
  - rewrite MK by exact AB. cbn [bind]. eexists. split; [reflexivity|]. split; [tauto|]. split; [eauto|]. split; [exact I|].
    split; [|split; [cbn; lia|]]; intros g j [E|[]]; injection E as <- <-; [cbn; repeat split; auto|now left].
  - destruct (Pl g j (or_introl eq_refl)) as (J1 & J2 & J3 & Rg). assert (Pl' : plain_pieces l) by (intros u v H; apply Pl; now right).
    destruct (rf_eqb f g && Reqb b (lo j)) eqn:C.
    + apply andb_true_iff in C. destruct C as [C1 C2]. unfold Reqb in C2. destruct (Req_EM_T b (lo j)) as [C3|]; [|discriminate]. clear C2.
      destruct (IH f a (hi j) ltac:(lra) Rf Pl') as (out & Eo & Sem & Hd & NM & PO & Le & Src). exists out. split; [exact Eo|]. split.
      * intros x v. rewrite Sem. split; intros (h & i & [E|Hi] & Ii & Np & ->).
        -- injection E as <- <-. unfold inside in Ii. cbn [lo hi ilo ihi] in Ii. destruct (Rlt_or_le x b) as [K|K].
           ++ exists f, (mkV a b true false). split; [now left|]. split; [unfold inside; cbn; lra|]. auto.
           ++ exists g, j. split; [right; now left|]. split; [unfold inside; rewrite J1, J2; lra|].
              assert (Ng : ~ has_pole g x) by (intro P; apply Np; apply (eqb_pole f g x Rf Rg C1); exact P). split; [exact Ng|]. now apply rf_eqb_R.
        -- exists h, i. split; [right; now right|]. auto.
        -- injection E as <- <-. exists f, (mkV a (hi j) true false). split; [now left|]. unfold inside in *. cbn [lo hi ilo ihi] in *. split; [lra|]. auto.
        -- destruct Hi as [E|Hi].
           ++ injection E as <- <-. exists f, (mkV a (hi j) true false). unfold inside in *. rewrite J1, J2 in Ii. cbn [lo hi ilo ihi]. split; [now left|]. split; [lra|].
              assert (Nf : ~ has_pole f x) by (intro P; apply Np; apply (eqb_pole f g x Rf Rg C1); exact P). split; [exact Nf|]. symmetry. now apply rf_eqb_R.
           ++ exists h, i. split; [now right|]. auto.
      * split; [exact Hd|]. split; [exact NM|]. split; [exact PO|]. split; [cbn [List.length]; lia|]. intros h i Hi. destruct (Src h i Hi) as [A|[j' A]]; [now left|right; exists j'; now right].
    + rewrite MK by exact AB. cbn [bind]. destruct (IH g (lo j) (hi j) J3 Rg Pl') as (out & Eo & Sem & (i0 & out' & Ho & Lo) & NM & PO & Le & Src). rewrite Eo. cbn [bind].
      assert (Sj : mkV (lo j) (hi j) true false = j) by (destruct j; cbn in *; subst; reflexivity). rewrite Sj in Sem.
      eexists. split; [reflexivity|]. split.
      * intros x v. specialize (Sem x v). unfold piecewise in *. split.
        -- intros (h & i & [E|Hi] & Q); [exists h, i; split; [now left|exact Q]|]. destruct (proj1 Sem) as (h' & i' & Hi' & Q'); [exists h, i; auto|]. exists h', i'. split; [now right|exact Q'].
        -- intros (h & i & [E|Hi] & Q); [exists h, i; split; [now left|exact Q]|]. destruct (proj2 Sem) as (h' & i' & Hi' & Q'); [exists h, i; auto|]. exists h', i'. split; [now right|exact Q'].
      * split; [eauto|]. split; [|split; [|split; [cbn [List.length]; lia|]]].
        -- rewrite Ho in *. cbn [no_merge]. split; [|exact NM]. intros [A B]. cbn [lo hi] in B. rewrite Lo in B.
           assert (C' : rf_eqb f g && Reqb b (lo j) = true) by (rewrite A; cbn; unfold Reqb; destruct (Req_EM_T b (lo j)); auto). congruence.
        -- intros h i [E|Hi]; [injection E as <- <-; cbn; repeat split; auto|now apply PO].
        -- intros h i [E|Hi]; [injection E as <- <-; now left|]. right. destruct (Src h i Hi) as [->|[j' A]]; [exists j; now left|exists j'; now right].
Qed.

(** [simplify] keeps a piecewise function of half-open pieces, takes its pieces
    from the given ones, and leaves no two neighbours that could be merged. *)
Theorem simplify_zero_density : forall pieces, plain_pieces pieces ->
  exists out, simplify_pieces pieces = Ret out /\
    (forall x v, piecewise out x v <-> piecewise pieces x v) /\ no_merge out /\
    (List.length out <= List.length pieces)%nat /\ (forall f i, In (f, i) out -> exists j, In (f, j) pieces).
Proof.
  intros [|[f i] l] P; [exists []; repeat split; auto; intros ? ? []|].
  destruct (P f i (or_introl eq_refl)) as (I1 & I2 & I3 & R). assert (Pl : plain_pieces l) by (intros u v H; apply P; now right).
  destruct (grow_pair_ok l f (lo i) (hi i) I3 R Pl) as (out & Eo & Sem & _ & NM & _ & Le & Src). exists out. split; [exact Eo|].
  assert (Si : mkV (lo i) (hi i) true false = i) by (destruct i; cbn in *; subst; reflexivity). rewrite Si in Sem.
  split; [exact Sem|]. split; [exact NM|]. split; [exact Le|]. intros h j H. destruct (Src h j H) as [->|[j' A]]; [exists i; now left|exists j'; now right].
Qed.
Print Assumptions simplify_zero_density.

(** Included upper ends are lost. *)
Theorem simplify_closed_end_refuted : exists pieces out, simplify_pieces pieces = Ret out /\
  piecewise pieces 1 2 /\ forall v, ~ piecewise out 1 v.
Proof.
  exists [(RationalFunction [2%Q] None, mkV 0 1 true true)], [(RationalFunction [2%Q] None, mkV 0 1 true false)].
  assert (D : forall x, reval (den (RationalFunction [2%Q] None)) x = 1) by (intro x; cbn; rewrite ?Q2R_0, ?Q2R_1; ring).
  split; [|split].
  - cbn [simplify_pieces grow_pair lo hi]. unfold mk_interval. assert (E : Rltb 1 0 = false) by (apply Rltb_false; lra). now rewrite E.
  - exists (RationalFunction [2%Q] None), (mkV 0 1 true true). split; [now left|]. split; [unfold inside; cbn; lra|]. split; [unfold has_pole; rewrite D; lra|].
    unfold rfval. rewrite D. cbn. rewrite ?Q2R_0, ?Q2R_1. replace (Q2R 2) with 2 by (unfold Q2R; cbn; lra). field.
  - intros v (f & i & [E|[]] & I & _). injection E as <- <-. unfold inside in I. cbn in I. lra.
Qed.
Print Assumptions simplify_closed_end_refuted.

(** ** The best estimate *)
Section Best.
Context (parse : str -> res rfun) (rf_str : rfun -> str).
Definition of_hyp (h : str * zde * str * reference) : zde := snd (fst (fst h)).

Lemma zs_in : forall hs n d p r, In (n, d, p, r) (zero_density_estimates hs) <-> exists ds, In (ZNode n d p r ds) hs.
Proof.
  intros hs n d p r. unfold zero_density_estimates. rewrite in_flat_map. split.
  - intros ([n' d' p' r' ds|h] & I & J); [|destruct J]. destruct J as [E|[]]. injection E as -> -> -> ->. now exists ds.
  - intros (ds & I). eexists. split; [exact I|]. now left.
Qed.
Lemma bounds_ok : forall zs, (forall h, In h zs -> exists f, reads parse (of_hyp h) f) ->
  exists ds fs, mapM (fun h => ensure_bound parse (of_hyp h)) zs = Ret ds /\
    mapM (fun d => let! b := bound_of d in Ret (b, z_int d)) ds = Ret fs /\
    Forall2 (fun h fi => reads parse (of_hyp h) (fst fi) /\ snd fi = z_int (of_hyp h)) zs fs.
Proof.
  induction zs as [|h zs IH]; intro H; [exists [], []; repeat split; constructor|].
  destruct IH as (ds & fs & E1 & E2 & F); [intros; apply H; now right|]. destruct (H h (or_introl eq_refl)) as (f & Rf).
  assert (X : exists d, ensure_bound parse (of_hyp h) = Ret d /\ bound_of d = Ret f /\ z_int d = z_int (of_hyp h)).
  { unfold ensure_bound. destruct Rf as [B|[B P]]; rewrite B.
    - exists (of_hyp h). split; [reflexivity|]. unfold bound_of. now rewrite B.
    - rewrite P. cbn [bind]. eexists. split; [reflexivity|]. split; reflexivity. }
  destruct X as (d & X1 & X2 & X3). exists (d :: ds), ((f, z_int d) :: fs). cbn [mapM]. rewrite X1. cbn [bind]. rewrite E1. cbn [bind]. split; [reflexivity|].
  rewrite X2. cbn [bind]. rewrite E2. cbn [bind]. split; [reflexivity|]. constructor; [cbn; auto|exact F].
Qed.
Lemma reads_unique : forall z f g, reads parse z f -> reads parse z g -> f = g.
Proof. intros z f g [A|[A B]] [C|[C D]]; congruence. Qed.
Lemma bounds_in : forall hs fs0, Forall2 (fun h fi => reads parse (of_hyp h) (fst fi) /\ snd fi = z_int (of_hyp h)) (zero_density_estimates hs) fs0 ->
  estimates_in parse hs fs0.
Proof.
  intros hs fs0 F f i. split.
  - intro I. assert (X : exists h, In h (zero_density_estimates hs) /\ reads parse (of_hyp h) f /\ i = z_int (of_hyp h)).
    { clear -F I. induction F as [|h fi l m [A B] F IH]; [destruct I|]. destruct I as [->|I]; [exists h; cbn in *; split; [now left|auto]|]. destruct (IH I) as (h' & P & Q). exists h'. split; [now right|exact Q]. }
    destruct X as ([[[n d] p] r] & P & Q & ->). apply zs_in in P. destruct P as (ds & P). exists n, d, p, r, ds. auto.
  - intros (n & d & p & r & ds & I & Rd & ->). assert (J : In (n, d, p, r) (zero_density_estimates hs)) by (apply zs_in; eauto).
    clear I. induction F as [|h fi l m [A B] F IH]; [destruct J|]. destruct J as [->|J]; [|right; auto]. left. destruct fi as [g j]. cbn in *. subst j. f_equal. eapply reads_unique; eauto.
Qed.
Lemma F2_nth_error : forall A B (P : A -> B -> Prop) l m k b, Forall2 P l m -> nth_error m k = Some b -> exists a, nth_error l k = Some a /\ P a b.
Proof. intros A B P l m k b F. revert k. induction F as [|a b' l m H F IH]; intros [|k] E; cbn in *; try discriminate; [injection E as <-; eauto|auto]. Qed.

Lemma pack_all : forall hs fs0, Forall2 (fun h fi => reads parse (of_hyp h) (fst fi) /\ snd fi = z_int (of_hyp h)) (zero_density_estimates hs) fs0 ->
  forall l a b, tiles l a b -> (forall f i r, In (f, i, r) l -> comes_from true fs0 (inject_Z 1000000) f i r) ->
  exists out, mapM (pack rf_str (zero_density_estimates hs)) l = Ret out /\ estimates_tile out a b /\
    forall o, In o out -> exists n f i p r k, o = ZNode n (mkZ (rf_str f) i (Some f)) p r [] /\ In (f, i, k) l /\ taken_from parse hs n f i p r.
Proof.
  intros hs fs0 F. induction l as [|[[f i] k] l IH]; intros a b T C; [exists []; split; [reflexivity|]; split; [exact T|intros ? []]|].
  cbn in T. destruct T as (L & LH & I1 & I2 & T). destruct (IH (hi i) b T) as (out & Eo & To & Ho); [intros; apply C; now right|].
  assert (X : exists n p r, pack rf_str (zero_density_estimates hs) (f, i, k) = Ret (ZNode n (mkZ (rf_str f) i (Some f)) p r []) /\ taken_from parse hs n f i p r).
  { unfold pack, from_rational_func. destruct (C f i k (or_introl eq_refl)) as [[-> Ef]|(m & j & -> & Nm & B)].
    - cbn. do 3 eexists. split; [reflexivity|]. left. auto.
    - assert (Z : (Z.of_nat m <? 0)%Z = false) by (apply Z.ltb_ge; lia). rewrite Z, Nat2Z.id. destruct (F2_nth_error _ _ _ _ _ _ _ F Nm) as ([[[n d] p] r] & Na & Rd & Ij). rewrite Na.
      exists n, p, r. split; [reflexivity|]. right. apply nth_error_In, zs_in in Na. destruct Na as (ds & Na). cbn in Ij, Rd. subst j. exists d, ds. destruct (B eq_refl). auto. }
  destruct X as (n & p & r & Ep & Tk). exists (ZNode n (mkZ (rf_str f) i (Some f)) p r [] :: out). cbn [mapM]. rewrite Ep. cbn [bind]. rewrite Eo. cbn [bind]. split; [reflexivity|].
  split; [cbn; auto|]. intros o [<-|Io]; [exists n, f, i, p, r, k; split; [reflexivity|]; split; [now left|exact Tk]|].
  destruct (Ho o Io) as (n' & f' & i' & p' & r' & k' & A & B & D). exists n', f', i', p', r', k'. split; [exact A|]. split; [now right|exact D].
Qed.
Lemma least_same : forall fs gs d x v, (forall f i, In (f, i) fs <-> In (f, i) gs) -> is_least fs d x v -> is_least gs d x v.
Proof.
  intros fs gs d x v E (A & B & C). split; [|split; [exact B|]].
  - destruct A as [A|(f & i & P & Q)]; [now left|right; exists f, i; split; [now apply E|exact Q]].
  - intros f i P. apply C. now apply E.
Qed.
Lemma half_lt_one : Q2R (1#2) < Q2R 1. Proof. apply Qlt_Rlt. reflexivity. Qed.
End Best.

(** The result tiles [1/2, 1).  Every piece is the placeholder or has the name,
    proof, reference and bound of one of the hypotheses, within its interval, and
    is least there among all of them, at every point where estimates neither begin
    nor end. *)
Theorem best_zero_density_optimal : forall parse rf_str solve, solve_complete solve ->
  forall hs fs, readable parse hs -> estimates_in parse hs fs -> no_poles true unit_interval fs ->
  exists out, best_zero_density_estimate parse rf_str solve hs = Ret out /\
    estimates_tile out (Q2R (1#2)) (Q2R 1) /\
    forall o, In o out -> exists n f i p r, o = ZNode n (mkZ (rf_str f) i (Some f)) p r [] /\ taken_from parse hs n f i p r /\
      forall x, inside i x -> ~ is_endpoint fs x -> is_least fs (Q2R (inject_Z 1000000)) x (rfval f x).
Proof.
  intros parse rf_str solve SC hs fs RD EI NP. unfold best_zero_density_estimate.
  destruct (bounds_ok parse (zero_density_estimates hs)) as (ds & fs0 & E1 & E2 & F).
  { intros [[[n d] p] r] I. apply zs_in in I. destruct I as (ds & I). exact (RD _ _ _ _ _ I). }
  unfold of_hyp in E1. rewrite E1. cbn [bind]. rewrite E2. cbn [bind]. pose proof (bounds_in parse hs fs0 F) as EI0.
  assert (SM : forall f i, In (f, i) fs0 <-> In (f, i) fs) by (intros f i; rewrite (EI f i), (EI0 f i); tauto).
  assert (X : exists l, rf_min R Rltb Reqb Rmid rf_atR solve fs0 unit_interval true = Ret l /\ tiles l (Q2R (1#2)) (Q2R 1) /\
    forall f i r, In (f, i, r) l -> comes_from true fs0 (inject_Z 1000000) f i r /\ forall x, inside i x -> ~ is_endpoint fs0 x -> is_least fs0 (Q2R (inject_Z 1000000)) x (rfval f x)).
  { destruct fs0 as [|f0 fs1] eqn:E0.
    - eexists. split; [reflexivity|]. split; [cbn; repeat split; apply half_lt_one|]. intros f i r [E|[]]. injection E as <- <- <-. split; [left; auto|].
      intros x _ _. split; [left; apply (fdef_val (inject_Z 1000000))|]. split; [rewrite (fdef_val (inject_Z 1000000)); lra|intros ? ? []].
    - rewrite <- E0 in *. apply (rational_min_optimal solve SC fs0 unit_interval true half_lt_one); [rewrite E0; discriminate|]. intros f i x I. apply NP. now apply SM. }
  destruct X as (l & El & Tl & Hl). rewrite El. cbn [bind]. destruct (pack_all parse rf_str hs fs0 F l _ _ Tl) as (out & Eo & To & Ho); [intros; now apply Hl|].
  exists out. split; [exact Eo|]. split; [exact To|]. intros o Io. destruct (Ho o Io) as (n & f & i & p & r & k & -> & I & Tk). exists n, f, i, p, r. split; [reflexivity|]. split; [exact Tk|].
  intros x Ix NE. destruct (Hl f i k I) as [_ O]. apply (least_same fs0 fs _ x _ SM). apply O; auto. intros (g & j & A & B). apply NE. exists g, j. split; [now apply SM|exact B].
Qed.
Print Assumptions best_zero_density_optimal.

(** If all estimates are given on intervals [a, b), this is so at every point. *)
Theorem best_zero_density_everywhere : forall parse rf_str solve, solve_complete solve ->
  forall hs fs, readable parse hs -> estimates_in parse hs fs -> half_open_inputs fs -> defined_inputs unit_interval fs ->
  exists out, best_zero_density_estimate parse rf_str solve hs = Ret out /\
    estimates_tile out (Q2R (1#2)) (Q2R 1) /\
    forall o, In o out -> exists n f i p r, o = ZNode n (mkZ (rf_str f) i (Some f)) p r [] /\ taken_from parse hs n f i p r /\
      forall x, inside i x -> ~ has_pole f x /\ is_least fs (Q2R (inject_Z 1000000)) x (rfval f x).
Proof.
  intros parse rf_str solve SC hs fs RD EI HO DI. unfold best_zero_density_estimate.
  destruct (bounds_ok parse (zero_density_estimates hs)) as (ds & fs0 & E1 & E2 & F).
  { intros [[[n d] p] r] I. apply zs_in in I. destruct I as (ds & I). exact (RD _ _ _ _ _ I). }
  unfold of_hyp in E1. rewrite E1. cbn [bind]. rewrite E2. cbn [bind]. pose proof (bounds_in parse hs fs0 F) as EI0.
  assert (SM : forall f i, In (f, i) fs0 <-> In (f, i) fs) by (intros f i; rewrite (EI f i), (EI0 f i); tauto).
  assert (X : exists l, rf_min R Rltb Reqb Rmid rf_atR solve fs0 unit_interval true = Ret l /\ tiles l (Q2R (1#2)) (Q2R 1) /\
    forall f i r, In (f, i, r) l -> comes_from true fs0 (inject_Z 1000000) f i r /\ forall x, inside i x -> ~ has_pole f x /\ is_least fs0 (Q2R (inject_Z 1000000)) x (rfval f x)).
  { destruct fs0 as [|f0 fs1] eqn:E0.
    - eexists. split; [reflexivity|]. split; [cbn; repeat split; apply half_lt_one|]. intros f i r [E|[]]. injection E as <- <- <-. split; [left; auto|].
      intros x _. split; [apply fdef_pole|]. split; [left; apply (fdef_val (inject_Z 1000000))|]. split; [rewrite (fdef_val (inject_Z 1000000)); lra|intros ? ? []].
    - rewrite <- E0 in *. apply (rational_min_everywhere solve SC fs0 unit_interval true half_lt_one); [rewrite E0; discriminate| | |].
      + intros f i x I D. split; [|discriminate]. intro B. apply (DI f i x); [now apply SM|exact D|lra].
      + intros f i I. apply (HO f i). now apply SM.
      + intros f i x I. apply DI. now apply SM. }
  destruct X as (l & El & Tl & Hl). rewrite El. cbn [bind]. destruct (pack_all parse rf_str hs fs0 F l _ _ Tl) as (out & Eo & To & Ho); [intros; now apply Hl|].
  exists out. split; [exact Eo|]. split; [exact To|]. intros o Io. destruct (Ho o Io) as (n & f & i & p & r & k & -> & I & Tk). exists n, f, i, p, r. split; [reflexivity|]. split; [exact Tk|].
  intros x Ix. destruct (Hl f i k I) as [_ O]. destruct (O x Ix) as [NPx L]. split; [exact NPx|]. apply (least_same fs0 fs _ x _ SM L).
Qed.
Print Assumptions best_zero_density_everywhere.

Lemma tile_flags : forall l a b n d p r ds, estimates_tile l a b -> In (ZNode n d p r ds) l -> ilo (z_int d) = true /\ ihi (z_int d) = false.
Proof.
  induction l as [|[n' d' p' r' ds'|h] l IH]; intros a b n d p r ds T I; cbn in T; [destruct I| |destruct T]. destruct T as (_ & _ & A & B & T).
  destruct I as [E|I]; [injection E as <- <- <- <- <-; auto|]. exact (IH _ _ _ _ _ _ _ T I).
Qed.
(** What is taken from true estimates is true. *)
Theorem best_zero_density_true : forall parse rf_str solve tr btr, solve_complete solve ->
  forall W hs fs, readable parse hs -> estimates_in parse hs fs -> half_open_inputs fs -> defined_inputs unit_interval fs ->
  Forall (zholds parse tr btr W) hs ->
  exists out, best_zero_density_estimate parse rf_str solve hs = Ret out /\
    forall o, In o out -> zn_name o = s_of "Placeholder zero density estimate" \/ zholds parse tr btr W o.
Proof.
  intros parse rf_str solve tr btr SC W hs fs RD EI HO DI T. destruct (best_zero_density_everywhere parse rf_str solve SC hs fs RD EI HO DI) as (out & Eo & Ti & H).
  exists out. split; [exact Eo|]. intros o Io. destruct (H o Io) as (n & f & i & p & r & -> & Tk & _). destruct Tk as [(-> & _)|(d & ds & I & Rd & B1 & B2)]; [now left|]. right.
  rewrite Forall_forall in T. specialize (T _ I). cbn in T. specialize (T f Rd). cbn. intros g [G|[G _]]; [|discriminate]. injection G as <-.
  intros s S1 S2 Is Np. apply T; auto. assert (K : In (f, z_int d) fs) by (apply EI; exists n, d, p, r, ds; auto). destruct (HO _ _ K) as [K1 K2].
  destruct (tile_flags _ _ _ _ _ _ _ _ Ti Io) as [F1 F2]. cbn in F1, F2. unfold inside in *. rewrite K1, K2. cbn [z_int] in Is. rewrite F1, F2 in Is. lra.
Qed.
Print Assumptions best_zero_density_true.

(** [at] gives the value of the bound inside the interval and raises outside it,
    and the object reads the same afterwards. *)
Theorem zero_density_at : forall parse z f x, reads parse z f ->
  (inside (z_int z) x -> ~ has_pole f x -> exists z', zde_at parse z x = Ret (rfval f x, z') /\ z_bound z' = Some f /\ z_int z' = z_int z) /\
  (~ inside (z_int z) x -> zde_at parse z x = Raise ValueError).
Proof.
  intros parse z f x Rd. assert (C : icontains R Rltb (z_int z) x = true <-> inside (z_int z) x).
  { unfold icontains, inside. rewrite andb_true_iff. split; intros [A B]; split.
    - destruct (ilo (z_int z)); [apply negb_true_iff, Rltb_false in A; lra|now apply Rltb_true].
    - destruct (ihi (z_int z)); [apply negb_true_iff, Rltb_false in B; lra|now apply Rltb_true].
    - destruct (ilo (z_int z)); [apply negb_true_iff, Rltb_false; lra|now apply Rltb_true].
    - destruct (ihi (z_int z)); [apply negb_true_iff, Rltb_false; lra|now apply Rltb_true]. }
  unfold zde_at. split.
  - intros I Np. apply C in I. rewrite I. cbn [negb]. unfold ensure_bound, bound_of, rf_atR. unfold has_pole in Np.
    destruct Rd as [B|[B P]]; rewrite B; [|rewrite P; cbn [bind z_bound]].
    + cbn [bind]. rewrite B. cbn [bind]. destruct (Req_EM_T (reval (den f) x) 0); [contradiction|]. cbn [bind]. exists z. auto.
    + cbn [bind]. destruct (Req_EM_T (reval (den f) x) 0); [contradiction|]. cbn [bind]. eexists. split; [reflexivity|]. auto.
  - intro N. destruct (icontains R Rltb (z_int z) x) eqn:E; [exfalso; apply N; now apply C|reflexivity].
Qed.
Print Assumptions zero_density_at.

Lemma density_world_admissible : forall P : Q -> Prop, (forall s s', (s == s')%Q -> P s -> P s') -> d_admissible (density_world trivial_world P).
Proof.
  intros P PP. constructor; cbn [density_world ener zd].
  - exact (w0_admissible false).
  - intros s s' v E [H|[H K]]; [now left|right; split; auto; eapply PP; eauto].
  - intros s v w L [H|[H K]]; [left; lra|]. right. split; [lra|exact K].
  - intros s t r _ _ _ [L _]. exact L.
  - intros s t S1 S2 T. cbn. unfold conj_lv. split; [exact T|right; Lqa.lra].
  - intros s t0 b S1 S2 T0 HL _. left.
    assert (K : exists r, (0 < r /\ r <= t0 /\ r <= 2 - 2 * s)%Q).
    { destruct (Qlt_le_dec t0 (2 - 2 * s)); [exists t0|exists (2 - 2 * s)%Q]; repeat split; Lqa.lra. }
    destruct K as (r & R0 & R1 & R2). pose proof (HL t0 r ltac:(Lqa.lra) ltac:(Lqa.lra) (conj R1 (or_intror R2))) as B.
    apply Qlt_Rlt in R0, S2, T0. rewrite Q2R_0 in R0, T0. rewrite Q2R_1 in S2. assert (BP : 0 < b).
    { destruct (Rlt_or_le 0 b) as [|N]; auto. exfalso. assert (b * Q2R t0 <= 0 * Q2R t0) by (apply Rmult_le_compat_r; lra). lra. }
    apply Rdiv_lt_0_compat; lra.
Qed.

(** An estimate whose interval does not include its lower end is extended to it. *)
Definition ex_zero : rfun := RationalFunction [0%Q] None.
Lemma ex_zero_val : forall x, ~ has_pole ex_zero x /\ rfval ex_zero x = 0.
Proof. intro x. unfold has_pole, rfval. cbn. rewrite ?Q2R_0, ?Q2R_1. split; [lra|]. field. Qed.

Lemma tile_cover : forall l a b x, estimates_tile l a b -> a <= x < b -> exists n d p r ds, In (ZNode n d p r ds) l /\ inside (z_int d) x.
Proof.
  induction l as [|[n d p r ds|h] l IH]; intros a b x T B; cbn in T; [lra| |destruct T]. destruct T as (L & LH & I1 & I2 & T).
  destruct (Rlt_or_le x (hi (z_int d))) as [K|K].
  - exists n, d, p, r, ds. split; [now left|]. unfold inside. rewrite I1, I2. lra.
  - destruct (IH _ _ x T ltac:(lra)) as (n' & d' & p' & r' & ds' & I & J). exists n', d', p', r', ds'. split; [now right|exact J].
Qed.

Theorem best_zero_density_open_end_refuted : forall parse rf_str solve tr btr, solve_complete solve ->
  exists W hs out o, d_admissible W /\ Forall (zholds parse tr btr W) hs /\
    best_zero_density_estimate parse rf_str solve hs = Ret out /\ In o out /\
    zn_name o <> s_of "Placeholder zero density estimate" /\ ~ zholds parse tr btr W o.
Proof.
  intros parse rf_str solve tr btr SC.
  set (i0 := mkV (Q2R (3#4)) (Q2R 1) false false). set (h := ZNode (s_of "h") (mkZ [] i0 (Some ex_zero)) [] ref_trivial []).
  assert (RD : readable parse [h]) by (intros n d p r ds [E|[]]; injection E as <- <- <- <- <-; exists ex_zero; now left).
  assert (EI : estimates_in parse [h] [(ex_zero, i0)]).
  { intros f i. split.
    - intros [E|[]]. injection E as <- <-. unfold h. do 5 eexists. split; [now left|]. split; [now left|reflexivity].
    - intros (n & d & p & r & ds & [E|[]] & Rd & ->). injection E as <- <- <- <- <-. left. destruct Rd as [E|[E _]]; [injection E as ->; reflexivity|discriminate]. }
  destruct (best_zero_density_optimal parse rf_str solve SC [h] [(ex_zero, i0)] RD EI) as (out & Eo & Ti & H).
  { intros f i x [E|[]] _. injection E as <- <-. split; [intros _; apply ex_zero_val|discriminate]. }
  destruct (tile_cover _ _ _ (Q2R (3#4)) Ti) as (n & d & p & r & ds & Io & Id).
  { split; [apply Qle_Rle; discriminate|apply Qlt_Rlt; reflexivity]. }
  destruct (H _ Io) as (n' & f & i & p' & r' & E & Tk & L). injection E as <- -> <- <- ->. cbn [z_int] in Id.
  destruct (tile_flags _ _ _ _ _ _ _ _ Ti Io) as [F1 F2]. cbn in F1, F2.
  assert (Df : f = ex_zero /\ n = s_of "h").
  { set (m := Q2R (3#4)) in *. unfold inside in Id. rewrite F1, F2 in Id.
    assert (M : m < Q2R 1) by (apply Qlt_Rlt; reflexivity). set (x := (m + Rmin (hi i) (Q2R 1)) / 2).
    assert (X : m < x /\ x < hi i /\ x < Q2R 1) by (unfold x, Rmin; destruct (Rle_dec (hi i) (Q2R 1)); lra).
    assert (Lx : is_least [(ex_zero, i0)] (Q2R (inject_Z 1000000)) x (rfval f x)).
    { apply L; [unfold inside; rewrite F1, F2; lra|]. intros (g & j & [E|[]] & [K|K]); injection E as <- <-; cbn in K; fold m in K; lra. }
    destruct Lx as (_ & _ & Le). specialize (Le ex_zero i0 (or_introl eq_refl)). rewrite (proj2 (ex_zero_val x)) in Le.
    destruct Tk as [(_ & -> & _)|(d & ds & [E|[]] & Rd & _)].
    - exfalso. rewrite (fdef_val (inject_Z 1000000)) in Le. assert (Le' : Q2R (inject_Z 1000000) <= 0) by (apply Le; unfold inside; cbn; fold m; lra).
      rewrite <- Q2R_0 in Le'. apply Rle_Qle in Le'. apply Le'. reflexivity.
    - injection E as <- <- <- <-. split; [|reflexivity]. destruct Rd as [E|[E _]]; [now injection E as <-|discriminate]. }
  destruct Df as [-> ->].
  exists (density_world trivial_world (fun s => ~ (s == 3#4)%Q)), [h], out, (ZNode (s_of "h") (mkZ (rf_str ex_zero) i (Some ex_zero)) p r []).
  split; [apply density_world_admissible; intros s s' E N K; apply N; now rewrite E|]. split.
  - constructor; [|constructor]. cbn. intros g [E|[E _]]; [|discriminate]. injection E as <-. intros s _ _ Is _. cbn. right. rewrite (proj2 (ex_zero_val _)). split; [lra|].
    intro K. apply Qeq_eqR in K. unfold inside in Is. cbn in Is. lra.
  - split; [exact Eo|]. split; [exact Io|]. split; [discriminate|]. intro Z. cbn in Z. specialize (Z ex_zero (or_introl eq_refl) (3#4) eq_refl eq_refl Id (proj1 (ex_zero_val _))).
    cbn in Z. rewrite (proj2 (ex_zero_val _)) in Z. destruct Z as [Z|[_ Z]]; [lra|apply Z; reflexivity].
Qed.
Print Assumptions best_zero_density_open_end_refuted.

(** The result does not name what it rests on: from an estimate supported by its
    dependencies comes one that is not. *)
Theorem best_zero_density_supported_refuted : forall parse rf_str solve tr btr, solve_complete solve ->
  exists hs out o, Forall (zsupported parse tr btr) hs /\
    best_zero_density_estimate parse rf_str solve hs = Ret out /\ In o out /\
    zn_name o <> s_of "Placeholder zero density estimate" /\ zn_deps o = [] /\ ~ zsupported parse tr btr o.
Proof.
  intros parse rf_str solve tr btr SC.
  set (i0 := mkV (Q2R (3#4)) (Q2R 1) true false). set (g0 := ZNode (s_of "g") (mkZ [] i0 (Some ex_zero)) [] ref_trivial []).
  set (h := ZNode (s_of "h") (mkZ [] i0 (Some ex_zero)) [] ref_trivial [g0]).
  assert (RD : readable parse [h]) by (intros n d p r ds [E|[]]; injection E as <- <- <- <- <-; exists ex_zero; now left).
  assert (EI : estimates_in parse [h] [(ex_zero, i0)]).
  { intros f i. split.
    - intros [E|[]]. injection E as <- <-. unfold h. do 5 eexists. split; [now left|]. split; [now left|reflexivity].
    - intros (n & d & p & r & ds & [E|[]] & Rd & ->). injection E as <- <- <- <- <-. left. destruct Rd as [E|[E _]]; [injection E as ->; reflexivity|discriminate]. }
  destruct (best_zero_density_everywhere parse rf_str solve SC [h] [(ex_zero, i0)] RD EI) as (out & Eo & Ti & H).
  { intros f i [E|[]]. injection E as <- <-. auto. }
  { intros f i x [E|[]] _ _. injection E as <- <-. apply ex_zero_val. }
  destruct (tile_cover _ _ _ (Q2R (3#4)) Ti) as (n & d & p & r & ds & Io & Id).
  { split; [apply Qle_Rle; discriminate|apply Qlt_Rlt; reflexivity]. }
  destruct (H _ Io) as (n' & f & i & p' & r' & E & Tk & L). injection E as <- -> <- <- ->. cbn [z_int] in Id.
  assert (Df : f = ex_zero /\ n = s_of "h").
  { destruct (L _ Id) as [_ (_ & _ & Le)]. specialize (Le ex_zero i0 (or_introl eq_refl)). rewrite (proj2 (ex_zero_val _)) in Le.
    destruct Tk as [(_ & -> & _)|(d & ds & [E|[]] & Rd & _)].
    - exfalso. rewrite (fdef_val (inject_Z 1000000)) in Le. assert (Le' : Q2R (inject_Z 1000000) <= 0).
      { apply Le. unfold inside. cbn. split; [lra|]. apply Qlt_Rlt. reflexivity. }
      rewrite <- Q2R_0 in Le'. apply Rle_Qle in Le'. apply Le'. reflexivity.
    - injection E as <- <- <- <-. split; [|reflexivity]. destruct Rd as [E|[E _]]; [now injection E as <-|discriminate]. }
  destruct Df as [-> ->].
  exists [h], out, (ZNode (s_of "h") (mkZ (rf_str ex_zero) i (Some ex_zero)) p r []). split.
  - constructor; [|constructor]. intros W _ T. inversion T as [|? ? T1 _]; subst. exact T1.
  - split; [exact Eo|]. split; [exact Io|]. split; [discriminate|]. split; [reflexivity|]. intro S.
    specialize (S (density_world trivial_world (fun _ => False)) (density_world_admissible (fun _ => False) (fun _ _ _ F => F)) (Forall_nil _)). cbn in S.
    specialize (S ex_zero (or_introl eq_refl) (3#4) eq_refl eq_refl Id (proj1 (ex_zero_val _))). cbn in S. rewrite (proj2 (ex_zero_val _)) in S. destruct S as [S|[_ []]]. lra.
Qed.
Print Assumptions best_zero_density_supported_refuted.

(** Ingham's estimate 3/(2 - x) on [1/2, 1) and Huxley's 3/(3x - 1) on [3/4, 1),
    given as expressions, meet the hypotheses above. *)
Definition ingham : rfun := RationalFunction [3%Q] (Some [(-1)%Q; 2%Q]).
Definition huxley : rfun := RationalFunction [3%Q] (Some [3%Q; (-1)%Q]).
Definition ex_parse (s : str) : res rfun :=
  if list_eq_dec Ascii.ascii_dec s (s_of "3/(2 - x)") then Ret ingham
  else if list_eq_dec Ascii.ascii_dec s (s_of "3/(3 * x - 1)") then Ret huxley else Raise ValueError.
Definition ex_set : list znode :=
  add_zero_density (add_zero_density [] (s_of "3/(2 - x)") (mkV (Q2R (1#2)) (Q2R 1) true false) ref_classical [])
    (s_of "3/(3 * x - 1)") (mkV (Q2R (3#4)) (Q2R 1) true false) ref_classical [].
Example best_zero_density_case :
  let fs := [(ingham, mkV (Q2R (1#2)) (Q2R 1) true false); (huxley, mkV (Q2R (3#4)) (Q2R 1) true false)] in
  readable ex_parse ex_set /\ estimates_in ex_parse ex_set fs /\ half_open_inputs fs /\ defined_inputs unit_interval fs /\ no_poles true unit_interval fs.
Proof.
  cbn zeta.
  assert (EI : estimates_in ex_parse ex_set [(ingham, mkV (Q2R (1#2)) (Q2R 1) true false); (huxley, mkV (Q2R (3#4)) (Q2R 1) true false)]).
  { intros f i. unfold ex_set, add_zero_density. cbn [app]. split.
    - intros [E|[E|[]]]; injection E as <- <-; do 5 eexists.
      + split; [left; reflexivity|]. split; [right; split; reflexivity|reflexivity].
      + split; [right; left; reflexivity|]. split; [right; split; reflexivity|reflexivity].
    - intros (n & d & p & r & ds & [E|[E|[]]] & [Rd|[_ Rd]] & ->); injection E as <- <- <- <- <-; try discriminate Rd; injection Rd as <-; [now left|right; now left]. }
  assert (DI : forall f i x, In (f, i) [(ingham, mkV (Q2R (1#2)) (Q2R 1) true false); (huxley, mkV (Q2R (3#4)) (Q2R 1) true false)] -> lo i <= x < hi i -> ~ has_pole f x).
  { assert (A : Q2R 2 = 2) by (unfold Q2R; cbn; lra). assert (B : Q2R 3 = 3) by (unfold Q2R; cbn; lra). assert (C : Q2R (3#4) = 3/4) by (unfold Q2R; cbn; lra).
    assert (D : Q2R (1#2) = 1/2) by (unfold Q2R; cbn; lra). assert (F : Q2R (-1) = -1) by (unfold Q2R; cbn; lra).
    intros f i x [E|[E|[]]] H; injection E as <- <-; cbn [lo hi] in H; rewrite ?C, ?D, ?Q2R_1 in H; unfold has_pole; cbn; rewrite ?A, ?B, ?F, ?Q2R_0, ?Q2R_1; lra. }
  split; [|split; [exact EI|split; [|split]]].
  - intros n d p r ds [E|[E|[]]]; injection E as <- <- <- <- <-; eexists; right; split; reflexivity.
  - intros f i [E|[E|[]]]; injection E as <- <-; auto.
  - intros f i x I _ B. now apply (DI f i).
  - intros f i x I _. split; [|discriminate]. intro B. apply (DI f i); [exact I|lra].
Qed.
