(** C62: the large value energy regions recorded from the literature and the relations
    they are meant to record. *)
From Verif Require Import Base Model_Text Model_Reference Spec_Reference LinAlg Model_Polytope Spec_Polytope Proof_Polytope Proof_PolytopeLP
  Model_Region Spec_Region Proof_Region Prop_Region FM_Ext Model_ExponentPair Spec_ExponentPair Model_Format Proof_Interval
  Model_LargeValues Spec_LargeValues Proof_LargeValues Model_AdditiveEnergy Spec_AdditiveEnergy Proof_AdditiveEnergy Prop_AdditiveEnergy Proof_Piecewise
  Model_LiteratureLV Model_LiteratureEnergy Spec_LiteratureEnergy.
Require Import Lqa.
Open Scope list_scope.

Ltac qmax_cases := repeat match goal with
  | |- context [qmax ?a ?b] => let H := fresh "Q" in destruct (qmax_spec a b) as (? & ? & [H|H]); rewrite H in *; clear H
  | _ : context [qmax ?a ?b] |- _ => let H := fresh "Q" in destruct (qmax_spec a b) as (? & ? & [H|H]); rewrite H in *; clear H
  end.

(** ** Regions given by half-spaces, in part of the range *)
Definition inner5 (s t r e z : Q) : Prop := 1#2 < s /\ s < 1 /\ 0 < t /\ t < TAU_UPPER_LIMIT /\ 0 < r /\ r < LV_DEFAULT_UPPER_BOUND /\
  0 < e /\ e < LV_DEFAULT_UPPER_BOUND /\ 0 < z /\ z < LV_DEFAULT_UPPER_BOUND.
Lemma inner_strict : forall s t r e z, inner5 s t r e z -> Forall (fun row => 0 < rowval row [s; t; r; e; z]) default_constraints.
Proof.
  intros s t r e z (A1 & A2 & A3 & A4 & A5 & A6 & A7 & A8 & A9 & A10). unfold default_constraints, limits, unit_row. cbn [flat_map combine seq List.length map fst snd Nat.eqb app].
  repeat (constructor; [rewrite rowval6; lra|]). constructor.
Qed.

(** Every half-space adds an open piece or nothing. *)
Fixpoint alive (extra neg hps : list (list Q)) : Prop :=
  match hps with
  | [] => True
  | h :: rest =>
      ((exists s t r e z, inner5 s t r e z /\ Forall (fun row => 0 < rowval row [s; t; r; e; z]) extra /\ 0 < rowval h [s; t; r; e; z] /\ Forall (fun row => rowval row [s; t; r; e; z] < 0) neg) \/
       (forall s t r e z, in_range5 s t r e z -> Forall (fun row => 0 <= rowval row [s; t; r; e; z]) extra -> 0 <= rowval h [s; t; r; e; z] -> Forall (fun row => rowval row [s; t; r; e; z] <= 0) neg -> False)) /\
      alive extra (neg ++ [h]) rest
  end.

Section Ext.
Context (E : ext) (OK : ext_ok E).

Lemma box_solid : forall p extra, Forall (fun r => List.length r = 6%nat) extra -> good p -> ncol (pmat p) = 6%nat ->
  (forall x, member p x <-> S (List.length x) = 6%nat /\ Forall (fun r => 0 <= rowval r x) (default_constraints ++ extra)) ->
  ((exists s t r e z, inner5 s t r e z /\ Forall (fun row => 0 < rowval row [s; t; r; e; z]) extra) \/
   (forall s t r e z, in_range5 s t r e z -> Forall (fun row => 0 <= rowval row [s; t; r; e; z]) extra -> False)) ->
  solid 5 (plain p).
Proof.
  intros p extra F G N M A. split; [exact G|]. split; [|split; [exact N|]].
  - exists LV_DEFAULT_UPPER_BOUND. intros x i Mx. apply M in Mx as [L Fx]. apply Forall_app in Fx as [Fx _]. destruct (len5 x ltac:(lia)) as (s & t & r & e & z & ->).
    apply box5_iff in Fx as ((A1 & A2 & A3 & A4 & A5 & A6) & A7 & A8 & A9 & A10). unfold TAU_UPPER_LIMIT, LV_DEFAULT_UPPER_BOUND in *.
    destruct i as [|[|[|[|[|i]]]]]; cbn [nth]; try (destruct i; cbn [nth]); apply Qabs_Qle_condition; lra.
  - intros (x & Mx). destruct A as [(s & t & r & e & z & I & X)|A].
    + exists [s; t; r; e; z]. apply (rows_interior 5 (default_constraints ++ extra)); [apply Forall_app; split; [exact default_len|exact F]|exact N|reflexivity| |].
      * apply Forall_app. split; [now apply inner_strict|exact X].
      * intros y Ly Fy. apply M. split; [lia|exact Fy].
    + exfalso. apply M in Mx as [L Fx]. destruct (len5 x ltac:(lia)) as (s & t & r & e & z & ->). apply Forall_app in Fx as [F1 F2]. apply (A s t r e z); [now apply box5_iff|exact F2].
Qed.

Lemma halfplanes_solid : forall extra, Forall (fun r => List.length r = 6%nat) extra -> forall hps neg,
  Forall (fun h => List.length h = 6%nat /\ ~ zero_row h) hps -> Forall (fun r => List.length r = 6%nat) neg -> alive extra neg hps ->
  forall qs, halfplane_polys E (default_constraints ++ extra) (map vopp neg) hps = Ret qs -> Forall (fun q => exists p, q = RPoly (plain p) /\ solid 5 (plain p)) qs.
Proof.
  intros extra FX. induction hps as [|h hps IH]; intros neg FH FN A qs Eq; cbn [halfplane_polys] in Eq; [injection Eq as <-; constructor|].
  apply Forall_cons_iff in FH as [[Lh Zh] FH]. destruct A as [A AR].
  assert (LN : Forall (fun r => List.length r = 6%nat) (map vopp neg)) by (apply Forall_map; eapply Forall_impl; [|exact FN]; cbv beta; intros a La; now rewrite vopp_length).
  assert (LR : Forall (fun r => List.length r = 6%nat) (extra ++ [h] ++ map vopp neg)) by (rewrite !Forall_app; split; [auto|]; split; [repeat constructor; auto|auto]).
  destruct (Polytope_ok E OK ((default_constraints ++ extra) ++ [h] ++ map vopp neg) false true 6) as (p & Ep & Gp & Np & _ & Mp); [lia|rewrite <- app_assoc; apply Forall_app; split; [exact default_len|exact LR]| |].
  { destruct default_nz as (r & Hr & Zr). exists r. split; [apply in_or_app; left; apply in_or_app; auto|auto]. }
  rewrite Ep in Eq. cbn [bind] in Eq. change [vopp h] with (map vopp [h]) in Eq. rewrite <- map_app in Eq.
  destruct (halfplane_polys E (default_constraints ++ extra) (map vopp (neg ++ [h])) hps) as [ps|] eqn:Eps; [|discriminate]. cbn [bind] in Eq. injection Eq as <-.
  constructor; [|apply (IH (neg ++ [h])); auto; apply Forall_app; split; auto].
  exists p. split; [reflexivity|]. apply (box_solid p (extra ++ [h] ++ map vopp neg) LR Gp Np).
  - intro x. rewrite Mp. rewrite <- app_assoc. reflexivity.
  - destruct A as [(s & t & r & e & z & I & X1 & X2 & X3)|A]; [left|right].
    + exists s, t, r, e, z. split; [exact I|]. rewrite !Forall_app. split; [exact X1|]. split; [repeat constructor; exact X2|].
      apply Forall_map. eapply Forall_impl; [|exact X3]. cbv beta. intros a Ha. rewrite rowval_vopp. lra.
    + intros s t r e z I X. rewrite !Forall_app in X. destruct X as (X1 & X2 & X3). apply Forall_cons_iff in X2 as [X2 _]. apply (A s t r e z I X1 X2).
      apply -> Forall_map in X3. eapply Forall_impl; [|exact X3]. cbv beta. intros a Ha. rewrite rowval_vopp in Ha. lra.
Qed.

(** An interior point satisfies strictly whatever all points satisfy. *)
Lemma interior_row : forall p a x, ncol (pmat p) = 6%nat -> List.length a = 6%nat -> ~ zero_row a ->
  (forall y, member p y -> 0 <= rowval a y) -> interior p x -> 0 < rowval a x.
Proof.
  intros p a x N La Za H I. assert (J : minterior (mkMat [(a, false)] 6) x).
  { assert (MM : forall y, member p y -> mmember (mkMat [(a, false)] 6) y).
    { intros y My. split; [destruct My as [L _]; rewrite N in L; exact L|]. constructor; [exact (H y My)|constructor]. }
    destruct I as [I1 (e & He & I2)]. split; [now apply MM|]. exists e. split; [exact He|]. intros y Hy. apply MM. apply I2, Hy. }
  apply interior_strict in J.
  - destruct J as [_ J]. apply (J (a, false)). now left.
  - split; [cbn; lia|]. repeat constructor. exact La.
  - constructor; [exact Za|constructor].
Qed.

(** What the unions in this file are. *)
Definition pieces (ps : list polytope) (P : relation) : Prop :=
  Forall (fun p => solid 5 (plain p)) ps /\
  (forall x, in_union ps x <-> exists s t r e z, x = [s; t; r; e; z] /\ in_range5 s t r e z /\ P s t r e z) /\
  ForallOrdPairs (fun p q => forall x, ~ (interior p x /\ interior q x)) ps.

Lemma union5 : forall extra hps, Forall (fun r => List.length r = 6%nat) extra -> Forall (fun h => List.length h = 6%nat /\ ~ zero_row h) hps -> alive extra [] hps ->
  exists ps, from_union_of_halfplanes E hps (default_constraints ++ extra) = Ret (RDisj (map (fun p => RPoly (plain p)) ps)) /\
    pieces ps (fun s t r e z => Forall (fun row => 0 <= rowval row [s; t; r; e; z]) extra /\ Exists (fun h => 0 <= rowval h [s; t; r; e; z]) hps).
Proof.
  intros extra hps FX FH A.
  destruct (halfplane_polys_ok E OK 6 (default_constraints ++ extra) ltac:(lia)) with (hps := hps) (neg := @nil (list Q)) as (ps & Eps & F1 & F2 & _ & F4).
  { apply Forall_app. split; [exact default_len|exact FX]. }
  { destruct default_nz as (r & Hr & Zr). exists r. split; [apply in_or_app; auto|auto]. }
  { exact FH. } { constructor. }
  exists ps. unfold from_union_of_halfplanes. rewrite Eps. cbn [bind]. split; [reflexivity|]. split; [|split; [|exact F4]].
  - pose proof (halfplanes_solid extra FX hps [] FH ltac:(constructor) A _ Eps) as SO. rewrite Forall_map in SO. eapply Forall_impl; [|exact SO]. cbv beta.
    intros p (q & Eq & Sq). injection Eq as Eq. unfold plain in *. congruence.
  - intro x. rewrite F2. split.
    + intros (L & B & _ & X). destruct (len5 x ltac:(lia)) as (s & t & r & e & z & ->). apply Forall_app in B as [B1 B2]. exists s, t, r, e, z. split; [reflexivity|].
      split; [now apply box5_iff|auto].
    + intros (s & t & r & e & z & -> & B & X1 & X2). split; [reflexivity|]. split; [apply Forall_app; split; [now apply box5_iff|exact X1]|]. split; [constructor|exact X2].
Qed.

Lemma append5 : forall extra a ps P, Forall (fun r => List.length r = 6%nat) extra -> pieces ps P ->
  ((exists s t r e z, inner5 s t r e z /\ Forall (fun row => 0 < rowval row [s; t; r; e; z]) extra) \/
   (forall s t r e z, in_range5 s t r e z -> Forall (fun row => 0 <= rowval row [s; t; r; e; z]) extra -> False)) ->
  List.length a = 6%nat -> ~ zero_row a ->
  (forall p s t r e z, In p ps -> member p [s; t; r; e; z] -> 0 <= rowval a [s; t; r; e; z]) ->
  (forall s t r e z, Forall (fun row => 0 <= rowval row [s; t; r; e; z]) extra -> rowval a [s; t; r; e; z] <= 0) ->
  exists p, append_rect E (RDisj (map (fun p => RPoly (plain p)) ps)) (default_constraints ++ extra) = Ret (RDisj (map (fun p => RPoly (plain p)) (ps ++ [p]))) /\
    (forall s t r e z, member p [s; t; r; e; z] -> Forall (fun row => 0 <= rowval row [s; t; r; e; z]) extra) /\
    pieces (ps ++ [p]) (fun s t r e z => P s t r e z \/ Forall (fun row => 0 <= rowval row [s; t; r; e; z]) extra).
Proof.
  intros extra a ps P FX (S1 & S2 & S3) A La Za HA HB.
  destruct (Polytope_ok E OK (default_constraints ++ extra) false false 6) as (p & Ep & Gp & Np & _ & Mp); [lia|apply Forall_app; split; [exact default_len|exact FX]| |].
  { destruct default_nz as (r & Hr & Zr). exists r. split; [apply in_or_app; auto|auto]. }
  exists p. unfold append_rect. rewrite Ep. cbn [bind append_child]. rewrite map_app. split; [reflexivity|].
  assert (MX : forall s t r e z, member p [s; t; r; e; z] <-> in_range5 s t r e z /\ Forall (fun row => 0 <= rowval row [s; t; r; e; z]) extra).
  { intros s t r e z. rewrite Mp, <- box5_iff. change (Forall (fun r0 : list Q => Spec_Polytope.holds (r0, false) [s; t; r; e; z]) (default_constraints ++ extra)) with (Forall (fun r0 => 0 <= rowval r0 [s; t; r; e; z]) (default_constraints ++ extra)).
    rewrite Forall_app. split; [tauto|]. intro H. split; [reflexivity|exact H]. }
  split; [intros s t r e z M; now apply MX|].
  split; [|split].
  - apply Forall_app. split; [exact S1|]. constructor; [|constructor]. apply (box_solid p extra); auto.
  - intro x. split.
    + intros (q & Iq & Mq). apply in_app_or in Iq as [Iq|[<-|[]]].
      * destruct (proj1 (S2 x)) as (s & t & r & e & z & -> & B & H); [exists q; auto|]. exists s, t, r, e, z. auto.
      * assert (Lx : List.length x = 5%nat) by (destruct Mq as [L _]; rewrite Np in L; lia). destruct (len5 x Lx) as (s & t & r & e & z & ->). apply MX in Mq as [B H]. exists s, t, r, e, z. auto.
    + intros (s & t & r & e & z & -> & B & [H|H]).
      * destruct (proj2 (S2 [s; t; r; e; z])) as (q & Iq & Mq); [exists s, t, r, e, z; auto|]. exists q. split; [apply in_or_app; auto|exact Mq].
      * exists p. split; [apply in_or_app; right; now left|]. apply MX. auto.
  - assert (D : Forall (fun q => forall x, ~ (interior q x /\ interior p x)) ps).
    { apply Forall_forall. intros q Iq x [Iqx Ipx]. rewrite Forall_forall in S1. destruct (S1 q Iq) as (_ & _ & Nq & _). cbn [body plain] in Nq.
      assert (V : 0 < rowval a x).
      { apply (interior_row q); auto. intros y My. assert (Ly : List.length y = 5%nat) by (destruct My as [L _]; rewrite Nq in L; lia).
        destruct (len5 y Ly) as (s & t & r & e & z & ->). exact (HA q s t r e z Iq My). }
      apply Proof_Piecewise.interior_member in Ipx. assert (Lx : List.length x = 5%nat) by (destruct Ipx as [L _]; rewrite Np in L; lia).
      destruct (len5 x Lx) as (s & t & r & e & z & ->). apply MX in Ipx as [_ X]. specialize (HB s t r e z X). lra. }
    clear - S3 D. induction S3 as [|q qs H F IH]; cbn [app]; [repeat constructor|]. apply Forall_cons_iff in D as [D1 D2]. constructor; [|auto].
    apply Forall_app. split; [exact H|]. constructor; [exact D1|constructor].
Qed.

Lemma pieces_record : forall ps P rel h ref params, pieces ps P -> (forall s t r e z, in_range5 s t r e z -> (P s t r e z <-> rel s t r e z)) ->
  h = literature_large_value_energy_region (RDisj (map (fun p => RPoly (plain p)) ps)) ref params -> records h ref params rel.
Proof.
  intros ps P rel h ref params (S1 & S2 & S3) H ->. split; [reflexivity|]. split; [reflexivity|]. split; [reflexivity|].
  eexists. split; [reflexivity|]. split; [|split; [|split]].
  - cbn [disjoint_form]. apply allP_iff. intros q Iq. apply in_map_iff in Iq as (p & <- & _). exact Logic.I.
  - cbn [leaves]. apply allP_iff. intros q Iq. apply in_map_iff in Iq as (p & <- & Ip). cbn [leaves]. rewrite Forall_forall in S1. auto.
  - cbn [truly_disjoint]. split; [apply allP_iff; intros q Iq; apply in_map_iff in Iq as (p & <- & _); exact Logic.I|].
    assert (II : forall p x, inside (denote (RPoly (plain p))) x -> interior p x).
    { intros p x (e & He & I). split; [apply I; split; [reflexivity|]; intro i; setoid_replace (nth i x 0 - nth i x 0) with 0 by ring; cbn; lra|]. exists e. auto. }
    clear - S3 II. induction S3 as [|q qs D F IH]; cbn [map]; constructor; auto. apply Forall_map. eapply Forall_impl; [|exact D]. cbv beta. intros p Hp x [A B]. apply (Hp x). auto.
  - intro x. cbn [denote]. rewrite anyP_iff. transitivity (in_union ps x).
    { unfold in_union. split; [intros (a & Ia & Da); apply in_map_iff in Ia as (p & <- & Ip); eauto|intros (p & Ip & Mp); eexists; split; [apply in_map; exact Ip|exact Mp]]. }
    rewrite S2. split; intros (s & t & r & e & z & Ex & B & X); exists s, t, r, e, z; (split; [exact Ex|]); (split; [exact B|]); now apply (H s t r e z B).
Qed.
End Ext.

(** ** Tactics *)
Ltac nonzero := let Z := fresh in intro Z; unfold zero_row in Z; rewrite !Forall_cons_iff in Z; decompose [and] Z; lra.
Ltac rows_ok := repeat (apply Forall_cons; [split; [reflexivity|nonzero]|]); apply Forall_nil.
Ltac strict_rows := repeat (apply Forall_cons; [rewrite rowval6; lra|]); apply Forall_nil.
Ltac inner := unfold inner5, TAU_UPPER_LIMIT, LV_DEFAULT_UPPER_BOUND; repeat split; lra.
Ltac at_point s t r e z := split; [left; exists s, t, r, e, z; split; [inner|split; [strict_rows|split; [rewrite rowval6; lra|cbn [app]; strict_rows]]]|cbn [app]].
Ltac open_at s t r e z := left; exists s, t, r, e, z; split; [inner|strict_rows].
Ltac pick := first [left; lra|right; pick].
Ltac expand := rewrite ?Exists_cons, ?Exists_nil, ?Forall_cons_iff, ?Forall_nil_iff, ?rowval6.

(** ** The relations *)
Theorem hb_double_region : forall E get, ext_ok E -> exists h, add_lver_heath_brown_1979 E get = Ret h /\
  records h (get (s_of "heathbrown_large_1979")) (s_of " 1") hb_double.
Proof.
  intros E get OK. destruct (union5 E OK [] hb_double_rows) as (ps & Ep & HP); [constructor|rows_ok| |].
  { unfold hb_double_rows. at_point (3#5) (1#10) (1#10) (1#10) (1#10). at_point (3#5) (1#10) (6#5) (1#10) (33#10). at_point (3#5) (47#20) (1#10) (1#10) (11#5). exact Logic.I. }
  rewrite app_nil_r in Ep. unfold add_lver_heath_brown_1979. rewrite Ep. cbn [bind]. eexists. split; [reflexivity|].
  eapply pieces_record; [exact HP| |reflexivity]. intros s t r e z B. cbv beta. unfold hb_double_rows, hb_double, max3. expand.
  split; [intros [_ H]; qmax_cases; lra|intro H; split; [exact Logic.I|]; qmax_cases; pick].
Qed.
Print Assumptions hb_double_region.

Theorem ivic_easy_region : forall E get, ext_ok E -> exists h, add_lver_ivic_1985 E get = Ret h /\ records h (get (s_of "ivic")) [] ivic_easy.
Proof.
  intros E get OK. destruct (union5 E OK [[1; 0; -(1); 0; 0; 0]] ivic_rows) as (ps & Ep & HP); [repeat constructor|rows_ok| |].
  { unfold ivic_rows. at_point (3#5) (1#10) (1#10) (1#10) (1#10). at_point (3#5) (1#10) (6#5) (1#10) (33#10). exact Logic.I. }
  destruct (append5 E OK [[-(1); 0; 1; 0; 0; 0]] [1; 0; -(1); 0; 0; 0] ps _ ltac:(repeat constructor) HP) as (p & Ea & _ & HP2);
    [open_at (3#5) (3#1) (1#10) (1#10) (1#10)|reflexivity|nonzero| | |].
  { intros p s t r e z Ip M. destruct HP as (_ & X & _). assert (U : in_union ps [s; t; r; e; z]) by (exists p; auto). apply X in U as (s' & t' & r' & e' & z' & Eq & _ & F & _).
    injection Eq as <- <- <- <- <-. now apply Forall_cons_iff in F. }
  { intros s t r e z F. apply Forall_cons_iff in F as [F _]. rewrite rowval6 in *. lra. }
  unfold add_lver_ivic_1985. rewrite Ep. cbn [bind]. rewrite Ea. cbn [bind]. eexists. split; [reflexivity|].
  eapply pieces_record; [exact HP2| |reflexivity]. intros s t r e z B. cbv beta. unfold ivic_rows, ivic_easy. expand.
  split; [intros [[T H]|T] T1; [|lra]; qmax_cases; lra|intro H].
  destruct (Qlt_le_dec t 1) as [T|T]; [left; split; [lra|]; specialize (H T); qmax_cases; pick|right; lra].
Qed.
Print Assumptions ivic_easy_region.

Theorem hb_relation_region : forall E get, ext_ok E -> exists h, add_lver_heath_brown_1979b1 E get = Ret h /\
  records h (get (s_of "heathbrown_zero_1979")) (s_of " 2a") hb_relation.
Proof.
  intros E get OK. destruct (union5 E OK [] hb_relation_rows) as (ps & Ep & HP); [constructor|rows_ok| |].
  { unfold hb_relation_rows. at_point (3#5) (1#10) (1#10) (1#10) (1#10). at_point (9#10) (1#10) (7#5) (2#1) (1#10). at_point (9#10) (11#4) (1#10) (7#10) (1#10).
    at_point (9#10) (1#10) (2#3) (19#15) (1#10). at_point (3#5) (1#10) (7#5) (39#10) (1#10). at_point (9#10) (12#5) (4#5) (9#5) (1#10).
    at_point (26#27) (97#54) (11#27) (17#27) (1#27). at_point (3#5) (29#6) (23#15) (77#15) (1#10). at_point (9#10) (51#20) (1#2) (3#2) (1#10). exact Logic.I. }
  rewrite app_nil_r in Ep. unfold add_lver_heath_brown_1979b1. rewrite Ep. cbn [bind]. eexists. split; [reflexivity|].
  eapply pieces_record; [exact HP| |reflexivity]. intros s t r e z B. cbv beta. unfold hb_relation_rows, hb_relation, max3. expand.
  split; [intros [_ H]; qmax_cases; lra|intro H; split; [exact Logic.I|]; qmax_cases; pick].
Qed.
Print Assumptions hb_relation_region.

Theorem hb_simple_region : forall E get, ext_ok E -> exists h, add_lver_heath_brown_1979b2 E get = Ret h /\
  records h (get (s_of "heathbrown_zero_1979")) (s_of " 2b") hb_simple_open.
Proof.
  intros E get OK. destruct (union5 E OK [[3#2; 0; -(1); 0; 0; 0]] hb_simple_rows) as (ps & Ep & HP); [repeat constructor|rows_ok| |].
  { unfold hb_simple_rows. at_point (3#5) (1#10) (2#15) (1#10) (1#10). at_point (3#5) (1#10) (1#10) (1#5) (1#10). at_point (9#10) (1#10) (3#5) (11#10) (1#10). exact Logic.I. }
  destruct (append5 E OK [[-(3#2); 0; 1; 0; 0; 0]] [3#2; 0; -(1); 0; 0; 0] ps _ ltac:(repeat constructor) HP) as (p & Ea & _ & HP2);
    [open_at (3#5) (3#1) (1#10) (1#10) (1#10)|reflexivity|nonzero| | |].
  { intros p s t r e z Ip M. destruct HP as (_ & X & _). assert (U : in_union ps [s; t; r; e; z]) by (exists p; auto). apply X in U as (s' & t' & r' & e' & z' & Eq & _ & F & _).
    injection Eq as <- <- <- <- <-. now apply Forall_cons_iff in F. }
  { intros s t r e z F. apply Forall_cons_iff in F as [F _]. rewrite rowval6 in *. lra. }
  unfold add_lver_heath_brown_1979b2. rewrite Ep. cbn [bind]. rewrite Ea. cbn [bind]. eexists. split; [reflexivity|].
  eapply pieces_record; [exact HP2| |reflexivity]. intros s t r e z B. cbv beta. unfold hb_simple_rows, hb_simple_open, hb_simple_bound, max3. expand.
  split; [intros [[T H]|T] T1; [|lra]; qmax_cases; lra|intro H].
  destruct (Qlt_le_dec t (3#2)) as [T|T]; [left; split; [lra|]; specialize (H T); qmax_cases; pick|right; lra].
Qed.
Print Assumptions hb_simple_region.

Theorem gm_simple_region : forall E get, ext_ok E -> exists h, add_lver_guth_maynard_2024b E get = Ret h /\
  records h (get (s_of "guth-maynard")) (s_of " 2") gm_simple_open.
Proof.
  intros E get OK. destruct (union5 E OK [[3#2; 0; -(1); 0; 0; 0]] gm_simple_rows) as (ps & Ep & HP); [repeat constructor|rows_ok| |].
  { unfold gm_simple_rows. at_point (3#5) (1#10) (2#15) (1#10) (1#10). at_point (3#5) (1#10) (1#10) (1#5) (1#10). exact Logic.I. }
  destruct (append5 E OK [[-(3#2); 0; 1; 0; 0; 0]] [3#2; 0; -(1); 0; 0; 0] ps _ ltac:(repeat constructor) HP) as (p & Ea & _ & HP2);
    [open_at (3#5) (3#1) (1#10) (1#10) (1#10)|reflexivity|nonzero| | |].
  { intros p s t r e z Ip M. destruct HP as (_ & X & _). assert (U : in_union ps [s; t; r; e; z]) by (exists p; auto). apply X in U as (s' & t' & r' & e' & z' & Eq & _ & F & _).
    injection Eq as <- <- <- <- <-. now apply Forall_cons_iff in F. }
  { intros s t r e z F. apply Forall_cons_iff in F as [F _]. rewrite rowval6 in *. lra. }
  unfold add_lver_guth_maynard_2024b. rewrite Ep. cbn [bind]. rewrite Ea. cbn [bind]. eexists. split; [reflexivity|].
  eapply pieces_record; [exact HP2| |reflexivity]. intros s t r e z B. cbv beta. unfold gm_simple_rows, gm_simple_open, gm_simple_bound, max3. expand.
  split; [intros [[T H]|T] T1; [|lra]; qmax_cases; lra|intro H].
  destruct (Qlt_le_dec t (3#2)) as [T|T]; [left; split; [lra|]; specialize (H T); qmax_cases; pick|right; lra].
Qed.
Print Assumptions gm_simple_region.

Theorem gm_third_region : forall E get, ext_ok E -> exists h, add_lver_guth_maynard_2024c E get = Ret h /\
  records h (get (s_of "guth-maynard")) (s_of " 3") gm_third_open.
Proof.
  intros E get OK. destruct (union5 E OK [[4#3; 0; -(1); 0; 0; 0]; [-(1); 0; 1; 0; 0; 0]] gm_third_rows) as (ps & Ep & HP); [repeat constructor|rows_ok| |].
  { unfold gm_third_rows. at_point (3#5) (11#10) (1#10) (1#10) (1#10). at_point (9#10) (11#10) (9#13) (31#26) (1#10). at_point (3#5) (11#10) (19#15) (7#2) (1#10). exact Logic.I. }
  assert (Low : forall p s t r e z, In p ps -> member p [s; t; r; e; z] -> 0 <= rowval [4#3; 0; -(1); 0; 0; 0] [s; t; r; e; z] /\ 0 <= rowval [-(1); 0; 1; 0; 0; 0] [s; t; r; e; z]).
  { intros p s t r e z Ip M. destruct HP as (_ & X & _). assert (U : in_union ps [s; t; r; e; z]) by (exists p; auto). apply X in U as (s' & t' & r' & e' & z' & Eq & _ & F & _).
    injection Eq as <- <- <- <- <-. rewrite !Forall_cons_iff in F. tauto. }
  destruct (append5 E OK [[-(4#3); 0; 1; 0; 0; 0]] [4#3; 0; -(1); 0; 0; 0] ps _ ltac:(repeat constructor) HP) as (p & Ea & Mp & HP2);
    [open_at (3#5) (3#1) (1#10) (1#10) (1#10)|reflexivity|nonzero| | |].
  { intros p s t r e z Ip M. exact (proj1 (Low p s t r e z Ip M)). }
  { intros s t r e z F. apply Forall_cons_iff in F as [F _]. rewrite rowval6 in *. lra. }
  destruct (append5 E OK [[1; 0; -(1); 0; 0; 0]] [-(1); 0; 1; 0; 0; 0] (ps ++ [p]) _ ltac:(repeat constructor) HP2) as (p' & Eb & _ & HP3);
    [open_at (3#5) (1#2) (1#10) (1#10) (1#10)|reflexivity|nonzero| | |].
  { intros q s t r e z Iq M. apply in_app_or in Iq as [Iq|[<-|[]]]; [exact (proj2 (Low q s t r e z Iq M))|]. apply Mp in M. apply Forall_cons_iff in M as [M _]. rewrite rowval6 in *. lra. }
  { intros s t r e z F. apply Forall_cons_iff in F as [F _]. rewrite rowval6 in *. lra. }
  unfold add_lver_guth_maynard_2024c. rewrite Ep. cbn [bind]. rewrite Ea. cbn [bind]. rewrite Eb. cbn [bind]. eexists. split; [reflexivity|].
  eapply pieces_record; [exact HP3| |reflexivity]. intros s t r e z B. cbv beta. unfold gm_third_rows, gm_third_open, gm_third_bound, max3. expand.
  split; [intros [[[T H]|T]|T] T1 T2; [|lra|lra]; qmax_cases; lra|intro H].
  destruct (Qlt_le_dec t (4#3)) as [T|T]; [|left; right; lra]. destruct (Qlt_le_dec 1 t) as [T'|T']; [|right; lra].
  left. left. split; [lra|]. specialize (H T' T). qmax_cases; pick.
Qed.
Print Assumptions gm_third_region.

(** ** The relations with a parameter k *)
Lemma range1_each : forall (f : Z -> res enode) (P : Z -> enode -> Prop) K, (forall k, (1 <= k)%Z -> exists h, f k = Ret h /\ P k h) ->
  exists hs, mapM f (range1 K) = Ret hs /\ List.length hs = Z.to_nat (K - 1) /\
    forall k, (1 <= k < K)%Z -> exists h, nth_error hs (Z.to_nat (k - 1)) = Some h /\ P k h.
Proof.
  intros f P K X. destruct (mapM_ret _ _ f (range1 K)) as (hs & Eh).
  { intros k Ik. unfold range1 in Ik. apply in_map_iff in Ik as (n & <- & In). apply in_seq in In. destruct (X (Z.of_nat n)) as (h & A & _); [lia|eauto]. }
  exists hs. split; [exact Eh|]. apply mapM_Forall2 in Eh. assert (L : List.length (range1 K) = List.length hs) by (clear - Eh; induction Eh; cbn [List.length]; congruence). unfold range1 in L. rewrite map_length, seq_length in L.
  split; [lia|]. intros k Hk. destruct (X k) as (h & A & B); [lia|]. exists h. split; [|exact B].
  assert (Nk : nth_error (range1 K) (Z.to_nat (k - 1)) = Some k).
  { unfold range1. rewrite nth_error_map. rewrite (nth_error_nth' _ 0%nat) by (rewrite seq_length; lia). rewrite seq_nth by lia. cbn [option_map]. f_equal. lia. }
  revert Nk A. generalize (Z.to_nat (k - 1)) as i. clear - Eh. induction Eh as [|a b l l' H F IH]; intros [|i]; cbn [nth_error]; intros Hi A; try discriminate.
  - injection Hi as ->. congruence.
  - now apply IH.
Qed.

Lemma K_pos : forall k, (1 <= k)%Z -> 1 <= inject_Z k.
Proof. intros k H. change 1 with (inject_Z 1). rewrite <- Zle_Qle. exact H. Qed.

Theorem hb_second_regions : forall E get K, ext_ok E ->
  exists hs, add_lver_heath_brown_1979c E get K = Ret hs /\ List.length hs = Z.to_nat (K - 1) /\
    forall k, (1 <= k < K)%Z -> exists h, nth_error hs (Z.to_nat (k - 1)) = Some h /\
      records h (get (s_of "heathbrown_zero_1979")) (s_of " 3 with k = " ++ z_str k) (hb_second k).
Proof.
  intros E get K OK. unfold add_lver_heath_brown_1979c. apply range1_each with (P := fun k h => records h _ _ (hb_second k)). intros k Hk.
  pose proof (K_pos k Hk) as K1.
  assert (E1 : inject_Z (3 * k) / 4 == (3#4) * inject_Z k) by (rewrite inject_Z_mult; field).
  assert (E2 : inject_Z k / 2 == (1#2) * inject_Z k) by field.
  assert (E3 : inject_Z k / 4 == (1#4) * inject_Z k) by field.
  assert (K2 : inject_Z k == 1 \/ 2 <= inject_Z k).
  { assert (k = 1 \/ 2 <= k)%Z as [->|H2] by lia; [left; reflexivity|right]. change 2 with (inject_Z 2). rewrite <- Zle_Qle. exact H2. }
  unfold hb_second_region, hb_second_rows, hb_second. set (Kq := inject_Z k) in *. set (c1 := inject_Z (3 * k) / 4) in *. set (c2 := Kq / 2) in *. set (c3 := Kq / 4) in *.
  clearbody c1 c2 c3. clearbody Kq.
  destruct (union5 E OK [] [[2; -(2); 0; -(1); 0; 0]; [c1; - Kq; 1#4; -(1); 1#4; 0]; [c2; - Kq; c3; -(1); 1#4; 0]]) as (ps & Ep & HP); [constructor|rows_ok| |].
  { at_point (3#5) (1#10) (1#10) (1#10) (1#10). at_point (3#4) (3#1) (3#5) (1#10) (1#10).
    destruct K2 as [K2|K2]; [|at_point (3#4) (52#25) (11#20) (1#10) (1#10); exact Logic.I].
    split; [right|exact Logic.I]. intros s t r e z _ _ H F. rewrite !Forall_cons_iff, !rowval6 in F. rewrite rowval6 in H. destruct F as (F1 & F2 & _).
    rewrite E1, K2 in F2. rewrite E2, E3, K2 in H. lra. }
  rewrite app_nil_r in Ep. rewrite Ep. cbn [bind]. eexists. split; [reflexivity|].
  eapply pieces_record; [exact HP| |reflexivity]. intros s t r e z B. cbv beta zeta. expand. rewrite E1, E2, E3.
  split; [intros [_ H]; destruct H as [H|[H|[H|[]]]]; qmax_cases; lra|intro H; split; [exact Logic.I|]].
  qmax_cases; pick.
Qed.
Print Assumptions hb_second_regions.

Lemma le_qmax : forall x a b, x <= qmax a b <-> x <= a \/ x <= b.
Proof. intros x a b. destruct (qmax_spec a b) as (? & ? & [H1|H1]); rewrite H1 in *; split; try tauto; intros [H2|H2]; lra. Qed.
Lemma le_third : forall x c a b, x <= c + qmax a b * (1#3) <-> x <= c + a * (1#3) \/ x <= c + b * (1#3).
Proof. intros x c a b. destruct (qmax_spec a b) as (? & ? & [H1|H1]); rewrite H1 in *; split; try tauto; intros [H2|H2]; lra. Qed.
Ltac pick_any := match goal with |- _ \/ _ => first [left; pick_any|right; pick_any] | _ => lra end.
Ltac each_case := split; (let H := fresh in intro H; repeat match type of H with _ \/ _ => destruct H as [H|H] end; try contradiction; pick_any).

Lemma gm_relation_record : forall E get k, ext_ok E -> (1 <= k)%Z -> exists h, gm_relation_region E get k = Ret h /\
  records h (get (s_of "guth-maynard")) (s_of " 1 with k = " ++ z_str k) (gm_recorded k).
Proof.
  intros E get k OK Hk. pose proof (K_pos k Hk) as K1.
  assert (E1 : inject_Z (k + 1) / inject_Z k == 1 + 1 / inject_Z k) by (rewrite inject_Z_plus; field; lra).
  assert (E2 : 1 / inject_Z (6 * k) == (1#6) * (1 / inject_Z k)) by (rewrite inject_Z_mult; field; lra).
  assert (E3 : 1 / inject_Z (4 * k) == (1#4) * (1 / inject_Z k)) by (rewrite inject_Z_mult; field; lra).
  assert (I1 : 0 < 1 / inject_Z k) by (apply Qlt_shift_div_l; lra).
  assert (I2 : 1 / inject_Z k <= 1) by (apply Qle_shift_div_r; lra).
  assert (E4 : forall x, x / inject_Z k == x * (1 / inject_Z k)) by (intro x; field; lra).
  unfold gm_relation_region, gm_common, gm_first, gm_second, gm_recorded, gm_with, gm_S2. cbn [app].
  set (c1 := inject_Z (k + 1) / inject_Z k) in *. set (c2 := 1 / inject_Z (6 * k)) in *. set (c3 := 1 / inject_Z (4 * k)) in *. set (i := 1 / inject_Z k) in *.
  clearbody c1 c2 c3 i.
  assert (J : i * i <= i) by nra. assert (J0 : 0 < i * i) by nra.
  assert (C1 : exists rest1, alive [] [] ([[2; -(2); 0; -(1); 0; 0]; [-(7#3); -(2); 0; -(1); 0; 0]; [5; -(6); 0; -(1); 0; 0]; [4; -(6); 1; - c1; 0; 0]; [5#3; -(2); c2; -(1#3) - c3; 0; 0]] ++ rest1) /\ rest1 = [[1; -(2); 2#3; 1#6; -(5#6); 0]]).
  { eexists. split; [|reflexivity]. cbn [app]. at_point (3#5) (1#10) (1#10) (1#10) (1#10).
    split; [right; intros s t r e z ((A1 & A2 & A3 & A4 & A5 & A6) & _) _ H _; rewrite rowval6 in H; lra|cbn [app]].
    at_point (7#10) (1#10) (7#10) (1#10) (1#10). at_point (9#10) (3#1) (3#10) (1#10) (1#10).
    assert (c1 * ((1#2) + (1#16) * i) == (1 + i) * ((1#2) + (1#16) * i)) by (rewrite E1; ring).
    assert (c2 * (1 + (1#2) * i) == (1#6) * i * (1 + (1#2) * i)) by (rewrite E2; ring).
    assert (c3 * ((1#2) + (1#16) * i) == (1#4) * i * ((1#2) + (1#16) * i)) by (rewrite E3; ring).
    at_point (3#4) (1 + (1#2) * i) ((1#2) + (1#16) * i) (1#10) (1#10).
    at_point (9#10) (3#2) 1 (1#100) (1#10). exact Logic.I. }
  assert (C2 : exists rest1, alive [] [] ([[2; -(2); 0; -(1); 0; 0]; [-(7#3); -(2); 0; -(1); 0; 0]; [5; -(6); 0; -(1); 0; 0]; [4; -(6); 1; - c1; 0; 0]; [5#3; -(2); c2; -(1#3) - c3; 0; 0]] ++ rest1) /\ rest1 = [[1; -(2); 2#3; -(1#2); 0; 0]; [4#3; -(2); 1#3; -(5#6); 1#6; 0]]).
  { eexists. split; [|reflexivity]. cbn [app]. at_point (3#5) (1#10) (1#10) (1#10) (1#10).
    split; [right; intros s t r e z ((A1 & A2 & A3 & A4 & A5 & A6) & _) _ H _; rewrite rowval6 in H; lra|cbn [app]].
    at_point (7#10) (1#10) (7#10) (1#10) (1#10). at_point (9#10) (3#1) (3#10) (1#10) (1#10).
    assert (c1 * ((1#2) + (1#16) * i) == (1 + i) * ((1#2) + (1#16) * i)) by (rewrite E1; ring).
    assert (c2 * (1 + (1#2) * i) == (1#6) * i * (1 + (1#2) * i)) by (rewrite E2; ring).
    assert (c3 * ((1#2) + (1#16) * i) == (1#4) * i * ((1#2) + (1#16) * i)) by (rewrite E3; ring).
    at_point (3#4) (1 + (1#2) * i) ((1#2) + (1#16) * i) (1#10) (1#10).
    at_point (9#10) (2#1) 1 (1#10) (1#10). at_point (9#10) 1 1 (10#1) (1#10). exact Logic.I. }
  destruct C1 as (? & C1 & ->). destruct C2 as (? & C2 & ->). cbn [app] in C1, C2.
  match type of C1 with alive _ _ ?l => destruct (union5 E OK [] l) as (ps & Ep & HP); [constructor|rows_ok|exact C1|] end.
  match type of C2 with alive _ _ ?l => destruct (union5 E OK [] l) as (qs & Eq & HQ); [constructor|rows_ok|exact C2|] end.
  rewrite app_nil_r in Ep, Eq. rewrite Ep. cbn [bind]. rewrite Eq. cbn [bind]. eexists. split; [reflexivity|].
  assert (RP := pieces_record ps _ _ _ (get []) [] HP (fun s t r e z _ => iff_refl _) eq_refl). assert (RQ := pieces_record qs _ _ _ (get []) [] HQ (fun s t r e z _ => iff_refl _) eq_refl).
  destruct RP as (_ & _ & _ & R1 & D1 & F1 & L1 & T1 & M1). destruct RQ as (_ & _ & _ & R2 & D2 & F2 & L2 & T2 & M2). injection D1 as <-. injection D2 as <-.
  split; [reflexivity|]. split; [reflexivity|]. split; [reflexivity|]. eexists. split; [reflexivity|].
  split; [split; [discriminate|]; exact (conj F1 (conj F2 Logic.I))|]. split; [exact (conj L1 (conj L2 Logic.I))|]. split; [exact (conj T1 (conj T2 Logic.I))|].
  intro x. transitivity (denote (RDisj (map (fun p : polytope => RPoly (plain p)) ps)) x /\ denote (RDisj (map (fun p : polytope => RPoly (plain p)) qs)) x).
  { split; [intros (A & B & _); split; [exact A|exact B]|intros (A & B); split; [exact A|split; [exact B|exact Logic.I]]]. }
  rewrite M1, M2. clear M1 M2 HP HQ F1 F2 L1 L2 T1 T2 Ep Eq C1 C2.
  assert (EQV : forall s t r e z,
    ((Exists (fun h : list Q => 0 <= rowval h [s; t; r; e; z]) [[2; -(2); 0; -(1); 0; 0]; [-(7#3); -(2); 0; -(1); 0; 0]; [5; -(6); 0; -(1); 0; 0]; [4; -(6); 1; - c1; 0; 0]; [5#3; -(2); c2; -(1#3) - c3; 0; 0]; [1; -(2); 2#3; 1#6; -(5#6); 0]] <->
      (r <= qmax (2 - 2 * s) (1 - 2 * s + qmax gm_S1 (max3 (2 + 2 * r) (t + 1 + (2 - i) * r) (2 + 2 * r + (t * (1 # 2) - r * (3 # 4)) / inject_Z k)) * (1 # 3)) \/ 5 * e <= 6 - 12 * s + 4 * t + r)) /\
     (Exists (fun h : list Q => 0 <= rowval h [s; t; r; e; z]) [[2; -(2); 0; -(1); 0; 0]; [-(7#3); -(2); 0; -(1); 0; 0]; [5; -(6); 0; -(1); 0; 0]; [4; -(6); 1; - c1; 0; 0]; [5#3; -(2); c2; -(1#3) - c3; 0; 0]; [1; -(2); 2#3; -(1#2); 0; 0]; [4#3; -(2); 1#3; -(5#6); 1#6; 0]] <->
      r <= qmax (2 - 2 * s) (1 - 2 * s + max3 gm_S1 (max3 (2 + 2 * r) (t + 1 + (2 - i) * r) (2 + 2 * r + (t * (1 # 2) - r * (3 # 4)) / inject_Z k)) (gm_S3b t r e) * (1 # 3))))).
  { intros s t r e z. pose proof (E4 (t * (1 # 2) - r * (3 # 4))) as X. set (y := (t * (1 # 2) - r * (3 # 4)) / inject_Z k) in *. clearbody y.
    expand. rewrite E1, E2, E3. unfold max3, gm_S1, gm_S3b. rewrite !le_qmax, !le_third. split; each_case. }
  split.
  - intros [(s & t & r & e & z & -> & B & _ & X1) (s' & t' & r' & e' & z' & Eq & _ & _ & X2)]. injection Eq as <- <- <- <- <-. exists s, t, r, e, z. split; [reflexivity|]. split; [exact B|].
    destruct (EQV s t r e z) as [Q1 Q2]. split; [apply Q1; exact X1|apply Q2; exact X2].
  - intros (s & t & r & e & z & -> & B & X1 & X2). destruct (EQV s t r e z) as [Q1 Q2].
    split; exists s, t, r, e, z; (split; [reflexivity|]); (split; [exact B|]); (split; [constructor|]); [apply Q1; exact X1|apply Q2; exact X2].
Qed.

Theorem gm_relation_regions : forall E get K, ext_ok E ->
  exists hs, add_lver_guth_maynard_2024a E get K = Ret hs /\ List.length hs = Z.to_nat (K - 1) /\
    forall k, (1 <= k < K)%Z -> exists h, nth_error hs (Z.to_nat (k - 1)) = Some h /\
      records h (get (s_of "guth-maynard")) (s_of " 1 with k = " ++ z_str k) (gm_recorded k).
Proof.
  intros E get K OK. unfold add_lver_guth_maynard_2024a. apply range1_each with (P := fun k h => records h _ _ (gm_recorded k)). intros k Hk. now apply gm_relation_record.
Qed.
Print Assumptions gm_relation_regions.

(** ** What the recorded regions mean *)
Theorem recorded_meaning : forall h ref params rel, records h ref params rel ->
  exists R, e_data h = DLVER R /\ forall W, lver_estimate W R <-> obeys W rel.
Proof.
  intros h ref params rel (_ & _ & _ & R & D & _ & _ & _ & M). exists R. split; [exact D|]. intro W. split; intros H s t r e z Rc En.
  - specialize (H s t r e z Rc En). apply M in H as (s' & t' & r' & e' & z' & Eq & _ & X). now injection Eq as <- <- <- <- <-.
  - apply M. exists s, t, r, e, z. split; [reflexivity|]. split; [exact (proj1 Rc)|exact (H s t r e z Rc En)].
Qed.
Print Assumptions recorded_meaning.

(** The relations that hold up to tau = 3/2, or between 1 and 4/3, imply what is recorded
    for them. *)
Theorem published_implies_recorded : forall W,
  (obeys W hb_simple -> obeys W hb_simple_open) /\ (obeys W gm_simple -> obeys W gm_simple_open) /\ (obeys W gm_third -> obeys W gm_third_open).
Proof.
  intro W. split; [|split]; intros H s t r e z Rc En; specialize (H s t r e z Rc En); [intro T; apply H; lra|intro T; apply H; lra|intros T T'; apply H; lra].
Qed.
Print Assumptions published_implies_recorded.

Lemma single_obeys : forall L s t r e z rel, recorded s t r e z ->
  (obeys (single_world L [s; t; r; e; z]) rel -> rel s t r e z).
Proof. intros L s t r e z rel Rc H. apply H; [exact Rc|]. cbn [en single_world]. repeat (constructor; [reflexivity|]). constructor. Qed.
Lemma single_point : forall L p s t r e z, en (single_world L p) [s; t; r; e; z] -> exists s' t' r' e' z', p = [s'; t'; r'; e'; z'] /\ s == s' /\ t == t' /\ r == r' /\ e == e' /\ z == z'.
Proof.
  intros L p s t r e z F. cbn [en single_world] in F.
  destruct p as [|a1 [|a2 [|a3 [|a4 [|a5 [|a6 p]]]]]]; repeat match goal with H : Forall2 _ _ _ |- _ => inversion H; clear H; subst end.
  exists a1, a2, a3, a4, a5. auto 10.
Qed.

Ltac in_recorded := unfold recorded, in_range5, in_range, TAU_UPPER_LIMIT, LV_DEFAULT_UPPER_BOUND; repeat split; lra.

(** The converse fails: at the ends of the range of tau the relations are not recorded.
    A pattern with tau = 3/2, or 1, or 4/3, and rho* = 3 rho is compatible with the
    regions and not with the relations. *)
Theorem range_ends_refuted : forall L, 
  (exists W, low W = L /\ obeys W hb_simple_open /\ ~ obeys W hb_simple) /\
  (exists W, low W = L /\ obeys W gm_simple_open /\ ~ obeys W gm_simple) /\
  (forall t0, t0 == 1 \/ t0 == 4#3 -> exists W, low W = L /\ (forall s t r e z, en W [s; t; r; e; z] -> t == t0) /\ obeys W gm_third_open /\ ~ obeys W gm_third).
Proof.
  intro L. split; [|split].
  - exists (single_world L [9#10; 3#2; 1; 3; 1]). split; [reflexivity|]. split.
    + intros s t r e z _ En T. apply single_point in En as (s' & t' & r' & e' & z' & Eq & A1 & A2 & A3 & A4 & A5). injection Eq as <- <- <- <- <-. lra.
    + intro H. apply single_obeys in H; [|in_recorded]. unfold hb_simple, hb_simple_bound, max3 in H. specialize (H ltac:(lra)). qmax_cases; lra.
  - exists (single_world L [9#10; 3#2; 1; 3; 1]). split; [reflexivity|]. split.
    + intros s t r e z _ En T. apply single_point in En as (s' & t' & r' & e' & z' & Eq & A1 & A2 & A3 & A4 & A5). injection Eq as <- <- <- <- <-. lra.
    + intro H. apply single_obeys in H; [|in_recorded]. unfold gm_simple, gm_simple_bound in H. specialize (H ltac:(lra)). qmax_cases; lra.
  - intros t0 T0. exists (single_world L [9#10; t0; 1; 3; 1]). split; [reflexivity|]. split; [|split].
    + intros s t r e z En. apply single_point in En as (s' & t' & r' & e' & z' & Eq & A1 & A2 & A3 & A4 & A5). now injection Eq as <- <- <- <- <-.
    + intros s t r e z _ En T1 T2. apply single_point in En as (s' & t' & r' & e' & z' & Eq & A1 & A2 & A3 & A4 & A5). injection Eq as <- <- <- <- <-. destruct T0; lra.
    + assert (1 <= t0 /\ t0 <= 4#3) by (destruct T0; split; lra).
      intro H'. apply single_obeys in H'; [|in_recorded]. unfold gm_third, gm_third_bound, max3 in H'. specialize (H' ltac:(lra) ltac:(lra)). qmax_cases; lra.
Qed.
Print Assumptions range_ends_refuted.

(** In the Guth-Maynard relation the coefficients of rho and rho* from the first bound on
    S_3 have been exchanged.  A pattern with rho* = 3 rho that has the relation for every
    k is excluded by the recorded region, for every k. *)
Theorem gm_relation_swapped_refuted : forall L, exists W s t r e z, low W = L /\ recorded s t r e z /\ en W [s; t; r; e; z] /\ e == 3 * r /\
  (forall k, (1 <= k)%Z -> obeys W (gm_relation k)) /\
  forall E get K hs, ext_ok E -> add_lver_guth_maynard_2024a E get K = Ret hs -> forall h R, In h hs -> e_data h = DLVER R -> ~ lver_estimate W R.
Proof.
  intro L. exists (single_world L [9#10; 2; 3#5; 9#5; 1]), (9#10), 2, (3#5), (9#5), 1. split; [reflexivity|]. split; [in_recorded|]. split; [cbn [en single_world]; repeat (constructor; [reflexivity|]); constructor|]. split; [reflexivity|].
  assert (Inv : forall k, (1 <= k)%Z -> 0 < 1 / inject_Z k /\ 1 / inject_Z k <= 1 /\ forall x, x / inject_Z k == x * (1 / inject_Z k)).
  { intros k Hk. pose proof (K_pos k Hk). split; [apply Qlt_shift_div_l; lra|]. split; [apply Qle_shift_div_r; lra|]. intro x. field. lra. }
  split.
  - intros k Hk s t r e z _ En. apply single_point in En as (s' & t' & r' & e' & z' & Eq & A1 & A2 & A3 & A4 & A5). injection Eq as <- <- <- <- <-.
    split; unfold gm_with, max3, gm_S3a, gm_S3b; rewrite !le_qmax, !le_third; right; right; right; rewrite ?le_third; try left; lra.
  - intros E get K hs OK Eh h R Ih D H. destruct (gm_relation_regions E get K OK) as (hs' & Eh' & Ln & X). rewrite Eh in Eh'. injection Eh' as <-.
    apply In_nth_error in Ih as (i & Hi). assert (Li : (i < List.length hs)%nat) by (apply nth_error_Some; congruence).
    destruct (X (Z.of_nat (S i)) ltac:(lia)) as (h' & Hi' & Rh). replace (Z.to_nat (Z.of_nat (S i) - 1)) with i in Hi' by lia. rewrite Hi in Hi'. injection Hi' as <-.
    destruct (recorded_meaning _ _ _ _ Rh) as (R' & D' & M). rewrite D in D'. injection D' as <-. apply M in H. apply single_obeys in H; [|in_recorded].
    destruct (Inv (Z.of_nat (S i)) ltac:(lia)) as (I1 & I2 & I3). destruct H as [H _]. unfold gm_S2, gm_S1, max3 in H. pose proof (I3 (2 * (1#2) - (3#5) * (3#4))). rewrite !le_qmax, !le_third in H.
    repeat match type of H with _ \/ _ => destruct H as [H|H] end; lra.
Qed.
Print Assumptions gm_relation_swapped_refuted.

(** ** The power rule *)
Lemma record_closed : forall h ref params rel, records h ref params rel ->
  (forall s t r e z r' e' z1 z2, r' <= r -> e' <= e -> rel s t r e' z1 -> rel s t r' e z2 -> rel s t r e z) ->
  forall R, e_data h = DLVER R -> power_closed R.
Proof.
  intros h ref params rel (_ & _ & _ & R' & D' & _ & _ & _ & M) C R D. rewrite D in D'. injection D' as <-.
  intros s t r e z r' e' z1 z2 Rc Hr He A B. apply M in A as (s1 & t1 & r1 & e1 & z1' & Eq & _ & A). injection Eq as <- <- <- <- <-.
  apply M in B as (s2 & t2 & r2 & e2 & z2' & Eq & _ & B). injection Eq as <- <- <- <- <-.
  apply M. exists s, t, r, e, z. split; [reflexivity|]. split; [exact (proj1 Rc)|]. eauto.
Qed.

(** The power rule applies to these relations. *)
Theorem power_rule_applies : forall h ref params rel, records h ref params rel ->
  rel = hb_relation \/ rel = hb_simple_open \/ rel = gm_simple_open \/ rel = gm_third_open \/ (exists k, rel = hb_second k) ->
  forall R, e_data h = DLVER R -> power_closed R.
Proof.
  intros h ref params rel Rh C. apply (record_closed h ref params rel Rh). clear Rh. destruct C as [->|[->|[->|[->|(k & ->)]]]].
  - unfold hb_relation, max3. intros. qmax_cases; lra.
  - unfold hb_simple_open, hb_simple_bound, max3. intros s t r e z r' e' z1 z2 Hr He A B T. specialize (B T). clear A. qmax_cases; lra.
  - unfold gm_simple_open, gm_simple_bound, max3. intros s t r e z r' e' z1 z2 Hr He A B T. specialize (B T). clear A. qmax_cases; lra.
  - unfold gm_third_open, gm_third_bound, max3. intros s t r e z r' e' z1 z2 Hr He A B T T'. specialize (B T T'). clear A. qmax_cases; lra.
  - unfold hb_second. cbv zeta. intros s t r e z r' e' z1 z2 Hr He A _. rewrite le_qmax in *. destruct A as [A|A]; [now left|right]. lra.
Qed.
Print Assumptions power_rule_applies.

(** The power rule does not apply to the regions that bound the double zeta sums, nor to
    the recorded Guth-Maynard relation, although the true relation is closed in the sense
    of the rule. *)
Theorem power_rule_refuted :
  (forall h ref params R, records h ref params hb_double -> e_data h = DLVER R -> ~ power_closed R) /\
  (forall h ref params R, records h ref params ivic_easy -> e_data h = DLVER R -> ~ power_closed R) /\
  (forall h ref params R k, (1 <= k)%Z -> records h ref params (gm_recorded k) -> e_data h = DLVER R -> ~ power_closed R) /\
  (forall k s t r e z r' e' z1 z2, r' <= r -> e' <= e -> gm_relation k s t r e' z1 -> gm_relation k s t r' e z2 -> gm_relation k s t r e z).
Proof.
  split; [|split; [|split]].
  - intros h ref params R (_ & _ & _ & R' & D' & _ & _ & _ & M) D H. rewrite D in D'. injection D' as <-.
    assert (X : denote R [3#5; 1#2; 1; 1; 4]).
    { apply (H (3#5) (1#2) 1 1 4 1 1 1 1); [in_recorded|lra|lra| |]; apply M; exists (3#5), (1#2), 1, 1, 1; (split; [reflexivity|]); (split; [in_recorded|]); unfold hb_double, max3; qmax_cases; lra. }
    apply M in X as (s & t & r & e & z & Eq & _ & X). injection Eq as <- <- <- <- <-. unfold hb_double, max3 in X. qmax_cases; lra.
  - intros h ref params R (_ & _ & _ & R' & D' & _ & _ & _ & M) D H. rewrite D in D'. injection D' as <-.
    assert (X : denote R [3#5; 1#2; 1; 1; 4]).
    { apply (H (3#5) (1#2) 1 1 4 1 1 1 1); [in_recorded|lra|lra| |]; apply M; exists (3#5), (1#2), 1, 1, 1; (split; [reflexivity|]); (split; [in_recorded|]); unfold ivic_easy; intro; qmax_cases; lra. }
    apply M in X as (s & t & r & e & z & Eq & _ & X). injection Eq as <- <- <- <- <-. unfold ivic_easy in X. specialize (X ltac:(lra)). qmax_cases; lra.
  - intros h ref params R k Hk (_ & _ & _ & R' & D' & _ & _ & _ & M) D H. rewrite D in D'. injection D' as <-.
    pose proof (K_pos k Hk) as K1. assert (I1 : 0 < 1 / inject_Z k) by (apply Qlt_shift_div_l; lra). assert (I2 : 1 / inject_Z k <= 1) by (apply Qle_shift_div_r; lra).
    assert (I3 : forall x, x / inject_Z k == x * (1 / inject_Z k)) by (intro x; field; lra).
    assert (X : denote R [9#10; 2; 3#5; 9#5; 1]).
    { apply (H (9#10) 2 (3#5) (9#5) 1 (1#10) 0 1 1); [in_recorded|lra|lra| |]; apply M.
      - exists (9#10), 2, (3#5), 0, 1. split; [reflexivity|]. split; [in_recorded|]. split; [right; lra|]. unfold gm_with, max3, gm_S3b. rewrite !le_qmax, !le_third. right; right; right; left; lra.
      - exists (9#10), 2, (1#10), (9#5), 1. split; [reflexivity|]. split; [in_recorded|]. split; [left; rewrite le_qmax; left; lra|]. unfold gm_with. rewrite le_qmax. left; lra. }
    apply M in X as (s & t & r & e & z & Eq & _ & X & _). injection Eq as <- <- <- <- <-. unfold gm_S2, gm_S1, max3 in X. pose proof (I3 (2 * (1#2) - (3#5) * (3#4))). rewrite !le_qmax, !le_third in X.
    repeat match type of X with _ \/ _ => destruct X as [X|X] end; lra.
  - intros k s t r e z r' e' z1 z2 Hr He [A1 A2] _. split; unfold gm_with, max3, gm_S3a, gm_S3b in *; rewrite !le_qmax, !le_third in *.
    + repeat match type of A1 with _ \/ _ => destruct A1 as [A1|A1] end; [tauto|tauto|tauto|right; right; right; lra].
    + repeat match type of A2 with _ \/ _ => destruct A2 as [A2|A2] end; [tauto|tauto|tauto|tauto|right; right; right; right; lra].
Qed.
Print Assumptions power_rule_refuted.

(** ** Examples *)

(** With the verified solver the second relation for k = 3 is the third hypothesis added
    by the call in the file, and it is known under that name. *)
Example hb_second_third : forall get, exists hs h R, add_lver_heath_brown_1979c fm_ext get 5 = Ret hs /\ List.length hs = 4%nat /\ nth_error hs 2 = Some h /\
  e_name h = author_str (get (s_of "heathbrown_zero_1979")) ++ s_of " large value energy region" ++ s_of " 3 with k = 3" /\ e_data h = DLVER R /\
  denote R [4#5; 2; 2#5; 1; 1] /\ ~ denote R [4#5; 1; 1; 2; 1].
Proof.
  intro get. destruct (hb_second_regions fm_ext get 5 fm_ext_ok) as (hs & Eh & Ln & X). destruct (X 3%Z ltac:(lia)) as (h & Hh & Rh).
  destruct Rh as (_ & _ & Nm & R & D & _ & _ & _ & M). exists hs, h, R. split; [exact Eh|]. split; [exact Ln|]. split; [exact Hh|]. split; [exact Nm|]. split; [exact D|]. split.
  - apply M. exists (4#5), 2, (2#5), 1, 1. split; [reflexivity|]. split; [in_recorded|]. unfold hb_second. cbv zeta. rewrite le_qmax. left. lra.
  - intro H. apply M in H as (s & t & r & e & z & Eq & _ & H). injection Eq as <- <- <- <- <-. unfold hb_second in H. cbv zeta in H. change (inject_Z 3) with 3 in H. qmax_cases; lra.
Qed.

(** A world with the patterns of a single length obeys all the relations, in the published
    form; its tuple is not on the boundary of the relations. *)
Example relations_hold : forall L, let W := single_world L [7#10; 6#5; 1#2; 11#10; 3#2] in
  obeys W hb_double /\ obeys W ivic_easy /\ obeys W hb_relation /\ obeys W hb_simple /\ obeys W gm_simple /\ obeys W gm_third /\
  obeys W (hb_second 1) /\ obeys W (gm_relation 1) /\ recorded (7#10) (6#5) (1#2) (11#10) (3#2).
Proof.
  intros L W.
  assert (X : forall rel : relation, (forall s t r e z, s == 7#10 -> t == 6#5 -> r == 1#2 -> e == 11#10 -> z == 3#2 -> rel s t r e z) -> obeys W rel).
  { intros rel H s t r e z _ En. apply single_point in En as (s' & t' & r' & e' & z' & Eq & A). injection Eq as <- <- <- <- <-. now apply H. }
  split; [apply X; intros; unfold hb_double, max3; qmax_cases; lra|]. split; [apply X; intros; unfold ivic_easy; intro; lra|].
  split; [apply X; intros; unfold hb_relation, max3; qmax_cases; lra|]. split; [apply X; intros; unfold hb_simple, hb_simple_bound, max3; intro; qmax_cases; lra|].
  split; [apply X; intros; unfold gm_simple, gm_simple_bound; intro; qmax_cases; lra|]. split; [apply X; intros; unfold gm_third, gm_third_bound, max3; intros ? ?; qmax_cases; lra|].
  split; [apply X; intros; unfold hb_second; cbv zeta; rewrite le_qmax; left; lra|]. split; [|in_recorded].
  apply X. intros. split; unfold gm_with; rewrite le_qmax; left; lra.
Qed.
