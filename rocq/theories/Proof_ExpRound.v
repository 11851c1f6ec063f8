(** From pairs to bounds on beta and back. *)
From Verif Require Import Base Model_Text Model_Reference Spec_Reference Proof_Reference
  Model_Interval Spec_Interval Model_Affine Spec_Affine Proof_Interval Proof_Affine Proof_AffineMerge
  Model_BoundBeta Proof_BoundBeta Prop_BoundBeta Model_Polytope
  Model_Hull Spec_Hull Proof_Hull Model_ExponentPair Spec_ExponentPair Proof_ExponentPair Proof_ExpSearch Proof_ExpLit
  Proof_Region Proof_ExpDual.
Open Scope list_scope.

(** An affine inequality on a non-empty interval holds at its ends. *)
Lemma affine_closure : forall (p : affine) s i, (exists x, covers p x) ->
  (forall x, covers p x -> 0 <= s * x + i) -> 0 <= s * x0 (dom p) + i /\ 0 <= s * x1 (dom p) + i.
Proof.
  intros p s i [z Cz] H. unfold covers, in_set in *. destruct p as [ps pi [u v iu iv] pl]. cbn in *.
  assert (UV : u <= z /\ z <= v) by (destruct iu, iv; cbn in Cz; lra). destruct UV as [U V].
  pose proof (H z Cz) as Hz.
  assert (M : forall e, u <= e -> e <= v -> forall t, 0 < t -> t < 1 ->
    (~ z == e) -> 0 <= s * ((1 - t) * e + t * z) + i).
  { intros e E0 E1 t T0 T1 N. apply H.
    assert (X0 : u <= (1 - t) * e + t * z).
    { assert (0 <= (1 - t) * (e - u)) by (apply Qmult_le_0_compat; lra). assert (0 <= t * (z - u)) by (apply Qmult_le_0_compat; lra). lra. }
    assert (X1 : (1 - t) * e + t * z <= v).
    { assert (0 <= (1 - t) * (v - e)) by (apply Qmult_le_0_compat; lra). assert (0 <= t * (v - z)) by (apply Qmult_le_0_compat; lra). lra. }
    assert (Y0 : (1 - t) * e + t * z == u -> z == u /\ e == u).
    { intro Y. destruct (Qlt_le_dec u z) as [L|L].
      - assert (0 < t * (z - u)) by (apply Qmult_lt_0_compat; lra). assert (0 <= (1 - t) * (e - u)) by (apply Qmult_le_0_compat; lra). lra.
      - assert (z == u) by lra. split; [auto|]. destruct (Qlt_le_dec u e) as [L'|L']; [|lra].
        assert (0 < (1 - t) * (e - u)) by (apply Qmult_lt_0_compat; lra). assert (0 <= t * (z - u)) by (apply Qmult_le_0_compat; lra). lra. }
    assert (Y1 : (1 - t) * e + t * z == v -> z == v /\ e == v).
    { intro Y. destruct (Qlt_le_dec z v) as [L|L].
      - assert (0 < t * (v - z)) by (apply Qmult_lt_0_compat; lra). assert (0 <= (1 - t) * (v - e)) by (apply Qmult_le_0_compat; lra). lra.
      - assert (z == v) by lra. split; [auto|]. destruct (Qlt_le_dec e v) as [L'|L']; [|lra].
        assert (0 < (1 - t) * (v - e)) by (apply Qmult_lt_0_compat; lra). assert (0 <= t * (v - z)) by (apply Qmult_le_0_compat; lra). lra. }
    assert (Z0 : u < (1 - t) * e + t * z \/ (1 - t) * e + t * z == u) by (destruct (Qlt_le_dec u ((1 - t) * e + t * z)); [left; lra|right; lra]).
    assert (Z1 : (1 - t) * e + t * z < v \/ (1 - t) * e + t * z == v) by (destruct (Qlt_le_dec ((1 - t) * e + t * z) v); [left; lra|right; lra]).
    split.
    - destruct iu; [exact X0|]. destruct Z0 as [Z0|Z0]; [auto|]. destruct (Y0 Z0). exfalso. apply N. lra.
    - destruct iv; [exact X1|]. destruct Z1 as [Z1|Z1]; [auto|]. destruct (Y1 Z1). exfalso. apply N. lra. }
  assert (E : forall e, u <= e -> e <= v -> 0 <= s * e + i).
  { intros e E0 E1. destruct (Qeqb_spec z e) as [Ez|Nz]; [rewrite <- Ez; auto|].
    destruct (Qlt_le_dec (s * e + i) 0) as [L|L]; [|auto]. exfalso.
    set (a := - (s * e + i)) in *. set (b := s * z + i) in *.
    assert (A : 0 < a) by (unfold a; lra). assert (AB : 0 < 2 * (a + b)) by lra.
    assert (T : exists r, 0 < r /\ r < 1 /\ r * (a + b) == (1#2) * a).
    { exists (a / (2 * (a + b))). split; [apply Qlt_shift_div_l; lra|]. split; [apply Qlt_shift_div_r; lra|]. field. lra. }
    destruct T as (r & R0 & R1 & R2).
    pose proof (M e E0 E1 r R0 R1 Nz) as K.
    assert (Q : s * ((1 - r) * e + r * z) + i == - a + r * (a + b)) by (unfold a, b; ring).
    rewrite Q, R2 in K. lra. }
  split; apply E; lra.
Qed.

Lemma ordered_first : forall p0 ps x, ordered (p0 :: ps) -> (exists y, covers p0 y /\ x <= y) ->
  (exists p, In p (p0 :: ps) /\ covers p x) -> covers p0 x.
Proof.
  intros p0 ps x [O _] (y & Cy & Ly) (p & [<-|I] & Cx); [auto|]. exfalso. pose proof (O p y x I Cy Cx). lra.
Qed.
Lemma ordered_last : forall ps p0 x, ordered (p0 :: ps) ->
  (forall p, In p (p0 :: ps) -> exists y, covers p y /\ y <= x) ->
  (exists p, In p (p0 :: ps) /\ covers p x) -> covers (last (p0 :: ps) p0) x.
Proof.
  assert (L : forall A (l : list A) d, l <> [] -> In (last l d) l).
  { intros A. induction l as [|a l IH]; intros d N; [congruence|]. destruct l as [|b l]; [now left|].
    right. apply IH. discriminate. }
  assert (D : forall A (l : list A) d e, l <> [] -> last l d = last l e).
  { intros A. induction l as [|a l IH]; intros d e N; [congruence|]. destruct l as [|b l]; [auto|]. apply IH. discriminate. }
  induction ps as [|p1 ps IH]; intros p0 x O N C.
  - destruct C as (p & [<-|[]] & Cx). exact Cx.
  - change (last (p0 :: p1 :: ps) p0) with (last (p1 :: ps) p0). rewrite (D _ (p1 :: ps) p0 p1) by discriminate.
    destruct O as [O1 O2]. destruct C as (p & [<-|I] & Cx).
    + exfalso. pose proof (L _ (p1 :: ps) p1 ltac:(discriminate)) as I. destruct (N _ (or_intror I)) as (y & Cy & Ly).
      pose proof (O1 _ x y I Cx Cy). lra.
    + apply IH; [auto| |eauto]. intros q Iq. apply N. now right.
Qed.
Lemma last_map : forall A B (f : A -> B) l d, last (map f l) (f d) = f (last l d).
Proof. intros A B f. induction l as [|a l IH]; intros d; [auto|]. destruct l as [|b l]; [auto|]. exact (IH d). Qed.

Section Round.
Context (hs : list hnode).
Hypothesis Hp : Forall proper_node hs.
Hypothesis Hb : forall h, In h hs -> is_beta h = true -> exists k l, pair_bound h k l.
Hypothesis He : exists h, In h hs /\ is_beta h = true.

Let bounds := map bound_of (filter is_beta hs).

Lemma bounds_in : forall b, In b bounds -> exists k l, triangle k l /\ b = mkA (l - k) k half_interval None.
Proof.
  intros b I. apply in_map_iff in I as (h & <- & I). apply filter_In in I as [I P].
  destruct (Hb h I P) as (k & l & T & E). exists k, l. split; [auto|]. unfold bound_of. now rewrite E.
Qed.

Lemma beta_wf : Forall (fun h => is_beta h = true -> wf (dom (bound_of h))) hs.
Proof.
  apply Forall_forall. intros h I P. destruct (Hb h I P) as (k & l & T & E). unfold bound_of. rewrite E. unfold wf. cbn. lra.
Qed.

Lemma bb_facts : exists bb b0, best_beta_nodes hs = Ret bb /\ Forall proper_node bb /\
  hd_error bb = Some b0 /\ covers (bound_of b0) 0 /\ covers (bound_of (last bb b0)) (1#2) /\
  (forall h, In h bb -> (exists x, covers (bound_of h) x) /\
     forall x, covers (bound_of h) x -> 0 <= x /\ x <= (1#2) /\ is_min_of bounds x (value (bound_of h) x)) /\
  (forall x, 0 <= x -> x <= 1#2 -> exists h, In h bb /\ covers (bound_of h) x).
Proof.
  destruct (best_beta_bounds_exact bounds None) as (out & ps & E & F & Od & Ne & Cv & Mn).
  - apply Forall_forall. intros b I. destruct (bounds_in b I) as (k & l & _ & ->). unfold well_formed, wf. cbn. lra.
  - unfold wf. cbn. lra.
  - exists 0. split; cbn; lra.
  - destruct He as (h & I & P). unfold bounds. intro N. apply map_eq_nil in N.
    assert (J : In h (filter is_beta hs)) by (now apply filter_In). rewrite N in J. destruct J.
  - intros b x I. destruct (bounds_in b I) as (k & l & _ & ->). reflexivity.
  - assert (M : exists bb, best_beta_nodes hs = Ret bb /\ Forall proper_node bb).
    { unfold best_beta_nodes. fold bounds. rewrite E. cbn [bind]. clear - Hp.
      assert (N : forall i, proper_node (nth i (filter is_beta hs) trivial_exp_pair)).
      { intros i. destruct (nth_in_or_default i (filter is_beta hs) trivial_exp_pair) as [I| ->].
        - apply filter_In in I as [I _]. rewrite Forall_forall in Hp. auto.
        - left. exact Logic.I. }
      induction out as [|o out (bb & IH & Pb)]; [exists []; split; [auto|constructor]|]. cbn [mapM]. destruct o as [i|b i].
      - rewrite IH. cbn [bind]. eexists. split; [reflexivity|]. constructor; [apply N|auto].
      - destruct (derived_node_ret (s_of "Derived bound on \beta") (DBeta b) [nth i (filter is_beta hs) trivial_exp_pair]) as (h & Eh & _ & _ & Ph); [constructor; [apply N|constructor]|].
        change (derived_node (s_of "Derived bound on \beta") (DBeta b)) with (derived_bound_beta b) in Eh.
        rewrite Eh. cbn [bind]. rewrite IH. cbn [bind]. eexists. split; [reflexivity|]. constructor; auto. }
    destruct M as (bb & Eb & Pb). exists bb.
    destruct (best_nodes hs bb beta_wf Eb) as (out' & E' & F'). fold bounds in E'. rewrite E in E'. injection E' as <-.
    assert (PS : ps = map bound_of bb).
    { clear - F F'. fold bounds in F'. revert ps F. induction F' as [|o h out bb (_ & H & _) F' IH]; intros ps F; inversion F as [|? ? ? ? H1 F1]; subst; [auto|].
      cbn. f_equal; [congruence|auto]. }
    subst ps.
    assert (D : forall x, in_set (mkI 0 (1#2) true true) x <-> 0 <= x /\ x <= 1#2) by (intro x; reflexivity).
    assert (Pt : forall h, In h bb -> (exists x, covers (bound_of h) x) /\
      forall x, covers (bound_of h) x -> 0 <= x /\ x <= (1#2) /\ is_min_of bounds x (value (bound_of h) x)).
    { intros h I. split; [apply Ne; now apply in_map|]. intros x Cx.
      destruct (proj1 (D x)) as [X0 X1]; [apply Cv; exists (bound_of h); split; [now apply in_map|auto]|].
      split; [auto|]. split; [auto|]. apply Mn; [now apply in_map|auto]. }
    assert (Co : forall x, 0 <= x -> x <= 1#2 -> exists p, In p (map bound_of bb) /\ covers p x).
    { intros x X0 X1. apply Cv. apply D. auto. }
    destruct bb as [|b0 bb]; [destruct (Co 0 ltac:(lra) ltac:(lra)) as (p & [] & _)|]. exists b0.
    split; [auto|]. split; [auto|]. split; [auto|]. split; [|split; [|split; [exact Pt|]]].
    + apply (ordered_first _ (map bound_of bb)); [exact Od| |apply Co; lra].
      destruct (Pt b0 (or_introl eq_refl)) as [(y & Cy) G]. exists y. split; [auto|]. apply (G y Cy).
    + rewrite <- last_map. apply ordered_last; [exact Od| |apply Co; lra]. intros p I.
      change (In p (map bound_of (b0 :: bb))) in I. apply in_map_iff in I as (h & <- & I).
      destruct (Pt h I) as [(y & Cy) G]. exists y. split; [auto|]. apply (G y Cy).
    + intros x X0 X1. destruct (Co x X0 X1) as (p & I & C). apply in_map_iff in I as (h & <- & I). eauto.
Qed.

Lemma ends_facts : forall bb h p, (forall h, In h bb -> (exists x, covers (bound_of h) x) /\
     forall x, covers (bound_of h) x -> 0 <= x /\ x <= (1#2) /\ is_min_of bounds x (value (bound_of h) x)) ->
  In h bb -> piece_end h p -> 0 <= fst p /\ fst p <= (1#2) /\ 0 <= snd p /\
    forall b, In b bounds -> snd p <= value b (fst p).
Proof.
  intros bb h p G I Pe. destruct (G h I) as [Ne H].
  assert (C : forall s i, (forall x, covers (bound_of h) x -> 0 <= s * x + i) -> 0 <= s * fst p + i).
  { intros s i Hx. destruct (affine_closure (bound_of h) s i Ne Hx) as [A B]. destruct Pe as [-> | ->]; auto. }
  assert (V : snd p == value (bound_of h) (fst p)) by (destruct Pe as [-> | ->]; reflexivity).
  split; [|split; [|split]].
  - assert (0 <= 1 * fst p + 0); [|lra]. apply C. intros x Cx. destruct (H x Cx). lra.
  - assert (0 <= (-1) * fst p + (1#2)); [|lra]. apply C. intros x Cx. destruct (H x Cx) as (_ & X & _). lra.
  - rewrite V. unfold value. apply C. intros x Cx. destruct (H x Cx) as (X0 & X1 & (b & Ib & _ & Eb) & _).
    change (slope (bound_of h) * x + icpt (bound_of h)) with (value (bound_of h) x). rewrite <- Eb.
    destruct (bounds_in b Ib) as (k & l & (T1 & T2 & T3 & T4 & T5) & ->). unfold value. cbn.
    assert (0 <= (l - k) * x) by (apply Qmult_le_0_compat; lra). lra.
  - intros b Ib. rewrite V. unfold value.
    assert (K : 0 <= (slope b - slope (bound_of h)) * fst p + (icpt b - icpt (bound_of h))); [|lra].
    apply C. intros x Cx. destruct (H x Cx) as (X0 & X1 & _ & Mn).
    assert (Cb : covers b x) by (destruct (bounds_in b Ib) as (k & l & _ & ->); split; cbn; lra).
    pose proof (Mn b Ib Cb) as L. unfold value in L. lra.
Qed.

Lemma round_edge : forall bb p1 p2,
  (forall h, In h bb -> (exists x, covers (bound_of h) x) /\
     forall x, covers (bound_of h) x -> 0 <= x /\ x <= (1#2) /\ is_min_of bounds x (value (bound_of h) x)) ->
  (forall x, 0 <= x -> x <= 1#2 -> exists h, In h bb /\ covers (bound_of h) x) ->
  In p1 (beta_points bb) -> In p2 (beta_points bb) -> fst p2 < fst p1 ->
  (forall q, In q (beta_points bb) -> snd q <= lineto p1 p2 (fst q)) ->
  exists g k l, In g hs /\ pair_bound g k l /\ icpt_of p1 p2 == k /\ slope_of p1 p2 == l - k.
Proof.
  intros bb p1 p2 G Co I1 I2 L Ab.
  assert (PF : forall p, In p (beta_points bb) -> 0 <= fst p /\ fst p <= (1#2) /\ forall b, In b bounds -> snd p <= value b (fst p)).
  { intros p I. apply in_beta_points in I as [->|[->|(h & Ih & Ph)]].
    - cbn [fst snd]. split; [lra|]. split; [lra|]. intros b Ib. destruct (bounds_in b Ib) as (k & l & (T1 & T2 & T3 & T4 & T5) & ->). unfold value. cbn. lra.
    - cbn [fst snd]. split; [lra|]. split; [lra|]. intros b Ib. destruct (bounds_in b Ib) as (k & l & (T1 & T2 & T3 & T4 & T5) & ->). unfold value. cbn. lra.
    - destruct (ends_facts bb h p G Ih Ph) as (E1 & E2 & E3 & E4). auto. }
  destruct (PF p1 I1) as (X1 & X1' & B1), (PF p2 I2) as (X2 & X2' & B2).
  set (m := (1#2) * (fst p1 + fst p2)).
  destruct (Co m) as (h & Ih & Ch); [unfold m; lra|unfold m; lra|].
  destruct (G h Ih) as [_ Gh]. destruct (Gh m Ch) as (_ & _ & (b & Ib & Cb & Eb) & _).
  assert (Hm : value (bound_of h) m <= lineto p1 p2 m).
  { assert (Q0 := Ab (x0 (dom (bound_of h)), value (bound_of h) (x0 (dom (bound_of h)))) ltac:(apply in_beta_points; right; right; exists h; split; [auto|now left])).
    assert (Q1 := Ab (x1 (dom (bound_of h)), value (bound_of h) (x1 (dom (bound_of h)))) ltac:(apply in_beta_points; right; right; exists h; split; [auto|now right])).
    cbn [fst snd] in Q0, Q1. unfold lineto, value in *. set (c := icpt_of p1 p2) in *. set (s := slope_of p1 p2) in *.
    set (f := bound_of h) in *.
    assert (R : x0 (dom f) <= m /\ m <= x1 (dom f)).
    { destruct Ch as [C1 C2]. destruct (incl_lo (dom f)), (incl_hi (dom f)); cbn in C1, C2; lra. }
    set (u := x0 (dom f)) in *. set (v := x1 (dom f)) in *.
    destruct (Qlt_le_dec u v) as [UV|UV].
    - assert (P : 0 <= (v - u) * ((c + s * m) - (slope f * m + icpt f))).
      { setoid_replace ((v - u) * ((c + s * m) - (slope f * m + icpt f))) with
          ((v - m) * ((c + s * u) - (slope f * u + icpt f)) + (m - u) * ((c + s * v) - (slope f * v + icpt f))) by ring.
        assert (0 <= (v - m) * ((c + s * u) - (slope f * u + icpt f))) by (apply Qmult_le_0_compat; lra).
        assert (0 <= (m - u) * ((c + s * v) - (slope f * v + icpt f))) by (apply Qmult_le_0_compat; lra). lra. }
      apply pos_factor in P; lra.
    - assert (E : m == u) by lra. rewrite E. auto. }
  pose proof (B1 b Ib) as Q1. pose proof (B2 b Ib) as Q2.
  destruct (line_ends p1 p2) as [E1 E2]; [intro; lra|]. rewrite <- E1 in Q1. rewrite <- E2 in Q2.
  apply in_map_iff in Ib as (g & Eg & Ig). apply filter_In in Ig as [Ig Pg]. destruct (Hb g Ig Pg) as (k & l & T & Dg).
  exists g, k, l. split; [auto|]. split; [split; auto|].
  assert (Vb : forall x, value b x == k + (l - k) * x).
  { intros x. rewrite <- Eg. unfold bound_of. rewrite Dg. unfold value. cbn. lra. }
  rewrite Vb in Q1, Q2, Eb. rewrite <- Eb in Hm. unfold lineto in *. set (c := icpt_of p1 p2) in *. set (s := slope_of p1 p2) in *.
  unfold m in Hm.
  assert (Z1 : c + s * fst p1 == k + (l - k) * fst p1) by lra.
  assert (Z2 : c + s * fst p2 == k + (l - k) * fst p2) by lra.
  assert (ES : s == l - k).
  { assert (Z : (s - (l - k)) * (fst p1 - fst p2) == 0) by lra. apply Qmult_integral in Z as [Z|Z]; lra. }
  split; [|auto]. rewrite ES in Z1. lra.
Qed.

Section Call.
Context (ch : hull_routine) (Hch : hull_spec ch) (tr : nat -> hnode -> res hnode).
Hypothesis HB : forall B h, find_keyword B_name hs = Some B -> is_pair h = true -> proper_node h ->
  exists h', apply_trans tr B h = Ret h' /\ is_pair h' = true.

Lemma edge_pairs_total : forall deps p1 p2, Forall proper_node deps ->
  (degenerate p1 p2 = false -> ~ fst p1 == fst p2) ->
  exists new, edge_pairs tr hs deps (e_of (filter is_pair hs)) p1 p2 = Ret new.
Proof.
  intros deps p1 p2 Pd N. unfold edge_pairs. destruct (degenerate p1 p2); [eauto|]. specialize (N eq_refl).
  rewrite !qdiv_ok by (intro; apply N; lra). cbn [bind].
  assert (X : forall h new0, is_pair h = true -> proper_node h -> exists new, match find_keyword B_name hs with
     | None => Ret new0
     | Some B => let! Bh := apply_trans tr B h in let! key := pair_of Bh in
         Ret (if e_mem key (e_of (filter is_pair hs)) then new0 else new0 ++ [Bh])
     end = Ret new).
  { intros h new0 Ph Oh. destruct (find_keyword B_name hs) as [B|] eqn:FB; [|eauto].
    destruct (HB B h eq_refl Ph Oh) as (h' & E & P'). rewrite E. cbn [bind]. apply is_pair_data in P' as (k & l & D).
    unfold pair_of. rewrite D. cbn [bind]. eauto. }
  destruct (e_get _ _) as [h|] eqn:G.
  - cbn [bind]. apply e_get_in in G as [I K]. apply filter_In in I as [I P]. rewrite Forall_forall in Hp. auto.
  - match goal with |- context [derived_exp_pair ?a ?b deps] => destruct (derived_node_ret (s_of "Derived exponent pair (" ++ q_str a ++ s_of ", " ++ q_str b ++ s_of ")") (DPair a b) deps Pd) as (h & Eh & D1 & _ & Oh) end.
    unfold derived_exp_pair. rewrite Eh. cbn [bind]. apply X; [apply is_pair_data; eauto|auto].
Qed.

Lemma round_trip : exists out, beta_bounds_to_exponent_pairs ch tr hs = Ret out /\
  (forall h, In h out -> is_pair h = true /\
     (In h hs \/ exists g k l h0, In g hs /\ pair_bound g k l /\ is_pair h0 = true /\ pt_eq (key_of h0) (k, l) /\
        (h = h0 \/ exists B, find_keyword B_name hs = Some B /\ apply_trans tr B h0 = Ret h))) /\
  (forall g k l a, In g hs -> pair_bound g k l -> 0 <= a -> a <= 1#2 ->
     exists h, In h out /\ is_pair h = true /\ pair_line (key_of h) a <= pair_line (k, l) a).
Proof.
  destruct bb_facts as (bb & b0 & Eb & Pb & Hd & C0 & C1 & G & Co).
  assert (B : forall p, In p (beta_points bb) -> 0 <= fst p /\ fst p <= (1#2) /\ 0 <= snd p).
  { intros p I. apply in_beta_points in I as [->|[->|(h & Ih & Ph)]]; [cbn; lra|cbn; lra|].
    destruct (ends_facts bb h p G Ih Ph) as (E1 & E2 & E3 & E4). auto. }
  assert (O1 : In (0, 0) (beta_points bb)) by (apply in_beta_points; auto).
  assert (O2 : In (1#2, 0) (beta_points bb)) by (apply in_beta_points; auto).
  assert (X0 : x0 (dom (bound_of b0)) <= 0).
  { destruct C0 as [C _]. destruct (incl_lo (dom (bound_of b0))); cbn in C; lra. }
  assert (X1 : 1#2 <= x1 (dom (bound_of (last bb b0)))).
  { destruct C1 as [_ C]. destruct (incl_hi (dom (bound_of (last bb b0)))); cbn in C; lra. }
  assert (IL : In (last bb b0) bb).
  { destruct bb as [|b bb]; [discriminate|]. clear. revert b. induction bb as [|c bb IH]; intros b; [now left|]. right. apply (IH c). }
  assert (NC : ~ collinear (beta_points bb)).
  { intro C. set (h := last bb b0) in *.
    assert (Pe : piece_end h (x1 (dom (bound_of h)), value (bound_of h) (x1 (dom (bound_of h))))) by (now right).
    destruct (ends_facts bb h _ G IL Pe) as (_ & E2 & _). cbn [fst] in E2.
    assert (I3 : In (x1 (dom (bound_of h)), value (bound_of h) (x1 (dom (bound_of h)))) (beta_points bb)) by (apply in_beta_points; eauto).
    pose proof (C _ _ _ O1 O2 I3) as Z. unfold cross in Z. cbn [fst snd] in Z.
    destruct (G h IL) as [_ Gh]. destruct (Gh _ C1) as (_ & _ & (b & Ib & _ & Ev) & _).
    destruct (bounds_in b Ib) as (k & l & (T1 & T2 & T3 & T4 & T5) & ->). unfold value in Ev at 1. cbn in Ev.
    assert (EX : x1 (dom (bound_of h)) == 1#2) by lra.
    assert (EV : value (bound_of h) (x1 (dom (bound_of h))) == value (bound_of h) (1#2)) by (unfold value; now rewrite EX).
    rewrite EV in Z. cbn in Z. lra. }
  destruct (proj2 (Hch (beta_points bb)) NC) as (vs & Ev & Hv).
  assert (Dir : forall i j, In (i, j) (cyc_edges vs) ->
    degenerate (pts_at (beta_points bb) i) (pts_at (beta_points bb) j) = false ->
    fst (pts_at (beta_points bb) j) < fst (pts_at (beta_points bb) i)).
  { intros i j Ie D. destruct (hull_edge bb vs i j Hv Ie) as [I1 I2]. apply (edge_direction (beta_points bb)); auto.
    - apply (hull_proper _ _ Hv i j Ie).
    - intros q Iq. apply (hull_left _ _ Hv i j q Ie Iq). }
  set (deps := filter (on_hull (beta_points bb) vs) bb).
  assert (Pd : Forall proper_node deps).
  { apply Forall_forall. intros h I. unfold deps in I. apply filter_In in I as [I _]. rewrite Forall_forall in Pb. auto. }
  assert (exists ls, mapM (fun e => edge_pairs tr hs deps (e_of (filter is_pair hs))
      (pts_at (beta_points bb) (fst e)) (pts_at (beta_points bb) (snd e))) (cyc_edges vs) = Ret ls) as (ls & Els).
  { destruct (Proof_PolytopeMaps.mapM_exists (fun e => edge_pairs tr hs deps (e_of (filter is_pair hs))
      (pts_at (beta_points bb) (fst e)) (pts_at (beta_points bb) (snd e))) (fun _ _ => True) (cyc_edges vs)) as (ls & E & _); [|eauto].
    intros [i j] Ie. cbn [fst snd]. destruct (edge_pairs_total deps (pts_at (beta_points bb) i) (pts_at (beta_points bb) j) Pd) as (new & En); [|eauto].
    intros D E. pose proof (Dir i j Ie D). lra. }
  assert (Eo : beta_bounds_to_exponent_pairs ch tr hs = Ret (filter is_pair hs ++ concat ls)).
  { unfold beta_bounds_to_exponent_pairs. rewrite Eb. cbn [bind]. destruct bb as [|b0' bb']; [discriminate|].
    injection Hd as ->. destruct (Qltb_spec 0 (x0 (dom (bound_of b0)))) as [C|_]; [lra|]. cbn [orb].
    destruct (Qltb_spec (x1 (dom (bound_of (last (b0 :: bb') b0)))) (1#2)) as [C|_]; [lra|].
    rewrite Ev. cbn [bind]. fold deps. rewrite Els. reflexivity. }
  exists (filter is_pair hs ++ concat ls). split; [exact Eo|]. split.
  - intros h I. apply in_app_or in I as [I|I]; [apply filter_In in I as [I P]; auto|].
    apply mapM_Forall2 in Els.
    apply in_concat in I as (l & Il & Ih). destruct (Forall2_in_r _ _ _ _ _ _ Els Il) as ([i j] & Ie & El). cbn [fst snd] in El.
    destruct (degenerate (pts_at (beta_points bb) i) (pts_at (beta_points bb) j)) eqn:D.
    { unfold edge_pairs in El. rewrite D in El. injection El as <-. destruct Ih. }
    destruct (edge_pairs_inv _ _ _ _ _ _ El D) as (Nx & h0 & P0 & K0 & S0 & X).
    destruct (hull_edge bb vs i j Hv Ie) as [I1 I2].
    destruct (round_edge bb _ _ G Co I1 I2 (Dir i j Ie D)) as (g & k & l' & Ig & Pg & E1 & E2).
    { intros q Iq. apply upper_edge; [now apply Dir|]. apply (hull_left _ _ Hv i j q Ie Iq). }
    assert (K : pt_eq (key_of h0) (k, l')).
    { destruct K0 as [K1 K2]. cbn [fst snd] in K1, K2. split; cbn [fst snd]; [rewrite K1; auto|rewrite K2, E1, E2; ring]. }
    destruct (X h Ih) as [->|(B' & FB & EB & PB)].
    + split; [auto|]. right. exists g, k, l', h0. auto 8.
    + split; [auto|]. right. exists g, k, l', h0. split; [auto|]. split; [auto|]. split; [auto|]. split; [auto|]. right. eauto.
  - intros g k l a Ig Pg A0 A1. destruct Pg as [(T1 & T2 & T3 & T4 & T5) Dg].
    apply (from_beta_optimal ch Hch tr hs bb b0 _ Eb) with (k := k) (l := l); auto.
    + intros h p Ih Ph. destruct (ends_facts bb h p G Ih Ph) as (E1 & E2 & E3 & E4). auto.
    + lra.
    + intros h p Ih Ph. destruct (ends_facts bb h p G Ih Ph) as (E1 & E2 & E3 & E4).
      assert (Ib : In (bound_of g) bounds) by (apply in_map, filter_In; split; [auto|unfold is_beta; now rewrite Dg]).
      specialize (E4 _ Ib). unfold bound_of in E4. rewrite Dg in E4. unfold value in E4. unfold pair_line. cbn in *. lra.
Qed.
End Call.
End Round.
