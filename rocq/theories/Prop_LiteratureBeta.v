(** Property C65: the bounds on beta from the literature. *)
From Verif Require Import Base Model_Text Model_Reference Model_Interval Spec_Interval Proof_Interval Model_Affine Spec_Affine Prop_Affine Model_ExponentPair Spec_ExponentPair
  Proof_ExpProof Proof_BoundMu Model_ZetaLargeValues Model_IntervalText Spec_IntervalText Prop_IntervalText Model_LiteratureBeta Spec_LiteratureBeta.
Open Scope list_scope.
Local Open Scope Q_scope.
Import Lqa.

Section Rows.
Variable get : str -> reference.
Hypothesis cite : forall k, citable (get k).

Definition node (r : reference) (b : affine) : hnode :=
  HNode (value_str (r_author r) ++ s_of " (" ++ value_str (r_year r) ++ s_of ") bound on \beta on " ++ interval_repr (dom b)) (DBeta b) r [].
Lemma add_ok : forall bs k, add_beta_bound bs (get k) = Ret (map (node (get k)) bs).
Proof.
  intros bs k. destruct (cite k) as (A & Y). unfold add_beta_bound, node, r_author, r_year.
  destruct (dict_get (r_entries (get k)) key_author) as [a|] eqn:Ea; [|congruence]. destruct (dict_get (r_entries (get k)) key_year) as [y|] eqn:Ey; [|congruence]. cbn [bind].
  induction bs as [|b bs IH]; [reflexivity|]. cbn [mapM map bind]. rewrite IH. reflexivity.
Qed.
Lemma node_fine : forall k bs, Forall (fun h => n_ref h = get k /\ n_deps h = [] /\ exists b, n_data h = DBeta b /\ named (n_ref h) b (n_name h)) (map (node (get k)) bs).
Proof.
  intros k bs. apply Forall_map, Forall_forall. intros b _. split; [reflexivity|]. split; [reflexivity|]. exists b. split; [reflexivity|].
  destruct (interval_repr_text (dom b)) as (j & T & S). exists (interval_repr (dom b)), j. repeat split; try apply S; exact T.
Qed.
Definition made (r : res (list hnode)) (ws : list row) : Prop := exists gs, r = Ret (concat gs) /\ Forall2 (recorded get) gs ws.
Lemma made_nil : made (in_turn []) [].
Proof. exists []. split; [reflexivity|constructor]. Qed.
Lemma made_cons : forall r rs w1 w2, made r w1 -> made (in_turn rs) w2 -> made (in_turn (r :: rs)) (w1 ++ w2).
Proof.
  intros r rs w1 w2 (g1 & E1 & F1) (g2 & E2 & F2). exists (g1 ++ g2). cbn [in_turn]. rewrite E1. cbn [bind]. rewrite E2. cbn [bind]. rewrite concat_app. split; [reflexivity|]. now apply Forall2_app.
Qed.
Lemma made_map : forall {A} (f : A -> res (list hnode)) (w : A -> row) l, (forall a, In a l -> made (f a) [w a]) -> made (in_turn (map f l)) (map w l).
Proof.
  intros A f w l H. induction l as [|a l IH]; [apply made_nil|]. cbn [map]. apply (made_cons (f a) (map f l) [w a] (map w l)); [apply H; now left|]. apply IH. intros. apply H. now right.
Qed.

Lemma made_all : forall rs wss, Forall2 made rs wss -> made (in_turn rs) (concat wss).
Proof. induction 1; [apply made_nil|]. now apply made_cons. Qed.
Lemma made_two : forall r1 r2 w1 w2, made r1 [w1] -> made r2 [w2] -> made (in_turn [r1; r2]) [w1; w2].
Proof. intros r1 r2 w1 w2 H1 H2. apply (made_all [r1; r2] [[w1]; [w2]]). repeat constructor; assumption. Qed.

(** One line per row. *)
Definition line_ok (key : string) (l : res affine) (w : row) : Prop := exists b, l = Ret b /\ w_key w = key /\ dom b = w_dom w /\ forall a, value b a == w_val w a.
Lemma list_made : forall ls key ws, Forall2 (line_ok key) ls ws -> made (add_list get ls key) ws.
Proof.
  intros ls key ws F.
  assert (X : exists bs, mapM (fun l => l) ls = Ret bs /\ Forall2 (fun b w => w_key w = key /\ dom b = w_dom w /\ forall a, value b a == w_val w a) bs ws).
  { induction F as [|l w ls ws (b & -> & H) F (bs & E & G)]; [exists []; split; [reflexivity|constructor]|]. exists (b :: bs). cbn [mapM bind]. rewrite E. split; [reflexivity|]. now constructor. }
  destruct X as (bs & E & G). unfold add_list. rewrite E. cbn [bind]. rewrite add_ok. exists (map (fun b => [node (get (s_of key)) b]) bs). split.
  { f_equal. clear. induction bs as [|b bs IH]; [reflexivity|]. cbn [map concat app]. now rewrite IH. }
  clear - G. induction G as [|b w bs ws (K & D & V) G IH]; [constructor|]. cbn [map]. constructor; [|exact IH]. subst key.
  split; [apply (node_fine _ [b])|]. split.
  - intro a. rewrite <- D. split; [intro C; exists (node (get (s_of (w_key w))) b), b; split; [now left|]; split; [reflexivity|exact C]|]. intros (h & b' & [<-|[]] & E & C). injection E as <-. exact C.
  - intros h b' a [<-|[]] E C. injection E as <-. apply V.
Qed.
(** Several lines on one range, of which the largest counts. *)
Lemma max_made : forall f gs key w bf bgs, f = Ret bf -> mapM (fun l => l) gs = Ret bgs -> w_key w = key -> wf (w_dom w) -> bgs <> [] ->
  dom bf = w_dom w -> Forall (fun b => dom b = w_dom w) bgs -> (forall a, in_set (w_dom w) a -> is_max_of (bf :: bgs) a (w_val w a)) -> made (add_max get f gs key) [w].
Proof.
  intros f gs key w bf bgs -> E <- W N D Ds M. unfold add_max. cbn [bind]. rewrite E. cbn [bind].
  destruct (max_with_exact bf bgs None) as (out & Eo & _ & Cv & Mx).
  { constructor; [unfold well_formed; now rewrite D|]. revert Ds. apply Forall_impl. intros b X. unfold well_formed. now rewrite X. }
  { exact Logic.I. }
  { intros x _ C. destruct bgs as [|g bgs]; [congruence|]. exists g. split; [now left|]. inversion Ds as [|? ? X _]; subst. unfold covers in *. rewrite X, <- D. exact C. }
  rewrite Eo. cbn [bind]. rewrite add_ok. exists [map (node (get (s_of (w_key w)))) out]. split; [cbn; now rewrite app_nil_r|]. constructor; [|constructor].
  assert (A : forall g a, In g (bf :: bgs) -> (covers g a <-> in_set (w_dom w) a)).
  { intros g a I. unfold covers. destruct I as [<-|I]; [now rewrite D|]. rewrite Forall_forall in Ds. now rewrite (Ds g I). }
  assert (B : forall h b, In h (map (node (get (s_of (w_key w)))) out) -> n_data h = DBeta b -> In b out).
  { intros h b I X. apply in_map_iff in I as (b' & <- & I). injection X as <-. exact I. }
  split; [apply node_fine|]. split.
  - intro a. split.
    + intro C. destruct (proj2 (Cv a)) as (p & I & Cp); [split; [exact Logic.I|]; exists bf; split; [now left|]; apply A; [now left|exact C]|]. exists (node (get (s_of (w_key w))) p), p. split; [now apply in_map|]. split; [reflexivity|exact Cp].
    + intros (h & b & I & X & C). apply (B h b I) in X. destruct (proj1 (Cv a)) as (_ & g & Ig & Cg); [eauto|]. now apply (A g a Ig).
  - intros h b a I X C. apply (B h b I) in X. destruct (Mx b a X C) as ((g & Ig & Cg & Vg) & U).
    destruct (M a) as ((g' & Ig' & Cg' & Vg') & U'); [now apply (A g a Ig)|].
    specialize (U g' Ig' Cg'). specialize (U' g Ig Cg). lra.
Qed.
End Rows.

Ltac parsed := match goal with |- line _ _ ?t = Ret _ => let d := eval vm_compute in (interval_parse (s_of t)) in match d with Ret ?i => unfold line; replace (interval_parse (s_of t)) with (Ret i) by (vm_compute; reflexivity); reflexivity end end.
Ltac linear := intro; unfold value, fn, quot; cbn [slope icpt w_val]; unfold fn, quot, Qdiv, inject_Z; cbn [Qinv Qnum Qden]; lra.
Ltac one_line := eexists; split; [parsed|]; split; [reflexivity|]; split; [reflexivity|linear].
Ltac lines := apply list_made; [assumption|]; repeat (apply Forall2_cons; [one_line|]); apply Forall2_nil.
(** The largest of some lines, against nested maxima. *)
Lemma max_two : forall f g (d : interval) v, dom f = d -> dom g = d -> (forall a, v a == qmax (value f a) (value g a)) -> forall a, in_set d a -> is_max_of [f; g] a (v a).
Proof.
  intros f g d v D1 D2 V a I. specialize (V a). destruct (qmax_spec (value f a) (value g a)) as (L1 & L2 & M). split.
  - destruct M as [M|M]; rewrite M in V; [exists f|exists g]; (split; [cbn; auto|]); (split; [unfold covers; congruence|lra]).
  - intros x [<-|[<-|[]]] _; lra.
Qed.
Lemma max_three : forall f g h (d : interval) v, dom f = d -> dom g = d -> dom h = d -> (forall a, v a == qmax (value f a) (qmax (value g a) (value h a))) -> forall a, in_set d a -> is_max_of [f; g; h] a (v a).
Proof.
  intros f g h d v D1 D2 D3 V a I. specialize (V a). destruct (qmax_spec (value g a) (value h a)) as (L1 & L2 & M). destruct (qmax_spec (value f a) (qmax (value g a) (value h a))) as (L3 & L4 & M'). split.
  - destruct M' as [M'|M']; rewrite M' in V; [exists f; split; [cbn; auto|]; split; [unfold covers; congruence|lra]|].
    destruct M as [M|M]; rewrite M in V; [exists g|exists h]; (split; [cbn; auto|]); (split; [unfold covers; congruence|lra]).
  - intros x [<-|[<-|[<-|[]]]] _; lra.
Qed.
Lemma max_four : forall f g h k (d : interval) v, dom f = d -> dom g = d -> dom h = d -> dom k = d -> (forall a, v a == qmax (value f a) (qmax (value g a) (qmax (value h a) (value k a)))) ->
  forall a, in_set d a -> is_max_of [f; g; h; k] a (v a).
Proof.
  intros f g h k d v D1 D2 D3 D4 V a I. specialize (V a). destruct (max_three g h k d (fun a => qmax (value g a) (qmax (value h a) (value k a))) D2 D3 D4 (fun _ => Qeq_refl _) a I) as ((x & X1 & X2 & X3) & U). cbv beta in *.
  destruct (qmax_spec (value f a) (qmax (value g a) (qmax (value h a) (value k a)))) as (L1 & L2 & M). split.
  - destruct M as [M|M]; rewrite M in V; [exists f; split; [cbn; auto|]; split; [unfold covers; congruence|lra]|]. exists x. split; [now right|]. split; [exact X2|lra].
  - intros y [<-|I'] C; [lra|]. specialize (U y I' C). lra.
Qed.
Lemma qmax_eq : forall x x' y y', x == x' -> y == y' -> qmax x y == qmax x' y'.
Proof. intros x x' y y' E F. destruct (qmax_spec x y) as (A1 & A2 & A3), (qmax_spec x' y') as (B1 & B2 & B3). destruct A3 as [A3|A3], B3 as [B3|B3]; rewrite A3, B3 in *; lra. Qed.
Lemma qmax_shift : forall c x y, c + qmax x y == qmax (c + x) (c + y).
Proof. intros c x y. destruct (qmax_spec x y) as (A1 & A2 & A3), (qmax_spec (c + x) (c + y)) as (B1 & B2 & B3). destruct A3 as [A3|A3], B3 as [B3|B3]; rewrite A3, B3 in *; lra. Qed.
Ltac flat := cbv [value slope icpt fn quot]; unfold Qdiv, inject_Z; cbn -[Qplus Qmult Qopp Qminus Qeq]; lra.
Ltac same_max := intro; cbn [w_val]; unfold huxley_kolesnik_1991, huxley_1993_max, sargos_1995_first, sargos_1995_second, huxley_kolesnik_2001, robert_sargos_2002, sargos_2003_first, sargos_2003_second, huxley_2005, robert_2016;
  repeat apply qmax_eq; flat.
Ltac largest := eapply max_made; [assumption|parsed|cbn [mapM]; unfold line; repeat match goal with |- context[interval_parse (s_of ?t)] => let d := eval vm_compute in (interval_parse (s_of t)) in replace (interval_parse (s_of t)) with d by (vm_compute; reflexivity) end; cbn [bind]; reflexivity|reflexivity|unfold wf; cbn; lra|discriminate|reflexivity|repeat (apply Forall_cons; [reflexivity|]); apply Forall_nil|];
  first [eapply max_two|eapply max_three|eapply max_four]; try reflexivity; same_max.

Lemma robert_made : forall get k, (forall k, citable (get k)) -> (4 <= k)%Z ->
  made get (let d := Interval 0 (inject_Z (k - 1) / inject_Z (k * (k - 1) - (2 * k - 3))) true true in
    add_max get (let! d := d in Ret (mkA (1 - inject_Z k / inject_Z (2 * (k - 1) * (k - 2))) (1 / inject_Z (2 * (k - 1) * (k - 2))) d None))
      [let! d := d in Ret (mkA (1 - 1 / inject_Z (2 * (k - 1) * (k - 2))) 0 d None)] "robert_2016") [robert_row k].
Proof.
  intros get k C K. cbv zeta.
  assert (P : 0 < inject_Z (2 * (k - 1) * (k - 2))). { change 0 with (inject_Z 0). rewrite <- Zlt_Qlt. nia. }
  assert (P1 : 0 <= inject_Z (k - 1) / inject_Z (k * (k - 1) - (2 * k - 3))).
  { apply Qle_shift_div_l; [change 0 with (inject_Z 0); rewrite <- Zlt_Qlt; nia|]. rewrite Qmult_0_l. change 0 with (inject_Z 0). rewrite <- Zle_Qle. lia. }
  unfold Interval. destruct (Qltb 0 (0 - inject_Z (k - 1) / inject_Z (k * (k - 1) - (2 * k - 3)))) eqn:L; [apply Qltb_true in L; lra|]. cbn [bind].
  eapply max_made; [assumption|reflexivity|reflexivity|reflexivity|exact P1|discriminate|reflexivity|repeat (apply Forall_cons; [reflexivity|]); apply Forall_nil|].
  eapply max_two; try reflexivity. intro a. cbn [w_val robert_row]. unfold robert_2016_k. cbv zeta. rewrite qmax_shift. apply qmax_eq; unfold value; cbn [slope icpt]; field; lra.
Qed.
Lemma heath_brown_made : forall get k, (forall k, citable (get k)) -> (3 <= k)%Z ->
  made get (add_max get (line (inject_Z (k - 2) / inject_Z (k - 1)) (1 / inject_Z (k * (k - 1))) "[0, 1]")
      [line (1 - 1 / inject_Z (k * (k - 1))) 0 "[0, 1]"; line 1 (inject_Z (-2) / inject_Z (k * k * (k - 1))) "[0, 1]"] "heathbrown_new_2017") [heath_brown_row k].
Proof.
  intros get k C K.
  assert (P : 1 < inject_Z k). { change 1 with (inject_Z 1). rewrite <- Zlt_Qlt. lia. }
  eapply max_made; [assumption|parsed|cbn [mapM]; unfold line; replace (interval_parse (s_of "[0, 1]")) with (Ret (mkI 0 1 true true)) by (vm_compute; reflexivity); cbn [bind]; reflexivity|reflexivity|unfold wf; cbn; lra|discriminate|reflexivity|repeat (apply Forall_cons; [reflexivity|]); apply Forall_nil|].
  eapply max_three; try reflexivity. intro a. cbn [w_val heath_brown_row]. unfold heath_brown_2017. cbv zeta. rewrite qmax_shift. 
  assert (X : forall c x y z, x + c == z -> c + y == z -> y == x) by (intros; lra).
  rewrite (qmax_eq _ _ _ _ (Qeq_refl _) (qmax_shift _ _ _)).
  unfold Z.sub. rewrite !inject_Z_mult, !inject_Z_plus. cbn [Z.opp]. 
  repeat apply qmax_eq; unfold value; cbn [slope icpt]; field; repeat split; intro; change (inject_Z (-1)) with (-(1)) in *; change (inject_Z (-2)) with (-(2)) in *; nra.
Qed.
Theorem beta_table_recorded : forall get Kr Kh, (forall k, citable (get k)) ->
  exists gs, add_beta_bounds get Kr Kh = Ret (concat gs) /\ Forall2 (recorded get) gs (rows Kr Kh).
Proof.
  intros get Kr Kh C. unfold rows, add_beta_bounds. apply made_all. unfold theorems.
  apply Forall2_cons; [unfold add_beta_bound_watt_1989; lines|].
  apply Forall2_cons; [unfold add_beta_bound_huxley_kolesnik_1991; largest|].
  apply Forall2_cons; [unfold add_beta_bound_huxley_1993; apply made_two; [largest|lines]|].
  apply Forall2_cons; [unfold add_beta_bound_huxley_1993_3; lines|].
  apply Forall2_cons; [unfold add_beta_bound_huxley_1996; lines|].
  apply Forall2_cons; [unfold add_beta_bound_sargos_1995; apply made_two; largest|].
  apply Forall2_cons; [unfold add_beta_bound_huxley_1996_2; lines|].
  apply Forall2_cons; [unfold add_beta_bound_huxley_kolesnik_2001; largest|].
  apply Forall2_cons; [unfold add_beta_bound_robert_sargos_2002; largest|].
  apply Forall2_cons; [unfold add_beta_bound_sargos_2003; apply made_two; largest|].
  apply Forall2_cons; [unfold add_beta_bound_huxley_2005; largest|].
  apply Forall2_cons; [unfold add_beta_bound_robert_2016; largest|].
  apply Forall2_cons; [apply made_map; intros k I; apply zrange_in in I; apply robert_made; [exact C|lia]|].
  apply Forall2_cons; [apply made_map; intros k I; apply zrange_in in I; apply heath_brown_made; [exact C|lia]|].
  apply Forall2_cons; [unfold add_beta_bound_bourgain_2017; lines|].
  apply Forall2_cons; [unfold add_beta_bound_trudgian_yang_2024; lines|]. apply Forall2_nil.
Qed.
Print Assumptions beta_table_recorded.

(** ** In worlds *)
Lemma recorded_holds : forall get tr btr W g r, upper (beta_le W) -> recorded get g r -> (Forall (holds tr btr W) g <-> row_holds W r).
Proof.
  intros get tr btr W g r U (N & C & V). split.
  - intros F a I. apply C in I as (h & b & Ih & D & Cb). rewrite Forall_forall in F. specialize (F h Ih). unfold holds in F. rewrite D in F. refine (U a a _ _ (Qeq_refl a) _ (F a Cb)). specialize (V h b a Ih D Cb). lra.
  - intros R. apply Forall_forall. intros h Ih. rewrite Forall_forall in N. destruct (N h Ih) as (_ & _ & b & D & _). unfold holds. rewrite D. intros a Cb. refine (U a a _ _ (Qeq_refl a) _ (R a _)); [specialize (V h b a Ih D Cb); lra|]. apply C. eauto.
Qed.
Lemma robert_range : forall k a, (4 <= k)%Z -> (- ((1 - inject_Z k * a) * (inject_Z (k - 1) / inject_Z (2 * k - 3))) <= a <-> a <= inject_Z (k - 1) / inject_Z (k * (k - 1) - (2 * k - 3))).
Proof.
  intros k a K.
  assert (P : 4 <= inject_Z k). { change 4 with (inject_Z 4). now rewrite <- Zle_Qle. }
  assert (E1 : inject_Z (k - 1) == inject_Z k - 1) by (unfold Z.sub; rewrite inject_Z_plus; reflexivity).
  assert (E2 : inject_Z (2 * k - 3) == 2 * inject_Z k - 3) by (unfold Z.sub; rewrite inject_Z_plus, inject_Z_mult; reflexivity).
  assert (E3 : inject_Z (k * (k - 1) - (2 * k - 3)) == inject_Z k * (inject_Z k - 1) - (2 * inject_Z k - 3)).
  { replace (k * (k - 1) - (2 * k - 3))%Z with (k * k + (-3) * k + 3)%Z by ring. rewrite !inject_Z_plus, !inject_Z_mult. change (inject_Z (-3)) with (-(3)). change (inject_Z 3) with 3. ring. }
  rewrite E1, E2, E3. set (q := inject_Z k) in *. clearbody q. clear E1 E2 E3.
  assert (D1 : 0 < 2 * q - 3) by lra. assert (D2 : 0 < q * (q - 1) - (2 * q - 3)) by nra. split; intro H.
  - apply Qle_shift_div_l; [exact D2|].
    assert (X : - ((1 - q * a) * (q - 1)) <= a * (2 * q - 3)); [|lra]. setoid_replace (- ((1 - q * a) * (q - 1))) with (- ((1 - q * a) * ((q - 1) / (2 * q - 3))) * (2 * q - 3)) by (field; lra). apply Qmult_le_compat_r; [exact H|lra].
  - assert (X : a * (q * (q - 1) - (2 * q - 3)) <= q - 1). { apply Qle_trans with ((q - 1) / (q * (q - 1) - (2 * q - 3)) * (q * (q - 1) - (2 * q - 3))); [apply Qmult_le_compat_r; [exact H|lra]|]. assert (Y : (q - 1) / (q * (q - 1) - (2 * q - 3)) * (q * (q - 1) - (2 * q - 3)) == q - 1) by (field; lra). lra. }
    setoid_replace (- ((1 - q * a) * ((q - 1) / (2 * q - 3)))) with (- ((1 - q * a) * (q - 1)) / (2 * q - 3)) by (field; lra). apply Qle_shift_div_r; [exact D1|]. lra.
Qed.

(** Facts about maxima that occur in the goal. *)
Ltac ups := repeat match goal with |- context[qmax ?x ?y] => lazymatch goal with H : x <= qmax x y |- _ => fail | _ => destruct (qmax_spec x y) as (? & ? & _) end end.
Ltac downs := repeat match goal with |- context[qmax ?x ?y] => let m := fresh "m" in let E := fresh "E" in destruct (qmax_spec x y) as (_ & _ & E); set (m := qmax x y) in *; clearbody m; destruct E as [E|E]; subst m end.
Ltac plain := unfold huxley_kolesnik_1991, huxley_1993_max, sargos_1995_first, sargos_1995_second, huxley_kolesnik_2001, robert_sargos_2002, sargos_2003_first, sargos_2003_second, huxley_2005, robert_2016;
  unfold fn, quot, Qdiv, inject_Z; cbn -[Qplus Qmult Qopp Qminus Qle Qlt qmax].
Ltac by_fact U := match goal with R : row_holds ?W ?r |- beta_le ?W ?a ?v => let I := fresh in assert (I : in_set (w_dom r) a) by (split; cbn [w_dom full half incl_lo incl_hi x0 x1 respects_lower respects_upper]; lra); refine (U a a _ v (Qeq_refl a) _ (R a I)); clear I; solve [plain; ups; lra] end.
Ltac below U c := match goal with |- beta_le _ ?a _ => destruct (Qlt_le_dec a c); [try by_fact U|] end.
Theorem beta_rows_complete : forall W, beta_basic W -> (forall Kr Kh, Forall (row_holds W) (rows Kr Kh)) -> beta_published W.
Proof.
  intros W [U T L] F.
  assert (FR : forall k, (4 <= k)%Z -> row_holds W (robert_row k)).
  { intros k K. specialize (F (k + 1)%Z 0%Z). rewrite Forall_forall in F. apply F. unfold rows. apply in_concat. exists (map robert_row (zrange 4 (k + 1))). split; [do 12 right; now left|]. apply in_map, zrange_in. lia. }
  assert (FH : forall k, (3 <= k)%Z -> row_holds W (heath_brown_row k)).
  { intros k K. specialize (F 0%Z (k + 1)%Z). rewrite Forall_forall in F. apply F. unfold rows. apply in_concat. exists (map heath_brown_row (zrange 3 (k + 1))). split; [do 13 right; now left|]. apply in_map, zrange_in. lia. }
  specialize (F 0%Z 0%Z). unfold rows, theorems in F. cbn [concat app map] in F. repeat (let R := fresh "R" in apply Forall_cons_iff in F as (R & F)). cbn [zrange map Z.to_nat Z.sub Z.add Z.opp seq app] in F. repeat (let R := fresh "R" in apply Forall_cons_iff in F as (R & F)). clear F.
  constructor.
  - intros a A B. by_fact U.
  - intros a A B. by_fact U.
  - split; intros a A B; [|by_fact U]. below U (49#144). below U (227#601). below U (12#31). below U (356#873). below U (5#12). below U (49#114). by_fact U.
  - intros lo hi f I. unfold huxley_1993_table in I. repeat (destruct I as [I|I]; [injection I as <- <- <-; intros a A B; by_fact U|]). destruct I.
  - split; intros a A B; by_fact U.
  - split; intros lo hi f I; [unfold huxley_table_1 in I|unfold huxley_table_2 in I]; repeat (destruct I as [I|I]; [injection I as <- <- <-; intros a A B; match type of B with _ <= ?h => below U h end; by_fact U|]); destruct I.
  - intros a A B. by_fact U.
  - intros a A. below U 1. destruct (Qeq_dec a 1); [by_fact U|]. refine (U a a _ _ (Qeq_refl a) _ (L a _)); [|lra]. plain. ups. lra.
  - split; intros a A; below U 1; (destruct (Qeq_dec a 1); [by_fact U|]); (refine (U a a _ _ (Qeq_refl a) _ (L a _)); [|lra]); plain; ups; lra.
  - intros a A B. by_fact U.
  - intros a A B. by_fact U.
  - intros k a K A B. apply robert_range in B; [|exact K]. refine (FR k K a _). split; cbn; [lra|exact B].
  - intros k K a A. destruct (Qlt_le_dec 1 a) as [B|B]; [|refine (FH k K a _); split; cbn; lra]. refine (U a a _ _ (Qeq_refl a) _ (L a B)). unfold heath_brown_2017. cbv zeta.
    assert (P : 3 <= inject_Z k). { change 3 with (inject_Z 3). now rewrite <- Zle_Qle. }
    destruct (qmax_spec ((1 - inject_Z k * a) / inject_Z (k * (k - 1))) (qmax (- (a / inject_Z (k * (k - 1)))) (- (2 * a / inject_Z (k * (k - 1))) - 2 * (1 - inject_Z k * a) / inject_Z (k * k * (k - 1))))) as (_ & M1 & _).
    destruct (qmax_spec (- (a / inject_Z (k * (k - 1)))) (- (2 * a / inject_Z (k * (k - 1))) - 2 * (1 - inject_Z k * a) / inject_Z (k * k * (k - 1)))) as (_ & M2 & _).
    assert (X : - (1) <= - (2 * a / inject_Z (k * (k - 1))) - 2 * (1 - inject_Z k * a) / inject_Z (k * k * (k - 1))); [|lra].
    unfold Z.sub. rewrite !inject_Z_mult, !inject_Z_plus. change (inject_Z (Z.opp 1)) with (-(1)). set (q := inject_Z k) in *.
    setoid_replace (- (2 * a / (q * (q + - (1)))) - 2 * (1 - q * a) / (q * q * (q + - (1)))) with (- (2 / (q * q * (q + - (1))))) by (field; repeat split; intro; nra).
    assert (Y : 2 / (q * q * (q + - (1))) <= 1); [|lra]. apply Qle_shift_div_r; nra.
  - intro a. split; [|split]; intros A B; change (?c + ?m * a) with (fn c m a).
    + below U (5#12). by_fact U.
    + below U (3#7). by_fact U.
    + by_fact U.
  - intros lo hi f I. unfold combined_table in I. repeat (destruct I as [I|I]; [injection I as <- <- <-; intros a A B; try (match type of B with _ <= ?h => below U h end); by_fact U|]); destruct I.
Qed.
Print Assumptions beta_rows_complete.
Lemma Forall_concat_of : forall {A} (P : A -> Prop) ls, Forall (Forall P) ls -> Forall P (concat ls).
Proof. intros A P ls. induction 1; cbn; [constructor|]. now apply Forall_app. Qed.
Lemma table_rows : forall W t, table_holds W t -> Forall (fun x => on W (fst (fst x)) (snd (fst x)) (snd x)) t.
Proof. intros W t H. apply Forall_forall. intros ((lo, hi), f) I. exact (H lo hi f I). Qed.
Ltac open_table H := apply table_rows in H; repeat (let R := fresh "R" in apply Forall_cons_iff in H as (R & H); cbn [fst snd] in R); clear H.
Ltac by_pub U := match goal with R : on ?W ?lo ?hi _ |- beta_le ?W ?a ?v => let I1 := fresh in let I2 := fresh in assert (I1 : lo <= a) by lra; assert (I2 : a <= hi) by lra; refine (U a a _ v (Qeq_refl a) _ (R a I1 I2)); clear I1 I2; solve [plain; ups; downs; lra] end.
Ltac a_row U := let a := fresh "a" in let A := fresh "A" in let B := fresh "B" in intros a (A & B); cbn [w_dom w_val full half incl_lo incl_hi x0 x1 respects_lower respects_upper] in A, B |- *; by_pub U.
Theorem beta_rows_true : forall W, beta_basic W -> beta_published W -> forall Kr Kh, Forall (row_holds W) (rows Kr Kh).
Proof.
  intros W [U T L] P Kr Kh. destruct P as [P1 P2 (P3 & P4) P5 (P6 & P7) (P8 & P9) P10 P11 (P12 & P13) P14 P15 P16 P17 P18 P19].
  open_table P5. open_table P8. open_table P9. open_table P19.
  assert (Z : forall a f, 0 <= a -> 0 <= f 0 -> (forall x y, x == y -> f x == f y) -> (0 < a -> beta_le W a (f a)) -> beta_le W a (f a)).
  { intros a f A F C H. destruct (Qlt_le_dec 0 a) as [X|X]; [auto|]. assert (E : a == 0) by lra. refine (U a a a _ (Qeq_refl a) _ (T a A _)); [rewrite (C a 0 E); lra|lra]. }
  unfold rows. apply Forall_concat_of. unfold theorems.
  do 2 (apply Forall_cons; [repeat (apply Forall_cons; [a_row U|]); apply Forall_nil|]).
  apply Forall_cons.
  { apply Forall_cons; [a_row U|]. apply Forall_cons; [|apply Forall_nil]. intros a (A & B). cbn in A, B |- *.
    destruct (Qlt_le_dec a (227#601)); [by_pub U|]. destruct (Qlt_le_dec a (12#31)); [by_pub U|]. destruct (Qlt_le_dec a (37#91)); [by_pub U|]. destruct (Qlt_le_dec a (49#114)); by_pub U. }
  do 5 (apply Forall_cons; [repeat (apply Forall_cons; [a_row U|]); apply Forall_nil|]).
  apply Forall_cons.
  { apply Forall_cons; [|apply Forall_nil]. intros a (A & B). cbn in A, B |- *. apply (Z a robert_sargos_2002); [exact A|plain; ups; lra|intros x y E; plain; apply qmax_eq; lra|exact (P11 a)]. }
  apply Forall_cons.
  { apply Forall_cons; [|apply Forall_cons; [|apply Forall_nil]]; intros a (A & B); cbn in A, B |- *.
    - apply (Z a sargos_2003_first); [exact A|plain; ups; lra|intros x y E; plain; apply qmax_eq; lra|exact (P12 a)].
    - apply (Z a sargos_2003_second); [exact A|plain; ups; lra|intros x y E; plain; apply qmax_eq; lra|exact (P13 a)]. }
  apply Forall_cons; [repeat (apply Forall_cons; [a_row U|]); apply Forall_nil|].
  apply Forall_cons.
  { apply Forall_cons; [|apply Forall_nil]. intros a (A & B). cbn in A, B |- *. apply (Z a robert_2016); [exact A|plain; ups; lra|intros x y E; plain; apply qmax_eq; lra|]. intro X. exact (P15 a X B). }
  apply Forall_cons.
  { apply Forall_map, Forall_forall. intros k K. apply zrange_in in K. intros a (A & B). cbn [w_dom w_val robert_row full incl_lo incl_hi x0 x1 respects_lower respects_upper] in A, B |- *.
    assert (D : 0 < inject_Z (2 * (k - 1) * (k - 2))). { change 0 with (inject_Z 0). rewrite <- Zlt_Qlt. nia. }
    apply (Z a (robert_2016_k k)); [exact A| | |].
    - unfold robert_2016_k. cbv zeta. match goal with |- context[qmax ?x ?y] => destruct (qmax_spec x y) as (M & _ & _) end. apply Qle_trans with (0 + (1 - inject_Z k * 0) / inject_Z (2 * (k - 1) * (k - 2))); [|lra].
      assert (0 <= (1 - inject_Z k * 0) / inject_Z (2 * (k - 1) * (k - 2))); [|lra]. apply Qle_shift_div_l; [exact D|lra].
    - intros x y E. unfold robert_2016_k. cbv zeta. rewrite !qmax_shift. apply qmax_eq; rewrite E; reflexivity.
    - intro X. apply P16; [lia|exact X|]. apply robert_range; [lia|exact B]. }
  apply Forall_cons.
  { apply Forall_map, Forall_forall. intros k K. apply zrange_in in K. intros a (A & B). cbn [w_dom w_val heath_brown_row full incl_lo incl_hi x0 x1 respects_lower respects_upper] in A, B |- *.
    assert (D : 0 < inject_Z (k * (k - 1))). { change 0 with (inject_Z 0). rewrite <- Zlt_Qlt. nia. }
    apply (Z a (heath_brown_2017 k)); [exact A| | |].
    - unfold heath_brown_2017. cbv zeta. match goal with |- context[qmax ?x (qmax ?y ?z)] => destruct (qmax_spec x (qmax y z)) as (M & _ & _) end.
      assert (0 <= (1 - inject_Z k * 0) / inject_Z (k * (k - 1))); [|lra]. apply Qle_shift_div_l; [exact D|lra].
    - intros x y E. unfold heath_brown_2017. cbv zeta. apply Qplus_comp; [exact E|]. apply qmax_eq; [rewrite E; reflexivity|]. apply qmax_eq; rewrite E; reflexivity.
    - intro X. apply P17; [lia|exact X]. }
  apply Forall_cons.
  { apply Forall_cons; [|apply Forall_cons; [|apply Forall_cons; [|apply Forall_nil]]]; intros a (A & B); cbn [w_dom w_val full half incl_lo incl_hi x0 x1 respects_lower respects_upper] in A, B |- *; destruct (P18 a) as (Q1 & Q2 & Q3).
    - destruct (Qlt_le_dec (1#3) a) as [X|X]; [apply Q1; lra|]. refine (U a a a _ (Qeq_refl a) _ (T a _ _)); unfold fn; lra.
    - destruct (Qlt_le_dec (5#12) a) as [X|X]; [apply Q2; lra|]. refine (U a a _ _ (Qeq_refl a) _ (Q1 _ _)); unfold fn; lra.
    - destruct (Qlt_le_dec (3#7) a) as [X|X]; [apply Q3; lra|]. refine (U a a _ _ (Qeq_refl a) _ (Q2 _ _)); unfold fn; lra. }
  apply Forall_cons; [repeat (apply Forall_cons; [a_row U|]); apply Forall_nil|]. apply Forall_nil.
Qed.

Print Assumptions beta_rows_true.

(** What is recorded holds, for all truncations, exactly where the published theorems do. *)
Theorem beta_table_exact : forall tr btr get W, (forall k, citable (get k)) -> beta_basic W ->
  ((forall Kr Kh hs, add_beta_bounds get Kr Kh = Ret hs -> Forall (holds tr btr W) hs) <-> beta_published W).
Proof.
  intros tr btr get W C B.
  assert (X : forall Kr Kh hs, add_beta_bounds get Kr Kh = Ret hs -> (Forall (holds tr btr W) hs <-> Forall (row_holds W) (rows Kr Kh))).
  { intros Kr Kh hs E. destruct (beta_table_recorded get Kr Kh C) as (gs & E' & F). rewrite E in E'. injection E' as ->. clear E. induction F as [|g r gs rs R F IH]; [cbn; split; constructor|].
    cbn [concat]. rewrite Forall_app, Forall_cons_iff, IH. now rewrite (recorded_holds get tr btr W g r (bb_upper W B) R). }
  split.
  - intro H. apply beta_rows_complete; [exact B|]. intros Kr Kh. destruct (beta_table_recorded get Kr Kh C) as (gs & E & _). apply (X _ _ _ E). exact (H _ _ _ E).
  - intros P Kr Kh hs E. apply (X _ _ _ E). now apply beta_rows_true.
Qed.
Print Assumptions beta_table_exact.

(** A world in which beta takes the value [c] at [p] and is small elsewhere. *)
Definition at_point (p c : Q) : zworld := Spec_ExponentPair.mkZ (fun a v => a == p -> c <= v) (fun _ _ => True).
(** The published theorem of Huxley (1993) does not give the two bounds recorded for it,
    nor do they give it: the end 49/114 is recorded as 49/144. *)
Theorem huxley_1993_refuted :
  ~ (forall W, beta_basic W -> on W 0 (49#114) huxley_1993_max /\ on W (49#114) (1#2) (fn (89#570) (1#2)) ->
       Forall (row_holds W) [mkRow "huxley_exponential_1993" (full 0 (49#144)) huxley_1993_max; mkRow "huxley_exponential_1993" (full (49#144) (1#2)) (fn (89#570) (1#2))]) /\
  ~ (forall W, beta_basic W ->
       Forall (row_holds W) [mkRow "huxley_exponential_1993" (full 0 (49#144)) huxley_1993_max; mkRow "huxley_exponential_1993" (full (49#144) (1#2)) (fn (89#570) (1#2))] ->
       on W 0 (49#114) huxley_1993_max /\ on W (49#114) (1#2) (fn (89#570) (1#2))).
Proof.
  assert (B : forall p c, 0 <= p -> p <= 1 -> c <= p -> beta_basic (at_point p c)).
  { intros p c P1 P2 C. constructor; [intros x x' v v' E L H E'; cbn in *; apply Qle_trans with v; [apply H; lra|exact L]|intros a A1 A2 E; lra|intros a A E; lra]. }
  split; intro H.
  - specialize (H (at_point (7#20) (407#1200))). apply Forall_cons_iff in H as (_ & H).
    + apply Forall_cons_iff in H as (H & _). specialize (H (7#20)). cbn [w_dom w_val] in H. assert (X : 407#1200 <= fn (89#570) (1#2) (7#20)); [apply H; [split; cbn; lra|reflexivity]|]. revert X. unfold fn. lra.
    + apply B; lra.
    + split; intros a A1 A2 E; [plain; ups; lra|lra].
  - specialize (H (at_point (5#12) (831#2280))). destruct H as (H & _).
    + apply B; lra.
    + apply Forall_cons; [|apply Forall_cons; [|apply Forall_nil]]; intros a (A1 & A2) E; cbn in A1, A2 |- *; [lra|unfold fn; lra].
    + specialize (H (5#12)). assert (X : 831#2280 <= huxley_1993_max (5#12)); [apply H; lra || reflexivity|]. revert X. plain. downs; lra.
Qed.
Print Assumptions huxley_1993_refuted.

(** The conjectured size of beta makes everything published true. *)
Definition lindelof_beta : zworld := Spec_ExponentPair.mkZ (fun a v => (a <= 1 -> a * (1#2) <= v) /\ (1 < a -> a - 1 <= v)) (fun _ _ => True).
Example ex_published : beta_basic lindelof_beta /\ beta_published lindelof_beta.
Proof.
  split.
  - constructor; [intros x x' v v' E L (H1 & H2); split; intro X; [apply Qle_trans with v; [rewrite <- E; apply H1; lra|exact L]|apply Qle_trans with v; [rewrite <- E; apply H2; lra|exact L]]|intros a A1 A2; split; intro; lra|intros a A; split; intro; lra].
  - constructor.
    1-3: repeat split; intros; plain; ups; lra.
    + intros lo hi f I. unfold huxley_1993_table in I. repeat (destruct I as [I|I]; [injection I as <- <- <-; intros a A B; split; intro; plain; lra|]). destruct I.
    + repeat split; intros; plain; ups; lra.
    + split; intros lo hi f I; [unfold huxley_table_1 in I|unfold huxley_table_2 in I]; repeat (destruct I as [I|I]; [injection I as <- <- <-; intros a A B; split; intro; plain; lra|]); destruct I.
    + split; intros; plain; ups; lra.
    + split; intros; plain; ups; lra.
    + repeat split; intros; plain; ups; lra.
    + split; intros; plain; ups; lra.
    + split; intros; plain; ups; lra.
    + intros k a K A B. assert (P : 12 <= inject_Z (2 * (k - 1) * (k - 2))) by (change 12 with (inject_Z 12); rewrite <- Zle_Qle; nia).
      apply robert_range in B; [|exact K]. assert (A1 : a <= 1). { apply Qle_trans with (1 := B). apply Qle_shift_div_r; [change 0 with (inject_Z 0); rewrite <- Zlt_Qlt; nia|]. rewrite Qmult_1_l, <- Zle_Qle. nia. }
      split; intro; [|lra]. unfold robert_2016_k. cbv zeta. match goal with |- context[qmax ?x ?y] => destruct (qmax_spec x y) as (_ & M & _) end.
      assert (a / inject_Z (2 * (k - 1) * (k - 2)) <= a * (1#2)); [|lra]. apply Qle_shift_div_r; [lra|nra].
    + intros k K a A. assert (P : 2 <= inject_Z (k * (k - 1))) by (change 2 with (inject_Z 2); rewrite <- Zle_Qle; nia).
      assert (P3 : 3 <= inject_Z k) by (change 3 with (inject_Z 3); now rewrite <- Zle_Qle).
      unfold heath_brown_2017. cbv zeta. match goal with |- context[qmax ?x (qmax ?y ?z)] => destruct (qmax_spec x (qmax y z)) as (_ & M & _); destruct (qmax_spec y z) as (_ & M' & _) end.
      cbn [beta_le lindelof_beta]. assert (a / inject_Z (k * (k - 1)) <= a * (1#2)) by (apply Qle_shift_div_r; [lra|nra]).
      assert (X : - (a / inject_Z (k * (k - 1))) <= qmax (- (a / inject_Z (k * (k - 1)))) (- (2 * a / inject_Z (k * (k - 1))) - 2 * (1 - inject_Z k * a) / inject_Z (k * k * (k - 1)))) by apply qmax_spec.
      split; intro; [lra|]. assert (Y : - (1) <= - (2 * a / inject_Z (k * (k - 1))) - 2 * (1 - inject_Z k * a) / inject_Z (k * k * (k - 1))); [|lra].
      unfold Z.sub. rewrite !inject_Z_mult, !inject_Z_plus. change (inject_Z (Z.opp 1)) with (-(1)). set (q := inject_Z k) in *.
      setoid_replace (- (2 * a / (q * (q + - (1)))) - 2 * (1 - q * a) / (q * q * (q + - (1)))) with (- (2 / (q * q * (q + - (1))))) by (field; repeat split; intro; nra).
      assert (Z : 2 / (q * q * (q + - (1))) <= 1); [|lra]. apply Qle_shift_div_r; nra.
    + intros a. repeat split; intros; cbn; lra.
    + intros lo hi f I. unfold combined_table in I. repeat (destruct I as [I|I]; [injection I as <- <- <-; intros a A B; split; intro; plain; lra|]). destruct I.
Qed.
Definition some_reference : reference := ref_make (s_of "Somebody") 2000.
Example ex_citable : citable some_reference.
Proof. split; discriminate. Qed.
Example ex_rows : exists hs, add_beta_bound_huxley_1993 (fun _ => some_reference) = Ret hs /\
  map n_name hs = [s_of "Somebody (2000) bound on \beta on [0,49/144]"; s_of "Somebody (2000) bound on \beta on [49/144,1/2]"].
Proof. match goal with |- exists hs, ?f = _ /\ _ => let e := eval vm_compute in f in match e with Ret ?l => exists l end end. split; vm_compute; reflexivity. Qed.
