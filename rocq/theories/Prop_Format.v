(** Property C46: printed expressions.  [Spec_Format.v] defines how a printed sum
    is read; the theorems say that reading what was printed gives the
    coefficients back. *)
From Coq Require Import DecimalString.
From Verif Require Import Base LinAlg Model_Text Model_Polytope Spec_Polytope Model_Region Spec_Region Proof_Region Model_Format Spec_Format Proof_Format.
Open Scope list_scope.

(** The printed form of [c0 + c1 x1 + ... + cn xn] is read as the sum of the
    terms whose coefficient is not zero, each once and in order. *)
Theorem format_terms : forall c0 cs vars, Forall name vars -> (length cs <= length vars)%nat ->
  exists s, fmt (c0 :: cs) vars = Ret s /\ same_terms (read_sum s) ((if Qeqb c0 0 then [] else [(c0, [])]) ++ terms cs vars).
Proof.
  intros c0 cs vars V L. destruct (fmt_read c0 cs vars V L) as (s & E & H). exists s. split; [exact E|]. unfold with_constant in H.
  destruct (Qeqb c0 0); exact H.
Qed.
Print Assumptions format_terms.

(** So every coefficient can be read off. *)
Theorem format_coefficients : forall c0 cs vars, Forall name vars -> NoDup vars -> (length cs <= length vars)%nat ->
  exists s ts, fmt (c0 :: cs) vars = Ret s /\ read_sum s = Some ts /\ coefficient [] ts == c0 /\
    (forall i, (i < length cs)%nat -> coefficient (nth i vars []) ts == nth i cs 0).
Proof. exact fmt_coefficients. Qed.
Print Assumptions format_coefficients.

(** Two expressions with the same text are equal. *)
Theorem format_injective : forall c0 cs d0 ds vars s, Forall name vars -> NoDup vars -> (length cs <= length vars)%nat -> length cs = length ds ->
  fmt (c0 :: cs) vars = Ret s -> fmt (d0 :: ds) vars = Ret s -> c0 == d0 /\ Forall2 Qeq cs ds.
Proof.
  intros c0 cs d0 ds vars s V D L Ld E1 E2. destruct (fmt_coefficients c0 cs vars V D L) as (s1 & t1 & F1 & R1 & K1 & H1).
  destruct (fmt_coefficients d0 ds vars V D ltac:(lia)) as (s2 & t2 & F2 & R2 & K2 & H2).
  assert (s1 = s) by congruence. assert (s2 = s) by congruence. subst. assert (t1 = t2) by congruence. subst t2. split; [now rewrite <- K1, K2|].
  assert (X : forall i, (i < length cs)%nat -> nth i cs 0 == nth i ds 0) by (intros i Hi; rewrite <- H1 by lia; rewrite H2 by lia; reflexivity).
  clear - Ld X. revert ds Ld X. induction cs as [|c cs IH]; intros [|e ds] Ld X; simpl in Ld; try discriminate; constructor.
  - apply (X 0%nat). simpl. lia.
  - apply IH; [lia|]. intros i Hi. apply (X (S i)). simpl. lia.
Qed.
Print Assumptions format_injective.

(** The zero expression is printed as the empty string, and no other is. *)
Theorem format_zero : forall c0 cs vars, Forall name vars -> NoDup vars -> (length cs <= length vars)%nat ->
  (fmt (c0 :: cs) vars = Ret [] <-> c0 == 0 /\ Forall (fun c => c == 0) cs).
Proof.
  intros c0 cs vars V D L. split.
  - intro E. destruct (fmt_coefficients c0 cs vars V D L) as (s & ts & F & R & K & H). assert (s = []) by congruence. subst s. injection R as <-.
    split; [now rewrite <- K|]. apply Forall_forall. intros c I. apply (In_nth _ _ 0) in I as (i & Hi & <-). rewrite <- H by auto. reflexivity.
  - intros [Z F]. rewrite fmt_words by auto. unfold sum_words. apply Qeqb_true in Z. rewrite Z. assert (X : terms cs vars = []); [|now rewrite X].
    clear - F. revert vars. induction F as [|c cs H F IH]; intro vars; [reflexivity|]. destruct vars as [|v vars]; [reflexivity|]. rewrite terms_cons. apply Qeqb_true in H. rewrite H. apply IH.
Qed.
Print Assumptions format_zero.

(** Too few names: IndexError, even when the coefficients are zero. *)
Theorem format_short : forall c0 cs vars, (length vars < length cs)%nat -> fmt (c0 :: cs) vars = Raise IndexError.
Proof.
  intros c0 cs vars L. unfold fmt.
  assert (X : forall vars f, (length vars < length cs)%nat -> fmt_loop f cs vars = Raise IndexError); [|now apply X]. clear.
  induction cs as [|c cs IH]; intros vars f L; [simpl in L; lia|]. destruct vars as [|v vars]; [reflexivity|]. simpl in L. cbn [fmt_loop].
  destruct (Qeqb c 0); apply IH; lia.
Qed.
Print Assumptions format_short.

Example ex_format : fmt [- (1 # 2); 1; 0; - (4 # 6); -1] (map s_of ["x"; "y"; "z"; "w"]%string) = Ret (s_of "-1/2 + x - 2/3z - w").
Proof. vm_compute. reflexivity. Qed.
Example ex_format_names : Forall name (map s_of ["x"; "y"; "z"; "w"]%string) /\ NoDup (map s_of ["x"; "y"; "z"; "w"]%string) /\
  read_sum (s_of "-1/2 + x - 2/3z - w") = Some [(-(1 # 2), []); (1, s_of "x"); (- (2 # 3), s_of "z"); (-1, s_of "w")].
Proof.
  split; [|split; [|vm_compute; reflexivity]].
  - repeat (constructor; [repeat split; try discriminate; simpl; intuition discriminate|]). constructor.
  - repeat (constructor; [simpl; intuition discriminate|]). constructor.
Qed.

(** ** Affine functions of several variables *)

(** The constant is always printed. *)
Theorem affine2_text : forall c0 cs vars, Forall name vars -> (length cs <= length vars)%nat ->
  exists s, a2_str (c0 :: cs) (Some vars) = Ret s /\ same_terms (read_sum s) ((c0, []) :: terms cs vars).
Proof. exact a2_str_read. Qed.
Print Assumptions affine2_text.

Theorem affine2_text_short : forall c0 cs vars, (length vars < length cs)%nat -> a2_str (c0 :: cs) (Some vars) = Raise ValueError.
Proof. intros c0 cs vars L. unfold a2_str. replace (_ <? _)%nat with true by (symmetry; apply Nat.ltb_lt; simpl; lia). reflexivity. Qed.
Print Assumptions affine2_text_short.

Example ex_affine2 : a2_str [0; - (3 # 2); 1] (Some (map s_of ["x"; "y"]%string)) = Ret (s_of "0 - 3/2x + y").
Proof. vm_compute. reflexivity. Qed.

(** ** Polynomials *)

(** Reading any number of signs before a term, the coefficients are those of the
    polynomial. *)
Theorem polynomial_text : forall cs var, name var -> ~ Forall (fun c => c == 0) cs ->
  exists ts, read_lenient (poly_str cs var) = Some ts /\ forall i, (i < length cs)%nat -> coefficient (power var i) ts == nth i cs 0.
Proof. exact poly_coefficients. Qed.
Print Assumptions polynomial_text.

Theorem polynomial_text_zero : forall cs var, name var -> (Forall (fun c => c == 0) cs -> poly_str cs var = s_of "0") /\
  (poly_str cs var = s_of "0" -> Forall (fun c => c == 0) cs).
Proof.
  intros cs var H. split; intro K.
  - unfold poly_str. apply (loop_nil cs 0 var H) in K. now rewrite K.
  - destruct (Forall_dec (fun c => c == 0) (fun c => Qeq_dec c 0) cs) as [F|F]; [exact F|]. exfalso.
    destruct (poly_lenient cs var H F) as (l & El & Hl). rewrite K in El. vm_compute in El. injection El as <-.
    destruct (terms cs (powers var (length cs))) as [|[c v] ts] eqn:E; [inversion Hl|]. inversion Hl as [|? ? ? ? [Hc _] _]; subst. cbn [fst] in Hc.
    assert (I : In (c, v) (terms cs (powers var (length cs)))) by (rewrite E; now left). unfold terms in I. apply filter_In in I as [_ I]. cbn [fst] in I.
    apply negb_true_iff, Qeqb_false in I. apply I. symmetry. exact Hc.
Qed.
Print Assumptions polynomial_text_zero.

(** With exactly one sign between two terms when no zero coefficient follows the
    first coefficient that is not zero ... *)
Theorem polynomial_text_strict : forall k cs var, name var -> Forall (fun c => ~ c == 0) cs -> cs <> [] ->
  same_terms (read_sum (poly_str (repeat 0 k ++ cs) var)) (terms (repeat 0 k ++ cs) (powers var (length (repeat 0 k ++ cs)))).
Proof. exact poly_strict. Qed.
Print Assumptions polynomial_text_strict.

(** ... but not otherwise: 1 + x^2 is printed as "1 + + x^2". *)
Theorem polynomial_text_strict_refuted : exists cs var, name var /\ ~ last cs 0 == 0 /\ poly_str cs var = s_of "1 + + x^2" /\ read_sum (poly_str cs var) = None.
Proof.
  exists [1; 0; 1], (s_of "x"). split; [repeat split; try discriminate; simpl; intuition discriminate|]. split; [simpl; lra|]. split; vm_compute; reflexivity.
Qed.
Print Assumptions polynomial_text_strict_refuted.

(** Two polynomials with the same text are equal. *)
Theorem polynomial_text_injective : forall cs ds var, name var -> length cs = length ds -> poly_str cs var = poly_str ds var -> Forall2 Qeq cs ds.
Proof.
  intros cs ds var H L E.
  assert (X : forall i, (i < length cs)%nat -> nth i cs 0 == nth i ds 0).
  { intros i Hi. destruct (Forall_dec (fun c => c == 0) (fun c => Qeq_dec c 0) cs) as [F|F].
    - pose proof (proj1 (polynomial_text_zero cs var H) F) as E1. rewrite E in E1. apply (proj2 (polynomial_text_zero ds var H)) in E1.
      rewrite Forall_forall in F, E1. rewrite (F (nth i cs 0)) by (apply nth_In; lia). rewrite (E1 (nth i ds 0)) by (apply nth_In; lia). reflexivity.
    - destruct (Forall_dec (fun c => c == 0) (fun c => Qeq_dec c 0) ds) as [G|G].
      + exfalso. apply F. apply (proj2 (polynomial_text_zero cs var H)). rewrite E. now apply (proj1 (polynomial_text_zero ds var H)).
      + destruct (poly_coefficients cs var H F) as (t1 & R1 & K1). destruct (poly_coefficients ds var H G) as (t2 & R2 & K2). rewrite E, R2 in R1. injection R1 as ->.
        rewrite <- K1 by lia. rewrite K2 by lia. reflexivity. }
  clear - L X. revert ds L X. induction cs as [|c cs IH]; intros [|e ds] L X; simpl in L; try discriminate; constructor.
  - apply (X 0%nat). simpl. lia.
  - apply IH; [lia|]. intros i Hi. apply (X (S i)). simpl. lia.
Qed.
Print Assumptions polynomial_text_injective.

Example ex_polynomial : poly_str [0; - (3 # 2); 1; -1] (s_of "x") = s_of "- 3/2x + x^2 - x^3".
Proof. vm_compute. reflexivity. Qed.

(** ** Polytopes *)

(** The text of a polytope is read as its rows. *)
Theorem polytope_text : forall p vars, wf_mat (pmat p) -> Forall name vars -> NoDup vars -> (ncol (pmat p) - 1 <= length vars)%nat ->
  exists s rows, polytope_str p vars = Ret s /\ read_polytope s = Some rows /\
    Forall2 (fun rb tb => snd tb = snd rb /\ coefficient [] (fst tb) == nth 0 (fst rb) 0 /\
      forall i, (i < ncol (pmat p) - 1)%nat -> coefficient (nth i vars []) (fst tb) == nth (S i) (fst rb) 0) (mrows (pmat p)) rows.
Proof.
  intros p vars W V D L. destruct (polytope_read p vars W V L) as (s & rows & Es & Er & H). exists s, rows. split; [exact Es|]. split; [exact Er|].
  destruct W as [N F]. revert F L N. generalize (ncol (pmat p)). intros n F L N. clear - H F V D L N.
  induction H as [|[r b] [ts b'] rs rows [Hb Ht] H IH]; [constructor|]. apply Forall_cons_iff in F as [Hr F]. constructor; [|auto]. cbn [fst snd] in *.
  split; [exact Hb|]. destruct r as [|c0 cs]; [simpl in Hr; lia|]. cbn [hd tl nth] in *. simpl in Hr.
  assert (A : coefficient [] (terms cs vars) == 0) by (apply coefficient_absent; intro K; apply terms_names in K; now apply (name_not_empty vars V)).
  split.
  - rewrite (coefficient_same _ _ _ Ht). unfold with_constant. destruct (Qeqb c0 0) eqn:E.
    + apply Qeqb_true in E. now rewrite A, E.
    + cbn [coefficient]. change (str_eqb [] []) with true. cbv iota. rewrite A. ring.
  - intros i Hi. rewrite (coefficient_same _ _ _ Ht). change (nth (S i) (c0 :: cs) 0) with (nth i cs 0). unfold with_constant. destruct (Qeqb c0 0); [apply (terms_coefficient cs vars i); [exact D|eapply Nat.le_trans; [|exact L]; lia|lia]|].
    cbn [coefficient]. assert (E : str_eqb (nth i vars []) [] = false).
    { apply str_eqb_false. intro K. apply (name_not_empty vars V). rewrite <- K. apply nth_In. eapply Nat.lt_le_trans; [|exact L]. lia. }
    rewrite E, (terms_coefficient cs vars i D); [ring|eapply Nat.le_trans; [|exact L]; lia|lia].
Qed.
Print Assumptions polytope_text.

(** The default names are distinct names and there are enough of them. *)
Theorem polytope_default_names : forall d, Forall name (default_names d) /\ NoDup (default_names d) /\ (d <= length (default_names d))%nat.
Proof. exact default_names_ok. Qed.
Print Assumptions polytope_default_names.

Theorem polytope_text_short : forall p vars, (length vars < ncol (pmat p) - 1)%nat -> polytope_str p vars = Raise ValueError.
Proof. intros p vars L. unfold polytope_str. replace (_ <? _)%nat with true by (symmetry; now apply Nat.ltb_lt). reflexivity. Qed.
Print Assumptions polytope_text_short.

Example ex_polytope_text : polytope_repr (mkPoly (mkMat [([0; 1; 0], false); ([1; -1; - (1 # 2)], false); ([0; 0; 0], true)] 3) false None) =
  Ret (s_of "['x >= 0', '1 - x - 1/2y >= 0', ' = 0']").
Proof. vm_compute. reflexivity. Qed.

Lemma digit_plain : forall c, digit c -> plain_ch c.
Proof. intros c H. apply digit_num in H. unfold num_ch in H. apply existsb_exists in H as (d & I & E). apply ch_eqb_true in E. subst d. unfold plain_ch. cbn in *. tauto. Qed.
Lemma frac_plain : forall q, Forall plain_ch (frac_str q).
Proof.
  assert (P : forall q, 0 <= q -> Forall plain_ch (frac_str q)).
  { intros q H. unfold frac_str. apply Forall_app. split.
    - apply (Forall_impl _ digit_plain). apply z_str_pos. now apply Qred_pos.
    - destruct (Pos.eqb _ _); [constructor|]. apply Forall_app. split; [repeat constructor; cbn; tauto|]. apply (Forall_impl _ digit_plain). apply z_str_pos. lia. }
  intro q. destruct (Qlt_le_dec q 0) as [H|H]; [|now apply P]. rewrite (frac_neg q H). constructor; [cbn; tauto|]. apply P. apply Qabs_nonneg.
Qed.
(** Nothing is printed but digits, signs, spaces and the names. *)
Theorem format_characters : forall cs vars s, fmt cs vars = Ret s -> Forall (fun c => plain_ch c \/ exists v, In v vars /\ In c v) s.
Proof.
  intros cs vars s. destruct cs as [|c0 cs]; [discriminate|]. unfold fmt.
  assert (G : forall V cs vars f, incl vars V -> Forall (fun c => plain_ch c \/ exists v, In v V /\ In c v) f -> fmt_loop f cs vars = Ret s ->
    Forall (fun c => plain_ch c \/ exists v, In v V /\ In c v) s).
  { intro V. induction cs0 as [|c cs0 IH]; intros vs f I F H; [injection H as <-; exact F|]. destruct vs as [|v vs]; [discriminate|]. cbn [fmt_loop] in H.
    apply incl_cons_inv in I as [Iv I]. destruct (Qeqb c 0); [now apply (IH vs f)|]. revert H. apply IH; [exact I|].
    assert (Fp : forall t, Forall plain_ch t -> Forall (fun c => plain_ch c \/ exists v, In v V /\ In c v) t) by (intros t Ht; apply (Forall_impl _ (fun c H => or_introl H) Ht)).
    assert (Fv : Forall (fun c => plain_ch c \/ exists v, In v V /\ In c v) v) by (apply Forall_forall; intros a Ia; right; eauto).
    assert (Fs : Forall (fun c => plain_ch c \/ exists v, In v V /\ In c v) (if Qltb 0 c then match f with [] => f | _ => f ++ s_of " + " end else f ++ match f with [] => s_of "-" | _ => s_of " - " end)).
    { destruct (Qltb 0 c).
      - destruct f as [|a f]; [exact F|]. apply Forall_app. split; [exact F|]. apply Fp. repeat constructor; cbn; tauto.
      - apply Forall_app. split; [exact F|]. apply Fp. destruct f; repeat constructor; cbn; tauto. }
    destruct (Qeqb c 1 || Qeqb c (-1)); [now apply Forall_app|]. apply Forall_app. split; [exact Fs|]. apply Forall_app. split; [apply Fp, frac_plain|exact Fv]. }
  intro H. apply (G vars cs vars _ (incl_refl _)) in H; [exact H|]. destruct (Qeqb c0 0); [constructor|].
  apply (Forall_impl _ (fun c H => or_introl H) (frac_plain c0)).
Qed.
Print Assumptions format_characters.

(** ** Regions *)

Lemma strip_app : forall p s, strip p (p ++ s) = Some s.
Proof. induction p as [|c p IH]; intro s; [reflexivity|]. cbn [strip app]. rewrite ch_eqb_refl. apply IH. Qed.
Lemma to_bracket_app : forall a rest, ~ In "]"%char a -> to_bracket (a ++ "]"%char :: rest) = Some (a ++ ["]"%char], rest).
Proof.
  induction a as [|c a IH]; intros rest N; cbn [to_bracket app]; [reflexivity|].
  destruct (ch_eqb c "]") eqn:E; [apply ch_eqb_true in E; subst c; exfalso; apply N; now left|]. rewrite IH; [reflexivity|]. intro K. apply N. now right.
Qed.

Definition fine (vars : list str) : Prop := Forall name vars /\ NoDup vars /\ Forall (fun v => ~ In "]"%char v) vars.

Lemma row_str_free : forall vars rb s, Forall (fun v => ~ In "]"%char v) vars -> row_str vars rb = Ret s -> ~ In "]"%char s.
Proof.
  intros vars [r b] s N H. unfold row_str in H. cbn [fst snd] in H. destruct (fmt r vars) as [e|] eqn:E; [|discriminate]. cbn [bind] in H. injection H as <-.
  rewrite in_app_iff. intros [K|K].
  - pose proof (format_characters _ _ _ E) as F. rewrite Forall_forall in F. destruct (F _ K) as [P|(v & Iv & Ic)].
    + unfold plain_ch in P. cbn in P. repeat (destruct P as [P|P]; [discriminate|]). exact P.
    + rewrite Forall_forall in N. exact (N v Iv Ic).
  - destruct b; cbn in K; repeat (destruct K as [K|K]; [discriminate|]); exact K.
Qed.
Lemma rows_free : forall vars l ss, Forall (fun v => ~ In "]"%char v) vars -> mapM (row_str vars) l = Ret ss -> Forall (fun s => ~ In "]"%char s) ss.
Proof.
  intros vars l ss N H. apply mapM_Forall2 in H. induction H as [|a b l ss E H IH]; constructor; [now apply (row_str_free vars a)|exact IH].
Qed.
Lemma join_free : forall c sep l, ~ In c sep -> Forall (fun s => ~ In c s) l -> ~ In c (join sep l).
Proof.
  intros c sep l S F. induction F as [|a l Ha F IH]; [intros []|]. destruct l as [|b l]; [exact Ha|]. rewrite join_cons, !in_app_iff. tauto.
Qed.
(** The only closing bracket of the text of a polytope is its last character. *)
Lemma polytope_str_end : forall p vars s, Forall (fun v => ~ In "]"%char v) vars -> polytope_str p vars = Ret s ->
  exists a, s = "["%char :: a ++ ["]"%char] /\ ~ In "]"%char a.
Proof.
  intros p vars s N H. unfold polytope_str in H. destruct (_ <? _)%nat; [discriminate|]. destruct (mapM (row_str vars) _) as [ss|] eqn:E; [|discriminate].
  cbn [bind] in H. injection H as <-. exists (join (s_of ", ") (map quoted ss)). split; [reflexivity|]. apply join_free; [cbn; intuition discriminate|].
  apply rows_free in E; [|exact N]. apply Forall_forall. intros q I. apply in_map_iff in I as (t & <- & It). rewrite Forall_forall in E. specialize (E t It).
  unfold quoted. rewrite !in_app_iff. intros [[K|[]]|[K|[K|[]]]]; try discriminate. auto.
Qed.

Section Text.
Variables (vars : option (list str)) (d : nat).
(** The names a polytope is printed with. *)
Definition names_of : nat -> list str := match vars with None => default_names | Some vs => fun _ => vs end.
Definition leaf_fine (p : lpoly) : Prop := wf_mat (pmat (body p)) /\ fine (names_of (ncol (pmat (body p)) - 1)) /\
  (ncol (pmat (body p)) - 1 <= List.length (names_of (ncol (pmat (body p)) - 1)))%nat.

Definition read_at (s : str) (t : rtext) : Prop := forall n rest, (List.length s < n)%nat -> read_region_upto n (s ++ rest) = Some (t, rest).

Lemma leaf_read : forall p, leaf_fine p -> exists s t, region_str vars (RPoly p) = Ret s /\ hd " "%char s = "["%char /\ read_at s t /\ describes names_of t (RPoly p).
Proof.
  intros p (W & (V & D & N) & L). destruct (polytope_text (body p) _ W V D L) as (s & rows & Es & Er & H).
  assert (E : region_str vars (RPoly p) = Ret s).
  { cbn [region_str]. unfold leaf_str, names_of in *. destruct vars; [exact Es|]. unfold polytope_repr. exact Es. }
  destruct (polytope_str_end _ _ _ N Es) as (a & -> & Na). exists ("["%char :: a ++ ["]"%char]), (TPoly rows). split; [exact E|]. split; [reflexivity|]. split.
  - intros n rest Ln. destruct n as [|n]; [lia|]. cbn [read_region_upto].
    change (strip (s_of "[") (("["%char :: a ++ ["]"%char]) ++ rest)) with (Some ((a ++ ["]"%char]) ++ rest)). cbv iota.
    replace (("["%char :: a ++ ["]"%char]) ++ rest) with (("["%char :: a) ++ "]"%char :: rest) by (cbn [app]; now rewrite <- app_assoc).
    rewrite to_bracket_app; [|intros [K|K]; [discriminate|auto]]. cbn [app]. now rewrite Er.
  - constructor. exact H.
Qed.

Lemma items_read : forall ss ts rest rd n, ss <> [] -> Forall2 (fun s t => forall rest, rd (s ++ rest) = Some (t, rest)) ss ts ->
  (List.length ss <= n)%nat -> read_items rd n (join (s_of ", ") ss ++ "}"%char :: rest) = Some (ts, rest).
Proof.
  intros ss ts rest rd n NE F. revert n. induction F as [|s t ss ts H F IH]; intros n L; [contradiction|]. destruct n as [|n]; [cbn in L; lia|]. cbn [read_items].
  destruct F as [|s' t' ss ts H' F].
  - cbn [join]. rewrite H. reflexivity.
  - rewrite join_cons, <- !app_assoc, H. cbn [s_of list_ascii_of_string app strip]. change (ch_eqb "}" ",") with false. cbv iota.
    change (ch_eqb "," ",") with true. change (ch_eqb " " " ") with true. cbv iota. change [","%char; " "%char] with (s_of ", ").
    rewrite IH; [reflexivity|discriminate|cbn in *; lia].
Qed.

Lemma join_length : forall ss, (forall s, In s ss -> s <> []) -> (List.length ss <= S (List.length (join (s_of ", ") ss)))%nat /\
  (forall s, In s ss -> List.length s <= List.length (join (s_of ", ") ss))%nat.
Proof.
  intros ss. induction ss as [|s ss IH]; intro NE; [split; [cbn; lia|intros s []]|].
  destruct IH as [A B]; [intros q Iq; apply NE; now right|]. assert (s <> []) as NEs by (apply NE; now left).
  destruct ss as [|s' ss].
  - split; [cbn; lia|]. intros q [<-|[]]. cbn. lia.
  - rewrite join_cons, !app_length. unfold str in *. set (J := List.length (join _ (s' :: ss))) in *. change (List.length (s_of ", ")) with 2%nat. cbn [List.length] in *. split; [lia|]. intros q [<-|I]; [lia|]. specialize (B q I). lia.
Qed.
End Text.

Definition kind_str (k : rkind) : str := match k with KUnion => s_of "Union" | KDisjoint => s_of "Disjoint union" | KIntersection => s_of "Intersection" end.
Lemma kind_read : forall k s, read_kind (kind_str k ++ s_of " of {" ++ s) = Some (k, s) /\ strip (s_of "[") (kind_str k ++ s_of " of {" ++ s) = None.
Proof.
  intros k s. split; [|destruct k; reflexivity]. unfold read_kind. destruct k; cbn [kind_str].
  - now rewrite (app_assoc (s_of "Union")), (strip_app (s_of "Union" ++ s_of " of {")).
  - change (strip (s_of "Union of {") (s_of "Disjoint union" ++ s_of " of {" ++ s)) with (@None str). cbv iota.
    now rewrite (app_assoc (s_of "Disjoint union")), (strip_app (s_of "Disjoint union" ++ s_of " of {")).
  - change (strip (s_of "Union of {") (s_of "Intersection" ++ s_of " of {" ++ s)) with (@None str). cbv iota.
    change (strip (s_of "Disjoint union of {") (s_of "Intersection" ++ s_of " of {" ++ s)) with (@None str). cbv iota.
    now rewrite (app_assoc (s_of "Intersection")), (strip_app (s_of "Intersection" ++ s_of " of {")).
Qed.
Lemma braces_read : forall k ss ts, Forall2 (fun s t => read_at s t /\ exists c s', s = c :: s' /\ c <> "}"%char) ss ts -> read_at (braces (kind_str k) ss) (TOf k ts).
Proof.
  intros k ss ts F n rest L. destruct n as [|n]; [lia|]. cbn [read_region_upto]. unfold braces in *. rewrite <- !app_assoc.
  destruct (kind_read k (join (s_of ", ") ss ++ s_of "}" ++ rest)) as [-> ->].
  assert (NE : forall s, In s ss -> s <> []).
  { clear - F. induction F as [|s t ss ts (_ & c & s' & -> & _) F IH]; [intros s []|]. intros q [<-|I]; [discriminate|auto]. }
  destruct (join_length ss NE) as [L1 L2]. rewrite !app_length in L.
  destruct F as [|s t ss ts (H & c & s' & -> & Nc) F]; [reflexivity|].
  unfold str in *. set (J := List.length (join (s_of ", ") ((c :: s') :: ss))) in L, L1, L2. clearbody J.
  assert (E : strip (s_of "}") (join (s_of ", ") ((c :: s') :: ss) ++ s_of "}" ++ rest) = None).
  { assert (ch_eqb "}" c = false) as E by (destruct (ch_eqb "}" c) eqn:E; [apply ch_eqb_true in E; congruence|reflexivity]).
    destruct ss; [|rewrite join_cons]; cbn [join s_of list_ascii_of_string app strip]; rewrite E; reflexivity. }
  unfold str in *. rewrite E. change (s_of "}" ++ rest) with ("}"%char :: rest). erewrite items_read; [reflexivity|discriminate| |].
  - set (l := (c :: s') :: ss) in *. set (ts' := t :: ts).
    assert (F' : Forall2 (fun s t => read_at s t /\ exists c s', s = c :: s' /\ c <> "}"%char) l ts') by (constructor; [split; [exact H|eauto]|exact F]).
    clear - F' L L2. clearbody l ts'. assert (G : forall s, In s l -> (List.length s < n)%nat) by (intros s I; specialize (L2 s I); destruct k; cbn in L; lia). clear L L2.
    induction F' as [|s0 t0 l0 ts0 [H0 _] F' IH]; constructor; [intro rest; apply H0, G; now left|]. apply IH. intros q I. apply G. now right.
  - destruct k; cbn in L, L1 |- *; lia.
Qed.

(** A region is printed when it has no complement and no wrapped region in it,
    and the text is read as the region: the same unions and intersections of
    polytopes with the same rows. *)
Theorem region_text : forall vars r, leaves (leaf_fine vars) r ->
  if plain_region r then exists s t, region_str vars r = Ret s /\ read_region s = Some t /\ describes (names_of vars) t r
  else region_str vars r = Raise TypeError.
Proof.
  intros vars.
  set (P := fun r => if plain_region r then exists s t, region_str vars r = Ret s /\ (exists c s', s = c :: s' /\ c <> "}"%char) /\ read_at s t /\ describes (names_of vars) t r
    else region_str vars r = Raise TypeError).
  enough (G : forall r, leaves (leaf_fine vars) r -> P r).
  { intros r W. specialize (G r W). unfold P in G. destruct (plain_region r); [|exact G]. destruct G as (s & t & E & _ & R & D). exists s, t. split; [exact E|]. split; [|exact D].
    unfold read_region. specialize (R (S (List.length s)) [] ltac:(lia)). rewrite app_nil_r in R. now rewrite R. }
  assert (M : forall rs, Forall (fun r => leaves (leaf_fine vars) r -> P r) rs -> allP (leaves (leaf_fine vars)) rs ->
    if forallb plain_region rs then exists ss ts, mapM (region_str vars) rs = Ret ss /\
      Forall2 (fun s t => read_at s t /\ exists c s', s = c :: s' /\ c <> "}"%char) ss ts /\ Forall2 (describes (names_of vars)) ts rs
    else mapM (region_str vars) rs = Raise TypeError).
  { intros rs F A. induction F as [|r rs H F IH]; [exists [], []; repeat constructor|]. destruct A as [Ar A]. specialize (IH A). specialize (H Ar). unfold P in H.
    cbn [forallb mapM]. destruct (plain_region r); cbn [andb].
    - destruct H as (s & t & -> & N & R & D). cbn [bind]. destruct (forallb plain_region rs).
      + destruct IH as (ss & ts & -> & F1 & F2). cbn [bind]. exists (s :: ss), (t :: ts). repeat split; constructor; auto.
      + now rewrite IH.
    - now rewrite H. }
  induction r as [p|r IH|r IH|rs IH|rs IH|rs IH] using region_tree_ind; cbn [leaves]; intro W; unfold P; cbn [plain_region]; try reflexivity.
  - destruct (leaf_read vars p W) as (s & t & E & H & R & D). exists s, t. split; [exact E|]. split; [|auto]. destruct s as [|c s]; [discriminate|]. cbn in H. subst c.
    exists "["%char, s. split; [reflexivity|discriminate].
  - specialize (M rs IH W). cbn [region_str]. destruct (forallb plain_region rs); [|now rewrite M]. destruct M as (ss & ts & -> & F1 & F2). cbn [bind].
    exists (braces (s_of "Union") ss), (TOf KUnion ts). split; [reflexivity|]. split; [unfold braces; eexists _, _; split; [reflexivity|discriminate]|].
    split; [now apply (braces_read KUnion)|now constructor].
  - specialize (M rs IH W). cbn [region_str]. destruct (forallb plain_region rs); [|now rewrite M]. destruct M as (ss & ts & -> & F1 & F2). cbn [bind].
    exists (braces (s_of "Disjoint union") ss), (TOf KDisjoint ts). split; [reflexivity|]. split; [unfold braces; eexists _, _; split; [reflexivity|discriminate]|].
    split; [now apply (braces_read KDisjoint)|now constructor].
  - specialize (M rs IH W). cbn [region_str]. destruct (forallb plain_region rs); [|now rewrite M]. destruct M as (ss & ts & -> & F1 & F2). cbn [bind].
    exists (braces (s_of "Intersection") ss), (TOf KIntersection ts). split; [reflexivity|]. split; [unfold braces; eexists _, _; split; [reflexivity|discriminate]|].
    split; [now apply (braces_read KIntersection)|now constructor].
Qed.
Print Assumptions region_text.

(** The default names always do. *)
Theorem region_default_names : forall p, wf_mat (pmat (body p)) -> leaf_fine None p.
Proof.
  intros p W. destruct (default_names_ok (ncol (pmat (body p)) - 1)) as (A & B & C). split; [exact W|]. cbn [names_of]. split; [|exact C]. split; [exact A|]. split; [exact B|].
  unfold default_names. destruct (_ <=? 5)%nat.
  - repeat (constructor; [cbn; intuition discriminate|]). constructor.
  - apply Forall_forall. intros v I. apply in_map_iff in I as (i & <- & _). rewrite in_app_iff. intros [K|K]; [cbn in K; intuition discriminate|].
    destruct (z_str_pos (Z.of_nat i) ltac:(lia)) as [D _]. rewrite Forall_forall in D. specialize (D _ K). apply digit_plain in D. unfold plain_ch in D. cbn in D. intuition discriminate.
Qed.
Print Assumptions region_default_names.

Lemma same_any : forall d (rs rs' : list region) x, Forall (fun r1 => forall r2 t, leaves (fun p => wf_mat (pmat (body p)) /\ has_dim d p) r1 ->
    leaves (fun p => wf_mat (pmat (body p)) /\ has_dim d p) r2 -> describes default_names t r1 -> describes default_names t r2 -> forall x, denote r1 x <-> denote r2 x) rs ->
  forall ts, allP (leaves (fun p => wf_mat (pmat (body p)) /\ has_dim d p)) rs -> allP (leaves (fun p => wf_mat (pmat (body p)) /\ has_dim d p)) rs' ->
  Forall2 (describes default_names) ts rs -> Forall2 (describes default_names) ts rs' -> (anyP (fun c => denote c x) rs <-> anyP (fun c => denote c x) rs') .
Proof.
  intros d rs rs' x F ts W W' D. revert rs' W'. revert F W. induction D as [|t r ts rs Dt D IH]; intros F W rs' W' D'; inversion D'; subst; [tauto|].
  apply Forall_cons_iff in F as [Fr F]. destruct W as [Wr W], W' as [Wr' W']. cbn [anyP]. erewrite IH by eauto. erewrite Fr by eauto. tauto.
Qed.
Lemma same_all : forall d (rs rs' : list region) x, Forall (fun r1 => forall r2 t, leaves (fun p => wf_mat (pmat (body p)) /\ has_dim d p) r1 ->
    leaves (fun p => wf_mat (pmat (body p)) /\ has_dim d p) r2 -> describes default_names t r1 -> describes default_names t r2 -> forall x, denote r1 x <-> denote r2 x) rs ->
  forall ts, allP (leaves (fun p => wf_mat (pmat (body p)) /\ has_dim d p)) rs -> allP (leaves (fun p => wf_mat (pmat (body p)) /\ has_dim d p)) rs' ->
  Forall2 (describes default_names) ts rs -> Forall2 (describes default_names) ts rs' -> (allP (fun c => denote c x) rs <-> allP (fun c => denote c x) rs') .
Proof.
  intros d rs rs' x F ts W W' D. revert rs' W'. revert F W. induction D as [|t r ts rs Dt D IH]; intros F W rs' W' D'; inversion D'; subst; [tauto|].
  apply Forall_cons_iff in F as [Fr F]. destruct W as [Wr W], W' as [Wr' W']. cbn [allP]. erewrite IH by eauto. erewrite Fr by eauto. tauto.
Qed.

(** Regions of one dimension with the same text are the same set. *)
Theorem region_text_same : forall d r1 r2 s, leaves (fun p => wf_mat (pmat (body p)) /\ has_dim d p) r1 -> leaves (fun p => wf_mat (pmat (body p)) /\ has_dim d p) r2 ->
  region_str None r1 = Ret s -> region_str None r2 = Ret s -> forall x, denote r1 x <-> denote r2 x.
Proof.
  intros d r1 r2 s W1 W2 E1 E2.
  assert (L : forall r, leaves (fun p => wf_mat (pmat (body p)) /\ has_dim d p) r -> leaves (leaf_fine None) r).
  { induction r as [p|r IH|r IH|rs IH|rs IH|rs IH] using region_tree_ind; cbn [leaves]; intro W; auto.
    - apply region_default_names. tauto.
    - rewrite allP_iff in *. rewrite Forall_forall in IH. auto.
    - rewrite allP_iff in *. rewrite Forall_forall in IH. auto.
    - rewrite allP_iff in *. rewrite Forall_forall in IH. auto. }
  assert (G : forall r, leaves (fun p => wf_mat (pmat (body p)) /\ has_dim d p) r -> region_str None r = Ret s -> exists t, read_region s = Some t /\ describes default_names t r).
  { intros r W E. pose proof (region_text None r (L r W)) as H. destruct (plain_region r); [|congruence]. destruct H as (s' & t & E' & R & D). rewrite E in E'. injection E' as <-. eauto. }
  destruct (G r1 W1 E1) as (t & R1 & D1). destruct (G r2 W2 E2) as (t' & R2 & D2). rewrite R1 in R2. injection R2 as <-. clear - W1 W2 D1 D2.
  revert r2 t W1 W2 D1 D2. induction r1 as [p|r IH|r IH|rs IH|rs IH|rs IH] using region_tree_ind; intros r2 t W1 W2 D1 D2 x; try solve [inversion D1].
  - inversion D1 as [p1 rows H1| | |]; subst. inversion D2 as [p2 rows2 H2| | |]; subst. cbn [leaves] in *. destruct W1 as [[N1 F1] C1], W2 as [[N2 F2] C2].
    unfold has_dim in *. cbn [denote]. unfold member, mmember. rewrite C1, C2 in *. apply and_iff_compat_l.
    unfold rows_read in *. rewrite C1, C2 in *. revert H1 H2 F1 F2. generalize (mrows (pmat (body p))) (mrows (pmat (body p2))). clear.
    intros l1 l2 H1. revert l2. induction H1 as [|rb tb l1 rows (S1 & A1 & B1) H1 IH]; intros l2 H2 F1 F2.
    + inversion H2; subst. split; constructor.
    + inversion H2 as [|rb2 tb2 l2' rows' (S2 & A2 & B2) H2']; subst. apply Forall_cons_iff in F1 as [Le1 F1], F2 as [Le2 F2]. rewrite !Forall_cons_iff, (IH l2' H2' F1 F2).
      apply and_iff_compat_r. unfold holds. rewrite <- S1, <- S2.
      assert (Eq : rowval (fst rb) x == rowval (fst rb2) x).
      { apply rowval_proper; [|reflexivity]. intros [|i]; [now rewrite <- A1, A2|]. destruct (Nat.lt_ge_cases i (S d - 1)) as [Hi|Hi].
        - now rewrite <- (B1 i Hi), <- (B2 i Hi).
        - rewrite !nth_overflow by lia. reflexivity. }
      destruct (snd tb); now rewrite Eq.
  - inversion D1; subst. inversion D2; subst. cbn [leaves denote] in *. now apply (same_any d _ _ _ IH ts).
  - inversion D1; subst. inversion D2; subst. cbn [leaves denote] in *. now apply (same_any d _ _ _ IH ts).
  - inversion D1; subst. inversion D2; subst. cbn [leaves denote] in *. now apply (same_all d _ _ _ IH ts).
Qed.
Print Assumptions region_text_same.

Definition ex_half : lpoly := mkLPoly (mkPoly (mkMat [([0; 1], false)] 2) false None) None None.
Example ex_region_text : region_str None (RUnion [RPoly ex_half; RInter [RPoly ex_half]]) = Ret (s_of "Union of {['x >= 0'], Intersection of {['x >= 0']}}") /\
  region_str None (RInter [RPoly ex_half; RCompl (RPoly ex_half)]) = Raise TypeError.
Proof. split; vm_compute; reflexivity. Qed.
Example ex_region_read : leaves (leaf_fine None) (RUnion [RPoly ex_half; RInter [RPoly ex_half]; RUnion []]) /\
  exists s, region_str None (RUnion [RPoly ex_half; RInter [RPoly ex_half]; RUnion []]) = Ret s /\
    read_region s = Some (TOf KUnion [TPoly [([(1, s_of "x")], false)]; TOf KIntersection [TPoly [([(1, s_of "x")], false)]]; TOf KUnion []]).
Proof.
  split.
  - cbn [leaves allP]. repeat split; try apply region_default_names; repeat constructor.
  - eexists. split; vm_compute; reflexivity.
Qed.

(** ** Large value estimates *)
From Verif Require Import Model_LargeValues.



Lemma join_commas : forall l, l <> [] -> join (s_of ", ") l = join [","%char] (match l with [] => [] | a :: l => a :: map (cons " "%char) l end).
Proof.
  destruct l as [|a l]; [contradiction|]. intros _. revert a. induction l as [|b l IH]; intro a; [reflexivity|]. rewrite !join_cons, IH. cbn [map].
  rewrite join_cons. f_equal. cbn [s_of list_ascii_of_string app]. f_equal. destruct l as [|c l]; [reflexivity|]. cbn [map]. rewrite !join_cons. reflexivity.
Qed.

(** The text of an estimate is read as its bounds. *)
Theorem large_value_text : forall bounds, bounds <> [] -> Forall (fun b => List.length b = 3%nat) bounds ->
  exists s bs, lv_repr bounds = Ret s /\ read_bounds s = Some bs /\
    Forall2 (fun b ts => coefficient [] ts == nth 0 b 0 /\ coefficient (s_of "σ") ts == nth 1 b 0 /\ coefficient (s_of "τ") ts == nth 2 b 0) bounds bs.
Proof.
  intros bounds NE F.
  assert (NV : Forall name lv_vars) by (repeat constructor; try discriminate; cbn; intuition discriminate).
  assert (ND : NoDup lv_vars) by (repeat constructor; cbn; intuition discriminate).
  assert (one : forall b, List.length b = 3%nat -> exists s ts, fmt b lv_vars = Ret s /\ read_sum s = Some ts /\ ~ In ","%char s /\ hd " "%char s <> "m"%char /\
    coefficient [] ts == nth 0 b 0 /\ coefficient (s_of "σ") ts == nth 1 b 0 /\ coefficient (s_of "τ") ts == nth 2 b 0).
  { intros b L. destruct b as [|c0 [|c1 [|c2 [|]]]]; try discriminate.
    destruct (format_coefficients c0 [c1; c2] lv_vars NV ND (le_n _)) as (s & ts & Es & Er & C0 & C). exists s, ts. split; [exact Es|]. split; [exact Er|].
    pose proof (format_characters _ _ _ Es) as Ch. split; [|split; [|split; [exact C0|split; [exact (C 0%nat ltac:(cbn; lia))|exact (C 1%nat ltac:(cbn; lia))]]]].
    - intro I. rewrite Forall_forall in Ch. destruct (Ch _ I) as [K|(v & [<- | [<- | []]] & K)]; cbn in K; intuition discriminate.
    - destruct s as [|a s]; [discriminate|]. apply Forall_inv in Ch. cbn [hd]. intros ->. destruct Ch as [K|(v & [<- | [<- | []]] & K)]; cbn in K; intuition discriminate. }
  destruct bounds as [|b [|b' bounds]]; [contradiction| |].
  - apply Forall_inv in F. destruct (one b F) as (s & ts & Es & Er & _ & Hm & C). exists (s_of "ρ <= " ++ s), [ts]. cbn [lv_repr]. rewrite Es. cbn [bind]. split; [reflexivity|].
    split; [|repeat constructor; apply C]. unfold read_bounds. rewrite strip_app.
    assert (X : strip (s_of "max(") s = None).
    { destruct s as [|a s]; [reflexivity|]. cbn [hd] in Hm. cbn [s_of list_ascii_of_string strip]. destruct (ch_eqb "m" a) eqn:K; [|reflexivity]. apply ch_eqb_true in K. congruence. }
    rewrite X, Er. reflexivity.
  - set (bs := b :: b' :: bounds) in *.
    assert (all : exists ss tss, mapM (fun b => fmt b lv_vars) bs = Ret ss /\ read_all read_sum ss = Some tss /\ Forall (fun s => ~ In ","%char s) ss /\
      Forall2 (fun b ts => coefficient [] ts == nth 0 b 0 /\ coefficient (s_of "σ") ts == nth 1 b 0 /\ coefficient (s_of "τ") ts == nth 2 b 0) bs tss /\ List.length ss = List.length bs).
    { clearbody bs. clear NE b b' bounds. induction F as [|b bs L F IH]; [exists [], []; repeat constructor|].
      destruct IH as (ss & tss & E1 & E2 & E3 & E4 & E5). destruct (one b L) as (s & ts & Es & Er & Hc & _ & C). exists (s :: ss), (ts :: tss).
      cbn [mapM]. rewrite Es. cbn [bind]. rewrite E1. cbn [bind]. split; [reflexivity|]. cbn [read_all]. rewrite Er, E2. split; [reflexivity|]. split; [now constructor|]. split; [now constructor|].
      cbn [List.length]. now rewrite E5. }
    destruct all as (ss & tss & E1 & E2 & E3 & E4 & E5). exists (s_of "ρ <= max(" ++ join (s_of ", ") ss ++ s_of ")"), tss. split.
    { unfold bs, lv_repr in *. rewrite E1. reflexivity. }
    split; [|exact E4]. unfold read_bounds. change (s_of "ρ <= max(") with (s_of "ρ <= " ++ s_of "max("). rewrite <- app_assoc, !strip_app, rev_app_distr.
    cbn [s_of list_ascii_of_string rev app]. rewrite ch_eqb_refl, rev_involutive. destruct ss as [|a ss]; [discriminate|].
    change [","%char; " "%char] with (s_of ", "). rewrite join_commas by discriminate. rewrite split_join; [|discriminate|].
    + assert (X : read_all (strip (s_of " ")) (map (cons " "%char) ss) = Some ss); [|cbn [s_of list_ascii_of_string] in X |- *; unfold str in *; rewrite X; exact E2].
      clear. induction ss as [|s ss IH]; [reflexivity|]. cbn [map read_all]. rewrite IH. reflexivity.
    + apply Forall_cons_iff in E3 as [Ha E3]. constructor; [exact Ha|]. apply Forall_map. apply (Forall_impl _ (P := fun s => ~ In ","%char s)); [|exact E3].
      intros s Hs [K|K]; [discriminate|contradiction].
Qed.
Print Assumptions large_value_text.
