(** Proofs that printed expressions are read back. *)
From Coq Require Import DecimalString DecimalFacts.
From Verif Require Import Base LinAlg Model_Text Model_Polytope Spec_Polytope Model_Format Spec_Format.
Open Scope list_scope.

(** ** Numbers *)

Definition digit (c : ascii) : Prop := In c (s_of "0123456789").

Lemma uint_digits : forall d, Forall digit (list_ascii_of_string (NilEmpty.string_of_uint d)).
Proof. induction d; simpl; constructor; auto; unfold digit; simpl; tauto. Qed.

Lemma zero_uint_digits : forall d, Forall digit (list_ascii_of_string (NilZero.string_of_uint d)) /\ list_ascii_of_string (NilZero.string_of_uint d) <> [].
Proof.
  intro d. unfold NilZero.string_of_uint. destruct d; try (split; [apply uint_digits|discriminate]).
  split; [|discriminate]. simpl. constructor; [unfold digit; simpl; tauto|constructor].
Qed.

Lemma z_str_pos : forall n, (0 <= n)%Z -> Forall digit (z_str n) /\ z_str n <> [].
Proof. intros n H. unfold z_str. destruct n; simpl; [|apply zero_uint_digits|lia]. apply (zero_uint_digits (Decimal.D0 Decimal.Nil)). Qed.

Lemma z_str_neg : forall p, z_str (Zneg p) = "-"%char :: z_str (Zpos p).
Proof. reflexivity. Qed.

Lemma digit_num : forall c, digit c -> num_ch c = true.
Proof. intros c H. unfold digit in H. simpl in H. repeat (destruct H as [<-|H]; [reflexivity|]). destruct H. Qed.

Lemma digit_not : forall c, digit c -> c <> "/"%char /\ c <> " "%char /\ c <> "-"%char /\ c <> "'"%char.
Proof. intros c H. unfold digit in H. simpl in H. repeat (destruct H as [<-|H]; [repeat split; discriminate|]). destruct H. Qed.

Lemma digits_free : forall c s, Forall digit s -> c = "/"%char \/ c = " "%char \/ c = "-"%char \/ c = "'"%char -> ~ In c s.
Proof. intros c s F H I. rewrite Forall_forall in F. apply F in I. apply digit_not in I. decompose [and] I. destruct H as [->|[->|[->| ->]]]; congruence. Qed.

Lemma Qred_pos : forall q, 0 <= q -> (0 <= Qnum (Qred q))%Z.
Proof. intros q H. assert (K : 0 <= Qred q) by now rewrite Qred_correct. unfold Qle in K. simpl in K. lia. Qed.

(** A number at least 0. *)
Lemma frac_pos : forall q, 0 <= q -> Forall (fun c => num_ch c = true) (frac_str q) /\ frac_str q <> [] /\
  ~ In " "%char (frac_str q) /\ ~ In "'"%char (frac_str q) /\ exists q', read_frac (frac_str q) = Some q' /\ q' == q.
Proof.
  intros q H. unfold frac_str. pose proof (Qred_pos q H) as Hn. destruct (z_str_pos _ Hn) as [D N].
  destruct (Pos.eqb (Qden (Qred q)) 1) eqn:E.
  - rewrite app_nil_r. split; [eapply Forall_impl; [|exact D]; exact digit_num|]. split; [exact N|]. split; [apply digits_free; auto|]. split; [apply digits_free; auto|].
    exists (inject_Z (Qnum (Qred q))). split.
    + unfold read_frac, split. change (s_of "/") with ["/"%char]. rewrite split_go_free by (apply digits_free; auto). simpl rev. cbn [app]. now rewrite z_read_str.
    + apply Pos.eqb_eq in E. rewrite <- (Qred_correct q) at 2. destruct (Qred q) as [n d]. simpl in *. now subst.
  - destruct (z_str_pos (Zpos (Qden (Qred q))) ltac:(lia)) as [D' N'].
    assert (F : Forall (fun c => num_ch c = true) (z_str (Qnum (Qred q)) ++ s_of "/" ++ z_str (Zpos (Qden (Qred q))))).
    { apply Forall_app. split; [eapply Forall_impl; [|exact D]; exact digit_num|]. constructor; [reflexivity|]. eapply Forall_impl; [|exact D']; exact digit_num. }
    split; [exact F|]. split; [destruct (z_str (Qnum (Qred q))); [congruence|discriminate]|].
    split; [|split].
    + intro I. rewrite !in_app_iff in I. destruct I as [I|[[I|[]]|I]]; [revert I; apply digits_free; auto|discriminate|revert I; apply digits_free; auto].
    + intro I. rewrite !in_app_iff in I. destruct I as [I|[[I|[]]|I]]; [revert I; apply digits_free; auto|discriminate|revert I; apply digits_free; auto].
    + exists (Qred q). split; [|apply Qred_correct]. unfold read_frac.
      change (z_str (Qnum (Qred q)) ++ s_of "/" ++ z_str (Zpos (Qden (Qred q)))) with (join ["/"%char] [z_str (Qnum (Qred q)); z_str (Zpos (Qden (Qred q)))]).
      change (s_of "/") with ["/"%char]. rewrite split_join; [|discriminate|repeat constructor; apply digits_free; auto].
      rewrite !z_read_str. destruct (Qred q); reflexivity.
Qed.

Lemma frac_neg : forall q, q < 0 -> frac_str q = "-"%char :: frac_str (Qabs q).
Proof.
  intros q H. unfold frac_str. assert (E : Qred (Qabs q) = Qopp (Qred q)).
  { rewrite <- Qred_opp. apply Qred_complete. rewrite Qabs_neg; [reflexivity|lra]. }
  rewrite E. assert (K : Qred q < 0) by now rewrite Qred_correct. destruct (Qred q) as [n d]. unfold Qlt in K. simpl in *.
  destruct n as [|n|n]; try lia. rewrite z_str_neg. reflexivity.
Qed.

Lemma frac_word : forall q, ~ In " "%char (frac_str q) /\ ~ In "'"%char (frac_str q) /\ frac_str q <> [].
Proof.
  intro q. destruct (Qlt_le_dec q 0) as [H|H].
  - rewrite (frac_neg q H). destruct (frac_pos (Qabs q) (Qabs_nonneg q)) as (_ & _ & A & B & _). split; [|split; [|discriminate]]; intros [K|K]; (discriminate || contradiction).
  - destruct (frac_pos q H) as (_ & N & A & B & _). auto.
Qed.

(** ** Terms *)

Lemma span_app : forall n v, Forall (fun c => num_ch c = true) n -> match v with [] => True | c :: _ => num_ch c = false end -> span_num (n ++ v) = (n, v).
Proof.
  intros n v F H. induction F as [|c n Hc F IH]; simpl.
  - destruct v as [|c v]; [reflexivity|]. simpl. now rewrite H.
  - now rewrite Hc, IH.
Qed.

Lemma name_head : forall v, name v -> match v with [] => True | c :: _ => num_ch c = false end.
Proof. intros [|c v] [H _]; [auto|]. apply H. Qed.

(** |c| followed by a name (or by nothing, for a constant). *)
Lemma read_number_name : forall c v, (v = [] \/ name v) -> exists q, read_pos_term (frac_str (Qabs c) ++ v) = Some (q, v) /\ q == Qabs c.
Proof.
  intros c v Hv. destruct (frac_pos (Qabs c) (Qabs_nonneg c)) as (F & N & _ & _ & q & Er & Eq).
  unfold read_pos_term. rewrite span_app; [|exact F|destruct Hv as [->|Hv]; [exact I|now apply name_head]].
  destruct (frac_str (Qabs c)) as [|a n]; [congruence|]. rewrite Er. exists q. auto.
Qed.

Lemma read_name : forall v, name v -> read_pos_term v = Some (1, v).
Proof. intros v H. unfold read_pos_term. rewrite <- (app_nil_l v) at 1. rewrite span_app; [|constructor|now apply name_head]. destruct v; [destruct H as [[] _]|reflexivity]. Qed.

(** The word for a term with coefficient of absolute value [Qabs c]. *)
Definition term_word (c : Q) (v : str) : str := if Qeqb c 1 || Qeqb c (-1) then v else frac_str (Qabs c) ++ v.

Lemma read_term_word : forall c v, name v -> exists q, read_pos_term (term_word c v) = Some (q, v) /\ q == Qabs c.
Proof.
  intros c v H. unfold term_word. destruct (Qeqb c 1 || Qeqb c (-1)) eqn:E; [|apply read_number_name; auto].
  exists 1. split; [now apply read_name|]. apply orb_true_iff in E as [E|E]; apply Qeqb_true in E; rewrite E; reflexivity.
Qed.

Lemma term_word_ok : forall c v, name v -> ~ In " "%char (term_word c v) /\ ~ In "'"%char (term_word c v) /\ term_word c v <> [].
Proof.
  intros c v H. destruct H as (N & A & B). unfold term_word. destruct (Qeqb c 1 || Qeqb c (-1)).
  - split; [auto|]. split; [auto|]. destruct v; [destruct N|discriminate].
  - destruct (frac_word (Qabs c)) as (W1 & W2 & W3). split; [|split].
    + intro I. apply in_app_iff in I. tauto.
    + intro I. apply in_app_iff in I. tauto.
    + destruct (frac_str (Qabs c)); [congruence|discriminate].
Qed.

Lemma name_not_minus : forall v, name v -> match v with c :: _ => ch_eqb c "-" = false /\ ch_eqb c "+" = false | [] => False end.
Proof. intros [|c v] [H _]; [auto|]. destruct H as (H & K & L). split; now apply ch_eqb_false. Qed.

Lemma num_not_sign : forall c, num_ch c = true -> ch_eqb c "-" = false /\ ch_eqb c "+" = false.
Proof. intros c H. split; apply ch_eqb_false; intros ->; discriminate. Qed.

Lemma term_word_head : forall c v, name v -> match term_word c v with a :: _ => ch_eqb a "-" = false /\ ch_eqb a "+" = false | [] => False end.
Proof.
  intros c v H. unfold term_word. destruct (Qeqb c 1 || Qeqb c (-1)); [now apply name_not_minus|].
  destruct (frac_pos (Qabs c) (Qabs_nonneg c)) as (F & N & _). destruct (frac_str (Qabs c)) as [|a n]; [congruence|]. cbn [app].
  apply Forall_inv in F. now apply num_not_sign.
Qed.

Lemma head_not_word : forall w, match w with a :: _ => ch_eqb a "-" = false /\ ch_eqb a "+" = false | [] => False end ->
  str_eqb w (s_of "-") = false /\ str_eqb w (s_of "+") = false /\ read_term w = read_pos_term w.
Proof.
  intros [|a w] H; [destruct H|]. destruct H as [H K]. split; [|split].
  - apply str_eqb_false. intro E. injection E as -> _. discriminate.
  - apply str_eqb_false. intro E. injection E as -> _. discriminate.
  - cbn [read_term]. now rewrite H.
Qed.

(** ** The words of a sum *)

Definition sign_word (c : Q) : str := if Qltb c 0 then s_of "-" else s_of "+".
Definition tail_words (ts : list (Q * str)) : list str := flat_map (fun t => [sign_word (fst t); term_word (fst t) (snd t)]) ts.
Definition first_words (ts : list (Q * str)) : list str :=
  match ts with
  | [] => []
  | (c, v) :: ts' => ((if Qltb c 0 then s_of "-" else []) ++ term_word c v) :: tail_words ts'
  end.

Definition proper_terms (ts : list (Q * str)) : Prop := Forall (fun t => ~ fst t == 0 /\ name (snd t)) ts.

Lemma read_tail_words : forall ts, proper_terms ts -> same_terms (read_tail (tail_words ts)) ts.
Proof.
  intros ts F. induction F as [|[c v] ts [N H] F (l & El & IH)]; [exists []; split; [reflexivity|constructor]|].
  cbn [fst snd] in *. change (tail_words ((c, v) :: ts)) with (sign_word c :: term_word c v :: tail_words ts).
  destruct (read_term_word c v H) as (q & Eq & Hq). cbn [read_tail]. rewrite El, Eq. unfold sign_word. destruct (Qltb c 0) eqn:E.
  - apply Qltb_true in E. change (str_eqb (s_of "-") (s_of "+")) with false. change (str_eqb (s_of "-") (s_of "-")) with true. cbn [negate cons_term].
    eexists. split; [reflexivity|]. constructor; [|exact IH]. cbn [fst snd]. split; [|reflexivity]. rewrite Hq, Qabs_neg by lra. ring.
  - apply Qltb_false in E. change (str_eqb (s_of "+") (s_of "+")) with true. cbn [cons_term].
    eexists. split; [reflexivity|]. constructor; [|exact IH]. cbn [fst snd]. split; [|reflexivity]. rewrite Hq, Qabs_pos by lra. reflexivity.
Qed.

Lemma read_first_words : forall ts, proper_terms ts -> same_terms (read_words (first_words ts)) ts.
Proof.
  intros [|[c v] ts] F; [exists []; split; [reflexivity|constructor]|]. apply Forall_cons_iff in F as [[N H] F]. cbn [fst snd] in *.
  destruct (read_tail_words ts F) as (l & El & Hl). cbn [first_words read_words]. rewrite El. destruct (read_term_word c v H) as (q & Eq & Hq).
  pose proof (term_word_head c v H) as Hh. pose proof (head_not_word _ Hh) as (W1 & W2 & W3). destruct (Qltb c 0) eqn:E.
  - apply Qltb_true in E. assert (str_eqb (s_of "-" ++ term_word c v) (s_of "-") = false) as ->.
    { apply str_eqb_false. intro K. destruct (term_word c v); [destruct Hh|discriminate]. }
    change (read_term (s_of "-" ++ term_word c v)) with (negate (read_pos_term (term_word c v))). rewrite Eq. cbn [negate cons_term].
    eexists. split; [reflexivity|]. constructor; [|exact Hl]. cbn [fst snd]. split; [|reflexivity]. rewrite Hq, Qabs_neg by lra. ring.
  - apply Qltb_false in E. cbn [app]. rewrite W1, W3, Eq. cbn [cons_term]. eexists. split; [reflexivity|]. constructor; [|exact Hl]. cbn [fst snd]. split; [|reflexivity]. rewrite Hq, Qabs_pos by lra. reflexivity.
Qed.

Definition word (w : str) : Prop := ~ In " "%char w /\ ~ In "'"%char w.

Lemma tail_words_ok : forall ts, proper_terms ts -> Forall word (tail_words ts).
Proof.
  intros ts F. induction F as [|[c v] ts [N H] F IH]; [constructor|]. cbn [tail_words flat_map app fst snd]. constructor; [|constructor; [|exact IH]].
  - unfold sign_word. destruct (Qltb c 0); split; intros [K|[]]; discriminate.
  - destruct (term_word_ok c v H) as (A & B & _). split; auto.
Qed.

Lemma first_words_ok : forall ts, proper_terms ts -> Forall word (first_words ts).
Proof.
  intros [|[c v] ts] F; [constructor|]. apply Forall_cons_iff in F as [[N H] F]. cbn [fst snd first_words] in *. constructor; [|now apply tail_words_ok].
  destruct (term_word_ok c v H) as (A & B & _). destruct (Qltb c 0); cbn [app]; split; auto; intros [K|K]; (discriminate || contradiction).
Qed.

Lemma join_app2 : forall l a b, l <> [] -> join (s_of " ") (l ++ [a; b]) = join (s_of " ") l ++ s_of " " ++ a ++ s_of " " ++ b.
Proof.
  induction l as [|x l IH]; intros a b H; [congruence|]. destruct l as [|y l]; [reflexivity|].
  change (join (s_of " ") ((x :: y :: l) ++ [a; b])) with (x ++ s_of " " ++ join (s_of " ") ((y :: l) ++ [a; b])).
  rewrite IH by discriminate. change (join (s_of " ") (x :: y :: l)) with (x ++ s_of " " ++ join (s_of " ") (y :: l)). now rewrite <- !app_assoc.
Qed.

Lemma join_nil : forall l, Forall (fun w => w <> []) l -> join (s_of " ") l = [] -> l = [].
Proof. intros [|x [|y l]] F H; [reflexivity| |]; apply Forall_inv in F; cbv beta in F; destruct x as [|a x]; try (exfalso; now apply F); discriminate H. Qed.

(** The loop of [format] appends the words of the remaining terms. *)
Lemma fmt_loop_words : forall cs vars ws, ws <> [] -> Forall (fun w => w <> []) ws -> Forall name vars -> (length cs <= length vars)%nat ->
  fmt_loop (join (s_of " ") ws) cs vars = Ret (join (s_of " ") (ws ++ tail_words (terms cs vars))).
Proof.
  induction cs as [|c cs IH]; intros vars ws N F V L; [cbn [fmt_loop terms combine filter tail_words flat_map]; now rewrite app_nil_r|].
  destruct vars as [|v vars]; [simpl in L; lia|]. simpl in L. apply Forall_cons_iff in V as [Hv V]. cbn [fmt_loop terms combine filter fst]. destruct (Qeqb c 0) eqn:E0; cbn [negb]; [apply IH; auto; lia|].
  fold (terms cs vars). change (tail_words ((c, v) :: terms cs vars)) with ([sign_word c; term_word c v] ++ tail_words (terms cs vars)). rewrite (app_assoc ws).
  assert (Nj : join (s_of " ") ws <> []) by (intro K; apply join_nil in K; auto).
  apply Qeqb_false in E0.
  cbv zeta. match goal with |- fmt_loop ?f _ _ = _ => assert (X : f = join (s_of " ") (ws ++ [sign_word c; term_word c v])) end.
  { rewrite join_app2 by auto. destruct (join (s_of " ") ws) as [|a f]; [congruence|]. unfold sign_word, term_word. destruct (Qltb 0 c) eqn:E1.
    - apply Qltb_true in E1. replace (Qltb c 0) with false by (symmetry; apply Qltb_false; lra). destruct (Qeqb c 1 || Qeqb c (-1)); rewrite <- !app_assoc; reflexivity.
    - apply Qltb_false in E1. replace (Qltb c 0) with true by (symmetry; apply Qltb_true; lra). destruct (Qeqb c 1 || Qeqb c (-1)); rewrite <- !app_assoc; reflexivity. }
  rewrite X. clear X. apply IH; [destruct ws; discriminate| |exact V|lia].
  apply Forall_app. split; [auto|]. constructor; [unfold sign_word; destruct (Qltb c 0); discriminate|]. constructor; [|constructor].
  now apply term_word_ok.
Qed.

Lemma terms_proper : forall cs vars, Forall name vars -> proper_terms (terms cs vars).
Proof.
  intros cs vars V. apply Forall_forall. intros [c v] I. unfold terms in I. apply filter_In in I as [I H]. cbn [fst snd] in *. split.
  - apply negb_true_iff in H. now apply Qeqb_false.
  - rewrite Forall_forall in V. apply V. now apply in_combine_r in I.
Qed.

(** The words of the whole expression. *)
Definition sum_words (c0 : Q) (ts : list (Q * str)) : list str := if Qeqb c0 0 then first_words ts else frac_str c0 :: tail_words ts.

Lemma fmt_words : forall c0 cs vars, Forall name vars -> (length cs <= length vars)%nat ->
  fmt (c0 :: cs) vars = Ret (join (s_of " ") (sum_words c0 (terms cs vars))).
Proof.
  intros c0 cs vars V L. unfold fmt, sum_words. destruct (Qeqb c0 0) eqn:E.
  - clear E. revert vars V L. induction cs as [|c cs IH]; intros vars V L; [reflexivity|]. destruct vars as [|v vars]; [simpl in L; lia|]. simpl in L.
    apply Forall_cons_iff in V as [Hv V]. cbn [fmt_loop terms combine filter fst]. destruct (Qeqb c 0) eqn:E0; cbn [negb]; [apply IH; auto; lia|].
    fold (terms cs vars). cbn [first_words]. apply Qeqb_false in E0.
    change (?x :: tail_words (terms cs vars)) with ([x] ++ tail_words (terms cs vars)).
    rewrite <- (fmt_loop_words cs vars [(if Qltb c 0 then s_of "-" else []) ++ term_word c v]); [| discriminate | | exact V | lia].
    + f_equal. unfold term_word. destruct (Qltb 0 c) eqn:E1.
      * apply Qltb_true in E1. replace (Qltb c 0) with false by (symmetry; apply Qltb_false; lra). destruct (Qeqb c 1 || Qeqb c (-1)); reflexivity.
      * apply Qltb_false in E1. replace (Qltb c 0) with true by (symmetry; apply Qltb_true; lra). destruct (Qeqb c 1 || Qeqb c (-1)); reflexivity.
    + constructor; [|constructor]. destruct (term_word_ok c v Hv) as (_ & _ & W). destruct (Qltb c 0); [discriminate|exact W].
  - apply (fmt_loop_words cs vars [frac_str c0]); [discriminate| |exact V|simpl in L; lia]. constructor; [apply frac_word|constructor].
Qed.

(** The constant as a term with no name. *)
Lemma read_constant : forall q, exists q', read_term (frac_str q) = Some (q', []) /\ q' == q /\ str_eqb (frac_str q) (s_of "-") = false /\ str_eqb (frac_str q) (s_of "+") = false.
Proof.
  intro q. destruct (Qlt_le_dec q 0) as [H|H].
  - rewrite (frac_neg q H). cbn [read_term]. change (ch_eqb "-" "-") with true. cbv iota. destruct (read_number_name q [] (or_introl eq_refl)) as (q' & E & Hq).
    rewrite app_nil_r in E. rewrite E. cbn [negate]. exists (- q'). split; [reflexivity|]. split; [rewrite Hq, Qabs_neg by lra; ring|]. split; [|reflexivity].
    apply str_eqb_false. intro K. destruct (frac_word (Qabs q)) as (_ & _ & W). destruct (frac_str (Qabs q)); [congruence|discriminate].
  - destruct (frac_pos q H) as (F & N & _ & _ & _). assert (Ea : Qabs q == q) by (apply Qabs_pos; exact H).
    assert (Ef : frac_str (Qabs q) = frac_str q) by (unfold frac_str; now rewrite (Qred_complete _ _ Ea)).
    destruct (read_number_name q [] (or_introl eq_refl)) as (q' & E & Hq). rewrite app_nil_r, Ef in E.
    assert (Hh : match frac_str q with a :: _ => ch_eqb a "-" = false /\ ch_eqb a "+" = false | [] => False end).
    { destruct (frac_str q) as [|a n]; [congruence|]. apply Forall_inv in F. now apply num_not_sign. }
    destruct (head_not_word _ Hh) as (W1 & W2 & W3). exists q'. rewrite W3. split; [exact E|]. split; [now rewrite Hq|auto].
Qed.

Definition with_constant (c0 : Q) (ts : list (Q * str)) : list (Q * str) := if Qeqb c0 0 then ts else (c0, []) :: ts.

Lemma read_sum_words : forall c0 ts, proper_terms ts -> same_terms (read_words (sum_words c0 ts)) (with_constant c0 ts).
Proof.
  intros c0 ts F. unfold sum_words, with_constant. destruct (Qeqb c0 0); [now apply read_first_words|].
  destruct (read_tail_words ts F) as (l & El & Hl). destruct (read_constant c0) as (q & Eq & Hq & W & _). cbn [read_words]. rewrite W, Eq, El. cbn [cons_term].
  eexists. split; [reflexivity|]. constructor; auto.
Qed.

Lemma sum_words_ok : forall c0 ts, proper_terms ts -> Forall word (sum_words c0 ts).
Proof.
  intros c0 ts F. unfold sum_words. destruct (Qeqb c0 0); [now apply first_words_ok|]. constructor; [|now apply tail_words_ok].
  destruct (frac_word c0) as (A & B & _). split; auto.
Qed.

Lemma sum_words_nonempty : forall c0 ts, proper_terms ts -> Forall (fun w => w <> []) (sum_words c0 ts).
Proof.
  intros c0 ts F.
  assert (T : forall ts, proper_terms ts -> Forall (fun w => w <> []) (tail_words ts)).
  { clear. intros ts F. induction F as [|[c v] ts [N H] F IH]; [constructor|]. cbn [fst snd] in *. constructor; [|constructor; [|exact IH]].
    - unfold sign_word. cbn [fst]. destruct (Qltb c 0); discriminate.
    - now apply term_word_ok. }
  unfold sum_words. destruct (Qeqb c0 0); [|constructor; [apply frac_word|now apply T]].
  destruct ts as [|[c v] ts]; [constructor|]. apply Forall_cons_iff in F as [[N H] F]. cbn [fst snd first_words] in *. constructor; [|now apply T].
  destruct (term_word_ok c v H) as (_ & _ & W). destruct (Qltb c 0); [discriminate|exact W].
Qed.

Lemma split_words : forall ws, ws <> [] -> Forall word ws -> split (s_of " ") (join (s_of " ") ws) = ws.
Proof. intros ws N F. apply split_join; [exact N|]. eapply Forall_impl; [|exact F]. intros w [A _]. exact A. Qed.

Lemma read_join : forall ws, Forall (fun w => w <> []) ws -> Forall word ws -> read_sum (join (s_of " ") ws) = read_words ws.
Proof.
  intros ws N F. unfold read_sum. destruct (join (s_of " ") ws) as [|a s] eqn:E; [apply join_nil in E; [now subst|auto]|].
  rewrite <- E, split_words; [reflexivity| |exact F]. intros ->. discriminate.
Qed.

Lemma fmt_read : forall c0 cs vars, Forall name vars -> (length cs <= length vars)%nat ->
  exists s, fmt (c0 :: cs) vars = Ret s /\ same_terms (read_sum s) (with_constant c0 (terms cs vars)).
Proof.
  intros c0 cs vars V L. eexists. split; [now apply fmt_words|]. pose proof (terms_proper cs vars V) as P.
  rewrite read_join; [|now apply sum_words_nonempty|now apply sum_words_ok]. now apply read_sum_words.
Qed.

(** ** [Affine2.to_string] *)

Lemma a2_loop_words : forall cs vars ws, ws <> [] -> (length cs <= length vars)%nat ->
  a2_str_loop (join (s_of " ") ws) cs vars = Ret (join (s_of " ") (ws ++ tail_words (terms cs vars))).
Proof.
  induction cs as [|c cs IH]; intros vars ws N L; [cbn [a2_str_loop terms combine filter tail_words flat_map]; now rewrite app_nil_r|].
  destruct vars as [|v vars]; [simpl in L; lia|]. simpl in L. cbn [a2_str_loop terms combine filter fst]. destruct (Qeqb c 0) eqn:E0; cbn [negb]; [apply IH; auto; lia|].
  fold (terms cs vars). change (tail_words ((c, v) :: terms cs vars)) with ([sign_word c; term_word c v] ++ tail_words (terms cs vars)). rewrite (app_assoc ws).
  rewrite <- IH; [|destruct ws; discriminate|lia]. rewrite join_app2 by auto. unfold sign_word, term_word. apply Qeqb_false in E0.
  destruct (Qeqb c 1) eqn:E1; cbn [orb].
  { apply Qeqb_true in E1. replace (Qltb c 0) with false by (symmetry; apply Qltb_false; lra). reflexivity. }
  destruct (Qeqb c (-1)) eqn:E2; cbn [orb].
  { apply Qeqb_true in E2. replace (Qltb c 0) with true by (symmetry; apply Qltb_true; lra). reflexivity. }
  destruct (Qltb c 0) eqn:E3; [reflexivity|]. apply Qltb_false in E3. assert (Ea : Qabs c == c) by (apply Qabs_pos; lra).
  assert (Ef : frac_str (Qabs c) = frac_str c) by (unfold frac_str; now rewrite (Qred_complete _ _ Ea)). now rewrite Ef.
Qed.

Lemma a2_str_read : forall c0 cs vars, Forall name vars -> (length cs <= length vars)%nat ->
  exists s, a2_str (c0 :: cs) (Some vars) = Ret s /\ same_terms (read_sum s) ((c0, []) :: terms cs vars).
Proof.
  intros c0 cs vars V L. exists (join (s_of " ") (frac_str c0 :: tail_words (terms cs vars))).
  pose proof (terms_proper cs vars V) as P. split.
  - unfold a2_str. replace (_ <? _)%nat with false by (symmetry; apply Nat.ltb_ge; simpl; lia).
    change (frac_str c0) with (join (s_of " ") [frac_str c0]) at 1. rewrite a2_loop_words; [reflexivity|discriminate|lia].
  - rewrite read_join.
    + destruct (read_tail_words _ P) as (l & El & Hl). destruct (read_constant c0) as (q & Eq & Hq & W & _). cbn [read_words]. rewrite W, Eq, El. cbn [cons_term].
      eexists. split; [reflexivity|]. constructor; auto.
    + pose proof (sum_words_nonempty 1 _ P) as H. unfold sum_words in H. change (Qeqb 1 0) with false in H. cbv iota in H. constructor; [apply frac_word|now apply Forall_inv_tail in H].
    + constructor; [destruct (frac_word c0) as (A & B & _); split; auto|now apply tail_words_ok].
Qed.

(** ** Coefficients *)

Lemma coefficient_same : forall v l ts, Forall2 (fun a b => fst a == fst b /\ snd a = snd b) l ts -> coefficient v l == coefficient v ts.
Proof.
  intros v l ts H. induction H as [|[q w] [q' w'] l ts [Hq Hw] H IH]; [reflexivity|]. cbn [coefficient fst snd] in *. subst w'. rewrite IH.
  destruct (str_eqb v w); [now rewrite Hq|reflexivity].
Qed.

Lemma coefficient_absent : forall v ts, ~ In v (map snd ts) -> coefficient v ts == 0.
Proof.
  intros v ts. induction ts as [|[q w] ts IH]; intro H; [reflexivity|]. cbn [coefficient map snd] in *.
  assert (E : str_eqb v w = false) by (apply str_eqb_false; intros ->; apply H; now left). rewrite E, IH; [ring|]. intro K. apply H. now right.
Qed.

Lemma terms_names : forall cs vars v, In v (map snd (terms cs vars)) -> In v vars.
Proof. intros cs vars v I. apply in_map_iff in I as ([c w] & <- & I). unfold terms in I. apply filter_In in I as [I _]. now apply in_combine_r in I. Qed.

Lemma terms_coefficient : forall cs vars i, NoDup vars -> (length cs <= length vars)%nat -> (i < length cs)%nat ->
  coefficient (nth i vars []) (terms cs vars) == nth i cs 0.
Proof.
  induction cs as [|c cs IH]; intros vars i D L Hi; [simpl in Hi; lia|]. destruct vars as [|v vars]; [simpl in L; lia|]. simpl in L, Hi.
  inversion D as [|? ? Nv Dv]; subst. unfold terms. cbn [combine filter fst]. fold (terms cs vars).
  destruct i as [|i]; cbn [nth].
  - assert (A : coefficient v (terms cs vars) == 0) by (apply coefficient_absent; intro K; apply terms_names in K; contradiction).
    destruct (Qeqb c 0) eqn:E; cbn [negb].
    + apply Qeqb_true in E. now rewrite A, E.
    + cbn [coefficient]. rewrite str_eqb_refl, A. ring.
  - assert (K : coefficient (nth i vars []) (terms cs vars) == nth i cs 0) by (apply IH; auto; lia).
    destruct (Qeqb c 0); cbn [negb]; [exact K|]. cbn [coefficient]. assert (E : str_eqb (nth i vars []) v = false).
    { apply str_eqb_false. intros <-. apply Nv. apply nth_In. lia. }
    rewrite E, K. ring.
Qed.

Lemma name_not_empty : forall vars, Forall name vars -> ~ In [] vars.
Proof. intros vars F I. rewrite Forall_forall in F. apply F in I. destruct I as [[] _]. Qed.

Lemma fmt_coefficients : forall c0 cs vars, Forall name vars -> NoDup vars -> (length cs <= length vars)%nat ->
  exists s ts, fmt (c0 :: cs) vars = Ret s /\ read_sum s = Some ts /\ coefficient [] ts == c0 /\
    (forall i, (i < length cs)%nat -> coefficient (nth i vars []) ts == nth i cs 0).
Proof.
  intros c0 cs vars V D L. destruct (fmt_read c0 cs vars V L) as (s & Es & ts & Et & H). exists s, ts. split; [exact Es|]. split; [exact Et|].
  assert (A : coefficient [] (terms cs vars) == 0) by (apply coefficient_absent; intro K; apply terms_names in K; now apply (name_not_empty vars V)).
  split.
  - rewrite (coefficient_same _ _ _ H). unfold with_constant. destruct (Qeqb c0 0) eqn:E.
    + apply Qeqb_true in E. now rewrite A, E.
    + cbn [coefficient]. change (str_eqb [] []) with true. cbv iota. rewrite A. ring.
  - intros i Hi. rewrite (coefficient_same _ _ _ H). unfold with_constant. destruct (Qeqb c0 0); [now apply terms_coefficient|].
    cbn [coefficient]. assert (E : str_eqb (nth i vars []) [] = false).
    { apply str_eqb_false. intro K. apply (name_not_empty vars V). rewrite <- K. apply nth_In. lia. }
    rewrite E, terms_coefficient by auto. ring.
Qed.

(** ** Polynomials *)

Definition powers_from (deg : nat) (var : str) (n : nat) : list str := map (power var) (seq deg n).

Lemma power_name : forall var deg, name var -> (1 <= deg)%nat -> name (power var deg).
Proof.
  intros var deg H L. destruct deg as [|[|deg]]; [lia|exact H|]. unfold power. destruct H as (N & A & B).
  destruct (z_str_pos (Z.of_nat (S (S deg))) ltac:(lia)) as [D _]. destruct var as [|a var]; [destruct N|]. split; [exact N|]. split.
  - intro I. apply in_app_iff in I as [I|I]; [contradiction|]. apply in_app_iff in I as [[I|[]]|I]; [discriminate|]. revert I. apply digits_free; auto.
  - intro I. apply in_app_iff in I as [I|I]; [contradiction|]. apply in_app_iff in I as [[I|[]]|I]; [discriminate|]. revert I. apply digits_free; auto.
Qed.

Lemma monomial_read : forall c var deg, name var -> ~ c == 0 -> exists q, read_pos_term (monomial_str c var deg) = Some (q, power var deg) /\ q == Qabs c.
Proof.
  intros c var deg H N. unfold monomial_str. replace (Qeqb c 0) with false by (symmetry; now apply Qeqb_false). destruct deg as [|deg].
  - destruct (read_number_name c [] (or_introl eq_refl)) as (q & E & Hq). rewrite app_nil_r in E. exists q. auto.
  - pose proof (power_name var (S deg) H ltac:(lia)) as Hp. change (match S deg with 1%nat => var | _ => var ++ s_of "^" ++ z_str (Z.of_nat (S deg)) end) with (power var (S deg)).
    destruct (Qeqb (Qabs c) 1) eqn:E; [|apply read_number_name; auto]. apply Qeqb_true in E. exists 1. split; [now apply read_name|now symmetry].
Qed.

Lemma monomial_word : forall c var deg, name var -> ~ c == 0 -> word (monomial_str c var deg) /\
  match monomial_str c var deg with a :: _ => ch_eqb a "-" = false /\ ch_eqb a "+" = false | [] => False end.
Proof.
  intros c var deg H N. unfold monomial_str. replace (Qeqb c 0) with false by (symmetry; now apply Qeqb_false).
  destruct (frac_word (Qabs c)) as (W1 & W2 & W3). destruct (frac_pos (Qabs c) (Qabs_nonneg c)) as (F & _).
  assert (K : forall v, match frac_str (Qabs c) ++ v with a :: _ => ch_eqb a "-" = false /\ ch_eqb a "+" = false | [] => False end).
  { intro v. destruct (frac_str (Qabs c)) as [|a n]; [congruence|]. cbn [app]. apply Forall_inv in F. now apply num_not_sign. }
  destruct deg as [|deg]; [split; [split; auto|]; specialize (K []); now rewrite app_nil_r in K|].
  pose proof (power_name var (S deg) H ltac:(lia)) as Hp. change (match S deg with 1%nat => var | _ => var ++ s_of "^" ++ z_str (Z.of_nat (S deg)) end) with (power var (S deg)).
  pose proof Hp as (_ & A & B). destruct (Qeqb (Qabs c) 1); [split; [split; auto|now apply name_not_minus]|].
  split; [|apply K]. split; intro I; apply in_app_iff in I; tauto.
Qed.

Lemma monomial_zero : forall c var deg, c == 0 -> monomial_str c var deg = [].
Proof. intros c var deg H. unfold monomial_str. apply Qeqb_true in H. now rewrite H. Qed.

Lemma terms_cons : forall c cs v vs, terms (c :: cs) (v :: vs) = if Qeqb c 0 then terms cs vs else (c, v) :: terms cs vs.
Proof. intros. unfold terms. cbn [combine filter fst]. now destruct (Qeqb c 0). Qed.

Lemma loop_word : forall cs front deg var, name var -> Forall word (to_str_loop front deg var cs).
Proof.
  induction cs as [|c cs IH]; intros front deg var H; [constructor|]. cbn [to_str_loop].
  assert (Sg : Forall word (if front then (if Qltb c 0 then [s_of "-"] else []) else [if Qltb c 0 then s_of "-" else s_of "+"])).
  { destruct front, (Qltb c 0); repeat constructor; unfold word; simpl; intros [K|[]]; discriminate. }
  destruct (monomial_str c var deg) as [|a m] eqn:E.
  - apply Forall_app. split; [exact Sg|apply IH; auto].
  - apply Forall_app. split; [exact Sg|]. constructor; [|apply IH; auto]. rewrite <- E. apply monomial_word; [auto|]. intro K. rewrite monomial_zero in E by auto. discriminate.
Qed.

Lemma loop_lenient : forall cs front deg var, name var ->
  same_terms (read_signs false (to_str_loop front deg var cs)) (terms cs (powers_from deg var (length cs))).
Proof.
  induction cs as [|c cs IH]; intros front deg var H; [exists []; split; [reflexivity|constructor]|].
  change (powers_from deg var (length (c :: cs))) with (power var deg :: powers_from (S deg) var (length cs)). rewrite terms_cons. cbn [to_str_loop].
  destruct (Qeqb c 0) eqn:E0.
  - apply Qeqb_true in E0. rewrite (monomial_zero c var deg E0). replace (Qltb c 0) with false by (symmetry; apply Qltb_false; lra).
    destruct front; cbn [app]; [apply IH; auto|]. cbn [read_signs]. change (str_eqb (s_of "+") (s_of "+")) with true. cbv iota. apply IH; auto.
  - apply Qeqb_false in E0. destruct (monomial_word c var deg H E0) as [_ Hh]. destruct (head_not_word _ Hh) as (W1 & W2 & W3).
    destruct (monomial_read c var deg H E0) as (q & Eq & Hq). destruct (monomial_str c var deg) as [|a m] eqn:Em; [destruct Hh|].
    destruct (IH false (S deg) var H) as (l & El & Hl).
    assert (X : forall neg, read_signs neg ((a :: m) :: to_str_loop false (S deg) var cs) = Some ((if neg then - q else q, power var deg) :: l)).
    { intro neg. cbn [read_signs]. rewrite W1, W2, W3, Eq, El. destruct neg; reflexivity. }
    destruct (Qltb c 0) eqn:E1.
    + apply Qltb_true in E1. exists ((- q, power var deg) :: l). split.
      * destruct front; cbn [app read_signs]; change (str_eqb (s_of "-") (s_of "+")) with false; change (str_eqb (s_of "-") (s_of "-")) with true; cbv iota; cbn [negb]; exact (X true).
      * constructor; [|exact Hl]. cbn [fst snd]. split; [rewrite Hq, Qabs_neg by lra; ring|reflexivity].
    + apply Qltb_false in E1. exists ((q, power var deg) :: l). split.
      * destruct front; cbn [app]; [exact (X false)|]. cbn [read_signs]. change (str_eqb (s_of "+") (s_of "+")) with true. cbv iota. exact (X false).
      * constructor; [|exact Hl]. cbn [fst snd]. split; [rewrite Hq, Qabs_pos by lra; reflexivity|reflexivity].
Qed.

Lemma loop_nil : forall cs deg var, name var -> (to_str_loop true deg var cs = [] <-> Forall (fun c => c == 0) cs).
Proof.
  induction cs as [|c cs IH]; intros deg var H; [split; [constructor|reflexivity]|]. cbn [to_str_loop]. split.
  - intro K. destruct (Qeqb c 0) eqn:E0.
    + apply Qeqb_true in E0. rewrite (monomial_zero c var deg E0) in K. replace (Qltb c 0) with false in K by (symmetry; apply Qltb_false; lra). cbn [app] in K.
      constructor; [exact E0|now apply (IH (S deg) var H)].
    + apply Qeqb_false in E0. destruct (monomial_word c var deg H E0) as [_ Hh]. destruct (monomial_str c var deg); [destruct Hh|]. destruct (Qltb c 0); discriminate.
  - intro F. apply Forall_cons_iff in F as [E0 F]. rewrite (monomial_zero c var deg E0). replace (Qltb c 0) with false by (symmetry; apply Qltb_false; lra). cbn [app]. now apply IH.
Qed.

Lemma poly_lenient : forall cs var, name var -> ~ Forall (fun c => c == 0) cs ->
  same_terms (read_lenient (poly_str cs var)) (terms cs (powers var (length cs))).
Proof.
  intros cs var H N. unfold read_lenient, poly_str. destruct (to_str_loop true 0 var cs) as [|w ws] eqn:E; [exfalso; apply N; now apply (loop_nil cs 0 var H)|].
  rewrite split_words; [|discriminate|rewrite <- E; now apply loop_word]. rewrite <- E. apply (loop_lenient cs true 0 var H).
Qed.

(** Strict reading when no zero follows the first nonzero coefficient. *)
Lemma loop_strict : forall cs deg var, name var -> Forall (fun c => ~ c == 0) cs ->
  same_terms (read_tail (to_str_loop false deg var cs)) (terms cs (powers_from deg var (length cs))).
Proof.
  induction cs as [|c cs IH]; intros deg var H F; [exists []; split; [reflexivity|constructor]|]. apply Forall_cons_iff in F as [N F].
  change (powers_from deg var (length (c :: cs))) with (power var deg :: powers_from (S deg) var (length cs)). rewrite terms_cons.
  replace (Qeqb c 0) with false by (symmetry; now apply Qeqb_false). cbn [to_str_loop].
  destruct (monomial_word c var deg H N) as [_ Hh]. destruct (monomial_read c var deg H N) as (q & Eq & Hq). destruct (monomial_str c var deg) as [|a m]; [destruct Hh|].
  destruct (IH (S deg) var H F) as (l & El & Hl). cbn [app read_tail]. rewrite El, Eq. destruct (Qltb c 0) eqn:E1.
  - apply Qltb_true in E1. change (str_eqb (s_of "-") (s_of "+")) with false. change (str_eqb (s_of "-") (s_of "-")) with true. cbn [negate cons_term].
    eexists. split; [reflexivity|]. constructor; [|exact Hl]. cbn [fst snd]. split; [rewrite Hq, Qabs_neg by lra; ring|reflexivity].
  - apply Qltb_false in E1. change (str_eqb (s_of "+") (s_of "+")) with true. cbn [cons_term].
    eexists. split; [reflexivity|]. constructor; [|exact Hl]. cbn [fst snd]. split; [rewrite Hq, Qabs_pos by lra; reflexivity|reflexivity].
Qed.

Lemma loop_strict_first : forall k cs deg var, name var -> Forall (fun c => ~ c == 0) cs -> cs <> [] ->
  same_terms (read_words (to_str_loop true deg var (repeat 0 k ++ cs))) (terms (repeat 0 k ++ cs) (powers_from deg var (k + length cs))).
Proof.
  induction k as [|k IH]; intros cs deg var H F N.
  - cbn [repeat app Nat.add]. destruct cs as [|c cs]; [congruence|]. apply Forall_cons_iff in F as [Nc F].
    change (powers_from deg var (length (c :: cs))) with (power var deg :: powers_from (S deg) var (length cs)). rewrite terms_cons.
    replace (Qeqb c 0) with false by (symmetry; now apply Qeqb_false). cbn [to_str_loop].
    destruct (monomial_word c var deg H Nc) as [_ Hh]. destruct (head_not_word _ Hh) as (W1 & W2 & W3).
    destruct (monomial_read c var deg H Nc) as (q & Eq & Hq). destruct (monomial_str c var deg) as [|a m]; [destruct Hh|].
    destruct (loop_strict cs (S deg) var H F) as (l & El & Hl). destruct (Qltb c 0) eqn:E1.
    + apply Qltb_true in E1. cbn [app read_words]. change (str_eqb (s_of "-") (s_of "-")) with true. rewrite El, Eq. cbn [negate cons_term].
      eexists. split; [reflexivity|]. constructor; [|exact Hl]. cbn [fst snd]. split; [rewrite Hq, Qabs_neg by lra; ring|reflexivity].
    + apply Qltb_false in E1. cbn [app read_words]. rewrite W1, W3, Eq, El. cbn [cons_term].
      eexists. split; [reflexivity|]. constructor; [|exact Hl]. cbn [fst snd]. split; [rewrite Hq, Qabs_pos by lra; reflexivity|reflexivity].
  - cbn [repeat app Nat.add]. change (powers_from deg var (S (k + length cs))) with (power var deg :: powers_from (S deg) var (k + length cs)). rewrite terms_cons.
    cbn [to_str_loop]. change (monomial_str 0 var deg) with (@nil ascii). change (Qeqb 0 0) with true. change (Qltb 0 0) with false. cbv iota. cbn [app]. now apply IH.
Qed.

Lemma loop_nonempty : forall cs front deg var, Forall (fun w => w <> []) (to_str_loop front deg var cs).
Proof.
  induction cs as [|c cs IH]; intros front deg var; [constructor|]. cbn [to_str_loop].
  assert (Sg : Forall (fun w => w <> []) (if front then (if Qltb c 0 then [s_of "-"] else []) else [if Qltb c 0 then s_of "-" else s_of "+"])).
  { destruct front, (Qltb c 0); repeat constructor; discriminate. }
  destruct (monomial_str c var deg) as [|a m]; apply Forall_app; (split; [exact Sg|]); [apply IH|constructor; [discriminate|apply IH]].
Qed.

Lemma poly_strict : forall k cs var, name var -> Forall (fun c => ~ c == 0) cs -> cs <> [] ->
  same_terms (read_sum (poly_str (repeat 0 k ++ cs) var)) (terms (repeat 0 k ++ cs) (powers var (length (repeat 0 k ++ cs)))).
Proof.
  intros k cs var H F N.
  assert (E : poly_str (repeat 0 k ++ cs) var = join (s_of " ") (to_str_loop true 0 var (repeat 0 k ++ cs))).
  { unfold poly_str. destruct (to_str_loop true 0 var (repeat 0 k ++ cs)) eqn:E; [|reflexivity]. exfalso. apply (loop_nil _ 0 var H) in E. apply Forall_app in E as [_ E].
    destruct cs as [|c cs]; [congruence|]. apply Forall_inv in E, F. contradiction. }
  rewrite E, read_join; [|apply loop_nonempty|now apply loop_word]. rewrite app_length, repeat_length. now apply loop_strict_first.
Qed.

Lemma power_inj : forall var i j, name var -> power var i = power var j -> i = j.
Proof.
  intros var i j H E. assert (V : var <> []) by (destruct var; [destruct H as [[] _]|discriminate]).
  destruct i as [|[|i]], j as [|[|j]]; cbn [power] in E; try reflexivity; try congruence.
  - exfalso. destruct var; [congruence|discriminate].
  - exfalso. rewrite <- (app_nil_r var) in E at 1. apply app_inv_head in E. discriminate.
  - exfalso. destruct var; [congruence|discriminate].
  - exfalso. rewrite <- (app_nil_r var) in E at 2. apply app_inv_head in E. discriminate.
  - apply app_inv_head in E. apply app_inv_head in E. apply (f_equal z_read) in E. rewrite !z_read_str in E. injection E as E. lia.
Qed.

Lemma powers_nodup : forall var n, name var -> NoDup (powers var n).
Proof.
  intros var n H. unfold powers. generalize 0%nat. induction n as [|n IH]; intro s; [constructor|]. cbn [seq map]. constructor; [|apply IH].
  intro I. apply in_map_iff in I as (j & E & Ij). apply power_inj in E; [|exact H]. apply in_seq in Ij. lia.
Qed.

Lemma poly_coefficients : forall cs var, name var -> ~ Forall (fun c => c == 0) cs ->
  exists ts, read_lenient (poly_str cs var) = Some ts /\ forall i, (i < length cs)%nat -> coefficient (power var i) ts == nth i cs 0.
Proof.
  intros cs var H N. destruct (poly_lenient cs var H N) as (ts & E & F). exists ts. split; [exact E|]. intros i Hi. rewrite (coefficient_same _ _ _ F).
  replace (power var i) with (nth i (powers var (length cs)) []).
  - apply terms_coefficient; [now apply powers_nodup| |exact Hi]. unfold powers. rewrite map_length, seq_length. lia.
  - unfold powers. rewrite (nth_indep _ [] (power var 0)) by (rewrite map_length, seq_length; lia). rewrite map_nth, seq_nth by lia. reflexivity.
Qed.

(** ** Polytopes *)

Definition rel_word (b : bool) : str := if b then s_of "=" else s_of ">=".

Lemma join_row : forall ws (b : bool), join (s_of " ") ws ++ (if b then s_of " = 0" else s_of " >= 0") =
  join (s_of " ") ((match ws with [] => [@nil ascii] | _ => ws end) ++ [rel_word b; s_of "0"]).
Proof.
  intros ws b. destruct ws as [|w ws]; [destruct b; reflexivity|]. rewrite join_app2 by discriminate. destruct b; cbn [rel_word]; reflexivity.
Qed.

Lemma row_read : forall c0 cs b vars, Forall name vars -> (length cs <= length vars)%nat ->
  exists s ts, row_str vars (c0 :: cs, b) = Ret s /\ ~ In "'"%char s /\ read_row s = Some (ts, b) /\
    Forall2 (fun a b => fst a == fst b /\ snd a = snd b) ts (with_constant c0 (terms cs vars)).
Proof.
  intros c0 cs b vars V L. pose proof (terms_proper cs vars V) as P. pose proof (sum_words_ok c0 _ P) as W. pose proof (sum_words_nonempty c0 _ P) as NE.
  destruct (read_sum_words c0 _ P) as (ts & Et & H). set (ws := sum_words c0 (terms cs vars)) in *.
  exists (join (s_of " ") ws ++ (if b then s_of " = 0" else s_of " >= 0")), ts. split; [|split; [|split; [|exact H]]].
  - unfold row_str. cbn [fst snd]. rewrite fmt_words by auto. reflexivity.
  - rewrite in_app_iff. intros [I|I]; [|destruct b; simpl in I; repeat (destruct I as [I|I]; [discriminate|]); destruct I].
    revert I. assert (G : forall l, Forall word l -> ~ In "'"%char (join (s_of " ") l)).
    { clear. intros l F. induction F as [|w l [_ Hw] F IH]; [intros []|]. destruct l as [|w' l]; [exact Hw|].
      change (join (s_of " ") (w :: w' :: l)) with (w ++ s_of " " ++ join (s_of " ") (w' :: l)). rewrite !in_app_iff. intros [I|[[I|[]]|I]]; [auto|discriminate|auto]. }
    now apply G.
  - rewrite join_row. unfold read_row. set (ws' := match ws with [] => [@nil ascii] | _ => ws end).
    rewrite split_words.
    + rewrite rev_app_distr. cbn [rev app]. rewrite str_eqb_refl, rev_involutive.
      unfold ws'. destruct ws as [|w ws0] eqn:Ew; [cbn in Et; injection Et as <-; destruct b; reflexivity|].
      apply Forall_inv in NE. destruct w as [|a w]; [congruence|]. cbv iota. rewrite Et. destruct b; reflexivity.
    + destruct ws'; discriminate.
    + apply Forall_app. split; [unfold ws'; destruct ws; [constructor; [split; intros []|constructor]|exact W]|].
      constructor; [destruct b; split; simpl; intuition discriminate|]. constructor; [split; simpl; intuition discriminate|constructor].
Qed.

(** The pieces of the text between single quotes. *)
Fixpoint parts (first : bool) (rows : list str) : list str :=
  match rows with
  | [] => [if first then s_of "[]" else s_of "]"]
  | r :: rows' => (if first then s_of "[" else s_of ", ") :: r :: parts false rows'
  end.

Lemma join_cons : forall sep a b l, join sep (a :: b :: l) = a ++ sep ++ join sep (b :: l).
Proof. reflexivity. Qed.

Lemma parts_text : forall rows, s_of "[" ++ join (s_of ", ") (map quoted rows) ++ s_of "]" = join ["'"%char] (parts true rows).
Proof.
  intros [|r rows]; [reflexivity|]. cbn [parts]. 
  assert (X : forall rows r, join (s_of ", ") (map quoted (r :: rows)) ++ s_of "]" = ["'"%char] ++ r ++ ["'"%char] ++ join ["'"%char] (parts false rows)).
  { clear. induction rows as [|r' rows IH]; intro r.
    - cbn [map join parts]. unfold quoted. rewrite <- !app_assoc. reflexivity.
    - cbn [map]. change (join (s_of ", ") (quoted r :: quoted r' :: map quoted rows)) with (quoted r ++ s_of ", " ++ join (s_of ", ") (map quoted (r' :: rows))).
      rewrite <- !app_assoc, IH. cbn [parts]. unfold quoted at 1. rewrite <- !app_assoc. rewrite join_cons. 
      assert (Y : join ["'"%char] (r' :: parts false rows) = r' ++ ["'"%char] ++ join ["'"%char] (parts false rows)) by (destruct rows; reflexivity).
      rewrite Y. reflexivity. }
  rewrite X. rewrite join_cons. assert (Y : join ["'"%char] (r :: parts false rows) = r ++ ["'"%char] ++ join ["'"%char] (parts false rows)) by (destruct rows; reflexivity).
  rewrite Y. reflexivity.
Qed.

Lemma parts_read : forall rows first, odd_parts first (parts first rows) = Some rows.
Proof.
  induction rows as [|r rows IH]; intro first.
  - destruct first; reflexivity.
  - cbn [parts]. assert (X : odd_parts first ((if first then s_of "[" else s_of ", ") :: r :: parts false rows) = match odd_parts false (parts false rows) with Some l => Some (r :: l) | None => None end).
    { cbn [odd_parts]. now rewrite str_eqb_refl. }
    rewrite X, IH. reflexivity.
Qed.

Lemma parts_free : forall rows first, Forall (fun s => ~ In "'"%char s) rows -> Forall (fun s => ~ In "'"%char s) (parts first rows).
Proof.
  intros rows first F. revert first. induction F as [|r rows H F IH]; intro first; cbn [parts].
  - constructor; [destruct first; simpl; intuition discriminate|constructor].
  - constructor; [destruct first; simpl; intuition discriminate|]. constructor; auto.
Qed.

Lemma polytope_read : forall p vars, wf_mat (pmat p) -> Forall name vars -> (ncol (pmat p) - 1 <= length vars)%nat ->
  exists s rows, polytope_str p vars = Ret s /\ read_polytope s = Some rows /\
    Forall2 (fun rb tb => snd tb = snd rb /\ Forall2 (fun a b => fst a == fst b /\ snd a = snd b) (fst tb) (with_constant (hd 0 (fst rb)) (terms (tl (fst rb)) vars)))
      (mrows (pmat p)) rows.
Proof.
  intros p vars [N1 F] V L. unfold polytope_str. replace (_ <? _)%nat with false by (symmetry; apply Nat.ltb_ge; lia).
  assert (X : exists ss rows, mapM (row_str vars) (mrows (pmat p)) = Ret ss /\ Forall (fun s => ~ In "'"%char s) ss /\ read_all read_row ss = Some rows /\
    Forall2 (fun rb tb => snd tb = snd rb /\ Forall2 (fun a b => fst a == fst b /\ snd a = snd b) (fst tb) (with_constant (hd 0 (fst rb)) (terms (tl (fst rb)) vars))) (mrows (pmat p)) rows).
  { set (n := ncol (pmat p)) in *. clearbody n. induction F as [|[r b] rows Hr F IH]; [exists [], []; repeat split; constructor|].
    destruct IH as (ss & rs & Es & Fs & Er & H). cbn [fst] in Hr. destruct r as [|c0 cs].
    - exfalso. simpl in Hr. lia.
    - destruct (row_read c0 cs b vars V) as (s & ts & E1 & E2 & E3 & E4); [simpl in Hr; lia|].
      exists (s :: ss), ((ts, b) :: rs). cbn [mapM]. rewrite E1. cbn [bind]. rewrite Es. cbn [bind]. split; [reflexivity|]. split; [constructor; auto|].
      split; [cbn [read_all]; now rewrite E3, Er|]. constructor; [|exact H]. cbn [fst snd hd tl]. auto. }
  destruct X as (ss & rows & Es & Fs & Er & H). rewrite Es. cbn [bind]. eexists _, rows. split; [reflexivity|]. split; [|exact H].
  unfold read_polytope. rewrite parts_text. change (s_of "'") with ["'"%char]. rewrite split_join; [|destruct ss; discriminate|now apply parts_free].
  now rewrite parts_read, Er.
Qed.

(** ** Default names *)

Lemma default_names_ok : forall d, Forall name (default_names d) /\ NoDup (default_names d) /\ (d <= length (default_names d))%nat.
Proof.
  intro d. unfold default_names. destruct (d <=? 5)%nat eqn:E.
  - apply Nat.leb_le in E. split; [|split].
    + repeat (constructor; [repeat split; try discriminate; simpl; intuition discriminate|]). constructor.
    + repeat (constructor; [simpl; intuition discriminate|]). constructor.
    + simpl. exact E.
  - split; [|split].
    + apply Forall_forall. intros v I. apply in_map_iff in I as (i & <- & _). destruct (z_str_pos (Z.of_nat i) ltac:(lia)) as [D _].
      split; [repeat split; discriminate|]. split; (intros [K|[K|K]]; [discriminate|discriminate|]; revert K; apply digits_free; auto).
    + generalize 1%nat. clear E. induction d as [|d IH]; intro s; [constructor|]. cbn [seq map]. constructor; [|apply IH].
      intro I. apply in_map_iff in I as (j & K & Ij). apply app_inv_head in K. apply (f_equal z_read) in K. rewrite !z_read_str in K. injection K as K.
      apply in_seq in Ij. lia.
    + rewrite map_length, seq_length. lia.
Qed.
