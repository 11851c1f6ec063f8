(** Property C64: intervals as text. *)
From Verif Require Import Base Model_Text Model_Interval Spec_Interval Proof_Interval Model_RationalFunction Spec_RationalFunction Model_Formula Spec_Formula Proof_Formula Prop_Formula Model_Format Proof_Format
  Model_IntervalText Spec_IntervalText.
Open Scope list_scope.
Local Open Scope Q_scope.
Import Lqa.

(** ** Digits *)
Definition dig (c : ascii) : Prop := Model_Formula.digit c <> None.
Definition stops (s : str) : Prop := match s with [] => True | c :: _ => Model_Formula.digit c = None end.
Lemma take_split : forall s w r, take_digits s = (w, r) -> s = w ++ r /\ Forall dig w /\ stops r.
Proof.
  induction s as [|c s IH]; intros w r H; cbn in H; [injection H as <- <-; repeat constructor|].
  destruct (Model_Formula.digit c) eqn:D.
  - destruct (take_digits s) as (w', r') eqn:E. injection H as <- <-. destruct (IH _ _ eq_refl) as (-> & F & S). split; [reflexivity|]. split; [constructor; [unfold dig; congruence|exact F]|exact S].
  - injection H as <- <-. split; [reflexivity|]. split; [constructor|exact D].
Qed.
Lemma take_app : forall w r, Forall dig w -> stops r -> take_digits (w ++ r) = (w, r).
Proof.
  intros w r F S. induction F as [|c w D F IH]; cbn.
  - destruct r as [|c r]; [reflexivity|]. cbn in *. now rewrite S.
  - destruct (Model_Formula.digit c) eqn:E; [|now destruct D]. now rewrite IH.
Qed.
Lemma dig_ok : forall c, dig c <-> exists d, is_digit c d.
Proof.
  intro c. unfold dig. split.
  - destruct (Model_Formula.digit c) as [d|] eqn:E; [|congruence]. intros _. exists d. now apply digit_ok.
  - intros (d & H) E. apply digit_ok in H. congruence.
Qed.
Lemma value_more : forall w c, digits_value (w ++ [c]) = match Model_Formula.digit c with Some d => (10 * digits_value w + d)%Z | None => digits_value w end.
Proof. intros w c. unfold digits_value. rewrite fold_left_app. reflexivity. Qed.
Lemma number_ok : forall w n, number w n <-> w <> [] /\ Forall dig w /\ digits_value w = n.
Proof.
  intros w n. split.
  - induction 1 as [c d D|w n c d N (_ & F & V) D].
    + split; [discriminate|]. split; [constructor; [apply dig_ok; eauto|constructor]|]. unfold digits_value. cbn. apply digit_ok in D. now rewrite D.
    + split; [now destruct w|]. split; [apply Forall_app; split; [exact F|constructor; [apply dig_ok; eauto|constructor]]|]. rewrite value_more. apply digit_ok in D. now rewrite D, V.
  - intros (N & F & V). subst n. induction w as [|c w IH] using rev_ind; [congruence|]. apply Forall_app in F as (F & D). inversion D as [|? ? Dc _]; subst. apply dig_ok in Dc as (d & Dc). rewrite value_more. pose proof (proj2 (digit_ok _ _) Dc) as E. rewrite E.
    destruct w as [|a w]; [replace (10 * digits_value [] + d)%Z with d by (cbn; lia); now apply number_one|]. apply number_more; auto. apply IH; [discriminate|exact F].
Qed.
Lemma number_digits : forall w n, number w n -> Forall dig w.
Proof. intros w n H. now apply number_ok in H. Qed.
Lemma is_nil_ok : forall {A} (l : list A), is_nil l = true <-> l = [].
Proof. intros A [|a l]; cbn; split; congruence. Qed.
Lemma is_nil_no : forall {A} (l : list A), is_nil l = false <-> l <> [].
Proof. intros A [|a l]; cbn; split; congruence. Qed.

(** ** Fractions *)
Lemma unsigned_ok : forall t q, unsigned_frac t = Ret q <-> magnitude t q.
Proof.
  intros t q. unfold unsigned_frac. split.
  - destruct (take_digits t) as (num, rest) eqn:E. apply take_split in E as (-> & F & S). destruct rest as [|c rest].
    + destruct (is_nil num) eqn:N; [discriminate|]. apply is_nil_no in N. intro H. injection H as <-. rewrite app_nil_r. apply mag_whole. now apply number_ok.
    + destruct (take_digits rest) as (w, rest') eqn:E. apply take_split in E as (-> & Fw & Sw). destruct (is_nil rest') eqn:N; cbn [negb]; [|discriminate]. apply is_nil_ok in N. subst rest'. rewrite app_nil_r.
      destruct (ch_eqb c "/") eqn:C.
      * apply ch_eqb_true in C. subst c. destruct (is_nil num) eqn:N1; [discriminate|]. destruct (is_nil w) eqn:N2; [discriminate|]. cbn [orb]. destruct (digits_value w =? 0)%Z eqn:Z; [discriminate|]. intro H. injection H as <-.
        apply is_nil_no in N1, N2. apply Z.eqb_neq in Z. apply (mag_frac num _ w); [now apply number_ok|now apply number_ok|exact Z].
      * destruct (ch_eqb c ".") eqn:C'; [|discriminate]. apply ch_eqb_true in C'. subst c. destruct (is_nil num && is_nil w) eqn:N; [discriminate|]. intro H. injection H as <-. apply (mag_decimal num w). apply number_ok.
        split; [|split; [now apply Forall_app|reflexivity]]. intro X. apply app_eq_nil in X as (-> & ->). discriminate.
  - intro M. destruct M as [w n N|w n v m N1 N2 Z|w v m N].
    + apply number_ok in N as (N & F & <-). rewrite <- (app_nil_r w) at 1. rewrite take_app by (auto; exact Logic.I). apply is_nil_no in N. now rewrite N.
    + apply number_ok in N1 as (N1 & F1 & <-). apply number_ok in N2 as (N2 & F2 & <-). rewrite take_app by (auto; reflexivity). cbn [s_of list_ascii_of_string app]. rewrite <- (app_nil_r v) at 1. rewrite take_app by (auto; exact Logic.I). cbn.
      apply is_nil_no in N1, N2. apply Z.eqb_neq in Z. rewrite N1, N2, Z. reflexivity.
    + apply number_ok in N as (N & F & <-). apply Forall_app in F as (F1 & F2). rewrite take_app by (auto; reflexivity). cbn [s_of list_ascii_of_string app]. rewrite <- (app_nil_r v) at 1. rewrite take_app by (auto; exact Logic.I). cbn.
      destruct (is_nil w && is_nil v) eqn:X; [|reflexivity]. apply andb_true_iff in X as (X1 & X2). apply is_nil_ok in X1, X2. subst. now destruct N.
Qed.
Lemma dig_char : forall c, dig c -> is_space c = false /\ c <> ","%char /\ c <> "-"%char /\ c <> "+"%char.
Proof. intros c D. apply dig_ok in D as (d & (P & H)). apply nth_error_In in H. cbn in H. repeat (destruct H as [<-|H]; [repeat split; discriminate|]). destruct H. Qed.
Definition plainc (c : ascii) : Prop := is_space c = false /\ c <> ","%char.
Lemma digs_plain : forall w, Forall dig w -> Forall plainc w.
Proof. intros w. apply Forall_impl. intros c D. destruct (dig_char c D) as (A & B & _). now split. Qed.
Lemma mag_chars : forall s q, magnitude s q -> Forall plainc s /\ match s with c :: _ => c <> "-"%char /\ c <> "+"%char | [] => False end.
Proof.
  assert (P1 : Forall plainc (s_of "/")) by (repeat constructor; discriminate). assert (P2 : Forall plainc (s_of ".")) by (repeat constructor; discriminate).
  intros s q M. destruct M as [w n N|w n v m N1 N2 Z|w v m N].
  - apply number_ok in N as (N & F & _). split; [now apply digs_plain|]. destruct F as [|c w D F]; [congruence|]. destruct (dig_char c D) as (_ & _ & X); exact X.
  - apply number_ok in N1 as (N1 & F1 & _). apply number_digits in N2. split; [repeat (apply Forall_app; split); auto using digs_plain|]. destruct F1 as [|c w D F]; [congruence|]. cbn [app]. destruct (dig_char c D) as (_ & _ & X); exact X.
  - apply number_ok in N as (N & F & _). apply Forall_app in F as (F1 & F2). split; [repeat (apply Forall_app; split); auto using digs_plain|]. destruct F1 as [|c w D F]; cbn [app s_of list_ascii_of_string]; [split; discriminate|]. destruct (dig_char c D) as (_ & _ & X); exact X.
Qed.
Lemma rat_chars : forall s q, rational s q -> Forall plainc s /\ s <> [].
Proof.
  intros s q R. destruct R as [s q M|s q M|s q M]; destruct (mag_chars s q M) as (F & H).
  - split; [exact F|now destruct s].
  - split; [|discriminate]. constructor; [split; [reflexivity|discriminate]|exact F].
  - split; [|discriminate]. constructor; [split; [reflexivity|discriminate]|exact F].
Qed.
Lemma plain_trimmed : forall s, Forall plainc s -> trimmed s.
Proof.
  intros s F. rewrite Forall_forall in F. split; intros c t ->; apply F; [now left|]. apply in_or_app. right. now left.
Qed.
Lemma lstrip_split : forall s, exists u, s = u ++ lstrip s /\ blank u.
Proof.
  induction s as [|c s (u & E & B)]; [exists []; split; [reflexivity|constructor]|]. cbn. destruct (is_space c) eqn:S.
  - exists (c :: u). split; [cbn; congruence|]. now constructor.
  - exists []. split; [reflexivity|constructor].
Qed.
Lemma strip_split : forall s, exists u v, s = u ++ strip s ++ v /\ blank u /\ blank v.
Proof.
  intro s. destruct (lstrip_split s) as (u & E & B). unfold strip, rstrip. set (t := lstrip s) in *. destruct (lstrip_split (rev t)) as (v & E' & B').
  exists u, (rev v). split; [|split; [exact B|now apply Forall_rev]]. rewrite E at 1. f_equal. transitivity (rev (v ++ lstrip (rev t))); [rewrite <- E'; symmetry; apply rev_involutive|apply rev_app_distr].
Qed.
Lemma signed_ok : forall w q, match w with c :: t => if ch_eqb c "-" then let! q := unsigned_frac t in Ret (- q) else if ch_eqb c "+" then unsigned_frac t else unsigned_frac (c :: t) | [] => Raise ValueError end = Ret q <-> rational w q.
Proof.
  intros w q. split.
  - destruct w as [|c t]; [discriminate|]. destruct (ch_eqb c "-") eqn:C.
    + apply ch_eqb_true in C. subst c. destruct (unsigned_frac t) as [p|] eqn:E; [|discriminate]. intro H. injection H as <-. apply (rat_minus t). now apply unsigned_ok.
    + destruct (ch_eqb c "+") eqn:C'; intro H; apply unsigned_ok in H; [apply ch_eqb_true in C'; subst c; now apply (rat_plus t)|now apply rat_plain].
  - intro R. destruct R as [s q M|s q M|s q M].
    + destruct (mag_chars s q M) as (_ & H). destruct s as [|c t]; [destruct H|]. destruct H as (H1 & H2). apply ch_eqb_false in H1, H2. rewrite H1, H2. now apply unsigned_ok.
    + cbn. now apply unsigned_ok.
    + apply unsigned_ok in M. cbn. now rewrite M.
Qed.
Theorem fraction_read : forall s q, frac_of_str s = Ret q <-> fraction_text s q.
Proof.
  intros s q. unfold frac_of_str. split.
  - intro H. apply signed_ok in H. destruct (strip_split s) as (u & v & E & B1 & B2). exists u, (strip s), v. auto.
  - intros (u & w & v & -> & B1 & B2 & R). destruct (rat_chars w q R) as (F & _). rewrite strip_pad by (auto using plain_trimmed). now apply signed_ok.
Qed.
Print Assumptions fraction_read.

(** ** Intervals *)
Lemma stripped : forall s q, fraction_text (strip s) q <-> fraction_text s q.
Proof.
  intros s q. split.
  - intros (u & w & v & E & B1 & B2 & R). destruct (strip_split s) as (u' & v' & E' & B1' & B2'). exists (u' ++ u), w, (v ++ v'). split; [rewrite E', E; now rewrite <- !app_assoc|]. split; [now apply Forall_app|]. split; [now apply Forall_app|exact R].
  - intros (u & w & v & -> & B1 & B2 & R). destruct (rat_chars w q R) as (F & _). rewrite strip_pad by (auto using plain_trimmed). exists [], w, []. rewrite app_nil_r. repeat split; auto; constructor.
Qed.
Lemma no_comma : forall s q, fraction_text s q -> ~ In ","%char s.
Proof.
  intros s q (u & w & v & -> & B1 & B2 & R) I. destruct (rat_chars w q R) as (F & _). unfold blank in *. rewrite Forall_forall in *. rewrite !in_app_iff in I. destruct I as [I|[I|I]]; [apply B1 in I; discriminate|apply F in I; now apply I|apply B2 in I; discriminate].
Qed.
Lemma first_comma : forall c (s : str), ~ In c s \/ exists p t, s = p ++ c :: t /\ ~ In c p.
Proof.
  intros c s. induction s as [|d s [N|(p & t & -> & N)]]; [now left| |].
  - destruct (ch_eqb d c) eqn:E; [apply ch_eqb_true in E; subst; right; exists [], s; split; [reflexivity|intros []]|]. apply ch_eqb_false in E. left. intros [H|H]; auto.
  - destruct (ch_eqb d c) eqn:E; [apply ch_eqb_true in E; subst; right; exists [], (p ++ c :: t); split; [reflexivity|intros []]|]. apply ch_eqb_false in E. right. exists (d :: p), t. split; [reflexivity|]. intros [H|H]; auto.
Qed.
Lemma split_two : forall c s p1 p2 rest, split [c] s = p1 :: p2 :: rest -> exists more, s = p1 ++ c :: p2 ++ more /\ (more = [] \/ exists t, more = c :: t).
Proof.
  intros c s p1 p2 rest H. unfold split in H. destruct (first_comma c s) as [N|(p & t & -> & N)]; [rewrite split_go_free in H by exact N; discriminate|]. rewrite split_go_cut in H by exact N. cbn [rev app] in H. injection H as <- H.
  destruct (first_comma c t) as [N'|(p' & t' & -> & N')].
  - rewrite split_go_free in H by exact N'. cbn [rev app] in H. injection H as <- _. exists []. rewrite app_nil_r. auto.
  - rewrite split_go_cut in H by exact N'. cbn [rev app] in H. injection H as <- _. exists (c :: t'). split; [reflexivity|eauto].
Qed.
Lemma last_snoc : forall (s : str) r d, last (s ++ [r]) d = r.
Proof. intros. apply last_last. Qed.
Theorem interval_read : forall s i, interval_parse s = Ret i <-> loose_text s i /\ x0 i <= x1 i.
Proof.
  intros s i. unfold interval_parse. split.
  - destruct (split (s_of ",") (removelast (tl s))) as [|p1 [|p2 rest]] eqn:E; [discriminate|destruct (frac_of_str (strip p1)); discriminate|].
    destruct (frac_of_str (strip p1)) as [a|] eqn:A; [|discriminate]. cbn [bind]. destruct (frac_of_str (strip p2)) as [b|] eqn:B; [|discriminate]. cbn [bind]. destruct s as [|l s']; [discriminate|]. intro H.
    apply fraction_read in A, B. apply (proj1 (stripped _ _)) in A. apply (proj1 (stripped _ _)) in B. apply (split_two ",") in E as (more & E & M). cbn [tl] in E.
    assert (S : exists r, s' = removelast s' ++ [r]). { destruct s' as [|c s']; [destruct p1; discriminate|]. exists (last (c :: s') c). apply app_removelast_last. discriminate. } destruct S as (r & S). rewrite E in S.
    assert (LL : last (l :: s') l = r). { rewrite S. change (l :: (p1 ++ ","%char :: p2 ++ more) ++ [r]) with ((l :: p1 ++ ","%char :: p2 ++ more) ++ [r]). now rewrite last_snoc. } rewrite LL in H.
    unfold Interval in H. destruct (Qltb 0 (a - b)) eqn:L; [discriminate|]. apply Qltb_false in L. injection H as <-. split; [|cbn; lra]. exists l, p1, p2, more, r. split; [rewrite S; cbn; now rewrite <- app_assoc; cbn; rewrite <- app_assoc|]. split; [exact M|]. split; [exact A|]. split; [exact B|]. cbn [incl_lo incl_hi].
    split; apply ch_eqb_true.
  - intros ((l & a & b & more & r & -> & M & A & B & I1 & I2) & L).
    replace (removelast (tl (l :: a ++ s_of "," ++ b ++ more ++ [r]))) with (a ++ ","%char :: b ++ more).
    2:{ cbn [tl]. replace (a ++ s_of "," ++ b ++ more ++ [r]) with ((a ++ ","%char :: b ++ more) ++ [r]) by (cbn; now rewrite <- app_assoc; cbn; rewrite <- app_assoc). symmetry. apply removelast_last. }
    assert (E : exists rest, split (s_of ",") (a ++ ","%char :: b ++ more) = a :: b :: rest).
    { unfold split. change (s_of ",") with [","%char]. rewrite split_go_cut by exact (no_comma _ _ A). cbn [rev app]. destruct M as [->|(t & ->)].
      - rewrite app_nil_r. rewrite split_go_free by exact (no_comma _ _ B). cbn. eauto.
      - change (s_of "," ++ t) with (","%char :: t). rewrite split_go_cut by exact (no_comma _ _ B). cbn. eauto. }
    destruct E as (rest & ->). apply (proj2 (stripped _ _)), fraction_read in A. apply (proj2 (stripped _ _)), fraction_read in B. rewrite A, B. cbn [bind].
    replace (last (l :: a ++ s_of "," ++ b ++ more ++ [r]) l) with r.
    2:{ replace (l :: a ++ s_of "," ++ b ++ more ++ [r]) with ((l :: a ++ s_of "," ++ b ++ more) ++ [r]) by (cbn; rewrite <- app_assoc; cbn; now rewrite <- app_assoc). now rewrite last_snoc. }
    unfold Interval. destruct (Qltb 0 (x0 i - x1 i)) eqn:K; [apply Qltb_true in K; lra|]. destruct i as [u v il ih]. cbn in *. f_equal. f_equal.
    + destruct il; [apply ch_eqb_true; now apply I1|]. apply ch_eqb_false. intro X. apply I1 in X. discriminate.
    + destruct ih; [apply ch_eqb_true; now apply I2|]. apply ch_eqb_false. intro X. apply I2 in X. discriminate.
Qed.
Print Assumptions interval_read.

(** Texts in the usual form are read as what they say. *)
Theorem interval_text_read : forall s i, interval_text s i -> x0 i <= x1 i -> interval_parse s = Ret i.
Proof.
  intros s i (a & b & -> & A & B) L. apply interval_read. split; [|exact L].
  exists (if incl_lo i then "["%char else "("%char), a, b, [], (if incl_hi i then "]"%char else ")"%char).
  split; [destruct (incl_lo i), (incl_hi i); reflexivity|]. split; [now left|]. split; [exact A|]. split; [exact B|]. split; destruct (incl_lo i), (incl_hi i); split; congruence.
Qed.
Print Assumptions interval_text_read.

(** An interval whose ends are the wrong way round is an error. *)
Theorem interval_text_reversed : forall s i, interval_text s i -> x1 i < x0 i -> interval_parse s = Raise ValueError.
Proof.
  intros s i (a & b & -> & A & B) L.
  assert (E : removelast (tl ((if incl_lo i then s_of "[" else s_of "(") ++ a ++ s_of "," ++ b ++ (if incl_hi i then s_of "]" else s_of ")"))) = a ++ ","%char :: b).
  { replace (tl _) with ((a ++ ","%char :: b) ++ [if incl_hi i then "]"%char else ")"%char]); [apply removelast_last|]. destruct (incl_lo i), (incl_hi i); cbn; rewrite <- app_assoc; reflexivity. }
  unfold interval_parse. rewrite E. unfold split. change (s_of ",") with [","%char]. rewrite split_go_cut by exact (no_comma _ _ A). rewrite split_go_free by exact (no_comma _ _ B). cbn [rev app].
  apply (proj2 (stripped _ _)), fraction_read in A. apply (proj2 (stripped _ _)), fraction_read in B. rewrite A, B. cbn [bind]. unfold Interval. destruct (Qltb 0 (x0 i - x1 i)) eqn:K; [|apply Qltb_false in K; lra]. destruct (incl_lo i); reflexivity.
Qed.
Print Assumptions interval_text_reversed.

(** ** Printing *)
Lemma whole_number : forall w n, whole w n -> number w n.
Proof. induction 1; [now apply number_one|now apply number_more]. Qed.
Lemma frac_str_text : forall q, exists q', fraction_text (frac_str q) q' /\ q' == q.
Proof.
  assert (P : forall q, 0 <= q -> exists q', magnitude (frac_str q) q' /\ q' == q).
  { intros q H. unfold frac_str. pose proof (Qred_pos q H) as N. pose proof (whole_number _ _ (whole_z_str _ N)) as W. destruct (Pos.eqb (Qden (Qred q)) 1) eqn:E.
    - apply Pos.eqb_eq in E. exists (inject_Z (Qnum (Qred q))). rewrite app_nil_r. split; [now apply mag_whole|]. rewrite <- (Qred_correct q) at 2. destruct (Qred q) as (n & d). cbn in *. now subst.
    - exists (inject_Z (Qnum (Qred q)) / inject_Z (Z.pos (Qden (Qred q)))). split; [apply mag_frac; [exact W|apply whole_number, whole_z_str; lia|lia]|]. rewrite <- (Qred_correct q) at 3. destruct (Qred q) as (n & d). cbn [Qnum Qden]. rewrite (Qmake_Qdiv n d). reflexivity. }
  assert (T : forall s q, rational s q -> fraction_text s q). { intros s q R. exists [], s, []. rewrite app_nil_r. repeat split; auto; constructor. }
  intro q. destruct (Qlt_le_dec q 0) as [H|H].
  - rewrite (frac_neg q H). destruct (P (Qabs q) (Qabs_nonneg q)) as (q' & M & E). exists (- q'). split; [apply T; now apply (rat_minus (frac_str (Qabs q)))|]. rewrite E, Qabs_neg by lra. lra.
  - destruct (P q H) as (q' & M & E). exists q'. split; [apply T; now apply rat_plain|exact E].
Qed.
Theorem interval_repr_text : forall i, exists j, interval_text (interval_repr i) j /\ same_ends j i.
Proof.
  intro i. destruct (frac_str_text (x0 i)) as (a & A & Ea). destruct (frac_str_text (x1 i)) as (b & B & Eb). exists (mkI a b (incl_lo i) (incl_hi i)). split; [|repeat split; assumption]. exists (frac_str (x0 i)), (frac_str (x1 i)). split; [reflexivity|split; assumption].
Qed.
Print Assumptions interval_repr_text.
(** What is printed is read back as the same interval. *)
Theorem interval_round_trip : forall i, wf i -> exists j, interval_parse (interval_repr i) = Ret j /\ same_ends j i /\ interval_eqb j i = true.
Proof.
  intros i W. destruct (interval_repr_text i) as (j & T & (E0 & E1 & El & Eh)). exists j. split; [apply interval_text_read; [exact T|unfold wf in W; rewrite E0, E1; exact W]|]. split; [repeat split; assumption|].
  unfold interval_eqb. destruct (is_empty j && is_empty i); [reflexivity|]. rewrite El, Eh, !Bool.eqb_reflx. apply Qeqb_true in E0, E1. now rewrite E0, E1.
Qed.
Print Assumptions interval_round_trip.

(** Texts that are not of that form are read too: brackets of any kind count as round
    ones, and further numbers are ignored. *)
Theorem interval_strict_refuted : ~ (forall s i, interval_parse s = Ret i -> interval_text s i).
Proof.
  intro H. specialize (H (s_of "{0,1,oops}") (mkI 0 1 false false) eq_refl). destruct H as (a & b & E & _). discriminate.
Qed.
Print Assumptions interval_strict_refuted.

Example ex_read : interval_parse (s_of "[ 1/2, .75 )") = Ret (mkI (1 / 2) (75 / 100) true false).
Proof. reflexivity. Qed.
Example ex_text : interval_text (s_of "(-1/3,+2]") (mkI (- (1 / 3)) 2 false true).
Proof.
  assert (N : forall w n, w <> [] -> Forall dig w -> digits_value w = n -> number w n) by (intros; apply number_ok; auto).
  exists (s_of "-1/3"), (s_of "+2"). split; [reflexivity|]. split.
  - exists [], (s_of "-1/3"), []. split; [reflexivity|]. split; [constructor|]. split; [constructor|]. apply (rat_minus (s_of "1/3")). apply (mag_frac (s_of "1") 1 (s_of "3") 3); [apply N|apply N|]; cbn; repeat constructor; discriminate.
  - exists [], (s_of "+2"), []. split; [reflexivity|]. split; [constructor|]. split; [constructor|]. apply (rat_plus (s_of "2")). apply (mag_whole (s_of "2") 2), N; cbn; repeat constructor; discriminate.
Qed.
Example ex_reversed : interval_parse (s_of "[1,0]") = Raise ValueError /\ interval_parse (s_of "[0]") = Raise IndexError /\ interval_parse (s_of "[0,1/0]") = Raise ZeroDivisionError.
Proof. repeat split; reflexivity. Qed.
Example ex_print : interval_repr (mkI (- (2 / 6)) 1 true false) = s_of "[-1/3,1)".
Proof. reflexivity. Qed.
