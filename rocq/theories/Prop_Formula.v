(** Property C55: the text of a formula is read as the arithmetic it shows. *)
From Coq Require Import Reals Qreals DecimalString DecimalFacts DecimalPos DecimalN DecimalZ.
From Verif Require Import Base Model_Text Model_RationalFunction Spec_RationalFunction Proof_RationalFunction Proof_RFOptimal Model_Formula Spec_Formula Proof_Formula.
From Coq Require Import Lra.
Open Scope list_scope.

(** A text is accepted exactly when it is a formula with whole exponents, *)
Lemma parse_exact : forall s f, parse_formula s = Ret f <-> exists e, formula_text s e /\ rf_of e = Ret f.
Proof.
  intros s f. unfold parse_formula. split.
  - intro H. destruct (lex PNone s) as [ts|] eqn:L; [|discriminate]. cbn [bind] in H. destruct (read_tokens ts) as [e|] eqn:R; [|discriminate]. cbn [bind] in H.
    exists e. split; [|exact H]. exists ts. split; [exact (lex_sound s PNone ts [] eq_refl L)|now apply read_exact].
  - intros (e & (ts & T & W) & H). rewrite (lex_complete _ _ T). cbn [bind]. rewrite (proj2 (read_exact ts e) W). exact H.
Qed.

(** and the value is the value of the formula wherever that is defined. *)
Theorem parse_reads : forall s e, formula_text s e -> meaningful e ->
  exists f, parse_formula s = Ret f /\ forall x v, means e x v -> ~ has_pole f x /\ rfval f x = v.
Proof.
  intros s e T (x & v & M). destruct (rf_of_means _ _ _ M) as (f & Ef & _). exists f. split; [apply parse_exact; eauto|].
  intros y w M'. destruct (rf_of_means _ _ _ M') as (f' & Ef' & P & V). rewrite Ef in Ef'. injection Ef' as <-. auto.
Qed.
Print Assumptions parse_reads.
Theorem parse_only_formulas : forall s f, parse_formula s = Ret f ->
  exists e, formula_text s e /\ forall x v, means e x v -> ~ has_pole f x /\ rfval f x = v.
Proof.
  intros s f H. apply parse_exact in H as (e & T & Ef). exists e. split; [exact T|]. intros x v M. destruct (rf_of_means _ _ _ M) as (f' & Ef' & P & V). rewrite Ef in Ef'. injection Ef' as <-. auto.
Qed.
Print Assumptions parse_only_formulas.

(** No text is two formulas. *)
Theorem formula_text_unique : forall s e e', formula_text s e -> formula_text s e' -> e = e'.
Proof.
  intros s e e' (ts & T & W) (ts' & T' & W'). apply lex_complete in T, T'. rewrite T in T'. injection T' as <-. apply read_exact in W, W'. congruence.
Qed.
Print Assumptions formula_text_unique.

(** Text with a character that no formula has is rejected: in particular the
    LaTeX text of a rational function, with its backslashes and braces. *)
Definition formula_chars : str := s_of "0123456789.x+-*/() ".
Theorem parse_foreign_character : forall s c, In c s -> ~ In c formula_chars -> exists err, parse_formula s = Raise err.
Proof.
  intros s c I N. unfold parse_formula. destruct (lex PNone s) as [ts|err] eqn:L; [|exists err; reflexivity]. exfalso. revert I L. generalize PNone as p, ts as ts'. clear ts. induction s as [|a s IH]; intros p ts I L; [destruct I|].
  cbn [lex] in L. destruct (step p a) as [[t1 p']|] eqn:St; [|discriminate]. cbn [bind] in L. destruct (lex p' s) as [rest|] eqn:L'; [|discriminate].
  destruct I as [->|I]; [|exact (IH p' rest I L')]. unfold step in St. destruct (digit c) as [d|] eqn:D.
  - apply digit_ok in D as [_ D]. apply nth_error_In in D. apply N. unfold formula_chars. cbn in D |- *. tauto.
  - destruct (ascii_cases c) as [K|(C1 & C2 & C3 & C4 & C5 & C6 & C7 & C8 & C9)]; [|rewrite C1, C2, C3, C4, C5, C6, C7, C8, C9 in St; discriminate].
    apply N. unfold formula_chars. cbn. intuition.
Qed.
Print Assumptions parse_foreign_character.

(** ** Text made by programs *)
Lemma text_right : forall ts s, text ts s -> text (ts ++ [TRight]) (s ++ s_of ")").
Proof.
  induction 1 as [|ts s T IH|t w ts s Sp T IH En].
  - apply (text_token TRight (s_of ")") [] []); [constructor|constructor|exact Logic.I].
  - cbn [app]. now apply text_space.
  - rewrite <- app_assoc. cbn [app]. apply text_token; auto. destruct s as [|c s]; [|exact En].
    cbn. destruct t; auto; try discriminate.
    + intros d D. apply digit_ok in D. discriminate.
    + split; [intros d D; apply digit_ok in D; discriminate|discriminate].
Qed.
(** [f"3 * ({expr})"], zero_density_energy_estimate.py 160: three times the function. *)
Theorem parse_three_times : forall s f, parse_formula s = Ret f ->
  exists g, parse_formula (s_of "3 * (" ++ s ++ s_of ")") = Ret g /\ forall x, (has_pole g x <-> has_pole f x) /\ (rfval g x = 3 * rfval f x)%R.
Proof.
  intros s f H. apply parse_exact in H as (e & (ts & T & W) & Ef).
  exists (rf_mul (const (inject_Z 3)) (ORat f)). split.
  - apply parse_exact. exists (FMul (FNum (inject_Z 3)) e). split; [|cbn [rf_of]; rewrite Ef; reflexivity].
    exists (TNum (inject_Z 3) :: TTimes :: TLeft :: ts ++ [TRight]). split.
    + apply (text_token _ (s_of "3")); [apply spells_whole, whole_digit; split; [lia|reflexivity]| |cbn; intros d D; apply digit_ok in D; discriminate].
      apply text_space. apply (text_token _ (s_of "*")); [constructor| |cbn; discriminate]. apply text_space. apply (text_token _ (s_of "(")); [constructor| |destruct (s ++ s_of ")"); exact Logic.I].
      now apply text_right.
    + apply w_term. apply (w_mul _ _ [TNum (inject_Z 3)]); [apply w_factor, w_atom, w_num|]. now apply w_atom, w_parens.
  - intro x. unfold has_pole, rfval. cbn [rf_mul const num den reval]. rewrite Q2R_1, Rmult_1_l. split; [tauto|]. replace (Q2R (inject_Z 3)) with 3%R by (unfold Q2R, inject_Z; cbn; lra). unfold Rdiv. ring.
Qed.
Print Assumptions parse_three_times.

(** Numbers as Python prints them. *)
Lemma whole_uint : forall u w p, whole w (Zpos p) -> whole (w ++ s_of (NilEmpty.string_of_uint u)) (Zpos (Pos.of_uint_acc u p)).
Proof.
  assert (X : forall u w p c d, whole w (Zpos p) -> is_digit c d -> (forall w' p', whole w' (Zpos p') -> whole (w' ++ s_of (NilEmpty.string_of_uint u)) (Zpos (Pos.of_uint_acc u p'))) ->
    forall p', Zpos p' = (10 * Zpos p + d)%Z -> whole (w ++ c :: s_of (NilEmpty.string_of_uint u)) (Zpos (Pos.of_uint_acc u p'))).
  { intros u w p c d W D IH p' Eq. replace (w ++ c :: s_of (NilEmpty.string_of_uint u)) with ((w ++ [c]) ++ s_of (NilEmpty.string_of_uint u)) by (now rewrite <- app_assoc).
    apply IH. rewrite Eq. apply whole_more; auto. left. discriminate. }
  induction u; intros w p W; [cbn; now rewrite app_nil_r|..].
  - apply (X u w p "0"%char 0%Z); auto; first [split; [lia|reflexivity]|lia|reflexivity].
  - apply (X u w p "1"%char 1%Z); auto; first [split; [lia|reflexivity]|lia|reflexivity].
  - apply (X u w p "2"%char 2%Z); auto; first [split; [lia|reflexivity]|lia|reflexivity].
  - apply (X u w p "3"%char 3%Z); auto; first [split; [lia|reflexivity]|lia|reflexivity].
  - apply (X u w p "4"%char 4%Z); auto; first [split; [lia|reflexivity]|lia|reflexivity].
  - apply (X u w p "5"%char 5%Z); auto; first [split; [lia|reflexivity]|lia|reflexivity].
  - apply (X u w p "6"%char 6%Z); auto; first [split; [lia|reflexivity]|lia|reflexivity].
  - apply (X u w p "7"%char 7%Z); auto; first [split; [lia|reflexivity]|lia|reflexivity].
  - apply (X u w p "8"%char 8%Z); auto; first [split; [lia|reflexivity]|lia|reflexivity].
  - apply (X u w p "9"%char 9%Z); auto; first [split; [lia|reflexivity]|lia|reflexivity].
Qed.
Lemma to_uint_head : forall p u, Pos.to_uint p <> Decimal.D0 u.
Proof.
  intros p u H. pose proof (DecimalN.Unsigned.to_of (N.to_uint (N.pos p))) as K. rewrite DecimalN.Unsigned.of_to in K. change (N.to_uint (N.pos p)) with (Pos.to_uint p) in K. rewrite H in K.
  unfold Decimal.unorm in K. cbn [Decimal.nzhead] in K. destruct (Decimal.nzhead u) as [| | | | | | | | | |] eqn:Z; try discriminate.
  - injection K as ->. assert (C : N.of_uint (N.to_uint (N.pos p)) = N.pos p) by apply DecimalN.Unsigned.of_to. change (N.to_uint (N.pos p)) with (Pos.to_uint p) in C. rewrite H in C. discriminate.
  - injection K as <-. exact (DecimalFacts.nzhead_nonzero _ _ Z).
Qed.
Lemma whole_z_str : forall n, (0 <= n)%Z -> whole (z_str n) n.
Proof.
  intros [|p|p] P; [apply whole_digit; split; [lia|reflexivity]| |lia]. unfold z_str. change (Z.to_int (Z.pos p)) with (Decimal.Pos (Pos.to_uint p)). cbn [NilZero.string_of_int].
  pose proof (DecimalPos.Unsigned.of_to p) as V. pose proof (to_uint_head p) as H. fold (s_of (NilZero.string_of_uint (Pos.to_uint p))).
  assert (X : forall c d u q, is_digit c d -> d = Zpos q -> N.pos (Pos.of_uint_acc u q) = N.pos p -> whole (c :: s_of (NilEmpty.string_of_uint u)) (Z.pos p)).
  { intros c d u q D -> Eq. injection Eq as <-. apply (whole_uint u [c] q). now apply whole_digit. }
  destruct (Pos.to_uint p) as [|u|u|u|u|u|u|u|u|u|u]; cbn [Pos.of_uint] in V.
  - discriminate.
  - destruct (H u eq_refl).
  - apply (X "1"%char 1%Z u 1%positive); auto. split; [lia|reflexivity].
  - apply (X "2"%char 2%Z u 2%positive); auto. split; [lia|reflexivity].
  - apply (X "3"%char 3%Z u 3%positive); auto. split; [lia|reflexivity].
  - apply (X "4"%char 4%Z u 4%positive); auto. split; [lia|reflexivity].
  - apply (X "5"%char 5%Z u 5%positive); auto. split; [lia|reflexivity].
  - apply (X "6"%char 6%Z u 6%positive); auto. split; [lia|reflexivity].
  - apply (X "7"%char 7%Z u 7%positive); auto. split; [lia|reflexivity].
  - apply (X "8"%char 8%Z u 8%positive); auto. split; [lia|reflexivity].
  - apply (X "9"%char 9%Z u 9%positive); auto. split; [lia|reflexivity].
Qed.
(** A printed number as tokens: a negative one has a sign in front. *)
Definition number_tokens (n : Z) : list token := if (0 <=? n)%Z then [TNum (inject_Z n)] else [TMinus; TNum (inject_Z (- n))].
Lemma text_number : forall n ts s, text ts s -> (forall q, ends (TNum q) s) -> text (number_tokens n ++ ts) (z_str n ++ s).
Proof.
  intros n ts s T En. unfold number_tokens. destruct (0 <=? n)%Z eqn:P.
  - apply Z.leb_le in P. apply text_token; auto. apply spells_whole. now apply whole_z_str.
  - destruct n as [|p|p]; try discriminate. change (z_str (Z.neg p)) with ("-"%char :: z_str (Z.pos p)). apply (text_token TMinus (s_of "-") (TNum (inject_Z (Z.pos p)) :: ts) (z_str (Z.pos p) ++ s)); [exact spells_minus| |destruct (z_str (Z.pos p) ++ s); exact Logic.I].
    apply text_token; auto. apply spells_whole. now apply whole_z_str.
Qed.
Definition number_formula (n : Z) : formula := if (0 <=? n)%Z then FNum (inject_Z n) else FNeg (FNum (inject_Z (- n))).
Lemma written_number : forall n, written Factor (number_formula n) (number_tokens n).
Proof. intro n. unfold number_formula, number_tokens. destruct (0 <=? n)%Z; [apply w_atom, w_num|apply w_neg, w_atom, w_num]. Qed.
Lemma means_number : forall n x, means (number_formula n) x (IZR n).
Proof.
  assert (V : forall n, Q2R (inject_Z n) = IZR n) by (intro; unfold Q2R, inject_Z; cbn; lra).
  intros n x. unfold number_formula. destruct (0 <=? n)%Z; [rewrite <- V; constructor|]. replace (IZR n) with (- Q2R (inject_Z (- n)))%R by (rewrite V, opp_IZR; lra). repeat constructor.
Qed.
Lemma not_digit : forall c, digit c = None -> forall q s, ends (TNum q) (c :: s).
Proof. intros c D q s. exact (proj1 (digit_none c) D). Qed.

Ltac number_end := let q := fresh in intro q; cbn [ends s_of app]; refine (proj1 (digit_none _) _); reflexivity.

(** [f"{3*k}/({3*k-2} * x + {2-k})"], literature.py 1266, is read as 3k / ((3k-2) x + 2-k). *)
Theorem ivic_text_read : forall k, exists f,
  parse_formula (z_str (3 * k) ++ s_of "/(" ++ z_str (3 * k - 2) ++ s_of " * x + " ++ z_str (2 - k) ++ s_of ")") = Ret f /\
  forall x, (IZR (3 * k - 2) * x + IZR (2 - k) <> 0 -> ~ has_pole f x /\ rfval f x = IZR (3 * k) / (IZR (3 * k - 2) * x + IZR (2 - k)))%R.
Proof.
  intro k. set (e := FDiv (number_formula (3 * k)) (FAdd (FMul (number_formula (3 * k - 2)) FX) (number_formula (2 - k)))).
  assert (M : forall x, (IZR (3 * k - 2) * x + IZR (2 - k) <> 0)%R -> means e x (IZR (3 * k) / (IZR (3 * k - 2) * x + IZR (2 - k)))%R).
  { intros x N. apply m_div; auto using means_number. repeat constructor; apply means_number. }
  assert (T : formula_text (z_str (3 * k) ++ s_of "/(" ++ z_str (3 * k - 2) ++ s_of " * x + " ++ z_str (2 - k) ++ s_of ")") e).
  { exists (number_tokens (3 * k) ++ TDiv :: TLeft :: (number_tokens (3 * k - 2) ++ TTimes :: [TX]) ++ TPlus :: number_tokens (2 - k) ++ [TRight]). split.
    - apply text_number; [|number_end]. apply (text_token TDiv (s_of "/")); [exact spells_div| |exact Logic.I]. apply (text_token TLeft (s_of "(")); [exact spells_left| |destruct (z_str (3 * k - 2) ++ s_of " * x + " ++ z_str (2 - k) ++ s_of ")"); exact Logic.I].
      rewrite <- app_assoc. apply text_number; [|number_end]. apply text_space. apply (text_token TTimes (s_of "*")); [exact spells_times| |cbn; discriminate]. apply text_space.
      apply (text_token TX (s_of "x")); [exact spells_x| |split; [apply (proj1 (digit_none _)); reflexivity|discriminate]]. apply text_space. apply (text_token TPlus (s_of "+")); [exact spells_plus| |exact Logic.I]. apply text_space.
      apply text_number; [|number_end]. apply (text_token TRight (s_of ")") [] []); [exact spells_right|constructor|exact Logic.I].
    - apply w_term. apply w_div; [apply w_factor, written_number|]. apply w_atom.
      replace (TLeft :: (number_tokens (3 * k - 2) ++ [TTimes; TX]) ++ TPlus :: number_tokens (2 - k) ++ [TRight])
        with (TLeft :: ((number_tokens (3 * k - 2) ++ [TTimes; TX]) ++ TPlus :: number_tokens (2 - k)) ++ [TRight]) by (now rewrite <- !app_assoc).
      apply w_parens, w_add; [apply w_term, w_mul|apply w_factor]; auto using written_number. apply w_factor, written_number. apply w_atom, w_x. }
  assert (N : exists x, (IZR (3 * k - 2) * x + IZR (2 - k) <> 0)%R).
  { destruct (Z.eq_dec k 2) as [->|N2]; [exists 1%R; cbn; lra|]. exists 0%R. rewrite Rmult_0_r, Rplus_0_l. apply not_0_IZR. lia. }
  destruct N as (x0 & N). destruct (parse_reads _ e T (ex_intro _ x0 (ex_intro _ _ (M x0 N)))) as (f & Ef & V). exists f. split; [exact Ef|]. intros x Nx. apply V, M, Nx.
Qed.
Print Assumptions ivic_text_read.

(** [f"{3*m}/({3*m-2}x + {2-m})"], zero_density_estimate.py 555, is not a formula:
    the product sign is missing, and the text is rejected for every m. *)
Theorem ivic_text_rejected : forall m, parse_formula (z_str (3 * m) ++ s_of "/(" ++ z_str (3 * m - 2) ++ s_of "x + " ++ z_str (2 - m) ++ s_of ")") = Raise SyntaxError.
Proof.
  intro m. assert (T : text (number_tokens (3 * m) ++ TDiv :: TLeft :: number_tokens (3 * m - 2) ++ TX :: TPlus :: number_tokens (2 - m) ++ [TRight])
    (z_str (3 * m) ++ s_of "/(" ++ z_str (3 * m - 2) ++ s_of "x + " ++ z_str (2 - m) ++ s_of ")")).
  { apply text_number; [|number_end]. apply (text_token TDiv (s_of "/")); [exact spells_div| |exact Logic.I]. apply (text_token TLeft (s_of "(")); [exact spells_left| |destruct (z_str (3 * m - 2) ++ s_of "x + " ++ z_str (2 - m) ++ s_of ")"); exact Logic.I].
    apply text_number; [|number_end]. apply (text_token TX (s_of "x")); [exact spells_x| |split; [apply (proj1 (digit_none _)); reflexivity|discriminate]]. apply text_space. apply (text_token TPlus (s_of "+")); [exact spells_plus| |exact Logic.I]. apply text_space.
    apply text_number; [|number_end]. apply (text_token TRight (s_of ")") [] []); [exact spells_right|constructor|exact Logic.I]. }
  unfold parse_formula. rewrite (lex_complete _ _ T). cbn [bind]. unfold number_tokens.
  destruct (0 <=? 3 * m)%Z; destruct (0 <=? 3 * m - 2)%Z; destruct (0 <=? 2 - m)%Z; reflexivity.
Qed.
Print Assumptions ivic_text_rejected.

(** ** Examples: three formulas of literature.py 1105, 1274 and 1331. *)
Example ex_ingham : exists f, parse_formula (s_of "3/(2 - x)") = Ret f /\ exists v, rf_at f (1#2) = Ret v /\ v == 2.
Proof. eexists. split; [vm_compute; reflexivity|]. eexists. split; vm_compute; reflexivity. Qed.
Example ex_conrey : match parse_formula (s_of "(1 + (1 - 2 * x) * 4/7) / (1 - x)") with Ret f => exists v, rf_at f (3#4) = Ret v /\ v == 20#7 | _ => False end.
Proof. vm_compute. eexists. split; reflexivity. Qed.
Example ex_signs : match parse_formula (s_of "-2**2 - -x**-1*0.50") with Ret f => exists v, rf_at f (1#4) = Ret v /\ v == - (2) | _ => False end.
Proof. vm_compute. eexists. split; reflexivity. Qed.
Example ex_rejected : parse_formula (s_of "2x") = Raise SyntaxError /\ parse_formula (s_of "\frac{3}{2 - x}") = Raise SyntaxError /\ parse_formula (s_of "3 +") = Raise SyntaxError.
Proof. repeat split. Qed.
