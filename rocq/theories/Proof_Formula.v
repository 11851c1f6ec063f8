(** Proofs about reading formulas. *)
From Coq Require Import Reals Qreals.
From Verif Require Import Base Model_Text Model_RationalFunction Spec_RationalFunction Proof_RationalFunction Proof_RFOptimal Model_Formula Spec_Formula.
From Coq Require Qcanon.
From Coq Require Import Lra.
Open Scope list_scope.

(** ** Tokens *)
Lemma digit_ok : forall c d, digit c = Some d <-> is_digit c d.
Proof.
  intros c d. split.
  - destruct c as [[] [] [] [] [] [] [] []]; intro H; try discriminate H; vm_compute in H; injection H as <-; (split; [lia|reflexivity]).
  - intros [P H]. assert (L : (Z.to_nat d < 10)%nat) by (change 10%nat with (List.length (s_of "0123456789")); apply nth_error_Some; rewrite H; discriminate).
    replace d with (Z.of_nat (Z.to_nat d)) by (rewrite Z2Nat.id; auto). destruct (Z.to_nat d) as [|[|[|[|[|[|[|[|[|[|k]]]]]]]]]]; cbn in H; try (injection H as <-; reflexivity). lia.
Qed.
Lemma digit_none : forall c, digit c = None <-> forall d, ~ is_digit c d.
Proof.
  intro c. split.
  - intros H d K. apply digit_ok in K. congruence.
  - intro H. destruct (digit c) eqn:D; [|reflexivity]. apply digit_ok in D. destruct (H _ D).
Qed.

Definition pend (p : pending) (w : str) : Prop :=
  match p with
  | PNone => w = []
  | PInt n => whole w n
  | PFrac n s => decimal w n s
  | PStar => w = s_of "*"
  | PName => w = s_of "x"
  end.
Definition ends_p (p : pending) (s : str) : Prop := forall t, In t (flush p) -> ends t s.

Lemma flush_text : forall p w ts s, pend p w -> text ts s -> ends_p p s -> text (flush p ++ ts) (w ++ s).
Proof.
  intros p w ts s P T En. destruct p; cbn [pend flush app] in *.
  - now subst w.
  - apply text_token; auto using spells. apply En. now left.
  - apply text_token; auto using spells. apply En. now left.
  - subst w. apply text_token; auto using spells. apply En. now left.
  - subst w. apply text_token; auto using spells. apply En. now left.
Qed.
Lemma ends_none : forall p c s, digit c = None -> c <> "*"%char -> c <> "x"%char -> ends_p p (c :: s).
Proof. intros p c s D S X t I. pose proof (proj1 (digit_none c) D) as D'. destruct p; cbn in I; intuition subst; cbn; auto. Qed.
Lemma ends_nil : forall p, ends_p p [].
Proof. intros p t _. exact Logic.I. Qed.
Lemma ascii_cases : forall c,
  (c = "."%char \/ c = "*"%char \/ c = "x"%char \/ c = " "%char \/ c = "+"%char \/ c = "-"%char \/ c = "/"%char \/ c = "("%char \/ c = ")"%char) \/
  (c =? ".")%char = false /\ (c =? "*")%char = false /\ (c =? "x")%char = false /\ (c =? " ")%char = false /\ (c =? "+")%char = false /\
  (c =? "-")%char = false /\ (c =? "/")%char = false /\ (c =? "(")%char = false /\ (c =? ")")%char = false.
Proof.
  intro c. destruct (c =? ".")%char eqn:E1; [apply Ascii.eqb_eq in E1; tauto|]. destruct (c =? "*")%char eqn:E2; [apply Ascii.eqb_eq in E2; tauto|].
  destruct (c =? "x")%char eqn:E3; [apply Ascii.eqb_eq in E3; tauto|]. destruct (c =? " ")%char eqn:E4; [apply Ascii.eqb_eq in E4; tauto|].
  destruct (c =? "+")%char eqn:E5; [apply Ascii.eqb_eq in E5; tauto|]. destruct (c =? "-")%char eqn:E6; [apply Ascii.eqb_eq in E6; tauto|].
  destruct (c =? "/")%char eqn:E7; [apply Ascii.eqb_eq in E7; tauto|]. destruct (c =? "(")%char eqn:E8; [apply Ascii.eqb_eq in E8; tauto|].
  destruct (c =? ")")%char eqn:E9; [apply Ascii.eqb_eq in E9; tauto|]. right. repeat split.
Qed.

Lemma lex_sound : forall s p ts w, pend p w -> lex p s = Ret ts -> text ts (w ++ s).
Proof.
  induction s as [|c s IH]; intros p ts w P H.
  - cbn in H. injection H as <-. rewrite <- (app_nil_r (flush p)). apply flush_text; auto using text_end, ends_nil.
  - cbn [lex] in H. destruct (step p c) as [[t1 p']|] eqn:St; [|discriminate]. cbn [bind] in H. destruct (lex p' s) as [rest|] eqn:L; [|discriminate]. cbn [bind] in H. injection H as <-.
    assert (AP : forall w' : str, w' ++ c :: s = (w' ++ [c]) ++ s) by (intro; now rewrite <- app_assoc).
    assert (OP : forall t, t1 = flush p ++ [t] -> p' = PNone -> spells t [c] -> t <> TX -> t <> TTimes -> (forall q, t <> TNum q) -> digit c = None -> c <> "*"%char -> c <> "x"%char -> text (t1 ++ rest) (w ++ c :: s)).
    { intros t -> -> Sp N1 N2 N3 D C1 C2. rewrite <- app_assoc. apply flush_text; auto using ends_none. cbn [app]. apply (text_token t [c] rest s Sp); [exact (IH PNone rest [] eq_refl L)|].
      destruct s; [exact Logic.I|]. destruct t; cbn; auto; congruence. }
    unfold step in St. destruct (digit c) as [d|] eqn:D.
    + pose proof D as D'. apply digit_ok in D'. destruct p as [|n|n sc| |].
      * injection St as <- <-. cbn in P. subst w. cbn [flush app]. apply (IH (PInt d) rest [c]); [now apply whole_digit|exact L].
      * destruct (n =? 0)%Z eqn:Z1; destruct (d =? 0)%Z eqn:Z2; cbn [andb negb] in St; try discriminate; injection St as <- <-; rewrite AP; cbn [app]; apply (IH _ rest (w ++ [c])) in L; auto; cbn [pend];
          apply whole_more; auto; lia.
      * injection St as <- <-. rewrite AP. cbn [app]. apply (IH _ rest (w ++ [c])) in L; auto. now apply decimal_more.
      * injection St as <- <-. apply (flush_text PStar); [exact P|apply (IH (PInt d) rest [c]); [now apply whole_digit|exact L]|]. intros t [<-|[]]. cbn. intros ->. discriminate.
      * discriminate.
    + destruct (ascii_cases c) as [K|(C1 & C2 & C3 & C4 & C5 & C6 & C7 & C8 & C9)]; [|rewrite C1, C2, C3, C4, C5, C6, C7, C8, C9 in St; discriminate].
      destruct K as [->|[->|[->|[->|[->|[->|[->|[->| ->]]]]]]]]; cbn [Ascii.eqb Bool.eqb] in St.
      * destruct p; try discriminate. injection St as <- <-. rewrite AP. cbn [app]. apply (IH _ rest (w ++ ["."%char])) in L; auto. now apply decimal_point.
      * assert (G : p <> PStar -> t1 = flush p -> p' = PStar -> text (t1 ++ rest) (w ++ "*"%char :: s)).
        { intros N -> ->. apply flush_text; [exact P|exact (IH PStar rest (s_of "*") eq_refl L)|]. intros t It. destruct p; cbn in It; intuition subst; cbn; auto; try (split; [|discriminate]); exact (proj1 (digit_none _) D). }
        destruct p; try (injection St as <- <-; apply G; [discriminate|reflexivity|reflexivity]). injection St as <- <-. cbn in P. subst w.
        change (text ([TPow] ++ rest) (s_of "**" ++ s)). apply text_token; [constructor|exact (IH PNone rest [] eq_refl L)|]. destruct s; exact Logic.I.
      * assert (G : p <> PName -> t1 = flush p -> p' = PName -> text (t1 ++ rest) (w ++ "x"%char :: s)).
        { intros N -> ->. apply flush_text; [exact P|exact (IH PName rest (s_of "x") eq_refl L)|]. intros t It. destruct p; cbn in It; intuition subst; cbn; auto; try discriminate; exact (proj1 (digit_none _) D). }
        destruct p; try (injection St as <- <-; apply G; [discriminate|reflexivity|reflexivity]). discriminate.
      * injection St as <- <-. apply flush_text; [exact P|apply text_space; exact (IH PNone rest [] eq_refl L)|]. apply ends_none; auto; discriminate.
      * injection St as <- <-. apply (OP TPlus); auto using spells; try discriminate.
      * injection St as <- <-. apply (OP TMinus); auto using spells; try discriminate.
      * injection St as <- <-. apply (OP TDiv); auto using spells; try discriminate.
      * injection St as <- <-. apply (OP TLeft); auto using spells; try discriminate.
      * injection St as <- <-. apply (OP TRight); auto using spells; try discriminate.
Qed.

Lemma bind_nil : forall r : res (list token), (let! rest := r in Ret ([] ++ rest)) = r.
Proof. destruct r; reflexivity. Qed.
Lemma step_digit : forall p c d s, digit c = Some d -> lex p (c :: s) =
  match p with
  | PInt n => if (n =? 0)%Z && negb (d =? 0)%Z then Raise SyntaxError else lex (PInt (10 * n + d)) s
  | PFrac n sc => lex (PFrac (10 * n + d) (10 * sc)) s
  | PName => Raise SyntaxError
  | _ => let! rest := lex (PInt d) s in Ret (flush p ++ rest)
  end.
Proof.
  intros p c d s D. cbn [lex]. unfold step. rewrite D. destruct p; cbn [bind]; auto; [|apply bind_nil]. destruct ((n =? 0)%Z && negb (d =? 0)%Z); cbn [bind]; [reflexivity|apply bind_nil].
Qed.
Lemma eat_whole : forall w n, whole w n -> forall s, lex PNone (w ++ s) = lex (PInt n) s.
Proof.
  induction 1 as [c d D|w n c d W IH D Z0]; intro s.
  - cbn [app]. rewrite (step_digit _ _ d) by now apply digit_ok. cbn [flush]. apply bind_nil.
  - rewrite <- app_assoc. rewrite IH. cbn [app]. rewrite (step_digit _ _ d) by now apply digit_ok.
    destruct (n =? 0)%Z eqn:Z1; destruct (d =? 0)%Z eqn:Z2; cbn [andb negb]; auto. lia.
Qed.
Lemma eat_decimal : forall w n k, decimal w n k -> forall s, lex PNone (w ++ s) = lex (PFrac n k) s.
Proof.
  induction 1 as [w n W|w n k c d W IH D]; intro s; rewrite <- app_assoc.
  - rewrite (eat_whole _ _ W). cbn [app lex]. unfold step. cbn [digit N_of_ascii]. change (digit ".") with (@None Z). cbn [bind Ascii.eqb Bool.eqb]. apply bind_nil.
  - rewrite IH. cbn [app]. now rewrite (step_digit _ _ d) by now apply digit_ok.
Qed.
Lemma lex_flush : forall p s ts, lex PNone s = Ret ts -> ends_p p s -> lex p s = Ret (flush p ++ ts).
Proof.
  intros p s ts H En. destruct s as [|c s]; [cbn in *; injection H as <-; now rewrite app_nil_r|].
  destruct (digit c) as [d|] eqn:D.
  - rewrite (step_digit _ _ _ _ D). rewrite (step_digit _ _ _ _ D) in H. cbn [flush] in H. rewrite bind_nil in H. pose proof D as D'. apply digit_ok in D'.
    destruct p; cbn [flush]; rewrite ?H; try reflexivity.
    + destruct (En (TNum (inject_Z n)) (or_introl eq_refl) d D').
    + destruct (En (TNum (n # scale)) (or_introl eq_refl) d D').
    + destruct (proj1 (En TX (or_introl eq_refl)) d D').
  - cbn [lex] in *. unfold step in *. rewrite D in *.
    destruct (ascii_cases c) as [K|(C1 & C2 & C3 & C4 & C5 & C6 & C7 & C8 & C9)]; [|rewrite C1, C2, C3, C4, C5, C6, C7, C8, C9 in H; cbn in H; discriminate H].
    destruct K as [->|[->|[->|[->|[->|[->|[->|[->| ->]]]]]]]]; cbn [Ascii.eqb Bool.eqb] in *.
    + cbn in H. discriminate H.
    + cbn [bind flush] in H. destruct (lex PStar s) as [rest|] eqn:L; cbn in H; [|discriminate H]. injection H as <-.
      destruct p; try (cbn [bind]; rewrite L; reflexivity). destruct (En TTimes (or_introl eq_refl) eq_refl).
    + cbn [bind flush] in H. destruct (lex PName s) as [rest|] eqn:L; cbn in H; [|discriminate H]. injection H as <-.
      destruct p; try (cbn [bind]; rewrite L; reflexivity). destruct (proj2 (En TX (or_introl eq_refl)) eq_refl).
    + cbn [bind flush app] in *. destruct (lex PNone s) as [rest|] eqn:L; cbn in H; [|discriminate H]. injection H as <-. reflexivity.
    + cbn [bind flush app] in *. destruct (lex PNone s) as [rest|] eqn:L; cbn in H; [|discriminate H]. injection H as <-. cbn [bind]. now rewrite <- app_assoc.
    + cbn [bind flush app] in *. destruct (lex PNone s) as [rest|] eqn:L; cbn in H; [|discriminate H]. injection H as <-. cbn [bind]. now rewrite <- app_assoc.
    + cbn [bind flush app] in *. destruct (lex PNone s) as [rest|] eqn:L; cbn in H; [|discriminate H]. injection H as <-. cbn [bind]. now rewrite <- app_assoc.
    + cbn [bind flush app] in *. destruct (lex PNone s) as [rest|] eqn:L; cbn in H; [|discriminate H]. injection H as <-. cbn [bind]. now rewrite <- app_assoc.
    + cbn [bind flush app] in *. destruct (lex PNone s) as [rest|] eqn:L; cbn in H; [|discriminate H]. injection H as <-. cbn [bind]. now rewrite <- app_assoc.
Qed.
Lemma lex_complete : forall ts s, text ts s -> lex PNone s = Ret ts.
Proof.
  induction 1 as [|ts s T IH|t w ts s Sp T IH En].
  - reflexivity.
  - cbn. now rewrite IH.
  - destruct Sp; cbn [s_of list_ascii_of_string app].
    + rewrite (eat_whole _ _ H). apply (lex_flush (PInt n)); auto. intros t [<-|[]]. exact En.
    + rewrite (eat_decimal _ _ _ H). apply (lex_flush (PFrac n s0)); auto. intros t [<-|[]]. exact En.
    + cbn [lex]. unfold step. change (digit "x") with (@None Z). cbn [Ascii.eqb Bool.eqb bind flush app]. rewrite (lex_flush PName s ts IH); [reflexivity|]. intros t [<-|[]]. exact En.
    + cbn. now rewrite IH.
    + cbn. now rewrite IH.
    + cbn [lex]. unfold step. change (digit "*") with (@None Z). cbn [Ascii.eqb Bool.eqb bind flush app]. rewrite (lex_flush PStar s ts IH); [reflexivity|]. intros t [<-|[]]. exact En.
    + cbn. now rewrite IH.
    + cbn. now rewrite IH.
    + cbn. now rewrite IH.
    + cbn. now rewrite IH.
Qed.

(** ** Syntax *)
Lemma written_nonempty : forall L e ts, written L e ts -> (1 <= List.length ts)%nat.
Proof. induction 1; cbn; rewrite ?app_length; cbn; lia. Qed.

Definition no_pow (ts : list token) : Prop := match ts with TPow :: _ => False | _ => True end.
Definition no_times (ts : list token) : Prop := match ts with TPow :: _ | TTimes :: _ | TDiv :: _ => False | _ => True end.
Definition no_sum (ts : list token) : Prop := match ts with TPow :: _ | TTimes :: _ | TDiv :: _ | TPlus :: _ | TMinus :: _ => False | _ => True end.
Lemma no_times_pow : forall ts, no_times ts -> no_pow ts.
Proof. destruct ts as [|[] ?]; cbn; tauto. Qed.
Lemma no_sum_times : forall ts, no_sum ts -> no_times ts.
Proof. destruct ts as [|[] ?]; cbn; tauto. Qed.
Lemma term_stops : forall m e ts, no_times ts -> p_term_more (S m) e ts = Ret (e, ts).
Proof. intros m e ts. destruct ts as [|[] ?]; cbn; tauto. Qed.
Lemma sum_stops : forall m e ts, no_sum ts -> p_sum_more (S m) e ts = Ret (e, ts).
Proof. intros m e ts. destruct ts as [|[] ?]; cbn; tauto. Qed.

Lemma atom_head : forall e ts, written Atom e ts -> match ts with TNum _ :: _ | TX :: _ | TLeft :: _ => True | _ => False end.
Proof. intros e ts H. inversion H; cbn; auto. Qed.
Lemma factor_of_atom : forall n e ts rest, written Atom e ts -> p_factor (S n) (ts ++ rest) =
  (let! (a, ts) := p_atom n (ts ++ rest) in match ts with TPow :: ts => let! (b, ts) := p_factor n ts in Ret (FPow a b, ts) | _ => Ret (a, ts) end).
Proof. intros n e ts rest H. apply atom_head in H. destruct ts as [|[] ts]; try destruct H; reflexivity. Qed.

Definition completeness (L : level) (e : formula) (ts : list token) : Prop :=
  let k := List.length ts in
  match L with
  | Atom => forall n rest, (8 * k <= n)%nat -> p_atom n (ts ++ rest) = Ret (e, rest)
  | Factor => forall n rest, (8 * k + 1 <= n)%nat -> no_pow rest -> p_factor n (ts ++ rest) = Ret (e, rest)
  | Term => forall n rest, (8 * k + 3 <= n)%nat -> no_pow rest -> exists m, (n <= m + k + 1)%nat /\ p_term n (ts ++ rest) = p_term_more m e rest
  | Sum => forall n rest, (8 * k + 5 <= n)%nat -> no_times rest -> exists m, (n <= m + k + 1)%nat /\ p_sum n (ts ++ rest) = p_sum_more m e rest
  end.
Lemma term_done : forall e ts, completeness Term e ts -> forall n rest, (8 * List.length ts + 3 <= n)%nat -> no_times rest -> p_term n (ts ++ rest) = Ret (e, rest).
Proof.
  intros e ts C n rest L N. destruct (C n rest L (no_times_pow _ N)) as (m & Lm & ->). destruct m; [lia|]. now apply term_stops.
Qed.
Lemma written_complete : forall L e ts, written L e ts -> completeness L e ts.
Proof.
  induction 1 as [q| |a ts W IH|a ts W IH|a b t1 t2 W1 IH1 W2 IH2|a ts W IH|a ts W IH|a ts W IH|a b t1 t2 W1 IH1 W2 IH2|a b t1 t2 W1 IH1 W2 IH2|a ts W IH|a b t1 t2 W1 IH1 W2 IH2|a b t1 t2 W1 IH1 W2 IH2];
    unfold completeness in *; cbn [List.length]; rewrite ?app_length; cbn [List.length].
  - intros n rest L. destruct n; [lia|]. reflexivity.
  - intros n rest L. destruct n; [lia|]. reflexivity.
  - intros n rest L. destruct n; [lia|]. cbn [app p_atom]. rewrite <- app_assoc. cbn [app]. destruct (IH n (TRight :: rest) ltac:(lia) Logic.I) as (m & Lm & ->). destruct m; [lia|].
    rewrite sum_stops by exact Logic.I. reflexivity.
  - intros n rest L N. destruct n; [lia|]. rewrite (factor_of_atom n a ts rest W), IH by lia. cbn [bind]. destruct rest as [|[] ?]; try reflexivity. destruct N.
  - intros n rest L N. destruct n; [lia|]. rewrite <- app_assoc. cbn [app]. rewrite (factor_of_atom n a t1 _ W1), IH1 by lia. cbn [bind]. rewrite IH2 by (auto; lia). reflexivity.
  - intros n rest L N. destruct n; [lia|]. cbn [app p_factor]. rewrite IH by (auto; lia). reflexivity.
  - intros n rest L N. destruct n; [lia|]. cbn [app p_factor]. rewrite IH by (auto; lia). reflexivity.
  - intros n rest L N. destruct n; [lia|]. exists n. split; [lia|]. cbn [p_term]. rewrite IH by (auto; lia). reflexivity.
  - intros n rest L N. rewrite <- app_assoc. cbn [app]. destruct (IH1 n (TTimes :: t2 ++ rest) ltac:(lia) Logic.I) as (m & Lm & ->). destruct m; [lia|]. exists m. split; [lia|].
    cbn [p_term_more]. rewrite IH2 by (auto; lia). reflexivity.
  - intros n rest L N. rewrite <- app_assoc. cbn [app]. destruct (IH1 n (TDiv :: t2 ++ rest) ltac:(lia) Logic.I) as (m & Lm & ->). destruct m; [lia|]. exists m. split; [lia|].
    cbn [p_term_more]. rewrite IH2 by (auto; lia). reflexivity.
  - intros n rest L N. destruct n; [lia|]. exists n. split; [lia|]. cbn [p_sum]. rewrite (term_done a ts IH) by (auto; lia). reflexivity.
  - intros n rest L N. rewrite <- app_assoc. cbn [app]. destruct (IH1 n (TPlus :: t2 ++ rest) ltac:(lia) Logic.I) as (m & Lm & ->). destruct m; [lia|]. exists m. split; [lia|].
    cbn [p_sum_more]. rewrite (term_done b t2 IH2) by (auto; lia). reflexivity.
  - intros n rest L N. rewrite <- app_assoc. cbn [app]. destruct (IH1 n (TMinus :: t2 ++ rest) ltac:(lia) Logic.I) as (m & Lm & ->). destruct m; [lia|]. exists m. split; [lia|].
    cbn [p_sum_more]. rewrite (term_done b t2 IH2) by (auto; lia). reflexivity.
Qed.

Lemma parsers_sound : forall n,
  (forall ts e rest, p_sum n ts = Ret (e, rest) -> exists t, ts = t ++ rest /\ written Sum e t) /\
  (forall a t0 ts e rest, p_sum_more n a ts = Ret (e, rest) -> written Sum a t0 -> exists t, ts = t ++ rest /\ written Sum e (t0 ++ t)) /\
  (forall ts e rest, p_term n ts = Ret (e, rest) -> exists t, ts = t ++ rest /\ written Term e t) /\
  (forall a t0 ts e rest, p_term_more n a ts = Ret (e, rest) -> written Term a t0 -> exists t, ts = t ++ rest /\ written Term e (t0 ++ t)) /\
  (forall ts e rest, p_factor n ts = Ret (e, rest) -> exists t, ts = t ++ rest /\ written Factor e t) /\
  (forall ts e rest, p_atom n ts = Ret (e, rest) -> exists t, ts = t ++ rest /\ written Atom e t).
Proof.
  induction n as [|n (IS & ISM & IT & ITM & IF & IA)].
  { repeat split; intros; discriminate. }
  assert (BI : forall (r : res (formula * list token)) (k : formula -> list token -> res (formula * list token)) e rest, (let! (a, ts) := r in k a ts) = Ret (e, rest) -> exists a ts, r = Ret (a, ts) /\ k a ts = Ret (e, rest)).
  { intros r k e rest H. destruct r as [[a ts]|]; [|discriminate]. exists a, ts. auto. }
  split; [|split; [|split; [|split; [|split]]]].
  - intros ts e rest H. cbn [p_sum] in H. apply BI in H as (a & ts' & H1 & H2). apply IT in H1 as (t & -> & W). apply (ISM _ t) in H2 as (t' & -> & W'); [|now constructor].
    exists (t ++ t'). split; [now rewrite <- app_assoc|exact W'].
  - intros a t0 ts e rest H W. cbn [p_sum_more] in H. destruct ts as [|tk ts]; [injection H as <- <-; exists []; split; [reflexivity|now rewrite app_nil_r]|].
    destruct tk; try (injection H as <- <-; exists []; split; [reflexivity|now rewrite app_nil_r]).
    + apply BI in H as (b & ts' & H1 & H2). apply IT in H1 as (t & -> & Wb). apply (ISM _ (t0 ++ TPlus :: t)) in H2 as (t' & -> & W'); [|now constructor].
      exists (TPlus :: t ++ t'). split; [cbn [app]; now rewrite <- app_assoc|]. now rewrite <- app_assoc in W'.
    + apply BI in H as (b & ts' & H1 & H2). apply IT in H1 as (t & -> & Wb). apply (ISM _ (t0 ++ TMinus :: t)) in H2 as (t' & -> & W'); [|now constructor].
      exists (TMinus :: t ++ t'). split; [cbn [app]; now rewrite <- app_assoc|]. now rewrite <- app_assoc in W'.
  - intros ts e rest H. cbn [p_term] in H. apply BI in H as (a & ts' & H1 & H2). apply IF in H1 as (t & -> & W). apply (ITM _ t) in H2 as (t' & -> & W'); [|now constructor].
    exists (t ++ t'). split; [now rewrite <- app_assoc|exact W'].
  - intros a t0 ts e rest H W. cbn [p_term_more] in H. destruct ts as [|tk ts]; [injection H as <- <-; exists []; split; [reflexivity|now rewrite app_nil_r]|].
    destruct tk; try (injection H as <- <-; exists []; split; [reflexivity|now rewrite app_nil_r]).
    + apply BI in H as (b & ts' & H1 & H2). apply IF in H1 as (t & -> & Wb). apply (ITM _ (t0 ++ TTimes :: t)) in H2 as (t' & -> & W'); [|now constructor].
      exists (TTimes :: t ++ t'). split; [cbn [app]; now rewrite <- app_assoc|]. now rewrite <- app_assoc in W'.
    + apply BI in H as (b & ts' & H1 & H2). apply IF in H1 as (t & -> & Wb). apply (ITM _ (t0 ++ TDiv :: t)) in H2 as (t' & -> & W'); [|now constructor].
      exists (TDiv :: t ++ t'). split; [cbn [app]; now rewrite <- app_assoc|]. now rewrite <- app_assoc in W'.
  - intros ts e rest H. cbn [p_factor] in H.
    assert (G : (let! (a, ts0) := p_atom n ts in match ts0 with TPow :: ts1 => let! (b, ts2) := p_factor n ts1 in Ret (FPow a b, ts2) | _ => Ret (a, ts0) end) = Ret (e, rest) ->
      exists t, ts = t ++ rest /\ written Factor e t).
    { intro K. apply BI in K as (a & ts' & H1 & H2). apply IA in H1 as (t & -> & W). destruct ts' as [|tk ts']; [injection H2 as <- <-; exists t; split; [reflexivity|now constructor]|].
      destruct tk; try (injection H2 as <- <-; exists t; split; [reflexivity|now constructor]).
      apply BI in H2 as (b & ts'' & H1 & H2). apply IF in H1 as (t' & -> & W'). injection H2 as <- <-. exists (t ++ TPow :: t'). split; [now rewrite <- app_assoc|now constructor]. }
    destruct ts as [|tk ts]; [now apply G|]. destruct tk; try (now apply G).
    + apply IF in H as (t & -> & W). exists (TPlus :: t). split; [reflexivity|now constructor].
    + apply BI in H as (a & ts' & H1 & H2). apply IF in H1 as (t & -> & W). injection H2 as <- <-. exists (TMinus :: t). split; [reflexivity|now constructor].
  - intros ts e rest H. cbn [p_atom] in H. destruct ts as [|tk ts]; [discriminate|]. destruct tk; try discriminate.
    + injection H as <- <-. exists [TNum q]. split; [reflexivity|constructor].
    + injection H as <- <-. exists [TX]. split; [reflexivity|constructor].
    + apply BI in H as (a & ts' & H1 & H2). apply IS in H1 as (t & -> & W). destruct ts' as [|[] ts']; try discriminate. injection H2 as <- <-.
      exists (TLeft :: t ++ [TRight]). split; [cbn [app]; now rewrite <- app_assoc|now constructor].
Qed.

Lemma read_exact : forall ts e, read_tokens ts = Ret e <-> written Sum e ts.
Proof.
  intros ts e. unfold read_tokens. split.
  - intro H. destruct (p_sum (8 * List.length ts + 8) ts) as [[a rest]|] eqn:P; [|discriminate]. cbn [bind] in H. destruct rest; [|discriminate]. injection H as <-.
    destruct (parsers_sound (8 * List.length ts + 8)) as (S & _). apply S in P as (t & -> & W). now rewrite app_nil_r.
  - intro W. pose proof (written_complete _ _ _ W (8 * List.length ts + 8)%nat [] ltac:(lia) Logic.I) as (m & Lm & Eq). rewrite app_nil_r in Eq. rewrite Eq. destruct m; [lia|]. reflexivity.
Qed.

(** ** Value *)
Local Open Scope R_scope.
Lemma epow_val : forall e k x, reval (epow e k) x = reval e x ^ k.
Proof. induction k as [|k IH]; intro x; cbn; [apply Q2R_1|now rewrite IH]. Qed.

Fixpoint econst (e : expr) : Prop :=
  match e with ENum _ => True | EX => False | EAdd a b | ESub a b | EMul a b => econst a /\ econst b end.
Lemma econst_expand : forall e, econst e -> exists c, expand e = [c].
Proof.
  induction e as [c| |a IHa b IHb|a IHa b IHb|a IHa b IHb]; cbn; intro H.
  - eauto.
  - destruct H.
  - destruct (IHa (proj1 H)) as (c & ->), (IHb (proj2 H)) as (d & ->). cbn. eauto.
  - destruct (IHa (proj1 H)) as (c & ->), (IHb (proj2 H)) as (d & ->). cbn. eauto.
  - destruct (IHa (proj1 H)) as (c & ->), (IHb (proj2 H)) as (d & ->). cbn. eauto.
Qed.
Lemma econst_val : forall e, econst e -> forall x, reval e x = Q2R (qeval e 0).
Proof.
  induction e as [c| |a IHa b IHb|a IHa b IHb|a IHa b IHb]; cbn; intros H x.
  - reflexivity.
  - destruct H.
  - now rewrite (IHa (proj1 H)), (IHb (proj2 H)), Q2R_plus.
  - now rewrite (IHa (proj1 H)), (IHb (proj2 H)), Q2R_minus.
  - now rewrite (IHa (proj1 H)), (IHb (proj2 H)), Q2R_mult.
Qed.
Lemma epow_const : forall e k, econst e -> econst (epow e k).
Proof. induction k; cbn; auto. Qed.
Lemma without_x_const : forall e f, without_x e -> rf_of e = Ret f -> econst (num f) /\ econst (den f).
Proof.
  induction e as [q| |a IHa b IHb|a IHa b IHb|a IHa b IHb|a IHa b IHb|a IHa|a IHa b IHb]; intros f W H; cbn [rf_of without_x] in *;
    try (destruct W as [Wa Wb]; destruct (rf_of a) as [fa|]; [|discriminate]; destruct (rf_of b) as [fb|]; [|discriminate]; cbn [bind] in H;
      destruct (IHa fa Wa eq_refl) as [A1 A2], (IHb fb Wb eq_refl) as [B1 B2]).
  - injection H as <-. cbn. auto.
  - destruct W.
  - injection H as <-. cbn. auto.
  - injection H as <-. cbn. auto.
  - injection H as <-. cbn. auto.
  - injection H as <-. cbn. auto.
  - destruct (rf_of a) as [fa|]; [|discriminate]. destruct (IHa fa W eq_refl) as [A1 A2]. cbn [bind] in H. injection H as <-. cbn. auto.
  - unfold rf_power in H. destruct (constant_value fb); [|discriminate]. cbn zeta in H. destruct (Z.pos (Qden (Qred q)) =? 1)%Z; [|discriminate].
    destruct (0 <=? Qnum (Qred q))%Z; injection H as <-; cbn [num den]; auto using epow_const.
Qed.

Lemma constant_ok : forall f, econst (num f) -> econst (den f) -> (forall x, ~ has_pole f x) -> exists q, constant_value f = Some q /\ forall x, rfval f x = Q2R q.
Proof.
  intros f A B P. unfold constant_value. destruct (econst_expand _ A) as (c & Ec), (econst_expand _ B) as (d & Ed).
  assert (Z : ~ (qeval (den f) 0 == 0)%Q). { intro Z. apply (P 0). unfold has_pole. rewrite (econst_val _ B), (Qeq_eqR _ _ Z). apply Q2R_0. }
  destruct (expr_is_zero (den f)) eqn:ZD.
  { exfalso. apply Z. exact (proj1 (expr_is_zero_iff _) ZD 0%Q). }
  unfold expr_is_constant. rewrite Ec, Ed. cbn. eexists. split; [reflexivity|]. intro x. unfold rfval. rewrite (econst_val _ A), (econst_val _ B). symmetry. apply Q2R_div. exact Z.
Qed.

Lemma whole_value : forall q k, Q2R q = IZR k -> Qred q = inject_Z k.
Proof.
  intros q k H. assert (E : (q == inject_Z k)%Q). { apply eqR_Qeq. rewrite H. unfold Q2R, inject_Z. cbn. lra. }
  rewrite (Qred_complete _ _ E). unfold inject_Z. apply Qcanon.Qred_identity. cbn [Qnum Qden]. apply Z.gcd_1_r.
Qed.
Lemma rf_of_means : forall e x v, means e x v -> exists f, rf_of e = Ret f /\ ~ has_pole f x /\ rfval f x = v.
Proof.
  induction 1 as [q x|x|a b x u v A IHa B IHb|a b x u v A IHa B IHb|a b x u v A IHa B IHb|a b x u v A IHa B IHb N|a x u A IHa|a b x u k A IHa W B IHb N];
    try destruct IHa as (f & Ef & Pf & Vf); try destruct IHb as (g & Eg & Pg & Vg); cbn [rf_of]; rewrite ?Ef, ?Eg; cbn [bind]; unfold has_pole, rfval in *.
  - exists (const q). split; [reflexivity|]. cbn. rewrite Q2R_1. split; [lra|]. field.
  - exists (mkR EX (ENum 1)). split; [reflexivity|]. cbn. rewrite Q2R_1. split; [lra|]. field.
  - eexists. split; [reflexivity|]. cbn [rf_add num den reval]. subst u v. split; [now apply Rmult_integral_contrapositive_currified|]. field. auto.
  - eexists. split; [reflexivity|]. cbn [rf_subtract num den reval]. subst u v. split; [now apply Rmult_integral_contrapositive_currified|]. field. auto.
  - eexists. split; [reflexivity|]. cbn [rf_mul num den reval]. subst u v. split; [now apply Rmult_integral_contrapositive_currified|]. field. auto.
  - eexists. split; [reflexivity|]. cbn [rf_div num den reval]. subst u v. assert (reval (num g) x <> 0). { intro Z. apply N. rewrite Z. unfold Rdiv. apply Rmult_0_l. }
    split; [now apply Rmult_integral_contrapositive_currified|]. field. auto.
  - eexists. split; [reflexivity|]. cbn [rf_mul num den reval]. subst u. split; [exact Pf|]. replace (Q2R (-(1))) with (-1) by (rewrite Q2R_opp, Q2R_1; reflexivity). field. exact Pf.
  - destruct (without_x_const b g W Eg) as [C1 C2]. assert (NP : forall y, ~ has_pole g y). { intros y. unfold has_pole. rewrite (econst_val _ C2 y), <- (econst_val _ C2 x). exact Pg. }
    destruct (constant_ok g C1 C2 NP) as (q & Eq & Vq). specialize (Vq x). unfold rfval in Vq. rewrite Vg in Vq. unfold rf_power. rewrite Eq. rewrite (whole_value q k (eq_sym Vq)). cbn [inject_Z Qnum Qden Z.eqb Pos.eqb].
    destruct (0 <=? k)%Z eqn:K.
    + eexists. split; [reflexivity|]. cbn [num den]. rewrite !epow_val. split; [now apply pow_nonzero|]. apply Z.leb_le in K. subst u. destruct k as [|k|k]; [cbn; lra| |lia]. cbn [powerRZ Z.to_nat].
      unfold Rdiv. now rewrite Rpow_mult_distr, pow_inv.
    + eexists. split; [reflexivity|]. cbn [num den]. rewrite !epow_val. destruct k as [|k|k]; try discriminate. destruct N as [N|N]; [lia|]. assert (NZ : reval (num f) x <> 0). { intro Z. apply N. rewrite <- Vf, Z. unfold Rdiv. apply Rmult_0_l. }
      split; [now apply pow_nonzero|]. subst u. cbn [powerRZ Z.opp Z.to_nat]. unfold Rdiv. rewrite Rpow_mult_distr, pow_inv, Rinv_mult, Rinv_inv. apply Rmult_comm.
Qed.
