From Verif Require Import Base Model_Polynomial Spec_Polynomial.
Opaque Qred.

Fixpoint qpow (x : Q) (n : nat) : Q := match n with O => 1 | S n' => x * qpow x n' end.

Lemma eval_app' : forall p q x, eval (p ++ q) x == eval p x + qpow x (length p) * eval q x.
Proof.
  induction p as [|c p IH]; intros q x; cbn [app eval length qpow]; [lra|]. rewrite IH. ring.
Qed.

Lemma eval_zip : forall f p q k x,
  (k <= length p)%nat -> (k <= length q)%nat ->
  forall s, (forall a b, f a b == a + s * b) ->
  eval (zip_upto f k p q) x == eval (firstn k p) x + s * eval (firstn k q) x.
Proof.
  intros f p q k x Hp Hq s Hf. unfold zip_upto.
  revert p q Hp Hq. induction k as [|k IH]; intros p q Hp Hq.
  - cbn. ring.
  - destruct p as [|a p]; [cbn in Hp; lia|]. destruct q as [|b q]; [cbn in Hq; lia|].
    cbn [seq map firstn eval nth].
    rewrite <- seq_shift, map_map. cbn [nth].
    cbn in Hp, Hq. rewrite IH by lia. rewrite Hf. ring.
Qed.

Lemma eval_split : forall p k x, eval p x == eval (firstn k p) x + qpow x (length (firstn k p)) * eval (skipn k p) x.
Proof. intros p k x. rewrite <- eval_app', firstn_skipn. reflexivity. Qed.

Lemma trim_from_eval : forall n c x, (n <= length c)%nat ->
  eval (trim_from n c) x == eval (firstn n c) x.
Proof.
  induction n as [|n IH]; intros c x H; [cbn; reflexivity|].
  cbn [trim_from]. destruct (Qeqb_spec (nth n c 0) 0) as [E|E]; cbn [negb]; [|reflexivity].
  rewrite IH by lia.
  assert (Hn : firstn (S n) c = firstn n c ++ [nth n c 0]).
  { clear -H. revert c H. induction n as [|n IH]; intros [|a c] H; cbn in H; try lia; cbn [firstn nth app]; auto.
    f_equal. apply IH. lia. }
  rewrite Hn, eval_app'. cbn. rewrite E. ring.
Qed.

Lemma trim_eval : forall c x, eval (trim_trailing_zeroes c) x == eval c x.
Proof. intros c x. unfold trim_trailing_zeroes. rewrite trim_from_eval by lia. now rewrite firstn_all. Qed.

Lemma last_firstn : forall n c, (n < length c)%nat -> last (firstn (S n) c) 0 = nth n c 0.
Proof.
  induction n as [|n IH]; intros [|a c] H; cbn in H; try lia; [reflexivity|].
  destruct c as [|b c]; [cbn in H; lia|].
  change (firstn (S (S n)) (a :: b :: c)) with (a :: firstn (S n) (b :: c)).
  change (nth (S n) (a :: b :: c) 0) with (nth n (b :: c) 0).
  rewrite <- IH by (cbn in *; lia).
  cbn [firstn last]. reflexivity.
Qed.

Lemma trim_from_canonical : forall n c, (n <= length c)%nat -> canonical (trim_from n c).
Proof.
  induction n as [|n IH]; intros c H; [now left|].
  cbn [trim_from]. destruct (Qeqb_spec (nth n c 0) 0) as [E|E]; cbn [negb]; [apply IH; lia|].
  right. now rewrite last_firstn.
Qed.

Lemma trim_from_len : forall n c, (length (trim_from n c) <= n)%nat.
Proof.
  induction n as [|n IH]; intros c; [cbn; lia|].
  cbn [trim_from]. destruct (negb _); [apply firstn_le_length|]. specialize (IH c). lia.
Qed.

Lemma Polynomial_canonical : forall c, canonical c -> Polynomial c = Ret c.
Proof.
  intros c [->|H]; [reflexivity|]. unfold Polynomial, last_coeff. destruct c; auto.
  destruct (Qeqb_spec (last (q :: c) 0) 0); auto. contradiction.
Qed.

Lemma Polynomial_rejects : forall c, ~ canonical c -> Polynomial c = Raise ValueError.
Proof.
  intros c H. unfold Polynomial, last_coeff. destruct c; [exfalso; apply H; now left|].
  destruct (Qeqb_spec (last (q :: c) 0) 0); auto. exfalso. apply H. now right.
Qed.

Lemma finish_poly : forall c, exists r, Polynomial (trim_trailing_zeroes c) = Ret r /\ canonical r /\
  r = trim_trailing_zeroes c /\ forall x, eval r x == eval c x.
Proof.
  intros c. exists (trim_trailing_zeroes c).
  assert (K : canonical (trim_trailing_zeroes c)) by (apply trim_from_canonical; lia).
  split; [now apply Polynomial_canonical|]. split; auto. split; auto. intros x. apply trim_eval.
Qed.

Lemma eval_opp : forall p x, eval (map Qopp p) x == - eval p x.
Proof. induction p as [|c p IH]; intros x; cbn; [lra|]. rewrite IH. ring. Qed.

Lemma zip_length : forall f k p q, length (zip_upto f k p q) = k.
Proof. intros. unfold zip_upto. now rewrite map_length, seq_length. Qed.

Lemma combine_eval : forall f s (Hf : forall a b, f a b == a + s * b) g (Hg : forall q x, eval (g q) x == s * eval q x) p q x,
  eval (if Nat.eqb (length p) (length q) then zip_upto f (length p) p q
        else if Nat.ltb (length q) (length p) then zip_upto f (length q) p q ++ skipn (length q) p
        else zip_upto f (length p) p q ++ g (skipn (length p) q)) x == eval p x + s * eval q x.
Proof.
  intros f s Hf g Hg p q x.
  assert (ex : exists s, forall a b, f a b == a + s * b) by eauto.
  destruct (Nat.eqb_spec (length p) (length q)) as [E|E].
  - rewrite (eval_zip f p q _ x) with (s := s) by (auto; lia). rewrite firstn_all, E, firstn_all. reflexivity.
  - destruct (Nat.ltb_spec (length q) (length p)) as [L|L].
    + rewrite eval_app', zip_length. rewrite (eval_zip f p q _ x) with (s := s) by (auto; lia).
      rewrite firstn_all. rewrite (eval_split p (length q) x). rewrite firstn_length_le by lia. ring.
    + rewrite eval_app', zip_length. rewrite (eval_zip f p q _ x) with (s := s) by (auto; lia).
      rewrite firstn_all, Hg. rewrite (eval_split q (length p) x). rewrite firstn_length_le by lia. ring.
Qed.

Lemma add_ok : forall p q, exists r, add p q = Ret r /\ canonical r /\
  (length r <= Nat.max (length p) (length q))%nat /\
  forall x, eval r x == eval p x + eval q x.
Proof.
  intros p q. unfold add.
  match goal with |- context [trim_trailing_zeroes ?c] => set (cc := c) end.
  destruct (finish_poly cc) as [r [E [K [Er V]]]]. exists r. split; auto. split; auto. split.
  - rewrite Er. unfold trim_trailing_zeroes. eapply Nat.le_trans; [apply trim_from_len|].
    unfold cc. destruct (Nat.eqb_spec (length p) (length q)); [rewrite zip_length; lia|].
    destruct (Nat.ltb_spec (length q) (length p)); rewrite app_length, zip_length, skipn_length; lia.
  - intros x. rewrite V. unfold cc.
    rewrite (combine_eval Qplus 1 ltac:(intros; lra) (fun q => q) ltac:(intros; cbv beta; ring) p q x). lra.
Qed.

Lemma subtract_ok : forall p q, exists r, subtract p q = Ret r /\ canonical r /\
  (length r <= Nat.max (length p) (length q))%nat /\
  forall x, eval r x == eval p x - eval q x.
Proof.
  intros p q. unfold subtract.
  match goal with |- context [trim_trailing_zeroes ?c] => set (cc := c) end.
  destruct (finish_poly cc) as [r [E [K [Er V]]]]. exists r. split; auto. split; auto. split.
  - rewrite Er. unfold trim_trailing_zeroes. eapply Nat.le_trans; [apply trim_from_len|].
    unfold cc. destruct (Nat.eqb_spec (length p) (length q)); [rewrite zip_length; lia|].
    destruct (Nat.ltb_spec (length q) (length p)); rewrite app_length, zip_length, ?map_length, skipn_length; lia.
  - intros x. rewrite V. unfold cc.
    rewrite (combine_eval Qminus (-(1)) ltac:(intros; lra) (map Qopp) ltac:(intros; rewrite eval_opp; ring) p q x). lra.
Qed.

(** ** Multiplication *)
Lemma incr_at_ok : forall c k v, (k < length c)%nat ->
  exists c', incr_at k v c = Ret c' /\ length c' = length c /\
    (forall x, eval c' x == eval c x + v * qpow x k) /\
    (forall j, nth j c' 0 == nth j c 0 + if Nat.eqb j k then v else 0).
Proof.
  induction c as [|a c IH]; intros k v H; cbn in H; [lia|].
  destruct k as [|k].
  - cbn. eexists. split; [reflexivity|]. split; auto. split; [intros x; cbn; ring|].
    intros [|j]; cbn; lra.
  - destruct (IH k v) as [c' [E [L [V N]]]]; [lia|]. cbn [incr_at]. rewrite E. cbn.
    eexists. split; [reflexivity|]. split; [cbn; lia|]. split.
    + intros x. cbn. rewrite V. ring.
    + intros [|j]; cbn; [lra|]. apply N.
Qed.

Lemma qpow_add : forall x i j, qpow x (i + j) == qpow x i * qpow x j.
Proof. induction i as [|i IH]; intros j; cbn; [ring|]. rewrite IH. ring. Qed.

(** contribution of [q] (starting at index j) times [a] at i, to coefficient k *)
Fixpoint row_coeff (k i j : nat) (a : Q) (q : poly) : Q :=
  match q with
  | [] => 0
  | b :: q' => (if Nat.eqb k (i + j) then a * b else 0) + row_coeff k i (S j) a q'
  end.
Fixpoint rows_coeff (k i : nat) (p q : poly) : Q :=
  match p with [] => 0 | a :: p' => row_coeff k i 0 a q + rows_coeff k (S i) p' q end.

Lemma mul_row_ok : forall q i j a c, (i + j + length q <= length c)%nat ->
  exists c', mul_row i j a q c = Ret c' /\ length c' = length c /\
    (forall x, eval c' x == eval c x + a * qpow x (i + j) * eval q x) /\
    (forall k, nth k c' 0 == nth k c 0 + row_coeff k i j a q).
Proof.
  induction q as [|b q IH]; intros i j a c H; cbn [mul_row length] in *.
  - exists c. split; auto. split; auto. split; [intros x; cbn; ring|]. intros k. cbn. lra.
  - destruct (incr_at_ok c (i + j) (a * b)) as [c1 [E1 [L1 [V1 N1]]]]; [lia|].
    rewrite E1. cbn [bind].
    destruct (IH i (S j) a c1) as [c' [E [L [V N]]]]; [lia|].
    exists c'. split; auto. split; [congruence|]. split.
    + intros x. rewrite V, V1. replace (i + S j)%nat with (S (i + j)) by lia. cbn [eval qpow]. ring.
    + intros k. rewrite N, N1. cbn [row_coeff]. ring.
Qed.

Lemma mul_rows_ok : forall p i q c, (i + length p + length q <= S (length c))%nat ->
  exists c', mul_rows i p q c = Ret c' /\ length c' = length c /\
    (forall x, eval c' x == eval c x + qpow x i * eval p x * eval q x) /\
    (forall k, nth k c' 0 == nth k c 0 + rows_coeff k i p q).
Proof.
  induction p as [|a p IH]; intros i q c H; cbn [mul_rows length] in *.
  - exists c. split; auto. split; auto. split; [intros x; cbn; ring|]. intros k. cbn. lra.
  - destruct (mul_row_ok q i 0 a c) as [c1 [E1 [L1 [V1 N1]]]]; [lia|].
    rewrite E1. cbn [bind].
    destruct (IH (S i) q c1) as [c' [E [L [V N]]]]; [lia|].
    exists c'. split; auto. split; [congruence|]. split.
    + intros x. rewrite V, V1. rewrite Nat.add_0_r. cbn [eval qpow]. ring.
    + intros k. rewrite N, N1. cbn [rows_coeff]. ring.
Qed.

Lemma eval_zeros : forall n x, eval (repeat 0 n) x == 0.
Proof. induction n as [|n IH]; intros x; cbn; [reflexivity|]. rewrite IH. ring. Qed.
Lemma nth_zeros : forall n k, nth k (repeat 0 n) 0 == 0.
Proof. induction n as [|n IH]; intros [|k]; cbn; try reflexivity. apply IH. Qed.

(** coefficient formula *)
Lemma row_coeff_spec : forall q i j a k, row_coeff k i j a q ==
  if Nat.leb (i + j) k then a * nth (k - (i + j)) q 0 else 0.
Proof.
  induction q as [|b q IH]; intros i j a k; cbn [row_coeff].
  - destruct (Nat.leb _ _); [|reflexivity]. destruct (k - (i + j))%nat; cbn; ring.
  - rewrite IH. destruct (Nat.eqb_spec k (i + j)) as [E|E].
    + replace (Nat.leb (i + j) k) with true by (symmetry; apply Nat.leb_le; lia).
      replace (Nat.leb (i + S j) k) with false by (symmetry; apply Nat.leb_gt; lia).
      replace (k - (i + j))%nat with 0%nat by lia. cbn. ring.
    + destruct (Nat.leb_spec (i + j) k) as [L|L].
      * replace (Nat.leb (i + S j) k) with true by (symmetry; apply Nat.leb_le; lia).
        replace (k - (i + j))%nat with (S (k - (i + S j))) by lia. cbn. ring.
      * replace (Nat.leb (i + S j) k) with false by (symmetry; apply Nat.leb_gt; lia). ring.
Qed.

Lemma multiply_ok : forall p q, canonical p -> canonical q ->
  exists r, multiply p q = Ret r /\ canonical r /\
    (forall x, eval r x == eval p x * eval q x) /\
    (p <> [] -> q <> [] -> length r = (length p + length q - 1)%nat).
Proof.
  intros p q Kp Kq. unfold multiply, is_zero.
  destruct p as [|a p]; [cbn|destruct q as [|b q]; [cbn|]].
  - exists []. split; auto. split; [now left|]. split; [intros x; cbn; ring|congruence].
  - exists []. split; auto. split; [now left|]. split; [intros x; cbn; ring|congruence].
  - change (Nat.eqb (length (a :: p)) 0 || Nat.eqb (length (b :: q)) 0) with false. cbv iota.
    set (P := a :: p) in *. set (R := b :: q) in *.
    destruct (mul_rows_ok P 0 R (repeat 0 (length P + length R - 1))) as [c [E [L [V N]]]].
    { rewrite repeat_length. lia. }
    rewrite E. cbn [bind]. rewrite repeat_length in L.
    destruct (finish_poly c) as [r [E' [K [Er V']]]]. exists r. split; auto. split; auto. split.
    + intros x. rewrite V', V, eval_zeros. cbn [qpow]. ring.
    + intros _ _. rewrite Er. unfold trim_trailing_zeroes.
      assert (LP : (0 < length P)%nat) by (cbn; lia). assert (LR : (0 < length R)%nat) by (cbn; lia).
      destruct (length c) as [|n] eqn:Lc; [lia|]. cbn [trim_from].
      assert (Top : ~ nth n c 0 == 0).
      { rewrite N, nth_zeros.
        assert (RC : forall p' i, (i + length p' + length R = S (S n))%nat -> p' <> [] ->
                  rows_coeff n i p' R == last p' 0 * last R 0).
        { assert (LN : forall (l : list Q), l <> [] -> last l 0 = nth (length l - 1) l 0).
          { induction l as [|u [|v l] IHl]; intros Hn; [congruence|reflexivity|].
            change (last (u :: v :: l) 0) with (last (v :: l) 0). rewrite IHl by discriminate.
            cbn. now rewrite Nat.sub_0_r. }
          induction p' as [|u p' IH]; intros i Hi Hne; [congruence|]. cbn [rows_coeff].
          rewrite row_coeff_spec, Nat.add_0_r. destruct p' as [|u' p'].
          - cbn [length rows_coeff last] in *.
            replace (Nat.leb i n) with true by (symmetry; apply Nat.leb_le; lia).
            rewrite (LN R) by (unfold R; discriminate).
            replace (n - i)%nat with (length R - 1)%nat by lia. ring.
          - rewrite IH; [|cbn [length] in *; lia|discriminate].
            change (last (u :: u' :: p') 0) with (last (u' :: p') 0).
            assert (Z : (if Nat.leb i n then u * nth (n - i) R 0 else 0) == 0).
            { destruct (Nat.leb i n); [|reflexivity]. rewrite nth_overflow; [ring|]. cbn [length] in *. lia. }
            rewrite Z. ring. }
        rewrite RC; [|lia|unfold P; discriminate].
        destruct Kp as [Kp|Kp]; [discriminate|]. destruct Kq as [Kq|Kq]; [discriminate|].
        intro Hz. assert (Hz' : last P 0 * last R 0 == 0) by lra.
        apply Qmult_integral in Hz'. tauto. }
      destruct (Qeqb_spec (nth n c 0) 0); [contradiction|]. cbn [negb].
      rewrite <- Lc, firstn_all. lia.
Qed.

(** ** Extensional equality *)
Definition all_zero (p : poly) : Prop := Forall (fun c => c == 0) p.

(** synthetic division by (x - a) *)
Fixpoint quot (p : poly) (a : Q) : poly :=
  match p with
  | [] => []
  | [_] => []
  | _ :: p' => eval p' a :: quot p' a
  end.

Lemma quot_spec : forall p a x, eval p x == (x - a) * eval (quot p a) x + eval p a.
Proof.
  induction p as [|c p IH]; intros a x; [cbn; ring|].
  destruct p as [|d p]; [cbn; ring|].
  change (quot (c :: d :: p) a) with (eval (d :: p) a :: quot (d :: p) a).
  change (eval (c :: d :: p) x) with (c + x * eval (d :: p) x).
  change (eval (c :: d :: p) a) with (c + a * eval (d :: p) a).
  rewrite (IH a x). cbn [eval]. ring.
Qed.

Lemma quot_length : forall p a, length (quot p a) = (length p - 1)%nat.
Proof.
  induction p as [|c p IH]; intros a; [reflexivity|]. destruct p as [|d p]; [reflexivity|].
  change (quot (c :: d :: p) a) with (eval (d :: p) a :: quot (d :: p) a).
  cbn [length]. rewrite IH. cbn. lia.
Qed.

Lemma quot_zero : forall p a, all_zero (quot p a) -> eval p a == 0 -> all_zero p.
Proof.
  induction p as [|c p IH]; intros a H E; [constructor|].
  destruct p as [|d p].
  - constructor; [|constructor]. cbn in E. lra.
  - change (quot (c :: d :: p) a) with (eval (d :: p) a :: quot (d :: p) a) in H.
    inversion H as [|? ? H1 H2]; subst.
    constructor; [|apply (IH a); auto]. change (eval (c :: d :: p) a) with (c + a * eval (d :: p) a) in E.
    rewrite H1 in E. lra.
Qed.

(** A list with as many pairwise distinct roots as coefficients is zero. *)
Lemma roots_bound : forall n p roots, length p = n -> length roots = n ->
  strictly_sorted roots -> (forall r, In r roots -> eval p r == 0) -> all_zero p.
Proof.
  induction n as [|n IH]; intros p roots Lp Lr Hs Hr.
  - destruct p; [constructor|discriminate].
  - destruct roots as [|a roots]; [discriminate|]. destruct Hs as [Hb Hs].
    apply (quot_zero p a); [|apply Hr; now left].
    apply (IH (quot p a) roots); auto.
    + rewrite quot_length. lia.
    + intros r Hin. pose proof (Hr r (or_intror Hin)) as E. rewrite (quot_spec p a r) in E.
      rewrite (Hr a (or_introl eq_refl)) in E.
      unfold below in Hb. rewrite Forall_forall in Hb. specialize (Hb r Hin).
      assert (E' : (r - a) * eval (quot p a) r == 0) by lra.
      apply Qmult_integral in E'. destruct E' as [E'|E']; auto. exfalso; lra.
Qed.

Lemma vanishing_zero : forall p, (forall x, eval p x == 0) -> all_zero p.
Proof.
  intros p H. apply (roots_bound (length p) p (map (fun k => inject_Z (Z.of_nat k)) (seq 0 (length p)))); auto.
  - now rewrite map_length, seq_length.
  - generalize 0%nat. induction (length p) as [|n IH]; intros s; cbn; [exact I|]. split; [|apply IH].
    apply Forall_forall. intros y Hy. apply in_map_iff in Hy. destruct Hy as [k [<- Hk]].
    apply in_seq in Hk. rewrite <- Zlt_Qlt. lia.
Qed.

Lemma all_zero_canonical : forall p, canonical p -> all_zero p -> p = [].
Proof.
  intros p [->|K] Z; auto. exfalso. apply K.
  destruct p as [|a p]; [reflexivity|].
  assert (In (last (a :: p) 0) (a :: p)).
  { clear. revert a. induction p as [|b p IH]; intros a; [now left|]. right. apply IH. }
  unfold all_zero in Z. rewrite Forall_forall in Z. auto.
Qed.

(** difference without trimming *)
Fixpoint diff (p q : poly) : poly :=
  match p, q with
  | [], _ => map Qopp q
  | _, [] => p
  | a :: p', b :: q' => (a - b) :: diff p' q'
  end.
Lemma diff_eval : forall p q x, eval (diff p q) x == eval p x - eval q x.
Proof.
  induction p as [|a p IH]; intros q x.
  - cbn [diff]. rewrite eval_opp. cbn. ring.
  - destruct q as [|b q]; cbn; [ring|]. rewrite IH. ring.
Qed.
Lemma diff_zero : forall p q, canonical p -> canonical q -> all_zero (diff p q) -> Forall2 Qeq p q.
Proof.
  induction p as [|a p IH]; intros q Kp Kq Z.
  - cbn in Z. assert (all_zero q).
    { clear -Z. induction q as [|b q IH]; [constructor|]. inversion Z; subst. constructor; [lra|]. now apply IH. }
    rewrite (all_zero_canonical q Kq H). constructor.
  - destruct q as [|b q].
    + cbn in Z. pose proof (all_zero_canonical _ Kp Z). discriminate.
    + cbn in Z. inversion Z as [|? ? Z1 Z2]; subst. constructor; [lra|].
      assert (Tail : forall c (l : poly), canonical (c :: l) -> canonical l).
      { intros c l [H|H]; [discriminate|]. destruct l; [now left|]. right. exact H. }
      apply IH; eauto.
Qed.

Lemma poly_eq_iff : forall p q, canonical p -> canonical q ->
  (poly_eqb p q = true <-> forall x, eval p x == eval q x).
Proof.
  intros p q Kp Kq. unfold poly_eqb. rewrite qlist_eqb_spec. split.
  - intros H x. induction H as [|a b p q E H IH]; [reflexivity|]. cbn.
    assert (Tail : forall c (l : poly), canonical (c :: l) -> canonical l).
    { intros c l [K|K]; [discriminate|]. destruct l; [now left|]. right. exact K. }
    rewrite E, IH; [reflexivity|eauto|eauto].
  - intros H. apply diff_zero; auto. apply vanishing_zero. intros x. rewrite diff_eval, H. lra.
Qed.
