(** Properties C05 and C06: polynomial arithmetic, equality and degree. *)
From Verif Require Import Base Model_Polynomial Spec_Polynomial Proof_Polynomial.

(** C05: the constructor accepts exactly the canonical tuples. *)
Theorem poly_constructor : forall c,
  (canonical c -> Polynomial c = Ret c) /\ (~ canonical c -> Polynomial c = Raise ValueError).
Proof. intros c. split; [apply Polynomial_canonical|apply Polynomial_rejects]. Qed.
Print Assumptions poly_constructor.

(** C05: sums, differences and products are pointwise and canonical. *)
Theorem poly_add : forall p q, exists r, add p q = Ret r /\ canonical r /\
  forall x, eval r x == eval p x + eval q x.
Proof. intros p q. destruct (add_ok p q) as [r [E [K [_ V]]]]. eauto. Qed.
Print Assumptions poly_add.

Theorem poly_subtract : forall p q, exists r, subtract p q = Ret r /\ canonical r /\
  forall x, eval r x == eval p x - eval q x.
Proof. intros p q. destruct (subtract_ok p q) as [r [E [K [_ V]]]]. eauto. Qed.
Print Assumptions poly_subtract.

Theorem poly_multiply : forall p q, canonical p -> canonical q ->
  exists r, multiply p q = Ret r /\ canonical r /\ forall x, eval r x == eval p x * eval q x.
Proof. intros p q Kp Kq. destruct (multiply_ok p q Kp Kq) as [r [E [K [V _]]]]. eauto. Qed.
Print Assumptions poly_multiply.

(** Trimming only removes trailing zeroes: same function, canonical, a prefix. *)
Theorem poly_trim : forall c, canonical (trim_trailing_zeroes c) /\
  (exists z, c = trim_trailing_zeroes c ++ z /\ Forall (fun a => a == 0) z) /\
  forall x, eval (trim_trailing_zeroes c) x == eval c x.
Proof.
  intros c. split; [apply trim_from_canonical; lia|]. split; [|apply trim_eval].
  unfold trim_trailing_zeroes.
  assert (G : forall n, (n <= length c)%nat -> Forall (fun a => a == 0) (skipn n c) ->
    exists z, c = trim_from n c ++ z /\ Forall (fun a => a == 0) z).
  { induction n as [|n IH]; intros L Z.
    - exists c. split; auto.
    - cbn [trim_from]. destruct (Qeqb_spec (nth n c 0) 0) as [E|E]; cbn [negb].
      + apply IH; [lia|].
        assert (S : skipn n c = nth n c 0 :: skipn (S n) c).
        { clear -L. revert c L. induction n as [|n IH]; intros [|a c] L; cbn in L; try lia; [reflexivity|].
          change (skipn n c = nth n c 0 :: skipn (S n) c). apply IH. lia. }
        rewrite S. now constructor.
      + exists (skipn (S n) c). split; auto. symmetry. apply firstn_skipn. }
  apply G; [lia|]. rewrite skipn_all. constructor.
Qed.
Print Assumptions poly_trim.

(** C06: equality is equality of functions. *)
Theorem poly_equality : forall p q, canonical p -> canonical q ->
  (poly_eqb p q = true <-> forall x, eval p x == eval q x).
Proof. exact poly_eq_iff. Qed.
Print Assumptions poly_equality.

(** C06: a nonzero polynomial has at most [degree] distinct roots. *)
Theorem poly_root_count : forall p d roots, canonical p -> degree p = Some d ->
  strictly_sorted roots -> (forall r, In r roots -> eval p r == 0) -> (length roots <= d)%nat.
Proof.
  intros p d roots K D Hs R.
  destruct (Nat.le_gt_cases (length roots) d) as [L|L]; auto. exfalso.
  assert (Lp : length p = S d) by (unfold degree in D; destruct (length p); congruence).
  assert (Z : all_zero p).
  { apply (roots_bound (length p) p (firstn (length p) roots)); auto.
    - rewrite firstn_length_le; lia.
    - clear -Hs. generalize (length p). induction roots as [|a l IH]; intros [|n]; cbn; auto.
      destruct Hs as [B Hs]. split; auto. unfold below in *. rewrite Forall_forall in *.
      intros y Hy. apply B.
      replace l with (firstn n l ++ skipn n l) by apply firstn_skipn. apply in_or_app. now left.
    - intros r Hin. apply R.
      replace roots with (firstn (length p) roots ++ skipn (length p) roots) by apply firstn_skipn.
      apply in_or_app. now left. }
  rewrite (all_zero_canonical p K Z) in Lp. discriminate.
Qed.
Print Assumptions poly_root_count.

(** C06: degrees; [None] is the degree -infinity of the zero polynomial. *)
Definition deg_add (a b : option nat) : option nat :=
  match a, b with Some m, Some n => Some (m + n)%nat | _, _ => None end.
Definition deg_le (a b : option nat) : Prop :=
  match a, b with None, _ => True | Some _, None => False | Some m, Some n => (m <= n)%nat end.
Definition deg_max (a b : option nat) : option nat :=
  match a, b with None, d => d | d, None => d | Some m, Some n => Some (Nat.max m n) end.

Theorem poly_degree_multiply : forall p q r, canonical p -> canonical q -> multiply p q = Ret r ->
  degree r = deg_add (degree p) (degree q).
Proof.
  intros p q r Kp Kq H. destruct (multiply_ok p q Kp Kq) as [r' [E [K [V L]]]].
  rewrite H in E. inversion E; subst r'. unfold degree.
  destruct p as [|a p]; [|destruct q as [|b q]].
  - cbn in H. inversion H. reflexivity.
  - cbn in H. inversion H. reflexivity.
  - rewrite L by discriminate. cbn. rewrite Nat.add_succ_r. reflexivity.
Qed.
Print Assumptions poly_degree_multiply.

Theorem poly_degree_add : forall p q r, add p q = Ret r \/ subtract p q = Ret r ->
  deg_le (degree r) (deg_max (degree p) (degree q)).
Proof.
  intros p q r H.
  assert (L : (length r <= Nat.max (length p) (length q))%nat).
  { destruct H as [H|H].
    - destruct (add_ok p q) as [r' [E [_ [L _]]]]. congruence.
    - destruct (subtract_ok p q) as [r' [E [_ [L _]]]]. congruence. }
  unfold degree, deg_max. destruct (length r), (length p), (length q); cbn in *; auto; lia.
Qed.
Print Assumptions poly_degree_add.

(** The zero test is the zero function. *)
Theorem poly_is_zero : forall p, canonical p -> (is_zero p = true <-> forall x, eval p x == 0).
Proof.
  intros p K. unfold is_zero. rewrite Nat.eqb_eq. split.
  - intros H x. destruct p; [reflexivity|discriminate].
  - intros H. rewrite (all_zero_canonical p K (vanishing_zero p H)). reflexivity.
Qed.
Print Assumptions poly_is_zero.

(** C05/C06: the ring laws hold for [==] on Polynomial objects. *)
Theorem poly_ring_laws : forall p q s, canonical p -> canonical q -> canonical s ->
  (forall u v, multiply p q = Ret u -> multiply q p = Ret v -> poly_eqb u v = true) /\
  (forall a u b v, multiply p q = Ret a -> multiply a s = Ret u ->
                   multiply q s = Ret b -> multiply p b = Ret v -> poly_eqb u v = true) /\
  (forall a u b c v, add q s = Ret a -> multiply p a = Ret u ->
                   multiply p q = Ret b -> multiply p s = Ret c -> add b c = Ret v -> poly_eqb u v = true) /\
  (forall a u, subtract p q = Ret a -> add a q = Ret u -> poly_eqb u p = true).
Proof.
  intros p q s Kp Kq Ks.
  assert (M : forall x y r, canonical x -> canonical y -> multiply x y = Ret r ->
     canonical r /\ forall t, eval r t == eval x t * eval y t).
  { intros x y r Kx Ky E. destruct (multiply_ok x y Kx Ky) as [r' [E' [K [V _]]]].
    rewrite E in E'. inversion E'; subst. auto. }
  assert (A : forall x y r, add x y = Ret r -> canonical r /\ forall t, eval r t == eval x t + eval y t).
  { intros x y r E. destruct (add_ok x y) as [r' [E' [K [_ V]]]].
    rewrite E in E'. inversion E'; subst. auto. }
  repeat split.
  - intros u v H1 H2. destruct (M _ _ _ Kp Kq H1) as [K1 V1]. destruct (M _ _ _ Kq Kp H2) as [K2 V2].
    apply poly_eq_iff; auto. intros t. rewrite V1, V2. ring.
  - intros a u b v H1 H2 H3 H4.
    destruct (M _ _ _ Kp Kq H1) as [K1 V1]. destruct (M _ _ _ K1 Ks H2) as [K2 V2].
    destruct (M _ _ _ Kq Ks H3) as [K3 V3]. destruct (M _ _ _ Kp K3 H4) as [K4 V4].
    apply poly_eq_iff; auto. intros t. rewrite V2, V1, V4, V3. ring.
  - intros a u b c v H1 H2 H3 H4 H5.
    destruct (A _ _ _ H1) as [K1 V1]. destruct (M _ _ _ Kp K1 H2) as [K2 V2].
    destruct (M _ _ _ Kp Kq H3) as [K3 V3]. destruct (M _ _ _ Kp Ks H4) as [K4 V4].
    destruct (A _ _ _ H5) as [K5 V5].
    apply poly_eq_iff; auto. intros t. rewrite V2, V1, V5, V3, V4. ring.
  - intros a u H1 H2. destruct (subtract_ok p q) as [a' [E [Ka [_ Va]]]]. rewrite H1 in E. inversion E; subst a'.
    destruct (A _ _ _ H2) as [K2 V2]. apply poly_eq_iff; auto. intros t. rewrite V2, Va. ring.
Qed.
Print Assumptions poly_ring_laws.

(** Finding: [divide], documented to return the quotient as a rational function,
    returns for no pair of polynomials. *)
Theorem poly_divide_refuted : forall p q r, divide p q <> Ret r.
Proof. intros p q r. unfold divide. destruct (is_zero q); discriminate. Qed.
Print Assumptions poly_divide_refuted.

(** Non-vacuity: (1+2x)(3-x^2), with canonical operands. *)
Example poly_case_canonical : canonical [1; 2] /\ canonical [3; 0; -(1)] /\ ~ canonical [1; 0].
Proof.
  split; [|split]; [right; cbn; lra|right; cbn; lra|].
  intros [H|H]; [discriminate|]. apply H. reflexivity.
Qed.
Example poly_case_multiply : multiply [1; 2] [3; 0; -(1)] = Ret [3; 6; -(1); -(2)].
Proof. vm_compute. reflexivity. Qed.
Example poly_case_cancel : subtract [1; 2; 5] [1; 0; 5] = Ret [0; 2].
Proof. vm_compute. reflexivity. Qed.
