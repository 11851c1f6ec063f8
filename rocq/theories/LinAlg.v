(** Vectors over Q as lists, with missing coordinates read as zero.  Used to
    state what the linear constraints of a polytope mean.  Nothing here models
    a particular source file. *)
From Verif Require Import Base.
From Coq Require Import Setoid Morphisms.

Definition point := list Q.

(** Scalar product; coordinates beyond the shorter list count as zero. *)
Fixpoint dot (a x : list Q) : Q :=
  match a, x with
  | c :: a', y :: x' => c * y + dot a' x'
  | _, _ => 0
  end.

Fixpoint vadd (x y : list Q) : list Q :=
  match x, y with
  | [], _ => y
  | _, [] => x
  | a :: x', b :: y' => (a + b) :: vadd x' y'
  end.

Definition vscale (t : Q) (x : list Q) : list Q := map (fun a => t * a) x.

Definition vopp (x : list Q) : list Q := map Qopp x.

Definition qsum (l : list Q) : Q := fold_right Qplus 0 l.

(** Same coordinates, up to trailing zeroes. *)
Definition peq (x y : list Q) : Prop := forall i, nth i x 0 == nth i y 0.

#[global] Instance peq_equiv : Equivalence peq.
Proof.
  split.
  - intros x i; reflexivity.
  - intros x y H i; now rewrite (H i).
  - intros x y z H1 H2 i; now rewrite (H1 i), (H2 i).
Qed.

Lemma peq_cons : forall a b x y, peq (a :: x) (b :: y) <-> a == b /\ peq x y.
Proof.
  intros a b x y; split.
  - intro H; split; [exact (H 0%nat)|]. intro i; exact (H (S i)).
  - intros [H1 H2] [|i]; [exact H1|exact (H2 i)].
Qed.

Lemma peq_nil_cons : forall b y, peq [] (b :: y) <-> b == 0 /\ peq [] y.
Proof.
  intros b y; split.
  - intro H; split; [symmetry; exact (H 0%nat)|]. intro i.
    specialize (H (S i)). simpl in *. destruct i; exact H.
  - intros [H1 H2] [|i]; simpl; [now symmetry|]. specialize (H2 i). destruct i; exact H2.
Qed.

Lemma dot_nil_r : forall a, dot a [] = 0.
Proof. now destruct a. Qed.

Lemma dot_comm : forall a x, dot a x == dot x a.
Proof. induction a; destruct x; simpl; try reflexivity. rewrite IHa; ring. Qed.

Lemma dot_peq_nil : forall a x, peq [] x -> dot a x == 0.
Proof.
  induction a; destruct x; simpl; intros; try reflexivity.
  apply peq_nil_cons in H as [H1 H2]. rewrite IHa by auto. rewrite H1; ring.
Qed.

Lemma dot_peq_r : forall a x y, peq x y -> dot a x == dot a y.
Proof.
  induction a; destruct x, y; simpl; intros; try reflexivity.
  - apply peq_nil_cons in H as [H1 H2]. rewrite dot_peq_nil by auto. rewrite H1; ring.
  - symmetry in H. apply peq_nil_cons in H as [H1 H2]. rewrite dot_peq_nil by auto. rewrite H1; ring.
  - apply peq_cons in H as [H1 H2]. rewrite (IHa _ _ H2), H1; reflexivity.
Qed.

#[global] Instance dot_proper : Proper (peq ==> peq ==> Qeq) dot.
Proof.
  intros a b H x y H'. rewrite (dot_peq_r a _ _ H'), (dot_comm a), (dot_comm b).
  now apply dot_peq_r.
Qed.

Lemma dot_vadd_r : forall a x y, dot a (vadd x y) == dot a x + dot a y.
Proof.
  induction a; destruct x, y; simpl; intros; try ring. rewrite IHa; ring.
Qed.

Lemma dot_vadd_l : forall a b x, dot (vadd a b) x == dot a x + dot b x.
Proof.
  intros. rewrite dot_comm, dot_vadd_r, (dot_comm x a), (dot_comm x b); reflexivity.
Qed.

Lemma dot_vscale_r : forall a t x, dot a (vscale t x) == t * dot a x.
Proof. induction a; destruct x; simpl; intros; try ring. rewrite IHa; ring. Qed.

Lemma dot_vscale_l : forall a t x, dot (vscale t a) x == t * dot a x.
Proof. intros. rewrite dot_comm, dot_vscale_r, dot_comm; reflexivity. Qed.

Lemma dot_vopp_l : forall a x, dot (vopp a) x == - dot a x.
Proof. induction a; destruct x; simpl; intros; try ring. rewrite IHa; ring. Qed.

Lemma dot_app : forall a b x y, length a = length x -> dot (a ++ b) (x ++ y) == dot a x + dot b y.
Proof.
  induction a; destruct x; simpl; intros; try discriminate; try ring.
  rewrite IHa by lia; ring.
Qed.

Lemma dot_repeat0 : forall n x, dot (repeat 0 n) x == 0.
Proof. induction n; destruct x; simpl; try reflexivity. rewrite IHn; ring. Qed.

Lemma vadd_length : forall x y, length (vadd x y) = Nat.max (length x) (length y).
Proof. induction x; destruct y; simpl; auto. Qed.

Lemma vscale_length : forall t x, length (vscale t x) = length x.
Proof. intros; apply map_length. Qed.

Lemma vopp_length : forall x, length (vopp x) = length x.
Proof. intros; apply map_length. Qed.

Lemma nth_vadd : forall x y i, nth i (vadd x y) 0 == nth i x 0 + nth i y 0.
Proof.
  induction x; intros; simpl.
  - destruct i; ring.
  - destruct y; destruct i; simpl; try ring. apply IHx.
Qed.

Lemma nth_vscale : forall x t i, nth i (vscale t x) 0 == t * nth i x 0.
Proof. induction x; destruct i; simpl; try ring. apply IHx. Qed.

Lemma nth_vopp : forall x i, nth i (vopp x) 0 == - nth i x 0.
Proof. induction x; destruct i; simpl; try ring. apply IHx. Qed.

#[global] Instance vadd_proper : Proper (peq ==> peq ==> peq) vadd.
Proof. intros a b H x y H' i. rewrite !nth_vadd, (H i), (H' i); reflexivity. Qed.

#[global] Instance vscale_proper : Proper (Qeq ==> peq ==> peq) vscale.
Proof. intros a b H x y H' i. rewrite !nth_vscale, H, (H' i); reflexivity. Qed.

#[global] Instance vopp_proper : Proper (peq ==> peq) vopp.
Proof. intros x y H' i. rewrite !nth_vopp, (H' i); reflexivity. Qed.

(** Unit vectors. *)
Fixpoint unit (i : nat) : list Q :=
  match i with O => [1] | S j => 0 :: unit j end.

Lemma dot_unit : forall i x, dot (unit i) x == nth i x 0.
Proof.
  induction i; destruct x; simpl; try reflexivity; [ring|]. rewrite IHi; ring.
Qed.

Lemma dot_unit_r : forall i x, dot x (unit i) == nth i x 0.
Proof. intros. rewrite dot_comm; apply dot_unit. Qed.

Lemma peq_Forall2 : forall x y, length x = length y -> (peq x y <-> Forall2 Qeq x y).
Proof.
  induction x; destruct y; simpl; intros; try discriminate.
  - split; [constructor|reflexivity].
  - rewrite peq_cons, IHx by lia. split.
    + intros [? ?]; now constructor.
    + intro F; inversion F; auto.
Qed.

(** Affine functions: [r = [a0; a1; ...; ad]] stands for
    [a0 + a1 x1 + ... + ad xd]. *)
Definition rowval (r x : list Q) : Q := hd 0 r + dot (tl r) x.

Lemma rowval_dot : forall r x, rowval r x == dot r (1 :: x).
Proof. intros [|a r] x; unfold rowval; simpl; [reflexivity|ring]. Qed.

#[global] Instance rowval_proper : Proper (peq ==> peq ==> Qeq) rowval.
Proof.
  intros a b H x y H'. rewrite !rowval_dot. apply dot_proper; auto.
  apply peq_cons; split; [reflexivity|auto].
Qed.

Lemma rowval_vopp : forall r x, rowval (vopp r) x == - rowval r x.
Proof. intros. rewrite !rowval_dot. apply dot_vopp_l. Qed.

Lemma rowval_vscale : forall t r x, rowval (vscale t r) x == t * rowval r x.
Proof. intros. rewrite !rowval_dot. apply dot_vscale_l. Qed.

Lemma rowval_vadd : forall r s x, rowval (vadd r s) x == rowval r x + rowval s x.
Proof. intros. rewrite !rowval_dot. apply dot_vadd_l. Qed.

(** Point on the segment from [x] to [y]. *)
Definition mix (t : Q) (x y : point) : point := vadd (vscale (1 - t) x) (vscale t y).

Lemma rowval_mix : forall r t x y, rowval r (mix t x y) == (1 - t) * rowval r x + t * rowval r y.
Proof.
  intros. unfold rowval, mix. rewrite dot_vadd_r, !dot_vscale_r. ring.
Qed.

Lemma mix_length : forall t x y, length x = length y -> length (mix t x y) = length x.
Proof. intros. unfold mix. rewrite vadd_length, !vscale_length. lia. Qed.

Lemma nth_mix : forall t x y i, nth i (mix t x y) 0 == (1 - t) * nth i x 0 + t * nth i y 0.
Proof. intros. unfold mix. rewrite nth_vadd, !nth_vscale. reflexivity. Qed.

(** Sums. *)
Lemma qsum_app : forall a b, qsum (a ++ b) == qsum a + qsum b.
Proof. induction a; simpl; intros; [ring|]. rewrite IHa; ring. Qed.

Lemma qsum_map_ext : forall {A} (f g : A -> Q) l, (forall a, In a l -> f a == g a) ->
  qsum (map f l) == qsum (map g l).
Proof.
  induction l; simpl; intros; [reflexivity|]. rewrite H by auto. rewrite IHl by auto. reflexivity.
Qed.

Lemma qsum_map_add : forall {A} (f g : A -> Q) l,
  qsum (map (fun a => f a + g a) l) == qsum (map f l) + qsum (map g l).
Proof. induction l; simpl; [ring|]. rewrite IHl; ring. Qed.

Lemma qsum_map_scale : forall {A} (f : A -> Q) c l,
  qsum (map (fun a => c * f a) l) == c * qsum (map f l).
Proof. induction l; simpl; [ring|]. rewrite IHl; ring. Qed.

Lemma qsum_nonneg : forall l, Forall (fun w => 0 <= w) l -> 0 <= qsum l.
Proof. induction 1; simpl; [lra|]. lra. Qed.

Lemma qsum_map_nonneg : forall {A} (f : A -> Q) l, (forall a, In a l -> 0 <= f a) -> 0 <= qsum (map f l).
Proof.
  intros. apply qsum_nonneg. apply Forall_forall. intros x Hx. apply in_map_iff in Hx as (a & <- & Ha); auto.
Qed.

(** Weighted sums of vectors and convex hulls. *)
Fixpoint wsum (ws : list Q) (vs : list point) : point :=
  match ws, vs with
  | w :: ws', v :: vs' => vadd (vscale w v) (wsum ws' vs')
  | _, _ => []
  end.

Lemma dot_wsum : forall a ws vs, dot a (wsum ws vs) == dot ws (map (dot a) vs).
Proof.
  induction ws; destruct vs; simpl; intros; try apply dot_peq_nil; try reflexivity.
  rewrite dot_vadd_r, dot_vscale_r, IHws. reflexivity.
Qed.

Lemma nth_wsum : forall ws vs i, nth i (wsum ws vs) 0 == dot ws (map (fun v => nth i v 0) vs).
Proof.
  induction ws; destruct vs; simpl; intros; try (destruct i; reflexivity).
  rewrite nth_vadd, nth_vscale, IHws. reflexivity.
Qed.

Lemma wsum_length : forall n ws vs, Forall (fun v => length v = n) vs -> length ws = length vs ->
  vs <> [] -> length (wsum ws vs) = n.
Proof.
  induction ws; destruct vs; simpl; intros; try congruence; try discriminate.
  inversion H; subst. rewrite vadd_length, vscale_length.
  destruct vs as [|p0 vs].
  - destruct ws; simpl; lia.
  - rewrite (IHws (p0 :: vs)); auto; [lia|discriminate].
Qed.

(** [x] is a convex combination of the points of [vs]. *)
Definition conv (vs : list point) (x : point) : Prop :=
  exists ws, length ws = length vs /\ Forall (fun w => 0 <= w) ws /\ qsum ws == 1 /\
             peq x (wsum ws vs).

Lemma dot_ones : forall ws n, (length ws <= n)%nat -> dot ws (repeat 1 n) == qsum ws.
Proof.
  induction ws; intros; simpl; [reflexivity|]. destruct n; simpl in *; [lia|].
  rewrite IHws by lia. ring.
Qed.

Lemma rowval_wsum : forall r ws vs, length ws = length vs -> qsum ws == 1 ->
  rowval r (wsum ws vs) == dot ws (map (rowval r) vs).
Proof.
  intros. unfold rowval at 1. rewrite dot_wsum.
  assert (G : forall c, dot ws (map (fun v => c + dot (tl r) v) vs) == c * qsum ws + dot ws (map (dot (tl r)) vs)).
  { intro c. clear H0. revert vs H. induction ws; destruct vs; simpl; intros; try discriminate; try ring.
    rewrite IHws by lia. ring. }
  unfold rowval. rewrite G, H0. ring.
Qed.

Lemma dot_nonneg : forall ws l, Forall (fun w => 0 <= w) ws -> Forall (fun w => 0 <= w) l -> 0 <= dot ws l.
Proof.
  intros ws l H. revert l. induction H as [|x ws Hx H IHForall]; intros [|q l] Hl; simpl; try lra.
  apply Forall_cons_iff in Hl as [Hq Hl]. specialize (IHForall _ Hl).
  assert (0 <= x * q) by (now apply Qmult_le_0_compat). lra.
Qed.

(** An affine function that is non-negative on the generators is so on the hull. *)
Lemma conv_nonneg : forall vs x r, conv vs x -> Forall (fun v => 0 <= rowval r v) vs -> 0 <= rowval r x.
Proof.
  intros vs x r (ws & L & P & E & H) F. rewrite H, rowval_wsum by auto.
  apply dot_nonneg; auto. apply Forall_map. exact F.
Qed.

Lemma conv_zero : forall vs x r, conv vs x -> Forall (fun v => rowval r v == 0) vs -> rowval r x == 0.
Proof.
  intros vs x r C F. apply Qle_antisym.
  - assert (0 <= rowval (vopp r) x).
    { apply (conv_nonneg vs); auto. eapply Forall_impl; [|exact F]. cbv beta; intros.
      rewrite rowval_vopp, H. lra. }
    rewrite rowval_vopp in H. lra.
  - apply (conv_nonneg vs); auto. eapply Forall_impl; [|exact F]. cbv beta; intros. rewrite H; lra.
Qed.

#[global] Instance conv_proper : Proper (eq ==> peq ==> iff) conv.
Proof.
  intros vs vs' <- x y H. unfold conv. split; intros (ws & A & B & C & D); exists ws; repeat split; auto.
  - now rewrite <- H.
  - now rewrite H.
Qed.

Lemma wsum_repeat0 : forall vs n, peq (wsum (repeat 0 n) vs) [].
Proof.
  induction vs; destruct n; simpl; intros; try reflexivity.
  intro i. rewrite nth_vadd, nth_vscale, (IHvs n i). destruct i; simpl; ring.
Qed.

Lemma qsum_repeat0 : forall n, qsum (repeat 0 n) == 0.
Proof. induction n; simpl; [reflexivity|]. rewrite IHn; ring. Qed.

Lemma conv_in : forall vs v, In v vs -> conv vs v.
Proof.
  induction vs; intros v H; [destruct H|]. destruct H as [<-|H].
  - exists (1 :: repeat 0 (length vs)). repeat split.
    + simpl. now rewrite repeat_length.
    + constructor; [lra|]. apply Forall_forall. intros x Hx. apply repeat_spec in Hx. rewrite Hx; lra.
    + simpl. rewrite qsum_repeat0; ring.
    + simpl. rewrite wsum_repeat0. intro i. rewrite nth_vadd, nth_vscale. destruct i; simpl; ring.
  - destruct (IHvs v H) as (ws & A & B & C & D). exists (0 :: ws). repeat split.
    + simpl; lia.
    + constructor; [lra|auto].
    + simpl. rewrite C; ring.
    + simpl. intro i. rewrite nth_vadd, nth_vscale, (D i). ring.
Qed.

Lemma wsum_mix : forall t u w vs, length u = length w ->
  peq (wsum (mix t u w) vs) (mix t (wsum u vs) (wsum w vs)).
Proof.
  intros t u w vs. revert u w. induction vs; intros; intro i.
  - assert (forall l, wsum l [] = []) by (destruct l; reflexivity). rewrite !H0. simpl. destruct i; reflexivity.
  - destruct u, w; try discriminate.
    + simpl. destruct i; reflexivity.
    + simpl. unfold mix in *. simpl. rewrite nth_vadd, nth_vscale.
      rewrite (IHvs u w ltac:(simpl in H; lia) i).
      rewrite !nth_vadd, !nth_vscale, !nth_vadd, !nth_vscale. ring.
Qed.

Lemma qsum_vadd : forall x y, length x = length y -> qsum (vadd x y) == qsum x + qsum y.
Proof. induction x; destruct y; simpl; intros; try discriminate; [ring|]. rewrite IHx by lia; ring. Qed.

Lemma qsum_vscale : forall t x, qsum (vscale t x) == t * qsum x.
Proof. induction x; simpl; [ring|]. rewrite IHx; ring. Qed.

(** The hull is convex. *)
Lemma conv_mix : forall vs t x y, conv vs x -> conv vs y -> 0 <= t -> t <= 1 -> conv vs (mix t x y).
Proof.
  intros vs t x y (u & A & B & C & D) (w & A' & B' & C' & D') T0 T1.
  exists (mix t u w). repeat split.
  - rewrite mix_length; lia.
  - apply Forall_forall. intros z Hz. apply (In_nth _ _ 0) in Hz as (i & Hi & <-).
    rewrite nth_mix.
    assert (0 <= nth i u 0).
    { destruct (Nat.lt_ge_cases i (length u)); [|rewrite nth_overflow by lia; lra].
      apply (proj1 (Forall_forall _ _) B). now apply nth_In. }
    assert (0 <= nth i w 0).
    { destruct (Nat.lt_ge_cases i (length w)); [|rewrite nth_overflow by lia; lra].
      apply (proj1 (Forall_forall _ _) B'). now apply nth_In. }
    assert (0 <= (1 - t) * nth i u 0) by (apply Qmult_le_0_compat; lra).
    assert (0 <= t * nth i w 0) by (apply Qmult_le_0_compat; lra). lra.
  - unfold mix. rewrite qsum_vadd by (rewrite !vscale_length; lia). rewrite !qsum_vscale, C, C'. ring.
  - rewrite wsum_mix by lia. unfold mix. now rewrite D, D'.
Qed.

(** Size of a linear form in the sup norm. *)
Definition norm1 (a : list Q) : Q := qsum (map Qabs a).

Lemma norm1_nonneg : forall a, 0 <= norm1 a.
Proof. intro. apply qsum_map_nonneg. intros; apply Qabs_nonneg. Qed.

Lemma dot_bound : forall a x e, 0 <= e -> (forall i, Qabs (nth i x 0) <= e) -> Qabs (dot a x) <= e * norm1 a.
Proof.
  induction a; intros x e He H.
  - simpl. unfold norm1; simpl. ring_simplify. lra.
  - destruct x.
    + cbn [dot]. change (Qabs 0) with 0. apply Qmult_le_0_compat; auto. apply norm1_nonneg.
    + cbn [dot]. unfold norm1 in *. cbn [map qsum fold_right].
      eapply Qle_trans; [apply Qabs_triangle|].
      rewrite Qabs_Qmult.
      assert (Hd : Qabs (dot a0 x) <= e * qsum (map Qabs a0)) by (apply IHa; auto; intro i; exact (H (S i))).
      assert (Hm : Qabs a * Qabs q <= Qabs a * e).
      { rewrite !(Qmult_comm (Qabs a)). apply Qmult_le_compat_r; [exact (H 0%nat)|apply Qabs_nonneg]. }
      unfold qsum in Hd. lra.
Qed.

Lemma Forall2_len : forall {A B} (R : A -> B -> Prop) l m, Forall2 R l m -> length l = length m.
Proof. induction 1; simpl; auto. Qed.
