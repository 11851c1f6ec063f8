(** What the literature gives for zero densities from exponent pairs: blueprint,
    chapter on zero density theorems, lemma "General zero density estimate" (Ivic) and
    theorem "Bourgain zero density theorem". *)
From Verif Require Import Base Model_Text Model_Reference Model_ExponentPair Spec_ExponentPair Model_LargeValues Spec_LargeValues
  Model_AdditiveEnergy Spec_AdditiveEnergy Model_RationalFunction Spec_RationalFunction Model_DensityEstimate Spec_DensityEstimate.
From Coq Require Import Reals Qreals.
Open Scope list_scope.
Local Open Scope Q_scope.

Definition pairs_of (W : dworld) : zworld := base (low (ener W)).

(** ** Ivic *)
(** From this value of sigma on the lemma applies. *)
Definition ivic_lower (m : Z) (k l : Q) : Q :=
  let M := inject_Z m in
  qmin ((6 * (M * M) - 5 * M + 2) / (8 * (M * M) - 7 * M + 2))
    (qmax ((9 * (M * M) - 4 * M + 2) / (12 * (M * M) - 6 * M + 2))
      ((3 * (M * M) * (1 + 2 * k + 2 * l) - (4 * k + 2 * l) * M + 2 * k + 2 * l) / (4 * (M * M) * (1 + 2 * k + 2 * l) - (6 * k + 4 * l) * M + 2 * k + 2 * l))).
Definition ivic_value (m : Z) (s : R) : R := (IZR (3 * m) / (IZR (3 * m - 2) * s + IZR (2 - m)))%R.
Definition ivic_theorem (W : dworld) : Prop :=
  forall m k l s, (2 <= m)%Z -> exp_pair (pairs_of W) k l -> 1#2 < s -> s < 1 -> ivic_lower m k l <= s -> zd W s (ivic_value m (Q2R s)).

(** The hypothesis says that (k, l) is an exponent pair. *)
Definition says_pair (h : hnode) (k l : Q) : Prop := n_data h = DPair k l.

(** ** Bourgain *)
Definition bourgain_value (k l : Q) (s : R) : R := (4 * Q2R k / (2 * (1 + Q2R k) * s - 1 - Q2R l))%R.
Definition bourgain_pole (k l : Q) : Q := (l + 1) / (2 * (k + 1)).
Definition bourgain_limit (k l : Q) : Q := (144 * k - 11 * l - 11) / (170 * k - 22).
Definition bourgain_applies (k l s : Q) : Prop :=
  k < 1#5 /\ 3#5 < l /\ 13 < 15 * l + 20 * k /\ bourgain_pole k l < s /\ (k < 11#85 \/ (11#85 < k /\ bourgain_limit k l < s)).
(** The theorem, with what makes it pass to limits: the trivial pair (0, 1), and
    that A(s) <= v if A(s) <= w for all w > v. *)
Record bourgain_facts (W : dworld) : Prop := {
  bf_upper : upper (beta_le (pairs_of W));
  bf_trivial : exp_pair (pairs_of W) 0 1;
  bf_closed : forall s v, (forall w, (v < w)%R -> zd W s w) -> zd W s v;
  bf_mono : forall s v w, (v <= w)%R -> zd W s v -> zd W s w;
  bf_theorem : forall k l s, exp_pair (pairs_of W) k l -> 1#2 < s -> s < 1 -> bourgain_applies k l s -> zd W s (bourgain_value k l (Q2R s)) }.

(** The pairs that are used, and where the bound of a pair starts. *)
Definition in_scope (kl : Q * Q) : Prop := fst kl <= 1#5 /\ 3#5 <= snd kl /\ 13 <= 15 * snd kl + 20 * fst kl.
Definition start (kl : Q * Q) : Q :=
  let '(k, l) := kl in
  let s := qmax (1#2) (bourgain_pole k l) in if Qlt_le_dec (11#85) k then qmax s (bourgain_limit k l) else s.
Definition used (eps : list (Q * Q)) (kl : Q * Q) : Prop := In kl eps /\ in_scope kl /\ start kl < 1.
(** Two positions in the list hold pairs that are used. *)
Definition two_used (eps : list (Q * Q)) : Prop :=
  exists l1 kl l2 kl' l3, eps = l1 ++ kl :: l2 ++ kl' :: l3 /\ used eps kl /\ used eps kl'.

(** The table in corollary "Optimized Bourgain zero density bound". *)
Definition table_row (s : R) (r : Q * (Q * (Q * Q))) (rest : R) : R :=
  let '(b, (n, (p, q))) := r in if Rle_dec s (Q2R b) then (Q2R n / (Q2R p * s - Q2R q))%R else rest.
Definition corollary_table : list (Q * (Q * (Q * Q))) :=
  [(14#15, (11, (48, 36))); (2841#3016, (391, (2493, 2014))); (859#908, (22232, (163248, 134765)));
   (635113#655952, (4406612, (33911310, 28181831))); (637457#656512, (3918, (49189, 43490)));
   (39#40, (2351558, (39632665, 35918731))); (59#60, (1780, (35670, 32717))); (1, (6, (303, 290)))].
Definition corollary_value (s : R) : R := fold_right (table_row s) 0%R corollary_table.

(** A world in which the exponent pair conjecture and A(s) <= 0 hold. *)
Definition best_world : dworld :=
  mkDW (mkEW (mkLW (Spec_ExponentPair.mkZ (fun a v => a * (1#2) <= v) (fun s v => 0 <= v /\ (1#2) - s <= v)) (fun _ _ _ => False) (fun _ _ _ => False)) (fun _ => False) (fun _ => False))
    (fun _ v => (0 <= v)%R).

(** A world in which (0, 1) is the only exponent pair and A(s) is 100. *)
Definition weak_world : dworld :=
  mkDW (mkEW (mkLW (Spec_ExponentPair.mkZ (fun a v => a <= v) (fun _ _ => False)) (fun _ _ _ => False) (fun _ _ _ => False)) (fun _ => False) (fun _ => False))
    (fun _ v => (100 <= v)%R).
