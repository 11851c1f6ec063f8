(** What exponent pairs and bounds on beta and mu assert, independently of the
    algorithms: truth in a "world", that is for a pair of functions beta, mu.
    Blueprint, chapters on exponent pairs, beta and mu. *)
From Verif Require Import Base Model_Text Model_Reference Spec_Reference Model_Interval Spec_Interval Model_Affine Spec_Affine
  Model_Hull Spec_Hull Model_ExponentPair.

(** [beta_le a v] reads "beta(a) <= v", [mu_le s v] reads "mu(s) <= v". *)
Record zworld : Type := mkZ { beta_le : Q -> Q -> Prop; mu_le : Q -> Q -> Prop }.

(** Upper bounds stay upper bounds when they are raised. *)
Definition upper (f : Q -> Q -> Prop) : Prop :=
  forall x x' v v', x == x' -> v <= v' -> f x v -> f x' v'.

(** The triangle in which exponent pairs lie. *)
Definition triangle (k l : Q) : Prop := 0 <= k /\ k <= 1#2 /\ 1#2 <= l /\ l <= 1 /\ k + l <= 1.

(** Exponent pairs through their duality with beta. *)
Definition exp_pair (W : zworld) (k l : Q) : Prop :=
  triangle k l /\ forall a, 0 <= a -> a <= 1 -> beta_le W a (k + (l - k) * a).

(** The facts about beta and mu that the derivation rules rest on: the
    reflection law of beta, convexity and functional equation of mu, the trivial
    bound to the right of 1, and the bound on mu from an exponent pair. *)
Record admissible (W : zworld) : Prop := {
  beta_upper : upper (beta_le W);
  mu_upper : upper (mu_le W);
  beta_reflect : forall a v, 0 <= a -> a <= 1#2 ->
    (beta_le W a v <-> beta_le W (1 - a) ((1#2) - a + v));
  mu_right : forall s, 1 <= s -> mu_le W s 0;
  mu_convex : forall s1 m1 s2 m2 t, mu_le W s1 m1 -> mu_le W s2 m2 -> 0 <= t -> t <= 1 ->
    mu_le W ((1 - t) * s1 + t * s2) ((1 - t) * m1 + t * m2);
  mu_functional : forall s m, mu_le W s m -> mu_le W (1 - s) (m + s - (1#2));
  mu_from_pair : forall k l, exp_pair W k l -> mu_le W (l - k) k }.

(** A bound on beta holds where it is stated. *)
Definition beta_bound (W : zworld) (b : affine) : Prop :=
  forall a, covers b a -> beta_le W a (value b a).

Section Truth.
Context (tr : nat -> hnode -> res hnode) (btr : nat -> hnode -> res (list hnode)).

(** Truth of a hypothesis; a transform is true when it only produces truth. *)
Definition holds (W : zworld) (h : hnode) : Prop :=
  match n_data h with
  | DPair k l => exp_pair W k l
  | DTrans t => forall h k l h', n_data h = DPair k l -> exp_pair W k l -> tr t h = Ret h' ->
      exists k' l', n_data h' = DPair k' l' /\ exp_pair W k' l'
  | DBetaTrans t => forall h k l out h', n_data h = DPair k l -> exp_pair W k l -> btr t h = Ret out ->
      In h' out -> exists b, n_data h' = DBeta b /\ beta_bound W b
  | DBeta b => beta_bound W b
  | DMu s m => mu_le W s m
  end.

(** The recorded dependencies of a hypothesis suffice for it. *)
Definition supported (h : hnode) : Prop :=
  forall W, admissible W -> Forall (holds W) (n_deps h) -> holds W h.

(** Reachable from a set of pairs with exactly [n] applications of transforms. *)
Inductive reach (ps ts : list hnode) : nat -> hnode -> Prop :=
| reach_in : forall h, In h ps -> reach ps ts 0 h
| reach_step : forall n h t h', reach ps ts n h -> In t ts -> apply_trans tr t h = Ret h' ->
    reach ps ts (S n) h'.
End Truth.

(** [p] is a combination of [a], [b] and [c] with weights that are non-negative
    and sum to one. *)
Definition in_conv3 (a b c p : pt) : Prop :=
  exists u v w, 0 <= u /\ 0 <= v /\ 0 <= w /\ u + v + w == 1 /\
    fst p == u * fst a + v * fst b + w * fst c /\ snd p == u * snd a + v * snd b + w * snd c.

Definition node_keys (hs : list hnode) (p : pt) : Prop := exists h, In h hs /\ is_pair h = true /\ p = key_of h.

(** The line of the bound on beta that belongs to a pair. *)
Definition pair_line (p : pt) (a : Q) : Q := fst p + (snd p - fst p) * a.

(** The classical transforms on points: van der Corput's A and B, Sargos' C. *)
Definition A_map (p : pt) : pt := (fst p / (2 * fst p + 2), (1#2) + snd p / (2 * fst p + 2)).
Definition B_map (p : pt) : pt := (snd p - (1#2), fst p + (1#2)).
Definition C_map (p : pt) : pt :=
  (fst p / (12 * (1 + 4 * fst p)), (11 * (1 + 4 * fst p) + snd p) / (12 * (1 + 4 * fst p))).


(** The van der Corput pair number [j]: (1/(2^j - 2), 1 - (j - 1)/(2^j - 2)). *)
Definition vdc_den (k : nat) : Q := inject_Z (2 ^ Z.of_nat k - 2).

Definition is_vdc (j : nat) (h : hnode) : Prop :=
  exists k l, n_data h = DPair k l /\ k == 1 / vdc_den j /\
    l == 1 - (inject_Z (Z.of_nat j) - 1) / vdc_den j.


(** Hypotheses whose year can be compared. *)
Definition proper_node (h : hnode) : Prop := proper_year (r_year (n_ref h)).

(** One of the transforms A, B, C of the literature. *)
Definition lit_node (t : hnode) : Prop := n_data t = DTrans 0 \/ n_data t = DTrans 1 \/ n_data t = DTrans 2.

Definition same_pair (a b : hnode) : Prop := is_pair a = true /\ is_pair b = true /\ pt_eq (key_of a) (key_of b).


Section Maps.
Context (tr : nat -> hnode -> res hnode).
(** The result of a transform depends on the pair only. *)
Definition determined (t : hnode) : Prop := forall h1 h2 a b,
  is_pair h1 = true -> is_pair h2 = true -> pt_eq (key_of h1) (key_of h2) ->
  apply_trans tr t h1 = Ret a -> apply_trans tr t h2 = Ret b ->
  is_pair a = is_pair b /\ pt_eq (key_of a) (key_of b).

Record convex_dom (D : pt -> Prop) : Prop := {
  dom_eq : forall p q, pt_eq p q -> D p -> D q;
  dom_mix : forall p q t, D p -> D q -> 0 <= t -> t <= 1 -> D (pmix t p q) }.

(** [f] maps segments inside [D] into the segments between the images. *)
Record segment_map (D : pt -> Prop) (f : pt -> pt) : Prop := {
  sm_eq : forall p q, D p -> pt_eq p q -> pt_eq (f p) (f q);
  sm_dom : forall p, D p -> D (f p);
  sm_seg : forall p q t, D p -> D q -> 0 <= t -> t <= 1 ->
    exists s, 0 <= s /\ s <= 1 /\ pt_eq (f (pmix t p q)) (pmix s (f p) (f q)) }.

(** The transform [t] acts on pairs in [D] as [f]. *)
Definition acts_as (D : pt -> Prop) (t : hnode) (f : pt -> pt) : Prop :=
  forall h h', is_pair h = true -> D (key_of h) -> apply_trans tr t h = Ret h' ->
    is_pair h' = true /\ pt_eq (key_of h') (f (key_of h)).

End Maps.

(** Sargos' D: blueprint, chapter on exponent pairs, theorem "Sargos D-process". *)
Definition D_map (p : pt) : pt :=
  let d := 8 * (5 * fst p + 3 * snd p + 2) in
  ((5 * fst p + snd p + 2) / d, (29 * fst p + 21 * snd p + 10) / d).

(** The pairs in the triangle, as a set of points. *)
Definition tri_set (p : pt) : Prop := triangle (fst p) (snd p).
Definition in_tri (h : hnode) : Prop := tri_set (key_of h).

(** An end of the graph of a bound on beta. *)
Definition piece_end (h : hnode) (p : pt) : Prop :=
  let b := bound_of h in
  p = (x0 (dom b), value b (x0 (dom b))) \/ p = (x1 (dom b), value b (x1 (dom b))).

(** What the conversion of bounds on beta into pairs silently relies on: the
    bounds are stated inside [0,1/2], are non-negative and at most alpha for
    alpha > 0, and from every end the value rises to the right end of the graph
    with a slope of at least 1/2. *)
Record beta_guard (bb : list hnode) : Prop := {
  g_dom : forall h p, In h bb -> piece_end h p -> 0 <= fst p /\ fst p <= 1#2;
  g_nonneg : forall h p, In h bb -> piece_end h p -> 0 <= snd p;
  g_small : forall h p, In h bb -> piece_end h p -> 0 < fst p -> snd p <= fst p;
  g_slope : exists h p, In h bb /\ piece_end h p /\ fst p == 1#2 /\ 1#4 <= snd p /\
    forall h' q, In h' bb -> piece_end h' q -> snd q + ((1#2) - fst q) / 2 <= snd p }.

(** [h] is the bound on beta stated by a pair in the triangle. *)
Definition pair_bound (h : hnode) (k l : Q) : Prop :=
  triangle k l /\ n_data h = DBeta (mkA (l - k) k half_interval None).
