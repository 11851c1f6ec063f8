(** What large value estimates assert, independently of the algorithms.
    Blueprint, chapters on large values and on zeta large values. *)
From Verif Require Import Base Model_Text Model_Reference Model_Interval Model_Affine LinAlg Model_Polytope Spec_Polytope Model_Region Spec_Region
  Model_ExponentPair Spec_ExponentPair Model_LargeValues.
Open Scope list_scope.

(** [lv s t r] reads "LV(s, t) >= r", [zlv s t r] the same for LV_zeta. *)
Record lworld : Type := mkLW { base : zworld; lv : Q -> Q -> Q -> Prop; zlv : Q -> Q -> Q -> Prop }.

(** The range in which estimates are recorded. *)
Definition in_range (s t r : Q) : Prop :=
  1#2 <= s /\ s <= 1 /\ 0 <= t /\ t <= TAU_UPPER_LIMIT /\ 0 <= r /\ r <= LV_DEFAULT_UPPER_BOUND.

(** The facts the derivation rules rest on: raising to a power, LV_zeta <= LV,
    the trivial bound LV_zeta <= tau, and the vanishing of LV_zeta beyond what
    beta and mu allow. *)
Record lv_admissible (W : lworld) : Prop := {
  lv_base : admissible (base W);
  lv_proper : forall s s' t t' r r', s == s' -> t == t' -> r == r' -> lv W s t r -> lv W s' t' r';
  zlv_proper : forall s s' t t' r r', s == s' -> t == t' -> r == r' -> zlv W s t r -> zlv W s' t' r';
  lv_power : forall s t r (k : Z), (1 <= k)%Z -> 1#2 <= s -> s <= 1 -> 0 <= t ->
    lv W s (inject_Z k * t) (inject_Z k * r) -> lv W s t r;
  zlv_lv : forall s t r, 1#2 <= s -> s <= 1 -> 2 <= t -> zlv W s t r -> lv W s t r;
  zlv_trivial : forall s t r, 1#2 <= s -> s <= 1 -> 2 <= t -> zlv W s t r -> r <= t;
  zlv_beta : forall s t r v, 0 < t -> beta_le (base W) (1 / t) v -> t * v < s -> ~ zlv W s t r;
  zlv_mu : forall s t r s0 m, 0 < t -> 1#2 <= s0 -> s0 <= 1 -> mu_le (base W) s0 m -> s0 + t * m < s -> ~ zlv W s t r;
  mu_nonneg : forall s m, 1 <= s -> mu_le (base W) s m -> 0 <= m }.

(** Regions in dimension [d] as the constructors build them. *)
Definition sized (d : nat) : region -> Prop :=
  leaves (fun p => good (body p) /\ mrows (pmat (body p)) <> [] /\ has_dim d p).

(** A region as a large value estimate: outside it there are no large values. *)
Definition lv_estimate (W : lworld) (r : region) : Prop :=
  forall s t u, in_range s t u -> lv W s t u -> denote r [s; t; u].
Definition zlv_estimate (W : lworld) (r : region) : Prop :=
  forall s t u, in_range s t u -> 2 <= t -> zlv W s t u -> denote r [s; t; u].

Section Truth.
Context (tr : nat -> hnode -> res hnode) (btr : nat -> hnode -> res (list hnode)).

(** Truth of a hypothesis; a transform is true when it only produces truth. *)
Definition lholds (W : lworld) (h : lnode) : Prop :=
  match l_data h with
  | DLV r _ => lv_estimate W r
  | DLVTrans k => forall h h' r rep, l_data h = DLV r rep -> sized 3 r -> lv_estimate W r -> raise_to_power k h = Ret h' ->
      exists r' rep', l_data h' = DLV r' rep' /\ lv_estimate W r'
  | DZLV r _ => zlv_estimate W r
  | DBase d => holds tr btr (base W) (HNode [] d ref_trivial [])
  end.

(** The recorded dependencies of a hypothesis suffice for it. *)
Definition lsupported (h : lnode) : Prop :=
  forall W, lv_admissible W -> Forall (lholds W) (l_deps h) -> lholds W h.

(** [h] rests on the set [hs]. *)
Inductive lgrounded (hs : list lnode) : lnode -> Prop :=
| lgrounded_in : forall h, In h hs -> lgrounded hs h
| lgrounded_by : forall h, lsupported h -> (forall d, In d (l_deps h) -> lgrounded hs d) -> lgrounded hs h.
End Truth.

(** The bound [c0 + c1 * s + c2 * t]. *)
Definition bound_at (b : list Q) (s t : Q) : Q := nth 0 b 0 + nth 1 b 0 * s + nth 2 b 0 * t.

(** The power of a transform is a natural number, as in the published rule. *)
Definition natural_power (k : Q) : Prop := exists n, (1 <= n)%Z /\ k == inject_Z n.

(** A world in which everything the facts above leave open happens. *)
Definition widest (Z : zworld) : lworld :=
  mkLW Z (fun _ t r => r <= t)
    (fun s t r => r <= t /\ (forall v, 0 < t -> beta_le Z (1 / t) v -> s <= t * v) /\
       (forall s0 m, 0 < t -> 1#2 <= s0 -> s0 <= 1 -> mu_le Z s0 m -> s <= s0 + t * m)).

(** What is asked of a set of hypotheses: estimates as the constructors build
    them, transforms with natural powers, bounds on beta on proper intervals. *)
Definition sized_lv (hs : list lnode) : Prop := forall h r rep, In h hs -> l_data h = DLV r rep -> sized 3 r.
Definition natural_powers (hs : list lnode) : Prop := forall t k, In t hs -> l_data t = DLVTrans k -> natural_power k.
Definition wf_beta (hs : list lnode) : Prop :=
  forall h b, In (LBase h) hs -> n_data h = DBeta b -> x0 (dom b) <= x1 (dom b).
