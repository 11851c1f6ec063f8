(** What zero density estimates assert, independently of the algorithms.
    Blueprint, chapter on zero density theorems. *)
From Verif Require Import Base Model_Text Model_Reference Model_Interval Model_Affine LinAlg Model_Polytope Spec_Polytope Model_Region Spec_Region
  Model_ExponentPair Spec_ExponentPair Model_LargeValues Spec_LargeValues Model_AdditiveEnergy Spec_AdditiveEnergy
  Model_RationalFunction Spec_RationalFunction Model_DensityEstimate.
From Coq Require Import Reals Qreals.
Open Scope list_scope.
Local Open Scope Q_scope.

(** [zd s v] reads "A(s) <= v", at rational [s]. *)
Record dworld : Type := mkDW { ener : eworld; zd : Q -> R -> Prop }.

(** The facts the derivations rest on: that the claims are upper bounds, the
    trivial bound for large values, and Corollary zero-large-cor-0. *)
Record d_admissible (W : dworld) : Prop := {
  d_en : en_admissible (ener W);
  zd_proper : forall s s' v, s == s' -> zd W s v -> zd W s' v;
  zd_mono : forall s v w, (v <= w)%R -> zd W s v -> zd W s w;
  lv_trivial : forall s t r, 1#2 <= s -> s <= 1 -> 0 <= t -> lv (low (ener W)) s t r -> r <= t;
  lv_zero : forall s t, 1#2 <= s -> s <= 1 -> 0 <= t -> lv (low (ener W)) s t 0;
  zd_large : forall s t0 b, 1#2 < s -> s < 1 -> 0 < t0 ->
    (forall t r, t0 <= t -> t <= 2 * t0 -> lv (low (ener W)) s t r -> (Q2R r <= b * Q2R t)%R) ->
    (forall t r, 2 <= t -> t < t0 -> zlv (low (ener W)) s t r -> (Q2R r <= b * Q2R t)%R) ->
    zd W s (b / (1 - Q2R s))%R }.

(** A bound on an interval as an estimate. *)
Definition zd_estimate (W : dworld) (f : rfun) (i : ivl R) : Prop :=
  forall s, 1#2 < s -> s < 1 -> inside i (Q2R s) -> ~ has_pole f (Q2R s) -> zd W s (rfval f (Q2R s)).

Section Truth.
Context (parse : str -> res rfun).
(** The bound that an estimate stands for. *)
Definition reads (z : zde) (f : rfun) : Prop :=
  z_bound z = Some f \/ (z_bound z = None /\ parse (z_expr z) = Ret f).

Context (tr : nat -> hnode -> res hnode) (btr : nat -> hnode -> res (list hnode)).
Definition zholds (W : dworld) (h : znode) : Prop :=
  match h with
  | ZNode _ d _ _ _ => forall f, reads d f -> zd_estimate W f (z_int d)
  | ZBase h => eholds tr btr (ener W) h
  end.
(** The recorded dependencies of a hypothesis suffice for it. *)
Definition zsupported (h : znode) : Prop :=
  forall W, d_admissible W -> Forall (zholds W) (zn_deps h) -> zholds W h.

(** The functions and intervals of the zero density estimates in a set. *)
Definition estimates_in (hs : list znode) (fs : list (rfun * ivl R)) : Prop :=
  forall f i, In (f, i) fs <-> exists n d p r ds, In (ZNode n d p r ds) hs /\ reads d f /\ i = z_int d.
Definition readable (hs : list znode) : Prop :=
  forall n d p r ds, In (ZNode n d p r ds) hs -> exists f, reads d f.
(** Where a piece of the result comes from: the placeholder, or an
    estimate whose interval contains that of the piece. *)
Definition taken_from (hs : list znode) (n : str) (f : rfun) (i : ivl R) (p : str) (r : reference) : Prop :=
  (n = s_of "Placeholder zero density estimate" /\ f = RationalFunction [inject_Z 1000000] None /\ r = ref_trivial) \/
  exists d ds, In (ZNode n d p r ds) hs /\ reads d f /\ (lo (z_int d) <= lo i)%R /\ (hi i <= hi (z_int d))%R.
End Truth.

(** Consecutive half-open intervals from [a] to [b], each with a bound. *)
Fixpoint estimates_tile (l : list znode) (a b : R) : Prop :=
  match l with
  | [] => a = b
  | ZNode _ d _ _ _ :: l' => lo (z_int d) = a /\ (lo (z_int d) < hi (z_int d))%R /\
      ilo (z_int d) = true /\ ihi (z_int d) = false /\ estimates_tile l' (hi (z_int d)) b
  | ZBase _ :: _ => False
  end.

(** The values of a piecewise function. *)
Definition piecewise (l : list (rfun * ivl R)) (x v : R) : Prop :=
  exists f i, In (f, i) l /\ inside i x /\ ~ has_pole f x /\ v = rfval f x.
(** Half-open pieces without removable poles. *)
Definition plain_pieces (l : list (rfun * ivl R)) : Prop :=
  forall f i, In (f, i) l -> ilo i = true /\ ihi i = false /\ (lo i <= hi i)%R /\
    forall x, has_pole f x -> reval (Model_RationalFunction.num f) x <> 0%R.
(** No two neighbours can be merged. *)
Fixpoint no_merge (l : list (rfun * ivl R)) : Prop :=
  match l with
  | (f, i) :: (((g, j) :: _) as l') => ~ (rf_eqb f g = true /\ hi i = lo j) /\ no_merge l'
  | _ => True
  end.

(** A world in which A(s) <= v for all v > 0, and A(s) <= 0 where [P] holds. *)
Definition density_world (Z : zworld) (P : Q -> Prop) : dworld :=
  mkDW (conj_world Z false) (fun s v => (0 < v)%R \/ ((0 <= v)%R /\ P s)).
