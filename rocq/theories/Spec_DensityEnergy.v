(** What zero density energy estimates assert, independently of the algorithms.
    Blueprint, chapter on zero density energy theorems. *)
From Verif Require Import Base Model_Text Model_Reference Model_Interval LinAlg Model_Polytope Spec_Polytope Model_Region Spec_Region
  Model_ExponentPair Spec_ExponentPair Model_LargeValues Spec_LargeValues Model_AdditiveEnergy Spec_AdditiveEnergy
  Model_RationalFunction Spec_RationalFunction Model_DensityEstimate Spec_DensityEstimate Model_DensityEnergy.
From Coq Require Import Reals Qreals.
Open Scope list_scope.
Local Open Scope Q_scope.

(** [ze s v] reads "A*(s) <= v", at rational [s]. *)
Record aworld : Type := mkAW { dens : dworld; ze : Q -> R -> Prop }.

(** The facts the derivations rest on: that the claims are upper bounds, A* <= 3 A,
    A*(1/2) = 6 with (1 - s) A*(s) falling, and Corollary zeroe-large-cor-0. *)
Record a_admissible (W : aworld) : Prop := {
  a_dens : d_admissible (dens W);
  ze_proper : forall s s' v, s == s' -> ze W s v -> ze W s' v;
  ze_mono : forall s v w, (v <= w)%R -> ze W s v -> ze W s w;
  ze_three : forall s v, 1#2 < s -> s < 1 -> zd (dens W) s v -> ze W s (3 * v)%R;
  ze_start : forall s, 1#2 < s -> s < 1 -> ze W s (3 / (1 - Q2R s))%R;
  ze_large : forall s t0 b, 1#2 < s -> s < 1 -> 0 < t0 ->
    (forall t r e z, t0 <= t -> t <= 2 * t0 -> en (ener (dens W)) [s; t; r; e; z] -> (Q2R e <= b * Q2R t)%R) ->
    (forall t r e z, 2 <= t -> t < t0 -> zen (ener (dens W)) [s; t; r; e; z] -> (Q2R e <= b * Q2R t)%R) ->
    ze W s (b / (1 - Q2R s))%R }.

(** A bound on an interval as an estimate. *)
Definition ze_estimate (W : aworld) (f : rfun) (i : ivl R) : Prop :=
  forall s, 1#2 < s -> s < 1 -> inside i (Q2R s) -> ~ has_pole f (Q2R s) -> ze W s (rfval f (Q2R s)).

Section Truth.
Context (parse : str -> res rfun) (tr : nat -> hnode -> res hnode) (btr : nat -> hnode -> res (list hnode)).
Definition aholds (W : aworld) (h : anode) : Prop :=
  match h with
  | ANode _ TEnergy d _ _ _ => forall f, reads parse d f -> ze_estimate W f (z_int d)
  | ANode _ TDensity d _ _ _ => forall f, reads parse d f -> zd_estimate (dens W) f (z_int d)
  | ABase h => zholds parse tr btr (dens W) h
  end.
Definition asupported (h : anode) : Prop :=
  forall W, a_admissible W -> Forall (aholds W) (a_deps h) -> aholds W h.

(** The functions and intervals of the zero density estimates and of the zero
    density energy estimates in a set. *)
Definition density_estimate_in (hs : list anode) (d : zde) : Prop :=
  (exists n p r ds, In (ANode n TDensity d p r ds) hs) \/ exists n p r ds, In (ABase (ZNode n d p r ds)) hs.
Definition energy_estimates_in (hs : list anode) (fs : list (rfun * ivl R)) : Prop :=
  forall f i, In (f, i) fs <-> exists n d p r ds, In (ANode n TEnergy d p r ds) hs /\ reads parse d f /\ i = z_int d.
Definition energy_readable (hs : list anode) : Prop :=
  forall n d p r ds, In (ANode n TEnergy d p r ds) hs -> exists f, reads parse d f.
(** Where a piece of the result comes from. *)
Definition energy_taken_from (hs : list anode) (n : str) (t : htype) (f : rfun) (i : ivl R) (p : str) (r : reference) : Prop :=
  (t = TDensity /\ n = s_of "Placeholder zero density estimate" /\ f = RationalFunction [inject_Z 1000000] None /\ r = ref_trivial) \/
  (t = TEnergy /\ exists d ds, In (ANode n TEnergy d p r ds) hs /\ reads parse d f /\ (lo (z_int d) <= lo i)%R /\ (hi i <= hi (z_int d))%R).
End Truth.

(** Consecutive half-open intervals from [a] to [b], each with a bound. *)
Fixpoint bounds_tile (l : list anode) (a b : R) : Prop :=
  match l with
  | [] => a = b
  | ANode _ _ d _ _ _ :: l' => lo (z_int d) = a /\ (lo (z_int d) < hi (z_int d))%R /\
      ilo (z_int d) = true /\ ihi (z_int d) = false /\ bounds_tile l' (hi (z_int d)) b
  | ABase _ :: _ => False
  end.

(** A world in which A*(s) <= v for all v > 0, and A*(s) <= 0 where [P] holds. *)
Definition energy_world (Z : zworld) (P : Q -> Prop) : aworld :=
  mkAW (density_world Z P) (fun s v => (0 < v)%R \/ ((0 <= v)%R /\ P s)).

(** The text of an estimate is a formula for its bound. *)
Definition plain_text (parse : str -> res rfun) (d : zde) : Prop :=
  exists f, parse (z_expr d) = Ret f /\
    forall b, z_bound d = Some b -> forall x, (has_pole f x <-> has_pole b x) /\ rfval f x = rfval b x.
