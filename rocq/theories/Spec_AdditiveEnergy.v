(** What large value energy regions assert, independently of the algorithms.
    Blueprint, chapter on additive energy. *)
From Verif Require Import Base Model_Text Model_Reference Model_Interval Model_Affine LinAlg Model_Polytope Spec_Polytope Model_Region Spec_Region
  Model_ExponentPair Spec_ExponentPair Model_LargeValues Spec_LargeValues Model_AdditiveEnergy.
Open Scope list_scope.

(** [en [s; t; r; e; z]] reads "(s, t, r, e, z) is in the large value energy
    region": there are large value patterns with these exponents, [r] for the
    number of large values, [e] for their additive energy (rho* ) and [z] for the
    double zeta sum.  [zen] is the same for zeta large values. *)
Record eworld : Type := mkEW { low : lworld; en : point -> Prop; zen : point -> Prop }.

(** The range in which regions are recorded. *)
Definition in_range5 (s t r e z : Q) : Prop :=
  in_range s t r /\ 0 <= e /\ e <= LV_DEFAULT_UPPER_BOUND /\ 0 <= z /\ z <= LV_DEFAULT_UPPER_BOUND.

(** Tuples whose energy and double zeta sum are certain to be in that range. *)
Definition recorded (s t r e z : Q) : Prop := in_range5 s t r e z /\ 3 * r + 2 <= LV_DEFAULT_UPPER_BOUND.

Definition max3 (a b c : Q) : Q := qmax a (qmax b c).

(** The inequality that an exponent pair (k, l) gives for the energy. *)
Definition energy_bound (k l s t r e : Q) : Prop :=
  e <= 1 - 2 * s + (1#2) * max3 (r + 1) ((5 * r + t) / 3) (((2 + 3 * k + 4 * l) * r + (k + l) * t) / (1 + 2 * k + 2 * l))
       + (1#2) * max3 (e + 1) (4 * r) ((3#4) * e + r + t / 2).

(** The facts the derivations rest on.  Raising to a power gives one pattern with
    the number of large values as expected and no more energy, and one with the
    energy as expected and no more large values. *)
Record en_admissible (W : eworld) : Prop := {
  en_low : lv_admissible (low W);
  en_proper : forall x y, Forall2 Qeq x y -> en W x -> en W y;
  zen_proper : forall x y, Forall2 Qeq x y -> zen W x -> zen W y;
  en_lv : forall s t r e z, en W [s; t; r; e; z] -> lv (low W) s t r;
  zen_zlv : forall s t r e z, 2 <= t -> zen W [s; t; r; e; z] -> zlv (low W) s t r;
  zen_en : forall s t r e z, 1#2 <= s -> s <= 1 -> 2 <= t -> zen W [s; t; r; e; z] -> en W [s; t; r; e; z];
  lv_en : forall s t r, 1#2 <= s -> s <= 1 -> 0 <= t -> 0 <= r -> lv (low W) s t r -> exists e z, en W [s; t; r; e; z];
  zlv_zen : forall s t r, 1#2 <= s -> s <= 1 -> 2 <= t -> 0 <= r -> zlv (low W) s t r -> exists e z, zen W [s; t; r; e; z];
  en_sizes : forall s t r e z, en W [s; t; r; e; z] -> 0 <= r /\ 2 * r <= e /\ e <= 3 * r /\ 0 <= z /\ z <= 2 * r + 2;
  en_power : forall s t r e z (k : Z), (1 <= k)%Z -> en W [s; t; r; e; z] ->
    (exists e' z', e' <= e / inject_Z k /\ en W [s; t / inject_Z k; r / inject_Z k; e'; z']) /\
    (exists r' z', r' <= r / inject_Z k /\ en W [s; t / inject_Z k; r'; e / inject_Z k; z']);
  en_pair : forall k l s t r e z, exp_pair (base (low W)) k l -> 0 < k -> en W [s; t; r; e; z] -> energy_bound k l s t r e }.

(** A region as an estimate: there are no patterns outside it. *)
Definition lver_estimate (W : eworld) (R : region) : Prop :=
  forall s t r e z, recorded s t r e z -> en W [s; t; r; e; z] -> denote R [s; t; r; e; z].
Definition zlver_estimate (W : eworld) (R : region) : Prop :=
  forall s t r e z, recorded s t r e z -> 2 <= t -> zen W [s; t; r; e; z] -> denote R [s; t; r; e; z].
Definition energy_estimate (W : eworld) (R : region) : Prop :=
  forall s t r e z, recorded s t r e z -> en W [s; t; r; e; z] -> denote R [s; t; e].

(** Regions to which the power rule applies: blueprint, Lemma lver_e_mono_crit,
    for the two patterns above. *)
Definition power_closed (R : region) : Prop := forall s t r e z r' e' z1 z2,
  recorded s t r e z -> r' <= r -> e' <= e ->
  denote R [s; t; r; e'; z1] -> denote R [s; t; r'; e; z2] -> denote R [s; t; r; e; z].

Section Truth.
Context (tr : nat -> hnode -> res hnode) (btr : nat -> hnode -> res (list hnode)).

(** Truth of a hypothesis; a transform is true when it only produces truth from
    the regions to which the power rule applies. *)
Definition eholds (W : eworld) (h : enode) : Prop :=
  match e_data h with
  | DLVER r => lver_estimate W r
  | DLVERTrans k => forall h h' r, e_data h = DLVER r -> sized 5 r -> power_closed r -> lver_estimate W r ->
      raise_energy k h = Ret h' -> exists r', e_data h' = DLVER r' /\ lver_estimate W r'
  | DZLVER r => zlver_estimate W r
  | DEnergy r => energy_estimate W r
  | DLow d => lholds tr btr (low W) (LNode [] d ref_trivial [])
  end.

(** The recorded dependencies of a hypothesis suffice for it. *)
Definition esupported (h : enode) : Prop :=
  forall W, en_admissible W -> Forall (eholds W) (e_deps h) -> eholds W h.
End Truth.

(** What is asked of a set of hypotheses: regions without flat pieces to which
    the power rule applies, and natural powers. *)
Definition usable_lvers (hs : list enode) : Prop :=
  forall h r, In h hs -> e_data h = DLVER r -> disjoint_form r /\ leaves (solid 5) r.
Definition usable_zlvers (hs : list enode) : Prop :=
  forall h r, In h hs -> e_data h = DZLVER r -> disjoint_form r /\ leaves (solid 5) r.
Definition closed_lvers (hs : list enode) : Prop :=
  forall h r, In h hs -> e_data h = DLVER r -> power_closed r.
Definition natural_lver_powers (hs : list enode) : Prop :=
  forall t k, In t hs -> e_data t = DLVERTrans k -> natural_power k.

(** The pieces that are projected: within the region, with everything inside it
    and all of it but finitely many hyperplanes; all of it if the region has no
    intersections. *)
Definition pieces_of (R : region) (ps : list lpoly) : Prop :=
  Forall (solid 5) ps /\ (forall x, denote (RDisj (map RPoly ps)) x -> denote R x) /\
  (forall x, List.length x = 5%nat -> inside (denote R) x -> denote (RDisj (map RPoly ps)) x) /\
  (exists H, Forall (fun h => List.length h = 6%nat /\ ~ zero_row h) H /\
     forall x, denote R x -> denote (RDisj (map RPoly ps)) x \/ Exists (fun h => rowval h x == 0) H) /\
  (disj_only R -> forall x, denote R x -> denote (RDisj (map RPoly ps)) x).

(** The powers of the regions in a set. *)
Definition nonzero_lver_powers (hs : list enode) : Prop :=
  forall t k, In t hs -> e_data t = DLVERTrans k -> ~ k == 0.
Definition raised_lver (hs : list enode) (g : enode) : Prop :=
  exists t k h R, In t hs /\ e_data t = DLVERTrans k /\ In h hs /\ e_data h = DLVER R /\ raise_energy k h = Ret g.

(** The regions that the best region is computed from, and the tuples over the
    domain that they allow. *)
Definition used_lver (hs : list enode) (zeta : bool) (g : enode) : Prop :=
  (In g hs /\ exists R, e_data g = DLVER R) \/ raised_lver hs g \/
  (zeta = true /\ In g hs /\ exists R, e_data g = DZLVER R).
Definition lver_meet (hs : list enode) (zeta : bool) (dom : region) (x : point) : Prop :=
  exists s t r e z, x = [s; t; r; e; z] /\ denote dom [s; t] /\
    0 <= r /\ r <= LV_DEFAULT_UPPER_BOUND /\ 0 <= e /\ e <= LV_DEFAULT_UPPER_BOUND /\ 0 <= z /\ z <= LV_DEFAULT_UPPER_BOUND /\
    forall g R, used_lver hs zeta g -> e_data g = DLVER R \/ e_data g = DZLVER R -> denote R x.

(** A world in which LV(s, t) = min(t, 2 - 2 s) for s > 1/2 and LV(1/2, t) = t,
    and everything the facts leave open happens; without zeta large values if
    [z] is false. *)
Definition conj_lv (s t r : Q) : Prop := r <= t /\ (s <= 1#2 \/ r <= 2 - 2 * s).
Definition zeta_open (Z : zworld) (s t : Q) : Prop :=
  (forall v, 0 < t -> beta_le Z (1 / t) v -> s <= t * v) /\
  (forall s0 m, 0 < t -> 1#2 <= s0 -> s0 <= 1 -> mu_le Z s0 m -> s <= s0 + t * m).
Definition conj_en (s t r e z : Q) : Prop :=
  conj_lv s t r /\ 1#2 <= s /\ s <= 1 /\ 0 <= r /\ 2 * r <= e /\ e <= 3 * r /\ r + 2 <= z /\ z <= 2 * r + 2.
Definition conj_world (Z : zworld) (zeta : bool) : eworld :=
  mkEW (mkLW Z conj_lv (fun s t r => zeta = true /\ conj_lv s t r /\ zeta_open Z s t))
    (fun x => exists s t r e z, x = [s; t; r; e; z] /\ conj_en s t r e z)
    (fun x => exists s t r e z, x = [s; t; r; e; z] /\ zeta = true /\ conj_en s t r e z /\ zeta_open Z s t).
