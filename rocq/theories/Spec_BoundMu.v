(** What is claimed of the bounds on mu. *)
From Verif Require Import Base Model_Text Model_Reference Spec_Reference Model_Interval Spec_Interval Model_Affine Spec_Affine
  Model_Hull Spec_Hull Model_ExponentPair Spec_ExponentPair Model_BoundMu.

(** The points (sigma, mu) of a list of bounds, and their convex hull: what follows
    from the bounds by the convexity of mu. *)
Definition mu_pts (bounds : list hnode) (p : pt) : Prop := exists b, In b bounds /\ n_data b = DMu (fst p) (snd p).
Definition mu_hull (bounds : list hnode) (p : pt) : Prop := hull2 (mu_pts bounds) p.

(** [v] is the least value at [s] that follows from the bounds by convexity. *)
Definition least_at (bounds : list hnode) (s v : Q) : Prop :=
  mu_hull bounds (s, v) /\ forall m, mu_hull bounds (s, m) -> v <= m.

(** The bounds that [get_bounds] is meant to produce: the bounds on mu in the set,
    mu(1) <= 0, mu(l-k) <= k for the exponent pairs, and the functional equation
    applied to those of them with sigma > 1/2. *)
Definition direct_bound (hs pairs : list hnode) (s m : Q) : Prop :=
  (exists h, In h hs /\ n_data h = DMu s m) \/ (s = 1 /\ m = 0) \/
  (exists p k l, In p pairs /\ n_data p = DPair k l /\ s = l - k /\ m = k).
Definition listed_bound (hs pairs : list hnode) (s m : Q) : Prop :=
  direct_bound hs pairs s m \/
  exists s' m', direct_bound hs pairs s' m' /\ 1#2 < s' /\ s = 1 - s' /\ m = m' + s' - (1#2).

(** The world in which the trivial bounds are the truth. *)
Definition trivial_world : zworld :=
  mkZ (fun a v => (if Qleb a (1#2) then a else 1#2) <= v)
      (fun s v => (1#2) - s <= v /\ (1 - s) / 2 <= v /\ 0 <= v).
