(** What is claimed of the search for proofs of exponent pairs. *)
From Verif Require Import Base Model_Text Model_Reference Spec_Reference Model_Interval Spec_Interval Model_Affine Spec_Affine
  Model_Polytope Model_Hull Spec_Hull Model_ExponentPair Spec_ExponentPair.

(** Three members of a list, in the order of the list. *)
Definition in_order {A} (l : list A) (a b c : A) : Prop := exists l1 l2 l3 l4, l = l1 ++ a :: l2 ++ b :: l3 ++ c :: l4.

(** The bounds on beta of the set can be converted safely, also when only the
    older ones are used. *)
Definition beta_safe (hs : list hnode) : Prop :=
  Forall (fun h => is_beta h = true -> wf (dom (bound_of h))) hs /\
  forall sub bb b0, incl sub hs -> best_beta_nodes sub = Ret bb -> hd_error bb = Some b0 ->
    x0 (dom (bound_of b0)) <= 0 -> 1#2 <= x1 (dom (bound_of (last bb b0))) ->
    beta_guard bb /\ forall a, 0 <= a -> a <= 1#2 -> exists h, In h sub /\ is_beta h = true /\ covers (bound_of h) a.

(** A hypothesis counts as known in the year [y]: it is dated no later, or not dated. *)
Definition known_in (y : Z) (h : hnode) : Prop :=
  r_year (n_ref h) = unknown_date \/ exists z, r_year (n_ref h) = VInt z /\ (z <= y)%Z.

(** The order in which a set is traversed does not change its members. *)
Definition traversal (ord : list hnode -> list hnode) : Prop := forall l x, In x (ord l) <-> In x l.

(** The same as a test. *)
Definition known_b (y : Z) (h : hnode) : bool :=
  match r_year (n_ref h) with VInt z => (z <=? y)%Z | v => val_eqb v unknown_date end.

(** Everything known in the year [y], with what the conversion of bounds on beta and
    the transforms add to it; the pair is out of its reach. *)
Section Year.
Context (ch : hull_routine) (tr : nat -> hnode -> res hnode) (ord : list hnode -> list hnode).
Definition known_set (hs : list hnode) (y : Z) (S : list hnode) : Prop :=
  exists new new', let known := ord (filter (known_b y) hs) in
    beta_bounds_to_exponent_pairs ch tr known = Ret new /\
    compute_exp_pairs ch tr (ord (known ++ new)) 5 true = Ret new' /\ S = ord (ord (known ++ new) ++ new').
Definition out_of_reach (hs : list hnode) (y : Z) (k l : Q) : Prop :=
  exists S, known_set hs y S /\ ~ hull2 (node_keys S) (k, l).
End Year.
