(** Edges and corners of a polytope as a set of points. *)
From Verif Require Import Base LinAlg Model_Polytope Spec_Polytope.

Definition between (v w x : point) : Prop := exists t, 0 <= t /\ t <= 1 /\ Forall2 Qeq x (mix t v w).

(** The segment from [v] to [w] is a face: a point of it is strictly between two
    points of the set only if these are on the segment too. *)
Definition is_edge (m : mat) (v w : point) : Prop :=
  mmember m v /\ mmember m w /\ ~ Forall2 Qeq v w /\
  forall x y t, mmember m x -> mmember m y -> 0 < t -> t < 1 -> between v w (mix t x y) -> between v w x /\ between v w y.

Definition is_corner (m : mat) (v : point) : Prop :=
  mmember m v /\ forall x y t, mmember m x -> mmember m y -> 0 < t -> t < 1 -> Forall2 Qeq v (mix t x y) ->
    Forall2 Qeq v x /\ Forall2 Qeq v y.

(** What is assumed of [cdd.Polyhedron.get_adjacency]: there is one list for each
    vertex, made of indices of vertices, and every edge is listed. *)
Definition adjacency_ok (E : ext) (adjacency : mat -> list (list nat)) : Prop :=
  forall m, wf_mat m -> mbounded m ->
    List.length (adjacency m) = List.length (generators E m) /\
    (forall l j, In l (adjacency m) -> In j l -> (j < List.length (generators E m))%nat) /\
    forall v w, is_edge m v w -> exists i j, In j (nth i (adjacency m) []) /\
      Forall2 Qeq v (nth i (generators E m) []) /\ Forall2 Qeq w (nth j (generators E m) []).
