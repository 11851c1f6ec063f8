(** Model of blueprint/src/python/zero_density_estimate.py: the supremum of
    rho / tau over a list of polytopes.

    The adjacency list of a polyhedron (cdd) and the solutions of an equation
    (sympy) are parameters.  Exact fractions are embedded in the reals, where
    the piecewise maximum is taken. *)
From Verif Require Import Base LinAlg Model_Polytope Model_RationalFunction Spec_RationalFunction.
From Coq Require Import Reals Qreals.
Local Open Scope Q_scope.

Section Edges.
Variable E : ext.
(** [cdd.Polyhedron(mat).get_adjacency()] *)
Variable adjacency : mat -> list (list nat).

(** [l[i]] *)
Definition item {A} (l : list A) (i : nat) : res A :=
  match nth_error l i with Some a => Ret a | None => Raise IndexError end.

(** polytope.py 414-437, [get_edges].  The printing for an index out of range is
    left out; [polyhedron] is determined by [mat]. *)
Definition get_edges (p : polytope) : res (list (point * point)) :=
  let p := if pcanon p then p
           else let m := canonicalize E (pmat p) in mkPoly m true (Some (generators E m)) in
  let vertices := get_vertices E p in
  let adj := adjacency (pmat p) in
  let! rows := mapM (fun i =>
      let! v1 := item vertices i in
      let! js := item adj i in
      mapM (fun j => let! v2 := item vertices j in Ret (v1, v2)) js)
    (seq 0 (List.length adj)) in
  Ret (concat rows).

(** zero_density_estimate.py 277-291: tau or rho as a linear function of sigma
    along an edge. *)
Definition line (s1 y1 s2 y2 : Q) : rfun :=
  RationalFunction [(y1 - y2) / (s1 - s2); (s1 * y2 - s2 * y1) / (s1 - s2)] None.

(** zero_density_estimate.py 264-293: the loop over all edges, [visited] being the
    set of edges met before.  The interval is given by its two ends. *)
Fixpoint edge_functions (edges : list (point * point)) (visited : list (list Q)) : res (list (rfun * (Q * Q))) :=
  match edges with
  | [] => Ret []
  | (v1, v2) :: rest =>
      if existsb (qlist_eqb (v1 ++ v2)) visited || existsb (qlist_eqb (v2 ++ v1)) visited
      then edge_functions rest visited
      else
        match v1, v2 with
        | [sigma1; tau1; rho1], [sigma2; tau2; rho2] =>
            let visited := (v1 ++ v2) :: visited in
            if Qeqb sigma1 sigma2 then edge_functions rest visited
            else
              let tau := line sigma1 tau1 sigma2 tau2 in
              let rho := line sigma1 rho1 sigma2 rho2 in
              let! tail := edge_functions rest visited in
              Ret ((rf_div rho (ORat tau), (qmin sigma1 sigma2, qmax sigma1 sigma2)) :: tail)
        | _, _ => Raise ValueError
        end
  end.

(** [Interval(a, b)] with rational ends *)
Definition real_interval (ab : Q * Q) : ivl R := mkV (Q2R (fst ab)) (Q2R (snd ab)) true false.

Variable solve : rfun -> rfun -> list R.

(** zero_density_estimate.py 242-296, [compute_sup_rho_on_tau]. *)
Definition sup_functions (polys : list polytope) : res (list (rfun * ivl R)) :=
  let! edges := mapM get_edges polys in
  let! fns := edge_functions (concat edges) [] in
  Ret (map (fun f => (fst f, real_interval (snd f))) fns).
Definition compute_sup_rho_on_tau (polys : list polytope) (sigma_interval : ivl R) : res (list (piece R)) :=
  let! fns := sup_functions polys in
  rf_max R Rltb Reqb Rmid rf_atR solve fns sigma_interval true.
End Edges.
