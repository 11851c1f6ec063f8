(** What polytopes mean as sets of rational points, independently of the
    algorithms, and what is assumed of the external solver. *)
From Verif Require Import Base LinAlg Model_Polytope.

(** A constraint row read as an equation or an inequality. *)
Definition holds (rb : list Q * bool) (x : point) : Prop :=
  if snd rb then rowval (fst rb) x == 0 else 0 <= rowval (fst rb) x.

(** Points of the ambient space that satisfy every row. *)
Definition mmember (m : mat) (x : point) : Prop :=
  S (length x) = ncol m /\ Forall (fun rb => holds rb x) (mrows m).

Definition member (p : polytope) (x : point) : Prop := mmember (pmat p) x.

(** [y] is within [e] of [x] in every coordinate. *)
Definition near (e : Q) (x y : point) : Prop :=
  length y = length x /\ forall i, Qabs (nth i y 0 - nth i x 0) <= e.

(** Topological interior. *)
Definition minterior (m : mat) (x : point) : Prop :=
  mmember m x /\ exists e, 0 < e /\ forall y, near e x y -> mmember m y.

Definition interior (p : polytope) (x : point) : Prop := minterior (pmat p) x.

Definition mbounded (m : mat) : Prop :=
  exists B, forall x i, mmember m x -> Qabs (nth i x 0) <= B.

Definition bounded (p : polytope) : Prop := mbounded (pmat p).

(** A matrix with at least the constant column and rows of equal length. *)
Definition wf_mat (m : mat) : Prop :=
  (1 <= ncol m)%nat /\ Forall (fun rb => length (fst rb) = ncol m) (mrows m).

Definition zero_row (r : list Q) : Prop := Forall (fun c => c == 0) r.

Definition no_zero_rows (m : mat) : Prop := Forall (fun rb => ~ zero_row (fst rb)) (mrows m).

Definition no_equalities (m : mat) : Prop := Forall (fun rb => snd rb = false) (mrows m).

(** [vs] spans the set: the set is the convex hull of [vs]. *)
Definition spans (m : mat) (vs : list point) : Prop :=
  Forall (mmember m) vs /\ forall x, mmember m x -> conv vs x.

(** No inequality row holds with equality throughout: a non-empty set without
    equality rows has interior points. *)
Definition canonical_mat (m : mat) : Prop :=
  no_equalities m -> (exists x, mmember m x) -> exists x, minterior m x.

(** A polytope object as the constructors build it: cached vertices and the
    canonical flag, if set, are right. *)
Definition good (p : polytope) : Prop :=
  wf_mat (pmat p) /\ no_zero_rows (pmat p) /\
  (pcanon p = true -> canonical_mat (pmat p)) /\
  match pverts p with None => True | Some vs => spans (pmat p) vs end.

(** Assumptions on the external solver.  They are met by the verified solver
    of [FM_Ext]. *)
Record ext_ok (E : ext) : Prop := {
  canon_wf : forall m, wf_mat m -> wf_mat (canonicalize E m) /\ ncol (canonicalize E m) = ncol m;
  canon_set : forall m x, wf_mat m -> (mmember (canonicalize E m) x <-> mmember m x);
  canon_nz : forall m, wf_mat m -> no_zero_rows m -> no_zero_rows (canonicalize E m);
  canon_canonical : forall m, wf_mat m -> no_zero_rows m -> canonical_mat (canonicalize E m);

  lp_max_optimal : forall m c, wf_mat m -> length c = ncol m ->
    lp_optimal (linprog E m true c) = true ->
    mmember m (lp_primal (linprog E m true c)) /\
    lp_obj (linprog E m true c) == rowval c (lp_primal (linprog E m true c)) /\
    forall y, mmember m y -> rowval c y <= lp_obj (linprog E m true c);
  lp_max_other : forall m c, wf_mat m -> length c = ncol m ->
    lp_optimal (linprog E m true c) = false ->
    ~ exists x, mmember m x /\ forall y, mmember m y -> rowval c y <= rowval c x;
  lp_min_optimal : forall m c, wf_mat m -> length c = ncol m ->
    lp_optimal (linprog E m false c) = true ->
    mmember m (lp_primal (linprog E m false c)) /\
    lp_obj (linprog E m false c) == rowval c (lp_primal (linprog E m false c)) /\
    forall y, mmember m y -> lp_obj (linprog E m false c) <= rowval c y;
  lp_min_other : forall m c, wf_mat m -> length c = ncol m ->
    lp_optimal (linprog E m false c) = false ->
    ~ exists x, mmember m x /\ forall y, mmember m y -> rowval c x <= rowval c y;

  gen_spans : forall m, wf_mat m -> mbounded m -> spans m (generators E m);

  ineq_ok : forall vs d, vs <> [] -> Forall (fun v => length v = d) vs ->
    wf_mat (inequalities E vs) /\ ncol (inequalities E vs) = S d /\ no_zero_rows (inequalities E vs) /\
    forall x, mmember (inequalities E vs) x <-> length x = d /\ conv vs x;

  set_list_sub : forall l r, In r (set_list E l) -> In r l;
  set_list_all : forall l r, In r l -> exists r', In r' (set_list E l) /\ Forall2 Qeq r r' }.

(** [x] with coordinate [i] (counted from 0) multiplied by [f]. *)
Fixpoint stretch (i : nat) (f : Q) (x : point) : point :=
  match x, i with
  | [], _ => []
  | a :: x', O => f * a :: x'
  | a :: x', S j => a :: stretch j f x'
  end.

(** [x] with every coordinate multiplied by its factor. *)
Fixpoint stretch_all (fs : list Q) (x : point) : point :=
  match fs, x with
  | f :: fs', a :: x' => f * a :: stretch_all fs' x'
  | _, _ => []
  end.

(** Coordinates of [x], numbered from [i], whose number is not in [keys]. *)
Fixpoint remaining (keys : list nat) (i : nat) (x : point) : point :=
  match x with
  | [] => []
  | a :: x' => if in_dec Nat.eq_dec i keys then remaining keys (S i) x' else a :: remaining keys (S i) x'
  end.

(** Coordinates of [x], numbered from [i], whose number is in [keys]. *)
Fixpoint selected (keys : list nat) (i : nat) (x : point) : point :=
  match x with
  | [] => []
  | a :: x' => if in_dec Nat.eq_dec i keys then a :: selected keys (S i) x' else selected keys (S i) x'
  end.

(** The dimensions of the original polytope named in a [lift] list. *)
Definition lift_dims (var : list lift_var) : list nat :=
  flat_map (fun v => match v with Dim k => [k] | Box _ _ => [] end) var.

(** [x] repeats the coordinates of [z] at the places a [lift] list says. *)
Definition lifts (var : list lift_var) (z x : point) : Prop :=
  forall i k, nth_error var i = Some (Dim k) -> nth k z 0 == nth i x 0.

(** The new coordinates of [x] are within their limits. *)
Definition in_box (var : list lift_var) (x : point) : Prop :=
  forall i lo up, nth_error var i = Some (Box lo up) -> lo <= nth i x 0 /\ nth i x 0 <= up.

(** Membership in the union of a list, and convexity of a set. *)
Definition in_union (ps : list polytope) (x : point) : Prop := exists q, In q ps /\ member q x.

Definition convex_set (H : point -> Prop) : Prop :=
  forall x y t, H x -> H y -> 0 <= t -> t <= 1 -> H (mix t x y).
