(** What the supremum of rho / tau over a list of polytopes is. *)
From Coq Require Import Reals Qreals.
From Verif Require Import Base LinAlg Model_Polytope Spec_Polytope Model_RationalFunction Spec_RationalFunction.
Local Open Scope Q_scope.

(** A polytope object whose cached vertices, if it also counts as canonical, are
    those its matrix generates. *)
Definition vertices_in_order (E : ext) (p : polytope) : Prop :=
  pcanon p = true -> pverts p = None \/ pverts p = Some (generators E (pmat p)).

(** A bounded set of points (sigma, tau, rho) with tau > 0 and rho >= 0. *)
Definition value_polytope (p : polytope) : Prop :=
  wf_mat (pmat p) /\ ncol (pmat p) = 4%nat /\ bounded p /\
  forall x, member p x -> 0 < nth 1 x 0 /\ 0 <= nth 2 x 0.

(** The polytope has points with first coordinate [s] and points with a larger one. *)
Definition reaches_past (p : polytope) (s : Q) : Prop :=
  exists x z, member p x /\ member p z /\ nth 0 x 0 == s /\ s < nth 0 z 0.

(** [v] is the largest rho / tau among the points with sigma = [s] of the
    polytopes that reach past [s], or the default if there are none. *)
Definition sup_value (ps : list polytope) (s : Q) (v : R) : Prop :=
  ((exists p x, In p ps /\ reaches_past p s /\ member p x /\ nth 0 x 0 == s /\ v = Q2R (nth 2 x 0 / nth 1 x 0)) \/
   (v = Q2R (inject_Z (-1000000)) /\ forall p, In p ps -> ~ reaches_past p s)) /\
  forall p x, In p ps -> reaches_past p s -> member p x -> nth 0 x 0 == s -> (Q2R (nth 2 x 0 / nth 1 x 0)%Q <= v)%R.
