(** The value reported by the solver when a minimum does not exist. *)
From Verif Require Import Base LinAlg Model_Polytope Spec_Polytope.
Open Scope list_scope.
Local Open Scope Q_scope.

(** The half-space tau >= 2 of (sigma, tau, rho), as it is built by [lv_to_zlv]. *)
Definition half_space : polytope := mkPoly (mkMat [([-(2); 0; 1; 0], false)] 4) false None.

(** Minimizing over the half-space, the solver ends at the point (0, 2, 0) and
    reports the value there, also when there is no minimum. *)
Definition anchored (E : ext) : Prop :=
  forall c, List.length c = 4%nat -> lp_obj (linprog E (pmat half_space) false c) == rowval c [0; 2; 0].
