(** What the bounds for prime gaps should say.  Blueprint, chapter on primes,
    Proposition gapsquare-from-a. *)
From Verif Require Import Base Model_Text Model_RationalFunction Spec_RationalFunction Model_DensityEstimate Spec_DensityEstimate Model_DensityEnergy Spec_DensityEnergy Model_PrimeGap.
From Coq Require Import Reals Qreals.
Open Scope list_scope.
Local Open Scope R_scope.

(** The two functions of the proposition, with bounds [a] for A(x) and [b] for
    A*(x). *)
Definition gap_alpha (a b x : R) : R := 4 * x - 2 + 2 * (b * (1 - x) - 1) / (b - a).
Definition gap_beta (a b x : R) : R := 4 * x - 2 + (b * (1 - x) - 1) / a.
Definition gap_max (a b x : R) : R := Rmax (gap_alpha a b x) (gap_beta a b x).

(** Specification of [sympy.solve(sympy.diff(f, x))]: it has all points where the
    derivative vanishes, unless that is so everywhere. *)
Definition stationary_spec (sp : rfun -> list R) : Prop :=
  forall f x, ~ has_pole f x -> derivable_pt_lim (rfval f) x 0 ->
    In x (sp f) \/ forall y, ~ has_pole f y -> derivable_pt_lim (rfval f) y 0.
(** It has no poles. *)
Definition stationary_no_poles (sp : rfun -> list R) : Prop := forall f x, In x (sp f) -> ~ has_pole f x.

(** The lines cover [a, b). *)
Fixpoint rows_tile (l : list (ivl R * R)) (a b : R) : Prop :=
  match l with
  | [] => a = b
  | (i, _) :: l' => lo i = a /\ lo i < hi i /\ ilo i = true /\ ihi i = false /\ rows_tile l' (hi i) b
  end.

(** [v] is the largest value of [g] on the closed interval. *)
Definition largest_on (g : R -> R) (a b v : R) : Prop :=
  (exists y, a <= y <= b /\ v = g y) /\ forall x, a <= x <= b -> g x <= v.

(** Both functions are defined wherever a best density estimate and a best energy
    estimate meet, ends of intervals included. *)
Definition gap_defined (zds zes : list zde) : Prop :=
  forall d e A B x, In d zds -> In e zes -> z_bound d = Some A -> z_bound e = Some B ->
    lo (z_int d) <= x <= hi (z_int d) -> lo (z_int e) <= x <= hi (z_int e) ->
    ~ has_pole A x /\ ~ has_pole B x /\ rfval A x <> 0 /\ rfval B x <> rfval A x.
