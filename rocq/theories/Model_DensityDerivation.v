(** Model of blueprint/src/python/zero_density_estimate.py 300-387: the zero
    density estimates that the large value estimates in a set imply.

    A set of hypotheses is given by the list of its members in the order of
    iteration; [iteration] is the order after members have been added.  The range
    of sigma is [Interval(a, b)] with rational ends.  The text of the proof is
    shortened: it repeats the ranges of sigma and tau. *)
From Verif Require Import Base Model_Text Model_Reference LinAlg Model_Polytope Model_Region Model_ExponentPair Model_LargeValues Model_ZetaLargeValues
  Model_AdditiveEnergy Model_LargeValueRegion Model_RationalFunction Spec_RationalFunction Model_ZeroDensity Model_DensityEstimate.
From Coq Require Import Reals Qreals.
Open Scope list_scope.
Local Open Scope Q_scope.

Section Ext.
Variable E : ext.
Variable order : nat -> list nat -> list nat.
Variable adjacency : mat -> list (list nat).
Variable solve : rfun -> rfun -> list R.
Variable rf_str : rfun -> str.
Variable iteration : list lnode -> list lnode.

(** [[r.child for r in h.data.region.child]] (lines 359, 370) *)
Definition child_polytope (r : region) : res polytope :=
  match r with RPoly p => Ret (body p) | _ => Raise AttributeError end.
Definition child_polytopes (h : lnode) : res (list polytope) :=
  let! r := region_of h in
  match r with
  | RDisj rs | RUnion rs | RInter rs => mapM child_polytope rs
  | RPoly _ | RWrap _ | RCompl _ => Raise TypeError
  end.
(** Lines 359 and 370 *)
Definition region_sup (h : lnode) (interval : ivl R) : res (list (piece R)) :=
  let! polys := child_polytopes h in
  compute_sup_rho_on_tau E adjacency solve polys interval.

(** Lines 372-386 *)
Definition pack_bounds (sup1 sup2 : list (piece R)) (interval : ivl R) (lvr zlvr : lnode) : res (list znode) :=
  let bounds := map fst sup1 ++ map fst sup2 in
  let! sup := rf_max R Rltb Reqb Rmid rf_atR solve bounds interval false in
  mapM (fun s => derived_zero_density_estimate (from_rational_func rf_str (fst (fst s)) (snd (fst s)))
      (s_of "Follows from computed large value estimates and zeta large value estimates")
      [ZBase (EBase lvr); ZBase (EBase zlvr)]) sup.

(** Line 362: the set afterwards.  The zeta large value estimates in the set are
    among those added and are not added twice. *)
Definition add_zeta_estimates (hs : list lnode) : res (list lnode) :=
  let! a := lv_to_zlv E hs in
  let! b := beta_to_zlv E hs in
  Ret (iteration (hs ++ a ++ b)).

(** Lines 300-387, [lv_zlv_to_zd]: the result, and the set afterwards. *)
Definition lv_zlv_to_zd (hs : list lnode) (a b tau0 : Q) : res (list znode * list lnode) :=
  let interval := real_interval (a, b) in
  let! d1 := rect E [(a, b); (tau0, 2 * tau0); (0, LV_DEFAULT_UPPER_BOUND)] in
  let! lvr := compute_large_value_region E order hs (RPoly (plain d1)) false in
  let! sup1 := region_sup lvr interval in
  let! hs' := add_zeta_estimates hs in
  let! d2 := rect E [(a, b); (2, tau0); (0, LV_DEFAULT_UPPER_BOUND)] in
  let! zlvr := compute_large_value_region E order hs' (RPoly (plain d2)) true in
  let! sup2 := region_sup zlvr interval in
  let! l := pack_bounds sup1 sup2 interval lvr zlvr in
  Ret (l, hs').
End Ext.
