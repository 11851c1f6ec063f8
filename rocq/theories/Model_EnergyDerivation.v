(** Model of blueprint/src/python/zero_density_energy_estimate.py 173-317: the
    bounds on A*(sigma) that the large value energy regions in a set imply.

    A set of hypotheses is given by the list of its members in the order of
    iteration.  [tau0] is m sigma + c on [Interval(a, b)] with rational ends.  The
    text of the proof is shortened: it repeats the numbers of regions. *)
From Verif Require Import Base Model_Text Model_Reference LinAlg Model_Polytope Model_Region Model_ExponentPair Model_LargeValues
  Model_AdditiveEnergy Model_RationalFunction Spec_RationalFunction Model_ZeroDensity Model_DensityEstimate Model_DensityDerivation Model_DensityEnergy.
From Coq Require Import Reals Qreals.
Open Scope list_scope.
Local Open Scope Q_scope.

Section Ext.
Variable E : ext.
Variable order : nat -> list nat -> list nat.
Variable adjacency : mat -> list (list nat).
Variable solve : rfun -> rfun -> list R.
Variable rf_str : rfun -> str.

(** Lines 201-210 *)
Definition lver_domain (m c a b : Q) : res polytope :=
  Polytope E [[-a; 1; 0]; [b; -(1); 0]; [-c; -m; 1]; [2 * c; 2 * m; -(1)]] false false.
(** Lines 221-229 *)
Definition lver_zeta_domain (m c a b : Q) : res polytope :=
  Polytope E [[-a; 1; 0]; [b; -(1); 0]; [-(2); 0; 1]; [c; m; -(1)]] false false.

(** Lines 254-317, [compute_sup_LV_on_tau].  Lines 285-317 are the same as
    [compute_sup_rho_on_tau] in zero_density_estimate.py.  Line 280,
    [[r.child for r in LV_region.child]]: the child of a region that is a single
    polytope is a Polytope, which cannot be iterated over. *)
Definition energy_polytopes (r : region) : res (list polytope) :=
  match r with
  | RDisj rs | RUnion rs | RInter rs => mapM child_polytope rs
  | RPoly _ | RWrap _ | RCompl _ => Raise TypeError
  end.
Definition compute_sup_LV_on_tau (r : region) (interval : ivl R) : res (list (piece R)) :=
  let! polys := energy_polytopes r in
  compute_sup_rho_on_tau E adjacency solve polys interval.

(** Lines 212-216 and 231-235: the energy and the functions that are added. *)
Definition energy_functions (lver : enode) (interval : ivl R) : res (list anode * list (piece R)) :=
  let! energy := lver_to_energy E order lver in
  match energy with
  | None => Ret ([], [])
  | Some energy =>
      let! r := e_region energy in
      let! sup := compute_sup_LV_on_tau r interval in
      Ret ([ABase (ZBase energy)], sup)
  end.

(** Lines 173-252, [lver_to_energy_bound] *)
Definition lver_to_energy_bound (hs : list enode) (m c a b : Q) : res (list anode) :=
  let interval := real_interval (a, b) in
  let! d1 := lver_domain m c a b in
  let! lver := compute_best_lver E order hs (RPoly (plain d1)) false in
  let! (deps1, fns1) := energy_functions lver interval in
  let! d2 := lver_zeta_domain m c a b in
  let! zlver := compute_best_lver E order hs (RPoly (plain d2)) true in
  let! (deps2, fns2) := energy_functions zlver interval in
  let bounds := map fst (fns1 ++ fns2) in
  let! sup := rf_max R Rltb Reqb Rmid rf_atR solve bounds interval true in
  mapM (fun s => derived_zero_density_energy_estimate
      (from_rational_func rf_str (rf_div (fst (fst s)) (ORat (RationalFunction [-(1); 1] None))) (snd (fst s)))
      (s_of "Follows from combining large value energy regions and zeta large value energy regions")
      (deps1 ++ deps2)) sup.
End Ext.
