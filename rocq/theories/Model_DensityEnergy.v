(** Model of blueprint/src/python/zero_density_energy_estimate.py: bounds on
    A*(sigma).

    The class of an estimate is identical to that of zero density estimates
    (Model_DensityEstimate), whose record is used for both.  A set of hypotheses
    is given by the list of its members in the order of iteration.  Printing for
    [debug=True] is left out. *)
From Verif Require Import Base Model_Text Model_Reference Model_Interval LinAlg Model_Polytope Model_Region Model_ExponentPair Model_LargeValues Model_ZetaLargeValues
  Model_AdditiveEnergy Model_RationalFunction Spec_RationalFunction Model_ZeroDensity Model_DensityEstimate.
From Coq Require Import Reals Qreals.
Open Scope list_scope.

(** [hypothesis_type]: "Zero density estimate" or "Zero density energy estimate" *)
Inductive htype : Type := TDensity | TEnergy.
Inductive anode : Type :=
| ANode (name : str) (t : htype) (d : zde) (proof : str) (r : reference) (deps : list anode)
| ABase (h : znode).
Definition a_name (h : anode) : str := match h with ANode n _ _ _ _ _ => n | ABase h => zn_name h end.
Definition a_ref (h : anode) : reference := match h with ANode _ _ _ _ r _ => r | ABase h => zn_ref h end.
Definition a_deps (h : anode) : list anode := match h with ANode _ _ _ _ _ ds => ds | ABase h => map ABase (zn_deps h) end.

(** [list_hypotheses], hypotheses.py 190-195, for the two types *)
Definition density_in (hs : list anode) : list (str * zde * str * reference) :=
  flat_map (fun h => match h with
    | ANode n TDensity d p r _ => [(n, d, p, r)]
    | ABase (ZNode n d p r _) => [(n, d, p, r)]
    | _ => []
    end) hs.
Definition energy_in (hs : list anode) : list (str * zde * str * reference) :=
  flat_map (fun h => match h with ANode n TEnergy d p r _ => [(n, d, p, r)] | _ => [] end) hs.

(** Lines 78-114 *)
Definition literature_zero_density_energy_estimate (estimate : str) (interval : ivl R) (ref : reference) (params : str) : anode :=
  ANode (value_str (r_author ref) ++ s_of " (" ++ value_str (r_year ref) ++ s_of ") zero density energy estimate" ++ params)
    TEnergy (Zero_Density_Estimate estimate interval)
    (s_of "See [" ++ value_str (r_author ref) ++ s_of ", " ++ value_str (r_year ref) ++ s_of "]") ref [].
(** Lines 116-131 *)
Definition derived_zero_density_energy_estimate (data : zde) (proof : str) (deps : list anode) : res anode :=
  let! year := max_year (map a_ref deps) in
  Ret (ANode (s_of "Derived zero density energy estimate") TEnergy data proof (ref_derived year) deps).
(** Lines 133-142 *)
Definition trivial_zero_density_energy_estimate (data : zde) : anode :=
  ANode (s_of "Trivial zero density energy estimate") TEnergy data (s_of "Trivial") ref_trivial [].

(** Lines 148-171: the set afterwards. *)
Definition add_trivial_zero_density_energy_estimates (hs : list anode) : list anode :=
  hs ++
  map (fun h => let z := snd (fst (fst h)) in
         trivial_zero_density_energy_estimate (Zero_Density_Estimate (s_of "3 * (" ++ z_expr z ++ s_of ")") (z_int z)))
    (density_in hs) ++
  [trivial_zero_density_energy_estimate (Zero_Density_Estimate (s_of "3 / (1 - x)") unit_interval)].

Section Sympy.
(** See Model_DensityEstimate *)
Variable parse : str -> res rfun.
Variable rf_str : rfun -> str.
Variable solve : rfun -> rfun -> list R.

(** Lines 319-360: the placeholder has the type of a zero density estimate. *)
Definition pack_energy (hs : list (str * zde * str * reference)) (p : piece R) : res anode :=
  let '(func, interval, ref) := p in
  let z := from_rational_func rf_str func interval in
  if (ref <? 0)%Z then
    Ret (ANode (s_of "Placeholder zero density estimate") TDensity z (s_of "Placeholder zero density estimate") ref_trivial [])
  else match nth_error hs (Z.to_nat ref) with
       | Some (n, _, p, r) => Ret (ANode n TEnergy z p r [])
       | None => Raise IndexError
       end.
Definition compute_best_energy_bound (hypotheses : list anode) : res (list anode) :=
  let hs := energy_in hypotheses in
  let! ds := mapM (fun h => ensure_bound parse (snd (fst (fst h)))) hs in
  let! fs := mapM (fun d => let! b := bound_of d in Ret (b, z_int d)) ds in
  let! minimum := rf_min R Rltb Reqb Rmid rf_atR solve fs unit_interval true in
  mapM (pack_energy hs) minimum.
End Sympy.
