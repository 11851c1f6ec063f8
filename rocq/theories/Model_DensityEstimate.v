(** Model of blueprint/src/python/zero_density_estimate.py: zero density
    estimates, the best estimate on every subinterval, and merging of pieces.

    An expression is a string until it is parsed; the parser of sympy, how a
    rational function is printed, and the solutions of an equation are
    parameters.  Exact numbers are reals.  Printing and plotting for
    [verbose=True] are left out. *)
From Verif Require Import Base Model_Text Model_Reference Model_Interval Model_Affine LinAlg Model_Polytope Model_Region
  Model_ExponentPair Model_LargeValues Model_ZetaLargeValues Model_AdditiveEnergy Model_RationalFunction Spec_RationalFunction.
From Coq Require Import Reals Qreals.
Open Scope list_scope.

(** zero_density_estimate.py 25-70: expression, interval, and the bound once it has
    been parsed. *)
Record zde : Type := mkZ { z_expr : str; z_int : ivl R; z_bound : option rfun }.

(** Hypotheses with these and the earlier types of data (hypotheses.py 43-51).
    The proof text is kept for zero density estimates only. *)
Inductive znode : Type :=
| ZNode (name : str) (d : zde) (proof : str) (r : reference) (deps : list znode)
| ZBase (h : enode).
Definition zn_name (h : znode) : str := match h with ZNode n _ _ _ _ => n | ZBase h => e_name h end.
Definition zn_proof (h : znode) : str := match h with ZNode _ _ p _ _ => p | ZBase _ => [] end.
Definition zn_ref (h : znode) : reference := match h with ZNode _ _ _ r _ => r | ZBase h => e_ref h end.
Definition zn_deps (h : znode) : list znode := match h with ZNode _ _ _ _ ds => ds | ZBase h => map ZBase (e_deps h) end.

(** [list_hypotheses("Zero density estimate")], hypotheses.py 190-195 *)
Definition zero_density_estimates (hs : list znode) : list (str * zde * str * reference) :=
  flat_map (fun h => match h with ZNode n d p r _ => [(n, d, p, r)] | ZBase _ => [] end) hs.

Section Sympy.
(** [RationalFunction.parse], functions.py 796-802, and [str(rf)] *)
Variable parse : str -> res rfun.
Variable rf_str : rfun -> str.
Variable solve : rfun -> rfun -> list R.

(** Lines 53-70 *)
Definition Zero_Density_Estimate (expr : str) (interval : ivl R) : zde := mkZ expr interval None.
(** Lines 75-77 *)
Definition ensure_bound (z : zde) : res zde :=
  match z_bound z with
  | Some _ => Ret z
  | None => let! b := parse (z_expr z) in Ret (mkZ (z_expr z) (z_int z) (Some b))
  end.
(** [self.bound.m(...)] *)
Definition bound_of (z : zde) : res rfun :=
  match z_bound z with Some b => Ret b | None => Raise AttributeError end.
(** Lines 80-85: the value, and the object afterwards. *)
Definition zde_at (z : zde) (sigma : R) : res (R * zde) :=
  if negb (icontains R Rltb (z_int z) sigma) then Raise ValueError
  else let! z := ensure_bound z in
       let! b := bound_of z in
       let! v := rf_atR b sigma in Ret (v, z).
(** Lines 90-96 *)
Definition from_rational_func (rf : rfun) (interval : ivl R) : zde := mkZ (rf_str rf) interval (Some rf).

(** Lines 102-112 *)
Definition derived_zero_density_estimate (data : zde) (proof : str) (deps : list znode) : res znode :=
  let! year := max_year (map zn_ref deps) in
  Ret (ZNode (s_of "Derived zero density estimate") data proof (ref_derived year) deps).

(** Lines 114-144: the hypothesis that is added. *)
Definition add_zero_density (hypotheses : list znode) (estimate : str) (interval : ivl R) (ref : reference) (params : str) : list znode :=
  hypotheses ++
  [ZNode (value_str (r_author ref) ++ s_of " (" ++ value_str (r_year ref) ++ s_of ") zero density estimate" ++ params)
     (Zero_Density_Estimate estimate interval)
     (s_of "See [" ++ value_str (r_author ref) ++ s_of ", " ++ value_str (r_year ref) ++ s_of "]") ref []].

(** Lines 733-753: [grow_pair] is the inner loop. *)
Fixpoint grow_pair (fi : rfun) (left right : R) (l : list (rfun * ivl R)) : res (list (rfun * ivl R)) :=
  match l with
  | [] => let! i := mk_interval R Rltb left right in Ret [(fi, i)]
  | (fj, intj) :: l' =>
      if rf_eqb fi fj && Reqb right (lo intj) then grow_pair fi left (hi intj) l'
      else let! i := mk_interval R Rltb left right in
           let! tail := grow_pair fj (lo intj) (hi intj) l' in
           Ret ((fi, i) :: tail)
  end.
Definition simplify_pieces (pieces : list (rfun * ivl R)) : res (list (rfun * ivl R)) :=
  match pieces with
  | [] => Ret []
  | (f, i) :: l => grow_pair f (lo i) (hi i) l
  end.

(** Lines 760-790; [hs] in the order in which [list_hypotheses] gives it.  The
    last line of the loop body makes a hypothesis without dependencies. *)
Definition unit_interval : ivl R := mkV (Q2R (1 # 2)) (Q2R 1) true false.
Definition pack (hs : list (str * zde * str * reference)) (p : piece R) : res znode :=
  let '(func, interval, ref) := p in
  let z := from_rational_func func interval in
  if (ref <? 0)%Z then
    Ret (ZNode (s_of "Placeholder zero density estimate") z (s_of "Placeholder zero density estimate") ref_trivial [])
  else match nth_error hs (Z.to_nat ref) with
       | Some (n, _, p, r) => Ret (ZNode n z p r [])
       | None => Raise IndexError
       end.
Definition best_zero_density_estimate (hypotheses : list znode) : res (list znode) :=
  let hs := zero_density_estimates hypotheses in
  let! ds := mapM (fun h => ensure_bound (snd (fst (fst h)))) hs in
  let! fs := mapM (fun d => let! b := bound_of d in Ret (b, z_int d)) ds in
  let! minimum := rf_min R Rltb Reqb Rmid rf_atR solve fs unit_interval true in
  mapM (pack hs) minimum.
End Sympy.
