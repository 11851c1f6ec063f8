(** Model of blueprint/src/python/prime_gap.py: bounds for the second moment of
    prime gaps.

    A set of hypotheses is given by the list of its members in the order of
    iteration.  The function prints one line per interval; the model returns the
    interval and the number of each line.  Numbers are real: the rounding of
    [float] is left out.  Lines 15-20, which print the estimates, and the output for
    [debug=True] are left out too. *)
From Verif Require Import Base Model_Text Model_Reference Model_RationalFunction Spec_RationalFunction Model_DensityEstimate Model_DensityEnergy.
From Coq Require Import Reals Qreals.
Open Scope list_scope.
Local Open Scope Q_scope.

Section Sympy.
(** See Model_DensityEstimate *)
Variable parse : str -> res rfun.
Variable rf_str : rfun -> str.
Variable solve : rfun -> rfun -> list R.
(** [sympy.solve(sympy.diff(f, x))]: the real solutions. *)
Variable stationary_points : rfun -> list R.

(** [4 * x - 2] and [1 - x] *)
Definition four_x_minus_two : rfun := RationalFunction [4; -(2)] None.
Definition one_minus_x : rfun := RationalFunction [-(1); 1] None.
(** Lines 46-47.  A pole is where a denominator vanishes before cancellation. *)
Definition alpha (A B : rfun) : rfun :=
  rf_add four_x_minus_two (ORat (rf_div (rf_mul (rf_subtract (rf_mul B (ORat one_minus_x)) (ONum 1)) (ONum 2)) (ORat (rf_subtract B (ORat A))))).
Definition beta (A B : rfun) : rfun :=
  rf_add four_x_minus_two (ORat (rf_div (rf_subtract (rf_mul B (ORat one_minus_x)) (ONum 1)) (ORat A))).

(** [float(f.subs(x, p))]: sympy gives complex infinity at a pole, which is not a
    float. *)
Definition float_subs (f : rfun) (p : R) : res R :=
  if Req_EM_T (reval (den f) p) 0 then Raise TypeError else Ret (rfval f p).

(** Lines 50-53 and 60-63 *)
Definition sup_on (f : rfun) (interval : ivl R) : res R :=
  let statpts := filter (icontains R Rltb interval) (stationary_points f) ++ [lo interval; hi interval] in
  let! vs := mapM (float_subs f) statpts in
  match vs with
  | [] => Raise ValueError
  | v :: vs => Ret (fold_left Rmax vs v)
  end.

(** [next(h for h in hs if h.data.interval.contains(mid))].  If there is none,
    Python raises StopIteration, for which IndexError stands. *)
Definition next_bound (hs : list zde) (mid : R) : res rfun :=
  match find (fun d => icontains R Rltb (z_int d) mid) hs with
  | Some d => bound_of d
  | None => Raise IndexError
  end.

(** Lines 34-69 *)
Fixpoint gap_cells (zds zes : list zde) (a : R) (rest : list R) : res (list (ivl R * R)) :=
  match rest with
  | [] => Ret []
  | b :: rest' =>
      let! interval := mk_interval R Rltb a b in
      let mid := Rmid a b in
      let! A := next_bound zds mid in
      let! B := next_bound zes mid in
      let! sup_alpha := sup_on (alpha A B) interval in
      let! sup_beta := sup_on (beta A B) interval in
      let! tail := gap_cells zds zes b rest' in
      Ret ((interval, Rmax sup_alpha sup_beta) :: tail)
  end.

Definition zn_zde (h : znode) : list zde := match h with ZNode _ d _ _ _ => [d] | ZBase _ => [] end.
Definition an_zde (h : anode) : list zde := match h with ANode _ _ d _ _ _ => [d] | ABase h => zn_zde h end.
Definition ends (l : list zde) : list R := flat_map (fun d => [lo (z_int d); hi (z_int d)]) l.

(** The zero density estimates of a set. *)
Definition density_nodes (hypotheses : list anode) : list znode := map (fun '(n, d, p, r) => ZNode n d p r []) (density_in hypotheses).

(** Lines 11-69, [compute_gap2] *)
Definition compute_gap2 (hypotheses : list anode) : res (list (ivl R * R)) :=
  let! best_zd := best_zero_density_estimate parse rf_str solve (density_nodes hypotheses) in
  let! best_ze := compute_best_energy_bound parse rf_str solve hypotheses in
  let zds := flat_map zn_zde best_zd in
  let zes := flat_map an_zde best_ze in
  match sorted_set R Rltb ([Q2R (1#2); Q2R 1] ++ ends zds ++ ends zes) with
  | [] => Ret []
  | a :: rest => gap_cells zds zes a rest
  end.
End Sympy.
