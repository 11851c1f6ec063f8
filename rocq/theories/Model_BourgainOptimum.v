(** Model of large_values.py 190-358: the search for the best parameters in Bourgain's
    large value theorem, and the comparison of a recorded estimate with a linear program.

    sympy's reduced row echelon form is computed by elimination.  [scipy.optimize.linprog]
    is a parameter, and its numbers are exact.  Of the hypothesis that is checked only its
    data matter. *)
From Verif Require Import Base LinAlg Model_Text Model_Reference Model_Polytope Model_Region Model_ExponentPair Model_LargeValues.
Open Scope list_scope.
Local Open Scope Q_scope.

(** Lines 204-213; the columns are a1, a2, sigma, tau, M and the constant. *)
Definition eqns : list (list Q) :=
  [[0; 1; -(2); 0; -(1); 2];
   [1; 1#2; -(2); 0; -(1); 2];
   [0; -(1); -(8); 2; -(1); 4];
   [-(2); 0; -(16); 1; -(1); 12];
   [4; 0; -(4); 0; -(1); 3];
   [4; 0; -(4); 2; -(1); 0];
   [1; 0; 0; 0; 0; 0];
   [0; 1; 0; 0; 0; 0]].

(** [itertools.combinations(l, k)] *)
Fixpoint combinations {A} (k : nat) (l : list A) : list (list A) :=
  match k, l with
  | O, _ => [[]]
  | _, [] => []
  | S k', x :: l' => map (cons x) (combinations k' l') ++ combinations k l'
  end.

(** [row - f * other], in lowest terms *)
Definition row_sub (row other : list Q) (f : Q) : list Q := map (fun p => Qred (fst p - snd p * f)) (combine row other).
Definition row_div (row : list Q) (d : Q) : list Q := map (fun x => Qred (x / d)) row.
Definition entry (row : list Q) (j : nat) : Q := nth j row 0.
(** The first row with a non-zero entry in column [j], and the others *)
Fixpoint pivot_row (j : nat) (rows : list (list Q)) : option (list Q * list (list Q)) :=
  match rows with
  | [] => None
  | r :: rest =>
      if Qeqb (entry r j) 0 then match pivot_row j rest with Some (p, others) => Some (p, r :: others) | None => None end
      else Some (r, rest)
  end.
(** [mat.rref()]: [done] are the rows with a pivot, the first of them first; [cols] the
    columns to come *)
Fixpoint rref_from (done rows : list (list Q)) (cols : list nat) : list (list Q) :=
  match cols with
  | [] => done ++ rows
  | j :: cols' =>
      match pivot_row j rows with
      | None => rref_from done rows cols'
      | Some (p, others) =>
          let p := row_div p (entry p j) in
          let clear r := row_sub r p (entry r j) in
          rref_from (map clear done ++ [p]) (map clear others) cols'
      end
  end.
Definition rref (rows : list (list Q)) : list (list Q) := rref_from [] rows [0; 1; 2; 3; 4; 5]%nat.

(** Lines 239-245 *)
Definition normalise (row : list Q) (j : nat) : list Q := if Qeqb (entry row j) 1 then row else row_div row (entry row j).
(** Lines 247-259, for one row: [None] if there is no solution for M *)
Definition eliminate_M (row last : list Q) : option (list Q) :=
  if Qeqb (entry row 4) 0 then Some row
  else if Qeqb (entry last 4) 0 then None
  else Some (row_sub row last (entry row 4 / entry last 4)).
(** Lines 263-264 *)
Definition definition_of (row : list Q) : list Q := [- entry row 5; - entry row 2; - entry row 3].
(** Lines 230-264: a1 and a2 as functions C + A sigma + B tau; [None] is [continue]. *)
Definition choice (c : list (list Q)) : option (list Q * list Q) :=
  match rref c with
  | [m0; m1; m2] =>
      if Qeqb (entry m0 0) 0 || Qeqb (entry m1 1) 0 then None
      else
        match eliminate_M (normalise m0 0) m2, eliminate_M (normalise m1 1) m2 with
        | Some m0, Some m1 => Some (definition_of m0, definition_of m1)
        | _, _ => None
        end
  | _ => None
  end.
Definition choices : list (list Q * list Q) :=
  flat_map (fun c => match choice c with Some d => [d] | None => [] end) (combinations 3 eqns).

(** Lines 190-303.  [Polytope.lift] has one parameter besides [self] and is called with
    three arguments (lines 267-269), as soon as there is a choice. *)
Fixpoint optimize_over (cs : list (list (list Q))) (regions : list region) : res region :=
  match cs with
  | [] => Ret (RInter regions)
  | c :: cs => match choice c with None => optimize_over cs regions | Some _ => Raise TypeError end
  end.
Definition optimize_bourgain_large_value_estimate : res region := optimize_over (combinations 3 eqns) [].

(** ** The comparison *)
(** [hypothesis.data.bound]: the data of a large value estimate are a region and a text.
    A bound on beta is a function of one variable (functions.py 172-175). *)
Definition data_bound (h : lnode) : res (Q -> Q -> Q) :=
  match l_data h with DBase (DBeta _) => Raise TypeError | _ => Raise AttributeError end.

(** Lines 341-349: the rows of A and the entries of b *)
Definition lp_rows (sigma tau : Q) : list (list Q * Q) :=
  [([0; 1; -(1)], -(2) + 2 * sigma);
   ([1; 1#2; -(1)], -(2) + 2 * sigma);
   ([0; -(1); -(1)], -(2 * tau + 4 - 8 * sigma));
   ([-(2); 0; -(1)], -(tau + 12 - 16 * sigma));
   ([4; 0; -(1)], -(2 + qmax 1 (2 * tau - 2) - 4 * sigma));
   ([-(1); 0; 0], 0);
   ([0; -(1); 0], 0)].
Definition TOL : Q := 1 # 1000000.

Section Check.
(** [scipy.optimize.linprog(c, A_ub=A, b_ub=b).x] *)
Variable linprog : list Q -> list (list Q * Q) -> list Q.
(** Lines 309-310, 317, 322 *)
Definition sigma_at (N i : nat) : Q := (1#2) + (1 - (1#2)) * inject_Z (Z.of_nat i) / inject_Z (Z.of_nat N).
Definition tau_at (N j : nat) : Q := (1001#1000) + (5 - (1001#1000)) * inject_Z (Z.of_nat j) / inject_Z (Z.of_nat N).
(** Lines 324-327 *)
Definition skipped (sigma tau : Q) : bool := Qltb (qmin 1 (4 - 2 * tau)) (qmax (2 - 2 * sigma) (tau + 18 - 24 * sigma)).
(** Lines 322-358 at one point: whether the assertion holds *)
Definition check_point (bound : res (Q -> Q -> Q)) (sigma tau : Q) : res bool :=
  if skipped sigma tau then Ret true
  else let x := linprog [0; 0; 1] (lp_rows sigma tau) in
       let! b := bound in Ret (Qltb (Qabs (nth 2 x 0 - b sigma tau)) TOL).
(** The first assertion that fails ends the loop. *)
Fixpoint check_points (bound : res (Q -> Q -> Q)) (ps : list (Q * Q)) : res bool :=
  match ps with
  | [] => Ret true
  | p :: ps => let! ok := check_point bound (fst p) (snd p) in if ok : bool then check_points bound ps else Ret false
  end.
Definition grid (N : nat) : list (Q * Q) :=
  flat_map (fun i => map (fun j => (sigma_at N i, tau_at N j)) (seq 0 (N + 1))) (seq 0 (N + 1)).
(** Lines 307-360; the source has N = 1000. *)
Definition check_with (bound : res (Q -> Q -> Q)) (N : nat) : res bool := check_points bound (grid N).
Definition check_bourgain_large_value_estimate (h : lnode) (N : nat) : res bool := check_with (data_bound h) N.
End Check.
