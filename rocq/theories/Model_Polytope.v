(** Model of blueprint/src/python/polytope.py.

    A cdd matrix in inequality form is a list of rows, each flagged when its
    index is in [lin_set], with its column count.  The cdd library itself
    (LP solver, canonicalisation, conversion between the two representations)
    and the iteration order of Python sets are not modelled: they are the
    fields of the record [ext], passed to every function that uses them.
    Numbers are exact fractions (number_type="fraction").

    Simplifications: the cached answers [_is_empty_*] are recomputed (no method
    changes the set after construction, so the cache never differs);
    [polyhedron] is determined by [mat]; plotting is left out; [get_edges] is in Model_ZeroDensity.v;
    [isinstance] checks are discharged by typing; indices are natural numbers,
    so Python's negative indexing is not represented. *)
From Verif Require Import Base LinAlg.

Record mat : Type := mkMat { mrows : list (list Q * bool); ncol : nat }.

(** polytope.py 121-143: attributes [mat], [is_canonical] and [vertices]. *)
Record polytope : Type := mkPoly {
  pmat : mat;
  pcanon : bool;
  pverts : option (list point) }.

(** What is left outside of the model. *)
Record lp_result : Type := mkLP { lp_optimal : bool; lp_obj : Q; lp_primal : point }.

Record ext : Type := mkExt {
  (** [cdd.Matrix.canonicalize] *)
  canonicalize : mat -> mat;
  (** [cdd.LinProg(mat).solve()]; the flag is true for [LPObjType.MAX] *)
  linprog : mat -> bool -> list Q -> lp_result;
  (** vertices in [cdd.Polyhedron(mat).get_generators()] *)
  generators : mat -> list point;
  (** [cdd.Polyhedron(V).get_inequalities()] for a list of vertices *)
  inequalities : list point -> mat;
  (** [list(set(l))] on tuples of fractions *)
  set_list : list (list Q) -> list (list Q) }.

(** [cdd.Matrix(rows, linear=lin)]: all rows need the same length; without
    rows the column count stays 0. *)
Definition matrix_of (rows : list (list Q)) (lin : bool) : res mat :=
  let n := length (hd [] rows) in
  if forallb (fun r => Nat.eqb (length r) n) rows
  then Ret (mkMat (map (fun r => (r, lin)) rows) n)
  else Raise ValueError.

(** [cdd.Matrix.extend(rows, linear=lin)]: refused if column counts differ. *)
Definition mat_extend (m : mat) (rows : list (list Q)) (lin : bool) : res mat :=
  if forallb (fun r => Nat.eqb (length r) (ncol m)) rows
  then Ret (mkMat (mrows m ++ map (fun r => (r, lin)) rows) (ncol m))
  else Raise ValueError.

(** polytope.py 199-204, [_matrix_as_list]. *)
Definition matrix_as_list (m : mat) (lin : bool) : list (list Q) :=
  map fst (filter (fun rb => Bool.eqb (snd rb) lin) (mrows m)).

(** polytope.py 188-194, [_from_mat]. *)
Definition from_mat (m : mat) : polytope := mkPoly m false None.

(** polytope.py 364-365, [dimension]; the column count minus one. *)
Definition dimension (p : polytope) : Z := Z.of_nat (ncol (pmat p)) - 1.

(** polytope.py 182-185, [_satisfies], and the loop body of [contains]
    (500-506): value of row [r] at [x]. *)
Definition row_at (r x : list Q) : Q := hd 0 r + dot (tl r) x.

Definition satisfies (rb : list Q * bool) (x : point) : bool :=
  if snd rb then Qeqb (row_at (fst rb) x) 0 else Qleb 0 (row_at (fst rb) x).

(** polytope.py 496-507, [contains]. *)
Definition contains (p : polytope) (x : point) : res bool :=
  if negb (Z.eqb (Z.of_nat (length x)) (dimension p)) then Raise ValueError
  else Ret (forallb (fun rb => satisfies rb x) (mrows (pmat p))).

(** polytope.py 73-89, [Constraint.satisfies]. *)
Inductive ineq_type := GREATER_EQUALS | GREATER | EQUALS.

Definition constraint_satisfies (coefficients : list Q) (t : ineq_type) (x : point) : res bool :=
  if negb (Z.eqb (Z.of_nat (length x)) (Z.of_nat (length coefficients) - 1)) then Raise ValueError
  else
    let q := dot (tl coefficients) x + hd 0 coefficients in
    Ret (match t with
         | GREATER_EQUALS => Qleb 0 q
         | GREATER => Qltb 0 q
         | EQUALS => Qeqb q 0
         end).

(** polytope.py 104-106, [Hyperplane.contains]. *)
Definition hyperplane_contains (a : list Q) (x : point) : res bool :=
  constraint_satisfies a EQUALS x.

Definition is_zero_row (r : list Q) : bool := forallb (fun c => Qeqb c 0) r.

(** polytope.py 319-333, [rect]: rows before they reach the constructor. *)
Definition rect_row (dim i : nat) (c s : Q) : list Q :=
  c :: repeat 0 i ++ s :: repeat 0 (dim - i - 1).

Fixpoint rect_rows (dim i : nat) (lims : list (Q * Q)) : list (list Q) :=
  match lims with
  | [] => []
  | lim :: rest =>
      rect_row dim i (- fst lim) 1 :: rect_row dim i (snd lim) (-1)
        :: rect_rows dim (S i) rest
  end.

(** Entry of the list given to [lift] (polytope.py 747-753). *)
Inductive lift_var := Dim (i : nat) | Box (lower upper : Q).

(** polytope.py 767-769, the inner function [f] of [lift]. *)
Definition lift_row (var : list lift_var) (c : list Q) : res (list Q) :=
  let! cs := mapM (fun v =>
      match v with
      | Dim x => match nth_error c (x + 1) with Some q => Ret q | None => Raise IndexError end
      | Box _ _ => Ret 0
      end) var in
  match c with
  | [] => Raise IndexError
  | c0 :: _ => Ret (c0 :: cs)
  end.

(** polytope.py 775-787: rows for the new dimensions. *)
Fixpoint lift_box_rows (n i : nat) (var : list lift_var) : list (list Q) :=
  match var with
  | [] => []
  | Dim _ :: rest => lift_box_rows n (S i) rest
  | Box lo up :: rest =>
      rect_row n i (- lo) 1 :: rect_row n i up (-1) :: lift_box_rows n (S i) rest
  end.

(** polytope.py 754-795, [lift]. *)
Definition lift (p : polytope) (var : list lift_var) : res polytope :=
  let! ineq := mapM (lift_row var) (matrix_as_list (pmat p) false) in
  let! eqs := mapM (lift_row var) (matrix_as_list (pmat p) true) in
  let ineq := ineq ++ lift_box_rows (length var) 0 var in
  let! m := matrix_of ineq false in
  let! m := (match eqs with [] => Ret m | _ => mat_extend m eqs true end) in
  Ret (from_mat m).

(** polytope.py 715-727, [substitute]; the dictionary is a list of pairs. *)
Definition lookup (values : list (nat * Q)) (i : nat) : option Q :=
  match find (fun kv => Nat.eqb (fst kv) i) values with Some kv => Some (snd kv) | None => None end.

Fixpoint drop_cols (values : list (nat * Q)) (i : nat) (r : list Q) : list Q :=
  match r with
  | [] => []
  | c :: r' =>
      match lookup values i with
      | Some _ => drop_cols values (S i) r'
      | None => c :: drop_cols values (S i) r'
      end
  end.

Definition substitute_row (values : list (nat * Q)) (r : list Q) : res (list Q) :=
  let! ts := mapM (fun kv : nat * Q =>
      match nth_error r (fst kv + 1) with
      | Some c => Ret (c * snd kv)
      | None => Raise IndexError
      end) values in
  match r with
  | [] => Raise IndexError
  | c0 :: r' => Ret ((c0 + qsum ts) :: drop_cols values 0 r')
  end.

Definition substitute (p : polytope) (values : list (nat * Q)) : res polytope :=
  let! rows := mapM (substitute_row values) (map fst (mrows (pmat p))) in
  let! m := matrix_of rows false in
  Ret (from_mat (mkMat (combine (map fst (mrows m)) (map snd (mrows (pmat p)))) (ncol m))).

(** [c[i] /= factor] on one row (polytope.py 444-445). *)
Fixpoint div_nth (i : nat) (factor : Q) (r : list Q) : res (list Q) :=
  match r, i with
  | [], _ => Raise IndexError
  | c :: r', O => if Qeqb factor 0 then Raise ZeroDivisionError else Ret (c / factor :: r')
  | c :: r', S j => let! r'' := div_nth j factor r' in Ret (c :: r'')
  end.

(** [[r[0]] + [r[i+1] / factors[i] for i in range(D)]] (polytope.py 481). *)
Fixpoint div_all (factors r : list Q) : res (list Q) :=
  match factors, r with
  | [], _ => Ret []
  | f :: fs, c :: r' =>
      if Qeqb f 0 then Raise ZeroDivisionError
      else let! r'' := div_all fs r' in Ret (c / f :: r'')
  | _ :: _, [] => Raise IndexError
  end.

Definition scale_all_row (factors r : list Q) : res (list Q) :=
  match r with
  | [] => Raise IndexError
  | c0 :: r' => let! cs := div_all factors r' in Ret (c0 :: cs)
  end.

(** polytope.py 469-493, [scale_all]. *)
Definition scale_all (p : polytope) (factors : list Q) : res polytope :=
  if negb (Z.eqb (Z.of_nat (length factors)) (dimension p)) then Raise ValueError
  else
    let ineq_rows := matrix_as_list (pmat p) false in
    let eq_rows := matrix_as_list (pmat p) true in
    let! m := (match ineq_rows with
      | [] => Ret None
      | _ => let! rows := mapM (scale_all_row factors) ineq_rows in
             let! m := matrix_of rows false in Ret (Some m)
      end) in
    let! m := (match eq_rows with
      | [] => Ret m
      | _ => let! rows := mapM (scale_all_row factors) eq_rows in
             match m with
             | None => let! m := matrix_of rows true in Ret (Some m)
             | Some m => let! m := mat_extend m rows true in Ret (Some m)
             end
      end) in
    match m with
    | Some m => Ret (from_mat m)
    | None => Raise TypeError   (* cdd.Polyhedron(None) *)
    end.

(** polytope.py 511-527, [intersects]: loop over the vertices with the last
    non-zero value kept. *)
Fixpoint intersects_loop (a : list Q) (sign : Q) (verts : list point) : bool :=
  match verts with
  | [] => false
  | v :: rest =>
      let new_sign := row_at a v in
      if Qltb (sign * new_sign) 0 then true
      else intersects_loop a (if Qeqb new_sign 0 then sign else new_sign) rest
  end.

(** [v[i] for i in range(len(v)) if i in dims] (polytope.py 743). *)
Fixpoint select_coords (dims : list nat) (i : nat) (v : point) : point :=
  match v with
  | [] => []
  | c :: v' =>
      if existsb (Nat.eqb i) dims then c :: select_coords dims (S i) v'
      else select_coords dims (S i) v'
  end.

(** [itertools.product( *ls )]. *)
Fixpoint product {A} (ls : list (list A)) : list (list A) :=
  match ls with
  | [] => [[]]
  | l :: rest => flat_map (fun x => map (cons x) (product rest)) l
  end.

Section Ext.
Variable E : ext.

(** polytope.py 121-143, [__init__]. *)
Definition Polytope (constraints : list (list Q)) (linear canonical : bool) : res polytope :=
  let constraints := filter (fun c => negb (is_zero_row c)) constraints in
  let! m := matrix_of constraints linear in
  let m := if canonical then canonicalize E m else m in
  Ret (mkPoly m canonical None).

(** polytope.py 319-333, [rect]. *)
Definition rect (lims : list (Q * Q)) : res polytope :=
  Polytope (rect_rows (length lims) 0 lims) false false.

(** polytope.py 211-239, [intersection]. *)
Definition intersection (polys : list polytope) (canonical : bool) : res polytope :=
  match polys with
  | [] => Raise ValueError
  | [p] => Ret p
  | p :: others =>
      let ineqs := flat_map (fun q => matrix_as_list (pmat q) false) others in
      let eqs := flat_map (fun q => matrix_as_list (pmat q) true) others in
      let! m := (match ineqs with [] => Ret (pmat p) | _ => mat_extend (pmat p) ineqs false end) in
      let! m := (match eqs with [] => Ret m | _ => mat_extend m eqs true end) in
      let m := if canonical then canonicalize E m else m in
      Ret (mkPoly m canonical None)
  end.

(** polytope.py 531-532, [intersect]. *)
Definition intersect (p q : polytope) : res polytope := intersection [p; q] true.

(** polytope.py 337-358, [from_V_rep]. *)
Definition from_V_rep (verts : list point) : res (option polytope) :=
  match verts with
  | [] => Ret None
  | _ => let! _ := matrix_of (map (cons 1) verts) false in
         Ret (Some (mkPoly (inequalities E verts) false (Some verts)))
  end.

(** polytope.py 367-371, [is_full_dim]; also returns the updated object. *)
Definition is_full_dim (p : polytope) : bool * polytope :=
  let p' := if pcanon p then p else mkPoly (canonicalize E (pmat p)) true (pverts p) in
  (Nat.eqb (length (matrix_as_list (pmat p') true)) 0, p').

(** polytope.py 377-388, [compute_V_rep] and [get_vertices]. *)
Definition get_vertices (p : polytope) : list point :=
  match pverts p with Some v => v | None => generators E (pmat p) end.

(** polytope.py 167-176, [__eq__]: the sets of cached vertices are compared. *)
Definition polytope_eqb (p q : polytope) : bool :=
  let vp := get_vertices p in let vq := get_vertices q in
  forallb (fun v => existsb (qlist_eqb v) vq) vp && forallb (fun v => existsb (qlist_eqb v) vp) vq.

(** polytope.py 391-405, [get_centroid]. *)
Definition get_centroid (p : polytope) : res point :=
  let verts := get_vertices p in
  let cent := fold_left vadd verts (repeat 0 (ncol (pmat p) - 1)) in
  match verts with
  | [] => if (1 <? ncol (pmat p))%nat then Raise ZeroDivisionError else Ret cent
  | _ => Ret (map (fun c => c / inject_Z (Z.of_nat (length verts))) cent)
  end.

(** polytope.py 441-466, [scale]; [i] is 1-indexed. *)
Definition scale (p : polytope) (i : nat) (factor : Q) (additional : list (list Q)) : res polytope :=
  let! ineq_rows := mapM (div_nth i factor) (matrix_as_list (pmat p) false) in
  let ineq_rows := ineq_rows ++ additional in
  let! eq_rows := mapM (div_nth i factor) (matrix_as_list (pmat p) true) in
  let! q := (match ineq_rows, eq_rows with
    | [], [] => Raise UnboundLocalError
    | [], _ => Polytope eq_rows true false
    | _, [] => Polytope ineq_rows false false
    | _, _ => let! q := Polytope ineq_rows false false in
              let! m := mat_extend (pmat q) eq_rows true in
              Ret (mkPoly m (pcanon q) None)
    end) in
  Ret (mkPoly (canonicalize E (pmat q)) (pcanon q) None).

(** polytope.py 511-527, [intersects]. *)
Definition intersects (p : polytope) (plane : list Q) : bool :=
  intersects_loop plane 0 (get_vertices p).

(** polytope.py 576-637, [is_empty]. *)
Definition is_empty_closed (p : polytope) : bool :=
  negb (lp_optimal (linprog E (pmat p) true (repeat 0 (ncol (pmat p))))).

Definition is_empty_open (p : polytope) : res bool :=
  match matrix_as_list (pmat p) true with
  | _ :: _ => Ret true
  | [] =>
      let n := ncol (pmat p) in
      let! A := matrix_of
          (map (fun row => row ++ [-1]) (matrix_as_list (pmat p) false)
             ++ [repeat 0 n ++ [1]] ++ [1 :: repeat 0 (n - 1) ++ [-1]]) false in
      let lp := linprog E A true (repeat 0 n ++ [1]) in
      if negb (lp_optimal lp) then Ret true
      else Ret (Qeqb (last (lp_primal lp) 0) 0)
  end.

Definition is_empty (p : polytope) (include_boundary : bool) : res bool :=
  if include_boundary then Ret (is_empty_closed p) else is_empty_open p.

(** polytope.py 640-671, [is_subset_of]. *)
Definition as_ineq (m : mat) : list (list Q) :=
  matrix_as_list m false ++ matrix_as_list m true ++ map vopp (matrix_as_list m true).

Definition is_subset_of (p other : polytope) : bool :=
  forallb (fun ab => negb (Qltb (lp_obj (linprog E (pmat p) false ab)) 0)) (as_ineq (pmat other)).

(** polytope.py 676-711, [is_covered_by]. *)
Definition cover_cons (m : mat) : list (list Q) :=
  matrix_as_list m false ++ flat_map (fun r => [r; vopp r]) (matrix_as_list m true).

Fixpoint is_covered_by (p : polytope) (polys : list polytope) : res bool :=
  match polys with
  | [] => Ret false
  | Q0 :: rest =>
      (fix go (cons : list (list Q)) : res bool :=
         match cons with
         | [] => Ret true
         | con :: cons' =>
             let! m := mat_extend (pmat p) [vopp con] false in
             let poly := from_mat m in
             let! e := is_empty poly false in
             if e then go cons'
             else
               let! c := is_covered_by poly rest in
               if c then go cons' else Ret false
         end) (cover_cons (pmat Q0))
  end.

(** polytope.py 539-571, [set_minus]. *)
Fixpoint set_minus_loop (A : mat) (B : list (list Q * bool)) (simplify : bool) : res (list polytope) :=
  match B with
  | [] => Ret []
  | (c, true) :: rest => set_minus_loop A rest simplify
  | (c, false) :: rest =>
      let! A_copy := mat_extend A [vopp c] false in
      let part := from_mat (if simplify then canonicalize E A_copy else A_copy) in
      let! keep := (if simplify then let! e := is_empty part false in Ret (negb e) else Ret true) in
      let! A' := (match rest with [] => Ret A | _ => mat_extend A [c] false end) in
      let! tail := set_minus_loop A' rest simplify in
      Ret (if keep then part :: tail else tail)
  end.

Definition set_minus (p other : polytope) (simplify : bool) : res (list polytope) :=
  set_minus_loop (pmat p) (mrows (pmat other)) simplify.

(** polytope.py 734-745, [project]. *)
Definition project (p : polytope) (dims : list nat) : res (option polytope) :=
  from_V_rep (map (select_coords dims 0) (get_vertices p)).

(** polytope.py 251-315, [try_union]. *)
Definition row_ok (polys : list polytope) (rb : list Q * bool) (i : nat) : bool :=
  forallb (fun jq => Nat.eqb i (fst jq) || forallb (satisfies rb) (get_vertices (snd jq)))
    (combine (seq 0 (length polys)) polys).

(** One pass of the classification loop (lines 283-301): rows added to [env]
    and the list [neg_p]. *)
Definition classify (polys : list polytope) (ip : nat * polytope) : list (list Q) * list (list Q) :=
  fold_right (fun (rb : list Q * bool) acc =>
      let both := if snd rb then [vopp (fst rb)] else [] in
      if row_ok polys rb (fst ip)
      then ((fst rb :: both) ++ fst acc, snd acc)
      else (fst acc, (vopp (fst rb) :: if snd rb then [fst rb] else []) ++ snd acc))
    ([], []) (mrows (pmat (snd ip))).

Fixpoint all_empty (env : list (list Q)) (combos : list (list (list Q))) : res bool :=
  match combos with
  | [] => Ret true
  | c :: rest =>
      let! p := Polytope (env ++ c) false false in
      let! e := is_empty p false in
      if e then all_empty env rest else Ret false
  end.

Definition try_union (polys : list polytope) : res (option polytope) :=
  match polys with
  | [] => Ret None
  | [p] => Ret (Some p)
  | _ =>
      let! disjoint := (match polys with
        | [_; _] => let! q := intersection polys false in is_empty q true
        | _ => Ret false
        end) in
      if disjoint then Ret None
      else
        let parts := map (classify polys) (combine (seq 0 (length polys)) polys) in
        let env := set_list E (flat_map fst parts) in
        let neg := map snd parts in
        let! ok := all_empty env (product neg) in
        if ok then let! u := Polytope env false true in Ret (Some u) else Ret None
  end.

End Ext.
