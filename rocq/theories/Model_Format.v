(** Model of helpers/str_helper.py and of the printing of polynomials,
    polynomial.py 39-64, affine functions of several variables, functions.py
    352-371, polytopes, polytope.py 150-166, and regions, region.py 19-74.

    Numbers are fractions; Python prints an integer-valued Fraction and an int
    alike.  Exponents are written in decimal. *)
From Verif Require Import Base LinAlg Model_Text Model_Polytope Model_Region.
Open Scope list_scope.

(** [str] of a fraction. *)
Definition frac_str (q : Q) : str :=
  let q := Qred q in
  z_str (Qnum q) ++ (if Pos.eqb (Qden q) 1 then [] else s_of "/" ++ z_str (Zpos (Qden q))).

(** str_helper.py 20-34: the loop. *)
Fixpoint fmt_loop (f : str) (cs : list Q) (vars : list str) : res str :=
  match cs with
  | [] => Ret f
  | c :: cs' =>
      match vars with
      | [] => Raise IndexError
      | v :: vars' =>
          if Qeqb c 0 then fmt_loop f cs' vars'
          else
            let f := if Qltb 0 c then (match f with [] => f | _ => f ++ s_of " + " end)
                     else f ++ (match f with [] => s_of "-" | _ => s_of " - " end) in
            let f := if Qeqb c 1 || Qeqb c (-1) then f ++ v else f ++ frac_str (Qabs c) ++ v in
            fmt_loop f cs' vars'
      end
  end.

(** str_helper.py 5-35, [format]. *)
Definition fmt (coefficients : list Q) (variables : list str) : res str :=
  match coefficients with
  | [] => Raise IndexError
  | c0 :: cs => fmt_loop (if Qeqb c0 0 then [] else frac_str c0) cs variables
  end.

(** polynomial.py 59-64, [_monomial_str]. *)
Definition monomial_str (c : Q) (var : str) (deg : nat) : str :=
  if Qeqb c 0 then []
  else match deg with
       | O => frac_str (Qabs c)
       | _ => let stem := match deg with 1%nat => var | _ => var ++ s_of "^" ++ z_str (Z.of_nat deg) end in
              if Qeqb (Qabs c) 1 then stem else frac_str (Qabs c) ++ stem
       end.

(** polynomial.py 39-56, [to_str]. *)
Fixpoint to_str_loop (front : bool) (deg : nat) (var : str) (cs : list Q) : list str :=
  match cs with
  | [] => []
  | c :: cs' =>
      let sign := if front then (if Qltb c 0 then [s_of "-"] else [])
                  else [if Qltb c 0 then s_of "-" else s_of "+"] in
      match monomial_str c var deg with
      | [] => sign ++ to_str_loop front (S deg) var cs'
      | mon => sign ++ mon :: to_str_loop false (S deg) var cs'
      end
  end.
Definition poly_str (cs : list Q) (var : str) : str :=
  match to_str_loop true 0 var cs with
  | [] => s_of "0"
  | s => join (s_of " ") s
  end.

(** functions.py 361-371: the loop; [symbols] is long enough when it is called. *)
Fixpoint a2_str_loop (f : str) (cs : list Q) (symbols : list str) : res str :=
  match cs with
  | [] => Ret f
  | c :: cs' =>
      match symbols with
      | [] => Raise IndexError
      | v :: vs =>
          if Qeqb c 0 then a2_str_loop f cs' vs
          else if Qeqb c 1 then a2_str_loop (f ++ s_of " + " ++ v) cs' vs
          else if Qeqb c (-1) then a2_str_loop (f ++ s_of " - " ++ v) cs' vs
          else if Qltb c 0 then a2_str_loop (f ++ s_of " - " ++ frac_str (Qabs c) ++ v) cs' vs
          else a2_str_loop (f ++ s_of " + " ++ frac_str c ++ v) cs' vs
      end
  end.
(** functions.py 352-371, [Affine2.to_string]; [None] for the missing symbols. *)
Definition a2_str (coeffs : list Q) (symbols : option (list str)) : res str :=
  match symbols with
  | None => Raise ValueError
  | Some symbols =>
      if (S (List.length symbols) <? List.length coeffs)%nat then Raise ValueError
      else match coeffs with
           | [] => Raise IndexError
           | c0 :: cs => a2_str_loop (frac_str c0) cs symbols
           end
  end.

(** polytope.py 155-166, [Polytope.to_str]: the [str] of a list of strings. *)
Definition row_str (vars : list str) (rb : list Q * bool) : res str :=
  let! e := fmt (fst rb) vars in
  Ret (e ++ (if snd rb then s_of " = 0" else s_of " >= 0")).
Definition quoted (s : str) : str := s_of "'" ++ s ++ s_of "'".
Definition polytope_str (p : polytope) (vars : list str) : res str :=
  if (List.length vars <? ncol (pmat p) - 1)%nat then Raise ValueError
  else
    let! rows := mapM (row_str vars) (mrows (pmat p)) in
    Ret (s_of "[" ++ join (s_of ", ") (map quoted rows) ++ s_of "]").

(** polytope.py 150-153, [__repr__]: the default names. *)
Definition default_names (d : nat) : list str :=
  if (d <=? 5)%nat then map (fun c => [c]) (s_of "xyzwu")
  else map (fun i => s_of "x_" ++ z_str (Z.of_nat i)) (seq 1 d).
Definition polytope_repr (p : polytope) : res str := polytope_str p (default_names (ncol (pmat p) - 1)).

(** region.py 55-74, [Region.to_str] with [use_indentation=False] (also what
    [repr] shows): a region whose child is a single region is iterated over,
    which raises TypeError. *)
Definition leaf_str (vars : option (list str)) (p : lpoly) : res str :=
  match vars with None => polytope_repr (body p) | Some vs => polytope_str (body p) vs end.
Definition braces (kind : str) (ss : list str) : str := kind ++ s_of " of {" ++ join (s_of ", ") ss ++ s_of "}".
Fixpoint region_str (vars : option (list str)) (r : region) : res str :=
  match r with
  | RPoly p => leaf_str vars p
  | RWrap _ | RCompl _ => Raise TypeError
  | RUnion rs => let! ss := mapM (region_str vars) rs in Ret (braces (s_of "Union") ss)
  | RDisj rs => let! ss := mapM (region_str vars) rs in Ret (braces (s_of "Disjoint union") ss)
  | RInter rs => let! ss := mapM (region_str vars) rs in Ret (braces (s_of "Intersection") ss)
  end.
