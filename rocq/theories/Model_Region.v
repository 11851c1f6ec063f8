(** Model of blueprint/src/python/region.py and helpers/region_helper.py.

    A region is a tree.  The attributes [label] and [dependencies], which the
    code adds to polytope objects after construction, are optional fields; a
    read of a missing attribute raises AttributeError.  Labels are numbers.

    Simplifications: [set_label] returns a new tree (the code writes to the
    polytope objects, which may be shared between trees); printing, plotting
    and timing are left out; a region of type POLYTOPE whose child is a Region
    (which [lift] builds from a complement) is [RWrap], and its
    [_as_disjoint_union_poly], which returns a list with a Region in it, is not
    modelled further than raising AttributeError. *)
From Verif Require Import Base LinAlg Model_Polytope.

Record lpoly : Type := mkLPoly {
  body : polytope;
  plabel : option nat;
  deps : option (list nat) }.

(** A freshly constructed Polytope object has neither attribute. *)
Definition plain (p : polytope) : lpoly := mkLPoly p None None.

(** region.py 8-17 and 34-46: the type tag and the child. *)
Inductive region : Type :=
| RPoly (p : lpoly)
| RWrap (r : region)
| RCompl (r : region)
| RUnion (rs : list region)
| RDisj (rs : list region)
| RInter (rs : list region).

(** Python's [any] and [all] on a generator: left to right, stopping early. *)
Section AnyAll.
Context {A : Type} (f : A -> res bool).
Fixpoint anyM (l : list A) : res bool :=
  match l with
  | [] => Ret false
  | a :: l' => let! b := f a in if b then Ret true else anyM l'
  end.

Fixpoint allM (l : list A) : res bool :=
  match l with
  | [] => Ret true
  | a :: l' => let! b := f a in if b then allM l' else Ret false
  end.
End AnyAll.

(** region.py 159-168, [contains]. *)
Fixpoint rcontains (r : region) (x : point) : res bool :=
  match r with
  | RPoly p => contains (body p) x
  | RWrap r => rcontains r x
  | RCompl r => let! b := rcontains r x in Ret (negb b)
  | RUnion rs | RDisj rs => anyM (fun c => rcontains c x) rs
  | RInter rs => allM (fun c => rcontains c x) rs
  end.

(** region.py 142-156, [set_label]. *)
Fixpoint set_label (l : nat) (r : region) : region :=
  match r with
  | RPoly p => RPoly (mkLPoly (body p) (Some l) (deps p))
  | RWrap r => RWrap r
  | RCompl r => RCompl (set_label l r)
  | RUnion rs => RUnion (map (set_label l) rs)
  | RDisj rs => RDisj (map (set_label l) rs)
  | RInter rs => RInter (map (set_label l) rs)
  end.

(** region.py 195-202, [substitute]. *)
Fixpoint rsubstitute (values : list (nat * Q)) (r : region) : res region :=
  match r with
  | RPoly p => let! q := substitute (body p) values in Ret (RPoly (plain q))
  | RWrap r => let! q := rsubstitute values r in Ret (RWrap q)
  | RCompl r => let! q := rsubstitute values r in Ret (RCompl q)
  | RUnion rs => let! qs := mapM (rsubstitute values) rs in Ret (RUnion qs)
  | RDisj rs => let! qs := mapM (rsubstitute values) rs in Ret (RDisj qs)
  | RInter rs => let! qs := mapM (rsubstitute values) rs in Ret (RInter qs)
  end.

(** region.py 206-213, [scale_all]. *)
Fixpoint rscale_all (factors : list Q) (r : region) : res region :=
  match r with
  | RPoly p => let! q := scale_all (body p) factors in Ret (RPoly (plain q))
  | RWrap r => let! q := rscale_all factors r in Ret (RWrap q)
  | RCompl r => let! q := rscale_all factors r in Ret (RCompl q)
  | RUnion rs => let! qs := mapM (rscale_all factors) rs in Ret (RUnion qs)
  | RDisj rs => let! qs := mapM (rscale_all factors) rs in Ret (RDisj qs)
  | RInter rs => let! qs := mapM (rscale_all factors) rs in Ret (RInter qs)
  end.

(** region.py 246-256, [lift]. *)
Fixpoint rlift (var : list lift_var) (r : region) : res region :=
  match r with
  | RPoly p => let! q := lift (body p) var in Ret (RPoly (plain q))
  | RWrap r => let! q := rlift var r in Ret (RWrap q)
  | RCompl r => let! q := rlift var r in Ret (RWrap q)   (* the type becomes POLYTOPE *)
  | RUnion rs => let! qs := mapM (rlift var) rs in Ret (RUnion qs)
  | RDisj rs => let! qs := mapM (rlift var) rs in Ret (RDisj qs)
  | RInter rs => let! qs := mapM (rlift var) rs in Ret (RInter qs)
  end.

(** [[p for p in ps if p is not None]] *)
Fixpoint somes {A} (l : list (option A)) : list A :=
  match l with
  | [] => []
  | Some a :: l' => a :: somes l'
  | None :: l' => somes l'
  end.

(** [itertools.combinations(l, 2)] *)
Fixpoint combinations2 {A} (l : list A) : list (A * A) :=
  match l with
  | [] => []
  | a :: l' => map (pair a) l' ++ combinations2 l'
  end.

(** helpers/region_helper.py 10-48, [simplify_union_of_polys].  [T] is the type
    of polytope objects, [union_fn a b] the call [union_fn([a, b])] followed by
    the assignment of the dependencies.  [order k s] is the order in which the
    index set [s] is enumerated the [k]-th time: set order is unspecified. *)
Section Simplify.
Context {T : Type}.
Variable union_fn : T -> T -> res (option T).
Variable order : nat -> list nat -> list nat.

Record sstate : Type := mkS {
  s_polys : list T;
  s_index : list nat;
  s_non : list (nat * nat);
  s_changed : bool }.

Definition mem (i : nat) (l : list nat) : bool := existsb (Nat.eqb i) l.
Definition mem2 (c : nat * nat) (l : list (nat * nat)) : bool :=
  existsb (fun d => Nat.eqb (fst c) (fst d) && Nat.eqb (snd c) (snd d)) l.
Definition del (i : nat) (l : list nat) : list nat := filter (fun j => negb (Nat.eqb i j)) l.

(** Lines 24-46: the body of the for loop. *)
Definition simplify_step (st : sstate) (c : nat * nat) : res sstate :=
  let (i, j) := c in
  if negb (mem i (s_index st)) || negb (mem j (s_index st)) then Ret st
  else if mem2 (i, j) (s_non st) || mem2 (j, i) (s_non st) then Ret st
  else
    match nth_error (s_polys st) i, nth_error (s_polys st) j with
    | Some a, Some b =>
        let! u := union_fn a b in
        match u with
        | Some u => Ret (mkS (s_polys st ++ [u]) (del j (del i (s_index st)) ++ [length (s_polys st)])
                             (s_non st) true)
        | None => Ret (mkS (s_polys st) (s_index st) ((i, j) :: s_non st) (s_changed st))
        end
    | _, _ => Raise IndexError
    end.

Fixpoint foldM {A S} (f : S -> A -> res S) (l : list A) (s : S) : res S :=
  match l with
  | [] => Ret s
  | a :: l' => let! s' := f s a in foldM f l' s'
  end.

(** Lines 20-46: the while loop; the fuel is shown to be sufficient. *)
Fixpoint simplify_loop (fuel k : nat) (st : sstate) : res (nat * sstate) :=
  match fuel with
  | O => Raise RecursionError
  | S fuel' =>
      let! st' := foldM simplify_step (combinations2 (order k (s_index st)))
                    (mkS (s_polys st) (s_index st) (s_non st) false) in
      if s_changed st' then simplify_loop fuel' (S k) st' else Ret (S k, st')
  end.

Definition simplify_union_of_polys (polys : list T) : res (list T) :=
  let! (k, st) := simplify_loop (S (length polys)) 0
                    (mkS polys (seq 0 (length polys)) [] true) in
  mapM (fun i => match nth_error (s_polys st) i with Some p => Ret p | None => Raise IndexError end)
       (order k (s_index st)).

End Simplify.
Arguments mkS {T}.
Arguments s_polys {T}.
Arguments s_index {T}.
Arguments s_non {T}.
Arguments s_changed {T}.

(** [a.dependencies | b.dependencies] *)
Definition dep_union (a b : lpoly) : res (list nat) :=
  match deps a, deps b with
  | Some x, Some y => Ret (x ++ y)
  | _, _ => Raise AttributeError
  end.

Section Ext.
Variable E : ext.
(** Enumeration order of the index set, as above. *)
Variable order : nat -> list nat -> list nat.

(** region.py 108-122, [from_union_of_halfplanes]. *)
Fixpoint halfplane_polys (box neg_ineq halfplanes : list (list Q)) : res (list region) :=
  match halfplanes with
  | [] => Ret []
  | hp :: rest =>
      let! p := Polytope E (box ++ [hp] ++ neg_ineq) false true in
      let! ps := halfplane_polys box (neg_ineq ++ [vopp hp]) rest in
      Ret (RPoly (plain p) :: ps)
  end.

Definition from_union_of_halfplanes (halfplanes box : list (list Q)) : res region :=
  let! ps := halfplane_polys box [] halfplanes in Ret (RDisj ps).

(** region.py 172-192, [is_subset_of].  The target is a Region (a Polytope
    target behaves as a region of type POLYTOPE).  [is_covered_by] reads the
    attribute [mat] of the children of a union, which are Regions. *)
Fixpoint poly_subset (p : lpoly) (t : region) : res bool :=
  match t with
  | RPoly q => Ret (is_subset_of E (body p) (body q))
  | RWrap _ => Raise ValueError
  | RUnion [] | RDisj [] => Ret false
  | RUnion _ | RDisj _ => Raise AttributeError
  | RInter ts => allM (poly_subset p) ts
  | RCompl _ => Raise NotImplementedError
  end.

Fixpoint ris_subset_of (r t : region) : res bool :=
  match r with
  | RPoly p => poly_subset p t
  | RWrap _ => Raise NotImplementedError    (* not modelled further *)
  | RUnion rs | RDisj rs => allM (fun c => ris_subset_of c t) rs
  | RCompl _ | RInter _ => Raise NotImplementedError
  end.

(** region.py 218-243, [project]. *)
Fixpoint rproject (dims : list nat) (r : region) : res (option region) :=
  match r with
  | RPoly p =>
      let! q := project E (body p) dims in
      Ret (match q with None => None | Some q => Some (RPoly (plain q)) end)
  | RWrap r =>
      let! q := rproject dims r in
      Ret (match q with None => None | Some q => Some (RWrap q) end)
  | RUnion rs | RDisj rs =>
      let! qs := mapM (rproject dims) rs in
      match somes qs with
      | [] => Ret None
      | [q] => Ret (Some q)
      | qs => Ret (Some (RUnion qs))
      end
  | RInter rs =>
      let! qs := mapM (rproject dims) rs in
      match somes qs with
      | [] => Ret None
      | [q] => Raise IndexError        (* ps[1] *)
      | qs => Ret (Some (RInter qs))
      end
  | RCompl _ => Raise NotImplementedError
  end.

(** [Polytope.try_union] on polytope objects, with the dependencies of all
    operands assigned to the result when they are tracked. *)
Definition union_deps (ps : list lpoly) : res (list nat) :=
  foldM (fun acc p => match deps p with Some d => Ret (acc ++ d) | None => Raise AttributeError end) ps [].

Definition try_union_l (track : bool) (ps : list lpoly) : res (option lpoly) :=
  let! u := try_union E (map body ps) in
  match u with
  | None => Ret None
  | Some u =>
      if track then let! d := union_deps ps in Ret (Some (mkLPoly u None (Some d)))
      else Ret (Some (plain u))
  end.

(** helpers/region_helper.py 33-36. *)
Definition try_union2 (track : bool) (a b : lpoly) : res (option lpoly) :=
  let! u := try_union E [body a; body b] in
  match u with
  | None => Ret None
  | Some u =>
      if track then let! d := dep_union a b in Ret (Some (mkLPoly u None (Some d)))
      else Ret (Some (plain u))
  end.

(** region.py 360-374: the intersections of [p] with the members of [B]. *)
Fixpoint piece_inters (track : bool) (p : lpoly) (B : list lpoly) : res (list lpoly) :=
  match B with
  | [] => Ret []
  | q :: B' =>
      if is_subset_of E (body p) (body q) then
        let! rest := piece_inters track p B' in Ret (p :: rest)
      else if is_subset_of E (body q) (body p) then
        let! rest := piece_inters track p B' in Ret (q :: rest)
      else
        let! inter := intersect E (body p) (body q) in
        let! e := is_empty E inter false in
        let! this := (if e then Ret []
                      else if track then let! d := dep_union p q in Ret [mkLPoly inter None (Some d)]
                      else Ret [plain inter]) in
        let! rest := piece_inters track p B' in
        Ret (this ++ rest)
  end.

(** region.py 376-391. *)
Definition UNION_THRESHOLD : nat := 5.
Definition SIMPLIFY_EVERY : nat := 20.

Definition merge_inters (track : bool) (inters : list lpoly) : res (list lpoly) :=
  if (2 <=? length inters)%nat && (length inters <=? UNION_THRESHOLD)%nat then
    let! u := try_union_l track inters in
    match u with
    | Some u => Ret [u]
    | None => Ret inters
    end
  else Ret inters.

(** region.py 358-391: one round of the outer loop. *)
Fixpoint round (track : bool) (A B : list lpoly) : res (list lpoly) :=
  match A with
  | [] => Ret []
  | p :: A' =>
      let! inters := piece_inters track p B in
      let! here := merge_inters track inters in
      let! rest := round track A' B in
      Ret (here ++ rest)
  end.

(** region.py 349-403: the loop over the remaining children. *)
Fixpoint intersect_rounds (track : bool) (i : nat) (A : list lpoly) (Bs : list (list lpoly)) : res (list lpoly) :=
  match Bs with
  | [] => Ret A
  | B :: Bs' =>
      let i := S i in
      let! new_A := round track A B in
      let! new_A := (if Nat.eqb (i mod SIMPLIFY_EVERY) 0 && (100 <=? length new_A)%nat
                     then simplify_union_of_polys (try_union2 track) order new_A
                     else Ret new_A) in
      intersect_rounds track i new_A Bs'
  end.

(** [copy.copy] of a polytope (polytope.py 145-148): no cached vertices, no
    label, no dependencies. *)
Definition copy_poly (p : polytope) : polytope := mkPoly (pmat p) (pcanon p) None.

(** region.py 282-416, [_as_disjoint_union_poly]. *)
Fixpoint as_disjoint_union_poly (track : bool) (r : region) : res (list lpoly) :=
  match r with
  | RCompl _ | RUnion _ => Raise NotImplementedError
  | RPoly p =>
      if track then
        match plabel p with
        | Some l => Ret [mkLPoly (copy_poly (body p)) None (Some [l])]
        | None => Raise AttributeError
        end
      else Ret [p]
  | RWrap _ => Raise AttributeError
  | RInter rs =>
      let! child_sets := mapM (as_disjoint_union_poly track) rs in
      match child_sets with
      | [] => Raise IndexError
      | A :: Bs => intersect_rounds track 0 A Bs
      end
  | RDisj rs =>
      let! ls := mapM (as_disjoint_union_poly track) rs in Ret (concat ls)
  end.

(** region.py 260-280, [as_disjoint_union]. *)
Definition as_disjoint_union (track : bool) (r : region) : res region :=
  let! ps := as_disjoint_union_poly track r in Ret (RDisj (map RPoly ps)).

(** region.py 80-92, [_try_simplify_union_of_polys], and 435-442, [simplify]:
    the returned flag and the new region. *)
Fixpoint leaf_polys (rs : list region) : option (list lpoly) :=
  match rs with
  | [] => Some []
  | RPoly p :: rs' => match leaf_polys rs' with Some ps => Some (p :: ps) | None => None end
  | _ => None
  end.

Definition simplify (r : region) : res (bool * region) :=
  match r with
  | RUnion rs =>
      match leaf_polys rs with
      | Some ps => let! ps' := simplify_union_of_polys (try_union2 false) order ps in
                   Ret (true, RUnion (map RPoly ps'))
      | None => Ret (false, r)
      end
  | RDisj rs =>
      match leaf_polys rs with
      | Some ps => let! ps' := simplify_union_of_polys (try_union2 false) order ps in
                   Ret (true, RDisj (map RPoly ps'))
      | None => Ret (false, r)
      end
  | _ => Ret (false, r)
  end.

End Ext.
