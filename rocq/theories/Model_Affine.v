(** Model of class [Affine], functions.py 133-318. *)
From Verif Require Import Base Model_Interval.

(** functions.py 141-145. [label] is [None] or a working id (bound_beta.py 143);
    only equality of labels is ever used, so ids are naturals. *)
Record affine : Type := mkA { slope : Q; icpt : Q; dom : interval; label : option nat }.

(** functions.py 172-175, [at(x)] with extend_domain=False. *)
Definition at_ (f : affine) (x : Q) : option Q :=
  if contains (dom f) x then Some (slope f * x + icpt f) else None.

(** functions.py 172-175, [at(x, True)]. *)
Definition at_ext (f : affine) (x : Q) : Q := slope f * x + icpt f.

(** functions.py 179-180. *)
Definition function_equals (f g : affine) : bool :=
  Qeqb (slope f) (slope g) && Qeqb (icpt f) (icpt g).

(** functions.py 184-190. *)
Definition intersection (f g : affine) : option Q :=
  if Qeqb (slope f) (slope g) then None
  else
    let inter := (icpt g - icpt f) / (slope f - slope g) in
    if contains (dom f) inter && contains (dom g) inter then Some inter else None.

(** functions.py 150-161, [Affine.__eq__] between two Affine objects.
    Tuple comparison compares slope, intercept, then domain. *)
Definition oq_eqb (a b : option Q) : bool :=
  match a, b with
  | Some x, Some y => Qeqb x y
  | None, None => true
  | _, _ => false
  end.
Definition affine_eqb (f g : affine) : bool :=
  if Qeqb (length (dom f)) 0 && Qeqb (length (dom g)) 0 && Qeqb (x0 (dom f)) (x0 (dom g))
  then oq_eqb (at_ f (x0 (dom f))) (at_ g (x0 (dom f)))
  else Qeqb (slope f) (slope g) && Qeqb (icpt f) (icpt g) && interval_eqb (dom f) (dom g).

(** functions.py 163-164, [deep_copy] (the label is dropped). *)
Definition affine_deep_copy (f : affine) : res affine :=
  let! d := deep_copy (dom f) in Ret (mkA (slope f) (icpt f) d None).

(** The list [pieces] of [compare_with] holds references: either to [self]
    (functions.py 249, 261: [p = self], appended at 254 or 266 when no function
    of [f2] covers the cell) or to a fresh object made at line 211. *)
Inductive pref : Type := RSelf | ROwn (f : affine).
Definition deref (self : affine) (p : pref) : affine :=
  match p with RSelf => self | ROwn f => f end.

(** functions.py 201-211, [compare_f(p, q, domain)]; at every call site [q] is
    not None. Comparing [None] values raises TypeError. *)
Definition compare_f (cmp : Q -> Q -> bool) (self : affine) (p : option pref) (q : affine)
    (d : interval) : res (option pref) :=
  let! f :=
    match p with
    | None => Ret q
    | Some r =>
        let x := midpoint d in
        match at_ (deref self r) x, at_ q x with
        | Some a, Some b => Ret (if cmp a b then deref self r else q)
        | _, _ => Raise TypeError
        end
    end in
  let! dd := intersect (dom f) d in
  Ret (Some (ROwn (mkA (slope f) (icpt f) dd (label f)))).

(** functions.py 249-252 and 261-264: best piece on one cell, tested at [tx]. *)
Definition best_on (cmp : Q -> Q -> bool) (self : affine) (f2 : list affine)
    (cell : interval) (tx : Q) : res (option pref) :=
  fold_left
    (fun acc f => let! p := acc in
                  if contains (dom f) tx then compare_f cmp self p f cell else Ret p)
    f2 (Ret (if contains (dom self) tx then Some RSelf else None)).

(** functions.py 223-227: intersections of all pairs of [f2]. *)
Fixpoint pair_intersections (f2 : list affine) : list Q :=
  match f2 with
  | [] => []
  | f :: rest =>
      flat_map (fun g => match intersection g f with Some x => [x] | None => [] end) rest
      ++ pair_intersections rest
  end.

(** functions.py 214-235: sorted distinct critical points. *)
Definition critical_points (self : affine) (f2 : list affine) (domain : option interval) : list Q :=
  let base :=
    [x0 (dom self); x1 (dom self)]
    ++ map (fun p => x0 (dom p)) f2 ++ map (fun p => x1 (dom p)) f2
    ++ flat_map (fun p => match intersection self p with Some x => [x] | None => [] end) f2
    ++ pair_intersections f2 in
  let cropped :=
    match domain with
    | None => base
    | Some d => filter (contains d) base ++ [x0 d; x1 d]
    end in
  sort_uniq cropped.

(** functions.py 253-254, 265-266. *)
Definition olist {A} (o : option A) : list A := match o with Some a => [a] | None => [] end.

(** functions.py 246-254: the singleton cell at a critical point. *)
Definition point_cell (cmp : Q -> Q -> bool) (self : affine) (f2 : list affine)
    (domain : option interval) (x : Q) : res (list pref) :=
  let! cell := Interval x x true true in
  if match domain with None => true | Some d => contains d x end
  then let! p := best_on cmp self f2 cell x in Ret (olist p)
  else Ret [].

(** functions.py 259-266: the open cell between two critical points. *)
Definition open_cell (cmp : Q -> Q -> bool) (self : affine) (f2 : list affine)
    (x y : Q) : res (list pref) :=
  let! cell := Interval x y false false in
  let! p := best_on cmp self f2 cell (midpoint cell) in Ret (olist p).

(** functions.py 240-268: the loop over {b0}, (b0,b1), {b1}, ...;
    an empty list of critical points would make [crits[i]] raise. *)
Fixpoint raw_pieces (cmp : Q -> Q -> bool) (self : affine) (f2 : list affine)
    (domain : option interval) (crits : list Q) : res (list pref) :=
  match crits with
  | [] => Raise IndexError
  | x :: rest =>
      let! p1 := point_cell cmp self f2 domain x in
      match rest with
      | [] => Ret p1
      | y :: _ =>
          let! p2 := open_cell cmp self f2 x y in
          let! p3 := raw_pieces cmp self f2 domain rest in
          Ret (p1 ++ p2 ++ p3)
      end
  end.

(** functions.py 277-292. *)
Definition label_eqb (a b : option nat) : bool :=
  match a, b with
  | None, None => true
  | Some i, Some j => Nat.eqb i j
  | _, _ => false
  end.
Definition pieces_match (p1 p2 : affine) : bool :=
  let d1 := dom p1 in let d2 := dom p2 in
  Qeqb (x1 d1) (x0 d2)
  && (incl_hi d1 || incl_lo d2)
  && label_eqb (label p1) (label p2)
  && ((Qeqb (length d1) 0 && oq_eqb (at_ p1 (x1 d1)) (at_ p2 (x0 d2)))
      || (Qeqb (length d2) 0 && oq_eqb (at_ p1 (x1 d1)) (at_ p2 (x0 d2)))
      || function_equals p1 p2).

(** functions.py 297-298: extend the domain of [p1] to include [p2]. *)
Definition extend_to (p1 p2 : affine) : affine :=
  mkA (slope p1) (icpt p1)
      (mkI (x0 (dom p1)) (x1 (dom p2)) (incl_lo (dom p1)) (incl_hi (dom p2)))
      (label p1).

(** functions.py 271-300: the merging loop. Extending a reference to [self]
    mutates [self]; the new [self] is returned with the list. *)
Fixpoint merge_from (self : affine) (cur : pref) (rest : list pref) : affine * list pref :=
  match rest with
  | [] => (self, [cur])
  | nxt :: rest' =>
      let p1 := deref self cur in
      let p2 := deref self nxt in
      if pieces_match p1 p2 then
        match cur with
        | RSelf => merge_from (extend_to p1 p2) RSelf rest'
        | ROwn _ => merge_from self (ROwn (extend_to p1 p2)) rest'
        end
      else let (s, l) := merge_from self nxt rest' in (s, cur :: l)
  end.
Definition merge_pieces (self : affine) (l : list pref) : affine * list pref :=
  match l with [] => (self, []) | c :: rest => merge_from self c rest end.

(** functions.py 199-302, [compare_with]; returns the final state of [self] and
    the list of references. *)
Definition compare_with_refs (cmp : Q -> Q -> bool) (self : affine) (f2 : list affine)
    (domain : option interval) : res (affine * list pref) :=
  let! l := raw_pieces cmp self f2 domain (critical_points self f2 domain) in
  Ret (merge_pieces self l).

Definition deref_all (r : affine * list pref) : list affine := map (deref (fst r)) (snd r).

Definition compare_with (cmp : Q -> Q -> bool) (self : affine) (f2 : list affine)
    (domain : option interval) : res (list affine) :=
  let! r := compare_with_refs cmp self f2 domain in Ret (deref_all r).

(** functions.py 309-310 and 317-318. *)
Definition lt_cmp (x y : Q) : bool := Qltb x y.
Definition gt_cmp (x y : Q) : bool := Qltb y x.
Definition min_with := compare_with lt_cmp.
Definition max_with := compare_with gt_cmp.
