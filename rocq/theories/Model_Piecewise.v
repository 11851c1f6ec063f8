(** Model of [Affine2] and [Piecewise], functions.py 322-626.

    Labels are integers or None; comparing None raises TypeError.  Objects are
    values: [crop] and [simplify], which change the object in place, return the
    new list of pieces ([crop] also changes the pieces of any other object that
    shares them).  Printing and plotting are left out. *)
From Verif Require Import Base LinAlg Model_Polytope.

(** functions.py 323-333 *)
Record affine2 : Type := mkA2 { a2 : list Q; dom2 : polytope; label2 : option Z }.

(** functions.py 374-377, [at]. *)
Definition a2_at (f : affine2) (x : point) : res Q :=
  if negb (Nat.eqb (S (length x)) (length (a2 f))) then Raise ValueError
  else Ret (row_at (a2 f) x).

(** [all(self.a[i] == f.a[i] for i in range(len(self.a)))], functions.py 409. *)
Fixpoint coef_eq (a b : list Q) : res bool :=
  match a, b with
  | [], _ => Ret true
  | _ :: _, [] => Raise IndexError
  | x :: a', y :: b' => if Qeqb x y then coef_eq a' b' else Ret false
  end.

(** [[self.a[i] - f.a[i] for i in range(len(self.a))]], functions.py 417. *)
Fixpoint coef_sub (a b : list Q) : res (list Q) :=
  match a, b with
  | [], _ => Ret []
  | _ :: _, [] => Raise IndexError
  | x :: a', y :: b' => let! r := coef_sub a' b' in Ret (x - y :: r)
  end.

(** [self.label < f.label], functions.py 410. *)
Definition label_lt (l m : option Z) : res bool :=
  match l, m with
  | Some l, Some m => Ret (Z.ltb l m)
  | _, _ => Raise TypeError
  end.

(** functions.py 379-383, [intersection]: the coefficients of the hyperplane. *)
Definition a2_intersection (f g : affine2) : res (list Q) :=
  if negb (Nat.eqb (length (a2 f)) (length (a2 g))) then Raise ValueError
  else coef_sub (a2 f) (a2 g).

(** [itertools.combinations(l, n)] *)
Fixpoint combs {A} (n : nat) (l : list A) : list (list A) :=
  match n with
  | O => [[]]
  | S n' =>
      (fix go (l : list A) : list (list A) :=
         match l with
         | [] => []
         | x :: l' => map (cons x) (combs n' l') ++ go l'
         end) l
  end.

Section Ext.
Variable E : ext.

(** functions.py 386-389, [Affine2.scale]. *)
Definition a2_scale (i : nat) (factor : Q) (additional : list (list Q)) (f : affine2) : res affine2 :=
  let! d := scale E (dom2 f) i factor additional in
  Ret (mkA2 (a2 f) d None).

(** functions.py 397-440: the pieces for one function of the list. *)
Definition min_pair (s f : affine2) : res (list affine2) :=
  let! domain := intersect E (dom2 s) (dom2 f) in
  let! e := is_empty E domain false in
  if e then Ret []
  else
    let! same := coef_eq (a2 s) (a2 f) in
    if same then
      let! l := label_lt (label2 s) (label2 f) in
      let fn := if l then s else f in
      Ret [mkA2 (a2 fn) domain (label2 fn)]
    else
      let! plane := coef_sub (a2 s) (a2 f) in
      if intersects E domain plane then
        let! p1 := Polytope E [plane] false false in
        let! d1 := intersect E domain p1 in
        let! p2 := Polytope E [map Qopp plane] false false in
        let! d2 := intersect E domain p2 in
        let! e1 := is_empty E d1 false in
        let! e2 := is_empty E d2 false in
        Ret ((if e1 then [] else [mkA2 (a2 f) d1 (label2 f)]) ++
             (if e2 then [] else [mkA2 (a2 s) d2 (label2 s)]))
      else
        let! c := get_centroid E domain in
        let! vs := a2_at s c in
        let! vf := a2_at f c in
        let fn := if Qltb vs vf then s else f in
        Ret [mkA2 (a2 fn) domain (label2 fn)].

(** functions.py 391-441, [Affine2.min_with]. *)
Definition a2_min_with (s : affine2) (other : list affine2) : res (list affine2) :=
  let! ps := mapM (min_pair s) other in Ret (concat ps).

(** functions.py 532-536, [Piecewise.min_with]. *)
Definition pw_min_with (pieces other : list affine2) : res (list affine2) :=
  let! ps := mapM (fun p => a2_min_with p other) pieces in Ret (concat ps).

(** functions.py 538-542, [Piecewise.at]. *)
Fixpoint pw_at (pieces : list affine2) (x : point) : res (option Q) :=
  match pieces with
  | [] => Ret None
  | p :: rest =>
      let! c := contains (dom2 p) x in
      if c then let! v := a2_at p x in Ret (Some v) else pw_at rest x
  end.

(** functions.py 512-525, [Piecewise.crop]. *)
Fixpoint keep_nonempty (pieces : list affine2) : res (list affine2) :=
  match pieces with
  | [] => Ret []
  | p :: rest =>
      let! r := keep_nonempty rest in
      let! e := is_empty E (dom2 p) false in
      Ret (if e then r else p :: r)
  end.
Definition pw_crop (pieces : list affine2) (domain : polytope) (simplify : bool) : res (list affine2) :=
  let! ps := mapM (fun p => let! d := intersect E (dom2 p) domain in Ret (mkA2 (a2 p) d (label2 p))) pieces in
  if simplify then keep_nonempty ps else Ret ps.

(** functions.py 545-548, [Piecewise.scale]. *)
Definition pw_scale (pieces : list affine2) (i : nat) (factor : Q) (additional : list (list Q)) : res (list affine2) :=
  mapM (a2_scale i factor additional) pieces.

(** functions.py 462-471: is there no pair of pieces whose domains overlap? *)
Fixpoint no_overlap (pieces : list affine2) (before : list affine2) : res bool :=
  match pieces with
  | [] => Ret true
  | p :: rest =>
      let! ok := (fix go (qs : list affine2) : res bool :=
        match qs with
        | [] => Ret true
        | q :: qs' =>
            let! i := intersect E (dom2 p) (dom2 q) in
            let! e := is_empty E i false in
            if e then go qs' else Ret false
        end) before in
      if ok then no_overlap rest (before ++ [p]) else Ret false
  end.

(** functions.py 474-481: sample points. *)
Definition sample (lim : Q * Q) (i : nat) : Q := fst lim + (snd lim - fst lim) * inject_Z (Z.of_nat i) / 100.
Fixpoint all_defined (pieces : list affine2) (xs : list point) : res bool :=
  match xs with
  | [] => Ret true
  | x :: rest =>
      let! v := pw_at pieces x in
      match v with None => Ret false | Some _ => all_defined pieces rest end
  end.

(** functions.py 461-482, [Piecewise.check]. *)
Definition pw_check (pieces : list affine2) (xlim ylim : Q * Q) : res bool :=
  let! ok := no_overlap pieces [] in
  if ok then
    all_defined pieces (flat_map (fun i => map (fun j => [sample xlim i; sample ylim j]) (seq 0 100)) (seq 0 100))
  else Ret false.

(** functions.py 586-596: groups of pieces with equal label and coefficients, in
    the order in which the keys of the dictionary [matchable] appear. *)
Definition label_eqb (l m : option Z) : bool :=
  match l, m with
  | None, None => true
  | Some l, Some m => Z.eqb l m
  | _, _ => false
  end.
Definition same_key (f g : affine2) : bool := label_eqb (label2 f) (label2 g) && qlist_eqb (a2 f) (a2 g).
Fixpoint insert_group (p : affine2) (groups : list (list affine2)) : list (list affine2) :=
  match groups with
  | [] => [[p]]
  | g :: rest =>
      match g with
      | q :: _ => if same_key p q then (g ++ [p]) :: rest else g :: insert_group p rest
      | [] => g :: insert_group p rest
      end
  end.
Definition group_pieces (pieces : list affine2) : list (list affine2) :=
  fold_left (fun gs p => insert_group p gs) pieces [].

(** functions.py 567-582: the first choice of [n] pieces whose union is found. *)
Fixpoint first_union (cs : list (list (nat * affine2))) : res (option (list nat * affine2)) :=
  match cs with
  | [] => Ret None
  | c :: rest =>
      let! u := try_union E (map (fun ip => dom2 (snd ip)) c) in
      match u, c with
      | Some u, (_, f) :: _ => Ret (Some (map fst c, mkA2 (a2 f) u (label2 f)))
      | Some _, [] => Raise IndexError
      | None, _ => first_union rest
      end
  end.
Definition merge_group (n : nat) (group : list affine2) : res (list affine2 * bool) :=
  let indexed := combine (seq 0 (length group)) group in
  let! u := first_union (combs n indexed) in
  match u with
  | None => Ret (group, false)
  | Some (c, new) =>
      Ret (map snd (filter (fun ip => negb (existsb (Nat.eqb (fst ip)) c)) indexed) ++ [new], true)
  end.

(** functions.py 557-584, [iteration]. *)
Definition iteration (n : nat) (groups : list (list affine2)) : res (list (list affine2) * bool) :=
  let! rs := mapM (merge_group n) groups in
  Ret (map fst rs, existsb snd rs).

(** functions.py 610-612: the while loop; the fuel is shown to be sufficient. *)
Fixpoint iterate (fuel n : nat) (groups : list (list affine2)) : res (list (list affine2)) :=
  match fuel with
  | O => Raise RecursionError
  | S fuel' =>
      let! (gs, changed) := iteration n groups in
      if changed then iterate fuel' n gs else Ret gs
  end.
Fixpoint iterate_all (ns : list nat) (groups : list (list affine2)) : res (list (list affine2)) :=
  match ns with
  | [] => Ret groups
  | n :: ns' =>
      let! gs := iterate (S (length (concat groups))) n groups in
      iterate_all ns' gs
  end.

(** functions.py 551-620, [Piecewise.simplify]. *)
Definition pw_simplify (pieces : list affine2) (max_grouping : nat) : res (list affine2) :=
  let! gs := iterate_all (seq 2 (max_grouping - 1)) (group_pieces pieces) in
  Ret (concat gs).
End Ext.
