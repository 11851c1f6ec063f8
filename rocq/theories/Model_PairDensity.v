(** Model of blueprint/src/python/zero_density_estimate.py 531-558 and 614-728: zero
    density estimates from exponent pairs.

    Ends of intervals computed from exponent pairs are exact fractions; the points
    at which bounds cross are real numbers.  The numerical search
    [approx_bourgain_ep_to_zd] (lines 560-611), which only prints, is left out. *)
From Verif Require Import Base Model_Text Model_Reference Model_Interval Model_ExponentPair Model_LargeValues Model_AdditiveEnergy
  Model_RationalFunction Spec_RationalFunction Model_ZeroDensity Model_DensityEstimate.
From Coq Require Import Reals Qreals.
Open Scope list_scope.
Local Open Scope Q_scope.

(** [h.data.k, h.data.l]; the data of other hypotheses lack one of the two *)
Definition pair_of (h : hnode) : res (Q * Q) :=
  match n_data h with DPair k l => Ret (k, l) | _ => Raise AttributeError end.
(** [p / q] on fractions *)
Definition frac_div (p q : Q) : res Q := if Qeqb q 0 then Raise ZeroDivisionError else Ret (p / q).
(** exponent_pair.py 19-20 *)
Definition pair_repr (k l : Q) : str := s_of "The exponent pair (" ++ q_str k ++ s_of ", " ++ q_str l ++ s_of ")".
(** A hypothesis on exponent pairs among the dependencies. *)
Definition as_dep (h : hnode) : znode := ZBase (EBase (LBase h)).

(** Lines 545-547 *)
Definition ivic_start (m : Z) (k l : Q) : res Q :=
  let M := inject_Z m in
  frac_div (3 * M * M * (1 + 2 * k + 2 * l) - (4 * k + 2 * l) * M + 2 * k + 2 * l)
           (4 * M * M * (1 + 2 * k + 2 * l) - (6 * k + 4 * l) * M + 2 * k + 2 * l).
(** Lines 543-550 *)
Fixpoint ivic_search (m : Z) (exp_pairs : list hnode) (sigma0 : Q) (dep : option hnode) : res (Q * option hnode) :=
  match exp_pairs with
  | [] => Ret (sigma0, dep)
  | eph :: rest =>
      let! kl := pair_of eph in
      let! v := ivic_start m (fst kl) (snd kl) in
      if Qltb v sigma0 then ivic_search m rest v (Some eph) else ivic_search m rest sigma0 dep
  end.
(** [Interval(a, b)] on fractions *)
Definition frac_interval (a b : Q) : res (ivl R) := if Qltb b a then Raise ValueError else Ret (real_interval (a, b)).

(** Lines 538-558 *)
Definition ivic_ep_to_zd (exp_pairs : list hnode) (m : Z) : res znode :=
  let M := inject_Z m in
  let! found := ivic_search m exp_pairs 1 None in
  let '(sigma0, dep) := found in
  let! c1 := frac_div (9 * M * M - 4 * M + 2) (12 * M * M - 6 * M + 2) in
  let sigma0 := qmax sigma0 c1 in
  let! c2 := frac_div (6 * M * M - 5 * M + 2) (8 * M * M - 7 * M + 2) in
  let sigma0 := qmin sigma0 c2 in
  let! interval := frac_interval sigma0 1 in
  let zde := Zero_Density_Estimate (z_str (3 * m) ++ s_of "/(" ++ z_str (3 * m - 2) ++ s_of "x + " ++ z_str (2 - m) ++ s_of ")") interval in
  match dep with
  | None => Raise AttributeError
  | Some dep =>
      let! kl := pair_of dep in
      derived_zero_density_estimate zde (s_of "Follows from " ++ pair_repr (fst kl) (snd kl)) [as_dep dep]
  end.

Section Sympy.
Variable rf_str : rfun -> str.
(** [sympy.real_roots] *)
Variable real_roots : expr -> list R.

(** functions.py 108-130 *)
Definition real_intersect (i j : ivl R) : res (ivl R) :=
  let lower := Rmax (lo i) (lo j) in
  let upper := Rmin (hi i) (hi j) in
  if Rltb upper lower then Ret (mkV 0%R 0%R false false)
  else
    let include_lower := if Rltb (lo j) (lo i) then ilo i else if Rltb (lo i) (lo j) then ilo j else ilo i && ilo j in
    let include_upper := if Rltb (hi i) (hi j) then ihi i else if Rltb (hi j) (hi i) then ihi j else ihi i && ihi j in
    Ret (mkV lower upper include_lower include_upper).

Definition pair_bound := (rfun * ivl R * hnode)%type.

(** Lines 642-664, one pass of the loop *)
Definition bourgain_bound (kl : Q * Q) : res (list pair_bound) :=
  let '(k, l) := kl in
  let! h := derived_exp_pair k l [] in
  let f := RationalFunction [4 * k] (Some [2 * (1 + k); -(1) - l]) in
  if Qleb k (1#5) && Qleb (3#5) l && Qleb 13 (15 * l + 20 * k) then
    let! pole := frac_div (l + 1) (2 * (k + 1)) in
    if Qleb k (11#85) then
      let s0 := qmax (1#2) pole in
      if Qleb 1 s0 then Ret [] else let! i := frac_interval s0 1 in Ret [(f, i, h)]
    else
      let! limit := frac_div (144 * k - 11 * l - 11) (170 * k - 22) in
      let s0 := qmax (qmax (1#2) pole) limit in
      if Qleb 1 s0 then Ret [] else let! i := frac_interval s0 1 in Ret [(f, i, h)]
  else Ret [].

(** Lines 666-672: the points that one bound adds with those before it. *)
Fixpoint crits_with (b1 : pair_bound) (before : list pair_bound) : res (list R) :=
  match before with
  | [] => Ret []
  | b2 :: rest =>
      let '(f1, int1, _) := b1 in
      let '(f2, int2, _) := b2 in
      let! both := real_intersect int1 int2 in
      let! more := crits_with b1 rest in
      Ret (intersections R Rltb real_roots f1 f2 both ++ [lo int1; hi int1; lo int2; hi int2] ++ more)
  end.
Fixpoint bound_crits (before bounds : list pair_bound) : res (list R) :=
  match bounds with
  | [] => Ret []
  | b :: rest =>
      let! here := crits_with b before in
      let! more := bound_crits (before ++ [b]) rest in
      Ret (here ++ more)
  end.

(** Lines 687-696; [sup] starts as infinity. *)
Fixpoint least_at (s : R) (bounds : list pair_bound) (sup : option R) (argmax : option pair_bound) : res (option pair_bound) :=
  match bounds with
  | [] => Ret argmax
  | b :: rest =>
      let '(f, i, h) := b in
      if icontains R Rltb i s then
        let! q := rf_atR f s in
        if match sup with None => true | Some v => Rltb q v end then least_at s rest (Some q) (Some b) else least_at s rest sup argmax
      else least_at s rest sup argmax
  end.

(** Lines 677-697; [None] in place of a bound cannot be subscripted. *)
Fixpoint bound_cells (bounds : list pair_bound) (s1 : R) (rest : list R) : res (list pair_bound) :=
  match rest with
  | [] => Ret []
  | s2 :: rest' =>
      if Reqb s2 s1 || Rltb s1 (Q2R (1#2)) then bound_cells bounds s2 rest'
      else
        let! interval := mk_interval R Rltb s1 s2 in
        let! argmax := least_at (Rmid s1 s2) bounds None None in
        match argmax with
        | None => Raise TypeError
        | Some (f, _, h) => let! more := bound_cells bounds s2 rest' in Ret ((f, interval, h) :: more)
        end
  end.

(** Lines 699-706: from the back, a piece is merged into the one before it. *)
Fixpoint merge_bounds (soln : list pair_bound) : list pair_bound :=
  match soln with
  | [] => []
  | (f, i, h) :: rest =>
      match merge_bounds rest with
      | (f2, i2, h2) :: rest' =>
          if rf_eqb f f2 && Reqb (hi i) (lo i2) then (f, mkV (lo i) (hi i2) (ilo i) (ihi i), h) :: rest'
          else (f, i, h) :: (f2, i2, h2) :: rest'
      | [] => [(f, i, h)]
      end
  end.

(** Lines 711-716 *)
Definition pack_bound (b : pair_bound) : res znode :=
  let '(f, i, h) := b in
  derived_zero_density_estimate (from_rational_func rf_str f i) (s_of "Follows from applying [Bourgain, 1995] and taking " ++ n_name h) [as_dep h].

(** Lines 641-716, for a list of pairs *)
Definition bourgain_from (eps : list (Q * Q)) : res (list znode) :=
  let! bs := mapM bourgain_bound eps in
  let bounds := concat bs in
  let! points := bound_crits [] bounds in
  let! soln := match sorted_set R Rltb points with [] => Ret [] | s :: rest => bound_cells bounds s rest end in
  mapM pack_bound (merge_bounds soln).

(** Lines 630-639 *)
Definition bourgain_pairs : list (Q * Q) :=
  [(11#85, 59#85); (391#4595, 3461#4595); (2779#38033, 58699#76066); (1101653#15854002, 12327829#15854002);
   (1959#47230, 3975#4723); (1175779#38456886, 16690288#19228443); (89#3478, 15327#17390); (1#100, 14#15)].
(** Lines 626-716 *)
Definition bourgain_ep_to_zd : res (list znode) := bourgain_from bourgain_pairs.

(** Lines 718-728.  [find_pairs] stands for lines 721-726, which extend the set and
    return exponent pairs; then [bourgain_ep_to_zd] is called with an argument that it
    does not take. *)
Definition ep_to_zd (find_pairs : list hnode -> res (list hnode)) (hypotheses : list hnode) : res (list znode) :=
  let! ephs := find_pairs hypotheses in Raise TypeError.
End Sympy.
