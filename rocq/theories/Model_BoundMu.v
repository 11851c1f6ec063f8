(** Model of bound_mu.py.  Hypotheses are the nodes of Model_ExponentPair.v; the
    cached convex hull (lines 190-200, 243-248) is modelled in Model_Hypotheses.v,
    here it is recomputed at each call.  The [proof] strings and the printing are
    left out. *)
From Verif Require Import Base Model_Text Model_Reference Model_Interval Model_Affine
  Model_Hull Model_ExponentPair.
Open Scope list_scope.

(** [bound.data.sigma], [bound.data.mu] *)
Definition mu_pt (h : hnode) : res pt :=
  match n_data h with DMu s m => Ret (s, m) | _ => Raise AttributeError end.
(** The same, for hypotheses known to be bounds on mu. *)
Definition mu_key (h : hnode) : pt := match n_data h with DMu s m => (s, m) | _ => (0, 0) end.

(** bound_mu.py 70-80 *)
Definition derived_bound_mu (s m : Q) (deps : list hnode) : res hnode :=
  derived_node (s_of "Derived bound on \mu(" ++ q_str s ++ s_of ")") (DMu s m) deps.

(** bound_mu.py 84, 86 *)
Definition bound_mu_trivial : hnode :=
  HNode (s_of "Classical bound on \mu(1)") (DMu 1 0) ref_classical [].
Definition Lindelof_hypothesis : hnode :=
  HNode (s_of "The Lindelof hypothesis") (DMu (1#2) 0) ref_conjectured [].

(** bound_mu.py 96-101 *)
Definition trivial_mu_bound (s : Q) : Q :=
  if Qleb s 0 then (1#2) - s
  else if Qleb 1 s then 0
  else (1#2) - s / 2.

(** bound_mu.py 104-110 *)
Definition apply_trivial_mu_bound (s : Q) : res hnode := derived_bound_mu s (trivial_mu_bound s) [].

(** bound_mu.py 114-122 *)
Definition apply_functional_equation (b : hnode) : res hnode :=
  let! (s, m) := mu_pt b in derived_bound_mu (1 - s) (m + s - (1#2)) [b].

(** bound_mu.py 126-136: a theta outside [0,1] is only reported on the terminal. *)
Definition apply_mu_convexity (b1 b2 : hnode) (theta : Q) : res hnode :=
  let! (s1, m1) := mu_pt b1 in
  let! (s2, m2) := mu_pt b2 in
  derived_bound_mu ((1 - theta) * s1 + theta * s2) ((1 - theta) * m1 + theta * m2) [b1; b2].

(** bound_mu.py 140-146 *)
Definition obtain_mu_bound_from_exponent_pair (h : hnode) : res hnode :=
  let! (k, l) := pair_of h in derived_bound_mu (l - k) k [h].

Section Bounds.
Context (ch : hull_routine) (tr : nat -> hnode -> res hnode).

(** bound_mu.py 161-165: the loop runs over the list it extends.  [queue] is the
    part not yet visited; the fuel is shown to be sufficient. *)
Fixpoint extend_fe (fuel : nat) (seen queue : list hnode) : res (list hnode) :=
  match queue with
  | [] => Ret seen
  | b :: q =>
      match fuel with
      | O => Raise RecursionError
      | S f =>
          let! (s, m) := mu_pt b in
          if Qltb 1 (2 * s) then
            let! b' := apply_functional_equation b in extend_fe f (seen ++ [b]) (q ++ [b'])
          else extend_fe f (seen ++ [b]) q
      end
  end.

(** bound_mu.py 150-166 *)
Definition get_bounds (hs : list hnode) : res (list hnode) :=
  let bounds := filter is_mu hs ++ [bound_mu_trivial] in
  let! exp_pairs := compute_exp_pairs ch tr hs 5 true in
  let! from_pairs := mapM obtain_mu_bound_from_exponent_pair exp_pairs in
  let bounds := bounds ++ from_pairs in
  extend_fe (2 * List.length bounds) [] bounds.

(** bound_mu.py 171-175 *)
Definition mu_convex_hull (bounds : list hnode) : res (list hnode) :=
  let! vs := ch (map mu_key bounds) in
  Ret (map (fun v => nth v bounds bound_mu_trivial) vs).

Definition placeholder : hnode := HNode (s_of "Placeholder") (DMu (1#2) 10) ref_conjectured [].

(** bound_mu.py 204-215: one pair of neighbouring vertices. *)
Definition edge_bound (s : Q) (b1 b2 : hnode) : res (option hnode) :=
  let! (s1, m1) := mu_pt b1 in
  let! (s2, m2) := mu_pt b2 in
  if Qleb s1 s && Qleb s s2 then
    if Qeqb s1 s2 then Ret (Some (if Qltb m1 m2 then b1 else b2))
    else
      let! theta := qdiv (s - s1) (s2 - s1) in
      let! b := apply_mu_convexity b1 b2 theta in Ret (Some b)
  else Ret None.

(** bound_mu.py 202-216 *)
Fixpoint best_of_edges (s : Q) (edges : list (hnode * hnode)) (ans : hnode) : res hnode :=
  match edges with
  | [] => Ret ans
  | (b1, b2) :: rest =>
      let! o := edge_bound s b1 b2 in
      match o with
      | None => best_of_edges s rest ans
      | Some b => best_of_edges s rest (if Qltb (snd (mu_key b)) (snd (mu_key ans)) then b else ans)
      end
  end.

(** bound_mu.py 180-216, [best_mu_bound] *)
Definition best_mu_bound (s : Q) (hs : list hnode) : res hnode :=
  if Qleb s 0 || Qleb 1 s then apply_trivial_mu_bound s
  else
    let! ans := apply_trivial_mu_bound s in
    let! bounds := get_bounds hs in
    let! verts := mu_convex_hull (bounds ++ [placeholder]) in
    best_of_edges s (cyc_edges verts) ans.

(** The entries of the list returned by [best_mu_bound_piecewise]: tuples with a
    formula as text, and Affine objects. *)
Inductive mu_piece : Type :=
| MText (formula : str) (a b : Q)
| MAff (f : affine).

(** bound_mu.py 250-264 *)
Definition edge_piece (s0 s1 : Q) (e : hnode * hnode) : res (list mu_piece) :=
  let! (a1, m1) := mu_pt (fst e) in
  let! (a2, m2) := mu_pt (snd e) in
  if Qltb a2 s0 || Qltb s1 a1 then Ret []
  else
    let! interval := Interval_default (qmax s0 a1) (qmin s1 a2) in
    if Qltb a1 a2 && negb (is_empty interval) then
      let! sl := qdiv (m2 - m1) (a2 - a1) in
      let! ic := qdiv (a2 * m1 - a1 * m2) (a2 - a1) in
      Ret [MAff (mkA sl ic interval None)]
    else Ret [].

(** bound_mu.py 224-264 for an interval inside [0,1] *)
Definition piecewise_inside (s0 s1 : Q) (hs : list hnode) : res (list mu_piece) :=
  let! bounds := get_bounds hs in
  let! verts := mu_convex_hull bounds in
  let! ps := mapM (edge_piece s0 s1) (cyc_edges verts) in
  Ret (concat ps).

(** bound_mu.py 228-239: the two recursive calls. *)
Definition piecewise_right (s0 s1 : Q) (hs : list hnode) : res (list mu_piece) :=
  if Qltb s1 s0 then Raise ValueError
  else if Qltb 1 s1 then
    let! _ := Interval s0 1 true true in
    let! ps := piecewise_inside s0 1 hs in
    Ret (ps ++ [MText (s_of "0") 1 s1])
  else piecewise_inside s0 s1 hs.
Definition best_mu_bound_piecewise (i : interval) (hs : list hnode) : res (list mu_piece) :=
  if Qltb (x1 i) (x0 i) then Raise ValueError
  else if Qltb (x0 i) 0 then
    let! _ := Interval 0 (x1 i) true (incl_hi i) in
    let! ps := piecewise_right 0 (x1 i) hs in
    Ret (MText (s_of "-x + 1/2") (x0 i) 0 :: ps)
  else piecewise_right (x0 i) (x1 i) hs.

(** bound_mu.py 269-281, [prove_mu_bound]: the bound found (which the code also
    adds to the set), or False. *)
Definition prove_mu_bound (s m : Q) (hs : list hnode) : res (option hnode) :=
  let! b := best_mu_bound s hs in
  Ret (if Qleb (snd (mu_key b)) m then Some b else None).
End Bounds.
