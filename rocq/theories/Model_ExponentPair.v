(** Model of exponent_pair.py, of bound_beta.py 48-125, of the exponent pair
    transforms in literature.py 507-591 and of derived.py 11-20.

    A hypothesis object is modelled as a tree: its name, data, reference and the
    hypotheses it depends on.  The type of a hypothesis is determined by its data.
    Objects that Python tells apart only by identity are not told apart here, so
    a Python set of dependencies is a list in which order and repetition mean
    nothing.  The [description] and [proof] strings are not modelled.  A set of
    hypotheses is given by the list of its members in the order of iteration. *)
From Verif Require Import Base Model_Text Model_Reference Model_Interval Model_Affine Model_BoundBeta
  Model_Hull Model_Polytope.
Open Scope list_scope.

(** What a hypothesis asserts.  Transforms carry a Python function; they are
    numbered here and the functions are given by an environment. *)
Inductive hdata : Type :=
| DPair (k l : Q)        (* "Exponent pair", exponent_pair.py 14-25 *)
| DTrans (t : nat)       (* "Exponent pair transform" *)
| DBetaTrans (t : nat)   (* "Exponent pair to beta bound transform" *)
| DBeta (b : affine)     (* "Upper bound on beta", bound_beta.py 16-23 *)
| DMu (s m : Q).         (* "Upper bound on mu", bound_mu.py 22-33 *)

Inductive hnode : Type := HNode (name : str) (d : hdata) (r : reference) (deps : list hnode).
Definition n_name (h : hnode) : str := let (n, _, _, _) := h in n.
Definition n_data (h : hnode) : hdata := let (_, d, _, _) := h in d.
Definition n_ref (h : hnode) : reference := let (_, _, r, _) := h in r.
Definition n_deps (h : hnode) : list hnode := let (_, _, _, ds) := h in ds.

(** hypotheses.py 190-195, [list_hypotheses(type)]. *)
Definition is_pair (h : hnode) : bool := match n_data h with DPair _ _ => true | _ => false end.
Definition is_trans (h : hnode) : bool := match n_data h with DTrans _ => true | _ => false end.
Definition is_beta_trans (h : hnode) : bool := match n_data h with DBetaTrans _ => true | _ => false end.
Definition is_beta (h : hnode) : bool := match n_data h with DBeta _ => true | _ => false end.
Definition is_mu (h : hnode) : bool := match n_data h with DMu _ _ => true | _ => false end.

(** hypotheses.py 198-212 with keywords only, for a single keyword. *)
Definition find_keyword (kw : str) (hs : list hnode) : option hnode :=
  find (fun h => Model_Text.contains kw (n_name h)) hs.

(** hypotheses.py 111-112, without the recursion limit. *)
Fixpoint complexity (h : hnode) : nat :=
  let (_, _, _, ds) := h in S (fold_right (fun d n => (complexity d + n)%nat) 0%nat ds).

(** [str(Fraction)] *)
Definition q_str (q : Q) : str :=
  let q := Qred q in
  z_str (Qnum q) ++ (if Pos.eqb (Qden q) 1 then [] else s_of "/" ++ z_str (Zpos (Qden q))).

(** exponent_pair.py 40-50, bound_beta.py 48-58, bound_mu.py 70-80: the common
    part of the constructors of derived hypotheses. *)
Definition derived_node (name : str) (d : hdata) (deps : list hnode) : res hnode :=
  let! y := max_year (map n_ref deps) in Ret (HNode name d (ref_derived y) deps).

Definition derived_exp_pair (k l : Q) (deps : list hnode) : res hnode :=
  derived_node (s_of "Derived exponent pair (" ++ q_str k ++ s_of ", " ++ q_str l ++ s_of ")")
    (DPair k l) deps.
Definition derived_bound_beta (b : affine) (deps : list hnode) : res hnode :=
  derived_node (s_of "Derived bound on \beta") (DBeta b) deps.

(** exponent_pair.py 53-59, 62-68 *)
Definition trivial_exp_pair : hnode :=
  HNode (s_of "Trivial exponent pair (0, 1)") (DPair 0 1) ref_trivial [].
Definition exponent_pair_conjecture : hnode :=
  HNode (s_of "Exponent pair conjecture") (DPair 0 0) ref_conjectured [].

(** [hypothesis.data.k], [hypothesis.data.l] *)
Definition pair_of (h : hnode) : res (Q * Q) :=
  match n_data h with DPair k l => Ret (k, l) | _ => Raise AttributeError end.

(** ** Transforms, literature.py 507-591 *)

(** Python's [/] on fractions. *)
Definition qdiv (a b : Q) : res Q := if Qeqb b 0 then Raise ZeroDivisionError else Ret (a / b).

Section Transforms.
(** [rm.get("sargos_analog_2003")] and [rm.get("sargos_points_1995")]: literature.py 553, 584. *)
Context (ref_sargos_2003 ref_sargos_1995 : reference).

Definition A_hyp : hnode :=
  HNode (s_of "van der Corput A transform") (DTrans 0) (ref_make (s_of "Weyl--van der Corput") 1920) [].
Definition B_hyp : hnode :=
  HNode (s_of "van der Corput B transform") (DTrans 1) (ref_make (s_of "van der Corput") 1920) [].
Definition C_hyp : hnode :=
  HNode (s_of "Sargos C transform") (DTrans 2) ref_sargos_2003 [].
Definition D_hyp : hnode :=
  HNode (s_of "Sargos D transform") (DBetaTrans 0) ref_sargos_1995 [].

(** literature.py 507-514 *)
Definition A_fun (h : hnode) : res hnode :=
  let! (k, l) := pair_of h in
  let! k' := qdiv k (2 * k + 2) in
  let! l' := qdiv l (2 * k + 2) in
  derived_exp_pair k' ((1#2) + l') [h; A_hyp].

(** literature.py 524-531 *)
Definition B_fun (h : hnode) : res hnode :=
  let! (k, l) := pair_of h in
  derived_exp_pair (l - (1#2)) (k + (1#2)) [h; B_hyp].

(** literature.py 540-547 *)
Definition C_fun (h : hnode) : res hnode :=
  let! (k, l) := pair_of h in
  let! k' := qdiv k (12 * (1 + 4 * k)) in
  let! l' := qdiv (11 * (1 + 4 * k) + l) (12 * (1 + 4 * k)) in
  derived_exp_pair k' l' [h; C_hyp].

(** literature.py 557-578 *)
Definition D_fun (h : hnode) : res (list hnode) :=
  match n_data h with
  | DPair k l =>
      let d := mkI 0 (1#2) true true in
      let! a := qdiv (6 * k + 5 * l + 2) (2 * (5 * k + 3 * l + 2)) in
      let! c := qdiv (5 * k + l + 2) (8 * (5 * k + 3 * l + 2)) in
      let! pieces := max_with (mkA a c d None) [mkA (2#3) (1#12) d None] None in
      mapM (fun p => derived_bound_beta p [h; D_hyp]) pieces
  | _ => Raise ValueError
  end.

(** The transforms of the literature. *)
Definition lit_trans (t : nat) : hnode -> res hnode :=
  match t with
  | 0%nat => A_fun
  | 1%nat => B_fun
  | 2%nat => C_fun
  | _ => fun _ => Raise AttributeError
  end.
Definition lit_beta_trans (t : nat) : hnode -> res (list hnode) :=
  match t with 0%nat => D_fun | _ => fun _ => Raise AttributeError end.

(** derived.py 11-20, [van_der_corput_pair]; the two transforms are found in the
    literature by name. *)
Fixpoint iterate_A (n : nat) (h : hnode) : res hnode :=
  match n with O => Ret h | S n' => let! h' := A_fun h in iterate_A n' h' end.
Definition van_der_corput_pair (k : nat) : res hnode :=
  if (k <? 2)%nat then Raise ValueError
  else let! h := B_fun trivial_exp_pair in iterate_A (k - 2) h.
End Transforms.

(** ** Dictionaries keyed by (k, l) *)
Definition edict : Type := list (pt * hnode).
Definition e_mem (key : pt) (d : edict) : bool := existsb (fun e => pt_eqb key (fst e)) d.
Fixpoint e_set (key : pt) (h : hnode) (d : edict) : edict :=
  match d with
  | [] => [(key, h)]
  | (key', h') :: d' => if pt_eqb key key' then (key', h) :: d' else (key', h') :: e_set key h d'
  end.
Definition e_get (key : pt) (d : edict) : option hnode :=
  option_map snd (find (fun e => pt_eqb key (fst e)) d).

Definition key_of (h : hnode) : pt := match n_data h with DPair k l => (k, l) | _ => (0, 0) end.
(** [{(p.data.k, p.data.l): p for p in pairs}] for a list of exponent pairs *)
Definition e_of (ps : list hnode) : edict := fold_left (fun d p => e_set (key_of p) p d) ps [].

Section Search.
Context (ch : hull_routine) (tr : nat -> hnode -> res hnode).

(** [h.data.transform] *)
Definition apply_trans (t h : hnode) : res hnode :=
  match n_data t with DTrans i => tr i h | _ => Raise AttributeError end.

(** exponent_pair.py 106-110: one transform applied to the pairs there were. *)
Fixpoint apply_all (t : hnode) (snapshot : edict) (d : edict) : res edict :=
  match snapshot with
  | [] => Ret d
  | (_, p) :: rest =>
      let! tp := apply_trans t p in
      let! key := pair_of tp in
      apply_all t rest (if e_mem key d then d else d ++ [(key, tp)])
  end.

(** exponent_pair.py 105-110 *)
Fixpoint one_round (ts : list hnode) (d : edict) : res edict :=
  match ts with
  | [] => Ret d
  | t :: ts' => let! d' := apply_all t d d in one_round ts' d'
  end.

(** exponent_pair.py 112-118 *)
Definition prune_dict (d : edict) : res edict :=
  if (List.length d <? 3)%nat then Ret d
  else
    let ps := map snd d in
    let! vs := ch (map key_of ps) in
    Ret (e_of (map (fun v => nth v ps trivial_exp_pair) vs)).

(** exponent_pair.py 104-118 *)
Fixpoint rounds (n : nat) (prune : bool) (ts : list hnode) (d : edict) : res edict :=
  match n with
  | O => Ret d
  | S n' =>
      let! d' := one_round ts d in
      let! d'' := if prune then prune_dict d' else Ret d' in
      rounds n' prune ts d''
  end.

(** exponent_pair.py 72-120, [compute_exp_pairs] *)
Definition compute_exp_pairs (hs : list hnode) (depth : nat) (prune : bool) : res (list hnode) :=
  let! d := rounds depth prune (filter is_trans hs) (e_of (filter is_pair hs)) in
  Ret (map snd d).

(** exponent_pair.py 140-153, [compute_convex_hull], when nothing is cached. *)
Definition compute_convex_hull (hs : list hnode) : res (list hnode) :=
  let ps := filter is_pair hs in
  if (List.length ps <? 3)%nat then Ret ps
  else let! vs := ch (map key_of ps) in Ret (map (fun v => nth v ps trivial_exp_pair) vs).

(** ** Bounds on beta *)

(** bound_beta.py 98-125, [exponent_pairs_to_beta_bounds]; [btr] gives the
    functions of the transforms from pairs to bounds. *)
Context (btr : nat -> hnode -> res (list hnode)).
Definition half_interval : interval := mkI 0 (1#2) true true.
Definition apply_beta_trans (t h : hnode) : res (list hnode) :=
  match n_data t with DBetaTrans i => btr i h | _ => Raise AttributeError end.
Definition exponent_pairs_to_beta_bounds (hs : list hnode) : res (list hnode) :=
  let ts := filter is_beta_trans hs in
  let! ls := mapM (fun h =>
      let! (k, l) := pair_of h in
      let! b := derived_bound_beta (mkA (l - k) k half_interval None) [h] in
      let! bs := mapM (fun t => apply_beta_trans t h) ts in
      Ret (b :: concat bs)) (filter is_pair hs) in
  Ret (concat ls).

Definition bound_of (h : hnode) : affine :=
  match n_data h with DBeta b => b | _ => mkA 0 0 half_interval None end.

(** bound_beta.py 128-162: [compute_best_beta_bounds] of Model_BoundBeta on
    hypothesis objects. *)
Definition best_beta_nodes (hs : list hnode) : res (list hnode) :=
  let bs := filter is_beta hs in
  let! out := compute_best_beta_bounds (map bound_of bs) None in
  mapM (fun o => match o with
                 | Existing i => Ret (nth i bs trivial_exp_pair)
                 | Derived b i => derived_bound_beta b [nth i bs trivial_exp_pair]
                 end) out.

(** exponent_pair.py 192-196 *)
Definition beta_points (bb : list hnode) : list pt :=
  (0, 0) :: (1#2, 0) ::
  flat_map (fun h => let f := bound_of h in
     [(x0 (dom f), at_ext f (x0 (dom f))); (x1 (dom f), at_ext f (x1 (dom f)))]) bb.

(** exponent_pair.py 203-213 *)
Definition on_hull (points : list pt) (vs : list nat) (h : hnode) : bool :=
  existsb (fun v => (2 <=? v)%nat &&
    let p := pts_at points v in let f := bound_of h in
    (Qeqb (x0 (dom f)) (fst p) && Qeqb (at_ext f (fst p)) (snd p)) ||
    (Qeqb (x1 (dom f)) (fst p) && Qeqb (at_ext f (fst p)) (snd p))) vs.

(** exponent_pair.py 222-228 *)
Definition degenerate (p1 p2 : pt) : bool :=
  (Qeqb (snd p1) 0 && Qeqb (snd p2) 0)
  || (Qeqb (fst p1) 0 && Qeqb (fst p2) 0)
  || (Qeqb (fst p1) (1#2) && Qeqb (fst p2) (1#2)).

Definition B_name : str := s_of "van der Corput B transform".

(** exponent_pair.py 219-253, one edge: the hypotheses appended. *)
Definition edge_pairs (hs deps : list hnode) (known : edict) (p1 p2 : pt) : res (list hnode) :=
  if degenerate p1 p2 then Ret []
  else
    let! m := qdiv (snd p2 - snd p1) (fst p2 - fst p1) in
    let! c := qdiv (snd p1 * fst p2 - fst p1 * snd p2) (fst p2 - fst p1) in
    let! (h, new) := match e_get (c, m + c) known with
                     | None => let! h := derived_exp_pair c (m + c) deps in Ret (h, [h])
                     | Some h => Ret (h, [])
                     end in
    match find_keyword B_name hs with
    | None => Ret new
    | Some B =>
        let! Bh := apply_trans B h in
        let! key := pair_of Bh in
        Ret (if e_mem key known then new else new ++ [Bh])
    end.

(** exponent_pair.py 155-254, [beta_bounds_to_exponent_pairs] *)
Definition beta_bounds_to_exponent_pairs (hs : list hnode) : res (list hnode) :=
  let! bb := best_beta_nodes hs in
  match bb with
  | [] => Ret []
  | b0 :: _ =>
      if Qltb 0 (x0 (dom (bound_of b0))) || Qltb (x1 (dom (bound_of (last bb b0)))) (1#2) then Ret []
      else
        let points := beta_points bb in
        let! vs := ch points in
        let deps := filter (on_hull points vs) bb in
        let known := filter is_pair hs in
        let! new := mapM (fun e => edge_pairs hs deps (e_of known)
                            (pts_at points (fst e)) (pts_at points (snd e))) (cyc_edges vs) in
        Ret (known ++ concat new)
  end.

(** ** Proofs by convexity *)

(** exponent_pair.py 258-262 *)
Definition in_triangle (a b c p : pt) : bool :=
  let d := (snd b - snd c) * (fst a - fst c) + (fst c - fst b) * (snd a - snd c) in
  let x := (snd b - snd c) * (fst p - fst c) + (fst c - fst b) * (snd p - snd c) in
  let y := (snd c - snd a) * (fst p - fst c) + (fst a - fst c) * (snd p - snd c) in
  Qleb 0 x && Qleb x d && Qleb 0 y && Qleb y d && Qleb (x + y) d.

(** [itertools.combinations(l, 2)] and [(l, 3)] *)
Fixpoint comb2 {A} (l : list A) : list (A * A) :=
  match l with [] => [] | a :: l' => map (fun b => (a, b)) l' ++ comb2 l' end.
Fixpoint comb3 {A} (l : list A) : list (A * A * A) :=
  match l with
  | [] => []
  | a :: l' => map (fun bc => (a, fst bc, snd bc)) (comb2 l') ++ comb3 l'
  end.

(** exponent_pair.py 328-344 *)
Definition tri_cost (t : hnode * hnode * hnode) : nat :=
  let '(a, b, c) := t in (complexity a + complexity b + complexity c)%nat.
Definition tri_contains (p : pt) (t : hnode * hnode * hnode) : bool :=
  let '(a, b, c) := t in in_triangle (key_of a) (key_of b) (key_of c) p.
Definition best_triangle (p : pt) (vs : list hnode) : option (hnode * hnode * hnode) :=
  fold_left (fun best t =>
      if tri_contains p t then
        match best with
        | None => Some t
        | Some b => if (tri_cost t <? tri_cost b)%nat then Some t else best
        end
      else best) (comb3 vs) None.

Context (E : ext).

(** exponent_pair.py 264-348, [construct_proof].  Formatting the proof iterates
    over [best_tri], which is None when no triangle was found (TypeError). *)
Definition construct_proof (k l : Q) (hs : list hnode) (reduce deep : bool) : res (option hnode) :=
  let ephs := filter is_pair hs in
  match ephs with
  | [] => Ret None
  | _ =>
      match find (fun h => pt_eqb (key_of h) (k, l)) ephs with
      | Some h => Ret (Some h)
      | None =>
          let! verts := compute_convex_hull hs in
          let! conv := from_V_rep E (map (fun v => [fst (key_of v); snd (key_of v)]) verts) in
          match conv with
          | None => Raise AttributeError
          | Some conv =>
              let! b := Model_Polytope.contains conv [k; l] in
              if negb b then Ret None
              else if negb reduce then let! h := derived_exp_pair k l verts in Ret (Some h)
              else
                match best_triangle (k, l) (if deep then ephs else verts) with
                | None => Raise TypeError
                | Some (u, v, w) => let! h := derived_exp_pair k l [u; v; w] in Ret (Some h)
                end
          end
      end
  end.

(** Iteration order of a set with these members. *)
Context (ord : list hnode -> list hnode).

(** [range(a, b)] *)
Definition zrange (a b : Z) : list Z := map (fun i => (a + Z.of_nat i)%Z) (seq 0 (Z.to_nat (b - a))).

Definition val_min_from := fix go (best : value) (l : list value) : res value :=
  match l with [] => Ret best | v :: l' => let! b := val_lt v best in go (if b then v else best) l' end.
Definition val_min (l : list value) : res value :=
  match l with [] => Raise ValueError | v :: l' => val_min_from v l' end.

Definition dated (h : hnode) : bool := negb (val_eqb (r_year (n_ref h)) unknown_date).

(** [filter] with a test that can raise *)
Fixpoint filterM {A} (f : A -> res bool) (l : list A) : res (list A) :=
  match l with
  | [] => Ret []
  | a :: l' => let! b := f a in let! r := filterM f l' in Ret (if b then a :: r else r)
  end.

(** exponent_pair.py 407-424 *)
Fixpoint by_date (k l : Q) (hs : list hnode) (years : list Z) (num : nat) : res (option hnode) :=
  match years with
  | [] => Ret None
  | y :: years' =>
      let! hyps := filterM (fun h => if dated h then val_le (r_year (n_ref h)) (VInt y) else Ret true) hs in
      let hyps := ord hyps in
      if (List.length hyps =? num)%nat then by_date k l hs years' num
      else
        let num := List.length hyps in
        let! new := beta_bounds_to_exponent_pairs hyps in
        let hyps := ord (hyps ++ new) in
        let! new := compute_exp_pairs hyps 5 true in
        let hyps := ord (hyps ++ new) in
        let! p := construct_proof k l hyps true false in
        match p with Some h => Ret (Some h) | None => by_date k l hs years' num end
  end.

(** exponent_pair.py 438-442 and 449-453 *)
Fixpoint by_complexity (k l : Q) (hyps : list hnode) (n : nat) : res (option hnode) :=
  match n with
  | O => Ret None
  | S n' =>
      let! new := compute_exp_pairs hyps 1 false in
      let hyps := ord (hyps ++ new) in
      let! p := construct_proof k l hyps true true in
      match p with Some h => Ret (Some h) | None => by_complexity k l hyps n' end
  end.

Inductive proof_method : Type := MDate | MComplexity | MNone | MOther.

(** exponent_pair.py 350-462, [find_best_proof] *)
Definition find_best_proof (k l : Q) (hs : list hnode) (m : proof_method) : res (option hnode) :=
  match m with
  | MDate =>
      let years := map (fun h => r_year (n_ref h)) (filter dated hs) in
      let! a := val_min years in
      let! b := val_max years in
      match a, b with
      | VInt a, VInt b => by_date k l hs (zrange a (b + 1)) 0
      | _, _ => Raise TypeError
      end
  | MComplexity =>
      let! p := by_complexity k l hs 10 in
      match p with
      | Some h => Ret (Some h)
      | None =>
          let! new := beta_bounds_to_exponent_pairs hs in
          by_complexity k l (ord (hs ++ new)) 10
      end
  | MNone =>
      let! new := beta_bounds_to_exponent_pairs hs in
      let! _ := compute_exp_pairs (ord (hs ++ new)) 5 true in
      construct_proof k l hs false false
  | MOther => Raise NotImplementedError
  end.
End Search.
