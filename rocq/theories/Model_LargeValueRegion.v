(** Model of blueprint/src/python/zero_density_estimate.py 148-240: the region of
    large values that a set of hypotheses allows over a domain.

    A set of hypotheses is given by the list of its members in the order of
    iteration.  [set_label] gives a new tree here; in the code it writes to
    polytopes that the copy of the region shares with the hypotheses and with the
    domain.  The proof text and the printing for [debug=True] are left out. *)
From Verif Require Import Base Model_Text Model_Reference LinAlg Model_Polytope Model_Region Model_ExponentPair Model_LargeValues Model_ZetaLargeValues Model_Format.
Open Scope list_scope.

(** Lines 184-195 *)
Definition region_hypotheses (hs : list lnode) (zeta : bool) : res (list lnode) :=
  let! hyps := lv_and_transformed hs in
  Ret (hyps ++ (if zeta then filter is_zlv hs else [])).

Section Ext.
Variable E : ext.
Variable order : nat -> list nat -> list nat.

(** Lines 204-218: the regions over the domain without those whose text has been
    met before, each with the index of its hypothesis as label. *)
Fixpoint clip (domain : region) (i : nat) (seen : list str) (hyps : list lnode) : res (list region) :=
  match hyps with
  | [] => Ret []
  | h :: rest =>
      let! r := region_of h in
      let! r := as_disjoint_union E order false (RInter [domain; r]) in
      let! (_, r) := simplify E order r in
      let! hsh := region_str None r in
      if existsb (str_eqb hsh) seen then clip domain (S i) seen rest
      else let! rs := clip domain (S i) (hsh :: seen) rest in
           Ret (set_label i r :: rs)
  end.

(** Lines 226-229: [r.child.dependencies] for the members of the region, and the
    hypotheses with these indices. *)
Definition child_dependencies (r : region) : res (list nat) :=
  match r with
  | RPoly p => match deps p with Some d => Ret d | None => Raise AttributeError end
  | _ => Raise AttributeError
  end.
Definition used_hypotheses (hyps : list lnode) (r : region) : res (list lnode) :=
  match r with
  | RDisj rs =>
      let! ds := mapM child_dependencies rs in
      mapM (fun d => match nth_error hyps d with Some h => Ret h | None => Raise IndexError end)
        (nodup Nat.eq_dec (concat ds))
  | _ => Raise TypeError
  end.

(** Lines 148-240, [compute_large_value_region]. *)
Definition compute_large_value_region (hs : list lnode) (domain : region) (zeta : bool) : res lnode :=
  let! hyps := region_hypotheses hs zeta in
  let! regions := clip domain 0 [] hyps in
  let! r := as_disjoint_union E order true (RInter regions) in
  let! ds := used_hypotheses hyps r in
  (if zeta then derived_bound_zeta_LV else derived_bound_LV) r ds.
End Ext.
