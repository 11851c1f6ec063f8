(** Model of bound_beta.py 98-162.
    A "Upper bound on beta" hypothesis is represented by its [Affine] bound;
    [bounds] is the list [hypothesis_set.list_hypotheses("Upper bound on beta")]
    in whatever order the underlying Python set is enumerated (line 129). *)
From Verif Require Import Base Model_Interval Model_Affine.

(** bound_beta.py 156-161: a returned hypothesis is either the existing
    hypothesis [bounds[i]] or a fresh one whose single dependency is [bounds[i]]. *)
Inductive beta_out : Type := Existing (i : nat) | Derived (b : affine) (dep : nat).

(** bound_beta.py 142-143. *)
Definition relabel (i : nat) (f : affine) : affine := mkA (slope f) (icpt f) (dom f) (Some i).

(** bound_beta.py 139, 147-148: copy bound [i], give it label [i], and take the
    minimum with the pieces found so far. *)
Fixpoint envelope (d : interval) (i : nat) (st : affine * list pref) (rest : list affine)
  : res (affine * list pref) :=
  match rest with
  | [] => Ret st
  | b :: rest' =>
      let! c := affine_deep_copy b in
      let! st' := compare_with_refs lt_cmp (relabel i c) (deref_all st) (Some d) in
      envelope d (S i) st' rest'
  end.

(** bound_beta.py 151-161. [self_label] is the present label of the object the
    [RSelf] references point to; line 154 clears it, so that a second occurrence
    indexes the list with None (TypeError). *)
Fixpoint finish (bounds : list affine) (self : affine) (self_label : option nat)
    (refs : list pref) : res (list beta_out) :=
  match refs with
  | [] => Ret []
  | r :: refs' =>
      let lbl := match r with RSelf => self_label | ROwn p => label p end in
      match lbl with
      | None => Raise TypeError
      | Some i =>
          match nth_error bounds i with
          | None => Raise IndexError
          | Some depend =>
              let b := deref self r in
              let o := if affine_eqb b depend then Existing i
                       else Derived (mkA (slope b) (icpt b) (dom b) None) i in
              let self_label' := match r with RSelf => None | ROwn _ => self_label end in
              let! rest := finish bounds self self_label' refs' in
              Ret (o :: rest)
          end
      end
  end.

(** bound_beta.py 128-162, [compute_best_beta_bounds]. *)
Definition compute_best_beta_bounds (bounds : list affine) (domain : option interval)
  : res (list beta_out) :=
  let d := match domain with Some d => d | None => mkI 0 (1#2) true true end in
  match bounds with
  | [] => Ret []
  | [b] => Ret [Existing 0]
  | b0 :: rest =>
      let! c := affine_deep_copy b0 in
      let! st := envelope d 1 (relabel 0 c, [RSelf]) rest in
      finish bounds (fst st) (label (fst st)) (snd st)
  end.

(** The bound carried by a returned hypothesis. *)
Definition out_bound (bounds : list affine) (o : beta_out) : option affine :=
  match o with Existing i => nth_error bounds i | Derived b _ => Some b end.
Definition out_dep (o : beta_out) : nat := match o with Existing i => i | Derived _ i => i end.

(** bound_beta.py 106-116: the beta bound of one exponent pair (k, l). *)
Definition exponent_pair_to_beta (k l : Q) : affine :=
  mkA (l - k) k (mkI 0 (1#2) true true) None.
