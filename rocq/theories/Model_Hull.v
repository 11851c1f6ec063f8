(** Planar convex hulls.  exponent_pair.py 116, 148, 199 and bound_mu.py 172 call
    [scipy.spatial.ConvexHull] on a list of points and use only [.vertices], the
    indices of the extreme points in counter-clockwise order.  The routine is an
    external parameter of the model; this file fixes its interface and gives an
    exact implementation (gift wrapping) used to show that the assumptions made
    of it ([hull_spec], in Spec_Hull.v) can be met.  Simplification: scipy works in floating
    point, the model's routine is exact. *)
From Verif Require Import Base.

Definition pt : Type := (Q * Q)%type.

(** Twice the signed area of the triangle [a b p]: positive when [p] lies to the
    left of the directed line from [a] to [b]. *)
Definition cross (a b p : pt) : Q :=
  (fst b - fst a) * (snd p - snd a) - (snd b - snd a) * (fst p - fst a).

(** [ConvexHull(points).vertices], or an exception ([QhullError], here
    [ValueError]) when the points do not span the plane. *)
Definition hull_routine : Type := list pt -> res (list nat).

(** The pairs [(verts[i], verts[(i + 1) % len(verts)])] for all [i]. *)
Definition cyc_edges {A} (l : list A) : list (A * A) :=
  match l with [] => [] | a :: l' => combine l (l' ++ [a]) end.

(** ** Gift wrapping *)

(** The first element of [b :: l] that no other is better than. *)
Fixpoint best {A} (better : A -> A -> bool) (b : A) (l : list A) : A :=
  match l with [] => b | a :: l' => best better (if better a b then a else b) l' end.

Section Wrap.
Context (P : nat -> pt) (idx : list nat).
Definition px (i : nat) : Q := fst (P i).
Definition py (i : nat) : Q := snd (P i).

(** Left-most, lowest. *)
Definition lefter (i j : nat) : bool :=
  Qltb (px i) (px j) || (Qeqb (px i) (px j) && Qltb (py i) (py j)).

(** Seen from [p]: of smaller slope, then farther to the right. *)
Definition slope_from (p i : nat) : Q := (py i - py p) / (px i - px p).
Definition flatter (p i j : nat) : bool :=
  Qltb (slope_from p i) (slope_from p j) ||
  (Qeqb (slope_from p i) (slope_from p j) && Qltb (px j) (px i)).

Definition right_of (p : nat) : list nat := filter (fun i => Qltb (px p) (px i)) idx.

Fixpoint chain (fuel : nat) (p : nat) : list nat :=
  match fuel with
  | O => [p]
  | S f =>
      match right_of p with
      | [] => [p]
      | q :: qs => p :: chain f (best (flatter p) q qs)
      end
  end.

Definition lower_chain : list nat :=
  match idx with
  | [] => []
  | i :: l => chain (length idx) (best lefter i l)
  end.
End Wrap.

Definition pt_eqb (a b : pt) : bool := Qeqb (fst a) (fst b) && Qeqb (snd a) (snd b).

(** Drop the first (last) element of the second chain where it repeats the end
    (start) of the first. *)
Definition drop_first (P : nat -> pt) (i : nat) (l : list nat) : list nat :=
  match l with
  | [] => []
  | j :: l' => if pt_eqb (P i) (P j) then l' else l
  end.

Definition neg_pt (p : pt) : pt := (- fst p, - snd p).

Definition wrap (P : nat -> pt) (idx : list nat) : list nat :=
  let L := lower_chain P idx in
  let U := lower_chain (fun i => neg_pt (P i)) idx in
  let U := drop_first P (last L O) U in
  let U := rev (drop_first P (hd O L) (rev U)) in
  L ++ U.

Definition pts_at (pts : list pt) (i : nat) : pt := nth i pts (0, 0).

(** All points on one line. *)
Definition collinearb (pts : list pt) : bool :=
  match pts with
  | [] => true
  | a :: _ => forallb (fun b => forallb (fun c => Qeqb (cross a b c) 0) pts) pts
  end.

Definition wrap_hull : hull_routine := fun pts =>
  if collinearb pts then Raise ValueError
  else Ret (wrap (pts_at pts) (seq 0 (length pts))).
