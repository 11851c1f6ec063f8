(** The set of points a region describes, and conditions on regions, stated
    without the algorithms. *)
From Verif Require Import Base LinAlg Model_Polytope Spec_Polytope Model_Region.

Section AnyAll.
Context {A : Type} (f : A -> Prop).
Fixpoint anyP (l : list A) : Prop := match l with [] => False | a :: l' => f a \/ anyP l' end.
Fixpoint allP (l : list A) : Prop := match l with [] => True | a :: l' => f a /\ allP l' end.
End AnyAll.

Lemma anyP_iff : forall {A} (f : A -> Prop) l, anyP f l <-> exists a, In a l /\ f a.
Proof.
  induction l as [|a l IH]; simpl.
  - split; [tauto|intros (? & [] & _)].
  - rewrite IH. split.
    + intros [H|(b & Hb & H)]; [exists a; auto|exists b; auto].
    + intros (b & [<-|Hb] & H); [now left|right; exists b; auto].
Qed.

Lemma allP_iff : forall {A} (f : A -> Prop) l, allP f l <-> forall a, In a l -> f a.
Proof.
  induction l as [|a l IH]; simpl.
  - split; [intros _ a []|auto].
  - rewrite IH. split.
    + intros [H1 H2] b [<-|Hb]; auto.
    + intro H. split; auto.
Qed.

(** The boolean combination of polytopes that the tree stands for. *)
Fixpoint denote (r : region) (x : point) : Prop :=
  match r with
  | RPoly p => member (body p) x
  | RWrap r => denote r x
  | RCompl r => ~ denote r x
  | RUnion rs | RDisj rs => anyP (fun c => denote c x) rs
  | RInter rs => allP (fun c => denote c x) rs
  end.

(** Every polytope in the tree satisfies [P]. *)
Fixpoint leaves (P : lpoly -> Prop) (r : region) : Prop :=
  match r with
  | RPoly p => P p
  | RWrap r | RCompl r => leaves P r
  | RUnion rs | RDisj rs | RInter rs => allP (leaves P) rs
  end.

(** The polytopes of the tree, from left to right; the tree wraps no region. *)
Fixpoint tree_polys (r : region) : list lpoly :=
  match r with
  | RPoly p => [p]
  | RWrap r | RCompl r => tree_polys r
  | RUnion rs | RDisj rs | RInter rs => flat_map tree_polys rs
  end.
Fixpoint unwrapped (r : region) : Prop :=
  match r with
  | RPoly _ => True
  | RWrap _ => False
  | RCompl r => unwrapped r
  | RUnion rs | RDisj rs | RInter rs => allP unwrapped rs
  end.

(** All polytopes of the tree are sets in dimension [d]. *)
Definition has_dim (d : nat) (p : lpoly) : Prop := ncol (pmat (body p)) = S d.

(** Trees without complement; trees where intersections have a member. *)
Fixpoint positive (r : region) : Prop :=
  match r with
  | RPoly _ => True
  | RWrap _ | RCompl _ => False
  | RUnion rs | RDisj rs => allP positive rs
  | RInter rs => rs <> [] /\ allP positive rs
  end.

(** Trees of polytopes and unions only. *)
Fixpoint unions_only (r : region) : Prop :=
  match r with
  | RPoly _ => True
  | RUnion rs | RDisj rs => allP unions_only rs
  | _ => False
  end.

(** Trees of polytopes and disjoint unions only. *)
Fixpoint disj_only (r : region) : Prop :=
  match r with
  | RPoly _ => True
  | RDisj rs => allP disj_only rs
  | _ => False
  end.

(** Trees of polytopes, disjoint unions and intersections. *)
Fixpoint disjoint_form (r : region) : Prop :=
  match r with
  | RPoly _ => True
  | RDisj rs => allP disjoint_form rs
  | RInter rs => rs <> [] /\ allP disjoint_form rs
  | _ => False
  end.

(** [x] has a neighbourhood inside the set. *)
Definition inside (s : point -> Prop) (x : point) : Prop :=
  exists e, 0 < e /\ forall y, near e x y -> s y.

(** The members of each disjoint union overlap in boundaries only. *)
Fixpoint truly_disjoint (r : region) : Prop :=
  match r with
  | RPoly _ => True
  | RWrap r | RCompl r => truly_disjoint r
  | RDisj rs => allP truly_disjoint rs /\
      ForallOrdPairs (fun a b => forall x, ~ (inside (denote a) x /\ inside (denote b) x)) rs
  | RUnion rs | RInter rs => allP truly_disjoint rs
  end.

(** A usable operand: well-formed, bounded, in dimension [d], and not flat: it
    has no points at all or has interior points. *)
Definition solid (d : nat) (p : lpoly) : Prop :=
  good (body p) /\ bounded (body p) /\ ncol (pmat (body p)) = S d /\
  ((exists x, member (body p) x) -> exists x, interior (body p) x).

(** Labels that occur in a tree. *)
Fixpoint labels (r : region) : list nat :=
  match r with
  | RPoly p => match plabel p with Some l => [l] | None => [] end
  | RWrap r | RCompl r => labels r
  | RUnion rs | RDisj rs | RInter rs => flat_map labels rs
  end.

(** Induction on trees. *)
Section Ind.
Variable P : region -> Prop.
Hypothesis HPoly : forall p, P (RPoly p).
Hypothesis HWrap : forall r, P r -> P (RWrap r).
Hypothesis HCompl : forall r, P r -> P (RCompl r).
Hypothesis HUnion : forall rs, Forall P rs -> P (RUnion rs).
Hypothesis HDisj : forall rs, Forall P rs -> P (RDisj rs).
Hypothesis HInter : forall rs, Forall P rs -> P (RInter rs).

Fixpoint region_tree_ind (r : region) : P r :=
  let go := (fix go (l : list region) : Forall P l :=
    match l with [] => Forall_nil P | a :: l' => Forall_cons a (region_tree_ind a) (go l') end) in
  match r with
  | RPoly p => HPoly p
  | RWrap r => HWrap r (region_tree_ind r)
  | RCompl r => HCompl r (region_tree_ind r)
  | RUnion rs => HUnion rs (go rs)
  | RDisj rs => HDisj rs (go rs)
  | RInter rs => HInter rs (go rs)
  end.
End Ind.
