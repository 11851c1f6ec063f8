(** When a derived hypothesis can be re-derived from what it records. *)
From Verif Require Import Base Model_Text Model_Reference Model_Interval Model_Affine Model_Hull Model_ExponentPair Spec_ExponentPair.

Section Support.
Context (tr : nat -> hnode -> res hnode) (btr : nat -> hnode -> res (list hnode)).

(** [h] rests on the set [hs]: it is a member, or its recorded dependencies suffice
    for it and rest on the set themselves. *)
Inductive grounded (hs : list hnode) : hnode -> Prop :=
| grounded_in : forall h, In h hs -> grounded hs h
| grounded_by : forall h, supported tr btr h -> (forall d, In d (n_deps h) -> grounded hs d) -> grounded hs h.
End Support.

(** The transforms of a set are those of the literature. *)
Definition lit_transforms (rc : reference) (hs : list hnode) : Prop :=
  forall t, In t hs -> is_trans t = true -> In t [A_hyp; B_hyp; C_hyp rc].
