(** What is claimed of the derivations of single exponent pairs. *)
From Verif Require Import Base Model_Text Model_Reference Model_Interval Spec_Interval Model_Affine Spec_Affine Model_Hull Spec_Hull Model_ExponentPair Spec_ExponentPair Model_LiteratureBeta Model_LiteraturePairs.
Open Scope list_scope.
Local Open Scope Q_scope.

(** The proof of [h] rests on nothing but the hypotheses [hs]. *)
Inductive rests_on (hs : list hnode) : hnode -> Prop :=
| rests_in : forall h, In h hs -> rests_on hs h
| rests_deps : forall h, n_deps h <> [] -> (forall d, In d (n_deps h) -> rests_on hs d) -> rests_on hs h.

(** What a set must provide so that bounds on beta can safely be turned into pairs: the
    pairs lie in the triangle on the side l >= k + 1/2, the trivial pair and another one
    are there, the bounds on beta are non-negative, and at 1/2 none of them is better than
    every pair. *)
Record ready (hs : list hnode) : Prop := {
  r_pairs : forall h k l, In h hs -> n_data h = DPair k l -> triangle k l /\ k + (1#2) <= l;
  r_trans : forall h, In h hs -> is_trans h = true -> lit_node h;
  r_plain : forall h, In h hs -> is_beta_trans h = false;
  r_beta : forall h b, In h hs -> n_data h = DBeta b -> wf (dom b) /\
    (forall a, covers b a -> 0 <= a -> a <= 1#2 -> 0 <= value b a) /\
    (covers b (1#2) -> exists g k l, In g hs /\ n_data g = DPair k l /\ (k + l) / 2 <= value b (1#2));
  r_trivial : exists h k l, In h hs /\ n_data h = DPair k l /\ k == 0 /\ l == 1;
  r_second : exists h k l, In h hs /\ n_data h = DPair k l /\ 0 < k }.

(** The bounds on beta have domains with x0 <= x1, and the transforms are the recorded ones. *)
Definition wf_bounds (S : list hnode) : Prop := Forall (fun h => is_beta h = true -> wf (dom (bound_of h))) S.
Definition own_trans (rc : reference) (hs : list hnode) : Prop :=
  forall t, In t hs -> is_trans t = true -> t = A_hyp \/ t = B_hyp \/ t = C_hyp rc.

(** [lit] holds the bounds on beta, the exponent pairs and the transforms that literature.py
    records, and any hypotheses of other types. *)
Definition is_literature (get : str -> reference) (Kr Kh M : Z) (rc : reference) (lit : list hnode) : Prop :=
  exists bs ps, add_beta_bounds get Kr Kh = Ret bs /\ add_exponent_pairs get M = Ret ps /\ incl bs lit /\ incl ps lit /\
    (forall h, In h lit -> is_beta h = true -> In h bs) /\ (forall h, In h lit -> is_pair h = true -> In h ps) /\ own_trans rc lit.
