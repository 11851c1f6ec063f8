(** Model of derived.py 23-128: the derivations of single exponent pairs from the
    literature.

    A set of hypotheses is the list of its members; [ord] gives the order in which a
    set that has just been built is traversed.  The printing is not modelled. *)
From Verif Require Import Base Model_Text Model_Reference Model_Hull Model_ExponentPair Model_BoundMu Model_LiteraturePairs.
Open Scope list_scope.
Local Open Scope Q_scope.

(** derived.py 24-35, [prove_hardy_littlewood_mu_bound]: what is not found is None, which
    has neither [desc] nor [data]. *)
Definition A_name : str := s_of "van der Corput A transform".
Definition prove_hardy_littlewood_mu_bound (tr : nat -> hnode -> res hnode) (literature : list hnode) : res hnode :=
  match find (mu_is (1#2) (1#6)) literature, find_keyword A_name literature, find_keyword B_name literature with
  | Some HL, Some A, Some B =>
      let! b := apply_trans tr B trivial_exp_pair in
      let! ab := apply_trans tr A b in
      obtain_mu_bound_from_exponent_pair ab
  | _, _, _ => Raise AttributeError
  end.

Section Pairs.
Context (ch : hull_routine) (tr : nat -> hnode -> res hnode) (btr : nat -> hnode -> res (list hnode)) (ord : list hnode -> list hnode).

(** derived.py 37-64, [prove_exponent_pair_with_hypotheses]; the set that is passed is
    extended on the way. *)
Definition prove_exponent_pair_with_hypotheses (hs : list hnode) (k l : Q) : res (option hnode) :=
  let! new := compute_exp_pairs ch tr hs 1 true in
  let hs := ord (hs ++ new) in
  let! new := exponent_pairs_to_beta_bounds btr hs in
  let hs := ord (hs ++ new) in
  let! new := best_beta_nodes hs in
  let hs := ord (hs ++ new) in
  let! new := beta_bounds_to_exponent_pairs ch tr hs in
  Ret (find (fun h => pt_eqb (key_of h) (k, l)) new).

(** derived.py 97-103 *)
Definition collect (literature : list hnode) : list hnode :=
  ord (trivial_exp_pair :: filter is_beta literature ++ filter is_pair literature ++ filter is_trans literature).

(** [set.pop]: some member is removed; [pick] says which one, and may depend on the
    attempt. *)
Context (pick : nat -> list hnode -> nat).
Definition pop (i : nat) (hs : list hnode) : res (list hnode) :=
  match hs with
  | [] => Raise KeyError
  | _ => let j := (pick i hs mod List.length hs)%nat in Ret (firstn j hs ++ skipn (S j) hs)
  end.

(** derived.py 108-117: [n] attempts, the first of them with number [i] *)
Fixpoint simplify (k l : Q) (n i : nat) (hs : list hnode) (eph : option hnode) : res (option hnode) :=
  match n with
  | O => Ret eph
  | S n' =>
      let! cpy := pop i hs in
      let! eph1 := prove_exponent_pair_with_hypotheses (ord cpy) k l in
      match eph1 with
      | Some h => simplify k l n' (S i) cpy (Some h)
      | None => simplify k l n' (S i) hs eph
      end
  end.

(** derived.py 66-128, [prove_exponent_pair] *)
Definition prove_exponent_pair (literature : list hnode) (k l : Q) (simplify_deps : bool) : res (option hnode) :=
  let hs := collect literature in
  let! eph := prove_exponent_pair_with_hypotheses (ord hs) k l in
  if simplify_deps then simplify k l 100 0 hs eph else Ret eph.
End Pairs.
