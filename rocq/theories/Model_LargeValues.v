(** Model of large_values.py 18-188 and of constants.py.

    A hypothesis about large values is modelled as a tree, like those about
    exponent pairs (Model_ExponentPair): name, data, reference and the
    hypotheses it depends on; [LBase] embeds a hypothesis about exponent pairs,
    beta or mu.  The [description] and [proof] strings are not modelled. *)
From Verif Require Import Base Model_Text Model_Reference LinAlg Model_Polytope Model_Region Model_ExponentPair Model_Format.
Open Scope list_scope.

(** constants.py 16, 20, 23, 27 *)
Definition ALPHA_UPPER_LIMIT : Q := 100.
Definition TAU_UPPER_LIMIT : Q := 1000000.
Definition LV_DEFAULT_UPPER_BOUND : Q := 1000000.
Definition ZERO_DENSITY_SIGMA_LIMIT : Q := 999#1000.

(** What a hypothesis asserts. *)
Inductive ldata : Type :=
| DLV (r : region) (rep : option str)   (* "Large value estimate", large_values.py 18-44 *)
| DLVTrans (k : Q)                      (* "Large value estimate transform", 59-66, 167-188 *)
| DZLV (r : region) (rep : option str)  (* "Zeta large value estimate" *)
| DBase (d : hdata).

Inductive lnode : Type :=
| LNode (name : str) (d : ldata) (r : reference) (deps : list lnode)
| LBase (h : hnode).
Definition l_name (h : lnode) : str := match h with LNode n _ _ _ => n | LBase h => n_name h end.
Definition l_data (h : lnode) : ldata := match h with LNode _ d _ _ => d | LBase h => DBase (n_data h) end.
Definition l_ref (h : lnode) : reference := match h with LNode _ _ r _ => r | LBase h => n_ref h end.
Definition l_deps (h : lnode) : list lnode := match h with LNode _ _ _ ds => ds | LBase h => map LBase (n_deps h) end.

(** hypotheses.py 190-195, [list_hypotheses(type)]. *)
Definition is_lv (h : lnode) : bool := match l_data h with DLV _ _ => true | _ => false end.
Definition is_lv_trans (h : lnode) : bool := match l_data h with DLVTrans _ => true | _ => false end.
Definition is_zlv (h : lnode) : bool := match l_data h with DZLV _ _ => true | _ => false end.

(** [hypothesis.data.region] *)
Definition region_of (h : lnode) : res region :=
  match l_data h with DLV r _ | DZLV r _ => Ret r | _ => Raise AttributeError end.

(** large_values.py 90-97: the default domain. *)
Definition lv_box : list (list Q) :=
  [[-(1#2); 1; 0; 0];
   [1; -1; 0; 0];
   [0; 0; 1; 0];
   [TAU_UPPER_LIMIT; 0; -1; 0];
   [0; 0; 0; 1];
   [LV_DEFAULT_UPPER_BOUND; 0; 0; -1]].

(** large_values.py 108-111 *)
Definition lv_vars : list str := [s_of "σ"; s_of "τ"].
Definition lv_repr (bounds : list (list Q)) : res str :=
  match bounds with
  | [] => Raise IndexError
  | [b] => let! s := fmt b lv_vars in Ret (s_of "ρ <= " ++ s)
  | _ => let! ss := mapM (fun b => fmt b lv_vars) bounds in
         Ret (s_of "ρ <= max(" ++ join (s_of ", ") ss ++ s_of ")")
  end.

Section Ext.
Variable E : ext.

(** large_values.py 72-113, [convert_bounds]. *)
Definition convert_bounds (bounds : list (list Q)) : res ldata :=
  let! r := from_union_of_halfplanes E (map (fun b => b ++ [-1]) bounds) lv_box in
  let! s := lv_repr bounds in
  Ret (DLV r (Some s)).

(** large_values.py 115-122; [params] is appended to the name. *)
Definition author_str (r : reference) : str :=
  match r_author r with VStr s => s | VInt n => z_str n | VInf => s_of "inf" end.
Definition literature_bound_LV_max (bounds : list (list Q)) (r : reference) (params : str) : res lnode :=
  let! d := convert_bounds bounds in
  Ret (LNode (author_str r ++ s_of " large value estimate" ++ params) d r []).

(** large_values.py 135-151 *)
Definition classical_LV_estimate (bounds : list (list Q)) : res lnode :=
  let! d := convert_bounds bounds in
  Ret (LNode (s_of "Classical large value estimate") d ref_classical []).
Definition conjectured_LV_estimate (bounds : list (list Q)) (name : str) : res lnode :=
  let! d := convert_bounds bounds in
  Ret (LNode name d ref_conjectured []).

(** large_values.py 158, 161 *)
Definition large_value_estimate_L2 : res lnode := classical_LV_estimate [[2; -2; 0]; [1; -2; 1]].
Definition montgomery_conjecture : res lnode :=
  conjectured_LV_estimate [[2; -2; 0]] (s_of "Montgomery conjecture").
End Ext.

(** large_values.py 124-133, zeta_large_values.py 50-60: a derived hypothesis. *)
Definition derived_l (name : str) (d : ldata) (deps : list lnode) : res lnode :=
  let! y := max_year (map l_ref deps) in Ret (LNode name d (ref_derived y) deps).
Definition derived_bound_LV (r : region) (deps : list lnode) : res lnode :=
  derived_l (s_of "Derived large value estimate") (DLV r None) deps.
Definition derived_bound_zeta_LV (r : region) (deps : list lnode) : res lnode :=
  derived_l (s_of "Derived zeta large value estimate") (DZLV r None) deps.

(** large_values.py 173-181, the inner function [transform]. *)
Definition raise_to_power (k : Q) (h : lnode) : res lnode :=
  let! r := region_of h in
  let! r' := rscale_all [1; k; k] r in
  derived_bound_LV r' [h].

(** large_values.py 167-188 *)
Definition raise_to_power_hypothesis (k : Q) : lnode :=
  LNode (s_of "Raising to a power large value estimate transform with k = " ++ q_str k)
    (DLVTrans k) ref_classical [].

(** [tr.data.transform(h)] *)
Definition apply_lv_trans (t h : lnode) : res lnode :=
  match l_data t with DLVTrans k => raise_to_power k h | _ => Raise AttributeError end.
