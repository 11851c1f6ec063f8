(** Model of additive_energy.py.

    A hypothesis about large value energy regions is modelled as a tree, like
    those about large values (Model_LargeValues); [EBase] embeds a hypothesis
    about large values, exponent pairs, beta or mu.  A set of hypotheses is given
    by the list of its members in the order of iteration.  The [description] and
    [proof] strings are not modelled. *)
From Verif Require Import Base Model_Text Model_Reference LinAlg Model_Polytope Model_Region Model_ExponentPair
  Model_LargeValues.
Open Scope list_scope.

(** What a hypothesis asserts. *)
Inductive edata : Type :=
| DLVER (r : region)       (* "Large value energy region", 30-41 *)
| DLVERTrans (k : Q)       (* "Large value energy region transform", 169-187 *)
| DZLVER (r : region)      (* "Zeta large value energy region" *)
| DEnergy (r : region)     (* "Additive energy estimate", 15-28 *)
| DLow (d : ldata).

Inductive enode : Type :=
| ENode (name : str) (d : edata) (r : reference) (deps : list enode)
| EBase (h : lnode).
Definition e_name (h : enode) : str := match h with ENode n _ _ _ => n | EBase h => l_name h end.
Definition e_data (h : enode) : edata := match h with ENode _ d _ _ => d | EBase h => DLow (l_data h) end.
Definition e_ref (h : enode) : reference := match h with ENode _ _ r _ => r | EBase h => l_ref h end.
Definition e_deps (h : enode) : list enode := match h with ENode _ _ _ ds => ds | EBase h => map EBase (l_deps h) end.

(** hypotheses.py 190-195, [list_hypotheses(type)]. *)
Definition is_lver (h : enode) : bool := match e_data h with DLVER _ => true | _ => false end.
Definition is_lver_trans (h : enode) : bool := match e_data h with DLVERTrans _ => true | _ => false end.
Definition is_zlver (h : enode) : bool := match e_data h with DZLVER _ => true | _ => false end.
Definition e_is_lv (h : enode) : bool := match e_data h with DLow (DLV _ _) => true | _ => false end.
Definition e_is_zlv (h : enode) : bool := match e_data h with DLow (DZLV _ _) => true | _ => false end.

(** [hypothesis.data.region] *)
Definition e_region (h : enode) : res region :=
  match e_data h with
  | DLVER r | DZLVER r | DEnergy r => Ret r
  | DLow (DLV r _) | DLow (DZLV r _) => Ret r
  | _ => Raise AttributeError
  end.

(** additive_energy.py 51-72, [default_constraints]. *)
Definition limits : list (Q * Q) :=
  [(1#2, 1); (0, TAU_UPPER_LIMIT); (0, LV_DEFAULT_UPPER_BOUND); (0, LV_DEFAULT_UPPER_BOUND); (0, LV_DEFAULT_UPPER_BOUND)].
(** [b = [c] + [0] * dim; b[i + 1] = v] *)
Definition unit_row (dim i : nat) (c v : Q) : list Q :=
  c :: map (fun j => if Nat.eqb j i then v else 0) (seq 0 dim).
Definition default_constraints : list (list Q) :=
  flat_map (fun il => [unit_row (List.length limits) (fst il) (- fst (snd il)) 1;
                       unit_row (List.length limits) (fst il) (snd (snd il)) (-1)])
    (combine (seq 0 (List.length limits)) limits).

(** additive_energy.py 84-100; [params] is appended to the name. *)
Definition literature_large_value_energy_region (r : region) (ref : reference) (params : str) : enode :=
  ENode (author_str ref ++ s_of " large value energy region" ++ params) (DLVER r) ref [].
Definition literature_zeta_large_value_energy_region (r : region) (ref : reference) (params : str) : enode :=
  ENode (author_str ref ++ s_of " zeta large value energy region" ++ params) (DZLVER r) ref [].

(** additive_energy.py 102-163: derived hypotheses.  The parameter [zeta] of
    [derived_additive_energy_estimate] is not used by its body. *)
Definition derived_e (name : str) (d : edata) (deps : list enode) : res enode :=
  let! y := max_year (map e_ref deps) in Ret (ENode name d (ref_derived y) deps).
Definition derived_lver (r : region) (deps : list enode) : res enode :=
  derived_e (s_of "Derived large value energy region") (DLVER r) deps.
Definition derived_zlver (r : region) (deps : list enode) : res enode :=
  derived_e (s_of "Derived zeta large value energy region") (DZLVER r) deps.
Definition derived_energy (r : region) (deps : list enode) : res enode :=
  derived_e (s_of "Derived additive energy estimate") (DEnergy r) deps.

(** additive_energy.py 169-187: the inner function [f], and the hypothesis. *)
Definition raise_energy (k : Q) (h : enode) : res enode :=
  let! r := e_region h in
  let! r' := rscale_all [1; k; k; k; k] r in
  derived_lver r' [h].
Definition get_raise_to_power_hypothesis (k : Q) : enode :=
  ENode (s_of "Large value energy region raise to power hypothesis with k = " ++ q_str k)
    (DLVERTrans k) ref_classical [].

(** [tf.data.transform(h)] *)
Definition apply_lver_trans (t h : enode) : res enode :=
  match e_data t with DLVERTrans k => raise_energy k h | _ => Raise AttributeError end.

(** [tf.data.transform(lver)] for all [tf] and all [lver], in the order of the
    loops of additive_energy.py 198-201 and 333-336. *)
Definition transformed_lvers (hs : list enode) : res (list enode) :=
  let! ts := mapM (fun t => mapM (apply_lver_trans t) (filter is_lver hs)) (filter is_lver_trans hs) in
  Ret (concat ts).

(** additive_energy.py 189-201, [expand_lver]: the set afterwards. *)
Definition expand_lver (hs : list enode) : res (list enode) :=
  let! new := transformed_lvers hs in Ret (hs ++ new).

(** additive_energy.py 208-235: the rows of [ep_to_lver], as coefficients of
    (1, sigma, tau, rho, rho*, s). *)
Definition first_max (k l : Q) : res (list (list Q)) :=
  let! a := qdiv (k + l) (1 + 2 * k + 2 * l) in
  let! b := qdiv (2 + 3 * k + 4 * l) (1 + 2 * k + 2 * l) in
  Ret [[1; 0; 0; 1; 0; 0]; [0; 0; 1#3; 5#3; 0; 0]; [0; 0; a; b; 0; 0]].
Definition second_max : list (list Q) :=
  [[1; 0; 0; 0; 1; 0]; [0; 0; 0; 4; 0; 0]; [0; 0; 1#2; 1; 3#4; 0]].
Definition energy_row (max1 max2 : list Q) : res (list Q) :=
  let add := [1; -(2); 0; 0; -1; 0] in
  let constraint := map (fun i => nth i add 0 + (1#2) * (nth i max1 0 + nth i max2 0)) (seq 0 6) in
  let! f := qdiv 1 (nth 4 constraint 0) in
  let factor := - f in
  Ret (map (fun c => c * factor) constraint).
Definition energy_rows (k l : Q) : res (list (list Q)) :=
  let! fm := first_max k l in
  let! rows := mapM (fun m1 => mapM (energy_row m1) second_max) fm in
  Ret (concat rows).

Section Ext.
Variable E : ext.
(** Enumeration order of index sets, see Model_Region. *)
Variable order : nat -> list nat -> list nat.

(** additive_energy.py 204-241, [ep_to_lver]. *)
Definition ep_to_lver (eph : enode) : res enode :=
  match e_data eph with
  | DLow (DBase (DPair k l)) =>
      let! constraints := energy_rows k l in
      let! region := from_union_of_halfplanes E constraints default_constraints in
      derived_lver region [eph]
  | _ => Raise AttributeError
  end.

(** additive_energy.py 243-294, [lv_to_lver]. *)
Definition lv_lift : list lift_var :=
  [Dim 0; Dim 1; Dim 2; Box 0 LV_DEFAULT_UPPER_BOUND; Box 0 LV_DEFAULT_UPPER_BOUND].
Definition lv_to_lver (hs : list enode) (zeta : bool) : res (list enode) :=
  mapM (fun lvh =>
    let! r := e_region lvh in
    let! region := rlift lv_lift r in
    (if zeta then derived_zlver else derived_lver) region [lvh])
    (filter (if zeta then e_is_zlv else e_is_lv) hs).

(** additive_energy.py 296-367, [compute_best_lver]. *)
Definition domain_lift : list lift_var :=
  [Dim 0; Dim 1; Box 0 LV_DEFAULT_UPPER_BOUND; Box 0 LV_DEFAULT_UPPER_BOUND; Box 0 LV_DEFAULT_UPPER_BOUND].
(** Lines 333-342 *)
Definition known_lvers (hs : list enode) (zeta : bool) : res (list enode) :=
  let! transformed := transformed_lvers hs in
  Ret (filter is_lver hs ++ transformed ++ (if zeta then filter is_zlver hs else [])).
Definition compute_best_lver (hs : list enode) (sigma_tau_domain : region) (zeta : bool) : res enode :=
  let! lvers := known_lvers hs zeta in
  let! domain := rlift domain_lift sigma_tau_domain in
  let! rs := mapM e_region lvers in
  let! E1 := as_disjoint_union E order false (RInter (domain :: rs)) in
  (if zeta then derived_zlver else derived_lver) E1 lvers.

(** additive_energy.py 369-415, [lver_to_lv]: calling [simplify] on the None that
    an empty projection gives raises AttributeError. *)
Definition lver_to_lv (h : enode) : res enode :=
  match e_data h with
  | DLVER r | DZLVER r =>
      let! region := as_disjoint_union E order false r in
      let! proj := rproject E [0; 1; 2]%nat region in
      match proj with
      | None => Raise AttributeError
      | Some proj =>
          let! (_, proj) := simplify E order proj in
          match e_data h with
          | DLVER _ => derived_e (s_of "Derived large value estimate") (DLow (DLV proj None)) [h]
          | _ => derived_e (s_of "Derived zeta large value estimate") (DLow (DZLV proj None)) [h]
          end
      end
  | _ => Raise ValueError
  end.

(** additive_energy.py 417-465, [lver_to_energy]: None for an empty projection. *)
Definition lver_to_energy (h : enode) : res (option enode) :=
  match e_data h with
  | DLVER r | DZLVER r =>
      let! region := as_disjoint_union E order false r in
      let! proj := rproject E [0; 1; 3]%nat region in
      match proj with
      | None => Ret None
      | Some proj =>
          let! (_, proj) := simplify E order proj in
          let! h := derived_energy proj [h] in Ret (Some h)
      end
  | _ => Raise ValueError
  end.

(** additive_energy.py 467-498, [compute_LV_star]: the result has the type of a
    large value energy region although it is three-dimensional. *)
Definition compute_LV_star (hs : list enode) (sigma_tau_domain : region) (zeta : bool) : res (option enode) :=
  let! hyp := compute_best_lver hs sigma_tau_domain zeta in
  let! e := e_region hyp in
  let! proj := rproject E [0; 1; 3]%nat e in
  match proj with
  | None => Ret None
  | Some proj =>
      let! (_, proj) := simplify E order proj in
      let! h := (if zeta then derived_zlver else derived_lver) proj (e_deps hyp) in
      Ret (Some h)
  end.
End Ext.
