(** Model of zeta_large_values.py.

    [get_trivial_zlv] (17-35) hands a Piecewise object to a constructor that
    wants a Region and raises ValueError on every call; it is left out.  A set of
    hypotheses is given by the list of its members in the order of iteration. *)
From Verif Require Import Base Model_Text Model_Reference Model_Interval Model_Affine LinAlg Model_Polytope Model_Region
  Model_ExponentPair Model_LargeValues.
Open Scope list_scope.

(** The members of a set that are about exponent pairs, beta and mu. *)
Definition bases (hs : list lnode) : list hnode :=
  flat_map (fun h => match h with LBase h => [h] | _ => [] end) hs.

Definition value_str (v : value) : str :=
  match v with VStr s => s | VInt n => z_str n | VInf => s_of "inf" end.

Section Ext.
Variable E : ext.

(** zeta_large_values.py 38-47 *)
Definition literature_bound_ZLV_Max (bounds : list (list Q)) (r : reference) (params : str) : res lnode :=
  let! d := convert_bounds E bounds in
  match d with
  | DLV reg rep =>
      Ret (LNode (value_str (r_author r) ++ s_of " (" ++ value_str (r_year r) ++ s_of ") zeta large value estimate" ++ params)
             (DZLV reg rep) r [])
  | _ => Raise AttributeError
  end.

(** zeta_large_values.py 84-88: the estimates and their transforms. *)
Definition lv_and_transformed (hs : list lnode) : res (list lnode) :=
  let lvs := filter is_lv hs in
  let! ts := mapM (fun t => mapM (apply_lv_trans t) lvs) (filter is_lv_trans hs) in
  Ret (lvs ++ concat ts).

(** zeta_large_values.py 82-97, [lv_to_zlv]. *)
Definition lv_to_zlv (hs : list lnode) : res (list lnode) :=
  let! hyps := lv_and_transformed hs in
  let! domain := Polytope E [[-(2); 0; 1; 0]] false false in
  mapM (fun lve =>
    let! r := region_of lve in
    derived_bound_zeta_LV (RInter [RPoly (plain domain); r]) [lve]) hyps.

(** [Region(DISJOINT_UNION, [Region.from_polytope(p) for p in polys])] *)
Definition disjoint_polys (rows : list (list (list Q))) : res region :=
  let! ps := mapM (fun r => Polytope E r false false) rows in
  Ret (RDisj (map (fun p => RPoly (plain p)) ps)).

(** zeta_large_values.py 118-125 *)
Definition tau_upper (alpha0 : Q) : Q :=
  if Qeqb alpha0 0 then TAU_UPPER_LIMIT else qmin TAU_UPPER_LIMIT (1 / alpha0).
Definition tau_lower (alpha1 : Q) : Q :=
  if Qeqb alpha1 0 then TAU_UPPER_LIMIT else qmax 2 (1 / alpha1).

(** zeta_large_values.py 131-170 *)
Definition beta_rows (A B tl tu : Q) : list (list (list Q)) :=
  [[[0; 0; 0; -1]; [0; 0; 0; 1]; [1; -1; 0; 0]; [-(1#2); 1; 0; 0]; [-tl; 0; 1; 0]; [tu; 0; -1; 0]; [-B; 1; -A; 0]];
   [[0; 0; 1; -1]; [0; 0; 0; 1]; [1; -1; 0; 0]; [-(1#2); 1; 0; 0]; [-tl; 0; 1; 0]; [tu; 0; -1; 0]; [B; -1; A; 0]];
   [[0; 0; 1; -1]; [0; 0; 0; 1]; [1; -1; 0; 0]; [-(1#2); 1; 0; 0]; [tl; 0; -1; 0]; [-(2); 0; 1; 0]];
   [[0; 0; 1; -1]; [0; 0; 0; 1]; [1; -1; 0; 0]; [-(1#2); 1; 0; 0]; [-tu; 0; 1; 0]; [TAU_UPPER_LIMIT; 0; -1; 0]]].

(** zeta_large_values.py 105-178, [beta_to_zlv]. *)
Definition beta_zlv (be : hnode) : res lnode :=
  let b := bound_of be in
  let! r := disjoint_polys (beta_rows (icpt b) (slope b) (tau_lower (x1 (dom b))) (tau_upper (x0 (dom b)))) in
  derived_bound_zeta_LV r [LBase be].
Definition beta_to_zlv (hs : list lnode) : res (list lnode) :=
  let! bs := best_beta_nodes (bases hs) in mapM beta_zlv bs.

(** zeta_large_values.py 191-222 *)
Definition mu_rows (s m : Q) : list (list (list Q)) :=
  [[[0; 0; 0; 1]; [0; 0; 0; -1]; [1; -1; 0; 0]; [-(1#2); 1; 0; 0]; [-(2); 0; 1; 0]; [TAU_UPPER_LIMIT; 0; -1; 0]; [-s; 1; -m; 0]];
   [[0; 0; 1; -1]; [0; 0; 0; 1]; [1; -1; 0; 0]; [-(1#2); 1; 0; 0]; [-(2); 0; 1; 0]; [TAU_UPPER_LIMIT; 0; -1; 0]; [s; -1; m; 0]]].

(** zeta_large_values.py 182-228, [mu_to_zlv]. *)
Definition mu_zlv (mb : hnode) : res lnode :=
  match n_data mb with
  | DMu s m =>
      let! r := disjoint_polys (mu_rows s m) in
      derived_bound_zeta_LV r [LBase mb]
  | _ => Raise AttributeError
  end.
Definition mu_to_zlv (hs : list lnode) : res (list lnode) :=
  mapM mu_zlv (filter is_mu (bases hs)).

(** zeta_large_values.py 66-78, [compute_large_value_estimate]. *)
Definition compute_large_value_estimate (hs : list lnode) : res (list lnode) :=
  let! a := lv_to_zlv hs in
  let! b := beta_to_zlv hs in
  Ret (filter is_zlv hs ++ a ++ b).
End Ext.
