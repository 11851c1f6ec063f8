(** Model of literature.py 361-500 and 601-712: the exponent pairs and the bounds on
    mu from the literature, of exponent_pair.py 31-38 and of bound_mu.py 47-54.

    [get] stands for [rm.get], which is taken to know every key.  The functions that
    fill the set [literature] return what they add, in order.  The description and the
    proof text of a hypothesis are not modelled. *)
From Verif Require Import Base Model_Text Model_Reference Model_ExponentPair Model_ZetaLargeValues.
Open Scope list_scope.
Local Open Scope Q_scope.

(** exponent_pair.py 31-38 *)
Definition literature_exp_pair (k l : Q) (ref : reference) : hnode :=
  HNode (value_str (r_author ref) ++ s_of " exponent pair") (DPair k l) ref [].
(** bound_mu.py 47-54 *)
Definition literature_bound_mu (sigma mu : Q) (ref : reference) : hnode :=
  HNode (value_str (r_author ref) ++ s_of " bound on \mu(" ++ q_str sigma ++ s_of ")") (DMu sigma mu) ref [].
(** [frac(a, b)] for integers *)
Definition frac (a b : Z) : res Q := qdiv (inject_Z a) (inject_Z b).
(** reference.py 36-40, for a year given as a text *)
Definition ref_make_text (author year : str) : reference :=
  mkRef (s_of "temp_" ++ author ++ s_of "_" ++ year) ("article"%string : str) [(key_author, VStr author); (key_year, VStr year)].

Section Table.
Variable get : str -> reference.

(** literature.py 361-449 *)
Definition add_literature_exponent_pairs : list hnode :=
  [literature_exp_pair (9#56) (37#56) (get (s_of "huxley_exponential_1988"));
   literature_exp_pair (89#560) (369#560) (get (s_of "watt_exponential_1989"));
   literature_exp_pair (17#108) (71#108) (get (s_of "huxley_exponential_1991"));
   literature_exp_pair (89#570) (187#285) (get (s_of "huxley_exponential_1993"));
   literature_exp_pair (32#205) (269#410) (get (s_of "huxley_exponential_2005"));
   literature_exp_pair (13#84) (55#84) (get (s_of "bourgain_decoupling_2017"));
   literature_exp_pair (2#13) (35#52) (get (s_of "huxley_watt_exponential_1990"));
   literature_exp_pair (6299#43860) (29507#43860) (get (s_of "huxley_area_1996"));
   literature_exp_pair (771#8116) (1499#2029) (get (s_of "sargos_points_1995"));
   literature_exp_pair (21#232) (173#232) (get (s_of "sargos_points_1995"));
   literature_exp_pair (1959#21656) (16135#21656) (get (s_of "sargos_points_1995"));
   literature_exp_pair (516247#6629696) (5080955#6629696) (get (s_of "huxley_exponential_2001"));
   literature_exp_pair (1#13) (1 - (3#13)) (get (s_of "robert_fourth_2002"));
   literature_exp_pair (1#204) (1 - (7#204)) (get (s_of "sargos_analog_2003"));
   literature_exp_pair (1#360) (1 - (8#360)) (get (s_of "robert_2002"));
   literature_exp_pair (7#2640) (1 - (56#2640)) (get (s_of "sargos_analog_2003"));
   literature_exp_pair (1#716) (1 - (9#716)) (get (s_of "sargos_analog_2003"));
   literature_exp_pair (1#649) (1 - (9#649)) (get (s_of "Robert_Sargos_2001"));
   literature_exp_pair (7#4540) (1 - (63#4540)) (get (s_of "robert_2002"));
   literature_exp_pair (1#615) (1 - (9#615)) (get (s_of "robert_2002b"));
   literature_exp_pair (1#915) (1 - (10#915)) (get (s_of "robert_2002b"));
   literature_exp_pair (4742#38463) (35731#51284) (get (s_of "trudgian-yang"));
   literature_exp_pair (18#199) (593#796) (get (s_of "trudgian-yang"));
   literature_exp_pair (2779#38033) (58699#76066) (get (s_of "trudgian-yang"));
   literature_exp_pair (715#10238) (7955#10238) (get (s_of "trudgian-yang"))].
(** literature.py 453-461 *)
Definition add_huxley_exponent_pairs (M : Z) : res (list hnode) :=
  mapM (fun m =>
    let! k := frac 169 (1424 * 2 ^ m - 338) in
    let! c := frac 1577 712 in
    Ret (literature_exp_pair k (1 - k * (inject_Z m + c)) (get (s_of "huxley_area_1996")))) (zrange 1 M).
(** literature.py 477-486 *)
Definition add_heath_brown_exponent_pairs (M : Z) : res (list hnode) :=
  mapM (fun m =>
    let! k := frac 2 ((m - 1) * (m - 1) * (m + 2)) in
    let! c := frac (3 * m - 2) (m * (m - 1) * (m + 2)) in
    Ret (literature_exp_pair k (1 - c) (get (s_of "heathbrown_new_2017")))) (zrange 3 M).
(** literature.py 452, 464, 489: what is executed; the truncation is constants.py 10. *)
Definition add_exponent_pairs (M : Z) : res (list hnode) :=
  let! hux := add_huxley_exponent_pairs M in
  let! hb := add_heath_brown_exponent_pairs M in
  Ret (add_literature_exponent_pairs ++ hux ++ hb).

(** literature.py 601-667 *)
Definition add_literature_bounds_mu : list hnode :=
  [literature_bound_mu (1#2) (1#6) (get (s_of "hardy_littlewood_1923"));
   literature_bound_mu (1#2) (193#988) (get (s_of "walfisz_1924"));
   literature_bound_mu (1#2) (27#164) (get (s_of "titchmarsh_van_1931"));
   literature_bound_mu (1#2) (229#1392) (get (s_of "phillips_zeta_1933"));
   literature_bound_mu (1#2) (19#116) (get (s_of "titchmarsh_order_1942"));
   literature_bound_mu (1#2) (15#92) (get (s_of "min_on_1949"));
   literature_bound_mu (1#2) (6#37) (get (s_of "haneke_verscharfung_1963"));
   literature_bound_mu (1#2) (173#1067) (ref_make (s_of "Kolesnik") 1973);
   literature_bound_mu (1#2) (35#216) (get (s_of "kolesnik_order_1982"));
   literature_bound_mu (1#2) (139#858) (ref_make (s_of "Kolesnik") 1985);
   literature_bound_mu (1#2) (9#56) (get (s_of "bombieri_order_1986"));
   literature_bound_mu (1#2) (89#560) (get (s_of "watt_exponential_1989"));
   literature_bound_mu (1#2) (17#108) (get (s_of "huxley_exponential_1991"));
   literature_bound_mu (1#2) (89#570) (get (s_of "huxley_exponential_1993"));
   literature_bound_mu (1#2) (32#205) (get (s_of "huxley_exponential_2005"));
   literature_bound_mu (1#2) (13#84) (get (s_of "bourgain_decoupling_2017"));
   literature_bound_mu (1934#3655) (6299#43860) (get (s_of "huxley_area_1996"));
   literature_bound_mu (49#51) (1#204) (get (s_of "sargos_analog_2003"));
   literature_bound_mu (361#370) (1#370) (get (s_of "sargos_analog_2003"));
   literature_bound_mu (3#5) (1409#12170) (get (s_of "Lelechenko_linear_2014"));
   literature_bound_mu (4#5) (3#71) (get (s_of "Lelechenko_linear_2014"));
   literature_bound_mu (11#15) (1#15) (get (s_of "demeter_small_2020"))].
(** literature.py 673-680 *)
Definition add_van_der_corput_mu (M : Z) : res (list hnode) :=
  mapM (fun n =>
    let! x := frac n (2 ^ n - 2) in
    let! m := frac 1 (2 ^ n - 2) in
    Ret (literature_bound_mu (1 - x) m (ref_make (s_of "van der Corput") 1920))) (zrange 4 M).
(** literature.py 683-690 *)
Definition add_hardy_littlewood_mu (M : Z) : res (list hnode) :=
  mapM (fun n =>
    let! x := frac 1 (2 ^ (n - 1)) in
    let! m := frac 1 ((n + 1) * 2 ^ (n - 1)) in
    Ret (literature_bound_mu (1 - x) m (ref_make_text (s_of "Hardy--Littlewood") (s_of "Unknown date")))) (zrange 4 M).
Definition add_bounds_mu (M : Z) : res (list hnode) :=
  let! vdc := add_van_der_corput_mu M in
  let! hl := add_hardy_littlewood_mu M in
  Ret (add_literature_bounds_mu ++ vdc ++ hl).
End Table.

(** ** Taking bounds from the literature *)
(** hypotheses.py 93-108 for a hypothesis whose type matches; [None] is "Any". *)
Definition year_match (h : hnode) (year : option value) : res bool :=
  match year with
  | None => Ret true
  | Some y =>
      if str_eqb (r_label (n_ref h)) lab_derived || str_eqb (r_label (n_ref h)) lab_classical then Ret true
      else if str_eqb (r_label (n_ref h)) lab_conjectured then Ret false
      else if val_eqb (r_year (n_ref h)) unknown_date then Ret false
      else val_le (r_year (n_ref h)) y
  end.
(** hypotheses.py 190-195; [of_type] is the test of the type *)
Fixpoint list_hypotheses (of_type : hnode -> bool) (year : option value) (hs : list hnode) : res (list hnode) :=
  match hs with
  | [] => Ret []
  | h :: hs' =>
      let! b := if of_type h then year_match h year else Ret false in
      let! rest := list_hypotheses of_type year hs' in
      Ret (if b then h :: rest else rest)
  end.
(** literature.py 492-499; the set that is added to is a list of its members *)
Definition add_exp_pairs_all (literature hs : list hnode) : res (list hnode) :=
  let! new := list_hypotheses is_pair None literature in Ret (hs ++ [trivial_exp_pair] ++ new).
Definition add_exp_pairs_up_to (literature hs : list hnode) (year : value) : res (list hnode) :=
  let! new := list_hypotheses is_pair (Some year) literature in Ret (hs ++ [trivial_exp_pair] ++ new).
(** bound_mu.py 29-32: the comparison of [find_hypothesis(data=Bound_mu(1/2, 1/6))]; the
    data of another type is never equal to a bound on mu. *)
Definition mu_is (sigma mu : Q) (h : hnode) : bool :=
  match n_data h with DMu s m => Qeqb s sigma && Qeqb m mu | _ => false end.
(** literature.py 697-700; [None] is what [find_hypothesis] returns when nothing is
    found, and is added to the set as it is. *)
Definition add_bounds_mu_classic (literature : list hnode) (hs : list (option hnode)) : list (option hnode) :=
  hs ++ [find (mu_is (1#2) (1#6)) literature].
(** literature.py 704-710 *)
Definition add_bounds_mu_all (literature hs : list hnode) : res (list hnode) :=
  let! new := list_hypotheses is_mu None literature in Ret (hs ++ new).
Definition add_bounds_mu_as_of (literature hs : list hnode) (year : value) : res (list hnode) :=
  let! new := list_hypotheses is_mu (Some year) literature in Ret (hs ++ new).
