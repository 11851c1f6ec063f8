(** Model of literature.py 28-352: the bounds on beta from the literature, and of
    bound_beta.py 37-52.

    [get] stands for [rm.get] and [rm.refs], which are taken to know every key; the
    functions return what they add to the set [literature], in order. *)
From Verif Require Import Base Model_Text Model_Reference Model_Interval Model_Affine Model_ExponentPair Model_ZetaLargeValues Model_IntervalText.
Open Scope list_scope.
Local Open Scope Q_scope.

(** bound_beta.py 37-52 *)
Definition add_beta_bound (bounds : list affine) (ref : reference) : res (list hnode) :=
  mapM (fun b =>
    let! author := match dict_get (r_entries ref) key_author with Some v => Ret v | None => Raise KeyError end in
    let! year := match dict_get (r_entries ref) key_year with Some v => Ret v | None => Raise KeyError end in
    Ret (HNode (value_str author ++ s_of " (" ++ value_str year ++ s_of ") bound on \beta on " ++ interval_repr (dom b))
           (DBeta b) ref [])) bounds.
(** [Affine(m, c, Interval(text))] *)
Definition line (m c : Q) (text : string) : res affine := let! d := interval_parse (s_of text) in Ret (mkA m c d None).
(** Statements that are executed one after the other. *)
Fixpoint in_turn (rs : list (res (list hnode))) : res (list hnode) :=
  match rs with
  | [] => Ret []
  | r :: rs => let! hs := r in let! hs' := in_turn rs in Ret (hs ++ hs')
  end.

Section Table.
Variable get : str -> reference.
(** [bbeta.add_beta_bound(literature, [Affine, ...], rm.get(key))] *)
Definition add_list (ls : list (res affine)) (key : string) : res (list hnode) :=
  let! bs := mapM (fun l => l) ls in add_beta_bound bs (get (s_of key)).
(** [bbeta.add_beta_bound(literature, Affine.max_with([...]), rm.get(key))] *)
Definition add_max (f : res affine) (gs : list (res affine)) (key : string) : res (list hnode) :=
  let! f := f in let! gs := mapM (fun l => l) gs in let! bs := max_with f gs None in add_beta_bound bs (get (s_of key)).

(** literature.py 33-38 *)
Definition add_beta_bound_watt_1989 : res (list hnode) :=
  add_list [line (1 # 2) (89 # 560) "[3/7, 1/2]"] "watt_exponential_1989".
(** literature.py 45-55 *)
Definition add_beta_bound_huxley_kolesnik_1991 : res (list hnode) :=
  add_max (line (8 # 22) (1 # 22) "[2/5, 1/2]") [line (112 # 158) (11 # 158) "[2/5, 1/2]";
    line (17 # 22) (1 # 22) "[2/5, 1/2]"] "huxley_exponential_1991".
(** literature.py 62-74 *)
Definition add_beta_bound_huxley_1993 : res (list hnode) :=
  in_turn [add_max (line (7 # 20) (13 # 60) "[0, 49/144]") [line (13 # 20) (11 # 120) "[0, 49/144]"] "huxley_exponential_1993";
  add_list [line (1 # 2) (89 # 570) "[49/144, 1/2]"] "huxley_exponential_1993"].
(** literature.py 81-92 *)
Definition add_beta_bound_huxley_1993_3 : res (list hnode) :=
  add_list [line (94 # 146) (13 # 146) "[0, 87/275]";
    line (191 # 244) (11 # 244) "[87/275, 423/1295]";
    line (908 # 1282) (89 # 1282) "[423/1295, 227/601]";
    line (173 # 280) (29 # 280) "[227/601, 12/31]";
    line (103 # 128) (4 # 128) "[12/31, 1]"] "huxley_exponential_1993".
(** literature.py 99-121 *)
Definition add_beta_bound_huxley_1996 : res (list hnode) :=
  add_list [line (253 # 318) (13 # 318) "[2848/12173, 161/646)";
    line (428 # 492) (11 # 492) "[161/646, 19/74)";
    line (2243 # 2706) (89 # 2706) "[19/74, 199/716)";
    line (464 # 600) (29 # 600) "[199/716, 967/3428)";
    line (1351 # 1614) (49 # 1614) "[967/3428, 120/419)";
    line (235 # 264) (4 # 264) "[120/419, 1424/4747)";
    line (94 # 146) (13 # 146) "[1424/4747, 87/275)";
    line (191 # 244) (11 # 244) "[87/275, 423/1295)";
    line (908 # 1282) (89 # 1282) "[423/1295, 227/601)";
    line (173 # 280) (29 # 280) "[227/601, 12/31)";
    line (103 # 128) (4 # 128) "[12/31, 356/873)";
    line (21 # 60) (13 # 60) "[356/873, 5/12)";
    line (78 # 120) (11 # 120) "[5/12, 49/114)";
    line (285 # 570) (89 # 570) "[49/114, 65/114)";
    line (42 # 120) (29 # 120) "[65/114, 7/12)";
    line (39 # 60) (4 # 60) "[7/12, 517/873]"] "huxley_area_1996".
(** literature.py 128-146 *)
Definition add_beta_bound_sargos_1995 : res (list hnode) :=
  in_turn [add_max (line (1 - 3*(4 # 40)) (3 # 40) "[0, 1]") [line (7 # 8) 0 "[0, 1]";
    line ((1 # 3) + (4 # 6)) (-(1 # 6)) "[0, 1]";
    line 0 0 "[0, 1]"] "sargos_points_1995";
  add_max (line (1 - (4 # 14)) (1 # 14) "[0, 1]") [line (5 # 6) 0 "[0, 1]";
    line ((1 # 3) + (4 # 6)) (-(1 # 6)) "[0, 1]";
    line 0 0 "[0, 1]"] "sargos_points_1995"].
(** literature.py 153-188 *)
Definition add_beta_bound_huxley_1996_2 : res (list hnode) :=
  add_list [line (103 # 128) (4 # 128) "[12/31, 68682/171139)";
    line (2484 # 6410) (1273 # 6410) "[68682/171139, 307/761)";
    line (1053 # 2800) (569 # 2800) "[307/761, 143/349)";
    line (3624 # 5530) (491 # 5530) "[143/349, 263/638)";
    line (897 # 1345) (113 # 1345) "[263/638, 156527/370694)";
    line (88442 # 134680) (11897 # 134680) "[156527/370694, 699371/1647930)";
    line (19177 # 29855) (2819 # 29855) "[699371/1647930, 675/1574)";
    line (17972 # 27290) (2387 # 27290) "[675/1574, 106822/246639)";
    line (285 # 570) (89 # 570) "[106822/246639, 139817/246639]"] "huxley_area_1996".
(** literature.py 195-205 *)
Definition add_beta_bound_huxley_kolesnik_2001 : res (list hnode) :=
  add_max (line (79 # 120) (7 # 80) "[2/5, 1/2]") [line (103 # 160) (3 # 32) "[2/5, 1/2]";
    line (13 # 40) (9 # 40) "[2/5, 1/2]"] "huxley_exponential_2001".
(** literature.py 213-220 *)
Definition add_beta_bound_robert_sargos_2002 : res (list hnode) :=
  add_max (line (9 # 13) (1 # 13) "[0, 1]") [line (28 # 13) (-7 # 13) "[0, 1]"] "robert_fourth_2002".
(** literature.py 227-242 *)
Definition add_beta_bound_sargos_2003 : res (list hnode) :=
  in_turn [add_max (line ((inject_Z (204 - 8) / inject_Z 204)) (1 # 204) "[0, 1]") [line ((inject_Z (95 * 8) / inject_Z 204)) (-95 # 204) "[0, 1]"] "sargos_analog_2003";
  add_max (line ((inject_Z (2640 - 7 * 9) / inject_Z 2640)) (7 # 2640) "[0, 1]") [line ((inject_Z (1001 * 9) / inject_Z 2640)) (-1001 # 2640) "[0, 1]"] "sargos_analog_2003"].
(** literature.py 249-256 *)
Definition add_beta_bound_huxley_2005 : res (list hnode) :=
  add_max (line (59 # 170) (37 # 170) "[1/3, 1/2]") [line (449 # 690) (21 # 230) "[1/3, 1/2]"] "huxley_exponential_2005".
(** literature.py 263-270 *)
Definition add_beta_bound_robert_2016 : res (list hnode) :=
  add_max (line (2 # 3) (1 # 12) "[0, 3/7]") [line (11 # 12) 0 "[0, 3/7]"] "robert_fourth_2016".
(** literature.py 277-295 *)
Definition add_beta_bound_robert_2016_2 (K : Z) : res (list hnode) :=
  in_turn (map (fun k =>
    let d := Interval 0 (inject_Z (k - 1) / inject_Z (k * (k - 1) - (2 * k - 3))) true true in
    add_max (let! d := d in Ret (mkA (1 - inject_Z k / inject_Z (2 * (k - 1) * (k - 2))) (1 / inject_Z (2 * (k - 1) * (k - 2))) d None))
      [let! d := d in Ret (mkA (1 - 1 / inject_Z (2 * (k - 1) * (k - 2))) 0 d None)] "robert_2016") (zrange 4 K)).
(** literature.py 302-315 *)
Definition add_beta_bound_heath_brown_2017 (K : Z) : res (list hnode) :=
  in_turn (map (fun k =>
    add_max (line (inject_Z (k - 2) / inject_Z (k - 1)) (1 / inject_Z (k * (k - 1))) "[0, 1]")
      [line (1 - 1 / inject_Z (k * (k - 1))) 0 "[0, 1]"; line 1 (inject_Z (-2) / inject_Z (k * k * (k - 1))) "[0, 1]"] "heathbrown_new_2017") (zrange 3 K)).
(** literature.py 322-331 *)
Definition add_beta_bound_bourgain_2017 : res (list hnode) :=
  add_list [line (1 # 3) (2 # 9) "[1/3, 5/12)";
    line (2 # 3) (1 # 12) "[5/12, 3/7)";
    line (1 # 2) (13 # 84) "[3/7, 1/2]"] "bourgain_decoupling_2017".
(** literature.py 338-349 *)
Definition add_beta_bound_trudgian_yang_2024 : res (list hnode) :=
  add_list [line (359 # 414) (13 # 414) "[0, 2848/12173)";
    line (139 # 194) (13 # 194) "[1328/4447, 104/343)";
    line (521 # 796) (18 # 199) "[1508/3825, 62831/155153]"] "trudgian-yang".
(** literature.py 28-352: all of them, in order; both truncations are [Constants.BETA_TRUNCATION] there. *)
Definition add_beta_bounds (Kr Kh : Z) : res (list hnode) :=
  in_turn [add_beta_bound_watt_1989;
    add_beta_bound_huxley_kolesnik_1991;
    add_beta_bound_huxley_1993;
    add_beta_bound_huxley_1993_3;
    add_beta_bound_huxley_1996;
    add_beta_bound_sargos_1995;
    add_beta_bound_huxley_1996_2;
    add_beta_bound_huxley_kolesnik_2001;
    add_beta_bound_robert_sargos_2002;
    add_beta_bound_sargos_2003;
    add_beta_bound_huxley_2005;
    add_beta_bound_robert_2016;
    add_beta_bound_robert_2016_2 Kr;
    add_beta_bound_heath_brown_2017 Kh;
    add_beta_bound_bourgain_2017;
    add_beta_bound_trudgian_yang_2024].
End Table.
