(** What the bounds on beta in the literature say: blueprint, chapter on bounds on beta. *)
From Verif Require Import Base Model_Text Model_Reference Model_Interval Spec_Interval Model_Affine Spec_Affine Model_ExponentPair Spec_ExponentPair
  Model_ZetaLargeValues Model_IntervalText Spec_IntervalText.
Open Scope list_scope.
Local Open Scope Q_scope.

(** ** What was published *)
(** beta(a) <= f(a) for lo <= a <= hi *)
Definition on (W : zworld) (lo hi : Q) (f : Q -> Q) : Prop := forall a, lo <= a -> a <= hi -> beta_le W a (f a).
Definition positive (W : zworld) (f : Q -> Q) : Prop := forall a, 0 < a -> beta_le W a (f a).
Definition quot (c m d : Z) (a : Q) : Q := (inject_Z c + inject_Z m * a) / inject_Z d.
Definition fn (c m a : Q) : Q := c + m * a.
(** One row of a table: X, Y and the function. *)
Definition table_holds (W : zworld) (t : list (Q * Q * (Q -> Q))) : Prop := forall lo hi f, In (lo, hi, f) t -> on W lo hi f.
Definition huxley_1993_table : list (Q * Q * (Q -> Q)) :=
  [(0, (87#275), quot 13 94 146);
   ((87#275), (423#1295), quot 11 191 244);
   ((423#1295), (227#601), quot 89 908 1282);
   ((227#601), (12#31), quot 29 173 280);
   ((12#31), 1, quot 4 103 128)].
(** Table 17.1 *)
Definition huxley_table_1 : list (Q * Q * (Q -> Q)) :=
  [((2848#12173), (161#646), quot 13 253 318);
   ((161#646), (19#74), quot 11 428 492);
   ((19#74), (199#716), quot 89 2243 2706);
   ((199#716), (967#3428), quot 29 464 600);
   ((967#3428), (120#419), quot 49 1351 1614);
   ((120#419), (1424#4747), quot 4 235 264);
   ((1424#4747), (87#275), quot 13 94 146);
   ((87#275), (423#1295), quot 11 191 244);
   ((423#1295), (227#601), quot 89 908 1282);
   ((227#601), (12#31), quot 29 173 280);
   ((12#31), (356#873), quot 4 103 128);
   ((356#873), (5#12), quot 13 21 60);
   ((5#12), (49#114), quot 11 78 120);
   ((49#114), (65#114), quot 89 285 570);
   ((65#114), (7#12), quot 29 42 120);
   ((7#12), (517#873), quot 4 39 60)].
(** Table 19.2 *)
Definition huxley_table_2 : list (Q * Q * (Q -> Q)) :=
  [((227#601), (12#31), quot 29 173 280);
   ((12#31), (68682#171139), quot 4 103 128);
   ((68682#171139), (307#761), quot 1273 2484 6410);
   ((307#761), (143#349), quot 569 1053 2800);
   ((143#349), (263#638), quot 491 3624 5530);
   ((263#638), (156527#370694), quot 113 897 1345);
   ((156527#370694), (699371#1647930), quot 11897 88442 134680);
   ((699371#1647930), (675#1574), quot 2819 19177 29855);
   ((675#1574), (106822#246639), quot 2387 17972 27290);
   ((106822#246639), (139817#246639), quot 89 285 570)].
(** Theorem "Combined bound" *)
Definition combined_table : list (Q * Q * (Q -> Q)) :=
  [(0, (2848#12173), fn (13#414) (359#414));
   ((2848#12173), (161#646), fn (13#318) (253#318));
   ((161#646), (19#74), fn (11#492) (107#123));
   ((19#74), (199#716), fn (89#2706) (2243#2706));
   ((199#716), (967#3428), fn (29#600) (58#75));
   ((967#3428), (120#419), fn (49#1614) (1351#1614));
   ((120#419), (1328#4447), fn (1#66) (235#264));
   ((1328#4447), (104#343), fn (13#194) (139#194));
   ((104#343), (87#275), fn (13#146) (47#73));
   ((87#275), (423#1295), fn (11#244) (191#244));
   ((423#1295), (227#601), fn (89#1282) (454#641));
   ((227#601), (12#31), fn (29#280) (173#280));
   ((12#31), (1508#3825), fn (1#32) (103#128));
   ((1508#3825), (62831#155153), fn (18#199) (521#796));
   ((62831#155153), (143#349), fn (569#2800) (1053#2800));
   ((143#349), (263#638), fn (491#5530) (1812#2765));
   ((263#638), (1673#4038), fn (113#1345) (897#1345));
   ((1673#4038), (5#12), fn (2#9) (1#3));
   ((5#12), (3#7), fn (1#12) (2#3));
   ((3#7), (1#2), fn (13#84) (1#2))].
Definition huxley_1993_max (a : Q) : Q := qmax (fn (13#60) (7#20) a) (fn (11#120) (13#20) a).
Definition sargos_1995_first (a : Q) : Q := qmax (a + 3 * (1 - 4 * a) / 40) (qmax ((7#8) * a) (qmax ((1#3) * a - (1 - 4 * a) / 6) 0)).
Definition sargos_1995_second (a : Q) : Q := qmax (a + (1 - 4 * a) / 14) (qmax ((5#6) * a) (qmax ((1#3) * a - (1 - 4 * a) / 6) 0)).
Definition huxley_kolesnik_1991 (a : Q) : Q := qmax (quot 1 8 22 a) (qmax (quot 11 112 158 a) (quot 1 17 22 a)).
Definition huxley_kolesnik_2001 (a : Q) : Q := qmax (fn (7#80) (79#120) a) (qmax (fn (3#32) (103#160) a) (fn (9#40) (13#40) a)).
Definition robert_sargos_2002 (a : Q) : Q := qmax (a + (1 - 4 * a) / 13) (- (7 * (1 - 4 * a) / 13)).
Definition sargos_2003_first (a : Q) : Q := qmax (a + (1 - 8 * a) / 204) (- (95 * (1 - 8 * a) / 204)).
Definition sargos_2003_second (a : Q) : Q := qmax (a + 7 * (1 - 9 * a) / 2640) (- (1001 * (1 - 9 * a) / 2640)).
Definition huxley_2005 (a : Q) : Q := qmax (quot 37 59 170 a) (quot 63 449 690 a).
Definition robert_2016 (a : Q) : Q := qmax (a + (1 - 4 * a) / 12) ((11#12) * a).
(** The blueprint has -1/(2(k-1)(k-2)) for the second term, without the factor alpha,
    which is a misprint: the k-th derivative test gives N^(1 - 1/(2(k-1)(k-2))). *)
Definition robert_2016_k (k : Z) (a : Q) : Q :=
  let d := inject_Z (2 * (k - 1) * (k - 2)) in a + qmax ((1 - inject_Z k * a) / d) (- (a / d)).
Definition heath_brown_2017 (k : Z) (a : Q) : Q :=
  let d := inject_Z (k * (k - 1)) in
  a + qmax ((1 - inject_Z k * a) / d) (qmax (- (a / d)) (- (2 * a / d) - 2 * (1 - inject_Z k * a) / inject_Z (k * k * (k - 1)))).

Record beta_published (W : zworld) : Prop := {
  bp_watt : on W (3#7) (1#2) (fn (89#560) (1#2));
  bp_huxley_kolesnik_1991 : on W (2#5) (1#2) huxley_kolesnik_1991;
  bp_huxley_1993 : on W 0 (49#114) huxley_1993_max /\ on W (49#114) (1#2) (fn (89#570) (1#2));
  bp_huxley_1993_3 : table_holds W huxley_1993_table;
  bp_sargos_1995 : on W 0 1 sargos_1995_first /\ on W 0 1 sargos_1995_second;
  bp_huxley_1996 : table_holds W huxley_table_1 /\ table_holds W huxley_table_2;
  bp_huxley_kolesnik_2001 : on W (2#5) (1#2) huxley_kolesnik_2001;
  bp_robert_sargos_2002 : positive W robert_sargos_2002;
  bp_sargos_2003 : positive W sargos_2003_first /\ positive W sargos_2003_second;
  bp_huxley_2005 : on W (1#3) (1#2) huxley_2005;
  bp_robert_2016 : forall a, 0 < a -> a <= 3#7 -> beta_le W a (robert_2016 a);
  bp_robert_2016_k : forall k a, (4 <= k)%Z -> 0 < a ->
    - ((1 - inject_Z k * a) * (inject_Z (k - 1) / inject_Z (2 * k - 3))) <= a -> beta_le W a (robert_2016_k k a);
  bp_heath_brown_2017 : forall k, (3 <= k)%Z -> positive W (heath_brown_2017 k);
  bp_bourgain_2017 : forall a, (1#3 < a -> a <= 5#12 -> beta_le W a ((2#9) + (1#3) * a)) /\
    (5#12 < a -> a <= 3#7 -> beta_le W a ((1#12) + (2#3) * a)) /\ (3#7 < a -> a <= 1#2 -> beta_le W a ((13#84) + (1#2) * a));
  bp_combined : table_holds W combined_table }.
(** Upper bounds can be raised, and the trivial bounds. *)
Record beta_basic (W : zworld) : Prop := {
  bb_upper : upper (beta_le W);
  bb_trivial : forall a, 0 <= a -> a <= 1 -> beta_le W a a;
  bb_large : forall a, 1 < a -> beta_le W a (a - 1) }.

(** ** What is recorded *)
(** A row: the key of the reference, where the bound is stated, and its value. *)
Record row : Type := mkRow { w_key : string; w_dom : interval; w_val : Q -> Q }.
Definition full (lo hi : Q) : interval := mkI lo hi true true.
Definition half (lo hi : Q) : interval := mkI lo hi true false.
Definition robert_row (k : Z) : row := mkRow "robert_2016" (full 0 (inject_Z (k - 1) / inject_Z (k * (k - 1) - (2 * k - 3)))) (robert_2016_k k).
Definition heath_brown_row (k : Z) : row := mkRow "heathbrown_new_2017" (full 0 1) (heath_brown_2017 k).
(** One list for each theorem. *)
Definition theorems (Kr Kh : Z) : list (list row) :=
  [[mkRow "watt_exponential_1989" (full (3#7) (1#2)) (fn (89#560) (1#2))];
   [mkRow "huxley_exponential_1991" (full (2#5) (1#2)) huxley_kolesnik_1991];
   [mkRow "huxley_exponential_1993" (full 0 (49#144)) huxley_1993_max;
    mkRow "huxley_exponential_1993" (full (49#144) (1#2)) (fn (89#570) (1#2))];
   [mkRow "huxley_exponential_1993" (full 0 (87#275)) (quot 13 94 146);
   mkRow "huxley_exponential_1993" (full (87#275) (423#1295)) (quot 11 191 244);
   mkRow "huxley_exponential_1993" (full (423#1295) (227#601)) (quot 89 908 1282);
   mkRow "huxley_exponential_1993" (full (227#601) (12#31)) (quot 29 173 280);
   mkRow "huxley_exponential_1993" (full (12#31) 1) (quot 4 103 128)];
   [mkRow "huxley_area_1996" (half (2848#12173) (161#646)) (quot 13 253 318);
   mkRow "huxley_area_1996" (half (161#646) (19#74)) (quot 11 428 492);
   mkRow "huxley_area_1996" (half (19#74) (199#716)) (quot 89 2243 2706);
   mkRow "huxley_area_1996" (half (199#716) (967#3428)) (quot 29 464 600);
   mkRow "huxley_area_1996" (half (967#3428) (120#419)) (quot 49 1351 1614);
   mkRow "huxley_area_1996" (half (120#419) (1424#4747)) (quot 4 235 264);
   mkRow "huxley_area_1996" (half (1424#4747) (87#275)) (quot 13 94 146);
   mkRow "huxley_area_1996" (half (87#275) (423#1295)) (quot 11 191 244);
   mkRow "huxley_area_1996" (half (423#1295) (227#601)) (quot 89 908 1282);
   mkRow "huxley_area_1996" (half (227#601) (12#31)) (quot 29 173 280);
   mkRow "huxley_area_1996" (half (12#31) (356#873)) (quot 4 103 128);
   mkRow "huxley_area_1996" (half (356#873) (5#12)) (quot 13 21 60);
   mkRow "huxley_area_1996" (half (5#12) (49#114)) (quot 11 78 120);
   mkRow "huxley_area_1996" (half (49#114) (65#114)) (quot 89 285 570);
   mkRow "huxley_area_1996" (half (65#114) (7#12)) (quot 29 42 120);
   mkRow "huxley_area_1996" (full (7#12) (517#873)) (quot 4 39 60)];
   [mkRow "sargos_points_1995" (full 0 1) sargos_1995_first;
    mkRow "sargos_points_1995" (full 0 1) sargos_1995_second];
   [mkRow "huxley_area_1996" (half (12#31) (68682#171139)) (quot 4 103 128);
   mkRow "huxley_area_1996" (half (68682#171139) (307#761)) (quot 1273 2484 6410);
   mkRow "huxley_area_1996" (half (307#761) (143#349)) (quot 569 1053 2800);
   mkRow "huxley_area_1996" (half (143#349) (263#638)) (quot 491 3624 5530);
   mkRow "huxley_area_1996" (half (263#638) (156527#370694)) (quot 113 897 1345);
   mkRow "huxley_area_1996" (half (156527#370694) (699371#1647930)) (quot 11897 88442 134680);
   mkRow "huxley_area_1996" (half (699371#1647930) (675#1574)) (quot 2819 19177 29855);
   mkRow "huxley_area_1996" (half (675#1574) (106822#246639)) (quot 2387 17972 27290);
   mkRow "huxley_area_1996" (full (106822#246639) (139817#246639)) (quot 89 285 570)];
   [mkRow "huxley_exponential_2001" (full (2#5) (1#2)) huxley_kolesnik_2001];
   [mkRow "robert_fourth_2002" (full 0 1) robert_sargos_2002];
   [mkRow "sargos_analog_2003" (full 0 1) sargos_2003_first;
    mkRow "sargos_analog_2003" (full 0 1) sargos_2003_second];
   [mkRow "huxley_exponential_2005" (full (1#3) (1#2)) huxley_2005];
   [mkRow "robert_fourth_2016" (full 0 (3#7)) robert_2016];
   map robert_row (zrange 4 Kr);
   map heath_brown_row (zrange 3 Kh);
   [mkRow "bourgain_decoupling_2017" (half (1#3) (5#12)) (fn (2#9) (1#3));
    mkRow "bourgain_decoupling_2017" (half (5#12) (3#7)) (fn (1#12) (2#3));
    mkRow "bourgain_decoupling_2017" (full (3#7) (1#2)) (fn (13#84) (1#2))];
   [mkRow "trudgian-yang" (half 0 (2848#12173)) (fn (13#414) (359#414));
    mkRow "trudgian-yang" (half (1328#4447) (104#343)) (fn (13#194) (139#194));
    mkRow "trudgian-yang" (full (1508#3825) (62831#155153)) (fn (18#199) (521#796))]].
Definition rows (Kr Kh : Z) : list row := concat (theorems Kr Kh).
Definition row_holds (W : zworld) (r : row) : Prop := forall a, in_set (w_dom r) a -> beta_le W a (w_val r a).

(** A reference with an author and a year. *)
Definition citable (r : reference) : Prop := dict_get (r_entries r) key_author <> None /\ dict_get (r_entries r) key_year <> None.
(** "author (year) bound on \beta on [a,b]" *)
Definition named (r : reference) (b : affine) (s : str) : Prop := exists t i,
  s = value_str (r_author r) ++ s_of " (" ++ value_str (r_year r) ++ s_of ") bound on \beta on " ++ t /\ interval_text t i /\ same_ends i (dom b).
(** The hypotheses [g] record the row: together they cover its range, and give its value. *)
Definition recorded (get : str -> reference) (g : list hnode) (r : row) : Prop :=
  Forall (fun h => n_ref h = get (s_of (w_key r)) /\ n_deps h = [] /\ exists b, n_data h = DBeta b /\ named (n_ref h) b (n_name h)) g /\
  (forall a, in_set (w_dom r) a <-> exists h b, In h g /\ n_data h = DBeta b /\ covers b a) /\
  (forall h b a, In h g -> n_data h = DBeta b -> covers b a -> value b a == w_val r a).
