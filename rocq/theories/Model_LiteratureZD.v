(** Model of literature.py 1095-1392: the zero density estimates and the zero density
    energy estimates from the literature.

    [get] stands for [rm.get]; the functions return what they add to the set
    [literature], in order.  The intervals given as text in lines 1168-1174 are taken as
    read, and the constructor of intervals, which rejects a lower end above the upper
    one, is left out. *)
From Verif Require Import Base Model_Text Model_Reference Model_Interval Model_ExponentPair Model_AdditiveEnergy Model_RationalFunction Model_DensityEstimate Model_DensityEnergy Model_Format.
From Coq Require Import Reals Qreals.
Open Scope list_scope.
Local Open Scope Q_scope.

(** The arguments of one call of [zd.add_zero_density]. *)
Record entry : Type := mkEntry { x_text : str; x_lo : Q; x_hi : Q; x_ilo : bool; x_ihi : bool; x_ref : reference }.
(** constants.py 24 *)
Definition ZERO_DENSITY_SIGMA_LIMIT : Q := 999 # 1000.
(** [min(a, b)] *)
Definition py_min (a b : Q) : Q := if Qltb b a then b else a.

Section Table.
Variable get : str -> reference.

(** Lines 1100-1105 *)
Definition add_zero_density_carlson_1921 : list entry :=
  [mkEntry (s_of "4*x") (1#2) (1) true false (get (s_of "carlson_uber_1921"))].
(** Lines 1107-1112 *)
Definition add_zero_density_ingham_1940 : list entry :=
  [mkEntry (s_of "3/(2 - x)") (1#2) (1) true false (get (s_of "ingham_estimation_1940"))].
(** Lines 1114-1122 *)
Definition add_zero_density_montgomery_1971 : list entry :=
  [mkEntry (s_of "1600 * (1 - x) ** (1/2)") (1#2) (1) true false (ref_make (s_of "Montgomery") 1971)].
(** Lines 1124-1129 *)
Definition add_zero_density_huxley_1972 : list entry :=
  [mkEntry (s_of "3/(3 * x - 1)") (1#2) (1) true false (get (s_of "Huxley"))].
(** Lines 1131-1163 *)
Definition huxley_1973_1975 : list entry :=
  [mkEntry (s_of "39/(115 * x - 75)") (55#67) (189#230) true false (get (s_of "huxley_large_1973"));
   mkEntry (s_of "2") (189#230) (75#89) true false (get (s_of "huxley_large_1973"));
   mkEntry (s_of "48/(37 * (2 * x - 1))") (61#74) (75#89) true false (get (s_of "huxley_large_1973"));
   mkEntry (s_of "3/(2 * x)") (37#42) (1) true false (get (s_of "huxley_large_1975a"));
   mkEntry (s_of "48/(37 * (2 * x - 1))") (61#74) (37#42) true false (get (s_of "huxley_large_1975a"));
   mkEntry (s_of "2") (80119#100000) (1) true false (get (s_of "huxley_large_1975a"));
   mkEntry (s_of "2") (4#5) (1) true false (get (s_of "huxley_large_1975b"))].
(** Lines 1165-1176 *)
Definition add_zero_density_heathbrown_1979 : list entry :=
  [mkEntry (s_of "4/(4 * x - 1)") (25#28) (1) true true (get (s_of "heathbrown_zero_1979"));
   mkEntry (s_of "3/(10 * x - 7)") (3#4) (25#28) true false (get (s_of "heathbrown_zero_1979"));
   mkEntry (s_of "9/(7 * x - 1)") (11#14) (1) true false (get (s_of "heathbrown_zero_1979"))].
(** Lines 1178-1196 *)
Definition ivic_1979 : list entry :=
  [mkEntry (s_of "6/(5 * x - 1)") (67#87) (1) true false (get (s_of "ivic_note_1979"));
   mkEntry (s_of "3/(34 * x - 25)") (28#37) (74#95) true false (get (s_of "ivic_note_1979"));
   mkEntry (s_of "9/(7 * x - 1)") (74#95) (1) true false (get (s_of "ivic_note_1979"));
   mkEntry (s_of "3/(2 * x)") (4#5) (1) true false (get (s_of "ivic_note_1979"));
   mkEntry (s_of "68/(98 * x - 47)") (115#166) (1) true false (get (s_of "ivic_note_1979"))].
(** Lines 1198-1218 *)
Definition add_zero_density_ivic_1980 : list entry :=
  [mkEntry (s_of "3/(2 * x)") (3831#4791) (1) true false (ref_make (s_of "Ivic") 1980);
   mkEntry (s_of "2") (11#14) (1) true false (ref_make (s_of "Ivic") 1980);
   mkEntry (s_of "9/(7 * x - 1)") (41#53) (1) true false (ref_make (s_of "Ivic") 1980);
   mkEntry (s_of "6/(5 * x - 1)") (13#17) (1) true false (ref_make (s_of "Ivic") 1980);
   mkEntry (s_of "4/(2 * x + 1)") (17#18) (1) true false (ref_make (s_of "Ivic") 1980);
   mkEntry (s_of "24/(30 * x - 11)") (155#174) (1) true false (ref_make (s_of "Ivic") 1980)].
(** Lines 1220-1245 *)
Definition jutila_1982_ivic_1984 : list entry :=
  [mkEntry (s_of "(3/2 - x) / (1 - x)") (155#174) (1) true false (get (s_of "jutila_zeroes_1983"));
   mkEntry (s_of "3/(7 * x - 4)") (3#4) (10#13) true false (get (s_of "ivic_zero_1984"));
   mkEntry (s_of "9/(8 * x - 2)") (10#13) (1) true false (get (s_of "ivic_zero_1984"));
   mkEntry (s_of "15/(22 * x - 10)") (10#13) (5#6) true false (ref_make (s_of "Ivic") 1984)].

(** Lines 1247-1268: the loop, with [n] values of k left, and the break. *)
Definition ivic_text (k : Z) : str := z_str (3 * k) ++ s_of "/(" ++ z_str (3 * k - 2) ++ s_of " * x + " ++ z_str (2 - k) ++ s_of ")".
Definition ivic_sigma_lower (k : Z) : Q :=
  if (k =? 3)%Z then 41#53
  else py_min (inject_Z (6 * k ^ 2 - 5 * k + 2) / inject_Z (8 * k ^ 2 - 7 * k + 2)) (inject_Z (9 * k ^ 2 - 4 * k + 2) / inject_Z (12 * k ^ 2 - 6 * k + 2)).
Fixpoint ivic_loop (n : nat) (k : Z) : list entry :=
  match n with
  | O => []
  | S n => if Qltb ZERO_DENSITY_SIGMA_LIMIT (ivic_sigma_lower k) then []
           else mkEntry (ivic_text k) (ivic_sigma_lower k) 1 true false (get (s_of "ivic")) :: ivic_loop n (k + 1)
  end.
Definition add_zero_density_ivic_1984 : list entry := ivic_loop 97 3.

(** Lines 1270-1276 *)
Definition conrey_1989 : list entry :=
  [mkEntry (s_of "(1 + (1 - 2 * x) * 4/7) / (1 - x)") (1#2) (1) true false (get (s_of "conrey_at_1989"))].
(** Lines 1278-1287 *)
Definition add_zero_density_bourgain_1995 : list entry :=
  [mkEntry (s_of "4 / (30 * x - 25)") (15#16) (1) true false (get (s_of "bourgain_remarks_1995"));
   mkEntry (s_of "2 / (7 * x - 5)") (17#19) (1) true false (get (s_of "bourgain_remarks_1995"))].
(** Lines 1289-1295 *)
Definition add_zero_density_bourgain_2000 : list entry :=
  [mkEntry (s_of "2") (25#32) (1) true false (get (s_of "bourgain_large_2000"))].
(** Lines 1297-1300 *)
Definition ford_2002 : list entry :=
  [mkEntry (s_of "58.05 * (1 - x) ** (1/2)") (1#2) (1) true false (get (s_of "FordZeta"))].
(** Lines 1302-1307 *)
Definition add_zero_density_bourgain_2002 : list entry :=
  [mkEntry (s_of "3/(2 * x)") (3734#4694) (1) true false (ref_make (s_of "Bourgain") 2002)].
(** Lines 1309-1315 *)
Definition heathbrown_2017 : list entry :=
  [mkEntry (s_of "6.42 * (1 - x) ** (1/2)") (9#10) (1) true false (get (s_of "heathbrown_new_2017"))].

(** Lines 1317-1347 *)
Definition pintz_text (k : Z) : str := s_of "3 / (" ++ z_str k ++ s_of " * (1 - 2 * (" ++ z_str k ++ s_of " - 1) * (1 - x)))".
Definition pintz_sigma_lower (k : Z) : Q := 1 - 1 / inject_Z (2 * k * (k - 1)).
Definition pintz_sigma_upper (k : Z) : Q := 1 - 1 / inject_Z (2 * k * (k + 1)).
Fixpoint pintz_loop (n : nat) (k : Z) : list entry :=
  match n with
  | O => []
  | S n => if Qltb ZERO_DENSITY_SIGMA_LIMIT (pintz_sigma_lower k) then []
           else mkEntry (pintz_text k) (pintz_sigma_lower k) (pintz_sigma_upper k) true false (get (s_of "pintz_density_2023")) :: pintz_loop n (k + 1)
  end.
Definition add_zero_density_pintz_2023 : list entry :=
  [mkEntry (s_of "3/(24 * x - 20)") (23#24) (39#40) true false (get (s_of "pintz_density_2023"));
   mkEntry (s_of "2/(15 * x - 12)") (39#40) (41#42) true false (get (s_of "pintz_density_2023"));
   mkEntry (s_of "3/(40 * x - 35)") (41#42) (59#60) true false (get (s_of "pintz_density_2023"))] ++
  pintz_loop 94 6.

(** Lines 1349-1357 *)
Definition add_zero_density_chen_debruyne_vindas_2024 : list entry :=
  [mkEntry (s_of "24 / (30 * x - 11)") (279#314) (17#18) true false (get (s_of "chen_debruyne_vindas_density_2024"))].
(** Lines 1359-1364 *)
Definition add_zero_density_guth_maynard_2024 : list entry :=
  [mkEntry (s_of "15 / (3 + 5 * x)") (1#2) (1) true false (get (s_of "guth-maynard"))].

(** The whole file, in order. *)
Definition zero_density_table : list entry :=
  add_zero_density_carlson_1921 ++ add_zero_density_ingham_1940 ++ add_zero_density_montgomery_1971 ++ add_zero_density_huxley_1972 ++ huxley_1973_1975 ++ add_zero_density_heathbrown_1979 ++ ivic_1979 ++ add_zero_density_ivic_1980 ++ jutila_1982_ivic_1984 ++ add_zero_density_ivic_1984 ++
  conrey_1989 ++ add_zero_density_bourgain_1995 ++ add_zero_density_bourgain_2000 ++ ford_2002 ++ add_zero_density_bourgain_2002 ++ heathbrown_2017 ++ add_zero_density_pintz_2023 ++
  add_zero_density_chen_debruyne_vindas_2024 ++ add_zero_density_guth_maynard_2024.
(** The set of hypotheses with the table added to it. *)
Definition add_entry (hs : list znode) (e : entry) : list znode :=
  add_zero_density hs (x_text e) (mkV (Q2R (x_lo e)) (Q2R (x_hi e)) (x_ilo e) (x_ihi e)) (x_ref e) [].
Definition add_zero_densities (hs : list znode) : list znode := fold_left add_entry zero_density_table hs.

(** Lines 1369-1392 *)
Definition add_zero_density_energy_heath_brown_1979 : list anode :=
  let ref := get (s_of "heath_brown_consecutive_II") in
  [literature_zero_density_energy_estimate (s_of "(10 - 11 * x) / ((2 - x) * (1 - x))") (mkV (Q2R (1#2)) (Q2R (2#3)) true true) ref [];
   literature_zero_density_energy_estimate (s_of "(18 - 19 * x) / ((4 - 2 * x) * (1 - x))") (mkV (Q2R (2#3)) (Q2R (3#4)) true true) ref [];
   literature_zero_density_energy_estimate (s_of "12 / (4 * x - 1)") (mkV (Q2R (3#4)) (Q2R 1) true true) ref []].
End Table.
