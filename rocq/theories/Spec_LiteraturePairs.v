(** What the exponent pairs and the bounds on mu in the literature say: blueprint,
    chapters on exponent pairs and on the growth exponent of zeta. *)
From Verif Require Import Base Model_Text Model_Reference Model_Hull Model_ExponentPair Spec_ExponentPair Model_ZetaLargeValues.
Open Scope list_scope.
Local Open Scope Q_scope.

(** ** The exponent pairs *)
(** A pair on the line l = k + 1/2, and the pair that the m-th derivative test with
    exponent q gives: q, 1 - (m - 1) q. *)
Definition symmetric (k : Q) : pt := (k, k + (1#2)).
Definition test (q : Q) (m : Z) : pt := (q, 1 - inject_Z (m - 1) * q).
(** A row: the key of the reference and the pair. *)
Definition listed_pairs : list (string * pt) :=
  [("huxley_exponential_1988"%string, symmetric (9#56));
   ("watt_exponential_1989"%string, symmetric (89#560));
   ("huxley_exponential_1991"%string, symmetric (17#108));
   ("huxley_exponential_1993"%string, symmetric (89#570));
   ("huxley_exponential_2005"%string, symmetric (32#205));
   ("bourgain_decoupling_2017"%string, symmetric (13#84));
   ("huxley_watt_exponential_1990"%string, (2#13, 35#52));
   ("huxley_area_1996"%string, (6299#43860, 29507#43860));
   ("sargos_points_1995"%string, (771#8116, 1499#2029));
   ("sargos_points_1995"%string, (21#232, 173#232));
   ("sargos_points_1995"%string, (1959#21656, 16135#21656));
   ("huxley_exponential_2001"%string, (516247#6629696, 5080955#6629696));
   ("robert_fourth_2002"%string, test (1#13) 4);
   ("sargos_analog_2003"%string, test (1#204) 8);
   ("robert_2002"%string, test (1#360) 9);
   ("sargos_analog_2003"%string, test (7#2640) 9);
   ("sargos_analog_2003"%string, test (1#716) 10);
   ("Robert_Sargos_2001"%string, test (1#649) 10);
   ("robert_2002"%string, test (7#4540) 10);
   ("robert_2002b"%string, test (1#615) 10);
   ("robert_2002b"%string, test (1#915) 11);
   ("trudgian-yang"%string, (4742#38463, 35731#51284));
   ("trudgian-yang"%string, (18#199, 593#796));
   ("trudgian-yang"%string, (2779#38033, 58699#76066));
   ("trudgian-yang"%string, (715#10238, 7955#10238))].
(** Huxley, Table 17.3: for m >= 1 *)
Definition huxley_pair (m : Z) : pt :=
  let k := 169 / (1424 * inject_Z (2 ^ m) - 338) in (k, 1 - k * (inject_Z m + (1577#712))).
(** Heath-Brown, Theorem 2: for m >= 3 *)
Definition heath_brown_pair (m : Z) : pt :=
  let m := inject_Z m in (2 / ((m - 1) * (m - 1) * (m + 2)), 1 - (3 * m - 2) / (m * (m - 1) * (m + 2))).
Definition pair_rows (M : Z) : list (string * pt) :=
  listed_pairs ++ map (fun m => ("huxley_area_1996"%string, huxley_pair m)) (zrange 1 M) ++ map (fun m => ("heathbrown_new_2017"%string, heath_brown_pair m)) (zrange 3 M).
(** The hypothesis records the row. *)
Definition records_pair (get : str -> reference) (h : hnode) (w : string * pt) : Prop :=
  n_ref h = get (s_of (fst w)) /\ n_deps h = [] /\ n_name h = value_str (r_author (n_ref h)) ++ s_of " exponent pair" /\
  exists k l, n_data h = DPair k l /\ k == fst (snd w) /\ l == snd (snd w).

(** van der Corput's A process, as a fact about the world. *)
Definition process_A (W : zworld) : Prop := forall k l, exp_pair W k l -> exp_pair W (fst (A_map (k, l))) (snd (A_map (k, l))).
(** The four pairs that derived.py 203-206 proves. *)
Definition new_pairs : list pt :=
  [(89#1282, 997#1282); (652397#9713986, 7599781#9713986); (10769#351096, 609317#702192); (89#3478, 15327#17390)].

(** ** The bounds on mu *)
(** A reference of the database, or an author with a year. *)
Inductive source : Type := Key (k : string) | Author (a : string) (y : value).
Definition cites (get : str -> reference) (s : source) (r : reference) : Prop :=
  match s with Key k => r = get (s_of k) | Author a y => r_author r = VStr (s_of a) /\ r_year r = y /\ r_is_literature r = true end.
Definition critical : Q := 1#2.
Definition listed_mu : list (source * (Q * Q)) :=
  [(Key "hardy_littlewood_1923", (critical, 1#6));
   (Key "walfisz_1924", (critical, 193#988));
   (Key "titchmarsh_van_1931", (critical, 27#164));
   (Key "phillips_zeta_1933", (critical, 229#1392));
   (Key "titchmarsh_order_1942", (critical, 19#116));
   (Key "min_on_1949", (critical, 15#92));
   (Key "haneke_verscharfung_1963", (critical, 6#37));
   (Author "Kolesnik" (VInt 1973), (critical, 173#1067));
   (Key "kolesnik_order_1982", (critical, 35#216));
   (Author "Kolesnik" (VInt 1985), (critical, 139#858));
   (Key "bombieri_order_1986", (critical, 9#56));
   (Key "watt_exponential_1989", (critical, 89#560));
   (Key "huxley_exponential_1991", (critical, 17#108));
   (Key "huxley_exponential_1993", (critical, 89#570));
   (Key "huxley_exponential_2005", (critical, 32#205));
   (Key "bourgain_decoupling_2017", (critical, 13#84));
   (Key "huxley_area_1996", (1934#3655, 6299#43860));
   (Key "sargos_analog_2003", (49#51, 1#204));
   (Key "sargos_analog_2003", (361#370, 1#370));
   (Key "Lelechenko_linear_2014", (3#5, 1409#12170));
   (Key "Lelechenko_linear_2014", (4#5, 3#71));
   (Key "demeter_small_2020", (11#15, 1#15))].
(** The bound that the n-th van der Corput pair gives at l - k, and the bound of Hardy and
    Littlewood at 1 - 1/2^(n-1). *)
Definition vdc_mu (n : Z) : Q * Q := let d := inject_Z (2 ^ n) - 2 in (1 - inject_Z n / d, 1 / d).
Definition hl_mu (n : Z) : Q * Q := let d := inject_Z (2 ^ (n - 1)) in (1 - 1 / d, 1 / (inject_Z (n + 1) * d)).
Definition mu_rows (M : Z) : list (source * (Q * Q)) :=
  listed_mu ++ map (fun n => (Author "van der Corput" (VInt 1920), vdc_mu n)) (zrange 4 M)
    ++ map (fun n => (Author "Hardy--Littlewood" unknown_date, hl_mu n)) (zrange 4 M).
Definition records_mu (get : str -> reference) (h : hnode) (w : source * (Q * Q)) : Prop :=
  cites get (fst w) (n_ref h) /\ n_deps h = [] /\
  exists s m, n_data h = DMu s m /\ s == fst (snd w) /\ m == snd (snd w) /\
    n_name h = value_str (r_author (n_ref h)) ++ s_of " bound on \mu(" ++ q_str s ++ s_of ")".

(** ** Selection by year *)
(** The reference is a published one with a year not after [y]. *)
Definition known_by (y : Z) (h : hnode) : Prop := exists n, r_year (n_ref h) = VInt n /\ (n <= y)%Z.
(** References to the literature: with a number as the year, or of unknown date. *)
Definition dated (r : reference) : Prop := r_is_literature r = true /\ (r_year r = unknown_date \/ exists n, r_year r = VInt n).

(** ** A world in which all this holds: the Lindelof hypothesis *)
Definition lindelof_world : zworld :=
  Spec_ExponentPair.mkZ (fun a v => (a <= 1 -> a * (1#2) <= v) /\ (1 < a -> a - 1 <= v)) (fun s v => 0 <= v /\ (1#2) - s <= v).
