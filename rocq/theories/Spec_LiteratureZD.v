(** What the zero density estimates in the literature say: blueprint, chapter on zero
    density theorems. *)
From Verif Require Import Base Model_Text Model_Reference Model_Interval Model_ExponentPair Spec_ExponentPair Model_LargeValues Spec_LargeValues
  Model_AdditiveEnergy Spec_AdditiveEnergy Model_RationalFunction Spec_RationalFunction Model_DensityEstimate Spec_DensityEstimate
  Model_DensityEnergy Spec_DensityEnergy Model_Formula Spec_Formula Spec_PairDensity.
From Coq Require Import Reals Qreals.
Open Scope list_scope.
Local Open Scope Q_scope.

(** ** The bounds *)
Definition ratio (n p q x : R) : R := (n / (p * x + q))%R.
Definition root (c x : R) : R := (c * sqrt (1 - x))%R.
(** N(sigma, T) << T^(1 - theta (2 sigma - 1)) *)
Definition selberg (theta x : R) : R := ((1 - theta * (2 * x - 1)) / (1 - x))%R.
Definition pintz_first (l : Z) (x : R) : R := (3 / (IZR l * (1 - 2 * (IZR l - 1) * (1 - x))))%R.
Definition pintz_second (k : Z) (x : R) : R := (4 / (IZR k * (1 - (IZR k - 1) * (1 - x))))%R.

(** The text stands for the value [v] at [x]: as a formula, or as a multiple of
    the square root. *)
Definition says (t : str) (x v : R) : Prop :=
  (exists e, formula_text t e /\ means e x v) \/
  (exists c w, spells (TNum c) w /\ t = w ++ s_of " * (1 - x) ** (1/2)" /\ v = root (Q2R c) x).

(** ** Published results *)
(** A(s) <= f(s) for a <= s <= b. *)
Definition bound_on (W : dworld) (f : R -> R) (a b : Q) : Prop := forall s, 1#2 < s -> s < 1 -> a <= s -> s <= b -> zd W s (f (Q2R s)).
(** Lemma "Basic properties of A"; a trivial bound; the trivial exponent pair. *)
Record zd_basic (W : dworld) : Prop := {
  zb_mono : forall s v w, (v <= w)%R -> zd W s v -> zd W s w;
  zb_closed : forall s v, (forall w, (v < w)%R -> zd W s w) -> zd W s v;
  zb_decreasing : forall s s' v, 1#2 < s -> s <= s' -> s' < 1 -> zd W s v -> zd W s' (v * (1 - Q2R s) / (1 - Q2R s'))%R;
  zb_left : forall s v w, 1#2 < s -> s < 1 -> zd W s v -> (v < w)%R -> exists s', 1#2 < s' /\ s' < s /\ zd W s' (w * (1 - Q2R s) / (1 - Q2R s'))%R;
  zb_trivial : bound_on W (fun x => 1 / (1 - x))%R (1#2) 1;
  zb_pair : exp_pair (pairs_of W) 0 1 }.
(** Up to 1980.  The rows of 1973 that the blueprint gives with an empty range are left
    out. *)
Record published_1980 (W : dworld) : Prop := {
  pb_basic : zd_basic W;
  pb_carlson : bound_on W (fun x => 4 * x)%R (1#2) 1;
  pb_ingham : bound_on W (ratio 3 (-1) 2) (1#2) 1;
  pb_montgomery : bound_on W (fun _ => 35 / 36)%R (152#155) 1 /\ bound_on W (root 1600) (152#155) 1;
  pb_huxley_1972 : bound_on W (ratio 3 3 (-1)) (1#2) 1;
  pb_huxley_1973 : bound_on W (ratio 39 115 (-75)) (55#67) (189#230);
  pb_huxley_1975 : bound_on W (ratio 3 2 0) (37#42) 1 /\ bound_on W (ratio 48 74 (-37)) (61#74) (37#42) /\ bound_on W (fun _ => 2%R) (80119#100000) 1;
  pb_huxley_1975b : bound_on W (fun _ => 2%R) (4#5) 1;
  pb_jutila_1977 : bound_on W (fun _ => 2%R) (11#14) 1;
  pb_heathbrown_1979 : bound_on W (ratio 9 7 (-1)) (11#14) 1 /\ bound_on W (fun x => Rmax (ratio 3 10 (-7) x) (ratio 4 4 (-1) x)) (3#4) 1;
  pb_ivic_1979 : bound_on W (ratio 6 5 (-1)) (67#87) 1 /\ bound_on W (ratio 3 34 (-25)) (28#37) (74#95) /\ bound_on W (ratio 9 7 (-1)) (74#95) 1 /\
    bound_on W (ratio 3 2 0) (4#5) 1 /\ bound_on W (ratio 68 98 (-47)) (115#166) 1;
  pb_ivic_1980 : bound_on W (ratio 3 2 0) (3831#4791) 1 /\ bound_on W (ratio 9 7 (-1)) (41#53) 1 /\ bound_on W (ratio 6 5 (-1)) (13#17) 1 /\
    bound_on W (ratio 4 2 1) (17#18) 1 /\ bound_on W (ratio 24 30 (-11)) (155#174) (17#18) }.
(** Theorem "Pintz zero density theorem" *)
Definition pintz_theorem (W : dworld) : Prop :=
  forall (k l : Z) s, (4 <= k)%Z -> (3 <= l)%Z -> 1#2 < s -> s < 1 ->
    1 / inject_Z (k * (k + 1)) <= 1 - s -> 1 - s < 1 / inject_Z (k * (k - 1)) ->
    1 / inject_Z (2 * l * (l + 1)) <= 1 - s -> 1 - s < 1 / inject_Z (2 * l * (l - 1)) ->
    zd W s (Rmax (pintz_first l (Q2R s)) (pintz_second k (Q2R s))).
Record published (W : dworld) : Prop := {
  pb_1980 : published_1980 W;
  pb_jutila_1983 : forall t, (0 < t < 1 / 2)%R -> bound_on W (selberg t) (1#2) 1;
  pb_ivic_1983 : bound_on W (ratio 3 7 (-4)) (3#4) (10#13) /\ bound_on W (ratio 9 8 (-2)) (10#13) 1 /\ bound_on W (ratio 15 22 (-10)) (10#13) (5#6);
  pb_ivic_general : ivic_theorem W;
  pb_conrey : forall t, (0 < t < 4 / 7)%R -> bound_on W (selberg t) (1#2) 1;
  pb_bourgain_1995 : bound_on W (ratio 4 30 (-25)) (15#16) 1 /\ bound_on W (ratio 2 7 (-5)) (17#19) (15#16);
  pb_bourgain_2000 : forall s, 25#32 < s -> s < 1 -> zd W s 2;
  pb_bourgain_improved : bound_on W (fun x => Rmax (ratio 2 9 (-6) x) (ratio 9 16 (-8) x)) (17#22) (4#5);
  pb_ford : bound_on W (root (5805 / 100)) (1#2) 1;
  pb_bourgain_2002 : bound_on W (ratio 3 2 0) (3734#4694) 1;
  pb_heathbrown_2017 : bound_on W (root (642 / 100)) (9#10) 1;
  pb_pintz : pintz_theorem W;
  pb_chen : bound_on W (ratio 24 30 (-11)) (279#314) (17#18);
  pb_guth_maynard : bound_on W (ratio 15 5 3) (1#2) 1 }.

(** ** The table *)
(** [r_left] marks the rows whose left end no published result covers. *)
Record row : Type := mkRow { r_value : R -> R; r_lo : Q; r_hi : Q; r_left : bool; r_end : bool; r_source : reference }.
Definition in_row (r : row) (x : R) : Prop := (Q2R (r_lo r) <= x)%R /\ (if r_end r then (x <= Q2R (r_hi r))%R else (x < Q2R (r_hi r))%R).
Definition from_to (a n : nat) : list Z := map Z.of_nat (seq a n).
Section Rows.
Variable get : str -> reference.
Definition rows : list row :=
  [mkRow (fun x => 4 * x)%R (1#2) (1) false false (get (s_of "carlson_uber_1921"));
   mkRow (ratio 3 (-1) 2)%R (1#2) (1) false false (get (s_of "ingham_estimation_1940"));
   mkRow (root 1600)%R (1#2) (1) false false (ref_make (s_of "Montgomery") 1971);
   mkRow (ratio 3 3 (-1))%R (1#2) (1) false false (get (s_of "Huxley"));
   mkRow (ratio 39 115 (-75))%R (55#67) (189#230) false false (get (s_of "huxley_large_1973"));
   mkRow (fun _ => 2)%R (189#230) (75#89) false false (get (s_of "huxley_large_1973"));
   mkRow (ratio 48 74 (-37))%R (61#74) (75#89) false false (get (s_of "huxley_large_1973"));
   mkRow (ratio 3 2 0)%R (37#42) (1) false false (get (s_of "huxley_large_1975a"));
   mkRow (ratio 48 74 (-37))%R (61#74) (37#42) false false (get (s_of "huxley_large_1975a"));
   mkRow (fun _ => 2)%R (80119#100000) (1) false false (get (s_of "huxley_large_1975a"));
   mkRow (fun _ => 2)%R (4#5) (1) false false (get (s_of "huxley_large_1975b"));
   mkRow (ratio 4 4 (-1))%R (25#28) (1) false true (get (s_of "heathbrown_zero_1979"));
   mkRow (ratio 3 10 (-7))%R (3#4) (25#28) false false (get (s_of "heathbrown_zero_1979"));
   mkRow (ratio 9 7 (-1))%R (11#14) (1) false false (get (s_of "heathbrown_zero_1979"));
   mkRow (ratio 6 5 (-1))%R (67#87) (1) false false (get (s_of "ivic_note_1979"));
   mkRow (ratio 3 34 (-25))%R (28#37) (74#95) false false (get (s_of "ivic_note_1979"));
   mkRow (ratio 9 7 (-1))%R (74#95) (1) false false (get (s_of "ivic_note_1979"));
   mkRow (ratio 3 2 0)%R (4#5) (1) false false (get (s_of "ivic_note_1979"));
   mkRow (ratio 68 98 (-47))%R (115#166) (1) false false (get (s_of "ivic_note_1979"));
   mkRow (ratio 3 2 0)%R (3831#4791) (1) false false (ref_make (s_of "Ivic") 1980);
   mkRow (fun _ => 2)%R (11#14) (1) false false (ref_make (s_of "Ivic") 1980);
   mkRow (ratio 9 7 (-1))%R (41#53) (1) false false (ref_make (s_of "Ivic") 1980);
   mkRow (ratio 6 5 (-1))%R (13#17) (1) false false (ref_make (s_of "Ivic") 1980);
   mkRow (ratio 4 2 1)%R (17#18) (1) false false (ref_make (s_of "Ivic") 1980);
   mkRow (ratio 24 30 (-11))%R (155#174) (1) false false (ref_make (s_of "Ivic") 1980);
   mkRow (selberg (1/2))%R (155#174) (1) false false (get (s_of "jutila_zeroes_1983"));
   mkRow (ratio 3 7 (-4))%R (3#4) (10#13) false false (get (s_of "ivic_zero_1984"));
   mkRow (ratio 9 8 (-2))%R (10#13) (1) false false (get (s_of "ivic_zero_1984"));
   mkRow (ratio 15 22 (-10))%R (10#13) (5#6) false false (ref_make (s_of "Ivic") 1984)] ++
  map (fun k => mkRow (ivic_value k) (inject_Z (6 * k * k - 5 * k + 2) / inject_Z (8 * k * k - 7 * k + 2)) 1 false false (get (s_of "ivic"))) (from_to 3 97) ++
  [mkRow (selberg (4/7))%R (1#2) (1) false false (get (s_of "conrey_at_1989"));
   mkRow (ratio 4 30 (-25))%R (15#16) (1) false false (get (s_of "bourgain_remarks_1995"));
   mkRow (ratio 2 7 (-5))%R (17#19) (1) false false (get (s_of "bourgain_remarks_1995"));
   mkRow (fun _ => 2)%R (25#32) (1) false false (get (s_of "bourgain_large_2000"));
   mkRow (root (5805/100))%R (1#2) (1) false false (get (s_of "FordZeta"));
   mkRow (ratio 3 2 0)%R (3734#4694) (1) false false (ref_make (s_of "Bourgain") 2002);
   mkRow (root (642/100))%R (9#10) (1) false false (get (s_of "heathbrown_new_2017"));
   mkRow (ratio 3 24 (-20))%R (23#24) (39#40) true false (get (s_of "pintz_density_2023"));
   mkRow (ratio 2 15 (-12))%R (39#40) (41#42) true false (get (s_of "pintz_density_2023"));
   mkRow (ratio 3 40 (-35))%R (41#42) (59#60) true false (get (s_of "pintz_density_2023"))] ++
  map (fun k => mkRow (pintz_first k) (1 - 1 / inject_Z (2 * k * (k - 1))) (1 - 1 / inject_Z (2 * k * (k + 1))) true false (get (s_of "pintz_density_2023"))) (from_to 6 17) ++
  [mkRow (ratio 24 30 (-11))%R (279#314) (17#18) false false (get (s_of "chen_debruyne_vindas_density_2024"));
   mkRow (ratio 15 5 3)%R (1#2) (1) false false (get (s_of "guth-maynard"))].
End Rows.

(** The hypothesis states the bound of the row on its range, with its source. *)
Definition records (h : znode) (r : row) : Prop :=
  exists name t i proof, h = ZNode name (Zero_Density_Estimate t i) proof (r_source r) [] /\
    lo i = Q2R (r_lo r) /\ hi i = Q2R (r_hi r) /\ ilo i = true /\ ihi i = r_end r /\
    forall x, in_row r x -> forall v, says t x v <-> v = r_value r x.
(** The bound of the row holds on its range, without the left end if that is marked. *)
Definition row_true (W : dworld) (r : row) : Prop :=
  forall s, 1#2 < s -> s < 1 -> in_row r (Q2R s) -> (r_left r = true -> r_lo r < s) -> zd W s (r_value r (Q2R s)).

(** A(s) (1 - s) = c up to s0, and A(s) = 0 beyond. *)
Definition step_world (s0 : Q) (c : R) : dworld :=
  mkDW (ener best_world) (fun s v => (0 <= v /\ ((s <= s0)%Q -> c <= v * (1 - Q2R s)))%R).

(** Theorem "Heath-Brown's additive energy bound" *)
Definition heath_brown_energy (W : aworld) : Prop :=
  forall s, 1#2 < s -> s < 1 -> let x := Q2R s in
    ((s <= 2#3)%Q -> ze W s ((10 - 11 * x) / ((2 - x) * (1 - x))))%R /\
    ((2#3 <= s)%Q -> (s <= 3#4)%Q -> ze W s ((18 - 19 * x) / ((4 - 2 * x) * (1 - x))))%R /\
    ((3#4 <= s)%Q -> ze W s (12 / (4 * x - 1)))%R.
