(** derived.py 1009-1016: the zero density estimates entered in [prove_prime_gap2]. *)
From Verif Require Import Base Model_Text Model_Reference Model_Interval Model_RationalFunction Model_DensityEstimate Model_DensityDerivation Model_PairDensity Model_LiteratureZD.
From Coq Require Import Reals Qreals.
Open Scope list_scope.
Local Open Scope Q_scope.

(** Line 1010 *)
Definition gap_reference : reference := ref_make (s_of "Tao--Trudgian--Yang") 2024.
(** Lines 1011-1013 *)
Definition gap_density_first : list entry :=
  [mkEntry (s_of "2/(9*x - 6)") (17#22) (38#49) true true gap_reference;
   mkEntry (s_of "9/(8*(2*x - 1))") (38#49) (4#5) true true gap_reference;
   mkEntry (s_of "3/(10 * x - 7)") (701#1000) 1 true true gap_reference].
(** Lines 1015-1016 *)
Definition gap_density_last : list entry :=
  [mkEntry (s_of "3/(40 * x - 35)") (39#40) (40#41) true false gap_reference;
   mkEntry (s_of "2/(13 * x - 10)") (40#41) (41#42) true false gap_reference].
(** Lines 1011-1016: three estimates, those from exponent pairs, and two more. *)
Definition add_gap_density (rf_str : rfun -> str) (roots : expr -> list R) (hs : list znode) : res (list znode) :=
  let hs1 := fold_left add_entry gap_density_first hs in
  let! bs := bourgain_ep_to_zd rf_str roots in
  Ret (fold_left add_entry gap_density_last (hs1 ++ bs)).
