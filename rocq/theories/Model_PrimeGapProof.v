(** derived.py 1018-1025: the additive energy bounds entered in [prove_prime_gap2]. *)
From Verif Require Import Base Model_Text Model_Reference Model_Interval Model_RationalFunction Model_DensityEstimate Model_DensityEnergy.
From Coq Require Import Reals Qreals.
Open Scope list_scope.
Local Open Scope Q_scope.

(** The floats that Python reads for 0.7255782330963900973348270455 and for
    0.7929182893891673924914902646. *)
Definition switch_1 : Q := 6535427720402091#9007199254740992.
Definition switch_2 : Q := 7141973025256611#9007199254740992.
(** Lines 1019-1025; [Interval] leaves out the upper end (functions.py 28). *)
Definition gap_energy (ref : reference) : list anode :=
  [literature_zero_density_energy_estimate (s_of "5 * (18 - 19 * x) / ((2 * (5 * x + 3)) * (1 - x))") (mkV (Q2R (7#10)) (Q2R switch_1) true false) ref [];
   literature_zero_density_energy_estimate (s_of "2 * (45 - 44 * x) / ((2 * x + 15) * (1 - x))") (mkV (Q2R switch_1) (Q2R (3#4)) true false) ref [];
   literature_zero_density_energy_estimate (s_of "(197 - 220 * x) / (8 * (5 * x - 1) * (1 - x))") (mkV (Q2R (3#4)) (Q2R (289#380)) true false) ref [];
   literature_zero_density_energy_estimate (s_of "3 * (29 - 30 * x) / (5 * (5 * x - 1) * (1 - x))") (mkV (Q2R (289#380)) (Q2R switch_2) true false) ref [];
   literature_zero_density_energy_estimate (s_of "(40 - 36 * x) / ((20 * x - 5) * (1 - x))") (mkV (Q2R switch_2) (Q2R (5#6)) true false) ref []].
