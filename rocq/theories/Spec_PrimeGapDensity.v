(** C75: what the zero density estimates entered for the prime gap computation say. *)
From Verif Require Import Base Model_Text Model_Reference Model_Interval Spec_LiteratureZD Spec_DensityEstimate.
From Coq Require Import Reals Qreals.
Open Scope list_scope.
Local Open Scope Q_scope.

(** Blueprint, table of zero density theorems *)
Definition gap_rows_first (r : reference) : list row :=
  [mkRow (ratio 2 9 (-6)) (17#22) (38#49) false true r; mkRow (fun x => 9 / (8 * (2 * x - 1)))%R (38#49) (4#5) false true r; mkRow (ratio 3 10 (-7)) (701#1000) 1 false true r].
Definition gap_rows_last (r : reference) : list row :=
  [mkRow (ratio 3 40 (-35)) (39#40) (40#41) false false r; mkRow (ratio 2 13 (-10)) (40#41) (41#42) false false r].
