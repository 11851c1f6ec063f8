(** What the derivation of the Guth-Maynard large value theorem is meant to show. *)
From Verif Require Spec_Reference.
From Verif Require Import Base Model_Text Model_Reference LinAlg Model_Polytope Spec_Polytope Model_Region Spec_Region Model_Format Spec_Format
  Model_LargeValues Spec_LargeValues Model_AdditiveEnergy Spec_AdditiveEnergy Model_LiteratureEnergy Spec_LiteratureEnergy Model_GuthMaynard.
Open Scope list_scope.

(** The range of the theorem: blueprint, Theorem guth-maynard-lvt, with tau = 6/5: the
    bound max(2 - 2 sigma, 18/5 - 4 sigma, tau + 12/5 - 4 sigma) on rho is 18/5 - 4 sigma
    for 7/10 <= sigma <= 8/10. *)
Definition gm_theorem_bound (s t : Q) : Q := max3 (2 - 2 * s) ((18#5) - 4 * s) (t + (12#5) - 4 * s).
Definition gm_range (s r : Q) : Prop := 7#10 <= s /\ s <= 8#10 /\ 0 <= r /\ r <= gm_theorem_bound s (6#5).

(** Another assumption on the external solver: fixing a variable can leave a row of
    zeros, and putting a feasible matrix into canonical form removes it. *)
Definition drops_trivial_rows (E : ext) : Prop := forall m, wf_mat m -> (exists x, mmember m x) ->
  no_zero_rows (canonicalize E m) /\ canonical_mat (canonicalize E m).

(** What a text that has been read says of the variables named in it. *)
Definition sum_at (ts : list (Q * str)) (s t r : Q) : Q :=
  coefficient [] ts + coefficient (s_of "σ") ts * s + coefficient (s_of "τ") ts * t + coefficient (s_of "ρ") ts * r.
Definition text_says (rows : list (list (Q * str) * bool)) (s t r : Q) : Prop :=
  Forall (fun row => if (snd row : bool) then sum_at (fst row) s t r == 0 else 0 <= sum_at (fst row) s t r) rows.

(** What the bibliography gives for the paper. *)
Definition gm_reference (get : str -> reference) : Prop :=
  author_str (get (s_of "guth-maynard")) = s_of "Guth--Maynard" /\ Spec_Reference.proper_year (r_year (get (s_of "guth-maynard"))).

(** The Guth-Maynard regions have been recorded, as literature.py 1037, 1065 and 1094 do,
    and no other name speaks of them. *)
Definition gm_literature (E : ext) (get : str -> reference) (lit : list enode) : Prop :=
  exists hs h2 h3, add_lver_guth_maynard_2024a E get 4 = Ret hs /\ add_lver_guth_maynard_2024b E get = Ret h2 /\
    add_lver_guth_maynard_2024c E get = Ret h3 /\ incl (hs ++ [h2; h3]) lit /\
    forall g, In g lit -> In g (hs ++ [h2; h3]) \/ Model_Text.contains (s_of "Guth--Maynard large value energy region") (e_name g) = false.
