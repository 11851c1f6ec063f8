(** Theorems about the search for proofs of exponent pairs (C47, C48). *)
From Verif Require Import Base Model_Text Model_Reference Spec_Reference Proof_Reference
  Model_Interval Spec_Interval Model_Affine Spec_Affine Model_Polytope Spec_Polytope Proof_Polytope Prop_Polytope
  Model_Hull Spec_Hull Proof_Hull
  Model_ExponentPair Spec_ExponentPair Proof_ExponentPair Proof_ExpSearch Proof_ExpLit Proof_ExpDual
  FM_Ext Spec_ExpProof Proof_ExpProof Prop_ExpDual.
Open Scope list_scope.

(** The answer "no proof" is given only outside the convex hull of the pairs of the
    set.  Otherwise the result is exactly the requested pair, and it lies in that hull.
    It is either a member of the set, or a new hypothesis with this pair as its data
    which depends on pairs of the set only. *)
Theorem construct_proof_exact : forall ch E k l hs reduce deep r, hull_spec ch -> ext_ok E ->
  construct_proof ch E k l hs reduce deep = Ret r ->
  match r with
  | None => ~ hull2 (node_keys hs) (k, l)
  | Some h => is_pair h = true /\ pt_eq (key_of h) (k, l) /\ hull2 (node_keys hs) (k, l) /\
      (In h hs \/
       (~ (exists g, In g hs /\ is_pair g = true /\ pt_eq (key_of g) (k, l)) /\ n_data h = DPair k l /\
        forall d, In d (n_deps h) -> In d hs /\ is_pair d = true))
  end.
Proof.
  intros ch E k l hs reduce deep r Hch OK H. pose proof (construct_cases ch Hch E OK k l hs reduce deep r H) as C.
  destruct r as [h|]; [|exact C]. destruct C as (P & K & Hh & [I|(N & D & F & _)]); auto 7.
Qed.
Print Assumptions construct_proof_exact.

(** A new hypothesis is a convex combination of its recorded dependencies, and when
    these are reduced they are three pairs of smallest total complexity among the
    vertices of the hull. *)
Theorem construct_proof_dependencies : forall ch E k l hs reduce h, hull_spec ch -> ext_ok E ->
  construct_proof ch E k l hs reduce false = Ret (Some h) -> ~ In h hs ->
  hull2 (node_keys (n_deps h)) (k, l) /\
  (reduce = true -> exists a b c vs, n_deps h = [a; b; c] /\ compute_convex_hull ch hs = Ret vs /\ in_order vs a b c /\
     in_conv3 (key_of a) (key_of b) (key_of c) (k, l) /\
     forall x y z, in_order vs x y z -> in_conv3 (key_of x) (key_of y) (key_of z) (k, l) ->
       (complexity a + complexity b + complexity c <= complexity x + complexity y + complexity z)%nat).
Proof.
  intros ch E k l hs reduce h Hch OK H N. destruct (construct_cases ch Hch E OK k l hs reduce false (Some h) H) as (P & K & Hh & [I|C]); [contradiction|].
  destruct C as (_ & _ & F & C). destruct reduce.
  - destruct C as (a & b & c & vs & D & O & V & T & M). destruct (hull_tri_sound ch Hch hs vs a b c (k, l) V O T) as [_ C3]. split.
    + rewrite D in *. pose proof (F a ltac:(cbn; auto)) as [_ Pa]. pose proof (F b ltac:(cbn; auto)) as [_ Pb]. pose proof (F c ltac:(cbn; auto)) as [_ Pc].
      eapply hull2_sub; [|exact (conv3_hull _ _ _ _ C3)]. intros q [-> |[-> | ->]]; (eapply hull2_in; [|split; reflexivity]); [exists a|exists b|exists c]; cbn; auto 6.
    + intros _. exists a, b, c, vs. split; [auto|]. split; [auto|]. split; [auto|]. split; [auto|]. intros x y z O' T'. apply M; [auto|].
      exact (hull_conv_tri ch Hch hs vs x y z (k, l) V O' T').
  - split; [exact C|discriminate].
Qed.
Print Assumptions construct_proof_dependencies.

(** With dates that can be compared and pairs that are not all on one line, the
    search over the hull vertices never fails with an error. *)
Theorem construct_proof_total : forall ch E k l hs reduce, hull_spec ch -> ext_ok E -> Forall proper_node hs ->
  ~ collinear (map key_of (filter is_pair hs)) ->
  (hull2 (node_keys hs) (k, l) /\ exists h, construct_proof ch E k l hs reduce false = Ret (Some h)) \/
  (~ hull2 (node_keys hs) (k, l) /\ construct_proof ch E k l hs reduce false = Ret None).
Proof.
  intros ch E k l hs reduce Hch OK Fp NC. destruct (construct_total ch Hch E OK k l hs reduce Fp NC) as [r H].
  pose proof (construct_cases ch Hch E OK k l hs reduce false r H) as C. destruct r as [h|]; [left|right; auto].
  split; [apply C|eauto].
Qed.
Print Assumptions construct_proof_total.

(** The pair returned is true if the members of the set are. *)
Theorem construct_proof_sound : forall ch E tr btr W k l hs reduce deep h, hull_spec ch -> ext_ok E -> admissible W ->
  Forall (holds tr btr W) hs -> construct_proof ch E k l hs reduce deep = Ret (Some h) -> holds tr btr W h.
Proof. intros ch E tr btr W k l hs reduce deep h Hch OK. exact (construct_true ch Hch E OK tr btr W k l hs reduce deep h). Qed.
Print Assumptions construct_proof_sound.

(** Whatever the method and the order in which sets are traversed: a proof that is
    found is a proof of the requested pair, and the pair is true if the hypotheses
    of the set are (bounds on beta under the guard of their conversion). *)
Theorem find_best_proof_sound : forall ch E tr btr ord W k l hs m h, hull_spec ch -> ext_ok E -> traversal ord -> admissible W ->
  beta_safe hs -> Forall (holds tr btr W) hs -> find_best_proof ch tr E ord k l hs m = Ret (Some h) ->
  is_pair h = true /\ pt_eq (key_of h) (k, l) /\ holds tr btr W h.
Proof. intros ch E tr btr ord W k l hs m h Hch OK Ho. exact (find_true ch Hch E OK tr ord Ho btr W k l hs m h). Qed.
Print Assumptions find_best_proof_sound.

(** The oldest proof: it is found in the set known in some year, and for every
    earlier year (in which something dated is known) the pair is out of reach; if
    nothing is found then it is out of reach in all years. *)
Theorem find_best_proof_earliest : forall ch E tr ord k l hs r, hull_spec ch -> ext_ok E ->
  (forall l, NoDup l -> List.length (ord l) = List.length l) -> NoDup hs ->
  find_best_proof ch tr E ord k l hs MDate = Ret r ->
  match r with
  | Some h => exists y S, known_set ch tr ord hs y S /\ construct_proof ch E k l S true false = Ret (Some h) /\
                forall y' x z, In x hs -> r_year (n_ref x) = VInt z -> (z <= y')%Z -> (y' < y)%Z -> out_of_reach ch tr ord hs y' k l
  | None => forall y' x z, In x hs -> r_year (n_ref x) = VInt z -> (z <= y')%Z -> out_of_reach ch tr ord hs y' k l
  end.
Proof. intros ch E tr ord k l hs r Hch OK Hl. exact (find_date ch Hch E OK tr ord Hl k l hs r). Qed.
Print Assumptions find_best_proof_earliest.

Theorem known_set_known : forall ch tr ord hs y S, traversal ord -> known_set ch tr ord hs y S ->
  forall x, In x S -> (In x hs /\ known_in y x) \/
    exists n, (exists sub, Forall (known_in y) sub /\ incl sub hs /\
      (beta_bounds_to_exponent_pairs ch tr sub = Ret n \/
       exists n1, beta_bounds_to_exponent_pairs ch tr sub = Ret n1 /\ compute_exp_pairs ch tr (ord (sub ++ n1)) 5 true = Ret n)) /\ In x n.
Proof.
  intros ch tr ord hs y S Ho (n1 & n2 & E1 & E2 & ->) x I. set (kn := ord (filter (known_b y) hs)) in *.
  assert (Kn : forall z, In z kn -> In z hs /\ known_in y z).
  { intros z Iz. apply (proj1 (Ho _ _)) in Iz. apply filter_In in Iz as [Iz K]. split; [auto|]. now apply known_b_spec. }
  assert (F : Forall (known_in y) kn /\ incl kn hs).
  { split; [apply Forall_forall|]; intros z Iz; now apply Kn in Iz. }
  apply (proj1 (Ho _ _)) in I. apply in_app_iff in I as [I|I].
  - apply (proj1 (Ho _ _)) in I. apply in_app_iff in I as [I|I]; [left; apply Kn; auto|].
    right. exists n1. split; [|auto]. exists kn. destruct F. auto.
  - right. exists n2. split; [|auto]. exists kn. destruct F. split; [auto|]. split; [auto|]. right. exists n1. auto.
Qed.
Print Assumptions known_set_known.

(** ** Claims that fail *)
Definition npair (k l : Q) : hnode := HNode [] (DPair k l) ref_trivial [].

(** A set holds each object once.  In the examples below two nodes are the same
    object when they carry the same data and their proofs have the same size. *)
Definition same_obj (a b : hnode) : bool :=
  (complexity a =? complexity b)%nat &&
  match n_data a, n_data b with
  | DPair k l, DPair k' l' => pt_eqb (k, l) (k', l')
  | DTrans t, DTrans t' => (t =? t')%nat
  | _, _ => false
  end.
Fixpoint as_set (l : list hnode) : list hnode :=
  match l with [] => [] | h :: l' => h :: filter (fun x => negb (same_obj h x)) (as_set l') end.

(** Two pairs of the set have the requested one between them, and yet the search
    stops with a TypeError instead of a proof. *)
Theorem construct_proof_two_pairs_refuted : exists hs, Forall proper_node hs /\
  hull2 (node_keys hs) (1#4, 3#4) /\ construct_proof wrap_hull fm_ext (1#4) (3#4) hs true false = Raise TypeError.
Proof.
  exists [npair 0 1; npair (1#2) (1#2)]. split; [repeat (constructor; [left; exact Logic.I|]); constructor|]. split; [|vm_compute; reflexivity].
  apply (hull2_mix _ (0, 1) (1#2, 1#2) (1#2)); try lra.
  - apply (hull2_in _ (0, 1)); [|split; reflexivity]. eexists. split; [left; reflexivity|]. split; reflexivity.
  - apply (hull2_in _ (1#2, 1#2)); [|split; reflexivity]. eexists. split; [right; left; reflexivity|]. split; reflexivity.
  - split; cbn; lra.
Qed.
Print Assumptions construct_proof_two_pairs_refuted.

(** The deep search tests triangles in one orientation only: whether a proof is
    found depends on the order in which the set is traversed. *)
Theorem construct_proof_order_refuted : exists hs1 hs2, (forall h, In h hs1 <-> In h hs2) /\ Forall proper_node hs1 /\
  construct_proof wrap_hull fm_ext (1#5) (7#10) hs1 true true = Raise TypeError /\
  exists h, construct_proof wrap_hull fm_ext (1#5) (7#10) hs2 true true = Ret (Some h) /\ pt_eq (key_of h) (1#5, 7#10).
Proof.
  exists [npair 0 1; npair (1#2) (1#2); npair (1#6) (2#3)], [npair 0 1; npair (1#6) (2#3); npair (1#2) (1#2)].
  split; [intro h; cbn; tauto|]. split; [repeat (constructor; [left; exact Logic.I|]); constructor|]. split; [vm_compute; reflexivity|].
  eexists. split; [vm_compute; reflexivity|]. split; reflexivity.
Qed.
Print Assumptions construct_proof_order_refuted.

(** The deep search accepts three pairs on one line as a triangle that contains
    every point of the line.  The recorded dependencies need not imply the pair:
    here they are all true in a world where the pair is false. *)
Theorem construct_proof_deep_dependencies_refuted : exists hs h W, admissible W /\ Forall proper_node hs /\
  construct_proof wrap_hull fm_ext (1#5) (3#5) hs true true = Ret (Some h) /\
  Forall (holds (lit_trans ref_trivial) (fun _ _ => Ret []) W) (n_deps h) /\ ~ holds (lit_trans ref_trivial) (fun _ _ => Ret []) W h /\
  ~ hull2 (node_keys (n_deps h)) (1#5, 3#5).
Proof.
  set (g := fun a => qmin a ((1#6) + (1#2) * a)).
  assert (Pg : forall x y, x == y -> g x == g y).
  { intros x y Q. unfold g, qmin. destruct (Qltb_spec ((1#6) + (1#2) * x) x), (Qltb_spec ((1#6) + (1#2) * y) y); lra. }
  exists [npair 0 1; npair (1#12) (5#6); npair (1#6) (2#3); npair (1#4) (1#2); npair (1#2) (1#2)]. eexists. exists (world_of g).
  split; [exact (world_of_admissible g Pg)|]. split; [repeat (constructor; [left; exact Logic.I|]); constructor|].
  split; [vm_compute; reflexivity|]. split; [|split].
  - cbn [n_deps].
    assert (X : forall k l, triangle k l -> (forall a, 0 <= a -> a <= 1#2 -> g a <= k + (l - k) * a) ->
      (forall a, 0 <= a -> a <= 1#2 -> g a <= (l - (1#2)) + ((k + (1#2)) - (l - (1#2))) * a) -> exp_pair (world_of g) k l).
    { intros k l T F1 F2. split; [auto|]. intros a A0 A1. cbn. destruct (Qleb_spec a (1#2)) as [L|L]; [auto|].
      specialize (F2 (1 - a) ltac:(lra) ltac:(lra)). lra. }
    repeat (apply Forall_cons); [..|apply Forall_nil]; apply X; try (unfold triangle; lra);
      intros a A0 A1; unfold g, qmin; destruct (Qltb_spec ((1#6) + (1#2) * a) a); lra.
  - intros [_ H]. specialize (H (1#2) ltac:(lra) ltac:(lra)). vm_compute in H. apply H. reflexivity.
  - cbn [n_deps]. intro H.
    assert (B : forall (S : pt -> Prop) p, (forall q, S q -> fst q <= 1#6) -> hull2 S p -> fst p <= 1#6).
    { intros S p B Hp. induction Hp as [q p I [Q1 _]|p q t r _ IH1 _ IH2 T0 T1 [Q1 _]].
      - rewrite Q1. auto.
      - rewrite Q1. unfold pmix; cbn [fst]. nra. }
    apply B in H; [cbn in H; lra|]. intros q (x & [<-|[<-|[<-|[]]]] & _ & ->); cbn; lra.
Qed.
Print Assumptions construct_proof_deep_dependencies_refuted.

(** With no optimisation the pairs obtained by the transforms are computed and then
    ignored: the pair (2/7,4/7) = B(1/14,11/14) is not found, although it is with the
    other method. *)
Theorem find_best_proof_none_refuted : exists hs, Forall proper_node hs /\
  find_best_proof wrap_hull (lit_trans ref_trivial) fm_ext as_set (2#7) (4#7) hs MNone = Ret None /\
  exists h, find_best_proof wrap_hull (lit_trans ref_trivial) fm_ext as_set (2#7) (4#7) hs MComplexity = Ret (Some h) /\ pt_eq (key_of h) (2#7, 4#7).
Proof.
  exists [npair 0 1; npair (1#6) (2#3); npair (1#14) (11#14); B_hyp]. split; [repeat (constructor; [left; exact Logic.I|]); constructor|].
  split; [vm_compute; reflexivity|]. eexists. split; [vm_compute; reflexivity|]. split; reflexivity.
Qed.
Print Assumptions find_best_proof_none_refuted.

(** By date: one conjecture in the set (dated infinity) and the search stops with a TypeError. *)
Theorem find_best_proof_date_conjecture_refuted : exists hs, Forall proper_node hs /\ In (npair (1#6) (2#3)) hs /\
  find_best_proof wrap_hull (lit_trans ref_trivial) fm_ext as_set (1#6) (2#3) hs MDate = Raise TypeError.
Proof.
  exists [npair (1#6) (2#3); HNode [] (DPair 0 (1#2)) ref_conjectured []].
  split; [constructor; [left; exact Logic.I|constructor; [left; exact Logic.I|constructor]]|]. split; [left; reflexivity|]. vm_compute. reflexivity.
Qed.
Print Assumptions find_best_proof_date_conjecture_refuted.

(** ** Non-vacuity *)
Definition dpair (k l : Q) (y : Z) : hnode := HNode [] (DPair k l) (mkRef lab_derived lab_derived [(key_year, VInt y)]) [].
Definition proof_hs : list hnode := [dpair 0 1 1900; dpair (1#2) (1#2) 1920; dpair (1#6) (2#3) 1930; dpair (13#84) (55#84) 2017].
Example ex_construct : exists h, construct_proof wrap_hull fm_ext (1#10) (4#5) proof_hs true false = Ret (Some h) /\
  map (fun d => (Qred (fst (key_of d)), Qred (snd (key_of d)))) (n_deps h) = [(0, 1); (13#84, 55#84); (1#2, 1#2)] /\ ~ In h proof_hs.
Proof.
  eexists. split; [vm_compute; reflexivity|]. split; [vm_compute; reflexivity|].
  intros [H|[H|[H|[H|[]]]]]; discriminate H.
Qed.
Example ex_construct_outside : construct_proof wrap_hull fm_ext (1#10) (3#5) proof_hs true false = Ret None.
Proof. vm_compute. reflexivity. Qed.
Example ex_construct_scope : Forall proper_node proof_hs /\ ~ collinear (map key_of (filter is_pair proof_hs)).
Proof.
  split; [repeat (constructor; [left; exact Logic.I|]); constructor|]. intro C.
  specialize (C (0, 1) (1#2, 1#2) (1#6, 2#3) ltac:(cbn; auto) ltac:(cbn; auto) ltac:(cbn; auto)). vm_compute in C. discriminate.
Qed.
Example ex_find_date : exists h, find_best_proof wrap_hull (lit_trans ref_trivial) fm_ext as_set (1#5) (2#3) proof_hs MDate = Ret (Some h) /\
  pt_eq (key_of h) (1#5, 2#3) /\ r_year (n_ref h) = VInt 1930.
Proof. eexists. split; [vm_compute; reflexivity|]. split; [split; reflexivity|]. reflexivity. Qed.
Example ex_beta_safe : beta_safe proof_hs /\ NoDup proof_hs.
Proof.
  split.
  - split; [repeat (constructor; [discriminate|]); constructor|]. intros sub bb b0 Sb Eb Hd. exfalso.
    assert (N : filter is_beta sub = []).
    { destruct (filter is_beta sub) as [|x r] eqn:F; [reflexivity|]. exfalso. assert (I : In x (filter is_beta sub)) by (rewrite F; left; auto).
      apply filter_In in I as [I B]. apply Sb in I. destruct I as [<-|[<-|[<-|[<-|[]]]]]; discriminate B. }
    unfold best_beta_nodes in Eb. rewrite N in Eb. vm_compute in Eb. injection Eb as <-. discriminate.
  - repeat constructor; cbn; intuition discriminate.
Qed.

(** From the trivial pair and van der Corput's transforms. *)
Example ex_find_complexity : exists h,
  find_best_proof wrap_hull (lit_trans ref_trivial) fm_ext as_set (1#6) (2#3) [npair 0 1; A_hyp; B_hyp] MComplexity = Ret (Some h) /\
  pt_eq (key_of h) (1#6, 2#3) /\ complexity h = 5%nat.
Proof. eexists. split; [vm_compute; reflexivity|]. split; [split; reflexivity|]. vm_compute. reflexivity. Qed.
