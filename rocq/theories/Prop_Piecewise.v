(** Property C45: piecewise affine functions on polytopes.  A piecewise function
    is read as the relation [takes] between points and values.  Every theorem
    holds for every solver meeting the contract [ext_ok]. *)
From Verif Require Import Base LinAlg FM Hull Model_Polytope Spec_Polytope FM_Ext Prop_Polytope Proof_Polytope Proof_PolytopeMaps Proof_PolytopeLP Model_Piecewise Spec_Piecewise Proof_Piecewise Proof_PiecewiseSimplify.

(** ** Evaluation *)

(** [at] returns a value the function takes at the point, and None exactly
    where no piece is defined. *)
Theorem piecewise_at : forall d ps x, Forall (proper_piece d) ps -> length x = d ->
  exists r, pw_at ps x = Ret r /\ match r with Some v => takes ps x v | None => ~ defined ps x end.
Proof. exact pw_at_ok. Qed.
Print Assumptions piecewise_at.

(** When the pieces agree where they overlap, [at] returns the value. *)
Theorem piecewise_at_single : forall d ps x v, Forall (proper_piece d) ps -> length x = d -> single_valued ps -> takes ps x v ->
  exists w, pw_at ps x = Ret (Some w) /\ w == v.
Proof.
  intros d ps x v F L S T. destruct (pw_at_ok d ps x F L) as ([w|] & E & H).
  - exists w. split; [exact E|]. exact (S x w v H T).
  - exfalso. apply H. destruct T as (f & I & M & _). exists f. auto.
Qed.
Print Assumptions piecewise_at_single.

(** Where the pieces disagree, the first one in the list counts. *)
Theorem piecewise_at_first : forall d ps f qs x, Forall (proper_piece d) (ps ++ f :: qs) -> length x = d ->
  ~ defined ps x -> member (dom2 f) x -> pw_at (ps ++ f :: qs) x = Ret (Some (rowval (a2 f) x)).
Proof.
  intros d ps f qs x F L N M. induction ps as [|p ps IH]; cbn [app pw_at] in *.
  - apply Forall_inv in F as (_ & _ & _ & La). apply contains_true in M. rewrite M. cbn [bind]. unfold a2_at. now rewrite La, L, Nat.eqb_refl.
  - apply Forall_cons_iff in F as ((_ & _ & Np & _) & F). assert (contains (dom2 p) x = Ret false) as ->.
    { apply contains_false. split; [congruence|]. intro K. apply N. exists p. split; [now left|auto]. }
    cbn [bind]. apply IH; [exact F|]. intros (g & I & K). apply N. exists g. split; [now right|auto].
Qed.
Print Assumptions piecewise_at_first.

(** A point of the wrong dimension is refused. *)
Theorem piecewise_at_dimension : forall p ps x, S (length x) <> ncol (pmat (dom2 p)) -> pw_at (p :: ps) x = Raise ValueError.
Proof.
  intros p ps x H. cbn [pw_at]. replace (contains (dom2 p) x) with (@Raise bool ValueError); [reflexivity|].
  symmetry. apply contains_raise. auto.
Qed.
Print Assumptions piecewise_at_dimension.

(** ** Minimum *)

(** Every value of [min_with] is the minimum of a value of each function at
    that point, and there is a value wherever both functions are defined on a
    full-dimensional neighbourhood (a full-dimensional polytope containing the
    point, which may be at its boundary). *)
Theorem piecewise_min_with : forall E, ext_ok E -> forall d ps qs, Forall (proper_piece d) ps -> Forall (proper_piece d) qs ->
  (forall p q, In p ps -> In q qs -> Forall2 Qeq (a2 p) (a2 q) -> labelled p /\ labelled q) ->
  exists out, pw_min_with E ps qs = Ret out /\ Forall (solid_piece d) out /\
    (forall g, In g out -> exists f, In f (ps ++ qs) /\ same_function g f) /\
    (forall x v, takes out x v -> exists u w, takes ps x u /\ takes qs x w /\ v == qmin u w) /\
    (forall x, thick (fun y => defined ps y /\ defined qs y) d x -> exists v, takes out x v).
Proof. exact pw_min_ok. Qed.
Print Assumptions piecewise_min_with.

(** For functions with one value at each point, evaluating the result gives the
    minimum of the two evaluations, or None. *)
Theorem piecewise_min_with_at : forall E, ext_ok E -> forall d ps qs, Forall (proper_piece d) ps -> Forall (proper_piece d) qs ->
  (forall p q, In p ps -> In q qs -> Forall2 Qeq (a2 p) (a2 q) -> labelled p /\ labelled q) ->
  single_valued ps -> single_valued qs ->
  exists out, pw_min_with E ps qs = Ret out /\ single_valued out /\
    forall x, length x = d ->
      (exists u w v, pw_at ps x = Ret (Some u) /\ pw_at qs x = Ret (Some w) /\ pw_at out x = Ret (Some v) /\ v == qmin u w) \/
      (pw_at out x = Ret None /\ ~ thick (fun y => defined ps y /\ defined qs y) d x).
Proof.
  intros E OK d ps qs Fp Fq Lab Sp Sq. destruct (pw_min_ok E OK d ps qs Fp Fq Lab) as (out & Eo & Fo & _ & V & T).
  assert (Q : forall a b a' b', a == a' -> b == b' -> qmin a b == qmin a' b').
  { intros a b a' b' Ea Eb. unfold qmin. destruct (Qltb b a) eqn:E1, (Qltb b' a') eqn:E2; auto;
      try apply Qltb_true in E1; try apply Qltb_false in E1; try apply Qltb_true in E2; try apply Qltb_false in E2; lra. }
  exists out. split; [exact Eo|]. split.
  - intros x v v' H H'. destruct (V x v H) as (u & w & Tu & Tw & Hv). destruct (V x v' H') as (u' & w' & Tu' & Tw' & Hv').
    rewrite Hv, Hv'. apply Q; [exact (Sp x u u' Tu Tu')|exact (Sq x w w' Tw Tw')].
  - intros x L. assert (Fo' : Forall (proper_piece d) out) by (eapply Forall_impl; [|exact Fo]; intros a [H _]; exact H).
    destruct (pw_at_ok d out x Fo' L) as ([v|] & Ev & H).
    + left. destruct (V x v H) as (u & w & Tu & Tw & Hv).
      destruct (piecewise_at_single d ps x u Fp L Sp Tu) as (u' & Eu & Hu). destruct (piecewise_at_single d qs x w Fq L Sq Tw) as (w' & Ew & Hw).
      exists u', w', v. split; [exact Eu|]. split; [exact Ew|]. split; [exact Ev|]. rewrite Hv. apply Q; now symmetry.
    + right. split; [exact Ev|]. intro K. destruct (T x K) as (v & (f & I & M & _)). apply H. exists f. auto.
Qed.
Print Assumptions piecewise_min_with_at.

(** ** Restriction *)

(** [crop] without simplification restricts every piece. *)
Theorem piecewise_crop : forall E, ext_ok E -> forall d ps D, Forall (proper_piece d) ps -> good D -> ncol (pmat D) = S d ->
  exists out, pw_crop E ps D false = Ret out /\ Forall (proper_piece d) out /\ map a2 out = map a2 ps /\ map label2 out = map label2 ps /\
    forall x v, takes out x v <-> takes ps x v /\ member D x.
Proof.
  intros E OK d ps D F G N. destruct (crop_ok E OK d ps D F G N) as (out & Eo & H). exists out. split; [exact Eo|]. clear Eo F.
  induction H as [|p q ps out (Ea & El & P & M) H (F & A & B & T)].
  - split; [constructor|]. split; [reflexivity|]. split; [reflexivity|]. intros x v. split; [intros (f & [] & _)|intros ((f & [] & _) & _)].
  - split; [constructor; auto|]. split; [cbn [map]; congruence|]. split; [cbn [map]; congruence|]. intros x v.
    assert (X : takes [q] x v <-> takes [p] x v /\ member D x).
    { split.
      - intros (f & [<-|[]] & Mf & V). apply M in Mf as [Mp MD]. split; [|auto]. exists p. rewrite <- Ea. split; [now left|auto].
      - intros ((f & [<-|[]] & Mf & V) & MD). exists q. rewrite Ea. split; [now left|]. split; [now apply M|auto]. }
    change (q :: out) with ([q] ++ out). change (p :: ps) with ([p] ++ ps). rewrite !takes_app, X, T. tauto.
Qed.
Print Assumptions piecewise_crop.

(** With simplification (the default) the pieces whose restricted domain has no
    interior are dropped: no value is invented, and a value remains at every
    point of a full-dimensional part of the restricted domain. *)
Theorem piecewise_crop_simplify : forall E, ext_ok E -> forall d ps D, Forall (proper_piece d) ps -> good D -> ncol (pmat D) = S d ->
  exists out, pw_crop E ps D true = Ret out /\ Forall (solid_piece d) out /\
    (forall x v, takes out x v <-> exists f, In f ps /\ thick (fun y => member (dom2 f) y /\ member D y) d x /\ rowval (a2 f) x == v) /\
    (forall x, thick (fun y => defined ps y /\ member D y) d x -> exists v, takes out x v).
Proof.
  intros E OK d ps D F G N. destruct (crop_ok E OK d ps D F G N) as (mid & Em & H).
  unfold pw_crop in *. destruct (mapM _ ps) as [m|]; [|discriminate]. cbn [bind] in *. injection Em as ->.
  assert (Fm : Forall (proper_piece d) mid) by (clear - H; induction H as [|p q ps out (_ & _ & P & _) H IH]; constructor; auto).
  destruct (keep_ok E OK mid) as (out & Eo & I); [eapply Forall_impl; [|exact Fm]; intros a (Ga & _); exact Ga|].
  exists out. split; [exact Eo|]. rewrite Forall_forall in Fm.
  assert (A : forall q, In q mid -> exists p, In p ps /\ a2 q = a2 p /\ forall x, member (dom2 q) x <-> member (dom2 p) x /\ member D x).
  { clear - H. induction H as [|p q ps out (Ea & _ & _ & M) H IH]; intros k Ik; [destruct Ik|]. destruct Ik as [<-|Ik]; [exists p; split; [now left|auto]|].
    destruct (IH k Ik) as (p' & Ip & K). exists p'. split; [now right|auto]. }
  assert (B : forall p, In p ps -> exists q, In q mid /\ a2 q = a2 p /\ forall x, member (dom2 q) x <-> member (dom2 p) x /\ member D x).
  { clear - H. induction H as [|p q ps out (Ea & _ & _ & M) H IH]; intros k Ik; [destruct Ik|]. destruct Ik as [<-|Ik]; [exists q; split; [now left|auto]|].
    destruct (IH k Ik) as (p' & Ip & K). exists p'. split; [now right|auto]. }
  split; [|split].
  - apply Forall_forall. intros f If. apply I in If as [If Hi]. split; [now apply Fm|exact Hi].
  - intros x v. split.
    + intros (q & Iq & M & V). apply I in Iq as [Iq Hi]. destruct (A q Iq) as (p & Ip & Ea & K). exists p. split; [auto|]. split; [|now rewrite <- Ea].
      destruct (Fm q Iq) as (Gq & _ & Nq & _). exists (dom2 q). split; [auto|]. split; [auto|]. split; [auto|]. split; [auto|]. intros y My. now apply K.
    + intros (p & Ip & (R & GR & NR & (z & Iz) & MR & HR) & V). destruct (B p Ip) as (q & Iq & Ea & K). exists q. split; [|split].
      * apply I. split; [auto|]. exists z. apply (Proof_RegionDisjoint.interior_mono R); [|auto]. intros y My. apply K. auto.
      * apply K. auto.
      * now rewrite Ea.
  - intros x (R & GR & NR & IR & MR & HR).
    destruct (thick_cover d R (map dom2 mid) x GR NR IR) as (i & Ii & Mi & Hi); [| |exact MR|].
    + apply Forall_forall. intros i Ii. apply in_map_iff in Ii as (q & <- & Iq). destruct (Fm q Iq) as (Gq & _ & Nq & _). auto.
    + intros y My. destruct (HR y My) as [(p & Ip & Mp) MD]. destruct (B p Ip) as (q & Iq & _ & K). exists (dom2 q). split; [now apply in_map|]. now apply K.
    + apply in_map_iff in Ii as (q & <- & Iq). exists (rowval (a2 q) x). exists q. split; [now apply I|]. split; [auto|reflexivity].
Qed.
Print Assumptions piecewise_crop_simplify.

(** ** Scaling *)

(** [scale] stretches the domain along one coordinate and leaves the
    coefficients as they are: the value at the stretched point [y] is that of
    the old formula at [y].  The label is lost. *)
Theorem piecewise_scale : forall E, ext_ok E -> forall d ps j f, Forall (proper_piece d) ps -> (j < d)%nat -> ~ f == 0 ->
  (forall p, In p ps -> mrows (pmat (dom2 p)) <> []) ->
  exists out, pw_scale E ps (S j) f [] = Ret out /\ map a2 out = map a2 ps /\ Forall (fun q => label2 q = None) out /\
    forall y v, takes out y v <-> exists p x, In p ps /\ member (dom2 p) x /\ Forall2 Qeq y (stretch j f x) /\ rowval (a2 p) y == v.
Proof.
  intros E OK d ps j f F Lj Nf. unfold pw_scale. induction F as [|p ps (G & B & N & La) F IH]; intro Hr.
  - exists []. split; [reflexivity|]. split; [reflexivity|]. split; [constructor|]. intros y v. split; [intros (g & [] & _)|intros (p & x & [] & _)].
  - destruct IH as (out & Eo & Ea & El & T); [intros q Iq; apply Hr; now right|].
    destruct (polytope_scale E OK (dom2 p) j f [] G) as (r & Er & Gr & M); [rewrite N; lia|auto|constructor|left; apply Hr; now left|].
    cbn [mapM]. unfold a2_scale at 1. rewrite Er. cbn [bind]. rewrite Eo. cbn [bind]. eexists. split; [reflexivity|].
    split; [cbn [map a2]; congruence|]. split; [constructor; auto|]. intros y v. split.
    + intros (g & [<-|I] & My & V).
      * cbn [dom2 a2] in *. apply M in My as [(x & Mx & Hx) _]. exists p, x. split; [now left|auto].
      * destruct (proj1 (T y v)) as (q & x & Iq & K); [exists g; auto|]. exists q, x. split; [now right|exact K].
    + intros (q & x & [<-|Iq] & Mx & Hx & V).
      * eexists. split; [now left|]. cbn [dom2 a2]. split; [|exact V]. apply M. split; [exists x; auto|constructor].
      * destruct (proj2 (T y v)) as (g & Ig & K); [exists q, x; auto|]. exists g. split; [now right|exact K].
Qed.
Print Assumptions piecewise_scale.

(** ** Merging of pieces *)

(** [simplify] terminates, returns at most as many pieces, and the simplified
    function takes exactly the same values; every piece keeps coefficients and
    label of an old one.  Afterwards no [max_grouping] pieces with the same
    coefficients and label have a convex union. *)
Theorem piecewise_simplify : forall E, ext_ok E -> forall d, (1 <= d)%nat -> forall ps m, Forall (solid_piece d) ps ->
  exists out, pw_simplify E ps m = Ret out /\ Forall (solid_piece d) out /\ (List.length out <= List.length ps)%nat /\
    (forall f, In f out -> exists h, In h ps /\ same_function f h) /\
    (forall x v, takes out x v <-> takes ps x v) /\
    ((2 <= m)%nat -> forall c, sub c out -> List.length c = m -> (forall f h, In f c -> In h c -> same_function f h) -> ~ convex_set (defined c)).
Proof. exact simplify_ok. Qed.
Print Assumptions piecewise_simplify.

(** So for functions with one value at each point evaluation does not change. *)
Theorem piecewise_simplify_at : forall E, ext_ok E -> forall d, (1 <= d)%nat -> forall ps m, Forall (solid_piece d) ps -> single_valued ps ->
  exists out, pw_simplify E ps m = Ret out /\ single_valued out /\ forall x, length x = d ->
    match pw_at ps x, pw_at out x with
    | Ret (Some u), Ret (Some v) => u == v
    | Ret None, Ret None => True
    | _, _ => False
    end.
Proof.
  intros E OK d Hd ps m F S. destruct (simplify_ok E OK d Hd ps m F) as (out & Eo & Fo & _ & _ & T & _). exists out. split; [exact Eo|].
  assert (S' : single_valued out) by (intros x v w H1 H2; apply T in H1, H2; exact (S x v w H1 H2)).
  split; [exact S'|]. intros x L.
  assert (P : forall l, Forall (solid_piece d) l -> Forall (proper_piece d) l) by (intros l H; eapply Forall_impl; [|exact H]; intros a [K _]; exact K).
  destruct (pw_at_ok d ps x (P _ F) L) as ([u|] & Eu & Hu); destruct (pw_at_ok d out x (P _ Fo) L) as ([v|] & Ev & Hv); rewrite Eu, Ev.
  - apply (S x); [exact Hu|now apply T].
  - apply Hv. apply T in Hu as (f & I & M & _). exists f. auto.
  - apply Hu. apply T in Hv as (f & I & M & _). exists f. auto.
  - exact I.
Qed.
Print Assumptions piecewise_simplify_at.

(** ** Checking *)

Lemma near_le : forall e e' x y, e <= e' -> near e x y -> near e' x y.
Proof. intros e e' x y H [L K]. split; [exact L|]. intro i. specialize (K i). lra. Qed.

Lemma interior_both : forall p q i, (forall y, member i y <-> member p y /\ member q y) -> forall x, interior i x <-> interior p x /\ interior q x.
Proof.
  intros p q i H x. split.
  - intro K. split; (eapply Proof_RegionDisjoint.interior_mono; [|exact K]; intros y My; apply H in My; tauto).
  - intros [(Mp & e & He & Kp) (Mq & e' & He' & Kq)]. split; [apply H; auto|].
    exists (qmin e e'). unfold qmin. destruct (Qltb e' e) eqn:E; [apply Qltb_true in E|apply Qltb_false in E]; (split; [auto|]); intros y Hy; apply H; split.
    + apply Kp. eapply near_le; [|exact Hy]. lra.
    + now apply Kq.
    + now apply Kp.
    + apply Kq. eapply near_le; [|exact Hy]. lra.
Qed.

Lemma no_overlap_ok : forall E, ext_ok E -> forall d ps before, Forall (proper_piece d) (before ++ ps) ->
  exists b, no_overlap E ps before = Ret b /\
    (b = true <-> (forall l p m q r t, ps = l ++ p :: m -> before ++ l = r ++ q :: t -> ~ overlap p q)).
Proof.
  intros E OK d. induction ps as [|p ps IH]; intros before F.
  - exists true. split; [reflexivity|]. split; [|reflexivity]. intros _ l p m q r t K. destruct l; discriminate.
  - cbn [no_overlap].
    assert (Fp : proper_piece d p) by (apply Forall_app in F as [_ F]; now apply Forall_inv in F).
    assert (Fb : Forall (proper_piece d) before) by (apply Forall_app in F; tauto).
    assert (X : exists b, (fix go (qs : list affine2) : res bool := match qs with [] => Ret true | q :: qs' =>
            let! i := intersect E (dom2 p) (dom2 q) in let! e := is_empty E i false in if e then go qs' else Ret false end) before = Ret b /\
        (b = true <-> forall q, In q before -> ~ overlap p q)).
    { clear IH F. induction Fb as [|q qs Fq Fb IHq]; [exists true; split; [reflexivity|split; [intros _ q []|reflexivity]]|].
      destruct Fp as (Gp & Bp & Np & _). destruct Fq as (Gq & Bq & Nq & _).
      destruct (intersect2 E OK d _ _ Gp Np Gq Nq) as (i & Ei & Gi & Ni & Mi). rewrite Ei. cbn [bind].
      destruct (nonempty_dec E OK i Gi) as (e & Ee & He). rewrite Ee. cbn [bind]. destruct e.
      - destruct IHq as (b & Eb & Hb). exists b. split; [exact Eb|]. rewrite Hb. split.
        + intros K q' [<-|I]; [|now apply K]. intros (x & Hx). apply He. exists x. now apply (interior_both _ _ _ Mi).
        + intros K q' I. apply K. now right.
      - exists false. split; [reflexivity|]. split; [discriminate|]. intro K. exfalso. destruct He as (x & Hx).
        apply (K q (or_introl eq_refl)). exists x. now apply (interior_both _ _ _ Mi). }
    destruct X as (b & Eb & Hb). rewrite Eb. cbn [bind]. destruct b.
    + destruct (IH (before ++ [p])) as (b & Er & Hr); [rewrite <- app_assoc; exact F|]. exists b. split; [exact Er|]. rewrite Hr. split.
      * intros K l p' m q r t Ep Eq. destruct l as [|a l].
        -- simpl in Ep. injection Ep as <- <-. rewrite app_nil_r in Eq. apply Hb; [reflexivity|]. rewrite Eq. apply in_app_iff. right. now left.
        -- simpl in Ep. injection Ep as <- Ep. apply (K l p' m q r t Ep). rewrite <- app_assoc. simpl. exact Eq.
      * intros K l p' m q r t Ep Eq. apply (K (p :: l) p' m q r t); [now rewrite Ep|]. rewrite <- app_assoc in Eq. simpl in Eq. exact Eq.
    + exists false. split; [reflexivity|]. split; [discriminate|]. intro K. apply Hb. intros q Iq.
      apply in_split in Iq as (r & t & Eq). apply (K [] p ps q r t); [reflexivity|]. now rewrite app_nil_r.
Qed.

Lemma all_defined_ok : forall d ps, Forall (proper_piece d) ps -> forall xs, Forall (fun x => length x = d) xs ->
  exists b, all_defined ps xs = Ret b /\ (b = true <-> Forall (defined ps) xs).
Proof.
  intros d ps F xs L. induction L as [|x xs Lx L (b & Eb & IH)]; [exists true; split; [reflexivity|split; [constructor|reflexivity]]|].
  cbn [all_defined]. destruct (pw_at_ok d ps x F Lx) as ([v|] & Ev & H); rewrite Ev; cbn [bind].
  - exists b. split; [exact Eb|]. rewrite IH. split; [|apply Forall_inv_tail]. intro K. constructor; [|auto]. destruct H as (f & I & M & _). exists f. auto.
  - exists false. split; [reflexivity|]. split; [discriminate|]. intro K. apply Forall_inv in K. contradiction.
Qed.

(** [check] is True exactly when no two pieces overlap in a full-dimensional set
    and the function is defined at the 10000 sample points. *)
Theorem piecewise_check : forall E, ext_ok E -> forall ps xlim ylim, Forall (proper_piece 2) ps ->
  exists b, pw_check E ps xlim ylim = Ret b /\
    (b = true <->
      (forall l q m p n, ps = l ++ q :: m ++ p :: n -> ~ overlap p q) /\
      (forall i j, (i < 100)%nat -> (j < 100)%nat -> defined ps [sample xlim i; sample ylim j])).
Proof.
  intros E OK ps xlim ylim F. unfold pw_check. destruct (no_overlap_ok E OK 2 ps [] F) as (b & Eb & Hb). rewrite Eb. cbn [bind].
  assert (X : b = true <-> forall l q m p n, ps = l ++ q :: m ++ p :: n -> ~ overlap p q).
  { rewrite Hb. split.
    - intros K l q m p n Ep. apply (K (l ++ q :: m) p n q l m); [now rewrite Ep, <- app_assoc|reflexivity].
    - intros K l p m q r t Ep Eq. simpl in Eq. apply (K r q t p m). rewrite Ep, Eq. rewrite <- app_assoc. reflexivity. }
  destruct b.
  - destruct (all_defined_ok 2 ps F (flat_map (fun i => map (fun j => [sample xlim i; sample ylim j]) (seq 0 100)) (seq 0 100))) as (c & Ec & Hc).
    { apply Forall_forall. intros x I. apply in_flat_map in I as (i & _ & I). apply in_map_iff in I as (j & <- & _). reflexivity. }
    exists c. split; [exact Ec|]. rewrite Hc, Forall_forall. split.
    + intro K. split; [now apply X|]. intros i j Hi Hj. apply K. apply in_flat_map. exists i. split; [apply in_seq; lia|].
      apply in_map_iff. exists j. split; [reflexivity|apply in_seq; lia].
    + intros [_ K] x I. apply in_flat_map in I as (i & Ii & I). apply in_map_iff in I as (j & <- & Ij). apply in_seq in Ii, Ij. apply K; lia.
  - exists false. split; [reflexivity|]. split; [discriminate|]. intros [K _]. now apply X.
Qed.
Print Assumptions piecewise_check.

(** ** Concrete functions, and claims that fail *)

(** The rectangle [a,b] x [c,e]. *)
Definition box (a b c e : Q) : polytope :=
  mkPoly (mkMat [([- a; 1; 0], false); ([b; -1; 0], false); ([- c; 0; 1], false); ([e; 0; -1], false)] 3) false None.

Lemma box_member : forall a b c e x, member (box a b c e) x <-> exists u v, x = [u; v] /\ a <= u <= b /\ c <= v <= e.
Proof.
  intros a b c e x. split.
  - intros [L H]. destruct x as [|u [|v [|w x]]]; simpl in L; try discriminate. exists u, v. split; [reflexivity|].
    cbn [mrows box pmat] in H. rewrite !Forall_cons_iff in H. destruct H as (H1 & H2 & H3 & H4 & _).
    unfold holds, rowval in H1, H2, H3, H4; simpl in H1, H2, H3, H4. lra.
  - intros (u & v & -> & H1 & H2). split; [reflexivity|]. cbn [mrows box pmat]. repeat constructor; unfold holds, rowval; simpl; lra.
Qed.

Lemma box_interior : forall a b c e u v, a < u < b -> c < v < e -> interior (box a b c e) [u; v].
Proof.
  intros a b c e u v H1 H2. apply strict_interior; [reflexivity|repeat constructor|].
  cbn [mrows box pmat]. repeat constructor; unfold rowval; simpl; lra.
Qed.

Lemma box_proper : forall a b c e f l, length f = 3%nat -> proper_piece 2 (mkA2 f (box a b c e) l).
Proof.
  intros a b c e f l L. split; [|split; [|split; [reflexivity|exact L]]].
  - split; [split; [simpl; lia|repeat constructor]|]. split; [|split; [discriminate|constructor]].
    repeat constructor; cbn [fst]; intro Z; unfold zero_row in Z; rewrite Forall_forall in Z;
      [specialize (Z 1 ltac:(simpl; auto))|specialize (Z (-1) ltac:(simpl; auto))|specialize (Z 1 ltac:(simpl; auto))|specialize (Z (-1) ltac:(simpl; auto))]; lra.
  - exists (Qabs a + Qabs b + Qabs c + Qabs e). intros x i M. apply box_member in M as (u & v & -> & H1 & H2).
    pose proof (Qabs_nonneg a). pose proof (Qabs_nonneg b). pose proof (Qabs_nonneg c). pose proof (Qabs_nonneg e).
    pose proof (Qle_Qabs b). pose proof (Qle_Qabs e). pose proof (Qle_Qabs (- a)) as Ha. pose proof (Qle_Qabs (- c)) as Hc. rewrite Qabs_opp in Ha, Hc.
    destruct i as [|[|i]]; cbn [nth]; apply Qabs_Qle_condition; [| |destruct i]; lra.
Qed.

Lemma box_solid : forall a b c e f l, length f = 3%nat -> a < b -> c < e -> solid_piece 2 (mkA2 f (box a b c e) l).
Proof.
  intros a b c e f l L Hab Hce. split; [now apply box_proper|]. exists [(a + b) * (1 # 2); (c + e) * (1 # 2)]. apply box_interior; lra.
Qed.

(** min(x, y) on the unit square: two triangles; it is y at (3/4, 1/4). *)
Definition unit_x : affine2 := mkA2 [0; 1; 0] (box 0 1 0 1) None.
Definition unit_y : affine2 := mkA2 [0; 0; 1] (box 0 1 0 1) None.

Example ex_min_hypotheses : Forall (proper_piece 2) [unit_x] /\ Forall (proper_piece 2) [unit_y] /\ single_valued [unit_x] /\ single_valued [unit_y] /\
  (forall p q, In p [unit_x] -> In q [unit_y] -> Forall2 Qeq (a2 p) (a2 q) -> labelled p /\ labelled q).
Proof.
  split; [constructor; [now apply box_proper|constructor]|]. split; [constructor; [now apply box_proper|constructor]|].
  assert (S : forall f, single_valued [f]) by (intros f x v w (g & [<-|[]] & _ & V) (h & [<-|[]] & _ & W); now rewrite <- V, <- W).
  split; [apply S|]. split; [apply S|]. intros p q [<-|[]] [<-|[]] H. exfalso. cbn [a2 unit_x unit_y] in H.
  inversion H as [|? ? ? ? _ H1]; subst. inversion H1 as [|? ? ? ? H2 _]; subst. lra.
Qed.

Example ex_min : exists out, pw_min_with fm_ext [unit_x] [unit_y] = Ret out /\ List.length out = 2%nat /\
  exists v, pw_at out [3 # 4; 1 # 4] = Ret (Some v) /\ v == 1 # 4.
Proof. eexists. split; [vm_compute; reflexivity|]. split; [reflexivity|]. eexists. split; [vm_compute; reflexivity|reflexivity]. Qed.

(** Two identical pieces without labels (the default) cannot be compared:
    min_with raises. *)
Theorem piecewise_min_unlabelled_refuted : exists p, Forall (proper_piece 2) [p] /\ pw_min_with fm_ext [p] [p] = Raise TypeError.
Proof. exists unit_x. split; [constructor; [now apply box_proper|constructor]|vm_compute; reflexivity]. Qed.
Print Assumptions piecewise_min_unlabelled_refuted.

(** Where the common domain is not full-dimensional the minimum is undefined:
    [0,1] x [0,1] and [1,2] x [0,1] share the edge x = 1. *)
Theorem piecewise_min_touching_refuted : exists p q out x u w,
  Forall (proper_piece 2) [p] /\ Forall (proper_piece 2) [q] /\ takes [p] x u /\ takes [q] x w /\
  pw_min_with fm_ext [p] [q] = Ret out /\ pw_at out x = Ret None.
Proof.
  exists unit_x, (mkA2 [0; 0; 1] (box 1 2 0 1) None). eexists. exists [1; 0], 1, 0.
  split; [constructor; [now apply box_proper|constructor]|]. split; [constructor; [now apply box_proper|constructor]|].
  split; [exists unit_x; split; [now left|]; split; [apply box_member; exists 1, 0; split; [reflexivity|lra]|reflexivity]|].
  split; [eexists; split; [now left|]; split; [apply box_member; exists 1, 0; split; [reflexivity|lra]|reflexivity]|].
  split; vm_compute; reflexivity.
Qed.
Print Assumptions piecewise_min_touching_refuted.

(** On an unbounded domain only the vertices are looked at and the result can be
    wrong: x and 1 on the half line x >= 0. *)
Definition half_line (f : list Q) : affine2 := mkA2 f (mkPoly (mkMat [([0; 1], false)] 2) false None) None.
Theorem piecewise_min_unbounded_refuted : exists p q out v, good (dom2 p) /\ good (dom2 q) /\
  pw_min_with fm_ext [p] [q] = Ret out /\ pw_at [p] [2] = Ret (Some 2) /\ pw_at [q] [2] = Ret (Some 1) /\ pw_at out [2] = Ret (Some v) /\ v == 2.
Proof.
  exists (half_line [0; 1]), (half_line [1; 0]). eexists. eexists.
  assert (G : forall f, good (dom2 (half_line f))).
  { intro f. split; [split; [simpl; lia|repeat constructor]|]. split; [|split; [discriminate|constructor]].
    repeat constructor; cbn [fst]; intro Z; unfold zero_row in Z; rewrite Forall_forall in Z; specialize (Z 1 ltac:(simpl; auto)); lra. }
  split; [apply G|]. split; [apply G|]. split; [vm_compute; reflexivity|]. split; [vm_compute; reflexivity|]. split; [vm_compute; reflexivity|].
  split; [vm_compute; reflexivity|]. reflexivity.
Qed.
Print Assumptions piecewise_min_unbounded_refuted.

(** Scaling does not transport the values: stretching x by 2, the value of [x]
    at (2,0) is 2, and not the value 1 it had at (1,0). *)
Theorem piecewise_scale_values_refuted : exists p out v, Forall (proper_piece 2) [p] /\ pw_scale fm_ext [p] 1 2 [] = Ret out /\
  pw_at [p] [1; 0] = Ret (Some 1) /\ pw_at out [2; 0] = Ret (Some v) /\ v == 2.
Proof.
  exists unit_x. eexists. eexists. split; [constructor; [now apply box_proper|constructor]|]. split; [vm_compute; reflexivity|].
  split; [vm_compute; reflexivity|]. split; [vm_compute; reflexivity|reflexivity].
Qed.
Print Assumptions piecewise_scale_values_refuted.

(** [check] is not a proof that the function is defined everywhere: the samples
    stop short of the upper limits. *)
Theorem piecewise_check_defined_refuted : forall E, ext_ok E -> exists ps x, Forall (proper_piece 2) ps /\
  pw_check E ps (0, 1) (0, 1) = Ret true /\ member (box 0 1 0 1) x /\ ~ defined ps x.
Proof.
  intros E OK. set (p := mkA2 [0; 1; 0] (box 0 (99 # 100) 0 (99 # 100)) None). exists [p], [1; 1].
  assert (F : Forall (proper_piece 2) [p]) by (constructor; [now apply box_proper|constructor]). split; [exact F|].
  assert (S : forall i, (i < 100)%nat -> 0 <= sample (0, 1) i <= 99 # 100).
  { intros i Hi. unfold sample. cbn [fst snd].
    assert (E1 : 0 + (1 - 0) * inject_Z (Z.of_nat i) / 100 == inject_Z (Z.of_nat i) * (1 # 100)) by (field).
    rewrite E1. assert (H1 : inject_Z 0 <= inject_Z (Z.of_nat i)) by (rewrite <- Zle_Qle; lia).
    assert (H2 : inject_Z (Z.of_nat i) <= inject_Z 99) by (rewrite <- Zle_Qle; lia).
    change (inject_Z 0) with 0 in H1. change (inject_Z 99) with 99 in H2. lra. }
  split; [|split].
  - destruct (piecewise_check E OK [p] (0, 1) (0, 1) F) as (b & Eb & Hb). rewrite Eb. f_equal. apply Hb. split.
    + intros l q m r n K. exfalso. apply (f_equal (@List.length _)) in K. rewrite !app_length in K. simpl in K. rewrite app_length in K. simpl in K. lia.
    + intros i j Hi Hj. exists p. split; [now left|]. apply box_member. eexists _, _. split; [reflexivity|]. split; now apply S.
  - apply box_member. exists 1, 1. split; [reflexivity|lra].
  - intros (f & [<-|[]] & M). apply box_member in M as (u & v & K & H & _). injection K as <- <-. lra.
Qed.
Print Assumptions piecewise_check_defined_refuted.

(** Two halves of the unit square with the same function become one piece; a
    third piece with another function stays. *)
Example ex_simplify :
  let ps := [mkA2 [0; 1; 0] (box 0 (1 # 2) 0 1) (Some 1%Z); mkA2 [5; 0; 0] (box 1 2 0 1) (Some 2%Z); mkA2 [0; 1; 0] (box (1 # 2) 1 0 1) (Some 1%Z)] in
  Forall (solid_piece 2) ps /\ exists out, pw_simplify fm_ext ps 2 = Ret out /\ List.length out = 2%nat /\
    exists v, pw_at out [1 # 2; 1 # 3] = Ret (Some v) /\ v == 1 # 2.
Proof.
  cbn zeta. split; [repeat (constructor; [apply box_solid; [reflexivity|lra|lra]|]); constructor|].
  eexists. split; [vm_compute; reflexivity|]. split; [reflexivity|]. eexists. split; [vm_compute; reflexivity|reflexivity].
Qed.

Example ex_crop : exists out, pw_crop fm_ext [unit_x; mkA2 [0; 0; 1] (box 1 2 0 1) None] (box 0 1 0 (1 # 2)) true = Ret out /\
  List.length out = 1%nat /\ pw_at out [1 # 2; 3 # 4] = Ret None /\ exists v, pw_at out [1 # 2; 1 # 4] = Ret (Some v) /\ v == 1 # 2.
Proof.
  eexists. split; [vm_compute; reflexivity|]. split; [reflexivity|]. split; [vm_compute; reflexivity|]. eexists. split; [vm_compute; reflexivity|reflexivity].
Qed.
