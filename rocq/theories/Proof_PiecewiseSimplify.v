(** Proofs about [Piecewise.simplify]. *)
From Coq Require Import Permutation.
From Verif Require Import Base LinAlg FM Hull Model_Polytope Spec_Polytope Proof_Polytope Proof_PolytopeLP Proof_PolytopeSets Proof_PolytopeUnion Proof_RegionDisjoint Model_Piecewise Spec_Piecewise Proof_Piecewise.

(** ** Sublists *)

Lemma combs_sub : forall A n (l c : list A), In c (combs n l) <-> sub c l /\ length c = n.
Proof.
  intros A. induction n as [|n IH]; intros l c.
  - simpl. split.
    + intros [<-|[]]. split; [|reflexivity]. induction l; constructor; auto.
    + intros [_ L]. destruct c; [now left|discriminate].
  - induction l as [|x l IHl].
    + simpl. split; [intros []|]. intros [S L]. inversion S; subst. discriminate.
    + change (combs (S n) (x :: l)) with (map (cons x) (combs n l) ++ combs (S n) l). rewrite in_app_iff, in_map_iff, IHl. split.
      * intros [(c' & <- & I)|[Hs L]]; [apply IH in I as [Hs <-]; split; [now constructor|reflexivity]|split; [now constructor|auto]].
      * intros [Hs L]. inversion Hs; subst; [discriminate| |right; auto].
        left. eexists. split; [reflexivity|]. apply IH. split; [auto|]. simpl in L. lia.
Qed.

Lemma sub_incl : forall A (c l : list A), sub c l -> incl c l.
Proof. induction 1; intros y Hy; [destruct Hy| |right; auto]. destruct Hy as [<-|Hy]; [now left|right; auto]. Qed.

Lemma sub_length : forall A (c l : list A), sub c l -> (length c <= length l)%nat.
Proof. induction 1; simpl; lia. Qed.

Lemma sub_map : forall A B (f : A -> B) c l, sub c l -> sub (map f c) (map f l).
Proof. induction 1; simpl; constructor; auto. Qed.

Lemma sub_map_inv : forall A B (f : A -> B) l c', sub c' (map f l) -> exists c, c' = map f c /\ sub c l.
Proof.
  intros A B f. induction l as [|x l IH]; intros c' H; simpl in H.
  - inversion H; subst. exists []. split; constructor.
  - inversion H as [l0|y c0 l0 H2|y c0 l0 H2]; subst.
    + exists []. split; constructor.
    + destruct (IH _ H2) as (c & -> & S). exists (x :: c). split; [reflexivity|now constructor].
    + destruct (IH _ H2) as (c & -> & S). exists c. split; [reflexivity|now constructor].
Qed.

Lemma sub_app_inv : forall A (l m c : list A), sub c (l ++ m) -> exists c1 c2, c = c1 ++ c2 /\ sub c1 l /\ sub c2 m.
Proof.
  intros A. induction l as [|x l IH]; intros m c H; simpl in H.
  - exists [], c. split; [reflexivity|]. split; [constructor|auto].
  - inversion H as [l0|y c0 l0 H2|y c0 l0 H2]; subst.
    + exists [], []. split; [reflexivity|]. split; constructor.
    + destruct (IH _ _ H2) as (c1 & c2 & -> & S1 & S2). exists (x :: c1), c2. split; [reflexivity|]. split; [now constructor|auto].
    + destruct (IH _ _ H2) as (c1 & c2 & -> & S1 & S2). exists c1, c2. split; [reflexivity|]. split; [now constructor|auto].
Qed.

Definition outside (c : list nat) (ip : nat * affine2) : bool := negb (existsb (Nat.eqb (fst ip)) c).

Lemma outside_true : forall c ip, outside c ip = true <-> ~ In (fst ip) c.
Proof.
  intros c ip. unfold outside. rewrite negb_true_iff. split.
  - intros H I. assert (existsb (Nat.eqb (fst ip)) c = true) by (apply existsb_exists; exists (fst ip); split; [auto|apply Nat.eqb_refl]). congruence.
  - intro H. destruct (existsb _ c) eqn:E; [|reflexivity]. apply existsb_exists in E as (y & I & E). apply Nat.eqb_eq in E. subst. contradiction.
Qed.

Lemma split_perm : forall l c, NoDup (map fst l) -> sub c l ->
  Permutation l (c ++ filter (outside (map fst c)) l).
Proof.
  intros l c N S. induction S as [l|x c l S IH|x c l S IH].
  - simpl. replace (filter _ l) with l; [reflexivity|]. clear N. induction l as [|y l IH]; [reflexivity|]. simpl. now rewrite <- IH.
  - simpl in N. inversion N as [|a b Nx Nl]; subst. cbn [app]. constructor. rewrite (IH Nl) at 1. apply Permutation_app_head.
    cbn [filter map]. destruct (outside (fst x :: map fst c) x) eqn:E; [exfalso; apply outside_true in E; apply E; now left|].
    apply Permutation_refl'. clear -Nx. induction l as [|y l IH]; [reflexivity|]. cbn [filter]. simpl in Nx.
    assert (X : outside (fst x :: map fst c) y = outside (map fst c) y).
    { unfold outside. cbn [existsb]. replace (Nat.eqb (fst y) (fst x)) with false; [reflexivity|]. symmetry. apply Nat.eqb_neq. intro. apply Nx. left. auto. }
    rewrite X, IH; [reflexivity|]. intro. apply Nx. now right.
  - simpl in N. inversion N as [|a b Nx Nl]; subst. cbn [filter]. destruct (outside (map fst c) x) eqn:E.
    + rewrite <- Permutation_middle. constructor. auto.
    + exfalso. assert (In (fst x) (map fst c)).
      { destruct (in_dec Nat.eq_dec (fst x) (map fst c)) as [|n]; [auto|]. apply outside_true in n. congruence. }
      apply Nx. apply (sub_incl _ _ _ (sub_map _ _ fst _ _ S)). exact H.
Qed.

Lemma map_fst_combine_seq : forall (g : list affine2) s, map fst (combine (seq s (length g)) g) = seq s (length g).
Proof. induction g as [|f g IH]; intro s; simpl; [reflexivity|]. now rewrite IH. Qed.

Lemma map_snd_combine_seq : forall (g : list affine2) s, map snd (combine (seq s (length g)) g) = g.
Proof. induction g as [|f g IH]; intro s; simpl; [reflexivity|]. now rewrite IH. Qed.

(** ** Groups *)

Lemma label_eqb_ok : forall l m, label_eqb l m = true <-> l = m.
Proof. intros [l|] [m|]; simpl; try (split; congruence). rewrite Z.eqb_eq. split; congruence. Qed.

Lemma same_key_ok : forall f g, same_key f g = true <-> same_function f g.
Proof. intros f g. unfold same_key, same_function. now rewrite andb_true_iff, label_eqb_ok, qlist_eqb_spec. Qed.

Lemma same_function_refl : forall f, same_function f f.
Proof. intro f. split; [reflexivity|apply Forall2_same]. Qed.

Lemma Forall2_Qeq_sym : forall a b, Forall2 Qeq a b -> Forall2 Qeq b a.
Proof. induction 1; constructor; [now symmetry|auto]. Qed.

Lemma Forall2_Qeq_trans : forall a b c, Forall2 Qeq a b -> Forall2 Qeq b c -> Forall2 Qeq a c.
Proof. intros a b c H. revert c. induction H; intros c H2; inversion H2; subst; constructor; [etransitivity; eauto|auto]. Qed.

Lemma same_function_sym : forall f g, same_function f g -> same_function g f.
Proof. intros f g [L A]. split; [auto|now apply Forall2_Qeq_sym]. Qed.

Lemma same_function_trans : forall f g h, same_function f g -> same_function g h -> same_function f h.
Proof. intros f g h [L A] [L2 A2]. split; [congruence|eapply Forall2_Qeq_trans; eauto]. Qed.

Definition uniform (g : list affine2) : Prop := g <> [] /\ forall f h, In f g -> In h g -> same_function f h.
Definition apart (g h : list affine2) : Prop := forall f k, In f g -> In k h -> ~ same_function f k.
Fixpoint distinct_groups (gs : list (list affine2)) : Prop :=
  match gs with [] => True | g :: rest => Forall (apart g) rest /\ distinct_groups rest end.

Lemma insert_group_perm : forall p gs, Permutation (concat (insert_group p gs)) (p :: concat gs).
Proof.
  intros p gs. induction gs as [|g gs IH]; [reflexivity|]. simpl. destruct g as [|q g].
  - simpl. exact IH.
  - destruct (same_key p q).
    + simpl. rewrite <- app_assoc. simpl. rewrite perm_swap. constructor. symmetry. apply Permutation_middle.
    + simpl. rewrite perm_swap. constructor. rewrite IH. symmetry. apply Permutation_middle.
Qed.

Lemma insert_group_uniform : forall p gs, Forall uniform gs -> Forall uniform (insert_group p gs).
Proof.
  intros p gs F. induction F as [|g gs [N U] F IH].
  - constructor; [|constructor]. split; [discriminate|]. intros f h [<-|[]] [<-|[]]. apply same_function_refl.
  - simpl. destruct g as [|q g]; [congruence|]. destruct (same_key p q) eqn:E.
    + constructor; [|auto]. apply same_key_ok in E. split; [discriminate|]. 
      assert (X : forall f, In f ((q :: g) ++ [p]) -> same_function f q).
      { intros f I. apply in_app_iff in I as [I|[<-|[]]]; [apply U; [auto|now left]|auto]. }
      intros f h If Ih. eapply same_function_trans; [apply X; auto|]. apply same_function_sym. auto.
    + constructor; [split; auto|auto].
Qed.

Lemma insert_group_in : forall p gs g, In g (insert_group p gs) -> forall f, In f g -> f = p \/ exists h, In h gs /\ In f h.
Proof.
  intros p gs g I f If. assert (X : In f (p :: concat gs)).
  { apply (Permutation_in _ (insert_group_perm p gs)). apply in_concat. eauto. }
  destruct X as [<-|X]; [now left|]. apply in_concat in X as (h & Ih & If'). right. eauto.
Qed.

Lemma insert_group_distinct : forall p gs, Forall uniform gs -> distinct_groups gs -> distinct_groups (insert_group p gs).
Proof.
  intros p gs F. induction F as [|g gs [N U] F IH]; intro D; [simpl; auto|].
  simpl in D. destruct D as [A D]. simpl. destruct g as [|q g]; [congruence|]. destruct (same_key p q) eqn:E.
  - simpl. split; [|auto]. apply same_key_ok in E. rewrite Forall_forall in *. intros h Ih f k If Ik. change (In f ((q :: g) ++ [p])) in If.
    apply in_app_iff in If as [If|[<-|[]]]; [now apply (A h)|]. intro K. apply (A h Ih q k); [now left|auto|].
    eapply same_function_trans; [apply same_function_sym; exact E|exact K].
  - cbn [distinct_groups]. split; [|auto]. rewrite Forall_forall in *. intros h Ih f k If Ik.
    destruct (insert_group_in _ _ _ Ih k Ik) as [->|(h' & Ih' & Ik')]; [|now apply (A h' Ih')].
    intro K. assert (same_key p q = true); [|congruence]. apply same_key_ok. apply same_function_sym.
    eapply same_function_trans; [|exact K]. apply U; [now left|auto].
Qed.

Lemma group_pieces_ok : forall ps, Permutation (concat (group_pieces ps)) ps /\ Forall uniform (group_pieces ps) /\ distinct_groups (group_pieces ps).
Proof.
  intro ps. unfold group_pieces.
  assert (X : forall gs, Forall uniform gs -> distinct_groups gs ->
    let r := fold_left (fun gs p => insert_group p gs) ps gs in Permutation (concat r) (ps ++ concat gs) /\ Forall uniform r /\ distinct_groups r).
  { induction ps as [|p ps IH]; intros gs U D; cbn [fold_left]; [simpl; auto|].
    destruct (IH (insert_group p gs)) as (P & U' & D'); [now apply insert_group_uniform|now apply insert_group_distinct|].
    split; [|auto]. cbn zeta in *. rewrite P, insert_group_perm. simpl. symmetry. apply Permutation_middle. }
  destruct (X [] (Forall_nil _) I) as (P & U & D). rewrite app_nil_r in P. auto.
Qed.

Section Ext.
Variable E : ext.
Hypothesis OK : ext_ok E.
Variable d : nat.
Hypothesis Hd : (1 <= d)%nat.

Definition union_of (c : list affine2) : point -> Prop := defined c.

Lemma in_union_defined : forall c x, in_union (map dom2 c) x <-> defined c x.
Proof.
  intros c x. split.
  - intros (q & I & M). apply in_map_iff in I as (f & <- & If). exists f. auto.
  - intros (f & I & M). exists (dom2 f). split; [now apply in_map|auto].
Qed.

Lemma piece_union : forall c, c <> [] -> Forall (solid_piece d) c -> exists r, try_union E (map dom2 c) = Ret r /\
  match r with
  | Some u => (forall f, In f c -> solid_piece d (mkA2 (a2 f) u (label2 f))) /\ forall x, member u x <-> defined c x
  | None => ~ convex_set (defined c)
  end.
Proof.
  intros c Nc F. destruct (try_union_ok E OK (map dom2 c) (S d)) as (r & Er & H); [lia| | |].
  - apply Forall_forall. intros q I. apply in_map_iff in I as (f & <- & If). rewrite Forall_forall in F. destruct (F f If) as ((G & B & N & _) & _). auto.
  - destruct c as [|f c]; [congruence|]. apply Forall_inv in F as (_ & z & Iz). exists (dom2 f), z. split; [now left|auto].
  - exists r. split; [exact Er|]. rewrite Forall_forall in F. destruct r as [u|].
    + destruct H as [Gu Mu]. assert (M' : forall x, member u x <-> defined c x) by (intro x; rewrite Mu; apply in_union_defined).
      split; [|exact M']. intros f If. destruct (F f If) as ((G & B & N & La) & (z & Iz)).
      assert (Mz : member u z) by (apply M'; exists f; split; [auto|now apply interior_member]).
      assert (Nu : ncol (pmat u) = S d).
      { destruct Mz as [L1 _]. destruct (interior_member _ _ Iz) as [L2 _]. congruence. }
      split; [split; [exact Gu|split; [|split; [exact Nu|exact La]]]|].
      * (* bounded *)
        clear - F M'. assert (X : exists B, forall g, In g c -> forall x i, member (dom2 g) x -> Qabs (nth i x 0) <= B).
        { clear M'. induction c as [|g c IH]; [exists 0; intros g []|]. destruct IH as (B & HB); [intros; apply F; now right|].
          destruct (F g (or_introl eq_refl)) as ((_ & (B' & HB') & _) & _). exists (qmax B' B). intros h [<-|Ih] x i M; unfold qmax; destruct (Qltb B' B) eqn:EB; [apply Qltb_true in EB|apply Qltb_false in EB|apply Qltb_true in EB|apply Qltb_false in EB].
          - pose proof (HB' x i M). lra.
          - exact (HB' x i M).
          - exact (HB h Ih x i M).
          - pose proof (HB h Ih x i M). lra. }
        destruct X as (B & HB). exists B. intros x i M. apply M' in M as (g & Ig & Mg). now apply (HB g Ig).
      * exists z. cbn [dom2]. apply (interior_mono (dom2 f)); [|auto]. intros y My. apply M'. exists f. auto.
    + intro C. apply H.
      * intros q I. apply in_map_iff in I as (f & <- & If). destruct (F f If) as (_ & (z & Iz)). exists z. now apply interior_member.
      * intros x y t Hx Hy H0 H1. apply in_union_defined. apply in_union_defined in Hx, Hy. now apply C.
Qed.

Lemma first_union_ok : forall cs, Forall (fun c => c <> [] /\ Forall (solid_piece d) (map snd c)) cs ->
  exists r, first_union E cs = Ret r /\
    match r with
    | None => forall c, In c cs -> ~ convex_set (defined (map snd c))
    | Some (js, new) => exists c f, In c cs /\ js = map fst c /\ In f (map snd c) /\ a2 new = a2 f /\ label2 new = label2 f /\ solid_piece d new /\
        forall x, member (dom2 new) x <-> defined (map snd c) x
    end.
Proof.
  intros cs F. induction F as [|c cs [Nc Fc] F (r & Er & IH)]; [exists None; split; [reflexivity|intros c []]|].
  cbn [first_union]. destruct (piece_union (map snd c)) as (u & Eu & Hu); [destruct c; [congruence|discriminate]|auto|].
  rewrite map_map in Eu. rewrite Eu. cbn [bind]. destruct u as [u|].
  - destruct c as [|[j f] c]; [congruence|]. eexists. split; [reflexivity|]. cbn beta iota. destruct Hu as [Hs Hm].
    exists ((j, f) :: c), f. split; [now left|]. split; [reflexivity|]. split; [now left|]. cbn [a2 label2 dom2]. split; [reflexivity|]. split; [reflexivity|].
    split; [apply Hs; now left|exact Hm].
  - exists r. split; [destruct c as [|[] c]; exact Er|]. destruct r as [[js new]|].
    + destruct IH as (c' & f & I & H). exists c', f. split; [now right|exact H].
    + intros c' [<-|I]; [exact Hu|now apply IH].
Qed.

Definition irreducible (n : nat) (g : list affine2) : Prop := forall c, sub c g -> length c = n -> ~ convex_set (defined c).

Lemma merge_group_ok : forall n g, (2 <= n)%nat -> uniform g -> Forall (solid_piece d) g ->
  exists g' b, merge_group E n g = Ret (g', b) /\ uniform g' /\ Forall (solid_piece d) g' /\
    (forall f, In f g' -> exists h, In h g /\ same_function f h) /\
    (forall x v, takes g' x v <-> takes g x v) /\
    if b then (length g' < length g)%nat else g' = g /\ irreducible n g.
Proof.
  intros n g Hn U F. unfold merge_group. set (idx := combine (seq 0 (length g)) g).
  assert (Ef : map fst idx = seq 0 (length g)) by apply map_fst_combine_seq.
  assert (Es : map snd idx = g) by apply map_snd_combine_seq.
  destruct (first_union_ok (combs n idx)) as (r & Er & H).
  { apply Forall_forall. intros c Ic. apply combs_sub in Ic as [Sc Lc]. split; [destruct c; [simpl in Lc; lia|discriminate]|].
    apply Forall_forall. intros f If. rewrite Forall_forall in F. apply F. rewrite <- Es. apply (sub_incl _ _ _ (sub_map _ _ snd _ _ Sc)). exact If. }
  rewrite Er. cbn [bind]. destruct r as [[js new]|].
  - destruct H as (c & f & Ic & -> & If & Ea & El & Hs & Hm). apply combs_sub in Ic as [Sc Lc].
    fold (outside (map fst c)). set (rest := map snd (filter (outside (map fst c)) idx)).
    assert (P : Permutation g (map snd c ++ rest)).
    { rewrite <- Es. unfold rest. rewrite <- map_app. apply Permutation_map. apply split_perm; [rewrite Ef; apply seq_NoDup|exact Sc]. }
    exists (rest ++ [new]), true. split; [reflexivity|].
    assert (Ig : In f g) by (apply (Permutation_in _ (Permutation_sym P)); apply in_app_iff; auto).
    assert (Sf : same_function new f) by (split; [auto|rewrite Ea; apply Forall2_same]).
    assert (Hsame : forall k, In k (rest ++ [new]) -> exists h, In h g /\ same_function k h).
    { intros k Ik. apply in_app_iff in Ik as [Ik|[<-|[]]]; [|exists f; auto]. exists k. split; [|apply same_function_refl].
      apply (Permutation_in _ (Permutation_sym P)). apply in_app_iff. auto. }
    split; [|split; [|split; [exact Hsame|split]]].
    + split; [destruct rest; discriminate|]. intros k h Ik Ih. destruct (Hsame k Ik) as (k' & Ik' & Sk). destruct (Hsame h Ih) as (h' & Ih' & Sh).
      destruct U as [_ U]. eapply same_function_trans; [exact Sk|]. eapply same_function_trans; [apply (U k' h' Ik' Ih')|]. now apply same_function_sym.
    + apply Forall_app. split; [|repeat constructor; auto; apply Hs]. apply (Permutation_Forall P) in F. apply Forall_app in F. tauto.
    + intros x v. rewrite takes_app.
      assert (X : takes g x v <-> takes (map snd c) x v \/ takes rest x v).
      { rewrite <- takes_app. split; apply takes_perm; [exact P|now symmetry]. }
      rewrite X. assert (Y : takes [new] x v <-> takes (map snd c) x v); [|tauto]. split.
      * intros (k & [<-|[]] & M & V). apply Hm in M as (h & Ih & Mh). exists h. split; [auto|]. split; [auto|].
        rewrite <- V. apply Forall2_row. rewrite Ea. apply U; [apply (Permutation_in _ (Permutation_sym P)); apply in_app_iff; auto|auto].
      * intros (h & Ih & Mh & V). exists new. split; [now left|]. split; [apply Hm; exists h; auto|].
        rewrite <- V. apply Forall2_row. rewrite Ea. apply U; [auto|apply (Permutation_in _ (Permutation_sym P)); apply in_app_iff; auto].
    + rewrite (Permutation_length P), !app_length, map_length. simpl. lia.
  - exists g, false. split; [reflexivity|]. split; [auto|]. split; [auto|]. split; [intros f If; exists f; split; [auto|apply same_function_refl]|]. split; [tauto|].
    split; [reflexivity|]. intros c Sc Lc. rewrite <- Es in Sc. apply sub_map_inv in Sc as (c' & -> & Sc'). apply H. apply combs_sub. split; [auto|]. now rewrite map_length in Lc.
Qed.

(** What stays true of the groups. *)
Definition refines (gs' gs : list (list affine2)) : Prop :=
  Forall uniform gs' /\ distinct_groups gs' /\ Forall (Forall (solid_piece d)) gs' /\
  (forall f, In f (concat gs') -> exists h, In h (concat gs) /\ same_function f h) /\
  (forall x v, takes (concat gs') x v <-> takes (concat gs) x v).

Lemma iteration_ok : forall n gs, (2 <= n)%nat -> Forall uniform gs -> distinct_groups gs -> Forall (Forall (solid_piece d)) gs ->
  exists gs' b, iteration E n gs = Ret (gs', b) /\ refines gs' gs /\
    if b then (length (concat gs') < length (concat gs))%nat else gs' = gs /\ Forall (irreducible n) gs.
Proof.
  intros n gs Hn U D F. unfold iteration.
  assert (X : exists rs, mapM (merge_group E n) gs = Ret rs /\ Forall uniform (map fst rs) /\ Forall (Forall (solid_piece d)) (map fst rs) /\
    Forall2 (fun g' g => forall f, In f g' -> exists h, In h g /\ same_function f h) (map fst rs) gs /\
    (forall x v, takes (concat (map fst rs)) x v <-> takes (concat gs) x v) /\
    if existsb snd rs then (length (concat (map fst rs)) < length (concat gs))%nat else map fst rs = gs /\ Forall (irreducible n) gs).
  { clear D. induction U as [|g gs Ug U IH]; [exists []; split; [reflexivity|]; split; [apply Forall_nil|]; split; [apply Forall_nil|]; split; [apply Forall2_nil|]; split; [intros; reflexivity|]; split; [reflexivity|apply Forall_nil]|].
    apply Forall_cons_iff in F as [Fg F]. destruct (IH F) as (rs & Er & Hu & Hs & H2 & Ht & Hb).
    destruct (merge_group_ok n g Hn Ug Fg) as (g' & b & Eg & Hu' & Hs' & H2' & Ht' & Hb').
    exists ((g', b) :: rs). cbn [mapM]. rewrite Eg. cbn [bind]. rewrite Er. cbn [bind map fst snd existsb concat]. split; [reflexivity|].
    split; [constructor; auto|]. split; [constructor; auto|]. split; [constructor; auto|]. split; [intros x v; rewrite !takes_app, Ht', Ht; tauto|].
    rewrite !app_length. destruct b; cbn [orb].
    - destruct (existsb snd rs); [lia|]. destruct Hb as [Hb _]. rewrite Hb. lia.
    - destruct Hb' as [-> Hi]. destruct (existsb snd rs); [lia|]. destruct Hb as [-> Hb]. split; [reflexivity|constructor; auto]. }
  destruct X as (rs & Er & Hu & Hs & H2 & Ht & Hb). rewrite Er. cbn [bind]. exists (map fst rs), (existsb snd rs). split; [reflexivity|]. split; [|exact Hb].
  split; [exact Hu|]. split; [|split; [exact Hs|split; [|exact Ht]]].
  - clear - D H2. revert D. induction H2 as [|g' g gs' gs H H2 IH]; intro D; [exact I|]. destruct D as [A D]. split; [|auto].
    clear IH D. induction H2 as [|k' k gs' gs H' H2 IH]; constructor.
    + apply Forall_inv in A. intros f q If Iq Sfq. destruct (H f If) as (f0 & If0 & Sf). destruct (H' q Iq) as (q0 & Iq0 & Sq). apply (A f0 q0 If0 Iq0).
      apply (same_function_trans _ f); [apply same_function_sym; exact Sf|]. apply (same_function_trans _ q); auto.
    + apply IH. now apply Forall_inv_tail in A.
  - intros f If. apply in_concat in If as (g' & Ig' & If). clear - H2 Ig' If. induction H2 as [|k' k gs' gs H' H2 IH]; [destruct Ig'|]. cbn [concat].
    destruct Ig' as [<-|Ig'].
    + destruct (H' f If) as (h & Ih & S). exists h. split; [apply in_app_iff; auto|auto].
    + destruct (IH Ig') as (h & Ih & S). exists h. split; [apply in_app_iff; auto|auto].
Qed.

Lemma refines_refl : forall gs, Forall uniform gs -> distinct_groups gs -> Forall (Forall (solid_piece d)) gs -> refines gs gs.
Proof. intros gs U D F. split; [auto|]. split; [auto|]. split; [auto|]. split; [|tauto]. intros f If. exists f. split; [auto|apply same_function_refl]. Qed.

Lemma refines_trans : forall a b c, refines a b -> refines b c -> refines a c.
Proof.
  intros a b c (U & D & F & S & T) (_ & _ & _ & S' & T'). split; [auto|]. split; [auto|]. split; [auto|]. split.
  - intros f If. destruct (S f If) as (h & Ih & Sh). destruct (S' h Ih) as (k & Ik & Sk). exists k. split; [auto|]. eapply same_function_trans; eauto.
  - intros x v. now rewrite T, T'.
Qed.

Lemma iterate_ok : forall n fuel gs, (2 <= n)%nat -> Forall uniform gs -> distinct_groups gs -> Forall (Forall (solid_piece d)) gs ->
  (length (concat gs) < fuel)%nat ->
  exists gs', iterate E fuel n gs = Ret gs' /\ refines gs' gs /\ (length (concat gs') <= length (concat gs))%nat /\ Forall (irreducible n) gs'.
Proof.
  intros n. induction fuel as [|fuel IH]; intros gs Hn U D F L; [lia|]. cbn [iterate].
  destruct (iteration_ok n gs Hn U D F) as (gs1 & b & E1 & R1 & Hb). rewrite E1. cbn [bind]. destruct b.
  - destruct R1 as (U1 & D1 & F1 & S1 & T1). destruct (IH gs1 Hn U1 D1 F1 ltac:(lia)) as (gs2 & E2 & R2 & L2 & H2).
    exists gs2. split; [exact E2|]. split; [|split; [lia|exact H2]]. eapply refines_trans; [exact R2|]. split; auto.
  - destruct Hb as [-> Hi]. exists gs. split; [reflexivity|]. split; [exact R1|]. split; [lia|exact Hi].
Qed.

Lemma iterate_all_ok : forall ns gs, Forall (fun n => (2 <= n)%nat) ns -> Forall uniform gs -> distinct_groups gs -> Forall (Forall (solid_piece d)) gs ->
  exists gs', iterate_all E ns gs = Ret gs' /\ refines gs' gs /\ (length (concat gs') <= length (concat gs))%nat /\
    forall n ns', ns = ns' ++ [n] -> Forall (irreducible n) gs'.
Proof.
  induction ns as [|n ns IH]; intros gs Fn U D F.
  - exists gs. split; [reflexivity|]. split; [now apply refines_refl|]. split; [lia|]. intros n ns' K. destruct ns'; discriminate.
  - apply Forall_cons_iff in Fn as [Hn Fn]. cbn [iterate_all].
    destruct (iterate_ok n (S (length (concat gs))) gs Hn U D F ltac:(lia)) as (gs1 & E1 & R1 & L1 & H1). rewrite E1. cbn [bind].
    pose proof R1 as (U1 & D1 & F1 & _). destruct (IH gs1 Fn U1 D1 F1) as (gs2 & E2 & R2 & L2 & H2). exists gs2. split; [exact E2|].
    split; [eapply refines_trans; eauto|]. split; [lia|]. intros m ns' K. destruct ns' as [|a ns'].
    + simpl in K. injection K as <- ->. cbn [iterate_all] in E2. injection E2 as <-. exact H1.
    + simpl in K. injection K as <- K. now apply (H2 m ns').
Qed.

Lemma one_group : forall gs c, distinct_groups gs -> sub c (concat gs) -> c <> [] -> (forall f h, In f c -> In h c -> same_function f h) -> exists g, In g gs /\ sub c g.
Proof.
  induction gs as [|g gs IH]; intros c D S N H; cbn [concat] in S.
  - inversion S; subst. congruence.
  - apply sub_app_inv in S as (c1 & c2 & -> & S1 & S2). destruct D as [A D]. destruct c1 as [|f c1].
    + destruct (IH c2 D S2 N H) as (h & Ih & Sh). exists h. split; [now right|exact Sh].
    + destruct c2 as [|k c2].
      * exists g. rewrite app_nil_r. split; [now left|auto].
      * exfalso. assert (Ik : In k (concat gs)) by (apply (sub_incl _ _ _ S2); now left). apply in_concat in Ik as (h & Ih & Ik).
        rewrite Forall_forall in A. apply (A h Ih f k); [apply (sub_incl _ _ _ S1); now left|auto|].
        apply H; [now left|]. apply in_app_iff. right. now left.
Qed.

Lemma simplify_ok : forall ps m, Forall (solid_piece d) ps -> exists out, pw_simplify E ps m = Ret out /\
  Forall (solid_piece d) out /\ (length out <= length ps)%nat /\
  (forall f, In f out -> exists h, In h ps /\ same_function f h) /\
  (forall x v, takes out x v <-> takes ps x v) /\
  ((2 <= m)%nat -> forall c, sub c out -> length c = m -> (forall f h, In f c -> In h c -> same_function f h) -> ~ convex_set (defined c)).
Proof.
  intros ps m F. unfold pw_simplify. destruct (group_pieces_ok ps) as (P & U & D).
  assert (FG : Forall (Forall (solid_piece d)) (group_pieces ps)).
  { apply Forall_forall. intros g Ig. apply Forall_forall. intros f If. rewrite Forall_forall in F. apply F.
    apply (Permutation_in _ P). apply in_concat. eauto. }
  destruct (iterate_all_ok (seq 2 (m - 1)) (group_pieces ps)) as (gs & Eg & (U' & D' & F' & S' & T') & L & H); auto.
  { apply Forall_forall. intros n In_. apply in_seq in In_. lia. }
  rewrite Eg. cbn [bind]. eexists. split; [reflexivity|]. split; [|split; [|split; [|split]]].
  - apply Forall_forall. intros f If. apply in_concat in If as (g & Ig & If). rewrite Forall_forall in F'. specialize (F' g Ig). rewrite Forall_forall in F'. auto.
  - rewrite <- (Permutation_length P). exact L.
  - intros f If. destruct (S' f If) as (h & Ih & Sh). exists h. split; [now apply (Permutation_in _ P)|auto].
  - intros x v. rewrite T'. split; apply takes_perm; [exact P|now symmetry].
  - intros Hm c Sc Lc Hc. destruct (one_group gs c D' Sc) as (g & Ig & Sg); [destruct c; [simpl in Lc; lia|discriminate]|auto|].
    assert (Hi : Forall (irreducible m) gs).
    { apply (H m (seq 2 (m - 2))). replace (m - 1)%nat with (m - 2 + 1)%nat by lia. rewrite seq_app. simpl. f_equal. f_equal. lia. }
    rewrite Forall_forall in Hi. exact (Hi g Ig c Sg Lc).
Qed.
End Ext.
