(** Closed connected surfaces have Euler characteristic at most 2. *)
From Coq Require Import List Bool ZArith Arith Lia Relations.
From Verif Require Import MBase MDict PDict MComb SComb PClos PComb.
Import ListNotations.
Local Open Scope nat_scope.

Section G.
Context {L : Type} `{EqB L}.
Notation A := (L * nat)%type.
Notation clos := (clos_refl_sym_trans A).

(** ** merging one pair loses at most one class *)
Lemma merge_pair (D : A -> Prop) (R : A -> A -> Prop) n a b : D a -> D b -> has_classes D (clos R) n ->
  exists m, n <= m + 1 /\ has_classes D (clos (add_pair R a b)) m.
Proof.
  intros Da Db [reps [R1 [R2 [R3 [R4 R5]]]]].
  assert (SY : forall u v, clos R u v -> clos R v u) by (intros; now apply rst_sym).
  assert (TR : forall u v w, clos R u v -> clos R v w -> clos R u w) by (intros; eapply rst_trans; eauto).
  assert (MO : forall u v, clos R u v -> clos (add_pair R a b) u v) by (intros; apply clos_add; auto).
  destruct (R4 a Da) as [ra [Ia Ca]], (R4 b Db) as [rb [Ib Cb]].
  destruct (eq_dec_of ra rb) as [<-|N].
  - exists n. split; [lia|]. exists reps. do 3 (split; auto). split.
    + intros x Dx. destruct (R4 x Dx) as [y [Y1 Y2]]. eauto.
    + intros x y Hx Hy C. apply R5; auto. apply clos_add in C.
      assert (AB : clos R a b) by eauto.
      destruct C as [C|[[C1 C2]|[C1 C2]]]; eauto.
  - destruct (in_split _ _ Ia) as [l1 [l2 E]].
    assert (NDl : NoDup (l1 ++ l2) /\ ~ In ra (l1 ++ l2)) by (rewrite E in R2; apply NoDup_remove in R2; auto).
    assert (IN : forall x, In x reps <-> x = ra \/ In x (l1 ++ l2)).
    { intros x. rewrite E, !in_app_iff. cbn. split; intuition. }
    assert (Ib' : In rb (l1 ++ l2)) by (apply IN in Ib; intuition congruence).
    exists (length (l1 ++ l2)). split; [rewrite <- R1, E, !app_length; cbn; lia|].
    exists (l1 ++ l2). split; auto. split; [tauto|]. split; [intros x Hx; apply R3, IN; auto|]. split.
    + intros x Dx. destruct (R4 x Dx) as [y [Y1 Y2]]. apply IN in Y1. destruct Y1 as [->|Y1]; [|eauto].
      exists rb. split; auto. apply clos_add. right. left. split; eauto.
    + intros x y Hx Hy C. apply clos_add in C.
      assert (X : forall z, In z (l1 ++ l2) -> clos R z a -> False).
      { intros z Hz Cz. assert (z = ra); [|subst; tauto]. apply R5; auto; [apply IN; auto|]. eauto. }
      destruct C as [C|[[C1 C2]|[C1 C2]]]; [apply R5; auto; apply IN; auto| |]; exfalso; eauto.
Qed.
Fixpoint add_pairs (R : A -> A -> Prop) (ps : list (A * A)) : A -> A -> Prop :=
  match ps with nil => R | p :: ps => add_pairs (add_pair R (fst p) (snd p)) ps end.
Lemma add_pairs_iff ps : forall R x y, add_pairs R ps x y <-> R x y \/ In (x, y) ps.
Proof.
  induction ps as [|[a b] ps IH]; intros R x y; cbn; [tauto|]. rewrite IH. unfold add_pair. cbn.
  split; [intros [[X|[-> ->]]|X]; auto|intros [X|[[= -> ->]|X]]; auto].
Qed.
Lemma merge_pairs (D : A -> Prop) ps : forall (R : A -> A -> Prop) n, (forall p, In p ps -> D (fst p) /\ D (snd p)) ->
  has_classes D (clos R) n -> (forall x y, D x -> D y -> clos (add_pairs R ps) x y) -> n <= 1 + length ps.
Proof.
  induction ps as [|p ps IH]; intros R n Dp C All.
  - cbn in *. destruct C as [reps [R1 [R2 [R3 [R4 R5]]]]]. destruct reps as [|x [|y reps]]; cbn in R1; try lia.
    exfalso. inversion R2; subst. apply H2. left. apply R5; cbn; auto. apply All; apply R3; cbn; auto.
  - destruct (merge_pair D R n (fst p) (snd p)) as [m [Hm C']]; auto; try (apply Dp; cbn; auto).
    cbn [add_pairs] in All. specialize (IH _ m (fun q Hq => Dp q (or_intror Hq)) C' All). cbn. lia.
Qed.

(** ** a spanning tree of the dual graph *)
Variable S : csurf L.
Variable CV : cvalid S.
Variable CC : cclosed S.
Variable NV : forall l, In l (c_labels S) -> 0 < c_nv S l.

Definition cut (T : list A) d := In d T \/ exists c, c_opp S d = Some c /\ In c T.
Definition uncut_step (T : list A) x y := corner_step S x y \/ (is_dart S x /\ y = dnext S x /\ ~ cut T x).
Notation joined T := (clos (uncut_step T)).

Lemma opp_total d : is_dart S d -> exists c, c_opp S d = Some c /\ is_dart S c /\ c_opp S c = Some d.
Proof.
  intros D. destruct (c_opp S d) as [c|] eqn:E; [|now apply CC in E]. exists c. split; auto. now apply (cv_opp S CV).
Qed.
Lemma corner_cross d c : is_dart S d -> c_opp S d = Some c -> corner_step S (dnext S d) c.
Proof.
  intros D O. destruct d as [l e], c as [l' e']. destruct (cv_opp S CV _ _ D O) as [D' _].
  exists l, e, l', e'. split; auto. split; auto. right. unfold same_corner, dnext. cbn. split; auto. split; auto.
  rewrite Nat.mod_small; auto. apply D'.
Qed.
(** going around a polygon from the end of an edge, not using that edge *)
Lemma around T d : is_dart S d -> (forall x, is_dart S x -> fst x = fst d -> x <> d -> ~ cut T x) ->
  forall x, is_dart S x -> fst x = fst d -> joined T (dnext S d) x.
Proof.
  destruct d as [l e]. intros D U. pose proof (proj2 D) as De. cbn [fst snd] in De.
  assert (G : forall j, j < c_nv S l -> joined T (dnext S (l, e)) (l, (e + 1 + j) mod c_nv S l)).
  { induction j as [|j IH]; intros Hj.
    - rewrite Nat.add_0_r. apply rst_refl.
    - eapply rst_trans; [apply IH; lia|]. apply rst_step. right.
      assert (Dx : is_dart S (l, (e + 1 + j) mod c_nv S l)) by (split; [apply D|cbn; apply Nat.mod_upper_bound; lia]).
      split; [auto|]. split.
      + unfold dnext. cbn. f_equal. rewrite Nat.add_mod_idemp_l by lia. f_equal. lia.
      + apply U; auto. intros [= X]. destruct (le_lt_dec (c_nv S l) (e + 1 + j)).
        * replace (e + 1 + j) with ((e + 1 + j - c_nv S l) + 1 * c_nv S l) in X by lia.
          rewrite Nat.mod_add, Nat.mod_small in X by lia. lia.
        * rewrite Nat.mod_small in X by lia. lia. }
  intros [l' k] [Dx1 Dx2] E. cbn in E, Dx2. subst l'.
  destruct (le_lt_dec (e + 1) k).
  - specialize (G (k - (e + 1)) ltac:(lia)). replace (e + 1 + (k - (e + 1))) with k in G by lia. rewrite Nat.mod_small in G; auto.
  - specialize (G (k + c_nv S l - (e + 1)) ltac:(lia)). replace (e + 1 + (k + c_nv S l - (e + 1))) with (k + 1 * c_nv S l) in G by lia.
    rewrite Nat.mod_add, Nat.mod_small in G by lia. auto.
Qed.

Record tree (W : list L) (T : list A) : Prop := {
  tr_labels : NoDup W /\ forall l, In l W -> In l (c_labels S);
  tr_darts : NoDup T /\ forall d, In d T -> is_dart S d /\ In (fst d) W /\
     exists c, c_opp S d = Some c /\ In (fst c) W /\ ~ In c T;
  tr_size : length W = length T + 1;
  tr_joined : forall x y, is_dart S x -> is_dart S y -> In (fst x) W -> In (fst y) W -> joined T x y }.

Lemma tree_start l : In l (c_labels S) -> tree [l] [].
Proof.
  intros I. constructor; cbn.
  - split; [constructor; [intros []|constructor]|]. intros l' [<-|[]]. auto.
  - split; [constructor|]. intros d [].
  - auto.
  - intros x y Dx Dy [E0|[]] [E|[]].
    assert (U : forall z, ~ cut [] z) by (intros z [[]|[c [_ []]]]).
    pose proof (around [] x Dx (fun z _ _ _ => U z)) as A0.
    eapply rst_trans; [apply rst_sym, (A0 x); auto|]. apply A0; auto; congruence.
Qed.
Lemma tree_grow W T d c : tree W T -> is_dart S d -> c_opp S d = Some c -> In (fst d) W -> ~ In (fst c) W ->
  tree (fst c :: W) (d :: T).
Proof.
  intros [[NW LW] [NT DT] SZ J] D O Id Nc.
  destruct (cv_opp S CV d c D O) as [Dc Oc].
  assert (NdT : ~ In d T). { intros I. destruct (DT d I) as [_ [_ [c' [O' [I' _]]]]]. rewrite O in O'. injection O' as <-. auto. }
  assert (NcT : ~ In c T). { intros I. destruct (DT c I) as [_ [I' _]]. auto. }
  assert (U : forall x, is_dart S x -> fst x = fst c -> x <> c -> ~ cut (d :: T) x).
  { intros x Dx E N [[<-|I]|[y [Oy [<-|I]]]].
    - rewrite E in Id. auto.
    - destruct (DT x I) as [_ [I' _]]. rewrite E in I'. auto.
    - destruct (cv_opp S CV x d Dx Oy) as [_ X]. congruence.
    - destruct (DT y I) as [_ [_ [z [Oz [I' _]]]]]. destruct (cv_opp S CV x y Dx Oy) as [_ X].
      assert (z = x) by congruence. subst z. rewrite E in I'. auto. }
  pose proof (around (d :: T) c Dc U) as AR.
  assert (CR : forall x y, corner_step S x y -> joined (d :: T) x y) by (intros; apply rst_step; now left).
  assert (DN : joined (d :: T) d (dnext S d)).
  { eapply rst_trans; [apply rst_sym, CR, (corner_cross c d); auto|].
    eapply rst_trans; [apply (AR c); auto|]. apply rst_sym, CR, corner_cross; auto. }
  assert (CN : joined (d :: T) c (dnext S c)) by (apply rst_sym, AR; auto).
  assert (MO : forall x y, joined T x y -> joined (d :: T) x y).
  { intros x y. apply clos_join. clear x y. intros x y [C|[Dx [-> Nx]]]; auto.
    destruct (eq_dec_of x d) as [->|N1]; auto. destruct (eq_dec_of x c) as [->|N2]; auto.
    apply rst_step. right. split; auto. split; auto. intros [[X|X]|[z [Oz [<-|X]]]]; [congruence| | |].
    - apply Nx. now left.
    - destruct (cv_opp S CV x d Dx Oz) as [_ X]. congruence.
    - apply Nx. right. eauto. }
  constructor.
  - split; [constructor; auto|]. intros l [<-|I]; auto. apply Dc.
  - split; [constructor; auto|]. intros x [<-|I].
    + split; auto. split; [now right|]. exists c. split; auto. split; [now left|]. intros [->|I]; auto.
    + destruct (DT x I) as [X1 [X2 [y [X3 [X4 X5]]]]]. split; auto. split; [now right|]. exists y. split; auto. split; [now right|].
      intros [<-|Y]; auto. destruct (cv_opp S CV x d X1 X3) as [_ Y]. assert (x = c) by congruence. subst. auto.
  - cbn. rewrite SZ. lia.
  - assert (TO : forall x, is_dart S x -> In (fst x) (fst c :: W) -> joined (d :: T) d x).
    { intros x Dx [E|I]; [|apply MO, J; auto].
      eapply rst_trans; [apply rst_sym, CR, (corner_cross c d); auto|]. apply AR; auto. }
    intros x y Dx Dy Ix Iy. eapply rst_trans; [apply rst_sym, TO; auto|]. apply TO; auto.
Qed.
Lemma tree_exit W : cconnected S -> (forall l, In l W -> In l (c_labels S)) -> forall l l', In l W -> In l' (c_labels S) -> ~ In l' W ->
  exists d c, is_dart S d /\ c_opp S d = Some c /\ In (fst d) W /\ ~ In (fst c) W.
Proof.
  intros CN LW l l' I I' N.
  assert (G : forall u v, clos_refl_sym_trans L (face_step S) u v -> (In u W <-> In v W) \/
    exists d c, is_dart S d /\ c_opp S d = Some c /\ In (fst d) W /\ ~ In (fst c) W).
  { induction 1 as [u v [e [e' [D O]]]|u|u v C IH|u v w C1 IH1 C2 IH2]; [|left; tauto| |].
    - destruct (In_dec_of u W) as [P|P], (In_dec_of v W) as [Q|Q]; [left; tauto| | |left; tauto]; right.
      + exists (u, e), (v, e'). auto.
      + destruct (cv_opp S CV _ _ D O). exists (v, e'), (u, e). auto.
    - destruct IH; [left; tauto|auto].
    - destruct IH1; auto. destruct IH2; auto. left. tauto. }
  destruct (G _ _ (CN l l' (LW l I) I')) as [X|X]; auto. tauto.
Qed.
Lemma tree_all : cconnected S -> forall k, k < length (c_labels S) -> exists W T, length W = k + 1 /\ tree W T.
Proof.
  intros CN k. pose proof (cv_labels S CV) as ND. induction k as [|k IH]; intros Hk.
  - destruct (c_labels S) as [|l ls] eqn:E; [cbn in Hk; lia|]. exists [l], []. split; auto. apply tree_start. rewrite E. cbn. auto.
  - destruct IH as [W [T [LW TR]]]; [lia|].
    assert (X : exists l', In l' (c_labels S) /\ ~ In l' W).
    { destruct (existsb (fun l => negb (mem l W)) (c_labels S)) eqn:E.
      - apply existsb_exists in E. destruct E as [l' [I E]]. exists l'. split; auto. apply mem_not_In. now apply negb_true_iff.
      - exfalso. assert (IC : incl (c_labels S) W).
        { intros l I. destruct (In_dec_of l W); auto. exfalso. rewrite <- not_true_iff_false in E. apply E.
          apply existsb_exists. exists l. split; auto. apply negb_true_iff. now apply mem_not_In. }
        pose proof (NoDup_incl_length ND IC). lia. }
    destruct X as [l' [I' N']]. destruct W as [|l W]; [cbn in LW; lia|].
    destruct (tree_exit (l :: W) CN) with (l := l) (l' := l') as [d [c [D [O [X1 X2]]]]]; auto; [apply (tr_labels _ _ TR)|cbn; auto|].
    exists (fst c :: l :: W), (d :: T). split; [cbn in *; lia|]. apply tree_grow; auto.
Qed.

(** the glued pairs that are not in the tree *)
Lemma uncut_pairs T : NoDup T -> (forall d, In d T -> is_dart S d /\ exists c, c_opp S d = Some c /\ ~ In c T) ->
  forall n ds, length ds <= n -> NoDup ds -> (forall d, In d ds -> is_dart S d) ->
  (forall d c, In d ds -> c_opp S d = Some c -> In c ds) ->
  forall X, NoDup X -> incl X ds -> (forall d, In d X -> In d T) -> (forall d, In d T -> In d ds -> In d X) ->
  exists N, (forall d, In d N -> is_dart S d) /\
     (forall d, In d ds -> c_opp S d <> Some d -> ~ cut T d -> In d N \/ exists c, c_opp S d = Some c /\ In c N) /\
     2 * (length X + length N) + length (filter (folded S) ds) = length ds.
Proof.
  intros NT DT. induction n as [|n IH]; intros ds Ln ND DA CL X NX XI XT TX.
  - destruct ds; [|cbn in Ln; lia]. destruct X as [|x X]; [|destruct (XI x); cbn; auto]. exists []. cbn. split; [intros d []|]. split; [intros d []|]. auto.
  - destruct ds as [|d ds].
    { destruct X as [|x X]; [|destruct (XI x); cbn; auto]. exists []. cbn. split; [intros d []|]. split; [intros d []|]. auto. }
    assert (Dd : is_dart S d) by (apply DA; cbn; auto).
    destruct (opp_total d Dd) as [c [O [Dc Oc]]]. inversion ND as [|? ? Nd ND']; subst.
    destruct (eq_dec_of c d) as [->|Ncd].
    + (* folded *)
      assert (Xd : ~ In d X). { intros I. apply XT in I. destruct (DT d I) as [_ [z [Oz Nz]]]. assert (z = d) by congruence. subst. auto. }
      destruct (IH ds) with (X := X) as [N [N1 [N2 N3]]]; auto.
      { cbn in Ln. lia. } { intros; apply DA; cbn; auto. }
      { intros x y Hx Oy. destruct (CL x y (or_intror Hx) Oy) as [<-|]; auto.
        destruct (cv_opp S CV x d) as [_ Z]; auto; [apply DA; cbn; auto|]. assert (x = d) by congruence. now subst. }
      { intros x Hx. destruct (XI x Hx) as [<-|]; auto. contradiction. }
      { intros x Hx Hd. apply TX; auto. now right. }
      exists N. split; auto. split.
      * intros x [<-|Hx] F; [contradiction|]. auto.
      * cbn [filter]. unfold folded at 1. rewrite O, eqb_refl. cbn [length]. lia.
    + assert (Ic : In c ds) by (destruct (CL d c (or_introl eq_refl) O); [congruence|auto]).
      destruct (in_split _ _ Ic) as [l1 [l2 Hl]].
      assert (NDl : NoDup (l1 ++ l2) /\ ~ In c (l1 ++ l2)) by (rewrite Hl in ND'; apply NoDup_remove in ND'; auto).
      assert (IN : forall x, In x ds <-> x = c \/ In x (l1 ++ l2)).
      { intros x. rewrite Hl, !in_app_iff. cbn. split; intuition. }
      assert (OP : forall x y, In x (l1 ++ l2) -> c_opp S x = Some y -> In y (l1 ++ l2)).
      { intros x y Hx Oy. assert (Ix : In x ds) by (apply IN; auto).
        destruct (CL x y (or_intror Ix) Oy) as [<-|Iy].
        - destruct (cv_opp S CV x d) as [_ Z]; auto; [apply DA; cbn; auto|]. rewrite O in Z. injection Z as ->. tauto.
        - apply IN in Iy. destruct Iy as [->|Iy]; auto.
          destruct (cv_opp S CV x c) as [_ Z]; auto; [apply DA; cbn; auto|]. rewrite Oc in Z. injection Z as <-. contradiction. }
      assert (Ln' : length (l1 ++ l2) <= n) by (rewrite Hl in Ln; cbn in Ln; rewrite app_length in *; cbn in Ln; lia).
      assert (DA' : forall x, In x (l1 ++ l2) -> is_dart S x) by (intros x Hx; apply DA; right; apply IN; auto).
      assert (Lf : length (filter (folded S) (d :: ds)) = length (filter (folded S) (l1 ++ l2))).
      { cbn [filter]. unfold folded at 1. rewrite O, (proj2 (eqb_neq c d) Ncd). rewrite Hl, !filter_app. cbn [filter].
        unfold folded at 2. rewrite Oc, (proj2 (eqb_neq d c)) by congruence. now rewrite !app_length. }
      assert (Ll : length (d :: ds) = length (l1 ++ l2) + 2) by (rewrite Hl; cbn; rewrite !app_length; cbn; lia).
      assert (Rest : forall N t, In t [d; c] -> In t T ->
        (forall x, In x (l1 ++ l2) -> c_opp S x <> Some x -> ~ cut T x -> In x N \/ exists z, c_opp S x = Some z /\ In z N) ->
        forall x, In x (d :: ds) -> c_opp S x <> Some x -> ~ cut T x -> In x N \/ exists z, c_opp S x = Some z /\ In z N).
      { intros N t It Tt HN x Hx F Nc. destruct Hx as [<-|Hx]; [|apply IN in Hx; destruct Hx as [->|Hx]; [|auto]].
        - exfalso. apply Nc. destruct It as [<-|[<-|[]]]; [now left|right; eauto].
        - exfalso. apply Nc. destruct It as [<-|[<-|[]]]; [right; eauto|now left]. }
      assert (Tboth : In d T -> In c T -> False).
      { intros I1 I2. destruct (DT d I1) as [_ [z [Oz Nz]]]. assert (z = c) by congruence. now subst. }
      assert (RM : forall t o, In t X -> (t = d /\ o = c \/ t = c /\ o = d) -> exists X', length X = Datatypes.S (length X') /\ NoDup X' /\
         incl X' (l1 ++ l2) /\ (forall x, In x X' -> In x T) /\ (forall x, In x T -> In x (l1 ++ l2) -> In x X')).
      { intros t o It TO. destruct (in_split _ _ It) as [m1 [m2 E]].
        assert (NDm : NoDup (m1 ++ m2) /\ ~ In t (m1 ++ m2)) by (rewrite E in NX; apply NoDup_remove in NX; auto).
        assert (IM : forall x, In x X <-> x = t \/ In x (m1 ++ m2)).
        { intros x. rewrite E, !in_app_iff. cbn. split; intuition. }
        exists (m1 ++ m2). split; [rewrite E, !app_length; cbn; lia|]. split; [tauto|]. split; [|split].
        - intros x Hx. assert (x <> t) by (intros ->; tauto). assert (Xx : In x X) by (apply IM; auto).
          assert (x <> o). { intros ->. apply XT in It, Xx. destruct TO as [[-> ->]|[-> ->]]; auto. }
          destruct (XI x Xx) as [<-|Hd]; [destruct TO as [[-> ->]|[-> ->]]; congruence|].
          apply IN in Hd. destruct Hd as [->|]; auto. destruct TO as [[-> ->]|[-> ->]]; congruence.
        - intros x Hx. apply XT, IM. auto.
        - intros x Hx Hi. assert (Xx : In x X) by (apply TX; auto; right; apply IN; auto).
          apply IM in Xx. destruct Xx as [->|]; auto. exfalso.
          destruct TO as [[-> ->]|[-> ->]]; [apply Nd, IN; auto|tauto]. }
      destruct (In_dec_of d X) as [Xd|Xd]; [|destruct (In_dec_of c X) as [Xc|Xc]].
      * destruct (RM d c Xd) as [X' [L1 [L2 [L3 [L4 L5]]]]]; auto.
        destruct (IH (l1 ++ l2)) with (X := X') as [N [N1 [N2 N3]]]; auto; [tauto|].
        exists N. split; auto. split; [apply (Rest N d); cbn; auto|]. rewrite Lf, Ll, L1. lia.
      * destruct (RM c d Xc) as [X' [L1 [L2 [L3 [L4 L5]]]]]; auto.
        destruct (IH (l1 ++ l2)) with (X := X') as [N [N1 [N2 N3]]]; auto; [tauto|].
        exists N. split; auto. split; [apply (Rest N c); cbn; auto|]. rewrite Lf, Ll, L1. lia.
      * destruct (IH (l1 ++ l2)) with (X := X) as [N [N1 [N2 N3]]]; auto; [tauto| | |].
        { intros x Hx. destruct (XI x Hx) as [<-|Hd]; [contradiction|]. apply IN in Hd. destruct Hd as [->|]; [contradiction|auto]. }
        { intros x Hx Hi. apply TX; auto. right. apply IN. auto. }
        exists (d :: N). split; [intros x [<-|Hx]; auto|]. split; [|rewrite Lf, Ll; cbn [length]; lia].
        intros x [<-|Hx] F Nc; [left; now left|]. apply IN in Hx. destruct Hx as [->|Hx].
        -- right. exists d. split; auto. now left.
        -- destruct (N2 x Hx F Nc) as [|[z [Z1 Z2]]]; [left; now right|right; exists z; split; auto; now right].
Qed.

Lemma chi_le_2 V : cconnected S -> c_labels S <> nil -> has_classes (is_dart S) (same_vertex S) V ->
  2 * (V + length (c_labels S)) + length (filter (folded S) (darts S)) <= length (darts S) + 4.
Proof.
  intros CN NE HV. destruct (tree_all CN (length (c_labels S) - 1)) as [W [T [LW TR]]].
  { destruct (c_labels S); [congruence|cbn; lia]. }
  assert (LS : length (c_labels S) > 0) by (destruct (c_labels S); [congruence|cbn; lia]).
  pose proof (cv_labels S CV) as NDL.
  assert (WA : forall l, In l (c_labels S) -> In l W).
  { intros l I. refine (@NoDup_length_incl L W (c_labels S) _ _ _ l I); [apply (tr_labels _ _ TR)|lia|intros z; apply (tr_labels _ _ TR)]. }
  destruct (tr_darts _ _ TR) as [NT DT].
  destruct (uncut_pairs T) with (n := length (darts S)) (ds := darts S) (X := T) as [N [N1 [N2 N3]]]; auto.
  { intros d I. destruct (DT d I) as [X1 [X2 [c [X3 [X4 X5]]]]]. eauto. }
  { now apply NoDup_darts. } { intros d. apply In_darts. }
  { intros d c Hd O. apply In_darts in Hd. apply In_darts. apply (cv_opp S CV d c Hd O). }
  { intros d I. apply In_darts. now apply DT. }
  pose proof (tr_size _ _ TR) as SZ.
  assert (B : V <= 1 + length (map (fun d => (d, dnext S d)) N)).
  { apply (merge_pairs (is_dart S)) with (R := corner_step S); auto.
    - intros p I. apply in_map_iff in I. destruct I as [d [<- I]]. cbn. split; auto. apply dnext_dart. auto.
    - intros x y Dx Dy. pose proof (tr_joined _ _ TR x y Dx Dy (WA _ (proj1 Dx)) (WA _ (proj1 Dy))) as J.
      revert J. apply clos_join. clear x y Dx Dy. intros x y [C|[Dx [-> Nx]]].
      + apply rst_step, add_pairs_iff. auto.
      + destruct (opp_total x Dx) as [c [O [Dc Oc]]].
        assert (MO : forall u v, corner_step S u v -> clos (add_pairs (corner_step S) (map (fun d => (d, dnext S d)) N)) u v)
          by (intros; apply rst_step, add_pairs_iff; auto).
        assert (NS : forall z, In z N -> clos (add_pairs (corner_step S) (map (fun d => (d, dnext S d)) N)) z (dnext S z)).
        { intros z Hz. apply rst_step, add_pairs_iff. right. apply in_map_iff. eauto. }
        destruct (eq_dec_of c x) as [->|NF].
        * apply rst_sym, MO, corner_cross; auto.
        * destruct (N2 x) as [I|[z [Oz Iz]]]; auto; [now apply In_darts|congruence|].
          assert (z = c) by congruence. subst z.
          eapply rst_trans; [apply rst_sym, MO, (corner_cross c x); auto|].
          eapply rst_trans; [apply rst_sym, NS; auto|]. apply rst_sym, MO, corner_cross; auto. }
  rewrite map_length in B. lia.
Qed.
End G.
