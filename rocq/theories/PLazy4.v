(** The triangulation morphism. *)
From Coq Require Import List Bool ZArith Arith Lia Permutation.
From Verif Require Import OField FMicromega MBase MDict PDict MEuclid PEuclid SSim MPoly PPoly MMut SMut PMut PMut2 PMut3 TMut MSurf SSurf SPoint PPoint PSimple PFlip SCut MEar SEar PEar4 PEar5 MLazy SLazy PLazy PLazy2 PLazy3 TPoly2 PJordan PJordan2 PJordan3 PJordan4 PJordan5.
Import ListNotations.
Open Scope nat_scope.

Section T.
Context {K : OField}.
Local Open Scope F_scope.
Lemma tri_proper (p q r : vec K) : 0 < orient p q r -> proper [p; q; r].
Proof. intros H. pose proof (tri_ok p q r H) as X. apply (proj1 (C51_vertices _ _ _)) in X. apply X. Qed.
Lemma tri_position (p q r x : vec K) : 0 < orient p q r -> (get_point_position [p; q; r] x <> Outside <-> left_or_on [p; q; r] x).
Proof.
  intros H. destruct (triangulate_ok _ (tri_proper p q r H)) as (s & outer & ET & T & _).
  unfold triangulate, triangulate_in in ET. cbn [length Nat.ltb Nat.leb Nat.eqb] in ET. unfold mbind at 1 in ET.
  destruct (add_polygon_spec (@length (vec K) : polygon K -> nat) empty ([p; q; r] : polygon K) None) as (s1 & r1 & EA & _ & _ & _ & _ & _ & _ & HH).
  { apply (g_inv _ empty). apply intact_good. constructor. }
  destruct (HH eq_refl) as [(k & -> & _ & _ & _ & Y & _)|(k & X & _)]; [|discriminate]. rewrite EA in ET. unfold mlift in ET.
  destruct (bidict _) as [d|]; [|discriminate]. injection ET as <- <-. rewrite <- (tr_cover _ _ _ T x). split.
  - intros (l & Q & G & L). apply get_polygon_Ok in G. rewrite Y in G. cbn in G. destruct (Z.eqb l k); [|discriminate]. injection G as <-. exact L.
  - intros L. exists k, [p; q; r]. split; auto. apply get_polygon_Ok. rewrite Y. cbn. now rewrite Z.eqb_refl.
Qed.
Lemma tri_contains (p q r x : vec K) : 0 < orient p q r -> exists b, contains_point [p; q; r] x = Ok b /\ (b = true <-> left_or_on [p; q; r] x).
Proof.
  intros H. unfold contains_point. assert (C : is_convex false [p; q; r] = true).
  { unfold is_convex. cbn [length seq forallb]. unfold edge, vertex. cbn [length Nat.modulo Nat.divmod fst snd nth Nat.sub].
    unfold orient, ccw in H. destruct p, q, r. unfold ccw. cbn in *. rewrite !andb_true_iff, !negb_true_iff. repeat split; flra. }
  rewrite C. eexists. split; [reflexivity|]. rewrite <- (tri_position p q r x H). destruct (get_point_position [p; q; r] x); split; congruence.
Qed.
Lemma vadd_sub (v q : vec K) : vadd v (vsub q v) = q.
Proof. destruct v, q. unfold vadd, vsub. cbn. f_equal; flra. Qed.
(** edges in opposite directions *)
Ltac three H e := destruct e as [|[|[|e]]]; [| | |cbn in H; lia].
Lemma rev_one (x y z : vec K) e : 0 < orient x y z -> (e < length [x; y; z])%nat -> y = vertex [x; y; z] e -> x = vertex [x; y; z] (S e) -> False.
Proof.
  intros O H A B. three H e; cbn in A, B; (try rewrite A in O); (try rewrite B in O); unfold orient, ccw in O; destruct x, y, z; cbn in *; flra.
Qed.
Lemma rev_rot (x y z : vec K) e : 0 < orient x y z -> (e < length [x; y; z])%nat -> z = vertex [x; y; z] e -> y = vertex [x; y; z] (S e) -> False.
Proof.
  intros O H A B. three H e; cbn in A, B; (try rewrite A in O); (try rewrite B in O); unfold orient, ccw in O; destruct x, y, z; cbn in *; flra.
Qed.
Lemma rev_rot2 (x y z : vec K) e : 0 < orient x y z -> (e < length [x; y; z])%nat -> x = vertex [x; y; z] e -> z = vertex [x; y; z] (S e) -> False.
Proof.
  intros O H A B. three H e; cbn in A, B; (try rewrite A in O); (try rewrite B in O); unfold orient, ccw in O; destruct x, y, z; cbn in *; flra.
Qed.
Lemma rev_two (x y z a b c : vec K) e e' : 0 < orient x y z -> 0 < orient a b c -> (e < length [a; b; c])%nat -> (e' < length [a; b; c])%nat ->
  y = vertex [a; b; c] e -> x = vertex [a; b; c] (S e) -> z = vertex [a; b; c] e' -> y = vertex [a; b; c] (S e') -> False.
Proof.
  intros O O' H H' A B C E. three H e; three H' e'; cbn in A, B, C, E; rewrite B, C, A in O; rewrite A in E; (try rewrite E in O'); clear A B C; (try rewrite E in O); clear E; unfold orient, ccw in O, O'; destruct a, b, c; cbn in *; flra.
Qed.
End T.

Section L.
Context {K : OField}.
Notation nv := (@length (vec K) : polygon K -> nat).
Variables (S : surface K Z) (D : Z -> bool) (ls : option (list Z)).
Hypothesis (DP : forall l, D l = true -> exists P, s_poly S l = Ok P /\ proper P).
Notation tri := (triangulated ls).
Implicit Types (P Q : polygon K) (t : tlabel) (l : Z) (q c : vec K).

Lemma image_edge_ok l P re : D l = true -> s_poly S l = Ok P -> re < length P ->
  exists t Q e, image_edge S ls l re = Ok (t, e) /\ part S ls l t Q /\ e < length Q /\ same_edge Q e P re.
Proof.
  intros DL E L. destruct (image_total S D ls DP l DL) as (P' & im & E' & PR & EI). rewrite E in E'. injection E' as <-.
  destruct (outer_edge S D ls DP l P im re DL E EI L) as (t & Q & e & A & B & C & F & G). exists t, Q, e. split; auto.
  unfold image_edge. rewrite EI. exact A.
Qed.
Lemma image_edge_inv l re t e P : D l = true -> s_poly S l = Ok P -> image_edge S ls l re = Ok (t, e) ->
  re < length P /\ exists Q, part S ls l t Q /\ e < length Q /\ same_edge Q e P re.
Proof.
  intros DL E H. destruct (tri l) eqn:TL.
  - destruct (image_tri S D ls DP l DL TL) as (P' & im & E' & PR & EI & SU). rewrite E in E'. injection E' as <-.
    unfold image_edge in H. rewrite EI in H. cbn [bind] in H. apply dgetE_Ok in H. apply (outer_piece l P im SU re (t, e)) in H. cbn [fst snd] in H.
    destruct H as (L & Q & PC & LE & V1 & V2 & _). split; auto. exists Q. split; [left; split; auto; exists im, P; auto|]. split; auto. now split.
  - destruct (image_keep S ls l P E TL) as (s & EI & _). unfold image_edge in H. rewrite EI in H. cbn [bind im_outer] in H. apply dgetE_Ok, dget_In, in_map_iff in H.
    destruct H as (k & X & H). injection X as -> <- <-. apply in_seq in H. split; [lia|]. exists P. split; [right; auto|]. split; [lia|now split].
Qed.
(** an edge of the triangulation is the image of at most one edge *)
Lemma image_edge_once l re re' x : D l = true -> image_edge S ls l re = Ok x -> image_edge S ls l re' = Ok x -> re = re'.
Proof.
  intros DL A B. destruct (tri l) eqn:TL.
  - destruct (image_tri S D ls DP l DL TL) as (P & im & E & PR & EI & SU). unfold image_edge in A, B. rewrite EI in A, B. cbn [bind] in A, B.
    apply dgetE_Ok in A, B. exact (outer_once l P im SU re re' x A B).
  - destruct (DP l DL) as (P & E & _). destruct (image_keep S ls l P E TL) as (s & EI & _). unfold image_edge in A, B. rewrite EI in A, B. cbn [bind im_outer] in A, B.
    apply dgetE_Ok, dget_In, in_map_iff in A, B. destruct A as (k & A & _), B as (k' & B & _). congruence.
Qed.

(** the point is in a triangle at the boundary of the polygon *)
Definition near l P q (es : list nat) := exists re t e Q, In re es /\ image_edge S ls l re = Ok (t, e) /\ lazy_polygon S D ls t = Ok Q /\ left_or_on Q q.
Lemma image_loop l P q es : D l = true -> tri l = true -> s_poly S l = Ok P -> (forall e, In e es -> e < length P) ->
  (near l P q es -> exists t Q re e, image_point_loop S D ls l P q es = Ok (t, q) /\ In re es /\ image_edge S ls l re = Ok (t, e) /\ part S ls l t Q /\ left_or_on Q q) /\
  (~ near l P q es -> image_point_loop S D ls l P q es = Err AssertionError) /\
  (forall x, image_point_loop S D ls l P q es = Ok x -> near l P q es).
Proof.
  intros DL TL E. induction es as [|re es IH]; intros H.
  - split; [intros (re & t & e & Q & [] & _)|]. split; [reflexivity|discriminate].
  - destruct IH as (I1 & I2 & I3); [intros e I; apply H; now right|].
    destruct (image_edge_ok l P re DL E (H re (or_introl eq_refl))) as (t & Q & e & EI & PT & LE & V1 & V2).
    pose proof (lazy_polygon_part S D ls l t Q DL PT) as EQ.
    destruct (part_proper S D ls l t Q DL PT) as (P' & E' & X). rewrite E in E'. injection E' as <-. destruct (X TL) as (a & b & c & _ & _ & _ & X1 & X2).
    assert (CP : exists b, contains_point Q q = Ok b /\ (b = true <-> left_or_on Q q)) by (rewrite X1; now apply tri_contains).
    destruct CP as (bb & CP1 & CP2).
    cbn [image_point_loop]. rewrite EI. cbn [bind fst snd]. rewrite EQ. cbn [bind]. rewrite V1, vadd_sub, CP1. cbn [bind].
    destruct bb.
    + assert (LO : left_or_on Q q) by now apply CP2.
      assert (NR : near l P q (re :: es)) by (exists re, t, e, Q; split; [now left|auto]).
      split; [intros _; exists t, Q, re, e; split; auto; split; [now left|auto]|]. split; [tauto|auto].
    + assert (EQV : near l P q (re :: es) <-> near l P q es).
      { split.
        - intros (re' & t' & e' & Q' & [<-|I] & A & B & C); [|exists re', t', e', Q'; auto]. rewrite EI in A. injection A as <- <-. rewrite EQ in B. injection B as <-.
          apply CP2 in C. discriminate.
        - intros (re' & t' & e' & Q' & I & A & B & C). exists re', t', e', Q'. split; [now right|auto]. }
      rewrite EQV. split; [intros N; destruct (I1 N) as (t1 & Q1 & re1 & e1 & A & B & C); exists t1, Q1, re1, e1; split; auto; split; auto; now right|]. split; auto. intros x HX. apply EQV. now apply (I3 x).
Qed.
(** all pieces that are not at the boundary have three neighbours *)
Lemma near_small l P q : D l = true -> tri l = true -> s_poly S l = Ok P -> length P <= 5 -> get_point_position P q <> Outside -> near l P q (seq 0 (length P)).
Proof.
  intros DL TL E L5 NO. destruct (image_tri S D ls DP l DL TL) as (P' & im & E' & PR & EI & SU). rewrite E in E'. injection E' as <-.
  apply (piece_cover l P im SU) in NO. destruct NO as (t & Q & PC & LO). pose proof (piece_len l P im SU t Q PC) as L3.
  assert (PT : part S ls l t Q) by (left; split; auto; exists im, P; auto).
  assert (OK : (exists re e, re < length P /\ im_inverse im (t, e) = Some re) -> near l P q (seq 0 (length P))).
  { intros (re & e & LR & I). exists re, t, e, Q. split; [apply in_seq; lia|]. split; [unfold image_edge; rewrite EI; cbn [bind]; apply dgetE_Ok; now apply (im_inverse_ok l P im SU)|].
    split; auto. now apply (lazy_polygon_part S D ls l t Q). }
  assert (HE : forall e, e < 3 -> (exists re, re < length P /\ im_inverse im (t, e) = Some re) \/
     exists t' e' Q', piece im t' Q' /\ e' < length Q' /\ vertex Q e = vertex Q' (Datatypes.S e') /\ vertex Q (Datatypes.S e) = vertex Q' e').
  { intros e H. destruct (piece_edge l P im SU t Q e PC ltac:(lia)) as [(re & A & B & _)|(_ & t' & e' & Q' & _ & A & B & _ & _ & C & F)].
    - left. now exists re.
    - right. exists t', e', Q'. auto. }
  destruct (HE 0 ltac:(lia)) as [(re & A & B)|(t0 & e0 & Q0 & P0 & N0 & A0 & B0)]; [apply OK; now exists re, 0|].
  destruct (HE 1 ltac:(lia)) as [(re & A & B)|(t1 & e1 & Q1 & P1 & N1 & A1 & B1)]; [apply OK; now exists re, 1|].
  destruct (HE 2 ltac:(lia)) as [(re & A & B)|(t2 & e2 & Q2 & P2 & N2 & A2 & B2)]; [apply OK; now exists re, 2|].
  exfalso. clear OK HE.
  (** the three neighbours are different from each other and from [t] *)
  destruct (piece_shape l P im SU t Q PC) as (_ & a & b & c & _ & _ & _ & EQ & O).
  destruct (piece_shape l P im SU t0 Q0 P0) as (_ & a0 & b0 & c0 & _ & _ & _ & EQ0 & O0).
  destruct (piece_shape l P im SU t1 Q1 P1) as (_ & a1 & b1 & c1 & _ & _ & _ & EQ1 & O1).
  destruct (piece_shape l P im SU t2 Q2 P2) as (_ & a2 & b2 & c2 & _ & _ & _ & EQ2 & O2).
  set (x := vertex P a) in *. set (y := vertex P b) in *. set (z := vertex P c) in *. clearbody x y z.
  assert (A0' : x = vertex Q0 (Datatypes.S e0)) by (rewrite <- A0, EQ; reflexivity). assert (B0' : y = vertex Q0 e0) by (rewrite <- B0, EQ; reflexivity).
  assert (A1' : y = vertex Q1 (Datatypes.S e1)) by (rewrite <- A1, EQ; reflexivity). assert (B1' : z = vertex Q1 e1) by (rewrite <- B1, EQ; reflexivity).
  assert (A2' : z = vertex Q2 (Datatypes.S e2)) by (rewrite <- A2, EQ; reflexivity). assert (B2' : x = vertex Q2 e2) by (rewrite <- B2, EQ; reflexivity).
  pose proof (orient_rot1 x y z) as R1. pose proof (orient_rot1 y z x) as R2.
  destruct PC as (i & G & ->), P0 as (i0 & G0 & ->), P1 as (i1 & G1 & ->), P2 as (i2 & G2 & ->).
  assert (X1 : i <> i0) by (intros X; rewrite <- X, G in G0; injection G0 as <-; rewrite EQ in *; exact (rev_one x y z e0 O N0 B0' A0')).
  assert (X2 : i <> i1) by (intros X; rewrite <- X, G in G1; injection G1 as <-; rewrite EQ in *; exact (rev_rot x y z e1 O N1 B1' A1')).
  assert (X3 : i <> i2) by (intros X; rewrite <- X, G in G2; injection G2 as <-; rewrite EQ in *; exact (rev_rot2 x y z e2 O N2 B2' A2')).
  assert (X4 : i0 <> i1) by (intros X; rewrite <- X, G0 in G1; injection G1 as <-; rewrite EQ0 in *; exact (rev_two x y z _ _ _ e0 e1 O O0 N0 N1 B0' A0' B1' A1')).
  assert (X5 : i1 <> i2) by (intros X; rewrite <- X, G1 in G2; injection G2 as <-; rewrite R1 in O; rewrite EQ1 in *; exact (rev_two y z x _ _ _ e1 e2 O O1 N1 N2 B1' A1' B2' A2')).
  assert (X6 : i2 <> i0) by (intros X; rewrite <- X, G2 in G0; injection G0 as <-; rewrite R1, R2 in O; rewrite EQ2 in *; exact (rev_two z x y _ _ _ e2 e0 O O2 N2 N0 B2' A2' B0' A0')).
  destruct (su_outer0 _ _ _ SU) as (outer & T & _).
  assert (H : forall j R, get_polygon (im_surf im) j = Ok R -> (0 <= j < Z.of_nat (length P) - 2)%Z) by (intros j R GR; apply (tr_labels _ _ _ T); now exists R).
  apply H in G, G0, G1, G2. lia.
Qed.
End L.
