(** Proofs about similarity surfaces: gluing maps, type tests. *)
From Coq Require Import List Bool ZArith Arith Lia Ring Field.
From Verif Require Import OField FMicromega PField MBase MDict PDict MEuclid SEuclid PEuclid MSim SSim PSim MPoly PPoly
  MMut MSurf SSurf.
Import ListNotations.

Section P.
Context {K : OField}.
Add Field KF : (of_ft K).
Local Open Scope F_scope.
Implicit Types (a b p q u v : vec K).

Lemma fsq_eq_pos (x y : K) : 0 < x -> 0 < y -> x * x = y * y -> x = y.
Proof.
  intros A B E. assert (Z : (x - y) * (x + y) = 0) by (transitivity (x*x - y*y); [ring|rewrite E; ring]).
  apply fmul_eq0 in Z. destruct Z; flra.
Qed.

Lemma lagrange a b q : orient a b q * orient a b q =
  dist2 a b * dist2 a q - dot (vsub b a) (vsub q a) * dot (vsub b a) (vsub q a).
Proof. destruct a, b, q. unfold orient, ccw, dist2, dot. cbn. ring. Qed.
Lemma polar a b q : 2 * dot (vsub b a) (vsub q a) = dist2 a b + dist2 a q - dist2 b q.
Proof. destruct a, b, q. unfold dist2, dot. cbn. ring. Qed.
Lemma two_neq0 : (2 : K) <> 0.
Proof. pose proof (@flt_0_1 K). apply fpos_neq0. flra. Qed.
Lemma half_inj (x y : K) : 2 * x = 2 * y -> x = y.
Proof. intros E. flra. Qed.

Lemma dist2_nz a b : a <> b -> 0 < dist2 a b.
Proof. intros N. apply vnz. intros E. apply N. symmetry. now apply vsub_eq0. Qed.

Lemma coords_unique a b q q' : a <> b ->
  dot (vsub b a) (vsub q a) = dot (vsub b a) (vsub q' a) -> orient a b q = orient a b q' -> q = q'.
Proof.
  intros N E F. assert (D : 0 < dist2 a b) by now apply dist2_nz.
  apply fpos_neq0 in D. unfold orient, ccw, dist2, dot in *.
  destruct a as [a1 a2], b as [b1 b2], q as [x y], q' as [x' y']. cbn in *.
  set (d1 := b1 - a1) in *. set (d2 := b2 - a2) in *.
  assert (D' : d1 * d1 + d2 * d2 <> 0) by (intros Z; apply D; rewrite <- Z; unfold d1, d2; ring).
  assert (X : (d1 * d1 + d2 * d2) * (x - x') = 0).
  { transitivity (d1 * ((d1 * (x - a1) + d2 * (y - a2)) - (d1 * (x' - a1) + d2 * (y' - a2)))
                - d2 * ((d1 * (y - a2) - d2 * (x - a1)) - (d1 * (y' - a2) - d2 * (x' - a1)))); [ring|].
    rewrite E, F. ring. }
  assert (Y : (d1 * d1 + d2 * d2) * (y - y') = 0).
  { transitivity (d2 * ((d1 * (x - a1) + d2 * (y - a2)) - (d1 * (x' - a1) + d2 * (y' - a2)))
                + d1 * ((d1 * (y - a2) - d2 * (x - a1)) - (d1 * (y' - a2) - d2 * (x' - a1)))); [ring|].
    rewrite E, F. ring. }
  apply fmul_eq0 in X. apply fmul_eq0 in Y. destruct X, Y; try tauto. apply vec_eq; cbn; flra.
Qed.

Lemma orient_swap a b q : orient b a q = - orient a b q.
Proof. destruct a, b, q. unfold orient, ccw. cbn. ring. Qed.

(** a similarity that preserves the orientation is determined by the images of two points *)
Lemma rigid F c (f : sim K) a b : map_similarity F c -> map_orientation_preserving F -> a <> b ->
  sg_sign f = true -> sim_ok f -> sim_apply f a = F a -> sim_apply f b = F b ->
  forall p, F p = sim_apply f p.
Proof.
  intros [C H] O N S Kf Ea Eb p.
  assert (D : 0 < dist2 a b) by now apply dist2_nz.
  destruct (sim_is_similarity f Kf) as [Cp _].
  assert (EC : c = sg_a f * sg_a f + sg_b f * sg_b f).
  { assert (Z : (c - (sg_a f * sg_a f + sg_b f * sg_b f)) * dist2 a b = 0).
    { transitivity (c * dist2 a b - (sg_a f * sg_a f + sg_b f * sg_b f) * dist2 a b); [ring|].
      rewrite <- H, <- sim_dist2, Ea, Eb. ring. }
    apply fmul_eq0 in Z. destruct Z as [Z|Z]; flra. }
  assert (DD : forall r, dist2 (F r) (F p) = dist2 (F r) (sim_apply f p) \/ sim_apply f r <> F r).
  { intros r. destruct (vec_dec (sim_apply f r) (F r)) as [Er|Er]; auto. left.
    rewrite H, <- Er, sim_dist2, EC. reflexivity. }
  assert (Da : dist2 (F a) (F p) = dist2 (F a) (sim_apply f p)) by (destruct (DD a); tauto).
  assert (Db : dist2 (F b) (F p) = dist2 (F b) (sim_apply f p)) by (destruct (DD b); tauto).
  assert (NN : F a <> F b).
  { intros E. assert (Z : dist2 (F a) (F b) = 0) by (rewrite E; unfold dist2, dot; destruct (F b); cbn; ring).
    rewrite H in Z. apply fmul_eq0 in Z. destruct Z; flra. }
  assert (DOT : dot (vsub (F b) (F a)) (vsub (F p) (F a)) = dot (vsub (F b) (F a)) (vsub (sim_apply f p) (F a))).
  { apply half_inj. rewrite !polar, Da, Db. reflexivity. }
  apply (coords_unique (F a) (F b)); auto.
  assert (SQ : orient (F a) (F b) (F p) * orient (F a) (F b) (F p) =
               orient (F a) (F b) (sim_apply f p) * orient (F a) (F b) (sim_apply f p)).
  { rewrite !lagrange, DOT, Da. reflexivity. }
  assert (OF : orient (F a) (F b) (sim_apply f p) = c * orient a b p).
  { rewrite <- Ea, <- Eb, sim_orient. unfold sim_det, sgn. rewrite S, EC. ring. }
  destruct (fltb_total K (orient a b p) 0) as [Z|[Z|Z]].
  - assert (P1 : 0 < orient b a p) by (rewrite orient_swap; change (orient a b p < 0) in Z; flra).
    apply O in P1. rewrite orient_swap in P1.
    change (orient a b p < 0) in Z.
    assert (P2 : 0 < - orient (F a) (F b) (sim_apply f p)) by (rewrite OF; fnra).
    assert (X : - orient (F a) (F b) (F p) = - orient (F a) (F b) (sim_apply f p)).
    { apply fsq_eq_pos; auto. transitivity (orient (F a) (F b) (F p) * orient (F a) (F b) (F p)); [ring|].
      rewrite SQ. ring. }
    flra.
  - rewrite Z in OF. rewrite OF in SQ |- *.
    assert (X : orient (F a) (F b) (F p) * orient (F a) (F b) (F p) = 0) by (rewrite SQ; ring).
    apply fmul_eq0 in X. transitivity (0 : K); [tauto|ring].
  - change (0 < orient a b p) in Z. pose proof (O _ _ _ Z) as P1.
    apply fsq_eq_pos; auto. rewrite OF. fnra.
Qed.

Context {L : Type}.
Implicit Types (S : surface K L) (D : L -> Prop).

Lemma edge_neq (P : polygon K) e : edge P e <> vzero -> vertex P e <> vertex P (Datatypes.S e).
Proof. intros N E. apply N. unfold edge. rewrite E. destruct (vertex P (Datatypes.S e)). apply vec_eq; cbn; ring. Qed.

Lemma sim_make_ok (a b : vec K) : a <> b ->
  sim_make (fst b - fst a) (snd b - snd a) (fst a) (snd a) true =
  Ok (Sim (fst b - fst a) (snd b - snd a) (fst a) (snd a) true) /\
  sim_ok (Sim (fst b - fst a) (snd b - snd a) (fst a) (snd a) true) /\
  sim_apply (Sim (fst b - fst a) (snd b - snd a) (fst a) (snd a) true) (0, 0) = a /\
  sim_apply (Sim (fst b - fst a) (snd b - snd a) (fst a) (snd a) true) (1, 0) = b.
Proof.
  intros N.
  assert (Z : (fst b - fst a) * (fst b - fst a) + (snd b - snd a) * (snd b - snd a) <> 0).
  { intros Z. apply fsum_sq_eq0 in Z. apply N. apply vec_eq; flra. }
  unfold sim_make. rewrite (proj2 (feqb_false _ _) Z). repeat split.
  - apply sim_ok_nz. exact Z.
  - apply vec_eq; cbn; ring.
  - apply vec_eq; cbn; ring.
Qed.

Lemma glued_partner D S l e P l' e' P' : valid D S -> glued_at D S l e P l' e' P' ->
  D l' /\ (e' < length P')%nat /\ s_opp S l' e' = Ok (Some (l, e)) /\
  edge P e <> vzero /\ edge P' e' <> vzero /\ (3 <= length P)%nat /\ (3 <= length P')%nat.
Proof.
  intros V [A B C O B'].
  destruct (v_opp _ _ V l P e A B C) as [X|[l2 [e2 [P2 [X [Dl [Pl [Lt Back]]]]]]]]; [congruence|].
  rewrite X in O. injection O as -> ->. rewrite Pl in B'. injection B' as ->.
  destruct (v_poly _ _ V l A) as [Q [Q1 [Q2 Q3]]]. rewrite B in Q1. injection Q1 as <-.
  destruct (v_poly _ _ V l' Dl) as [R [R1 [R2 R3]]]. rewrite Pl in R1. injection R1 as <-. repeat split; auto.
Qed.

Lemma glued_sym D S l e P l' e' P' : valid D S -> glued_at D S l e P l' e' P' -> glued_at D S l' e' P' l e P.
Proof.
  intros V G. destruct (glued_partner _ _ _ _ _ _ _ _ V G) as [A [B [C _]]].
  destruct G. constructor; auto.
Qed.

(** [edge_transformation] and [edge_matrix] *)
Lemma edge_transformation_raw (S : surface K L) l e P l' e' P' : s_poly S l = Ok P -> s_opp S l e = Ok (Some (l', e')) -> s_poly S l' = Ok P' ->
  edge P e <> vzero -> edge P' e' <> vzero ->
  exists f, edge_transformation S l e = Ok f /\ sim_ok f /\ sg_sign f = true /\
    sim_apply f (vertex P e) = vertex P' (Datatypes.S e') /\
    sim_apply f (vertex P (Datatypes.S e)) = vertex P' e'.
Proof.
  intros GP GO GP' E E'.
  apply edge_neq in E. apply edge_neq in E'. apply not_eq_sym in E'.
  destruct (sim_make_ok _ _ E) as [M1 [M2 [M3 M4]]]. destruct (sim_make_ok _ _ E') as [N1 [N2 [N3 N4]]].
  exists (sim_div (Sim (fst (vertex P' e') - fst (vertex P' (Datatypes.S e')))
                       (snd (vertex P' e') - snd (vertex P' (Datatypes.S e')))
                       (fst (vertex P' (Datatypes.S e'))) (snd (vertex P' (Datatypes.S e'))) true)
           (Sim (fst (vertex P (Datatypes.S e)) - fst (vertex P e)) (snd (vertex P (Datatypes.S e)) - snd (vertex P e))
                (fst (vertex P e)) (snd (vertex P e)) true)).
  set (g := Sim (fst (vertex P (Datatypes.S e)) - fst (vertex P e)) _ _ _ _) in *.
  set (gg := Sim (fst (vertex P' e') - _) _ _ _ _) in *.
  repeat split.
  - unfold edge_transformation. rewrite GP. unfold bind at 1. rewrite !Nat.add_1_r.
    cbv zeta. rewrite M1. unfold bind at 1. unfold opp_pair. rewrite GO. cbn [bind fst snd].
    rewrite GP'. cbn [bind]. rewrite !Nat.add_1_r, N1. reflexivity.
  - rewrite sim_div_mul by auto. apply sim_ok_mul; auto. now apply sim_ok_inv.
  - rewrite sim_div_mul, sim_mul_apply by auto. rewrite <- M3 at 1. rewrite sim_inv_apply by auto. exact N3.
  - rewrite sim_div_mul, sim_mul_apply by auto. rewrite <- M4 at 1. rewrite sim_inv_apply by auto. exact N4.
Qed.

Lemma edge_transformation_ok D S l e P l' e' P' : valid D S -> glued_at D S l e P l' e' P' ->
  exists f, edge_transformation S l e = Ok f /\ sim_ok f /\ sg_sign f = true /\
    sim_apply f (vertex P e) = vertex P' (Datatypes.S e') /\
    sim_apply f (vertex P (Datatypes.S e)) = vertex P' e'.
Proof.
  intros V G. destruct (glued_partner _ _ _ _ _ _ _ _ V G) as [A [B [C [E [E' _]]]]].
  destruct G. now apply (edge_transformation_raw S l e P l' e' P').
Qed.

Lemma edge_matrix_ok D S l e P l' e' P' f : valid D S -> glued_at D S l e P l' e' P' ->
  edge_transformation S l e = Ok f -> edge_matrix S l e = Ok (sim_derivative f).
Proof.
  intros V G F. destruct (glued_partner _ _ _ _ _ _ _ _ V G) as [A [B [C [E [E' _]]]]].
  destruct (edge_transformation_ok _ _ _ _ _ _ _ _ V G) as [f' [F' [Kf [Sf [Fa Fb]]]]].
  rewrite F in F'. injection F' as <-.
  unfold edge_matrix. rewrite (ga_poly _ _ _ _ _ _ _ _ G). cbn [bind]. unfold opp_pair.
  rewrite (ga_opp _ _ _ _ _ _ _ _ G). cbn [bind fst snd]. rewrite (ga_poly' _ _ _ _ _ _ _ _ G). cbn [bind]. f_equal.
  destruct (similarity_from_vectors_spec (edge P e) (vopp (edge P' e')) E) as [S1 [S2 S3]].
  apply (rotation_matrix_unique _ _ (edge P e)); auto.
  - unfold sim_derivative, sgn. rewrite Sf. cbn. ring.
  - unfold sim_derivative, sgn. rewrite Sf. cbn. ring.
  - rewrite S1. unfold edge at 2. rewrite <- sim_derivative_spec, Fa, Fb. unfold edge. apply vec_eq; cbn; ring.
Qed.

Lemma gluing_map_iff D S l e P l' e' P' f : valid D S -> glued_at D S l e P l' e' P' ->
  edge_transformation S l e = Ok f ->
  forall F, gluing_map P e P' e' F <-> forall p, F p = sim_apply f p.
Proof.
  intros V G Ef F. destruct (glued_partner _ _ _ _ _ _ _ _ V G) as [A [B [C [E [E' _]]]]].
  destruct (edge_transformation_ok _ _ _ _ _ _ _ _ V G) as [f' [F' [Kf [Sf [Fa Fb]]]]].
  rewrite Ef in F'. injection F' as <-. split.
  - intros [[c Sc] O Ma Mb]. apply (rigid F c f (vertex P e) (vertex P (Datatypes.S e))); auto; try congruence.
    now apply edge_neq.
  - intros X. destruct (sim_is_similarity f Kf) as [Cp Cs]. constructor.
    + eexists. split; [exact Cp|]. intros p q. rewrite !X. apply Cs.
    + intros p q r. rewrite !X. apply (sim_is_orientable_spec f Kf). exact Sf.
    + rewrite X. exact Fa.
    + rewrite X. exact Fb.
Qed.

Lemma edge_transformation_inverse D S l e P l' e' P' f : valid D S -> glued_at D S l e P l' e' P' ->
  edge_transformation S l e = Ok f -> edge_transformation S l' e' = Ok (sim_inv f).
Proof.
  intros V G Ef. pose proof (glued_sym _ _ _ _ _ _ _ _ V G) as G'.
  destruct (edge_transformation_ok _ _ _ _ _ _ _ _ V G) as [f1 [F1 [Kf [Sf [Fa Fb]]]]].
  rewrite Ef in F1. injection F1 as <-.
  destruct (edge_transformation_ok _ _ _ _ _ _ _ _ V G') as [g [G1 [Kg [Sg [Ga Gb]]]]].
  rewrite G1. f_equal. apply sim_faithful; auto. intros p.
  destruct (glued_partner _ _ _ _ _ _ _ _ V G) as [_ [_ [_ [_ [E' _]]]]].
  destruct (sim_is_similarity g Kg) as [Cp Cs]. pose proof (sim_ok_inv f Kf) as Ki.
  apply (rigid (sim_apply g) (sg_a g * sg_a g + sg_b g * sg_b g) (sim_inv f) (vertex P' e') (vertex P' (Datatypes.S e'))).
  - split; auto.
  - apply sim_is_orientable_spec; auto.
  - now apply edge_neq.
  - exact Sf.
  - exact Ki.
  - rewrite Ga, <- Fb. now apply sim_inv_apply.
  - rewrite Gb, <- Fa. now apply sim_inv_apply.
Qed.

(** ** the scanning loop *)
Context `{EqB L}.

(** a test on matrices that holds for the inverse of a matrix if it holds for the matrix *)
Lemma scan_edges_spec D S test : valid D S ->
  (forall f, sim_ok f -> sg_sign f = true -> test (sim_derivative f) = true -> test (sim_derivative (sim_inv f)) = true) ->
  forall l P, D l -> s_poly S l = Ok P -> forall es checked, (forall e, In e es -> (e < length P)%nat) ->
  (forall l0 e0, In (l0, e0) checked -> exists P0 f, D l0 /\ s_poly S l0 = Ok P0 /\ (e0 < length P0)%nat /\
                   edge_transformation S l0 e0 = Ok f /\ test (sim_derivative f) = true) ->
  exists (b : bool) checked', scan_edges S test l es checked = Ok (b, checked') /\
  (b = true <-> forall e l' e' P' f, In e es -> glued_at D S l e P l' e' P' -> edge_transformation S l e = Ok f ->
                  test (sim_derivative f) = true) /\
  (forall l0 e0, In (l0, e0) checked' -> exists P0 f, D l0 /\ s_poly S l0 = Ok P0 /\ (e0 < length P0)%nat /\
                   edge_transformation S l0 e0 = Ok f /\ test (sim_derivative f) = true).
Proof.
  intros V T l P Dl Pl. induction es as [|e es IH]; intros checked Hes Hc.
  - exists true, checked. cbn. repeat split; auto. all: intros; tauto.
  - cbn [scan_edges].
    destruct (v_opp _ _ V l P e Dl Pl (Hes e (or_introl eq_refl))) as [X|[l2 [e2 [P2 [X [Dl2 [Pl2 [Lt2 Back]]]]]]]].
    + rewrite X. cbn [bind]. destruct (IH checked) as [b [ch [R [B1 B2]]]]; auto.
      { intros e0 I. apply Hes. now right. }
      exists b, ch. split; [exact R|]. split; [|exact B2]. rewrite B1. split.
      * intros Y e0 l' e' P' f [<-|I] G Ef; [|eapply Y; eauto]. destruct G. congruence.
      * intros Y e0 l' e' P' f I. apply Y. now right.
    + rewrite X. cbn [bind].
      assert (G : glued_at D S l e P l2 e2 P2) by (constructor; auto; apply Hes; now left).
      destruct (edge_transformation_ok _ _ _ _ _ _ _ _ V G) as [f [Ef [Kf [Sf _]]]].
      destruct (mem (l2, e2) checked) eqn:M.
      * destruct (IH checked) as [b [ch [R [B1 B2]]]]; auto. { intros e0 I. apply Hes. now right. }
        exists b, ch. split; [exact R|]. split; [|exact B2]. rewrite B1. split.
        -- intros Y e0 l' e' P' f0 [<-|I] G0 Ef0; [|eapply Y; eauto].
           apply mem_In in M. apply Hc in M. destruct M as [P0 [g [D0 [Q0 [Q1 [Q2 Q3]]]]]].
           pose proof (edge_transformation_inverse _ _ _ _ _ _ _ _ _ V G Ef) as Inv.
           rewrite Inv in Q2. injection Q2 as <-. rewrite Ef in Ef0. injection Ef0 as <-.
           apply T in Q3; [|now apply sim_ok_inv|exact Sf].
           pose proof (edge_transformation_inverse _ _ _ _ _ _ _ _ _ V (glued_sym _ _ _ _ _ _ _ _ V G) Inv) as I2.
           rewrite I2 in Ef. injection Ef as Ef. rewrite Ef in Q3. exact Q3.
        -- intros Y e0 l' e' P' f0 I. apply Y. now right.
      * rewrite (edge_matrix_ok _ _ _ _ _ _ _ _ _ V G Ef). cbn [bind].
        destruct (test (sim_derivative f)) eqn:Tf.
        -- destruct (IH ((l, e) :: checked)) as [b [ch [R [B1 B2]]]].
           { intros e0 I. apply Hes. now right. }
           { intros l0 e0 [E|I]; [|now apply Hc]. injection E as <- <-. exists P, f. repeat split; auto.
             apply Hes. now left. }
           exists b, ch. split; [exact R|]. split; [|exact B2]. rewrite B1. split.
           ++ intros Y e0 l' e' P' f0 [<-|I] G0 Ef0; [|eapply Y; eauto]. congruence.
           ++ intros Y e0 l' e' P' f0 I. apply Y. now right.
        -- exists false, checked. split; [reflexivity|]. split; [|exact Hc]. split; [discriminate|].
           intros Y. rewrite (Y e l2 e2 P2 f) in Tf; auto. now left.
Qed.

Lemma scan_labels_spec D S test : valid D S ->
  (forall f, sim_ok f -> sg_sign f = true -> test (sim_derivative f) = true -> test (sim_derivative (sim_inv f)) = true) ->
  forall ls checked, (forall l, In l ls -> D l) ->
  (forall l0 e0, In (l0, e0) checked -> exists P0 f, D l0 /\ s_poly S l0 = Ok P0 /\ (e0 < length P0)%nat /\
                   edge_transformation S l0 e0 = Ok f /\ test (sim_derivative f) = true) ->
  exists b : bool, scan_labels S test ls checked = Ok b /\
  (b = true <-> forall l e P l' e' P' f, In l ls -> glued_at D S l e P l' e' P' -> edge_transformation S l e = Ok f ->
                  test (sim_derivative f) = true).
Proof.
  intros V T. induction ls as [|l ls IH]; intros checked Hl Hc.
  - exists true. cbn. split; auto. split; auto. all: intros; tauto.
  - cbn [scan_labels]. assert (Dl : D l) by (apply Hl; now left).
    destruct (v_poly _ _ V l Dl) as [P [Pl _]]. rewrite Pl. cbn [bind].
    destruct (scan_edges_spec D S test V T l P Dl Pl (seq 0 (length P)) checked) as [b [ch [R [B1 B2]]]]; auto.
    { intros e I. apply in_seq in I. lia. }
    rewrite R. cbn [bind fst snd]. destruct b.
    + destruct (IH ch) as [b [R' B']]; auto. { intros l0 I. apply Hl. now right. }
      exists b. split; [exact R'|]. rewrite B'. split.
      * intros Y l0 e P0 l' e' P' f [<-|I] G Ef; [|eapply Y; eauto].
        assert (P0 = P) by (destruct G; congruence). subst P0.
        apply (proj1 B1 eq_refl e l' e' P'); auto. apply in_seq. destruct G. lia.
      * intros Y l0 e P0 l' e' P' f I. apply Y. now right.
    + exists false. split; [reflexivity|]. split; [discriminate|]. intros Y. apply B1.
      intros e l' e' P' f _ G. apply (Y l e P l' e' P' f); auto. now left.
Qed.
End P.
