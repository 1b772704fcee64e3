(** Proofs about flips of triangles: geometry. *)
From Coq Require Import List Bool ZArith Arith Lia Ring Field.
From Verif Require Import OField FMicromega PField MBase MDict PDict MEuclid SEuclid PEuclid MSim SSim PSim MPoly PPoly
  MMut SMut PMut MSurf SSurf PSurf PSurf3 SPoint PPoint PSimple MFlip SFlip.
Import ListNotations.

Section Flip.
Context {K : OField}.
Add Field KFflip : (of_ft K).
Local Open Scope F_scope.
Implicit Types p q r a b : vec K.

Lemma orient_rot p q r : orient q r p = orient p q r.
Proof. destruct p, q, r. unfold orient, ccw. cbn. ring. Qed.
Lemma orient_nz p q r : 0 < orient p q r -> p <> q /\ q <> r /\ r <> p.
Proof.
  intros H. repeat split; intros ->.
  - replace (orient q q r) with (0 : K) in H by (unfold orient, ccw; destruct q, r; cbn; ring). flra.
  - replace (orient p r r) with (0 : K) in H by (unfold orient, ccw; destruct p, r; cbn; ring). flra.
  - replace (orient p q p) with (0 : K) in H by (unfold orient, ccw; destruct p, q; cbn; ring). flra.
Qed.
Lemma vsub_nz p q : p <> q -> vsub q p <> vzero.
Proof. intros N E. apply N. now apply vsub_eq0. Qed.
Lemma orient_not_anti p q r : 0 < orient p q r -> ~ neg_multiple (vsub q p) (vsub r q).
Proof.
  intros H [_ [c [_ E]]]. assert (X : orient p q r = 0); [|flra].
  transitivity (ccw (vsub q p) (vsub r q)); [unfold orient, ccw; destruct p, q, r; cbn; ring|]. rewrite E. unfold ccw. cbn. ring.
Qed.

(** ** triangles *)
Lemma tri_ok p q r : 0 < orient p q r -> Polygon_vertices [p; q; r] = Ok [p; q; r].
Proof.
  intros H. pose proof (orient_nz _ _ _ H) as [N1 [N2 N3]].
  assert (ND : nondeg [p; q; r]).
  { split; [cbn; lia|]. apply edges_nz; [cbn; lia|]. intros e Le. cbn in Le.
    destruct e as [|[|[|e]]]; [| | |lia]; unfold edge, vertex; cbn; apply vsub_nz; congruence. }
  unfold Polygon_vertices. rewrite (proj2 (polygon_check_spec [p; q; r])); auto. split; auto.
  destruct (simple_checks [p; q; r] ND) as [b [Eb Hb]]. vm_compute in Eb. injection Eb as <-.
  split.
  - apply Hb. split; auto. intros i Li. cbn in Li. pose proof (orient_rot p q r) as R1. pose proof (orient_rot q r p) as R2.
    destruct i as [|[|[|i]]]; [| | |lia]; unfold edge, vertex; cbn; apply orient_not_anti; flra.
  - rewrite area_triangle. apply fdiv_pos; auto. exact f2_pos.
Qed.
Lemma tri_ok_inv p q r R : Polygon_vertices [p; q; r] = Ok R -> 0 < orient p q r.
Proof.
  unfold Polygon_vertices. destruct (polygon_check [p; q; r]) as [[]|] eqn:E; [|discriminate]. intros _.
  apply polygon_check_spec in E. destruct E as [_ [_ A]]. rewrite area_triangle in A. fold (orient p q r) in A.
  pose proof (@f2_pos K). destruct (fltb_total K (orient p q r) 0) as [X|[X|X]]; auto; exfalso.
  - assert (Y : orient p q r / 2 * 2 = orient p q r) by (field; apply (@f2_neq0 K)). fnra.
  - rewrite X in A. replace (0 / 2) with (0 : K) in A by (field; apply (@f2_neq0 K)). flra.
Qed.

(** ** quadrilaterals *)
Lemma between_left p q r s t : 0 <= t -> t <= 1 -> 0 < orient p q r -> 0 < orient p q s ->
  0 < orient p q (vadd r (vscale t (vsub s r))).
Proof.
  intros T0 T1 A B.
  replace (orient p q (vadd r (vscale t (vsub s r)))) with ((1 - t) * orient p q r + t * orient p q s)
    by (destruct p, q, r, s; unfold orient, ccw; cbn; ring).
  destruct (feq_dec t 0) as [->|N]; [flra|]. assert (0 < t) by (apply fneq_lt in N; destruct N; flra).
  pose proof (fmul_pos _ _ H B). assert (0 <= (1 - t) * orient p q r) by (destruct (feq_dec t 1) as [->|N1]; [replace (1 - 1) with (0 : K) by ring; flra|]; assert (0 < 1 - t) by (apply fneq_lt in N1; destruct N1; flra); pose proof (fmul_pos _ _ H1 A); flra). flra.
Qed.
Lemma quad_ok p q r s : strictly_convex4 p q r s -> Polygon_vertices [p; q; r; s] = Ok [p; q; r; s].
Proof.
  intros [H1 [H2 [H3 H4]]]. pose proof (orient_nz _ _ _ H1) as [N1 [N2 _]]. pose proof (orient_nz _ _ _ H3) as [N3 [N4 _]].
  assert (ND : nondeg [p; q; r; s]).
  { split; [cbn; lia|]. apply edges_nz; [cbn; lia|]. intros e Le. cbn in Le.
    destruct e as [|[|[|[|e]]]]; [| | | |lia]; unfold edge, vertex; cbn; apply vsub_nz; congruence. }
  unfold Polygon_vertices. rewrite (proj2 (polygon_check_spec [p; q; r; s])); auto. split; auto. split.
  - destruct (simple_outer_spec [p; q; r; s] (seq 0 4) ND) as [b [Eb Hb]].
    destruct (simple_checks [p; q; r; s] ND) as [b' [Eb' Hb']].
    assert (b' = b) by (unfold is_simple in Eb'; cbn [length] in Eb'; congruence). subst b'. apply Hb'. split.
    + apply Hb. intros i j Hi Hj Fa. apply in_seq in Hi. cbn [length] in Hj.
      intros [z [Z1 Z2]]. apply side_segment in Z1, Z2. destruct Z1 as [t [T0 [T1 ->]]], Z2 as [u [U0 [U1 E]]].
      unfold far in Fa. cbn [length] in Fa.
      assert (ON : forall (x y : vec K) (w : K), orient x y (vadd x (vscale w (vsub y x))) = 0) by (intros x y w; destruct x, y; unfold orient, ccw; cbn; ring).
      destruct i as [|[|[|[|i]]]]; [| | | |lia].
      * assert (j = 2 \/ j = 3 \/ j = 4)%nat as [->|[->| ->]] by lia; vm_compute in Fa; try tauto.
        unfold side, vertex in E. cbn [fst snd length Nat.modulo Nat.divmod Nat.sub nth] in E. pose proof (between_left p q r s u U0 U1 H1) as X.
        rewrite <- E, ON in X. rewrite <- (orient_rot s p q) in H4. specialize (X H4). flra.
      * assert (j = 3 \/ j = 4)%nat as [->| ->] by lia; vm_compute in Fa; try tauto.
        unfold side, vertex in E. cbn [fst snd length Nat.modulo Nat.divmod Nat.sub nth] in E. pose proof (between_left q r s p u U0 U1 H2) as X.
        rewrite <- E, ON in X. rewrite <- (orient_rot p q r) in H1. specialize (X H1). flra.
      * assert (j = 4)%nat as -> by lia; vm_compute in Fa; try tauto.
        unfold side, vertex in E. cbn [fst snd length Nat.modulo Nat.divmod Nat.sub nth] in E. pose proof (between_left r s p q u U0 U1 H3) as X.
        rewrite <- E, ON in X. rewrite <- (orient_rot q r s) in H2. specialize (X H2). flra.
      * lia.
    + intros i Li. cbn in Li. destruct i as [|[|[|[|i]]]]; [| | | |lia]; unfold edge, vertex; cbn; now apply orient_not_anti.
  - change [p; q; r; s] with (nil ++ p :: [q] ++ r :: [s]). rewrite (area_cut nil p [q] r [s]). cbn [app]. rewrite !area_triangle. fold (orient p q r). fold (orient r s p).
    pose proof (@f2_pos K). assert (0 < orient p q r / 2) by (apply fdiv_pos; auto). assert (0 < orient r s p / 2) by (apply fdiv_pos; auto). flra.
Qed.
Lemma quad_convex p q r s : is_convex true [p; q; r; s] = true <-> strictly_convex4 p q r s.
Proof.
  unfold is_convex, strictly_convex4. cbn [length seq forallb]. unfold edge, vertex. cbn [length Nat.modulo].
  rewrite !andb_true_iff. cbn.
  assert (N : forall x : K, negb (x <=? 0) = true <-> 0 < x) by (intros x; unfold fleb, flt; rewrite negb_involutive; tauto).
  assert (E : forall a b c, ccw (vsub b a) (vsub c b) = orient a b c) by (intros [] [] []; unfold orient, ccw; cbn; ring).
  rewrite !E, !N. tauto.
Qed.
End Flip.
