(** Proofs about flips of triangles: the run of the algorithm. *)
From Coq Require Import List Bool ZArith Arith Lia Ring Field.
From Verif Require Import OField FMicromega PField MBase MDict PDict MEuclid SEuclid PEuclid MSim SSim PSim MPoly PPoly
  MMut SMut PMut PMut2 PMut3 PGlue MSurf SSurf PSurf PSurf3 SPoint PPoint PSimple MFlip SFlip PFlip.
Import ListNotations.

Section Flip.
Context {K : OField}.
Add Field KFflip2 : (of_ft K).
Local Open Scope F_scope.
Notation nv := (@length (vec K)).
Implicit Types s : @surf (polygon K).

Lemma tri_list (P : polygon K) : length P = 3%nat -> P = [vertex P 0; vertex P 1; vertex P 2].
Proof. destruct P as [|p [|q [|r [|? ?]]]]; try discriminate. reflexivity. Qed.
Lemma lt3 e : (e < 3)%nat -> e = 0%nat \/ e = 1%nat \/ e = 2%nat.
Proof. lia. Qed.

(** a list of three points with a given point at position [d] *)
Definition rot3 (d : nat) (Q : list (vec K)) := skipn (3 - d) Q ++ firstn (3 - d) Q.
Lemma rot3_spec d p q r : (d < 3)%nat -> length (rot3 d [p; q; r]) = 3%nat /\
  vertex (rot3 d [p; q; r]) d = p /\ vertex (rot3 d [p; q; r]) (d + 1) = q /\ vertex (rot3 d [p; q; r]) (d + 2) = r.
Proof. intros H. apply lt3 in H. destruct H as [->|[->| ->]]; repeat split; reflexivity. Qed.
Lemma rot3_ok d p q r : (d < 3)%nat -> 0 < orient p q r -> Polygon_vertices (rot3 d [p; q; r]) = Ok (rot3 d [p; q; r]).
Proof.
  intros H O. apply lt3 in H. destruct H as [->|[->| ->]]; cbn; apply tri_ok; auto.
  - now rewrite <- (orient_rot p q r), <- (orient_rot q r p) in O.
  - now rewrite <- (orient_rot p q r) in O.
Qed.
Lemma tri_poly_ok (P : polygon K) d : length P = 3%nat -> (d < 3)%nat ->
  0 < orient (vertex P d) (vertex P (d + 1)) (vertex P (d + 2)) -> Polygon_vertices P = Ok P.
Proof.
  intros L H O. destruct P as [|p [|q [|r [|? ?]]]]; try discriminate. apply tri_ok. apply lt3 in H.
  destruct H as [->|[->| ->]]; cbn in O |- *; auto.
  - now rewrite orient_rot in O.
  - now rewrite 2!orient_rot in O.
Qed.

Lemma Polygon_vertices_inv (vs R : polygon K) : Polygon_vertices vs = Ok R -> R = vs.
Proof. unfold Polygon_vertices. destruct (polygon_check vs); congruence. Qed.
Lemma join_list (P P2 : polygon K) e e' x y a b : length P = 3%nat -> length P2 = 3%nat -> (e < 3)%nat -> (e' < 3)%nat ->
  vertex P e = x -> vertex P (e + 1) = y -> vertex P (e + 2) = a -> vertex P2 (e' + 1) = x -> vertex P2 (e' + 2) = b ->
  firstn e P ++ skipn (Datatypes.S e') P2 ++ firstn e' P2 ++ skipn (Datatypes.S e) P =
     match e with 0%nat => [x; b; y; a] | 1%nat => [a; x; b; y] | _ => [y; a; x; b] end.
Proof.
  intros L L2 He He' <- <- <- V1 <-.
  destruct P as [|p0 [|p1 [|p2 [|? ?]]]]; try discriminate. destruct P2 as [|q0 [|q1 [|q2 [|? ?]]]]; try discriminate.
  apply lt3 in He. apply lt3 in He'. destruct He as [->|[->| ->]], He' as [->|[->| ->]]; cbn in V1 |- *; congruence.
Qed.

(** ** the second triangle next to the first one *)
Section Two.
Context (s : @surf (polygon K)) (l : label) (e : nat) (l' : label) (e' : nat) (P P' : polygon K) (F : vec K -> vec K).
Hypothesis I : inv nv s.
Hypothesis T : two_triangles s l e l' e' P P' F.
Hypothesis N : edge P e <> vzero.
Let x := vertex P e.
Let y := vertex P (e + 1).
Let a := vertex P (e + 2).
Let b := F (vertex P' (e' + 2)).
Let P2 := map F P'.

Lemma two_gz : gz (gluings s) (l, Z.of_nat e) = Some (l', Z.of_nat e').
Proof. destruct T. apply opposite_edge_Ok in tt_glued; [tauto|lia]. Qed.
Lemma two_gz' : gz (gluings s) (l', Z.of_nat e') = Some (l, Z.of_nat e).
Proof. apply (i_inv nv s I), two_gz. Qed.
Lemma two_opp : opp_pair (mut_surface s) l e = Ok (l', e').
Proof. unfold opp_pair. cbn [s_opp mut_surface]. destruct T. rewrite tt_glued. cbn [bind]. now rewrite Nat2Z.id. Qed.
Lemma two_opp' : opposite_edge s l' (Z.of_nat e') = Ok (Some (l, Z.of_nat e)).
Proof. apply opposite_edge_Ok; [lia|]. split; [apply (gz_range _ _ _ two_gz')|apply two_gz']. Qed.
Lemma two_edge' : edge P' e' <> vzero.
Proof.
  intros E. apply edge_neq in N. apply N. destruct T. destruct tt_map. rewrite <- gm_end, <- gm_start.
  apply vsub_eq0 in E. now rewrite E.
Qed.
Lemma two_transformation : exists f, edge_transformation (mut_surface s) l' e' = Ok f /\ forall p, sim_apply f p = F p.
Proof.
  destruct T. pose proof two_edge' as N'.
  destruct (edge_transformation_raw (mut_surface s) l' e' P' l e P) as [f [Ef [Kf [Sf [Fa Fb]]]]]; auto.
  { cbn [s_opp mut_surface]. rewrite two_opp'. now rewrite Nat2Z.id. }
  exists f. split; auto. intros p. symmetry. destruct tt_map as [[c Sc] O Ma Mb].
  apply (rigid F c f (vertex P' e') (vertex P' (Datatypes.S e'))); auto; try congruence. now apply edge_neq.
Qed.
Lemma two_nil : P' <> nil.
Proof. destruct T. destruct P'; [discriminate|congruence]. Qed.
Lemma two_P2 : length P2 = 3%nat /\ vertex P2 e' = y /\ vertex P2 (e' + 1) = x /\ vertex P2 (e' + 2) = b.
Proof.
  destruct T. unfold P2. rewrite map_length. split; auto. rewrite !vertex_map by apply two_nil. destruct tt_map.
  rewrite !Nat.add_1_r. repeat split; auto. unfold y. rewrite Nat.add_1_r. auto.
Qed.

Lemma two_join : strictly_convex4 x b y a -> exists R, poly_join P P2 e e' = Ok R /\ is_convex true R = true.
Proof.
  intros C. destruct two_P2 as [L2 [V0 [V1 V2]]]. destruct T. unfold poly_join.
  replace (veqb (vertex P e) (vertex P2 (Datatypes.S e'))) with true
    by (symmetry; apply veqb_eq; rewrite Nat.add_1_r in V1; auto).
  replace (veqb (vertex P (Datatypes.S e)) (vertex P2 e')) with true
    by (symmetry; apply veqb_eq; rewrite V0; unfold y; now rewrite Nat.add_1_r). cbn [negb orb].
  assert (C' : strictly_convex4 b y a x) by (unfold strictly_convex4 in *; tauto).
  assert (C'' : strictly_convex4 y a x b) by (unfold strictly_convex4 in *; tauto).
  assert (C3 : strictly_convex4 a x b y) by (unfold strictly_convex4 in *; tauto).
  assert (E : firstn e P ++ skipn (Datatypes.S e') P2 ++ firstn e' P2 ++ skipn (Datatypes.S e) P =
     match e with 0%nat => [x; b; y; a] | 1%nat => [a; x; b; y] | _ => [y; a; x; b] end).
  { apply join_list; auto. }
  rewrite E. apply lt3 in tt_edge. destruct tt_edge as [->|[->| ->]]; eexists; (split; [apply quad_ok; auto|apply quad_convex; auto]).
Qed.
Lemma two_join_conv R : poly_join P P2 e e' = Ok R -> is_convex true R = true -> strictly_convex4 x b y a.
Proof.
  destruct two_P2 as [L2 [V0 [V1 V2]]]. destruct T. unfold poly_join.
  replace (veqb (vertex P e) (vertex P2 (Datatypes.S e'))) with true
    by (symmetry; apply veqb_eq; rewrite Nat.add_1_r in V1; auto).
  replace (veqb (vertex P (Datatypes.S e)) (vertex P2 e')) with true
    by (symmetry; apply veqb_eq; rewrite V0; unfold y; now rewrite Nat.add_1_r). cbn [negb orb].
  assert (E : firstn e P ++ skipn (Datatypes.S e') P2 ++ firstn e' P2 ++ skipn (Datatypes.S e) P =
     match e with 0%nat => [x; b; y; a] | 1%nat => [a; x; b; y] | _ => [y; a; x; b] end).
  { apply join_list; auto. }
  rewrite E. intros PR C.
  assert (R = match e with 0%nat => [x; b; y; a] | 1%nat => [a; x; b; y] | _ => [y; a; x; b] end) as ->.
  { now apply Polygon_vertices_inv. }
  apply lt3 in tt_edge. destruct tt_edge as [->|[->| ->]]; apply quad_convex in C; unfold strictly_convex4 in *; tauto.
Qed.
Lemma two_map f : (forall p, sim_apply f p = F p) -> map (sim_apply f) P' = P2.
Proof. intros H. unfold P2. apply map_ext. exact H. Qed.
Lemma two_P2_ok : strictly_convex4 x b y a -> Polygon_vertices P2 = Ok P2.
Proof.
  intros [C1 [C2 [C3 C4]]]. destruct two_P2 as [L2 [V0 [V1 V2]]]. destruct T. apply (tri_poly_ok P2 e'); auto. rewrite V0, V1, V2.
  now rewrite orient_rot in C1 || rewrite <- (orient_rot x b y), <- (orient_rot b y x) in C1.
Qed.
Lemma two_convex : is_convex_at (mut_surface s) l e true = Ok true <-> strictly_convex4 x b y a.
Proof.
  unfold is_convex_at. rewrite two_opp. cbn [bind fst snd s_poly mut_surface]. destruct T. rewrite tt_poly. cbn [bind].
  destruct two_transformation as [f [Ef Hf]]. rewrite Ef. cbn [bind]. rewrite tt_poly'. cbn [bind].
  rewrite (two_map f Hf). split.
  - intros H. unfold Polygon_vertices at 1 in H. destruct (polygon_check P2); [|discriminate]. cbn [bind] in H.
    destruct (poly_join P P2 e e') as [R|] eqn:J; [|discriminate]. cbn [bind] in H. injection H as H. eapply two_join_conv; eauto.
  - intros C. rewrite (two_P2_ok C). cbn [bind]. destruct (two_join C) as [R [-> HR]]. cbn [bind]. now rewrite HR.
Qed.
End Two.
End Flip.
