(** Theorems C21, C23: circles, Delaunay tests. *)
From Coq Require Import List Bool ZArith Arith Lia QArith Ring Field.
From Verif Require Import OField FMicromega PField MBase MEuclid SEuclid PEuclid MSim SSim PSim MPoly PPoly
  MSurf SSurf PSurf PSurf3 SPoint PPoint MCircle SCircle PCircle PDelaunay TEuclid TSim TSurf ExTab.
Import ListNotations.
Open Scope nat_scope.

(** ** C23 *)
(** three points that are not collinear are on exactly one circle, which is returned; otherwise the function raises *)
Theorem C23_three_points (K : OField) (p q r : vec K) :
  (~ collinear p q r -> exists C, circle_from_three_points p q r = Ok C /\
    on_circle C p /\ on_circle C q /\ on_circle C r /\
    forall C', on_circle C' p -> on_circle C' q -> on_circle C' r -> C' = C) /\
  (collinear p q r -> circle_from_three_points p q r = Err ValueError).
Proof.
  split; [|apply circle_three_err]. intros N. destruct (circle_three p q r N) as [C [E [[A B] R]]]. exists C. split; auto.
  unfold on_circle. rewrite R. split; [reflexivity|]. split; [now rewrite (dist2_sym q), (dist2_sym p)|]. split; [now rewrite (dist2_sym r), (dist2_sym p)|].
  intros [c' r'] X Y Z. cbn in X, Y, Z. destruct C as [c r0]. cbn in *.
  assert (c' = c). { apply (circumcenter_unique p q r); auto; [|split; auto]. split; rewrite !(dist2_sym c'); congruence. }
  subst c'. f_equal. congruence.
Qed.
Print Assumptions C23_three_points.

Theorem C23_point_position (K : OField) (C : circle K) (p : vec K) :
  (point_position C p = 1%Z <-> in_disc C p) /\ (point_position C p = 0%Z <-> on_circle C p) /\ (point_position C p = (-1)%Z <-> off_disc C p).
Proof. apply point_position_spec. Qed.
Print Assumptions C23_point_position.

(** the closest point: it is on the line, and no point of the line is closer to the center; the position of the line
    says whether the line meets the circle in two points, touches it, or misses it *)
Theorem C23_line (K : OField) (C : circle K) (p d : vec K) : d <> vzero ->
  exists r z, closest_point_on_line C p d = Ok r /\ line_position C p d = Ok z /\
    (exists t, r = vadd p (vscale t d)) /\
    (forall t, vadd p (vscale t d) <> r -> flt (dist2 r (ci_center C)) (dist2 (vadd p (vscale t d)) (ci_center C))) /\
    (z = 1%Z <-> exists t, in_disc C (vadd p (vscale t d))) /\
    (z = (-1)%Z <-> forall t, off_disc C (vadd p (vscale t d))) /\
    (z = 0%Z <-> (exists t, on_circle C (vadd p (vscale t d))) /\ forall t, ~ in_disc C (vadd p (vscale t d))).
Proof. apply line_spec. Qed.
Print Assumptions C23_line.
Theorem C23_line_degenerate (K : OField) (C : circle K) (p : vec K) : closest_point_on_line C p vzero = Err ValueError /\ line_position C p vzero = Err ValueError.
Proof. unfold line_position. rewrite closest_err. auto. Qed.
Print Assumptions C23_line_degenerate.

(** the position of an open segment *)
Theorem C23_line_segment (K : OField) (C : circle K) (p q : vec K) : p <> q -> exists z, line_segment_position C p q = Ok z /\
  (z = 1%Z <-> exists r, open_segment p q r /\ in_disc C r) /\
  (z = 0%Z <-> (exists r, open_segment p q r /\ on_circle C r) /\ ~ (exists r, open_segment p q r /\ in_disc C r)) /\
  (z = (-1)%Z <-> forall r, open_segment p q r -> off_disc C r).
Proof. apply segment_position. Qed.
Print Assumptions C23_line_segment.

(** [other_intersection(p, v)]: if [p] is on the circle, then the circle meets the line exactly in [p] and in the result *)
Theorem C23_other_intersection (K : OField) (C : circle K) (p v : vec K) : v <> vzero -> on_circle C p ->
  exists q, other_intersection C p v = Ok q /\
    forall r, (exists t, r = vadd p (vscale t v)) /\ on_circle C r <-> r = p \/ r = q.
Proof. apply other_exact. Qed.
Print Assumptions C23_other_intersection.

Theorem C23_tangent (K : OField) (C : circle K) (p : vec K) :
  (on_circle C p -> exists t, tangent_vector C p = Ok t /\ dot t (vsub p (ci_center C)) = f0 /\ ccw (vsub p (ci_center C)) t = ci_r2 C) /\
  (~ on_circle C p -> tangent_vector C p = Err ValueError).
Proof. apply tangent_spec. Qed.
Print Assumptions C23_tangent.

(** the image under a similarity that preserves the orientation *)
Theorem C23_similarity_partial (K : OField) (C : circle K) (f : sim K) p : sim_ok f -> sg_sign f = true ->
  (on_circle C p <-> on_circle (circle_rmul f C) (sim_apply f p)) /\
  (in_disc C p <-> in_disc (circle_rmul f C) (sim_apply f p)) /\
  (off_disc C p <-> off_disc (circle_rmul f C) (sim_apply f p)).
Proof. intros Kf. apply (circle_rmul_spec f C p Kf). Qed.
Print Assumptions C23_similarity_partial.
(** the full statement would cover all similarities; it is false for all those that reverse the orientation: the image
    of every circle of positive radius is the empty set *)
Theorem C23_reflection_refuted (K : OField) (C : circle K) (f : sim K) p : sim_ok f -> sg_sign f = false -> flt f0 (ci_r2 C) ->
  ~ on_circle (circle_rmul f C) (sim_apply f p).
Proof.
  intros Kf Sf R. destruct (circle_rmul_spec f C p Kf) as [_ H]. specialize (H Sf R). unfold off_disc, on_circle in *.
  intros X. rewrite X in H. flra.
Qed.
Print Assumptions C23_reflection_refuted.

(** the circumscribed circle of a polygon *)
Theorem C23_circumscribed (K : OField) (P : polygon K) : (3 <= length P)%nat -> (forall e, edge P e <> vzero) -> simple_polygon P ->
  (exists C, circumscribed_circle P = Ok C /\ forall i, on_circle C (vertex P i)) \/
  (circumscribed_circle P = Err ValueError /\ forall C, ~ forall j, on_circle C (vertex P j)).
Proof.
  intros L N SP. assert (D : nondeg P) by (split; auto).
  destruct (circumscribed_spec P (edge_neq P 0 (N _)) (edge_neq P 1 (N _))) as [[C [E [I H]]]|[E H]]; auto.
  - intros X. apply (vertex_inj P 0 2 D SP) in X; lia.
  - left. exists C. split; auto.
  - right. split; auto. intros C O. apply (H (ci_center C)). intros j k. rewrite !(dist2_sym (ci_center C)), (O j), (O k). reflexivity.
Qed.
Print Assumptions C23_circumscribed.

Definition qcircle (x y r2 : Q) : circle cqF := Circle (qv x y) (Q2cq r2).
Example C23_ex :
  match circle_from_three_points (qv 0 0) (qv 2 0) (qv 2 4) with Ok C => circle_eqb C (qcircle 1 2 5) | Err _ => false end = true /\
  circle_from_three_points (qv 0 0) (qv 1 1) (qv 2 2) = Err ValueError /\
  point_position (qcircle 1 2 5) (qv 1 1) = 1%Z /\ point_position (qcircle 1 2 5) (qv 0 0) = 0%Z /\ point_position (qcircle 1 2 5) (qv 9 9) = (-1)%Z /\
  line_position (qcircle 0 0 1) (qv 1 5) (qv 0 1) = Ok 0%Z /\
  line_segment_position (qcircle 0 0 1) (qv 1 5) (qv 1 6) = Ok (-1)%Z /\ line_segment_position (qcircle 0 0 1) (qv 1 (-1)) (qv 1 1) = Ok 0%Z /\
  line_segment_position (qcircle 0 0 1) (qv (1#2) (-1)) (qv (1#2) 1) = Ok 1%Z /\
  match other_intersection (qcircle 0 0 1) (qv (-1) 0) (qv 2 1) with Ok q => veqb q (qv (3#5) (4#5)) | Err _ => false end = true /\
  point_position (circle_rmul (qsim 1 0 0 0 false) (qcircle 0 0 1)) (qv 1 0) = (-1)%Z.
Proof. vm_compute. repeat split; reflexivity. Qed.

(** ** C21 *)
(** two triangles of positive area that are glued along an edge: the edge needs to be flipped iff the far vertex of the
    one, placed next to the other, is strictly inside the circumscribed circle of the other *)
Theorem C21_needs_flip (K : OField) (L : Type) (D : L -> Prop) (S : surface K L) l e P l' e' P' F :
  valid D S -> glued_at D S l e P l' e' P' -> gluing_map P e P' e' F ->
  length P = 3 -> length P' = 3 -> flt f0 (area P) -> flt f0 (area P') ->
  exists b, needs_flip S l e = Ok b /\
    (b = true <-> inside_circumcircle (vertex P' e') (vertex P' (e' + 1)) (vertex P' (e' + 2)) (F (vertex P (e + 2)))) /\
    (b = true -> strictly_convex4 (vertex P' e') (F (vertex P (e + 2))) (vertex P' (e' + 1)) (vertex P' (e' + 2))).
Proof. apply needs_flip_full. Qed.
Print Assumptions C21_needs_flip.
(** the test raises for other polygons and for edges on the boundary *)
Theorem C21_needs_flip_raises (K : OField) (L : Type) (D : L -> Prop) (S : surface K L) l e P :
  s_poly S l = Ok P ->
  (s_opp S l e = Ok None -> needs_flip S l e = Err TypeError) /\
  (forall l' e' P', s_opp S l e = Ok (Some (l', e')) -> s_poly S l' = Ok P' -> (length P <> 3 \/ length P' <> 3) -> needs_flip S l e = Err ValueError).
Proof.
  intros E. unfold needs_flip. split.
  - intros ->. reflexivity.
  - intros l' e' P' -> E' N. cbn [bind fst snd]. rewrite E, E'. cbn [bind].
    destruct (Nat.eqb_spec (length P) 3), (Nat.eqb_spec (length P') 3); cbn; auto. lia.
Qed.
Print Assumptions C21_needs_flip_raises.
(** two polygons with a strictly left turn next to their common edge need to be joined iff the vertex after the common edge of
    the one is on the circle through the corresponding three vertices of the other *)
Theorem C21_needs_join (K : OField) (L : Type) (D : L -> Prop) (S : surface K L) l e P l' e' P' F :
  valid D S -> glued_at D S l e P l' e' P' -> gluing_map P e P' e' F ->
  flt f0 (orient (vertex P e) (vertex P (e + 1)) (vertex P (e + 2))) -> flt f0 (orient (vertex P' e') (vertex P' (e' + 1)) (vertex P' (e' + 2))) ->
  exists b, needs_join S l e = Ok b /\
    (b = true <-> on_circumcircle (vertex P' e') (vertex P' (e' + 1)) (vertex P' (e' + 2)) (F (vertex P (e + 2)))).
Proof. intros V G GM O O'. exact (needs_join_spec D S l l' e e' P P' F V G GM O O'). Qed.
Print Assumptions C21_needs_join.
(** the other diagonal: if an edge needs to be flipped, then in every surface in which the quadrilateral is
    cut along its other diagonal, this diagonal does not need to be flipped, and does not need to be joined *)
Theorem C21_after_flip (K : OField) (L : Type) (D : L -> Prop) (S : surface K L) l e P l' e' P' F
    (D2 : L -> Prop) (S2 : surface K L) m m' :
  valid D S -> glued_at D S l e P l' e' P' -> gluing_map P e P' e' F ->
  length P = 3 -> length P' = 3 -> flt f0 (area P) -> flt f0 (area P') ->
  needs_flip S l e = Ok true ->
  let x := vertex P' e' in let y := vertex P' (e' + 1) in let a := F (vertex P (e + 2)) in let b := vertex P' (e' + 2) in
  valid D2 S2 -> glued_at D2 S2 m 2 [a; y; b] m' 2 [b; x; a] ->
  needs_flip S2 m 2 = Ok false /\ needs_join S2 m 2 = Ok false.
Proof. apply after_flip. Qed.
Print Assumptions C21_after_flip.
(** [gs] lists the edges of [gluings()] *)
Theorem C21_is_delaunay_triangulated (K : OField) (L : Type) (D : L -> Prop) (S : surface K L) gs :
  valid D S -> positive D S -> (forall g, In g gs -> listed D S g) ->
  exists b, is_delaunay_triangulated S gs = Ok b /\ (b = true <-> forall g, In g gs -> locally_delaunay D S g).
Proof. apply is_delaunay_triangulated_spec. Qed.
Print Assumptions C21_is_delaunay_triangulated.
(** as intended the test is [True] only for surfaces built from triangles; polygons without gluings are overlooked *)
Theorem C21_triangulated_refuted : exists (S : surface cqF unit), valid (fun _ => True) S /\ positive (fun _ => True) S /\
  (forall g, ~ listed (fun _ => True) S g) /\ is_delaunay_triangulated S nil = Ok true /\
  exists P, s_poly S tt = Ok P /\ length P = 4.
Proof.
  exists (one_polygon unit_square (pairs [])). split; [apply one_valid; vm_compute; reflexivity|].
  split; [intros l P _ E; injection E as <-; vm_compute; reflexivity|]. split; [|split; [reflexivity|]].
  - intros g [P [y [_ [_ [_ X]]]]]. cbn in X. discriminate.
  - eexists. split; reflexivity.
Qed.
Print Assumptions C21_triangulated_refuted.
(** surfaces without boundary: the test says whether all polygons are inscribed and the third vertex of each neighbour is strictly outside *)
Theorem C21_is_delaunay_decomposed (K : OField) (L : Type) (D : L -> Prop) (S : surface K L) ls :
  valid D S -> closed D S -> (forall l P, D l -> s_poly S l = Ok P -> simple_polygon P) -> (forall l, In l ls -> D l) ->
  exists b, is_delaunay_decomposed S ls = Ok b /\ (b = true <-> forall l, In l ls -> delaunay_cell D S l).
Proof.
  intros V C SP I. apply is_delaunay_decomposed_spec; auto. intros l P Dl EP X.
  destruct (v_poly _ _ V l Dl) as [P0 [E0 [L3 N]]]. rewrite EP in E0. injection E0 as <-.
  apply (vertex_inj P 0 2 (conj L3 N) (SP l P Dl EP)) in X; lia.
Qed.
Print Assumptions C21_is_delaunay_decomposed.
(** for surfaces with boundary it may raise *)
Theorem C21_decomposed_boundary_refuted : exists (S : surface cqF unit), valid (fun _ => True) S /\
  is_delaunay_decomposed S [tt] = Err TypeError.
Proof. exists (one_polygon unit_square (pairs [])). split; [apply one_valid; vm_compute; reflexivity|vm_compute; reflexivity]. Qed.
Print Assumptions C21_decomposed_boundary_refuted.

(** a torus cut into two triangles along the long and the short diagonal of a parallelogram, and along a diagonal of the square *)
Definition ex_long : table cqF := ([[qv 0 0; qv 2 0; qv 3 2]; [qv 0 0; qv 3 2; qv 1 2]], [((0, 0), (1, 1)); ((0, 1), (1, 2)); ((0, 2), (1, 0))]).
Definition ex_short : table cqF := ([[qv 0 0; qv 2 0; qv 1 2]; [qv 2 0; qv 3 2; qv 1 2]], [((0, 0), (1, 1)); ((0, 1), (1, 2)); ((0, 2), (1, 0))]).
Definition ex_diag : table cqF := ([[qv 0 0; qv 1 0; qv 1 1]; [qv 0 0; qv 1 1; qv 0 1]], [((0, 0), (1, 1)); ((0, 1), (1, 2)); ((0, 2), (1, 0))]).
Example C21_ex :
  valid (tab_dom ex_long) (tab_surface ex_long) /\ valid (tab_dom ex_short) (tab_surface ex_short) /\ valid (tab_dom ex_diag) (tab_surface ex_diag) /\
  needs_flip (tab_surface ex_long) 0 2 = Ok true /\ needs_flip (tab_surface ex_long) 1 0 = Ok true /\
  needs_flip (tab_surface ex_long) 0 0 = Ok false /\
  is_delaunay_triangulated (tab_surface ex_long) [(0, 0); (0, 1); (0, 2)] = Ok false /\
  is_delaunay_triangulated (tab_surface ex_short) [(0, 0); (0, 1); (0, 2)] = Ok true /\
  is_delaunay_decomposed (tab_surface ex_short) [0; 1] = Ok true /\
  needs_join (tab_surface ex_diag) 0 2 = Ok true /\ needs_flip (tab_surface ex_diag) 0 2 = Ok false /\
  is_delaunay_decomposed (tab_surface ex_diag) [0; 1] = Ok false /\
  is_delaunay_decomposed ex_torus1 [tt] = Ok true.
Proof.
  do 3 (split; [apply tab_valid; vm_compute; reflexivity|]). vm_compute. repeat split; reflexivity.
Qed.
