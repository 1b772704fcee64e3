(** Theorems C65 to C68: the hyperbolic plane. *)
From Coq Require Import List Bool ZArith Znumtheory Lia QArith Ring Field.
From Verif Require Import OField FMicromega PField MBase MEuclid PEuclid SEuclid TEuclid ExTab MHyp SHyp PHyp PHyp2 PHyp3 PHyp4 PHyp5 PHyp6 PHyp7.
Import ListNotations.

Section Hyp.
Context {K : OField}.
Add Field KF : (of_ft K).
Local Open Scope res_scope. Local Open Scope F_scope.
Implicit Types p q : vec K.
Implicit Types f g h : geo K.
Implicit Types x y : K.

(** ** C65: the two models *)
(** [H.point(x, y, model="half_plane")] is the point of the Klein model that corresponds to it. *)
Theorem C65_point x y : 
  (0 <= y -> exists p, point_half_plane x y = Ok p /\ half_plane_point x y p /\ in_disk p /\ (finite p <-> 0 < y) /\ (ideal p <-> y = 0) /\ p <> infinity) /\
  (y < 0 -> point_half_plane x y = Err ValueError).
Proof.
  split; [|apply point_hp_err]. intros Y. exists (hp x y). split; [now apply point_hp_ok|]. pose proof (hp_point x y Y) as H. split; auto. pose proof (hp_in_disk x y) as D. split; auto.
  assert (A : y = 0 -> ideal (hp x y)) by (intros ->; apply hp_ideal). assert (B : 0 < y -> finite (hp x y)) by apply hp_finite. assert (C : finite (hp x y) -> ideal (hp x y) -> False) by (unfold finite, ideal; intros; flra).
  assert (E : 0 < y \/ y = 0) by (apply fle_lteq in Y; destruct Y; auto). split; [destruct E; split; auto; intros; exfalso; auto|]. split; [destruct E; split; auto; intros; exfalso; auto|]. destruct H as [_ [H _]]. intros Q. rewrite Q in H. cbn in H. flra.
Qed.
(** Different points of the half plane are different points of the Klein model, and all finite points are of this form if square roots exist. *)
Theorem C65_injective x y x' y' p : point_half_plane x y = Ok p -> point_half_plane x' y' = Ok p -> x = x' /\ y = y'.
Proof.
  intros A B. destruct (y <? 0) eqn:Y; [rewrite point_hp_err in A by exact Y; discriminate|]. destruct (y' <? 0) eqn:Y'; [rewrite point_hp_err in B by exact Y'; discriminate|]. bools. rewrite point_hp_ok in A, B by auto. assert (A' : p = hp x y) by congruence. assert (B' : p = hp x' y') by congruence.
  apply (hp_inj x y x' y' p); [rewrite A'|rewrite B']; now apply hp_point.
Qed.
(** [coordinates(model="half_plane")] is the inverse, whenever the coordinates are in the base ring. *)
Theorem C65_coordinates (B : K -> Prop) sqrt p : subfield B -> sqrt_in B sqrt -> in_disk p -> B (fst p) -> B (snd p) ->
  match coordinates_half_plane sqrt p with
  | Ok (x, y) => half_plane_point x y p /\ point_half_plane x y = Ok p
  | Err e => e = ValueError /\ forall x y, B x -> B y -> ~ half_plane_point x y p
  end.
Proof.
  intros HB HS D B1 B2. pose proof (coordinates_half_plane_ok B sqrt HB HS p D B1 B2) as H. destruct (coordinates_half_plane sqrt p) as [[x y]|e]; auto. split; auto. rewrite (hp_unique x y p H). apply point_hp_ok. now destruct H as [H _].
Qed.
(** The equation of a geodesic in the half plane describes the same points; and the same half space. *)
Theorem C65_equation g x y p A B C : half_plane_point x y p -> equation_half_plane g = (A, B, C) ->
  (on g p <-> A * (x * x + y * y) + B * x + C = 0) /\ (left_of g p <-> 0 <= A * (x * x + y * y) + B * x + C).
Proof. apply hp_equation. Qed.
(** [H.half_circle(center, radius_squared)] is the half circle and its left half space is its exterior. *)
Theorem C65_half_circle (c r : K) : 
  (0 < r -> exists g, half_circle c r = Ok g /\ chord g /\ forall x y p, half_plane_point x y p ->
    (on g p <-> (x - c) * (x - c) + y * y = r) /\ (left_of g p <-> r <= (x - c) * (x - c) + y * y)) /\
  (r <= 0 -> half_circle c r = Err ValueError).
Proof.
  unfold half_circle. rewrite sgn_nonpos. split; intros R.
  - unfold flt in R. rewrite R. cbn [negb]. unfold geodesic_half_plane, geodesic_klein. set (g := Geo _ _ _). assert (Cg : chord g). { apply chord_iff. unfold g. cbn [g_a g_b g_c]. bools. assert (0 < 2 * 2 * r) by (apply fmul_pos; [apply fmul_pos; apply f2_pos|auto]). flra. }
    exists g. split; [now apply check_ok|]. split; auto. intros x y p H. destruct (hp_equation g x y p _ _ _ H eq_refl) as [H1 H2]. rewrite H1, H2. unfold g. cbn [g_a g_b g_c].
    assert (E : (1 + (c * c - r) + (1 - (c * c - r))) * (x * x + y * y) + 2 * (- (2) * c) * x + (1 + (c * c - r) - (1 - (c * c - r))) = 2 * ((x - c) * (x - c) + y * y - r)) by ring. rewrite E. set (u := (x - c) * (x - c) + y * y). clearbody u. split; split; intros Q; flra.
  - destruct (0 <? r) eqn:Q; bools; [exfalso; flra|reflexivity].
Qed.
(** [H.vertical(real)] and its left half space. *)
Theorem C65_vertical (r : K) : exists g, vertical r = Ok g /\ chord g /\ on g infinity /\ forall x y p, half_plane_point x y p ->
    (on g p <-> x = r) /\ (left_of g p <-> x <= r).
Proof.
  unfold vertical, geodesic_klein. set (g := Geo _ _ _). assert (Cg : chord g). { apply chord_iff. unfold g. cbn [g_a g_b g_c]. pose proof (@flt_0_1 K). flra. }
  exists g. split; [now apply check_ok|]. split; auto. split; [unfold on, infinity, g; cbn; ring|]. intros x y p H. destruct (hp_equation g x y p _ _ _ H eq_refl) as [H1 H2]. rewrite H1, H2. unfold g. cbn [g_a g_b g_c].
  assert (E : (r + - r) * (x * x + y * y) + 2 * - (1) * x + (r - - r) = 2 * (r - x)) by ring. rewrite E. split; split; intros Q; flra.
Qed.
(** [H.projective(p, q)] is the point [p/q] of the real line or infinity. *)
Theorem C65_projective (a b : K) :
  (a = 0 /\ b = 0 -> projective a b = Err ValueError) /\ (a <> 0 /\ b = 0 -> projective a b = Ok infinity) /\
  (b <> 0 -> exists p, projective a b = Ok p /\ ideal p /\ half_plane_point (a / b) 0 p).
Proof.
  unfold projective. split; [|split].
  - intros [-> ->]. now rewrite (proj2 (feqb_eq K _ _) eq_refl).
  - intros [A ->]. destruct (a =? 0) eqn:E; bools; [tauto|]. cbn [andb]. now rewrite (proj2 (feqb_eq K _ _) eq_refl).
  - intros B. destruct (b =? 0) eqn:E; bools; [tauto|]. rewrite andb_false_r. exists (hp (a / b) 0). split; [apply point_hp_ok; flra|]. split; [apply hp_ideal|apply hp_point; flra].
Qed.

(** ** C66: geodesics and their points *)
(** The checks of the constructor accept the lines that meet the hyperbolic plane. *)
Theorem C66_check (a b c : K) : (geodesic_klein a b c = Ok (Geo a b c) /\ chord (Geo a b c)) \/ (geodesic_klein a b c = Err ValueError /\ ~ chord (Geo a b c)).
Proof. apply check_spec. Qed.
(** [H.geodesic(p, q)] is the geodesic from [p] to [q]; it is unique. *)
Theorem C66_through p q : in_disk p -> in_disk q ->
  (p <> q -> exists g, geodesic_points p q = Ok g /\ chord g /\ on g p /\ on g q /\ after g p q /\
    forall h, chord h -> on h p -> after h p q -> same_oriented g h /\ geo_eqb true g h = true) /\
  (p = q -> geodesic_points p q = Err ValueError).
Proof.
  intros A B. split.
  - intros N. destruct (geodesic_points_ok p q A B N) as [g [E [C [O1 [O2 AF]]]]]. exists g. split; auto. split; auto. split; auto. split; auto. split; auto. intros h Ch Oh Ah. assert (S : same_oriented g h) by (apply (two_points g h p q); auto using chord_line). split; auto. apply eqb_oriented; auto using chord_line.
  - intros ->. unfold geodesic_points. now rewrite (proj2 (veqb_eq _ _) eq_refl).
Qed.
(** [==] of oriented geodesics and of unoriented geodesics. *)
Theorem C66_equal f g : chord f -> chord g -> (geo_eqb true f g = true <-> same_oriented f g) /\ (geo_eqb false f g = true <-> same_line f g).
Proof. intros A B. split; [apply eqb_oriented|apply eqb_unoriented]; auto using chord_line. Qed.
(** [==] of points that are given by coordinates or as the start of a geodesic, whose coordinates may be in a bigger field. *)
Theorem C66_point_equal (o o' : point K) s s' : valid_point o -> valid_point o' -> denotes o s -> denotes o' s' ->
  exists b, point_eqb o o' = Ok b /\ (b = true <-> s = s').
Proof. apply point_eqb_ok. Qed.
(** [in] for geodesics *)
Theorem C66_contains g (o : point K) s : chord g -> valid_point o -> denotes o s -> exists b, geo_contains g o = Ok b /\ (b = true <-> on g s).
Proof. apply geo_contains_ok. Qed.
(** [in] for half spaces *)
Theorem C66_half_space (B : K -> Prop) sqrt h (o : point K) s : subfield B -> sqrt_in B sqrt -> chord h -> geo_over B h -> valid_point o -> over B o -> denotes o s ->
  exists b, half_space_contains sqrt h o = Ok b /\ (b = true <-> left_of h s).
Proof. intros HB HS. apply (half_space_contains_ok B sqrt HB HS). Qed.
(** the coordinates of the start of a geodesic *)
Theorem C66_start (B : K -> Prop) sqrt g : subfield B -> sqrt_in B sqrt -> chord g -> geo_over B g ->
  match coordinates_klein sqrt (Start g) with
  | Ok p => start_of g p /\ forall q, start_of g q -> q = p
  | Err e => e = ValueError /\ forall q, start_of g q -> B (fst q) -> B (snd q) -> False
  end.
Proof.
  intros HB HS C O. pose proof (coordinates_start B sqrt HB HS g C O) as H. destruct (coordinates_klein sqrt (Start g)) as [p|e]; auto. split; auto. intros q Q. now apply (start_unique g q p (chord_line g C)).
Qed.
(** the coordinate along a geodesic *)
Theorem C66_parametrize g : chord g ->
  (forall p, on g p -> exists t, parametrize g p = Ok t /\ unparametrize g t = Ok p) /\
  (forall t, exists p, unparametrize g t = Ok p /\ on g p /\ parametrize g p = Ok t) /\
  (forall p q t u, on g p -> on g q -> parametrize g p = Ok t -> parametrize g q = Ok u -> (after g p q <-> t < u)).
Proof.
  intros C. pose proof (chord_line g C) as L. split; [|split].
  - intros p O. destruct (parametrize_ok g p L O) as [t [E Q]]. exists t. split; auto. rewrite unparametrize_ok by auto. congruence.
  - intros t. rewrite unparametrize_ok by auto. eexists. split; [reflexivity|]. split; [now apply point_on|now apply parametrize_point].
  - intros p q t u A B Et Eu. destruct (parametrize_ok g p L A) as [t' [E Q]]. destruct (parametrize_ok g q L B) as [u' [E' Q']]. assert (t = t') by congruence. assert (u = u') by congruence. subst. apply after_iff; auto.
Qed.

(** ** C67: pairs of geodesics, segments, half spaces *)
Theorem C67_intersection f g : line f -> line g ->
  match intersection f g with
  | Some p => on f p /\ on g p /\ forall q, on f q -> on g q -> q = p
  | None => same_line f g \/ disjoint_lines f g
  end.
Proof.
  intros Lf Lg. destruct (intersection f g) as [p|] eqn:E.
  - apply intersection_some in E. tauto.
  - apply intersection_none in E. destruct (geo_eqb false f g) eqn:Q; [left; now apply eqb_unoriented|right]. intros p [A B]. apply (parallel_meet f g p Lf Lg E A) in B. apply (eqb_unoriented f g Lf Lg) in B. congruence.
Qed.
(** [_configuration] never fails and returns the position of the two geodesics *)
Theorem C67_configuration f g c : chord f -> chord g -> configure f g = Ok c <-> configured c f g.
Proof.
  intros A B. apply chord_line in A, B. destruct (configure_ok f g A B) as [c' [E H]]. split.
  - intros Q. congruence.
  - intros Q. rewrite E. f_equal. now apply (configured_unique c' c f g A B).
Qed.
(** [ccw] of two geodesics *)
Theorem C67_ccw f g : chord f -> chord g ->
  match geo_ccw true f g with
  | Ok z => (z = 1%Z <-> configured Convex f g) /\ (z = (-1)%Z <-> configured Concave f g) /\ (z = 0%Z <-> same_line f g) /\ (-1 <= z <= 1)%Z
  | Err e => e = ValueError /\ disjoint_lines f g
  end /\
  match geo_ccw false f g with
  | Ok z => (z <> 0%Z -> geo_ccw true f g = Ok z /\ exists p, finite p /\ on f p /\ on g p) /\ (z = 0%Z -> same_line f g \/ exists p, ideal p /\ on f p /\ on g p)
  | Err e => e = ValueError /\ forall p, in_disk p -> ~ (on f p /\ on g p)
  end.
Proof. intros A B. apply chord_line in A, B. split; [now apply geo_ccw_ok|now apply geo_ccw_hyp]. Qed.
(** The normalization of a segment does not change the set of points, and the result is not degenerate. *)
Theorem C67_segment g start fin : chord g -> all_on g start -> all_on g fin ->
  (exists r, segment_normalize g start fin = Ok r /\ normal_seg r /\ (forall p q, start = Some p -> fin = Some q -> p = q \/ after g p q) /\ forall p, set_of r p <-> in_segment g start fin p) \/
  (segment_normalize g start fin = Err ValueError /\ exists p q, start = Some p /\ fin = Some q /\ after g q p).
Proof. apply segment_normalize_ok. Qed.
(** The half spaces of points, geodesics and segments intersect in these sets. *)
Theorem C67_half_spaces_point p : in_disk p -> exists l, point_half_spaces p = Ok l /\ Forall chord l /\ forall q, in_disk q -> (forall h, In h l -> left_of h q) <-> q = p.
Proof. apply point_half_spaces_ok. Qed.
Theorem C67_half_spaces_geodesic g p : (forall h, In h (geodesic_half_spaces g) -> left_of h p) <-> on g p.
Proof. apply geodesic_half_spaces_ok. Qed.
Theorem C67_half_spaces_segment g start fin : normal_seg (SegSegment g start fin) ->
  Forall chord (segment_half_spaces g start fin) /\
  forall q, in_disk q -> (forall h, In h (segment_half_spaces g start fin) -> left_of h q) <-> set_of (SegSegment g start fin) q.
Proof. intros [C [_ [A [B _]]]]. now apply segment_half_spaces_ok. Qed.

(** ** C68: isometries *)
Implicit Types M : mat K.
(** The checks accept exactly the matrices that scale the quadratic form by a positive factor. *)
Theorem C68_check M : (check_isometry M = Ok tt /\ similarity M) \/ (check_isometry M = Err ValueError /\ ~ similarity M).
Proof.
  destruct (check_isom M) as [[A B]|[A B]]; [left|right]; split; auto; rewrite isom_similarity; auto. intros [lam H]. now apply (B lam).
Qed.
Lemma similar M : similarity M -> exists lam N, isom lam M /\ mat_inverse M = Ok N /\ mat_mul M N = one /\ mat_mul N M = one /\ isom (1 / lam) N /\ mat_inverse N = Ok M /\ mat_det M * mat_det N = 1 /\ (keeps_side M -> keeps_side N).
Proof.
  intros H. apply isom_similarity in H. destruct H as [lam I]. destruct (isom_inverse lam M I) as [N [A [B [C [D [E [F G]]]]]]]. exists lam, N. repeat (split; auto). unfold keeps_side. rewrite G. intros H. apply fdiv_pos; auto. now destruct I.
Qed.
Lemma similar_check M : similarity M -> check_isometry M = Ok tt.
Proof. intros H. destruct (C68_check M) as [[A _]|[_ A]]; tauto. Qed.
(** both actions at once *)
Lemma action M on_right : similarity M -> exists lam N P, isom lam N /\ mat_inverse N = Ok P /\ mat_mul P N = one /\ (keeps_side M -> keeps_side N) /\ (sgn (mat_det M) =? -1)%Z = (sgn (mat_det N) =? -1)%Z /\
  (forall p q, in_disk p -> in_disk q -> moved M on_right p q <-> q = img N p) /\
  (forall p, point_apply M on_right p = point_apply N false p) /\ (forall g, geo_apply M on_right g = geo_apply N false g) /\ (forall g, start_apply M on_right g = start_apply N false g) /\
  (forall oriented g start fin, segment_apply M on_right oriented g start fin = segment_apply N false oriented g start fin).
Proof.
  intros H. destruct (similar M H) as [lam [N [I [A [B [C [D [E [F G]]]]]]]]]. destruct on_right.
  - exists (1 / lam), N, M. destruct (right_apply lam M N I A E F) as [R1 [R2 [R3 R4]]]. do 4 (split; [now auto|]). split; [now apply det_sign|]. split; [|repeat (split; [now auto|]); now auto].
    unfold moved. intros p q Dp Dq. split.
    + intros Q. apply maps_img in Q. subst p. symmetry. apply img_inverse; auto. now apply (wz_neq lam).
    + intros ->. assert (Q : img M (img N p) = p) by (apply img_inverse; auto; now apply (wz_neq (1 / lam))). rewrite <- Q at 2. apply (img_maps lam); auto.
  - exists lam, M, N. do 5 (split; [now auto|]). split; [|repeat (split; [now auto|]); now auto]. unfold moved. intros p q Dp Dq. split; [apply maps_img|]. intros ->. now apply (img_maps lam).
Qed.
Theorem C68_point M on_right p : similarity M -> in_disk p -> exists q, apply_isometry point_apply M on_right p = Ok q /\ moved M on_right p q /\ in_disk q /\ (finite q <-> finite p) /\ (ideal q <-> ideal p).
Proof.
  intros H D. destruct (action M on_right H) as [lam [N [P [I [A [B [_ [_ [MV [R1 _]]]]]]]]]]. unfold apply_isometry. rewrite (similar_check M H). cbn [bind]. rewrite R1, (point_apply_ok lam N p I D). eexists. split; [reflexivity|]. destruct (img_norm lam N p I D) as [Q1 [Q2 Q3]]. split; [now apply MV|]. auto.
Qed.
(** They preserve distances and are injective. *)
Theorem C68_distance M on_right p q p' q' : similarity M -> in_disk p -> in_disk q -> apply_isometry point_apply M on_right p = Ok p' -> apply_isometry point_apply M on_right q = Ok q' ->
  same_distance p q p' q' /\ (p' = q' -> p = q).
Proof.
  intros H Dp Dq. destruct (action M on_right H) as [lam [N [P [I [A [B [_ [_ [MV [R1 _]]]]]]]]]]. unfold apply_isometry. rewrite (similar_check M H). cbn [bind]. rewrite !R1, !(point_apply_ok lam N _ I) by auto. intros E1 E2. injection E1 as <-. injection E2 as <-. split; [now apply (img_distance lam)|now apply (img_inj lam)].
Qed.
(** The image of a geodesic consists of the images of its points; its left half space is the image of the left half space if the matrix does not swap the sheets of the hyperboloid. *)
Theorem C68_geodesic M on_right g : similarity M -> chord g -> exists g', apply_isometry geo_apply M on_right g = Ok g' /\ chord g' /\
  forall p q, in_disk p -> in_disk q -> moved M on_right p q -> (on g' q <-> on g p) /\ (keeps_side M -> (left_of g' q <-> left_of g p)).
Proof.
  intros H C. destruct (action M on_right H) as [lam [N [P [I [A [B [KS [_ [MV [_ [R2 _]]]]]]]]]]]. unfold apply_isometry. rewrite (similar_check M H). cbn [bind]. rewrite R2, (geo_apply_ok lam N P g I A B C). eexists. split; [reflexivity|]. split; [now apply (gimg_chord lam N)|].
  intros p q Dp Dq Q. apply MV in Q; auto. subst q. split; [now apply (gimg_on_iff lam N)|]. intros S. apply (gimg_left lam N); auto. now apply KS.
Qed.
(** A point that is the start of a geodesic is mapped to its image. *)
Theorem C68_start M on_right g : similarity M -> chord g -> exists g', apply_isometry start_apply M on_right g = Ok g' /\ chord g' /\
  forall p q, start_of g p -> in_disk q -> moved M on_right p q -> start_of g' q.
Proof.
  intros H C. destruct (action M on_right H) as [lam [N [P [I [A [B [KS [_ [MV [_ [_ [R3 _]]]]]]]]]]]]. unfold apply_isometry. rewrite (similar_check M H). cbn [bind]. rewrite R3, (start_apply_ok lam N P g I A B C). eexists. split; [reflexivity|]. split; [apply orient_chord; now apply (gimg_chord lam N)|].
  intros p q S Dq Q. assert (Dp : in_disk p) by (destruct S as [? [_ [_ [S _]]]]; now apply ideal_disk). apply MV in Q; auto. subst q. now apply (start_img lam N).
Qed.
(** Segments are mapped to the images of their points if they are oriented or bounded. *)
Theorem C68_segment M on_right oriented g start fin : similarity M -> normal_seg (SegSegment g start fin) -> (oriented = true \/ (start <> None /\ fin <> None)) ->
  exists r, segment_apply M on_right oriented g start fin = Ok r /\ normal_seg r /\ forall p q, in_disk p -> in_disk q -> moved M on_right p q -> (set_of r q <-> set_of (SegSegment g start fin) p).
Proof.
  intros H NS OR. destruct (action M on_right H) as [lam [N [P [I [A [B [KS [_ [MV [_ [_ [_ R4]]]]]]]]]]]]. rewrite R4. destruct (segment_apply_ok lam N P oriented g start fin I A B NS OR) as [r [E [NR S]]]. exists r. split; auto. split; auto.
  intros p q Dp Dq Q. apply MV in Q; auto. subst q. now apply S.
Qed.
(** Finding: unoriented segments with an ideal end point cannot be mapped by any isometry; see [C68_half_segment_refuted] below. *)
Lemma half_segment M on_right g start fin : similarity M -> normal_seg (SegSegment g start fin) -> (start = None \/ fin = None) -> segment_apply M on_right false g start fin = Err ValueError.
Proof. intros H NS OR. destruct (action M on_right H) as [lam [N [P [I [A [B [KS [_ [MV [_ [_ [_ R4]]]]]]]]]]]]. rewrite R4. now apply (segment_apply_half lam N P). Qed.
(** Matrices of the half plane model: products are mapped to products, and the isometries are exactly the ones with non-zero determinant; these keep the sides of geodesics. *)
Theorem C68_half_plane (N : mat2 K) : (det2 N <> 0 -> similarity (gl2_to_sim12 N) /\ keeps_side (gl2_to_sim12 N) /\ check_isometry (gl2_to_sim12 N) = Ok tt) /\
  (det2 N = 0 -> check_isometry (gl2_to_sim12 N) = Err ValueError) /\ (forall N', gl2_to_sim12 (mul2 N N') = mat_mul (gl2_to_sim12 N) (gl2_to_sim12 N')).
Proof.
  split; [|split].
  - intros D. assert (similarity (gl2_to_sim12 N)) by (apply isom_similarity; eexists; now apply gl2_isom). split; auto. split; [now apply gl2_side|now apply similar_check].
  - intros D. destruct (C68_check (gl2_to_sim12 N)) as [[_ A]|[A _]]; auto. exfalso. apply isom_similarity in A. destruct A as [lam A]. now apply (gl2_check N D lam).
  - intros N'. apply gl2_mul.
Qed.
(** They act by Möbius transformations. *)
Theorem C68_moebius (N : mat2 K) x y p q : det2 N <> 0 -> half_plane_point x y p -> apply_isometry point_apply (gl2_to_sim12 N) false p = Ok q ->
  (moebius_pole N (x, y) -> q = infinity) /\ (~ moebius_pole N (x, y) -> forall u v, moebius N (x, y) (u, v) -> half_plane_point u v q).
Proof.
  intros D H. assert (Y : 0 <= y) by (now destruct H). apply hp_unique in H. subst p. pose proof (gl2_isom N D) as I. assert (S : similarity (gl2_to_sim12 N)) by (apply isom_similarity; eauto). unfold apply_isometry. rewrite (similar_check _ S). cbn [bind]. rewrite (point_apply_ok _ _ _ I) by apply hp_in_disk. intros E. injection E as <-. split.
  - now apply moebius_pole_img.
  - intros NP u v MB. destruct (moebius_img N x y u v D Y NP MB) as [V ->]. now apply hp_point.
Qed.
Theorem C68_moebius_infinity (N : mat2 K) q : det2 N <> 0 -> apply_isometry point_apply (gl2_to_sim12 N) false infinity = Ok q ->
  (e10 N = 0 -> q = infinity) /\ (e10 N <> 0 -> half_plane_point (e00 N / e10 N) 0 q).
Proof.
  intros D. pose proof (gl2_isom N D) as I. assert (S : similarity (gl2_to_sim12 N)) by (apply isom_similarity; eauto). unfold apply_isometry. rewrite (similar_check _ S). cbn [bind]. rewrite (point_apply_ok _ _ _ I) by (unfold in_disk, infinity; cbn; flra). intros E. injection E as <-. rewrite (infinity_img N D). split; intros Q.
  - now rewrite (proj2 (feqb_eq K _ _) Q).
  - destruct (e10 N =? 0) eqn:Z; bools; [tauto|]. apply hp_point. flra.
Qed.
(** The matrix of the half plane model is recovered up to its sign. *)
Theorem C68_sim12 (B : K -> Prop) sqrt cbrt : subfield B -> sqrt_in B sqrt -> cbrt_in B cbrt ->
  (forall M N, over3 B M -> sim12_to_gl2 sqrt cbrt M = Ok N -> gl2_to_sim12 N = M) /\
  (forall N, over2 B N -> det2 N <> 0 -> exists N', sim12_to_gl2 sqrt cbrt (gl2_to_sim12 N) = Ok N' /\ (N' = N \/ N' = neg2 N)).
Proof. intros HB HS HC. split; [intros M N; now apply (sim12_sound B)|intros N; now apply (sim12_complete B)]. Qed.
End Hyp.

(** ** Examples and findings *)
Local Open Scope Z_scope.
(** The square root and the cube root of rational numbers. *)
Definition zroot (pw : Z -> Z) (n : Z) : option Z := find (fun k => pw k =? n) (map Z.of_nat (seq 0 (S (Z.to_nat n)))).
Definition qroot (pw : Z -> Z) (x : cq) : option cq :=
  match zroot pw (Z.abs (Qnum (cqv x))), zroot pw (Zpos (Qden (cqv x))) with
  | Some n, Some d => let s := if Qnum (cqv x) <? 0 then - n else n in
                      if pw s =? Qnum (cqv x) then Some (Q2cq (s # Z.to_pos d)) else None
  | _, _ => None
  end.
Definition square (k : Z) := k * k.
Definition cube (k : Z) := k * k * k.
Definition qsqrt : cqF -> option cqF := qroot square.
Definition qcbrt : cqF -> option cqF := qroot cube.
Lemma zroot_some pw n k : zroot pw n = Some k -> pw k = n /\ 0 <= k.
Proof.
  unfold zroot. intros H. apply find_some in H. destruct H as [H1 H2]. apply in_map_iff in H1. destruct H1 as [j [<- _]]. split; [now apply Z.eqb_eq|lia].
Qed.
Lemma zroot_none pw n k : zroot pw n = None -> 0 <= k <= pw k -> pw k <> n.
Proof.
  unfold zroot. intros H I E.
  assert (X : In k (map Z.of_nat (seq 0 (S (Z.to_nat n))))). { apply in_map_iff. exists (Z.to_nat k). split; [lia|]. apply in_seq. lia. }
  apply (find_none _ _ H) in X. cbn beta in X. apply Z.eqb_neq in X. contradiction.
Qed.
Lemma canon_eq (x y : Q) : canonb x = true -> canonb y = true -> (x == y)%Q -> x = y.
Proof.
  unfold canonb. intros A B E. apply Z.eqb_eq in A, B. rewrite <- (proj2 (Qcanon.Qred_iff x) A), <- (proj2 (Qcanon.Qred_iff y) B). now apply Qred_complete.
Qed.
Lemma gcd1_mul a b c : Z.gcd a c = 1 -> Z.gcd b c = 1 -> Z.gcd (a * b) c = 1.
Proof. intros A B. apply Znumtheory.Zgcd_1_rel_prime. apply Znumtheory.rel_prime_sym, Znumtheory.rel_prime_mult; apply Znumtheory.rel_prime_sym; now apply Znumtheory.Zgcd_1_rel_prime. Qed.
Lemma cq_square (s x : cqF) : @fmul cqF s s = x -> Qnum (cqv x) = square (Qnum (cqv s)) /\ Zpos (Qden (cqv x)) = square (Zpos (Qden (cqv s))).
Proof.
  intros <-. assert (E : cqv (@fmul cqF s s) = (cqv s * cqv s)%Q). { apply canon_eq; [apply cqp| |apply Q2cq_v]. pose proof (cqp s) as C. unfold canonb in *. apply Z.eqb_eq in C. apply Z.eqb_eq. cbn. rewrite Pos2Z.inj_mul. apply gcd1_mul; rewrite Z.gcd_comm; apply gcd1_mul; rewrite Z.gcd_comm; exact C. }
  rewrite E. unfold square. cbn. split; auto.
Qed.
Lemma cq_cube (s x : cqF) : @fmul cqF (@fmul cqF s s) s = x -> Qnum (cqv x) = cube (Qnum (cqv s)) /\ Zpos (Qden (cqv x)) = cube (Zpos (Qden (cqv s))).
Proof.
  intros <-. assert (E : cqv (@fmul cqF (@fmul cqF s s) s) = (cqv s * cqv s * cqv s)%Q). { apply canon_eq; [apply cqp| |]. 2:{ cbn [fmul cqF]. rewrite !Q2cq_v. reflexivity. } pose proof (cqp s) as C. unfold canonb in *. apply Z.eqb_eq in C. apply Z.eqb_eq. cbn. rewrite !Pos2Z.inj_mul.
    assert (G : Z.gcd (Qnum (cqv s)) (Zpos (Qden (cqv s)) * Zpos (Qden (cqv s)) * Zpos (Qden (cqv s))) = 1) by (rewrite Z.gcd_comm; repeat apply gcd1_mul; rewrite Z.gcd_comm; exact C). repeat apply gcd1_mul; exact G. }
  rewrite E. unfold cube. cbn. split; auto.
Qed.
Lemma subfield_all : @subfield cqF (fun _ => True).
Proof. repeat split. Qed.
Lemma qsqrt_ok : @sqrt_in cqF (fun _ => True) qsqrt.
Proof.
  intros x _. unfold qsqrt, qroot. destruct (zroot square (Z.abs (Qnum (cqv x)))) as [n|] eqn:N.
  - destruct (zroot square (Zpos (Qden (cqv x)))) as [d|] eqn:D.
    + apply zroot_some in N, D. destruct N as [N N0], D as [D D0]. destruct (Qnum (cqv x) <? 0) eqn:G.
      * apply Z.ltb_lt in G. unfold square in *. destruct (- n * - n =? Qnum (cqv x)) eqn:Q; [apply Z.eqb_eq in Q; nia|]. intros s _ E. apply cq_square in E. unfold square in E. nia.
      * apply Z.ltb_ge in G. destruct (square n =? Qnum (cqv x)) eqn:Q; [|exfalso; apply Z.eqb_neq in Q; lia]. apply Z.eqb_eq in Q. split; auto. split.
        -- unfold fle. apply not_true_iff_false. intros L. apply cq_ltb_lt in L. rewrite Q2cq_v in L. change (cqv (@f0 cqF)) with 0%Q in L. unfold Qlt in L. cbn in L. lia.
        -- apply cq_eq. cbn [fmul cqF]. rewrite !Q2cq_v. unfold Qeq, square in *. cbn. rewrite Pos2Z.inj_mul, !Z2Pos.id by nia. nia.
    + intros s _ E. apply cq_square in E. destruct E as [_ E]. symmetry in E. revert E. apply (zroot_none _ _ _ D). unfold square. nia.
  - intros s _ E. apply cq_square in E. destruct E as [E _]. assert (E' : square (Z.abs (Qnum (cqv s))) = Z.abs (Qnum (cqv x))) by (unfold square in *; nia). revert E'. apply (zroot_none _ _ _ N). unfold square. nia.
Qed.
Lemma qcbrt_ok : @cbrt_in cqF (fun _ => True) qcbrt.
Proof.
  intros x _. unfold qcbrt, qroot. destruct (zroot cube (Z.abs (Qnum (cqv x)))) as [n|] eqn:N.
  - destruct (zroot cube (Zpos (Qden (cqv x)))) as [d|] eqn:D.
    + apply zroot_some in N, D. destruct N as [N N0], D as [D D0]. set (s := if Qnum (cqv x) <? 0 then - n else n).
      assert (Q : cube s = Qnum (cqv x)). { unfold s. destruct (Z.ltb_spec (Qnum (cqv x)) 0); unfold cube in *; nia. }
      rewrite (proj2 (Z.eqb_eq _ _) Q). apply cq_eq. cbn [fmul cqF]. rewrite !Q2cq_v. unfold Qeq, cube in *. cbn. rewrite !Pos2Z.inj_mul, !Z2Pos.id by nia. nia.
    + intros s _ E. apply cq_cube in E. destruct E as [_ E]. symmetry in E. revert E. apply (zroot_none _ _ _ D). unfold cube. nia.
  - intros s _ E. apply cq_cube in E. destruct E as [E _]. assert (E' : cube (Z.abs (Qnum (cqv s))) = Z.abs (Qnum (cqv x))) by (unfold cube in *; rewrite E, !Z.abs_mul; reflexivity). revert E'. apply (zroot_none _ _ _ N). unfold cube. nia.
Qed.

Definition q_ (a : Z) (b : positive) : cqF := Q2cq (a # b).
Definition g_ (a b c : Z) : geo cqF := Geo (q_ a 1) (q_ b 1) (q_ c 1).
Definition m_ (a b c d : Z) : mat2 cqF := Mat2 (q_ a 1) (q_ b 1) (q_ c 1) (q_ d 1).
(** comparisons of results, by their coordinates *)
Definition gv (g : geo cqF) : list cq := [g_a g; g_b g; g_c g].
Definition sv (r : segment_set cqF) : nat * list cq * option (cq * cq) * option (cq * cq) :=
  match r with SegEmpty => (0%nat, [], None, None) | SegPoint p => (1%nat, [], Some p, None) | SegGeodesic g => (2%nat, gv g, None, None) | SegSegment g s e => (3%nat, gv g, s, e) end.
Definition mv (N : mat2 cqF) : list cq := [e00 N; e01 N; e10 N; e11 N].
Definition rmap {A B : Type} (f : A -> B) (r : res A) : res B := match r with Ok x => Ok (f x) | Err e => Err e end.
Lemma gv_inj g h : gv g = gv h -> g = h.
Proof. destruct g, h. unfold gv. cbn. intros H. now injection H as -> -> ->. Qed.
Lemma sv_inj r s : sv r = sv s -> r = s.
Proof.
  destruct r, s; intros H; try reflexivity; try (apply (f_equal (fun t => fst (fst (fst t)))) in H; discriminate H).
  - apply (f_equal (fun t => snd (fst t))) in H. cbn in H. congruence.
  - apply (f_equal (fun t => snd (fst (fst t)))) in H. apply gv_inj in H. now subst.
  - pose proof (f_equal (fun t => snd (fst (fst t))) H) as H1. pose proof (f_equal (fun t => snd (fst t)) H) as H2. pose proof (f_equal (fun t => snd t) H) as H3. cbn [sv fst snd] in H1, H2, H3. apply gv_inj in H1. now subst.
Qed.
Lemma mv_inj g h : mv g = mv h -> g = h.
Proof. destruct g, h. unfold mv. cbn. intros H. now injection H as -> -> -> ->. Qed.
Lemma rmap_ok {A B : Type} (f : A -> B) r s : (forall x y, f x = f y -> x = y) -> rmap f r = rmap f s -> r = s.
Proof. intros I. destruct r, s; cbn; intros H; try discriminate; [f_equal; apply I; congruence|congruence]. Qed.
Ltac comp := match goal with
  | |- @eq (res (geo cqF)) _ _ => apply (rmap_ok gv _ _ gv_inj)
  | |- @eq (res (segment_set cqF)) _ _ => apply (rmap_ok sv _ _ sv_inj)
  | |- @eq (res (mat2 cqF)) _ _ => apply (rmap_ok mv _ _ mv_inj)
  | |- _ => idtac end; vm_compute; reflexivity.
Definition chordb (g : geo cqF) : bool := fltb (g_a g * g_a g)%F (g_b g * g_b g + g_c g * g_c g)%F.
Lemma chord_check (g : geo cqF) : chordb g = true -> chord g.
Proof. intros H. apply chord_iff. exact H. Qed.
Lemma similarity_check (M : mat cqF) : check_isometry M = Ok tt -> similarity M.
Proof. intros H. destruct (C68_check M) as [[_ C]|[C _]]; congruence. Qed.
Local Open Scope res_scope.
(** the point 1 + 2i *)
Example C65_ex : point_half_plane (q_ 1 1) (q_ 2 1) = Ok (qv (1 # 3) (2 # 3)) /\ coordinates_half_plane qsqrt (qv (1 # 3) (2 # 3)) = Ok (q_ 1 1, q_ 2 1) /\
  point_half_plane (q_ 1 1) (q_ (-2) 1) = Err ValueError /\
  coordinates_half_plane qsqrt (qv (1 # 2) 0) = Err ValueError /\
  half_circle (q_ 1 1) (q_ 4 1) = Ok (g_ (-2) (-2) 4) /\ geo_contains (g_ (-2) (-2) 4) (Coord (qv (1 # 3) (2 # 3))) = Ok true /\
  vertical (q_ 1 1) = Ok (g_ 1 (-1) (-1)) /\ geo_contains (g_ 1 (-1) (-1)) (Coord (qv (1 # 3) (2 # 3))) = Ok true /\ half_space_contains qsqrt (g_ 1 (-1) (-1)) (Coord (qv 0 0)) = Ok true /\ half_space_contains qsqrt (g_ 1 (-1) (-1)) (Coord (qv (4 # 5) (3 # 5))) = Ok false /\
  projective (q_ 2 1) (q_ 0 1) = Ok infinity /\ projective (q_ 0 1) (q_ 0 1) = Err ValueError.
Proof.
  repeat match goal with |- _ /\ _ => split end; comp.
Qed.
(** the geodesics from -1 to 1 and back, and the geodesic from -1 to infinity; the half circle around 0 with radius squared 2 has no rational end points *)
Example C66_ex : geodesic_points (qv (-1) 0) (qv 1 0) = Ok (g_ 0 0 2) /\ geo_eqb true (g_ 0 0 2) (g_ 0 0 3) = true /\ geo_eqb true (g_ 0 0 2) (g_ 0 0 (-1)) = false /\ geo_eqb false (g_ 0 0 2) (g_ 0 0 (-1)) = true /\
  point_eqb (Start (g_ 0 0 2)) (Coord (qv (-1) 0)) = Ok true /\ coordinates_klein qsqrt (Start (g_ 0 0 2)) = Ok (qv (-1) 0) /\
  parametrize (g_ 0 0 2) (qv (1 # 2) 0) = Ok (q_ 1 4) /\ unparametrize (g_ 0 0 2) (q_ 1 4) = Ok (qv (1 # 2) 0) /\
  geodesic_points (qv (-1) 0) (qv 0 1) = Ok (g_ (-1) (-1) 1) /\ half_circle (q_ 0 1) (q_ 2 1) = Ok (g_ (-1) 0 3) /\ coordinates_klein qsqrt (Start (g_ (-1) 0 3)) = Err ValueError /\
  point_eqb (Start (g_ (-1) (-1) 1)) (Start (g_ (-1) 0 3)) = Ok false /\ geo_contains (g_ (-1) 0 3) (Start (g_ (-1) 0 3)) = Ok true /\
  half_space_contains qsqrt (g_ (-1) (-1) 1) (Start (g_ (-1) 0 3)) = Ok true /\ half_space_contains qsqrt (g_ 1 1 (-1)) (Start (g_ (-1) 0 3)) = Ok false /\ half_space_contains qsqrt (g_ (-1) 0 3) (Start (g_ (-1) 0 3)) = Ok true /\
  geodesic_points (qv 0 0) (qv 0 0) = Err ValueError /\ geodesic_klein (q_ 2 1) (q_ 1 1) (q_ 1 1) = Err ValueError.
Proof. repeat match goal with |- _ /\ _ => split end; comp. Qed.
Example C67_ex : configure (g_ 0 0 1) (g_ 0 0 2) = Ok Equal /\ configure (g_ 0 0 1) (g_ 0 0 (-2)) = Ok Negative /\ configure (g_ 0 0 2) (g_ 1 0 2) = Ok Parallel /\
  configure (g_ 0 0 2) (g_ 1 0 (-2)) = Ok AntiParallel /\ configure (g_ 0 1 0) (g_ 0 0 1) = Ok Convex /\ configure (g_ 0 0 1) (g_ 0 1 0) = Ok Concave /\
  intersection (g_ 1 2 0) (g_ (-1) 0 3) = Some (qv (-1 # 2) (1 # 3)) /\ geo_ccw false (g_ 0 1 0) (g_ 0 0 1) = Ok 1 /\ geo_ccw false (g_ 0 0 2) (g_ 1 0 2) = Err ValueError /\
  segment_normalize (g_ 0 0 1) (Some (qv (-1) 0)) (Some (qv (1 # 2) 0)) = Ok (SegSegment (g_ 0 0 1) None (Some (qv (1 # 2) 0))) /\
  segment_normalize (g_ 0 0 1) (Some (qv (1 # 2) 0)) (Some (qv (-1) 0)) = Err ValueError /\
  segment_normalize (g_ 0 0 1) (Some (qv 2 0)) None = Ok SegEmpty /\ segment_normalize (g_ 0 0 1) (Some (qv 1 0)) None = Ok (SegPoint (qv 1 0)) /\
  map gv (segment_half_spaces (g_ 0 0 1) (Some (qv 0 0)) (Some (qv (1 # 2) 0))) = map gv [g_ 0 0 1; g_ 0 0 (-1); g_ 0 1 0; Geo (q_ 1 2) (q_ (-1) 1) (q_ 0 1)] /\
  (l <- point_half_spaces (qv (3 # 5) (4 # 5)) ;; Ok (length l)) = Ok 2%nat.
Proof. repeat match goal with |- _ /\ _ => split end; comp. Qed.
(** z -> 2z + 1 and the reflection z -> 1/conj(z) *)
Example C68_ex : check_isometry (gl2_to_sim12 (m_ 2 1 0 1)) = Ok tt /\ check_isometry (gl2_to_sim12 (m_ 2 1 4 2)) = Err ValueError /\
  point_half_plane (q_ 0 1) (q_ 1 1) = Ok (qv 0 0) /\ point_half_plane (q_ 1 1) (q_ 2 1) = Ok (qv (1 # 3) (2 # 3)) /\ apply_isometry point_apply (gl2_to_sim12 (m_ 2 1 0 1)) false (qv 0 0) = Ok (qv (1 # 3) (2 # 3)) /\ apply_isometry point_apply (gl2_to_sim12 (m_ 2 1 0 1)) true (qv (1 # 3) (2 # 3)) = Ok (qv 0 0) /\
  vertical (q_ 0 1) = Ok (g_ 0 (-1) 0) /\ vertical (q_ 1 1) = Ok (g_ 1 (-1) (-1)) /\ (g <- apply_isometry geo_apply (gl2_to_sim12 (m_ 2 1 0 1)) false (g_ 0 (-1) 0) ;; Ok (geo_eqb true g (g_ 1 (-1) (-1)))) = Ok true /\
  segment_apply (gl2_to_sim12 (m_ 0 1 1 0)) false true (g_ 0 0 1) (Some (qv 0 0)) (Some (qv (1 # 2) 0)) = Ok (SegSegment (g_ 0 0 1) (Some (qv 0 0)) (Some (qv (1 # 2) 0))) /\
  segment_apply (gl2_to_sim12 (m_ 0 1 1 0)) false false (g_ 0 1 0) (Some (qv 0 (1 # 2))) (Some (qv 0 0)) = Ok (SegSegment (g_ 0 (-1) 0) (Some (qv 0 (-1 # 2))) (Some (qv 0 0))) /\
  sim12_to_gl2 qsqrt qcbrt (gl2_to_sim12 (m_ 2 1 0 1)) = Ok (m_ 2 1 0 1) /\ sim12_to_gl2 qsqrt qcbrt (gl2_to_sim12 (m_ (-2) 3 1 1)) = Ok (m_ 2 (-3) (-1) (-1)).
Proof. repeat match goal with |- _ /\ _ => split end; comp. Qed.
(** Finding: [apply_isometry(model="klein")] accepts matrices that swap the two sheets of the hyperboloid; a half space is then mapped to the complement of the image: minus the identity matrix fixes all points but moves half spaces. *)
Theorem C68_sheet_refuted : exists (M : mat cqF) g g' p, similarity M /\ chord g /\ in_disk p /\ apply_isometry point_apply M false p = Ok p /\ apply_isometry geo_apply M false g = Ok g' /\ left_of g p /\ ~ left_of g' p.
Proof.
  exists (mat_diag (q_ (-1) 1) (q_ (-1) 1) (q_ (-1) 1)), (g_ 0 0 1), (g_ 0 0 (-1)), (qv 0 (1 # 2)).
  split; [apply similarity_check; vm_compute; reflexivity|]. split; [apply chord_check; vm_compute; reflexivity|]. split; [vm_compute; reflexivity|]. split; [comp|]. split; [comp|]. split; [vm_compute; reflexivity|]. vm_compute. discriminate.
Qed.
(** Finding: the identity cannot be applied to an unoriented segment with an ideal end point. *)
Theorem C68_half_segment_refuted : exists (M : mat cqF) g p, M = mat_diag (q_ 1 1) (q_ 1 1) (q_ 1 1) /\ similarity M /\ normal_seg (SegSegment g (Some p) None) /\ segment_apply M false false g (Some p) None = Err ValueError.
Proof.
  exists (mat_diag (q_ 1 1) (q_ 1 1) (q_ 1 1)), (g_ 0 0 1), (qv 0 0). split; auto. split; [apply similarity_check; vm_compute; reflexivity|]. split; [|comp].
  split; [apply chord_check; vm_compute; reflexivity|]. split; [left; discriminate|]. split; [intros p E; injection E as <-; split; vm_compute; reflexivity|]. split; [discriminate|discriminate].
Qed.

Print Assumptions C65_point.
Print Assumptions C65_injective.
Print Assumptions C65_coordinates.
Print Assumptions C65_equation.
Print Assumptions C65_half_circle.
Print Assumptions C65_vertical.
Print Assumptions C65_projective.
Print Assumptions C66_check.
Print Assumptions C66_through.
Print Assumptions C66_equal.
Print Assumptions C66_point_equal.
Print Assumptions C66_contains.
Print Assumptions C66_half_space.
Print Assumptions C66_start.
Print Assumptions C66_parametrize.
Print Assumptions C67_intersection.
Print Assumptions C67_configuration.
Print Assumptions C67_ccw.
Print Assumptions C67_segment.
Print Assumptions C67_half_spaces_point.
Print Assumptions C67_half_spaces_geodesic.
Print Assumptions C67_half_spaces_segment.
Print Assumptions C68_check.
Print Assumptions C68_point.
Print Assumptions C68_distance.
Print Assumptions C68_geodesic.
Print Assumptions C68_start.
Print Assumptions C68_segment.
Print Assumptions C68_half_plane.
Print Assumptions C68_moebius.
Print Assumptions C68_moebius_infinity.
Print Assumptions C68_sim12.
Print Assumptions C68_sheet_refuted.
Print Assumptions C68_half_segment_refuted.
