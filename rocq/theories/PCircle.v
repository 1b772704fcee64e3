(** Proofs about circles and the in-circle test. *)
From Coq Require Import List Bool ZArith Arith Lia Ring Field.
From Verif Require Import OField FMicromega PField MBase MEuclid SEuclid PEuclid MSim SSim PSim MPoly PPoly
  MSurf SSurf PSurf PTurn MCircle SCircle.
Import ListNotations.

Section Circ.
Context {K : OField}.
Add Field KFci : (of_ft K).
Local Open Scope F_scope.
Implicit Types (p q r s c u v d : vec K) (C : circle K).

Ltac open := unfold circumcenter, orient, dist2, sqdist, dot, ccw, vsub, vadd, vscale, vopp in *; cbn [fst snd] in *.

Lemma sqdist_dist2 p q : sqdist p q = dist2 p q.
Proof. reflexivity. Qed.
Lemma dist2_sym p q : dist2 p q = dist2 q p.
Proof. open. ring. Qed.
Lemma dist2_nonneg p q : 0 <= dist2 p q.
Proof. open. pose proof (fsq_nonneg (fst p - fst q)). pose proof (fsq_nonneg (snd p - snd q)). flra. Qed.

(** *** the circumcenter *)
Lemma circumcenter_unique p q r c c' : orient p q r <> 0 -> circumcenter p q r c -> circumcenter p q r c' -> c = c'.
Proof.
  intros D [A B] [A' B'].
  assert (X1 : 2 * ((fst c - fst c') * (fst q - fst p) + (snd c - snd c') * (snd q - snd p)) = 0) by (open; flra).
  assert (X2 : 2 * ((fst c - fst c') * (fst r - fst p) + (snd c - snd c') * (snd r - snd p)) = 0) by (open; flra).
  assert (T : forall x : K, 2 * x = 0 -> x = 0). { intros x E. destruct (fmul_eq0 _ _ E); auto. now destruct (@f2_neq0 K). }
  apply T in X1, X2.
  apply vec_eq.
  - assert (E : (fst c - fst c') * orient p q r = 0); [|destruct (fmul_eq0 _ _ E); [flra|contradiction]].
    transitivity (((fst c - fst c') * (fst q - fst p) + (snd c - snd c') * (snd q - snd p)) * (snd r - snd p)
      - ((fst c - fst c') * (fst r - fst p) + (snd c - snd c') * (snd r - snd p)) * (snd q - snd p)); [open; ring|]. rewrite X1, X2. ring.
  - assert (E : (snd c - snd c') * orient p q r = 0); [|destruct (fmul_eq0 _ _ E); [flra|contradiction]].
    transitivity (((fst c - fst c') * (fst r - fst p) + (snd c - snd c') * (snd r - snd p)) * (fst q - fst p)
      - ((fst c - fst c') * (fst q - fst p) + (snd c - snd c') * (snd q - snd p)) * (fst r - fst p)); [open; ring|]. rewrite X1, X2. ring.
Qed.
Lemma three_points_z p q r : snd (cross3 (cross3 (fst p + fst q, snd p + snd q, 2) (snd p - snd q, fst q - fst p, 0))
  (cross3 (fst p + fst r, snd p + snd r, 2) (snd p - snd r, fst r - fst p, 0))) = 2 * 2 * orient p q r.
Proof. open. cbn. ring. Qed.
Lemma four_neq0 : (2 * 2 : K) <> 0.
Proof. apply fmul_neq0; apply f2_neq0. Qed.
Lemma circle_three p q r : orient p q r <> 0 -> exists C, circle_from_three_points p q r = Ok C /\
  circumcenter p q r (ci_center C) /\ ci_r2 C = dist2 p (ci_center C).
Proof.
  intros D. unfold circle_from_three_points. pose proof (three_points_z p q r) as Z.
  assert (N : 2 * 2 * orient p q r <> 0) by (apply fmul_neq0; [apply four_neq0|auto]).
  destruct (cross3 (cross3 (fst p + fst q, snd p + snd q, 2) _) _) as [[x y] z] eqn:E. cbn [snd] in Z. cbn [dehomogenize].
  rewrite (proj2 (feqb_false z 0)) by now rewrite Z. eexists. split; [reflexivity|]. cbn [ci_center ci_r2].
  split; [|reflexivity]. rewrite <- Z in N. cbn in E. injection E as Ex Ey Ez. open. split.
  - apply (fcancel _ _ (z * z)); [now apply fmul_neq0|].
    replace (((x / z - fst p) * (x / z - fst p) + (y / z - snd p) * (y / z - snd p)) * (z * z)) with ((x - z * fst p) * (x - z * fst p) + (y - z * snd p) * (y - z * snd p)) by (field; auto).
    replace (((x / z - fst q) * (x / z - fst q) + (y / z - snd q) * (y / z - snd q)) * (z * z)) with ((x - z * fst q) * (x - z * fst q) + (y - z * snd q) * (y - z * snd q)) by (field; auto).
    rewrite <- Ex, <- Ey, <- Ez. ring.
  - apply (fcancel _ _ (z * z)); [now apply fmul_neq0|].
    replace (((x / z - fst p) * (x / z - fst p) + (y / z - snd p) * (y / z - snd p)) * (z * z)) with ((x - z * fst p) * (x - z * fst p) + (y - z * snd p) * (y - z * snd p)) by (field; auto).
    replace (((x / z - fst r) * (x / z - fst r) + (y / z - snd r) * (y / z - snd r)) * (z * z)) with ((x - z * fst r) * (x - z * fst r) + (y - z * snd r) * (y - z * snd r)) by (field; auto).
    rewrite <- Ex, <- Ey, <- Ez. ring.
Qed.
Lemma circle_three_err p q r : orient p q r = 0 -> circle_from_three_points p q r = Err ValueError.
Proof.
  intros D. unfold circle_from_three_points. pose proof (three_points_z p q r) as Z. rewrite D in Z.
  destruct (cross3 (cross3 (fst p + fst q, snd p + snd q, 2) _) _) as [[x y] z]. cbn [snd] in Z. cbn [dehomogenize].
  rewrite (proj2 (feqb_eq K z 0)); [reflexivity|]. rewrite Z. ring.
Qed.

(** *** positions *)
Lemma point_position_spec C p :
  (point_position C p = 1%Z <-> in_disc C p) /\ (point_position C p = 0%Z <-> on_circle C p) /\ (point_position C p = (-1)%Z <-> off_disc C p).
Proof.
  unfold point_position, in_disc, on_circle, off_disc. rewrite sqdist_dist2. set (x := dist2 p (ci_center C)). set (y := ci_r2 C).
  destruct (0 <? x - y) eqn:A; [change (0 < x - y) in A|change (x - y <= 0) in A; destruct (x - y <? 0) eqn:B; [change (x - y < 0) in B|change (0 <= x - y) in B]];
    repeat split; intros H; try discriminate H; try flra; auto.
Qed.

Definition foot C p d : vec K := vadd p (vscale (dot (vsub (ci_center C) p) d / dot d d) d).
Lemma closest_ok C p d : d <> vzero -> closest_point_on_line C p d = Ok (foot C p d).
Proof.
  intros N. apply vnz in N. unfold closest_point_on_line. cbn. unfold dot in N.
  rewrite (proj2 (feqb_false _ 0)).
  - f_equal. unfold foot. open. assert (fst d * fst d + snd d * snd d <> 0) by (intros X; flra). apply vec_eq; cbn; field; auto;
      (split; [|auto] || idtac); intros X; flra.
  - intros X. flra.
Qed.
Lemma closest_err C p : closest_point_on_line C p vzero = Err ValueError.
Proof. unfold closest_point_on_line. cbn. rewrite (proj2 (feqb_eq K _ 0)); [reflexivity|ring]. Qed.
Lemma foot_perp C p d : d <> vzero -> dot (vsub (ci_center C) (foot C p d)) d = 0.
Proof. intros N. apply vnz in N. unfold foot. open. field. intros X; flra. Qed.
(** the distance along the line, measured from the foot *)
Lemma dist2_line C p d t : d <> vzero ->
  let f := foot C p d in dist2 (vadd f (vscale t d)) (ci_center C) = dist2 f (ci_center C) + t * t * dot d d.
Proof.
  intros N f. pose proof (foot_perp C p d N) as E. fold f in E. clearbody f. open.
  transitivity ((fst f - fst (ci_center C)) * (fst f - fst (ci_center C)) + (snd f - snd (ci_center C)) * (snd f - snd (ci_center C)) + t * t * (fst d * fst d + snd d * snd d)
    - 2 * t * ((fst (ci_center C) - fst f) * fst d + (snd (ci_center C) - snd f) * snd d)); [ring|]. rewrite E. ring.
Qed.
Definition foot_at C p d : K := dot (vsub (ci_center C) p) d / dot d d.
Lemma line_point C p d t : d <> vzero -> vadd p (vscale t d) = vadd (foot C p d) (vscale (t - foot_at C p d) d).
Proof. intros _. unfold foot, foot_at. apply vec_eq; cbn; ring. Qed.
Lemma dist2_at C p d t : d <> vzero -> dist2 (vadd p (vscale t d)) (ci_center C) =
  dist2 (foot C p d) (ci_center C) + (t - foot_at C p d) * (t - foot_at C p d) * dot d d.
Proof. intros N. rewrite (line_point C p d t N). now rewrite dist2_line. Qed.

Lemma between_coord (x0 dx t : K) : dx <> 0 -> ((0 < t /\ t < 1) <->
  ((x0 <? x0 + t * dx) && (x0 + t * dx <? x0 + dx) || (x0 + t * dx <? x0) && (x0 + dx <? x0 + t * dx)) = true).
Proof.
  intros N. rewrite orb_true_iff, !andb_true_iff.
  change ((0 < t /\ t < 1) <-> (x0 < x0 + t * dx /\ x0 + t * dx < x0 + dx) \/ (x0 + t * dx < x0 /\ x0 + dx < x0 + t * dx)).
  apply fneq_lt in N. destruct N as [N|N]; split.
  - intros [A B]. right. split; fnra.
  - intros [[A B]|[A B]].
    + assert (0 < t * dx) by flra. assert (t < 0) by (destruct (flt_total t) as [X|[X|X]]; [auto|subst; flra|assert (0 < t * - dx) by (apply fmul_pos; flra); flra]).
      assert (0 < (1 - t) * - dx) by (apply fmul_pos; flra). flra.
    + split.
      * destruct (flt_total t) as [X|[X|X]]; auto; [assert (0 < - t * - dx) by (apply fmul_pos; flra); flra|subst; flra].
      * destruct (flt_total (1 - t)) as [X|[X|X]]; [assert (0 < - (1 - t) * - dx) by (apply fmul_pos; flra); flra|assert (t = 1) by flra; subst; flra|flra].
  - intros [A B]. left. split; fnra.
  - intros [[A B]|[A B]].
    + split.
      * destruct (flt_total t) as [X|[X|X]]; auto; [assert (0 < - t * dx) by (apply fmul_pos; flra); flra|subst; flra].
      * destruct (flt_total (1 - t)) as [X|[X|X]]; [assert (0 < - (1 - t) * dx) by (apply fmul_pos; flra); flra|assert (t = 1) by flra; subst; flra|flra].
    + assert (t < 0) by (destruct (flt_total t) as [X|[X|X]]; [auto|subst; flra|assert (0 < t * dx) by (apply fmul_pos; flra); flra]).
      assert (0 < (1 - t) * dx) by (apply fmul_pos; flra). flra.
Qed.
Definition between_test p q r : bool :=
  if fst p =? fst q
  then (snd p <? snd r) && (snd r <? snd q) || (snd r <? snd p) && (snd q <? snd r)
  else (fst p <? fst r) && (fst r <? fst q) || (fst r <? fst p) && (fst q <? fst r).
Lemma between_test_spec p q t : p <> q -> (between_test p q (vadd p (vscale t (vsub q p))) = true <-> 0 < t /\ t < 1).
Proof.
  intros N. unfold between_test. destruct (fst p =? fst q) eqn:E.
  - apply feqb_eq in E. assert (Ny : snd q - snd p <> 0). { intros X. apply N. apply vec_eq; flra. }
    pose proof (between_coord (snd p) _ t Ny) as B. replace (snd p + (snd q - snd p)) with (snd q) in B by ring. cbn [vadd vscale vsub fst snd]. symmetry. exact B.
  - apply feqb_false in E. assert (Nx : fst q - fst p <> 0). { intros X. apply E. flra. }
    pose proof (between_coord (fst p) _ t Nx) as B. replace (fst p + (fst q - fst p)) with (fst q) in B by ring. cbn [vadd vscale vsub fst snd]. symmetry. exact B.
Qed.

(** the squared distance along the segment is a convex quadratic function *)
Lemma segment_value C p q t : p <> q -> dist2 (vadd p (vscale t (vsub q p))) (ci_center C) =
  dist2 (foot C p (vsub q p)) (ci_center C) + (t - foot_at C p (vsub q p)) * (t - foot_at C p (vsub q p)) * dot (vsub q p) (vsub q p) /\
  0 < dot (vsub q p) (vsub q p).
Proof.
  intros N. assert (Nd : vsub q p <> vzero). { intros X. apply N. unfold vsub, vzero in X. injection X as X1 X2. apply vec_eq; flra. }
  split; [now apply dist2_at|]. apply vnz in Nd. exact Nd.
Qed.
Lemma end_points p q : vadd p (vscale 0 (vsub q p)) = p /\ vadd p (vscale 1 (vsub q p)) = q.
Proof. split; apply vec_eq; cbn; ring. Qed.

Lemma segment_position C p q : p <> q -> exists z, line_segment_position C p q = Ok z /\
  (z = 1%Z <-> exists r, open_segment p q r /\ in_disc C r) /\
  (z = 0%Z <-> (exists r, open_segment p q r /\ on_circle C r) /\ ~ (exists r, open_segment p q r /\ in_disc C r)) /\
  (z = (-1)%Z <-> forall r, open_segment p q r -> off_disc C r).
Proof.
  intros N. set (d := vsub q p). set (f := foot C p d). set (a := foot_at C p d). set (o := ci_center C).
  assert (Nd : d <> vzero). { intros X. apply N. unfold d, vsub, vzero in X. injection X as X1 X2. apply vec_eq; flra. }
  assert (Q : 0 < dot d d) by (now apply vnz). set (m := dot d d) in *. set (h := dist2 f o).
  assert (V : forall t, dist2 (vadd p (vscale t d)) o = h + (t - a) * (t - a) * m) by (intros t; exact (dist2_at C p d t Nd)).
  destruct (end_points p q) as [P0 P1]. fold d in P0, P1.
  pose proof (V 0) as V0. pose proof (V 1) as V1. rewrite P0 in V0. rewrite P1 in V1.
  destruct (point_position_spec C p) as [Pp1 [Pp0 Ppm]]. destruct (point_position_spec C q) as [Pq1 [Pq0 Pqm]].
  unfold in_disc, on_circle, off_disc in *. fold o in Pp1, Pp0, Ppm, Pq1, Pq0, Pqm |- *. set (R := ci_r2 C) in *.
  assert (O1 : (0:K) < 1) by apply flt_0_1.
  (* solve the three equivalences from a decision *)
  assert (Fin1 : (exists t, 0 < t /\ t < 1 /\ h + (t - a) * (t - a) * m < R) ->
    (1%Z = 1%Z <-> exists r, open_segment p q r /\ dist2 r o < R) /\
    (1%Z = 0%Z <-> (exists r, open_segment p q r /\ dist2 r o = R) /\ ~ (exists r, open_segment p q r /\ dist2 r o < R)) /\
    (1%Z = (-1)%Z <-> forall r, open_segment p q r -> R < dist2 r o)).
  { intros [t [T0 [T1 T]]]. assert (E : exists r, open_segment p q r /\ dist2 r o < R).
    { exists (vadd p (vscale t d)). split; [exists t; auto|]. rewrite V. exact T. }
    split; [tauto|]. split; [split; [discriminate|tauto]|]. split; [discriminate|]. intros H. exfalso. destruct E as [r [E1 E2]]. specialize (H r E1). flra. }
  assert (Finm : (forall t, 0 < t -> t < 1 -> R < h + (t - a) * (t - a) * m) ->
    ((-1)%Z = 1%Z <-> exists r, open_segment p q r /\ dist2 r o < R) /\
    ((-1)%Z = 0%Z <-> (exists r, open_segment p q r /\ dist2 r o = R) /\ ~ (exists r, open_segment p q r /\ dist2 r o < R)) /\
    ((-1)%Z = (-1)%Z <-> forall r, open_segment p q r -> R < dist2 r o)).
  { intros H. assert (E : forall r, open_segment p q r -> R < dist2 r o).
    { intros r [t [T0 [T1 ->]]]. fold d. rewrite V. auto. }
    split; [split; [discriminate|]|split; [split; [discriminate|]|tauto]].
    - intros [r [A B]]. specialize (E r A). flra.
    - intros [[r [A B]] _]. specialize (E r A). flra. }
  unfold line_segment_position. destruct (Z.eqb_spec (point_position C p) 1) as [Ep|Ep].
  { exists 1%Z. split; auto. apply Fin1. apply Pp1 in Ep. rewrite V0 in Ep.
    (* move a little from p *)
    set (g := R - (h + (0 - a) * (0 - a) * m)) in *. assert (G : 0 < g) by (unfold g; flra).
    set (w := fadd (a * a * m + m + 1) g). assert (W : 0 < w). { unfold w. pose proof (fsq_nonneg a). assert (0 <= a * a * m) by fnra. flra. }
    (* t = g / (2 w') *)
    set (w2 := m + 1 + (a * a + 1) * m + g). assert (W2 : 0 < w2). { unfold w2. pose proof (fsq_nonneg a). assert (0 <= (a * a + 1) * m) by fnra. flra. }
    exists (g / (w2 + w2)). set (t := g / (w2 + w2)). assert (Tw : t * (w2 + w2) = g) by (unfold t; field; intros X; flra).
    assert (T0 : 0 < t) by (apply fdiv_pos; flra). split; auto.
    assert (T1 : t < 1). { destruct (flt_total (1 - t)) as [X|[X|X]]; [| |flra]; exfalso.
      - assert (0 < - (1 - t) * (w2 + w2)) by (apply fmul_pos; flra). unfold w2 in *. pose proof (fsq_nonneg a). assert (0 <= (a * a + 1) * m) by fnra. flra.
      - assert (t = 1) by flra. unfold w2 in *. pose proof (fsq_nonneg a). assert (0 <= (a * a + 1) * m) by fnra. rewrite H in Tw. flra. }
    split; auto.
    assert (B1 : t * t * m <= t * m). { assert (0 <= t * (1 - t) * m); [|flra]. assert (0 < t * (1 - t)) by (apply fmul_pos; flra). assert (0 < t * (1 - t) * m) by now apply fmul_pos. flra. }
    assert (B2 : - (a + a) * (t * m) <= (a * a + 1) * (t * m)). { assert (0 < t * m) by now apply fmul_pos. pose proof (fsq_nonneg (a + 1)). assert (0 <= (a + 1) * (a + 1) * (t * m)) by fnra. flra. }
    assert (B3 : t * m + (a * a + 1) * (t * m) < g).
    { assert (t * (m + (a * a + 1) * m) < t * (w2 + w2)); [|flra].
      assert (0 < t * (w2 + w2 - (m + (a * a + 1) * m))); [|flra]. apply fmul_pos; auto. unfold w2. pose proof (fsq_nonneg a). assert (0 <= (a * a + 1) * m) by fnra. flra. }
    unfold g in *. flra. }
  destruct (Z.eqb_spec (point_position C q) 1) as [Eq|Eq].
  { exists 1%Z. split; auto. apply Fin1. apply Pq1 in Eq. rewrite V1 in Eq.
    set (b := 1 - a) in *.
    set (g := R - (h + b * b * m)) in *. assert (G : 0 < g) by (unfold g; flra).
    set (w2 := m + 1 + (b * b + 1) * m + g). assert (W2 : 0 < w2). { unfold w2. pose proof (fsq_nonneg b). assert (0 <= (b * b + 1) * m) by fnra. flra. }
    set (t := g / (w2 + w2)). assert (Tw : t * (w2 + w2) = g) by (unfold t; field; intros X; flra).
    assert (T0 : 0 < t) by (apply fdiv_pos; flra). exists (1 - t).
    assert (T1 : t < 1). { destruct (flt_total (1 - t)) as [X|[X|X]]; [| |flra]; exfalso.
      - assert (0 < - (1 - t) * (w2 + w2)) by (apply fmul_pos; flra). unfold w2 in *. pose proof (fsq_nonneg b). assert (0 <= (b * b + 1) * m) by fnra. flra.
      - assert (t = 1) by flra. unfold w2 in *. pose proof (fsq_nonneg b). assert (0 <= (b * b + 1) * m) by fnra. rewrite H in Tw. flra. }
    split; [flra|]. split; [flra|]. replace (1 - t - a) with (b - t) by (unfold b; ring).
    assert (B1 : t * t * m <= t * m). { assert (0 < t * (1 - t)) by (apply fmul_pos; flra). assert (0 < t * (1 - t) * m) by now apply fmul_pos. flra. }
    assert (B2 : - (b + b) * (t * m) <= (b * b + 1) * (t * m)). { assert (0 < t * m) by now apply fmul_pos. pose proof (fsq_nonneg (b + 1)). assert (0 <= (b + 1) * (b + 1) * (t * m)) by fnra. flra. }
    assert (B3 : t * m + (b * b + 1) * (t * m) < g).
    { assert (0 < t * (w2 + w2 - (m + (b * b + 1) * m))); [|flra]. apply fmul_pos; auto. unfold w2. pose proof (fsq_nonneg b). assert (0 <= (b * b + 1) * m) by fnra. flra. }
    clearbody b. unfold g in *. flra. }
  fold d. rewrite (closest_ok C p d Nd). cbn [bind]. fold f.
  change (if fst p =? fst q then _ else _) with (between_test p q f).
  assert (Hp : R <= dist2 p o). { destruct (fltb (dist2 p o) R) eqn:X; auto. now destruct Ep; apply Pp1. }
  assert (Hq : R <= dist2 q o). { destruct (fltb (dist2 q o) R) eqn:X; auto. now destruct Eq; apply Pq1. }
  rewrite V0 in Hp. rewrite V1 in Hq.
  destruct (point_position_spec C f) as [Pf1 [Pf0 Pfm]]. unfold in_disc, on_circle, off_disc in Pf1, Pf0, Pfm. fold o R h in Pf1, Pf0, Pfm.
  destruct (Z.eqb_spec (point_position C f) (-1)) as [Ef|Ef].
  { exists (-1)%Z. split; auto. apply Finm. intros t T0 T1. apply Pfm in Ef. pose proof (fsq_nonneg (t - a)). assert (0 <= (t - a) * (t - a) * m) by fnra. flra. }
  assert (FT : between_test p q f = true <-> 0 < a /\ a < 1). { unfold f, foot. fold a. apply between_test_spec; auto. }
  destruct (between_test p q f) eqn:BT.
  - destruct (proj1 FT eq_refl) as [A0 A1]. exists (point_position C f). split; auto.
    assert (Hmin : forall t, h <= h + (t - a) * (t - a) * m). { intros t. pose proof (fsq_nonneg (t - a)). assert (0 <= (t - a) * (t - a) * m) by fnra. flra. }
    destruct (flt_total (h - R)) as [X|[X|X]].
    + rewrite (proj2 Pf1) by flra. apply Fin1. exists a. split; auto. split; auto. replace (a - a) with (0:K) by ring. flra.
    + rewrite (proj2 Pf0) by flra. split; [split; [discriminate|]|split; [split; auto; intros _; split|split; [discriminate|]]].
      * intros [r [[t [T0 [T1 ->]]] B]]. fold d in B. rewrite V in B. specialize (Hmin t). flra.
      * exists (vadd p (vscale a d)). split; [exists a; auto|]. rewrite V. replace (a - a) with (0:K) by ring. flra.
      * intros [r [[t [T0 [T1 ->]]] B]]. fold d in B. rewrite V in B. specialize (Hmin t). flra.
      * intros H. exfalso. specialize (H (vadd p (vscale a d)) ltac:(exists a; auto)). rewrite V in H. replace (a - a) with (0:K) in H by ring. flra.
    + exfalso. apply Ef. apply Pfm. flra.
  - exists (-1)%Z. split; auto. apply Finm. intros t T0 T1.
    destruct (flt_total a) as [X|[X|X]]; [| |destruct (flt_total (1 - a)) as [Y|[Y|Y]]].
    1,2: assert (Y : a * a < (t - a) * (t - a)) by fnra; assert (0 < ((t - a) * (t - a) - a * a) * m) by (apply fmul_pos; flra); flra.
    1,2: assert (Z : (1 - a) * (1 - a) < (t - a) * (t - a)) by fnra; assert (0 < ((t - a) * (t - a) - (1 - a) * (1 - a)) * m) by (apply fmul_pos; flra); flra.
    exfalso. assert (false = true); [|discriminate]. apply FT. split; auto. flra.
Qed.

(** *** the other intersection *)
Lemma other_ok C p v : v <> vzero -> other_intersection C p v = Ok (vsub (vscale 2 (foot C p v)) p).
Proof.
  intros N. apply vnz in N. unfold other_intersection, foot, cross3, dehomogenize.
  rewrite (proj2 (feqb_false _ 0)).
  - cbn [bind fst snd]. f_equal. apply vec_eq; open; field; intros X; flra.
  - intros X. open. flra.
Qed.
Lemma other_spec C p v : v <> vzero -> on_circle C p -> let q := vsub (vscale 2 (foot C p v)) p in
  (exists t, q = vadd p (vscale t v)) /\ on_circle C q /\
  forall t, on_circle C (vadd p (vscale t v)) -> vadd p (vscale t v) = p \/ vadd p (vscale t v) = q.
Proof.
  intros N O q. pose proof N as N'. apply vnz in N'. set (a := foot_at C p v).
  assert (Q : q = vadd p (vscale (2 * a) v)).
  { unfold q, a, foot, foot_at. apply vec_eq; open; field; intros X; flra. }
  assert (P0 : p = vadd p (vscale 0 v)) by (apply vec_eq; open; ring).
  unfold on_circle in *. rewrite P0 in O. rewrite dist2_at in O by auto. fold a in O.
  split; [eauto|]. split.
  - rewrite Q, dist2_at by auto. fold a. rewrite <- O. ring.
  - intros t H. rewrite dist2_at in H by auto. fold a in H. rewrite Q.
    assert (Z : t * (t - 2 * a) = 0).
    { assert (W : dot v v * (t * (t - 2 * a)) = 0); [|destruct (fmul_eq0 _ _ W) as [X|X]; [exfalso; flra|exact X]].
      transitivity ((t - a) * (t - a) * dot v v - (0 - a) * (0 - a) * dot v v); [ring|]. flra. }
    destruct (fmul_eq0 _ _ Z) as [-> | E]; [left; now rewrite <- P0|right]. assert (t = 2 * a) as -> by flra. reflexivity.
Qed.
Lemma tangent_spec C p : (on_circle C p -> exists t, tangent_vector C p = Ok t /\ dot t (vsub p (ci_center C)) = 0 /\
    ccw (vsub p (ci_center C)) t = ci_r2 C) /\
  (~ on_circle C p -> tangent_vector C p = Err ValueError).
Proof.
  unfold tangent_vector. destruct (point_position_spec C p) as [_ [H _]]. split; intros O.
  - rewrite (proj2 H O). cbn [Z.eqb negb]. eexists. split; [reflexivity|]. unfold on_circle in O. open. split; [ring|]. rewrite <- O. ring.
  - destruct (Z.eqb_spec (point_position C p) 0) as [E|E]; [now destruct O; apply H|reflexivity].
Qed.
Lemma circle_rmul_spec (f : sim K) C p : sim_ok f ->
  (sg_sign f = true ->
    (on_circle C p <-> on_circle (circle_rmul f C) (sim_apply f p)) /\
    (in_disc C p <-> in_disc (circle_rmul f C) (sim_apply f p)) /\
    (off_disc C p <-> off_disc (circle_rmul f C) (sim_apply f p))) /\
  (sg_sign f = false -> 0 < ci_r2 C -> off_disc (circle_rmul f C) (sim_apply f p)).
Proof.
  intros Kf. assert (D : 0 < sg_a f * sg_a f + sg_b f * sg_b f) by (apply fsum_sq_pos; exact Kf).
  unfold on_circle, in_disc, off_disc. cbn [circle_rmul ci_center ci_r2].
  assert (E : dist2 (sim_apply f p) (sim_apply f (ci_center C)) = (sg_a f * sg_a f + sg_b f * sg_b f) * dist2 p (ci_center C)).
  { unfold sim_apply. destruct (sg_sign f); open; ring. }
  rewrite E. unfold sim_det, sgn. set (k := sg_a f * sg_a f + sg_b f * sg_b f) in *. set (z := dist2 p (ci_center C)). set (r := ci_r2 C).
  pose proof (dist2_nonneg p (ci_center C)) as Z. fold z in Z. split; intros ->.
  - assert (A : forall x y, x < y -> k * x < k * y) by (intros x y H; assert (0 < k * (y - x)) by (apply fmul_pos; flra); flra).
    destruct (flt_total (z - r)) as [T|[T|T]].
    + assert (k * z < k * r) by (apply A; flra). repeat split; intros; flra.
    + assert (z = r) as -> by flra. repeat split; intros; flra.
    + assert (k * r < k * z) by (apply A; flra). repeat split; intros; flra.
  - intros R. assert (0 < k * r) by (now apply fmul_pos). assert (0 <= k * z) by fnra. flra.
Qed.

Lemma other_exact C p v : v <> vzero -> on_circle C p -> exists q, other_intersection C p v = Ok q /\
  forall r, (exists t, r = vadd p (vscale t v)) /\ on_circle C r <-> r = p \/ r = q.
Proof.
  intros N O. eexists. split; [now apply other_ok|]. destruct (other_spec C p v N O) as [T [Q H]]. intros r. split.
  - intros [[t ->] X]. now apply H.
  - intros [-> | ->]; split; auto. exists 0. apply vec_eq; open; ring.
Qed.
Lemma line_spec C p d : d <> vzero ->
  exists r z, closest_point_on_line C p d = Ok r /\ line_position C p d = Ok z /\
    (exists t, r = vadd p (vscale t d)) /\
    (forall t, vadd p (vscale t d) <> r -> dist2 r (ci_center C) < dist2 (vadd p (vscale t d)) (ci_center C)) /\
    (z = 1%Z <-> exists t, in_disc C (vadd p (vscale t d))) /\
    (z = (-1)%Z <-> forall t, off_disc C (vadd p (vscale t d))) /\
    (z = 0%Z <-> (exists t, on_circle C (vadd p (vscale t d))) /\ forall t, ~ in_disc C (vadd p (vscale t d))).
Proof.
  intros N. exists (foot C p d), (point_position C (foot C p d)). unfold line_position. rewrite closest_ok by auto. split; [reflexivity|]. split; [reflexivity|].
  set (a := foot_at C p d). assert (Fa : foot C p d = vadd p (vscale a d)) by reflexivity. split; [now exists a|].
  pose proof N as N'. apply vnz in N'.
  assert (M : forall t, dist2 (foot C p d) (ci_center C) <= dist2 (vadd p (vscale t d)) (ci_center C)).
  { intros t. rewrite dist2_at by auto. fold a. pose proof (fsq_nonneg (t - a)). assert (0 <= (t - a) * (t - a) * dot d d) by fnra. flra. }
  split.
  { intros t NE. rewrite dist2_at by auto. fold a. assert (T : t - a <> 0) by (intros X; apply NE; rewrite Fa; now assert (t = a) as -> by flra).
    assert (0 < (t - a) * (t - a) * dot d d) by (apply fmul_pos; auto; now apply fsq_pos). flra. }
  destruct (point_position_spec C (foot C p d)) as [H1 [H0 Hm]]. rewrite H1, H0, Hm. unfold in_disc, on_circle, off_disc in *. rewrite Fa in M |- *.
  split; [|split]; split.
  - intros X. now exists a.
  - intros [t X]. specialize (M t). flra.
  - intros X t. specialize (M t). flra.
  - intros X. apply X.
  - intros X. split; [now exists a|]. intros t Y. specialize (M t). flra.
  - intros [[t X] Y]. specialize (M t). specialize (Y a).
    assert (Z : ci_r2 C <= dist2 (vadd p (vscale a d)) (ci_center C)) by (unfold fle; destruct (fltb _ _) eqn:E; auto; now destruct Y). flra.
Qed.
End Circ.
