(** Proofs about the Delaunay tests. *)
From Coq Require Import List Bool ZArith Arith Lia Ring Field.
From Verif Require Import OField FMicromega PField MBase MEuclid SEuclid PEuclid MSim SSim PSim MPoly PPoly
  MSurf SSurf PSurf PSurf3 PTurn MCircle SCircle PCircle.
Import ListNotations.

Section Del.
Context {K : OField}.
Add Field KFde : (of_ft K).
Local Open Scope F_scope.
Implicit Types (p q r s c u v d a b x y : vec K) (C : circle K).

Ltac open := unfold circumcenter, orient, dist2, sqdist, dot, ccw, vsub, vadd, vscale, vopp in *; cbn [fst snd] in *.

Lemma from_vectors_entries u v : u <> vzero ->
  m00 (similarity_from_vectors u v) = dot u v / dot u u /\ m10 (similarity_from_vectors u v) = ccw u v / dot u u /\
  m11 (similarity_from_vectors u v) = dot u v / dot u u.
Proof.
  intros N. apply vnz in N. unfold similarity_from_vectors. destruct (veqb u v) eqn:E.
  - apply veqb_eq in E. subst v. cbn. open. repeat split; field; intros X; flra.
  - cbn. open. repeat split; reflexivity.
Qed.
Lemma mul_sign (k z : K) : 0 < k -> (k * z < 0 <-> z < 0) /\ (0 < k * z <-> 0 < z) /\ (k * z = 0 <-> z = 0).
Proof.
  intros D. destruct (flt_total z) as [X|[X|X]].
  - assert (0 < k * - z) by (apply fmul_pos; flra). repeat split; intros Y; solve [auto | flra | exfalso; flra].
  - subst z. repeat split; intros Y; solve [auto | ring | flra | exfalso; flra].
  - assert (0 < k * z) by (apply fmul_pos; flra). repeat split; intros Y; solve [auto | flra | exfalso; flra].
Qed.
(** the sine of the sum of the angles at [a] and [b] opposite to the segment from [x] to [y], up to a positive factor *)
Definition excess u1 v1 u2 v2 : K := ccw u1 v1 * dot u2 v2 + dot u1 v1 * ccw u2 v2.
Lemma product_entry u1 v1 u2 v2 : u1 <> vzero -> u2 <> vzero ->
  m10 (mmul (similarity_from_vectors u1 v1) (similarity_from_vectors u2 v2)) * (dot u1 u1 * dot u2 u2) = excess u1 v1 u2 v2.
Proof.
  intros N1 N2. destruct (from_vectors_entries u1 v1 N1) as [A1 [A2 A3]], (from_vectors_entries u2 v2 N2) as [B1 [B2 B3]].
  cbn [mmul m10]. rewrite A2, A3, B1, B2. apply vnz in N1, N2. unfold excess. set (n1 := dot u1 u1) in *. set (n2 := dot u2 u2) in *.
  field. split; intros X; flra.
Qed.
Lemma product_sign u1 v1 u2 v2 : u1 <> vzero -> u2 <> vzero ->
  ((m10 (mmul (similarity_from_vectors u1 v1) (similarity_from_vectors u2 v2)) <? 0) = true <-> excess u1 v1 u2 v2 < 0) /\
  ((m10 (mmul (similarity_from_vectors u1 v1) (similarity_from_vectors u2 v2)) =? 0) = true <-> excess u1 v1 u2 v2 = 0).
Proof.
  intros N1 N2. pose proof (product_entry u1 v1 u2 v2 N1 N2) as E. apply vnz in N1, N2.
  set (z := m10 _) in *. set (n := dot u1 u1 * dot u2 u2) in *. assert (Np : 0 < n) by (now apply fmul_pos). rewrite <- E. split.
  - change (z < 0 <-> z * n < 0). destruct (flt_total z) as [X|[X|X]]; split; intros Y; auto; try (exfalso; flra).
    + assert (0 < - z * n) by (apply fmul_pos; flra). flra.
    + subst z. rewrite X in Y. flra.
    + assert (0 < z * n) by (apply fmul_pos; flra). flra.
  - rewrite feqb_eq. split; [intros ->; ring|]. intros Y. destruct (fmul_eq0 _ _ Y); auto. flra.
Qed.

(** the power of [a] with respect to the circle through [x], [y], [b] *)
Lemma excess_power x y a b c : circumcenter x y b c ->
  excess (vsub y a) (vsub x a) (vsub x b) (vsub y b) = orient x y b * (dist2 c a - dist2 c x).
Proof.
  intros [A B].
  assert (E1 : 2 * (fst c * (fst y - fst x) + snd c * (snd y - snd x)) = fst y * fst y + snd y * snd y - (fst x * fst x + snd x * snd x)) by (open; flra).
  assert (E2 : 2 * (fst c * (fst b - fst x) + snd c * (snd b - snd x)) = fst b * fst b + snd b * snd b - (fst x * fst x + snd x * snd x)) by (open; flra).
  assert (G : orient x y b * (2 * (fst c * (fst a - fst x) + snd c * (snd a - snd x))) =
    orient x a b * (2 * (fst c * (fst y - fst x) + snd c * (snd y - snd x))) + orient x y a * (2 * (fst c * (fst b - fst x) + snd c * (snd b - snd x)))) by (open; ring).
  rewrite E1, E2 in G.
  transitivity (orient x y b * (fst a * fst a + snd a * snd a - (fst x * fst x + snd x * snd x)) - orient x y b * (2 * (fst c * (fst a - fst x) + snd c * (snd a - snd x)))); [|open; ring].
  rewrite G. unfold excess. open. ring.
Qed.
Lemma excess_iff x y a b : 0 < orient x y b ->
  (excess (vsub y a) (vsub x a) (vsub x b) (vsub y b) < 0 <-> inside_circumcircle x y b a) /\
  (excess (vsub y a) (vsub x a) (vsub x b) (vsub y b) = 0 <-> on_circumcircle x y b a) /\
  (0 < excess (vsub y a) (vsub x a) (vsub x b) (vsub y b) <-> outside_circumcircle x y b a).
Proof.
  intros D. assert (D0 : orient x y b <> 0) by (intros X; flra). destruct (circle_three x y b D0) as [C [_ [CC _]]]. set (c := ci_center C) in *.
  pose proof (excess_power x y a b c CC) as E. rewrite E.
  assert (U : forall c', circumcenter x y b c' -> c' = c) by (intros c' H; now apply (circumcenter_unique x y b)).
  set (k := orient x y b) in *. set (z := dist2 c a - dist2 c x) in *.
  destruct (mul_sign k z D) as [S1 [S2 S0]].
  rewrite S1, S2, S0. unfold z. split; [|split]; (split; [intros Y; exists c; split; auto; flra|intros [c' [H Y]]; rewrite (U c' H) in Y; flra]).
Qed.
(** an edge whose triangles violate the Delaunay condition is the diagonal of a strictly convex quadrilateral *)
Lemma bary x y a b : orient x y b * excess (vsub y a) (vsub x a) (vsub x b) (vsub y b) =
  - (orient a y b * orient x a b * dist2 x y + orient x a b * orient x y a * dist2 y b + orient a y b * orient x y a * dist2 x b).
Proof. unfold excess. open. ring. Qed.
Lemma half_convex (lx ly lb D : K) u v : 0 < D -> lb < 0 -> lx + ly + lb = D ->
  0 < lx * ly * dot u u + ly * lb * dot v v + lx * lb * dot (vadd u v) (vadd u v) -> 0 < lx.
Proof.
  intros HD Hb E H. destruct (flt_total lx) as [X|[X|X]]; auto; exfalso.
  - assert (ly = D - lx - lb) by flra. subst ly. set (w := vsub (vscale lx u) (vscale lb v)).
    assert (W : 0 <= dot w w) by (unfold dot; pose proof (fsq_nonneg (fst w)); pose proof (fsq_nonneg (snd w)); flra).
    assert (Uu : 0 <= dot u u) by (unfold dot; pose proof (fsq_nonneg (fst u)); pose proof (fsq_nonneg (snd u)); flra).
    assert (Vv : 0 <= dot v v) by (unfold dot; pose proof (fsq_nonneg (fst v)); pose proof (fsq_nonneg (snd v)); flra).
    assert (A : 0 <= - lx * D * dot u u). { assert (0 < - lx * D) by (apply fmul_pos; flra). fnra. }
    assert (B : 0 <= - lb * D * dot v v). { assert (0 < - lb * D) by (apply fmul_pos; flra). fnra. }
    assert (I : lx * (D - lx - lb) * dot u u + (D - lx - lb) * lb * dot v v + lx * lb * dot (vadd u v) (vadd u v)
      = - (- lx * D * dot u u) - (- lb * D * dot v v) - dot w w) by (unfold w; open; ring). flra.
  - subst lx. assert (Vv : 0 <= dot v v) by (unfold dot; pose proof (fsq_nonneg (fst v)); pose proof (fsq_nonneg (snd v)); flra).
    assert (0 < ly) by flra. assert (0 < ly * - lb) by (apply fmul_pos; flra). assert (0 <= ly * - lb * dot v v) by fnra. flra.
Qed.
Lemma inside_convex x y a b : 0 < orient x y b -> orient x y a < 0 ->
  excess (vsub y a) (vsub x a) (vsub x b) (vsub y b) < 0 -> strictly_convex4 x a y b.
Proof.
  intros D A E. pose proof (bary x y a b) as B.
  assert (G : 0 < orient x y b * - excess (vsub y a) (vsub x a) (vsub x b) (vsub y b)) by (apply fmul_pos; flra).
  assert (S : orient a y b + orient x a b + orient x y a = orient x y b) by (open; ring).
  assert (H1 : 0 < orient a y b).
  { apply (half_convex _ (orient x a b) (orient x y a) (orient x y b) (vsub y x) (vsub b y)); auto.
    replace (dot (vsub y x) (vsub y x)) with (dist2 x y) by (open; ring). replace (dot (vsub b y) (vsub b y)) with (dist2 y b) by (open; ring).
    replace (dot (vadd (vsub y x) (vsub b y)) (vadd (vsub y x) (vsub b y))) with (dist2 x b) by (open; ring). flra. }
  assert (H2 : 0 < orient x a b).
  { apply (half_convex _ (orient a y b) (orient x y a) (orient x y b) (vsub y x) (vsub x b)); auto; [flra|].
    replace (dot (vsub y x) (vsub y x)) with (dist2 x y) by (open; ring). replace (dot (vsub x b) (vsub x b)) with (dist2 x b) by (open; ring).
    replace (dot (vadd (vsub y x) (vsub x b)) (vadd (vsub y x) (vsub x b))) with (dist2 y b) by (open; ring). flra. }
  split; [|split; [|split]].
  - replace (orient x a y) with (- orient x y a) by (open; ring). flra.
  - exact H1.
  - replace (orient y b x) with (orient x y b) by (open; ring). exact D.
  - replace (orient b x a) with (orient x a b) by (open; ring). exact H2.
Qed.
Lemma excess_other x y a b : excess (vsub a x) (vsub b x) (vsub b y) (vsub a y) = - excess (vsub y a) (vsub x a) (vsub x b) (vsub y b).
Proof. unfold excess. open. ring. Qed.
(** similarities do not change the excess, up to a positive factor *)
Lemma excess_sim (f : sim K) x y a b : sg_sign f = true -> sim_ok f ->
  excess (vsub (sim_apply f y) (sim_apply f a)) (vsub (sim_apply f x) (sim_apply f a)) (vsub x b) (vsub y b) =
  sim_det f * excess (vsub y a) (vsub x a) (vsub x b) (vsub y b).
Proof. intros S _. unfold sim_apply, sim_det, sgn. rewrite S. unfold excess. open. ring. Qed.
Lemma sim_det_pos (f : sim K) : sg_sign f = true -> sim_ok f -> 0 < sim_det f.
Proof. intros S N. unfold sim_det, sgn. rewrite S. pose proof (fsum_sq_pos _ _ N). flra. Qed.
Lemma orient_sim (f : sim K) p q r : sg_sign f = true -> orient (sim_apply f p) (sim_apply f q) (sim_apply f r) = sim_det f * orient p q r.
Proof. intros S. unfold sim_apply, sim_det, sgn. rewrite S. open. ring. Qed.
Lemma dist2_sim (f : sim K) p q : sg_sign f = true -> dist2 (sim_apply f p) (sim_apply f q) = sim_det f * dist2 p q.
Proof. intros S. unfold sim_apply, sim_det, sgn. rewrite S. open. ring. Qed.
Lemma excess_place (f : sim K) u1 v1 u2 v2 x y a x' y' : sg_sign f = true -> sim_ok f ->
  u1 = vsub x a -> v1 = vsub y a -> sim_apply f x = y' -> sim_apply f y = x' ->
  excess (vsub y' (sim_apply f a)) (vsub x' (sim_apply f a)) u2 v2 = sim_det f * excess u1 v1 u2 v2.
Proof. intros S _ -> -> <- <-. unfold sim_apply, sim_det, sgn. rewrite S. unfold excess. open. ring. Qed.

(** *** triangles *)
Lemma triangle_vertex (P : polygon K) e : length P = 3%nat -> vertex P (e + 3) = vertex P e.
Proof. intros L. rewrite <- L. apply vertex_add_n. Qed.
Lemma triangle_orient (P : polygon K) e : length P = 3%nat ->
  orient (vertex P e) (vertex P (e + 1)) (vertex P (e + 2)) = 2 * area P.
Proof.
  intros L. destruct P as [|p [|q [|r [|? ?]]]]; try discriminate. rewrite area_triangle.
  assert (T : forall i, vertex [p; q; r] i = nth (i mod 3) [p; q; r] vzero) by reflexivity. rewrite !T.
  assert (M : (e mod 3 < 3)%nat) by (apply Nat.mod_upper_bound; lia).
  rewrite (Nat.add_mod e 1), (Nat.add_mod e 2) by lia. assert (2 <> (0 : K)) by apply f2_neq0.
  destruct (e mod 3) as [|[|[|?]]]; try lia; cbn; open; field; auto.
Qed.
End Del.

Section Surf.
Context {K : OField} {L : Type}.
Add Field KFde2 : (of_ft K).
Local Open Scope F_scope.
Implicit Types (S : surface K L) (D : L -> Prop) (P : polygon K).

Lemma vertex_far P i j : vertex P i <> vertex P j -> vsub (vertex P i) (vertex P j) <> vzero.
Proof. intros N E. apply N. unfold vsub, vzero in E. injection E as E1 E2. apply vec_eq; flra. Qed.
Lemma orient_distinct (p q r : vec K) : orient p q r <> 0 -> p <> r /\ q <> r /\ p <> q.
Proof.
  intros N. repeat split; intros ->; apply N; unfold orient, ccw, vsub; cbn; ring.
Qed.

Section Pair.
Variables (D : L -> Prop) (S : surface K L) (l l' : L) (e e' : nat) (P P' : polygon K) (F : vec K -> vec K).
Hypothesis V : valid D S.
Hypothesis G : glued_at D S l e P l' e' P'.
Hypothesis GM : gluing_map P e P' e' F.
Hypothesis O : 0 < orient (vertex P e) (vertex P (e + 1)) (vertex P (e + 2)).
Hypothesis O' : 0 < orient (vertex P' e') (vertex P' (e' + 1)) (vertex P' (e' + 2)).

Lemma pair_excess z : z = excess (vsub (vertex P e) (vertex P (e + 2))) (vsub (vertex P (e + 1)) (vertex P (e + 2)))
    (vsub (vertex P' e') (vertex P' (e' + 2))) (vsub (vertex P' (e' + 1)) (vertex P' (e' + 2))) ->
  (z < 0 <-> inside_circumcircle (vertex P' e') (vertex P' (e' + 1)) (vertex P' (e' + 2)) (F (vertex P (e + 2)))) /\
  (z = 0 <-> on_circumcircle (vertex P' e') (vertex P' (e' + 1)) (vertex P' (e' + 2)) (F (vertex P (e + 2)))) /\
  orient (vertex P' e') (vertex P' (e' + 1)) (F (vertex P (e + 2))) < 0 /\
  (z < 0 -> strictly_convex4 (vertex P' e') (F (vertex P (e + 2))) (vertex P' (e' + 1)) (vertex P' (e' + 2))).
Proof.
  intros Ez. destruct (edge_transformation_ok _ _ _ _ _ _ _ _ V G) as [f [Ef [Kf [Sf [Fa Fb]]]]].
  pose proof (proj1 (gluing_map_iff _ _ _ _ _ _ _ _ f V G Ef F) GM) as FF. rewrite FF.
  rewrite <- Nat.add_1_r in Fa, Fb.
  destruct (excess_iff (vertex P' e') (vertex P' (e' + 1)) (sim_apply f (vertex P (e + 2))) (vertex P' (e' + 2)) O') as [E1 [E2 E3]].
  rewrite (excess_place f _ _ _ _ (vertex P e) (vertex P (e + 1)) (vertex P (e + 2)) _ _ Sf Kf eq_refl eq_refl Fa Fb) in E1, E2.
  rewrite <- Ez in E1, E2. destruct (mul_sign (sim_det f) z (sim_det_pos f Sf Kf)) as [S1 [S2 S0]]. rewrite S1 in E1. rewrite S0 in E2.
  assert (OA : orient (vertex P' e') (vertex P' (e' + 1)) (sim_apply f (vertex P (e + 2))) < 0).
  { rewrite <- Fa, <- Fb. rewrite (orient_sim f _ _ _ Sf).
    assert (0 < sim_det f * orient (vertex P e) (vertex P (e + 1)) (vertex P (e + 2))) by (apply fmul_pos; auto; now apply sim_det_pos).
    replace (orient (vertex P (e + 1)) (vertex P e) (vertex P (e + 2))) with (- orient (vertex P e) (vertex P (e + 1)) (vertex P (e + 2))) by (unfold orient, ccw, vsub; cbn; ring). flra. }
  split; auto. split; auto. split; auto. intros Z. apply inside_convex; auto.
  rewrite (excess_place f _ _ _ _ (vertex P e) (vertex P (e + 1)) (vertex P (e + 2)) _ _ Sf Kf eq_refl eq_refl Fa Fb). rewrite <- Ez.
  assert (0 < sim_det f * - z); [apply fmul_pos; [now apply sim_det_pos|flra]|flra].
Qed.
Lemma edge_2 (Q : polygon K) k : length Q = 3%nat -> edge Q (k + 2) = vsub (vertex Q k) (vertex Q (k + 2)).
Proof. intros L3. unfold edge. replace (Datatypes.S (k + 2)) with (k + 3)%nat by lia. now rewrite triangle_vertex. Qed.
Lemma edge_1 (Q : polygon K) k : vopp (edge Q (k + 1)) = vsub (vertex Q (k + 1)) (vertex Q (k + 2)).
Proof. unfold edge. replace (Datatypes.S (k + 1)) with (k + 2)%nat by lia. unfold vopp, vsub. apply vec_eq; cbn; ring. Qed.

Lemma needs_flip_spec : length P = 3%nat -> length P' = 3%nat -> exists b, needs_flip S l e = Ok b /\
  (b = true <-> inside_circumcircle (vertex P' e') (vertex P' (e' + 1)) (vertex P' (e' + 2)) (F (vertex P (e + 2)))).
Proof.
  intros L1 L2. unfold needs_flip. rewrite (ga_opp _ _ _ _ _ _ _ _ G). cbn [bind fst snd].
  rewrite (ga_poly _ _ _ _ _ _ _ _ G), (ga_poly' _ _ _ _ _ _ _ _ G). cbn [bind]. rewrite L1, L2. cbn [Nat.eqb negb orb].
  eexists. split; [reflexivity|]. rewrite !edge_2, !edge_1 by auto. destruct (pair_excess _ eq_refl) as [E _]. rewrite <- E.
  apply product_sign; apply vertex_far; [apply (orient_distinct _ _ _ (fpos_neq0 _ O))|apply (orient_distinct _ _ _ (fpos_neq0 _ O'))].
Qed.
Lemma needs_join_spec : exists b, needs_join S l e = Ok b /\
  (b = true <-> on_circumcircle (vertex P' e') (vertex P' (e' + 1)) (vertex P' (e' + 2)) (F (vertex P (e + 2)))).
Proof.
  unfold needs_join. rewrite (ga_opp _ _ _ _ _ _ _ _ G). cbn [bind fst snd].
  rewrite (ga_poly _ _ _ _ _ _ _ _ G), (ga_poly' _ _ _ _ _ _ _ _ G). cbn [bind].
  eexists. split; [reflexivity|]. rewrite !edge_1 by auto. destruct (pair_excess _ eq_refl) as [_ [E _]]. rewrite <- E.
  apply product_sign; apply vertex_far; [apply (orient_distinct _ _ _ (fpos_neq0 _ O))|apply (orient_distinct _ _ _ (fpos_neq0 _ O'))].
Qed.
End Pair.

(** *** the loops *)
Lemma gluing_unique D S l e P l' e' P' F F' : valid D S -> glued_at D S l e P l' e' P' -> gluing_map P e P' e' F -> gluing_map P e P' e' F' ->
  forall p, F p = F' p.
Proof.
  intros V G H H' p. destruct (edge_transformation_ok _ _ _ _ _ _ _ _ V G) as [f [Ef _]].
  pose proof (proj1 (gluing_map_iff _ _ _ _ _ _ _ _ f V G Ef F) H p). pose proof (proj1 (gluing_map_iff _ _ _ _ _ _ _ _ f V G Ef F') H' p). congruence.
Qed.
Lemma gluing_exists D S l e P l' e' P' : valid D S -> glued_at D S l e P l' e' P' ->
  exists f, edge_transformation S l e = Ok f /\ sim_ok f /\ sg_sign f = true /\ gluing_map P e P' e' (sim_apply f).
Proof.
  intros V G. destruct (edge_transformation_ok _ _ _ _ _ _ _ _ V G) as [f [Ef [Kf [Sf _]]]]. exists f. do 3 (split; auto).
  now apply (gluing_map_iff _ _ _ _ _ _ _ _ f V G Ef).
Qed.
Lemma listed_glued D S g : valid D S -> listed D S g -> exists P l' e' P', glued_at D S (fst g) (snd g) P l' e' P'.
Proof.
  intros V [P [[l' e'] [A [B [C E]]]]]. destruct (v_opp _ _ V _ P _ A B C) as [X|[l2 [e2 [P' [X [Dl [Pl [Lt Back]]]]]]]]; [congruence|].
  rewrite E in X. injection X as <- <-. exists P, l', e', P'. constructor; auto.
Qed.
Lemma is_delaunay_triangulated_spec D S gs : valid D S -> positive D S -> (forall g, In g gs -> listed D S g) ->
  exists b, is_delaunay_triangulated S gs = Ok b /\ (b = true <-> forall g, In g gs -> locally_delaunay D S g).
Proof.
  intros V Pos. induction gs as [|g gs IH]; intros Li; [exists true; split; [reflexivity|]; split; [intros _ g []|reflexivity]|].
  destruct IH as [b [E H]]; [intros h Ih; apply Li; now right|].
  destruct (listed_glued D S g V (Li g (or_introl eq_refl))) as [P [l' [e' [P' G]]]].
  destruct (gluing_exists _ _ _ _ _ _ _ _ V G) as [f [_ [_ [_ GM]]]].
  assert (Same : locally_delaunay D S g -> length P = 3%nat /\ length P' = 3%nat /\
    ~ inside_circumcircle (vertex P' e') (vertex P' (e' + 1)) (vertex P' (e' + 2)) (sim_apply f (vertex P (snd g + 2)))).
  { intros [Q [m' [k' [Q' [F [G' [GM' [L1 [L2 NI]]]]]]]]].
    pose proof (ga_poly _ _ _ _ _ _ _ _ G) as A1. pose proof (ga_poly _ _ _ _ _ _ _ _ G') as A2. rewrite A1 in A2. injection A2 as <-.
    pose proof (ga_opp _ _ _ _ _ _ _ _ G) as B1. pose proof (ga_opp _ _ _ _ _ _ _ _ G') as B2. rewrite B1 in B2. injection B2 as <- <-.
    pose proof (ga_poly' _ _ _ _ _ _ _ _ G) as C1. pose proof (ga_poly' _ _ _ _ _ _ _ _ G') as C2. rewrite C1 in C2. injection C2 as <-.
    do 2 (split; auto). now rewrite <- (gluing_unique _ _ _ _ _ _ _ _ F _ V G GM' GM). }
  cbn [is_delaunay_triangulated]. rewrite (ga_opp _ _ _ _ _ _ _ _ G). cbn [bind fst snd].
  rewrite (ga_poly _ _ _ _ _ _ _ _ G). cbn [bind]. destruct (Nat.eqb_spec (length P) 3) as [L1|L1]; cbn [negb].
  2: { exists false. split; auto. split; [discriminate|]. intros X. destruct (Same (X g (or_introl eq_refl))). contradiction. }
  rewrite (ga_poly' _ _ _ _ _ _ _ _ G). cbn [bind]. destruct (Nat.eqb_spec (length P') 3) as [L2|L2]; cbn [negb].
  2: { exists false. split; auto. split; [discriminate|]. intros X. destruct (Same (X g (or_introl eq_refl))) as [_ [Y _]]. contradiction. }
  assert (Tp : forall x : K, 0 < x -> 0 < 2 * x) by (intros x Hx; apply fmul_pos; auto; apply f2_pos).
  destruct (glued_partner _ _ _ _ _ _ _ _ V G) as [Dl' _].
  assert (O1 : 0 < orient (vertex P (snd g)) (vertex P (snd g + 1)) (vertex P (snd g + 2))).
  { rewrite triangle_orient by auto. apply Tp. apply (Pos (fst g)); apply G. }
  assert (O2 : 0 < orient (vertex P' e') (vertex P' (e' + 1)) (vertex P' (e' + 2))).
  { rewrite triangle_orient by auto. apply Tp. apply (Pos l'); auto. apply G. }
  destruct (needs_flip_spec D S _ _ _ _ P P' _ V G GM O1 O2 L1 L2) as [c [Ec Hc]]. rewrite Ec. cbn [bind]. destruct c.
  - exists false. split; auto. split; [discriminate|]. intros X. destruct (Same (X g (or_introl eq_refl))) as [_ [_ Y]]. exfalso. apply Y, Hc. reflexivity.
  - exists b. split; auto. rewrite H. split.
    + intros X h [<-|Ih]; [|now apply X]. exists P, l', e', P', (sim_apply f). do 4 (split; auto). intros Y. apply Hc in Y. discriminate.
    + intros X h Ih. apply X. now right.
Qed.

(** circumscribed polygons *)
Lemma circumscribed_spec P : vertex P 0 <> vertex P 1 -> vertex P 1 <> vertex P 2 -> vertex P 0 <> vertex P 2 -> (3 <= length P)%nat ->
  (exists C, circumscribed_circle P = Ok C /\ inscribed P (ci_center C) /\ forall i, dist2 (vertex P i) (ci_center C) = ci_r2 C) \/
  (circumscribed_circle P = Err ValueError /\ forall c, ~ inscribed P c).
Proof.
  intros N01 N12 N02 L3. unfold circumscribed_circle.
  destruct (feq_dec (orient (vertex P 0) (vertex P 1) (vertex P 2)) 0) as [Z|Z].
  - right. rewrite circle_three_err by auto. split; auto. intros c I. pose proof (I 0%nat 1%nat) as A. pose proof (I 0%nat 2%nat) as B.
    set (p := vertex P 0) in *. set (q := vertex P 1) in *. set (r := vertex P 2) in *.
    clearbody p q r.
    (* on the line through p and q the distance to c takes the same value at most twice *)
    assert (T : exists t, r = vadd p (vscale t (vsub q p))).
    { unfold orient in Z. destruct (collinear_cases (vsub q p) (vsub r p)) as [[_ [t [_ Ht]]]|[_ [t [_ Ht]]]]; auto.
      - intros X. apply N01. unfold vsub, vzero in X. injection X as X1 X2. apply vec_eq; flra.
      - intros X. apply N02. unfold vsub, vzero in X. injection X as X1 X2. apply vec_eq; flra.
      - exists t. pose proof (f_equal fst Ht) as H1. pose proof (f_equal snd Ht) as H2. cbn in H1, H2. apply vec_eq; cbn; flra.
      - exists t. pose proof (f_equal fst Ht) as H1. pose proof (f_equal snd Ht) as H2. cbn in H1, H2. apply vec_eq; cbn; flra. }
    destruct T as [t ->]. set (d := vsub q p) in *.
    assert (Q : q = vadd p (vscale 1 d)) by (unfold d; apply vec_eq; cbn; ring).
    assert (E1 : 2 * dot (vsub p c) d + dot d d = 0). { rewrite Q in A. unfold dist2, dot, vadd, vscale, vsub in A |- *. cbn [fst snd] in *. flra. }
    assert (E2 : t * (2 * dot (vsub p c) d + t * dot d d) = 0). { unfold dist2, dot, vadd, vscale, vsub in B |- *. cbn [fst snd] in *. flra. }
    assert (Dn : dot d d <> 0). { intros X. assert (Nd : d <> vzero) by (intros Y; apply N01; rewrite Q, Y; apply vec_eq; cbn; ring). apply vnz in Nd. flra. }
    assert (E3 : t * ((t - 1) * dot d d) = 0). { transitivity (t * (2 * dot (vsub p c) d + t * dot d d) - t * (2 * dot (vsub p c) d + dot d d)); [ring|]. rewrite E1, E2. ring. }
    destruct (fmul_eq0 _ _ E3) as [->|E4]; [apply N02; apply vec_eq; cbn; ring|].
    destruct (fmul_eq0 _ _ E4) as [E5|E5]; [|contradiction]. apply N12. rewrite Q. replace t with (1 : K) by flra. reflexivity.
  - destruct (circle_three _ _ _ Z) as [C [EC [[A B] R]]]. rewrite EC. cbn [bind].
    destruct (forallb _ _) eqn:FA.
    + left. exists C. split; auto.
      assert (H : forall i, dist2 (vertex P i) (ci_center C) = ci_r2 C).
      { intros i. rewrite <- vertex_mod. set (k := (i mod length P)%nat). assert (Lk : (k < length P)%nat) by (apply Nat.mod_upper_bound; lia).
        destruct k as [|[|[|k]]]; [now rewrite R|rewrite R, dist2_sym; rewrite (dist2_sym (vertex P 0)); now symmetry|rewrite R, dist2_sym; rewrite (dist2_sym (vertex P 0)); now symmetry|].
        pose proof (proj1 (forallb_forall _ _) FA (Datatypes.S (Datatypes.S (Datatypes.S k)))) as X. apply Z.eqb_eq in X; [|apply in_seq; lia].
        apply point_position_spec in X. exact X. }
      split; auto. intros i j. rewrite (dist2_sym _ (vertex P i)), (dist2_sym _ (vertex P j)), !H. reflexivity.
    + right. split; auto. intros c I. assert (c = ci_center C). { apply (circumcenter_unique _ _ _ _ _ Z); split; auto. }
      subst c. enough (forallb (fun i => (point_position C (vertex P i) =? 0)%Z) (seq 3 (length P - 3)) = true) by congruence.
      apply forallb_forall. intros i _. apply Z.eqb_eq. apply point_position_spec. unfold on_circle. rewrite R, dist2_sym, (dist2_sym (vertex P 0)). apply I.
Qed.

Lemma decomposed_edges_spec D S l P C es : valid D S -> closed D S -> D l -> s_poly S l = Ok P ->
  (forall i, dist2 (vertex P i) (ci_center C) = ci_r2 C) -> (forall e, In e es -> (e < length P)%nat) ->
  exists b, decomposed_edges S l C es = Ok b /\ (b = true <-> forall e l' e' P' F, In e es -> glued_at D S l e P l' e' P' -> gluing_map P e P' e' F ->
    dist2 (F (ci_center C)) (F (vertex P 0)) < dist2 (F (ci_center C)) (vertex P' (e' + 2))).
Proof.
  intros V Cl Dl EP HC. induction es as [|e es IH]; intros Hes; [exists true; split; [reflexivity|]; split; [intros _ e l' e' P' F []|reflexivity]|].
  destruct IH as [b [E H]]; [intros k Ik; apply Hes; now right|].
  assert (Le : (e < length P)%nat) by (apply Hes; now left).
  destruct (v_opp _ _ V _ P _ Dl EP Le) as [X|[l' [e' [P' [X [Dl' [Pl' [Lt Back]]]]]]]]; [now destruct (Cl l P e Dl EP Le)|].
  assert (G : glued_at D S l e P l' e' P') by (constructor; auto).
  destruct (gluing_exists _ _ _ _ _ _ _ _ V G) as [f [Ef [Kf [Sf GM]]]].
  cbn [decomposed_edges]. rewrite Ef. cbn [bind]. rewrite X. cbn [bind fst snd]. rewrite Pl'. cbn [bind].
  set (C2 := circle_rmul f C). set (v := vertex P' (e' + 2)).
  assert (R2 : ci_r2 C2 = dist2 (sim_apply f (ci_center C)) (sim_apply f (vertex P 0))).
  { cbn. rewrite dist2_sim by auto. rewrite <- (HC 0%nat). now rewrite dist2_sym. }
  destruct (point_position_spec C2 v) as [_ [_ PM]]. unfold off_disc in PM. rewrite R2 in PM. change (ci_center C2) with (sim_apply f (ci_center C)) in PM.
  rewrite (dist2_sym v) in PM.
  assert (One : forall m' k' Q' F, glued_at D S l e P m' k' Q' -> gluing_map P e Q' k' F ->
    F (ci_center C) = sim_apply f (ci_center C) /\ F (vertex P 0) = sim_apply f (vertex P 0) /\ vertex Q' (k' + 2) = v).
  { intros m' k' Q' F G' GM'. pose proof (ga_opp _ _ _ _ _ _ _ _ G') as B2. rewrite X in B2. injection B2 as <- <-.
    pose proof (ga_poly' _ _ _ _ _ _ _ _ G') as C2'. rewrite Pl' in C2'. injection C2' as <-.
    rewrite !(gluing_unique _ _ _ _ _ _ _ _ F _ V G GM' GM). auto. }
  destruct (Z.eqb_spec (point_position C2 v) (-1)) as [Y|Y]; cbn [negb].
  - exists b. split; auto. rewrite H. split.
    + intros Z k m' k' Q' F [<-|Ik] G' GM'; [|now apply (Z k m' k' Q' F)]. destruct (One m' k' Q' F G' GM') as [-> [-> ->]]. now apply PM.
    + intros Z k m' k' Q' F Ik. apply Z. now right.
  - exists false. split; auto. split; [discriminate|]. intros Z. exfalso. apply Y. apply PM. apply (Z e l' e' P' _ (or_introl eq_refl) G GM).
Qed.
Lemma is_delaunay_decomposed_spec D S ls : valid D S -> closed D S ->
  (forall l P, D l -> s_poly S l = Ok P -> vertex P 0 <> vertex P 2) -> (forall l, In l ls -> D l) ->
  exists b, is_delaunay_decomposed S ls = Ok b /\ (b = true <-> forall l, In l ls -> delaunay_cell D S l).
Proof.
  intros V Cl N02. induction ls as [|l ls IH]; intros Hl; [exists true; split; [reflexivity|]; split; [intros _ l []|reflexivity]|].
  destruct IH as [b [E H]]; [intros k Ik; apply Hl; now right|]. pose proof (Hl l (or_introl eq_refl)) as Dl.
  destruct (v_poly _ _ V l Dl) as [P [EP [L3 NZ]]]. cbn [is_delaunay_decomposed]. rewrite EP. cbn [bind].
  destruct (circumscribed_spec P (edge_neq P 0 (NZ _)) (edge_neq P 1 (NZ _)) (N02 l P Dl EP) L3) as [[C [EC [I HC]]]|[EC NI]]; rewrite EC.
  - destruct (decomposed_edges_spec D S l P C (seq 0 (length P)) V Cl Dl EP HC) as [c [Ec Hc]]; [intros e Ie; apply in_seq in Ie; lia|].
    rewrite Ec. cbn [bind]. destruct c.
    + exists b. split; auto. rewrite H. split.
      * intros X k [<-|Ik]; [|now apply X]. exists P, (ci_center C). do 2 (split; auto). intros e l' e' P' F G GM.
        apply (proj1 Hc eq_refl e l' e' P' F); auto. apply in_seq. pose proof (ga_edge _ _ _ _ _ _ _ _ G). lia.
      * intros X k Ik. apply X. now right.
    + exists false. split; auto. split; [discriminate|]. intros X. apply Hc. intros e l' e' P' F _ G GM.
      destruct (X l (or_introl eq_refl)) as [Q [c [EQ [Ic Y]]]]. rewrite EP in EQ. injection EQ as <-.
      assert (c = ci_center C).
      { destruct (feq_dec (orient (vertex P 0) (vertex P 1) (vertex P 2)) 0) as [Z|Z].
        - unfold circumscribed_circle in EC. rewrite circle_three_err in EC by auto. discriminate.
        - apply (circumcenter_unique _ _ _ _ _ Z); split; auto. }
      subst c. eapply Y; eauto.
  - exists false. split; auto. split; [discriminate|]. intros X. destruct (X l (or_introl eq_refl)) as [Q [c [EQ [Ic _]]]].
    rewrite EP in EQ. injection EQ as <-. now destruct (NI c).
Qed.

Lemma needs_flip_full D S l e P l' e' P' F :
  valid D S -> glued_at D S l e P l' e' P' -> gluing_map P e P' e' F ->
  length P = 3%nat -> length P' = 3%nat -> 0 < area P -> 0 < area P' ->
  exists b, needs_flip S l e = Ok b /\
    (b = true <-> inside_circumcircle (vertex P' e') (vertex P' (e' + 1)) (vertex P' (e' + 2)) (F (vertex P (e + 2)))) /\
    (b = true -> strictly_convex4 (vertex P' e') (F (vertex P (e + 2))) (vertex P' (e' + 1)) (vertex P' (e' + 2))).
Proof.
  intros V G GM L1 L2 A1 A2.
  assert (O : 0 < orient (vertex P e) (vertex P (e + 1)) (vertex P (e + 2))) by (rewrite triangle_orient by auto; flra).
  assert (O' : 0 < orient (vertex P' e') (vertex P' (e' + 1)) (vertex P' (e' + 2))) by (rewrite triangle_orient by auto; flra).
  destruct (needs_flip_spec D S l l' e e' P P' F V G GM O O' L1 L2) as [b [E H]]. exists b. do 2 (split; auto).
  intros B. apply H in B. destruct (pair_excess D S l l' e e' P P' F V G GM O O' _ eq_refl) as [X [_ [_ Y]]]. apply Y, X, B.
Qed.
Lemma after_flip D S l e P l' e' P' F (D2 : L -> Prop) (S2 : surface K L) m m' :
  valid D S -> glued_at D S l e P l' e' P' -> gluing_map P e P' e' F ->
  length P = 3%nat -> length P' = 3%nat -> 0 < area P -> 0 < area P' ->
  needs_flip S l e = Ok true ->
  let x := vertex P' e' in let y := vertex P' (e' + 1) in let a := F (vertex P (e + 2)) in let b := vertex P' (e' + 2) in
  valid D2 S2 -> glued_at D2 S2 m 2 [a; y; b] m' 2 [b; x; a] ->
  needs_flip S2 m 2 = Ok false /\ needs_join S2 m 2 = Ok false.
Proof.
  intros V G GM L1 L2 A1 A2 NF x y a b V2 G2.
  destruct (needs_flip_full D S l e P l' e' P' F V G GM L1 L2 A1 A2) as [c [E [H Cv]]]. rewrite NF in E. injection E as <-.
  pose proof (proj1 H eq_refl) as IC. specialize (Cv eq_refl). fold x y a b in IC, Cv. destruct Cv as [C1 [C2 [C3 C4]]].
  assert (Ox : 0 < orient x y b) by (unfold x, y, b; rewrite triangle_orient by auto; flra).
  assert (GM2 : gluing_map [a; y; b] 2 [b; x; a] 2 (fun p => p)).
  { constructor; try reflexivity. - exists 1. split; [apply (@flt_0_1 K)|]. intros p q. ring. - intros p q r. reflexivity || (unfold orient; ring || auto). }
  assert (O1 : 0 < orient (vertex [a; y; b] 2) (vertex [a; y; b] (2 + 1)) (vertex [a; y; b] (2 + 2))).
  { change (0 < orient b a y). replace (orient b a y) with (orient a y b) by (unfold orient, ccw, vsub; cbn; ring). exact C2. }
  assert (O2 : 0 < orient (vertex [b; x; a] 2) (vertex [b; x; a] (2 + 1)) (vertex [b; x; a] (2 + 2))).
  { change (0 < orient a b x). replace (orient a b x) with (orient b x a) by (unfold orient, ccw, vsub; cbn; ring). exact C4. }
  assert (EX : 0 < excess (vsub b y) (vsub a y) (vsub a x) (vsub b x)).
  { replace (excess (vsub b y) (vsub a y) (vsub a x) (vsub b x)) with (excess (vsub a x) (vsub b x) (vsub b y) (vsub a y)) by (unfold excess; ring).
    rewrite excess_other. apply (excess_iff x y a b Ox) in IC. flra. }
  destruct (pair_excess D2 S2 m m' 2 2 _ _ _ V2 G2 GM2 O1 O2 _ eq_refl) as [X [Y _]].
  destruct (needs_flip_spec D2 S2 m m' 2 2 _ _ _ V2 G2 GM2 O1 O2 eq_refl eq_refl) as [b1 [-> B1]].
  destruct (needs_join_spec D2 S2 m m' 2 2 _ _ _ V2 G2 GM2 O1 O2) as [b2 [-> B2]].
  rewrite <- X in B1. rewrite <- Y in B2.
  change (b1 = true <-> excess (vsub b y) (vsub a y) (vsub a x) (vsub b x) < 0) in B1.
  change (b2 = true <-> excess (vsub b y) (vsub a y) (vsub a x) (vsub b x) = 0) in B2.
  split; f_equal; [destruct b1|destruct b2]; auto; exfalso; [assert (Z := proj1 B1 eq_refl)|assert (Z := proj1 B2 eq_refl)]; flra.
Qed.
End Surf.
