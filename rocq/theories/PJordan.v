(** Parity of the number of crossings of a polygon with a ray: order of the plane, slopes, and the change of the parity
    along a segment. *)
From Coq Require Import List Bool ZArith Arith Lia Ring Field.
From Verif Require Import OField FMicromega PField MBase MEuclid SEuclid PEuclid MSim SSim MPoly PTurn.
Import ListNotations.

Section J.
Context {K : OField}.
Add Field KFjo : (of_ft K).
Local Open Scope F_scope.
Implicit Types (a b c d p q u v w x y z : vec K).

(** the plane is ordered by the second coordinate, then by the first *)
Definition posb (d : vec K) : bool := (0 <? snd d) || ((snd d =? 0) && (0 <? fst d)).
Definition ltb p q : bool := posb (vsub q p).

Lemma posb_spec d : posb d = true <-> 0 < snd d \/ (snd d = 0 /\ 0 < fst d).
Proof. unfold posb. rewrite orb_true_iff, andb_true_iff, feqb_eq. reflexivity. Qed.
Lemma posb_false d : posb d = false <-> posb (vopp d) = true \/ d = vzero.
Proof.
  rewrite <- not_true_iff_false, !posb_spec. destruct d as [x y]. cbn. split.
  - intros H. destruct (flt_total y) as [Y|[Y|Y]]; [left; left; flra| |exfalso; apply H; now left].
    subst y. destruct (flt_total x) as [X|[X|X]]; [left; right; split; flra|subst x; now right|exfalso; apply H; now right].
  - intros [[H|[H1 H2]]|[= -> ->]] [G|[G1 G2]]; flra.
Qed.
Lemma posb_opp d : d <> vzero -> posb (vopp d) = negb (posb d).
Proof.
  intros N. destruct (posb d) eqn:E; cbn.
  - apply posb_false. left. rewrite <- E. f_equal. destruct d; apply vec_eq; cbn; ring.
  - apply posb_false in E. destruct E as [E|E]; [exact E|contradiction].
Qed.
Lemma posb_nz d : posb d = true -> d <> vzero.
Proof. intros H ->. apply posb_spec in H. cbn in H. destruct H as [H|[_ H]]; flra. Qed.
Lemma posb_add c d : posb c = true -> posb d = true -> posb (vadd c d) = true.
Proof. rewrite !posb_spec. destruct c, d; cbn. intros [H|[H1 H2]] [G|[G1 G2]]; try (left; flra). right. split; flra. Qed.
Lemma posb_scale (t : K) d : 0 < t -> posb (vscale t d) = posb d.
Proof.
  intros T. destruct d as [x y]. apply eq_true_iff_eq. rewrite !posb_spec. cbn. split.
  - intros [H|[H1 H2]]; [left; fnra|]. assert (y = 0) by (apply fmul_eq0 in H1; destruct H1; [subst; flra|auto]). right. split; [auto|fnra].
  - intros [H|[H1 H2]]; [left; fnra|right; subst y; split; [ring|fnra]].
Qed.
Lemma posb_scale_inv (t : K) d : posb d = true -> posb (vscale t d) = true -> 0 < t.
Proof.
  rewrite !posb_spec. destruct d as [x y]. cbn. intros H G. destruct (flt_total t) as [T|[T|T]]; [exfalso|exfalso|auto].
  - destruct H as [H|[H1 H2]], G as [G|[G1 G2]]; try (subst y); try fnra.
  - subst t. destruct G as [G|[G1 G2]]; flra.
Qed.
Lemma posb_scale_nonneg (t : K) d : posb d = true -> posb (vscale t d) = true \/ vscale t d = vzero -> 0 <= t.
Proof.
  intros P [H|H]; [apply posb_scale_inv in H; auto; flra|]. apply posb_spec in P. destruct d as [x y]. injection H as H1 H2. cbn in P.
  destruct P as [P|[P1 P2]].
  - apply fmul_eq0 in H2. destruct H2; subst; flra.
  - apply fmul_eq0 in H1. destruct H1; subst; flra.
Qed.

(** comparing slopes is transitive *)
Lemma slope_id u v w : vscale (ccw u w) v = vadd (vscale (ccw u v) w) (vscale (ccw v w) u).
Proof. destruct u, v, w; apply vec_eq; unfold ccw; cbn; ring. Qed.
Lemma slope_tr1 u v w : posb u = true -> posb v = true -> posb w = true -> 0 < ccw u v -> 0 <= ccw v w -> 0 < ccw u w.
Proof.
  intros U V W A B. apply (posb_scale_inv _ v); auto. rewrite slope_id.
  destruct (feq_dec (ccw v w) 0) as [E|N].
  - rewrite E. replace (vadd _ _) with (vscale (ccw u v) w) by (destruct u, w; apply vec_eq; cbn; ring). now rewrite posb_scale.
  - apply posb_add; [now rewrite posb_scale|]. rewrite posb_scale; auto. apply fneq_lt in N. destruct N; flra.
Qed.
Lemma slope_tr2 u v w : posb u = true -> posb v = true -> posb w = true -> 0 <= ccw u v -> 0 < ccw v w -> 0 < ccw u w.
Proof.
  intros U V W A B. apply (posb_scale_inv _ v); auto. rewrite slope_id.
  destruct (feq_dec (ccw u v) 0) as [E|N].
  - rewrite E. replace (vadd _ _) with (vscale (ccw v w) u) by (destruct u, w; apply vec_eq; cbn; ring). now rewrite posb_scale.
  - apply posb_add; [|now rewrite posb_scale]. rewrite posb_scale; auto. apply fneq_lt in N. destruct N; flra.
Qed.
Lemma ccw_anti u v : ccw u v = - ccw v u.
Proof. unfold ccw; ring. Qed.
Lemma ccw_col u v : posb u = true -> posb v = true -> ccw u v = 0 -> exists t, 0 < t /\ v = vscale t u.
Proof.
  intros U V E. assert (exists t, v = vscale t u) as [t ->].
  { destruct u as [x y], v as [x' y']. unfold ccw in E. cbn in E. apply posb_spec in U. cbn in U.
    destruct U as [U|[-> U]].
    - assert (N : y <> 0) by (intros ->; flra). exists (y' / y). apply vec_eq; cbn; (apply (fcancel _ _ y); [auto|]);
        (match goal with |- _ = (?a / y) * ?c * y => replace ((a / y) * c * y) with (a * c) by (field; auto) end); flra.
    - assert (N : x <> 0) by (intros ->; flra). exists (x' / x). apply vec_eq; cbn; (apply (fcancel _ _ x); [auto|]);
        (match goal with |- _ = (?a / x) * ?c * x => replace ((a / x) * c * x) with (a * c) by (field; auto) end); flra. }
  exists t. split; auto. now apply (posb_scale_inv t u).
Qed.

(** the order *)
Lemma ltb_irrefl p : ltb p p = false.
Proof. unfold ltb. apply posb_false. right. destruct p; apply vec_eq; cbn; ring. Qed.
Lemma vsub_nz p q : p <> q -> vsub q p <> vzero.
Proof. intros N E. apply N. destruct p, q. injection E as E1 E2. apply vec_eq; cbn; flra. Qed.
Lemma ltb_swap p q : p <> q -> ltb q p = negb (ltb p q).
Proof.
  intros N. unfold ltb. rewrite <- posb_opp; [|now apply vsub_nz]. f_equal. destruct p, q; apply vec_eq; cbn; ring.
Qed.
Lemma ltb_trans p q x : ltb p q = true -> ltb q x = true -> ltb p x = true.
Proof.
  unfold ltb. intros A B. replace (vsub x p) with (vadd (vsub q p) (vsub x q)) by (destruct p, q, x; apply vec_eq; cbn; ring).
  now apply posb_add.
Qed.
Lemma ltb_neq p q : ltb p q = true -> p <> q.
Proof. intros H ->. now rewrite ltb_irrefl in H. Qed.
Lemma ltb_asym p q : ltb p q = true -> ltb q p = false.
Proof. intros H. rewrite ltb_swap, H; auto. now apply ltb_neq. Qed.
Lemma ltb_total p q : p = q \/ ltb p q = true \/ ltb q p = true.
Proof.
  destruct (vec_dec p q) as [->|N]; auto. right. destruct (ltb p q) eqn:E; auto. right. rewrite ltb_swap, E; auto.
Qed.

(** segments *)
Definition disjoint (e f : vec K * vec K) := forall x, ~ (on_segment e x /\ on_segment f x).
Lemma on_seg_l p q : on_segment (p, q) p.
Proof. apply endpoint_on. now left. Qed.
Lemma on_seg_r p q : on_segment (p, q) q.
Proof. apply endpoint_on. now right. Qed.
Lemma on_seg_sym p q x : on_segment (p, q) x -> on_segment (q, p) x.
Proof. intros H. apply (on_segment_swap (q, p)) . exact H. Qed.
Lemma disjoint_sym e f : disjoint e f -> disjoint f e.
Proof. intros D x [A B]. apply (D x). auto. Qed.
Lemma disjoint_swap p q f : disjoint (p, q) f -> disjoint (q, p) f.
Proof. intros D x [A B]. apply (D x). split; auto. now apply on_seg_sym. Qed.

Lemma seg_between p q x : ltb p x = true -> ltb x q = true -> orient p q x = 0 -> on_segment (p, q) x.
Proof.
  unfold ltb, orient. intros A B E.
  assert (E' : ccw (vsub q x) (vsub x p) = 0).
  { rewrite <- E. destruct p, q, x; unfold ccw; cbn; ring. }
  destruct (ccw_col _ _ B A E') as [t [T H]].
  assert (N : 1 + t <> 0) by (intros X; pose proof (@flt_0_1 K); flra).
  exists (t / (1 + t)). split; [apply fdiv_nonneg; pose proof (@flt_0_1 K); flra|]. split; [apply fdiv_le; pose proof (@flt_0_1 K); flra|].
  destruct p, q, x. injection H as H1 H2. apply vec_eq; cbn in *; (apply (fcancel _ _ (1 + t)); [auto|]);
    match goal with |- _ = (?a + _ * ?c) * _ => transitivity (a * (1 + t) + t * c); [flra|field; auto] end.
Qed.
Lemma meet_point u v p q : 0 <= orient u v p -> orient u v q <= 0 -> orient p q u <= 0 -> 0 <= orient p q v ->
  orient u v p - orient u v q <> 0 -> exists x, on_segment (u, v) x /\ on_segment (p, q) x.
Proof.
  intros D1 D2 E1 E2 N. assert (Np : 0 < orient u v p - orient u v q) by (apply fneq_lt in N; destruct N; flra).
  assert (S : orient p q v - orient p q u = orient u v p - orient u v q) by (unfold orient, ccw; destruct p, q, u, v; cbn; ring).
  exists (vadd p (vscale (orient u v p / (orient u v p - orient u v q)) (vsub q p))). split.
  - exists ((- orient p q u) / (orient u v p - orient u v q)). split; [apply fdiv_nonneg; flra|]. split; [apply fdiv_le; flra|].
    revert N. unfold orient, ccw. destruct p, q, u, v. intros N. cbn in N |- *. apply vec_eq; cbn; field; exact N.
  - exists (orient u v p / (orient u v p - orient u v q)). split; [apply fdiv_nonneg; flra|]. split; [apply fdiv_le; flra|]. reflexivity.
Qed.
Lemma meet_point' u v p q : orient u v p <= 0 -> 0 <= orient u v q -> 0 <= orient p q u -> orient p q v <= 0 ->
  orient u v p - orient u v q <> 0 -> exists x, on_segment (u, v) x /\ on_segment (p, q) x.
Proof.
  intros D1 D2 E1 E2 N. destruct (meet_point v u p q) as [x [A B]]; auto.
  - replace (orient v u p) with (- orient u v p) by (unfold orient, ccw; destruct p, q, u, v; cbn; ring). flra.
  - replace (orient v u q) with (- orient u v q) by (unfold orient, ccw; destruct p, q, u, v; cbn; ring). flra.
  - replace (orient v u p) with (- orient u v p) by (unfold orient, ccw; destruct p, q, u, v; cbn; ring).
    replace (orient v u q) with (- orient u v q) by (unfold orient, ccw; destruct p, q, u, v; cbn; ring). intros X. apply N. flra.
  - exists x. split; auto. now apply on_seg_sym.
Qed.

Lemma ori u v w : orient u v w = ccw (vsub v u) (vsub w u). Proof. reflexivity. Qed.
Lemma interleave a b c d : ltb a b = true -> ltb b c = true -> ltb c d = true -> disjoint (a, c) (b, d) ->
  (0 < orient a c b /\ orient b d c < 0) \/ (orient a c b < 0 /\ 0 < orient b d c).
Proof.
  intros AB BC CD D.
  assert (X1 : orient a c b <> 0) by (intros E; apply (D b); split; [now apply seg_between|apply on_seg_l]).
  assert (X2 : orient b d c <> 0) by (intros E; apply (D c); split; [apply on_seg_r|now apply seg_between]).
  assert (Y1 : orient a c b = ccw (vsub c b) (vsub b a)) by (unfold orient, ccw; destruct a, b, c; cbn; ring).
  assert (Y2 : orient b d c = ccw (vsub d c) (vsub c b)) by (unfold orient, ccw; destruct b, c, d; cbn; ring).
  assert (Y3 : orient a c d = ccw (vsub b a) (vsub d c) + ccw (vsub c b) (vsub d c)) by (unfold orient, ccw; destruct a, b, c, d; cbn; ring).
  assert (Y4 : orient b d a = - ccw (vsub c b) (vsub b a) - ccw (vsub d c) (vsub b a)) by (unfold orient, ccw; destruct a, b, c, d; cbn; ring).
  apply fneq_lt in X1, X2. unfold ltb in *. destruct X1 as [X1|X1], X2 as [X2|X2]; [exfalso|right; auto|left; auto|exfalso].
  - assert (Z : 0 < ccw (vsub b a) (vsub d c)).
    { apply (slope_tr1 _ (vsub c b)); auto; rewrite ccw_anti; flra. }
    pose proof (ccw_anti (vsub c b) (vsub d c)). pose proof (ccw_anti (vsub d c) (vsub b a)).
    destruct (meet_point' a c b d) as [x Hx]; [flra|flra|flra|flra|intros E; flra|]. apply (D x), Hx.
  - assert (Z : 0 < ccw (vsub d c) (vsub b a)) by (apply (slope_tr1 _ (vsub c b)); auto; flra).
    pose proof (ccw_anti (vsub c b) (vsub d c)). pose proof (ccw_anti (vsub d c) (vsub b a)).
    destruct (meet_point a c b d) as [x Hx]; [flra|flra|flra|flra|intros E; flra|]. apply (D x), Hx.
Qed.
Lemma nested a b c d : ltb a b = true -> ltb b c = true -> ltb c d = true -> disjoint (a, d) (b, c) ->
  (0 < orient a d b /\ 0 < orient a d c) \/ (orient a d b < 0 /\ orient a d c < 0).
Proof.
  intros AB BC CD D.
  assert (AC : ltb a c = true) by now apply (ltb_trans _ b). assert (BD : ltb b d = true) by now apply (ltb_trans _ c).
  assert (AD : ltb a d = true) by now apply (ltb_trans _ b).
  assert (X1 : orient a d b <> 0) by (intros E; apply (D b); split; [now apply seg_between|apply on_seg_l]).
  assert (X2 : orient a d c <> 0) by (intros E; apply (D c); split; [now apply seg_between|apply on_seg_r]).
  assert (Y1 : orient a d b = ccw (vsub d a) (vsub b a)) by reflexivity.
  assert (Y2 : orient a d c = - ccw (vsub d a) (vsub d c)) by (unfold orient, ccw; destruct a, d, c; cbn; ring).
  assert (Y3 : orient b c a = ccw (vsub b a) (vsub c b)) by (unfold orient, ccw; destruct a, b, c, d; cbn; ring).
  assert (Y4 : orient b c d = - ccw (vsub d c) (vsub c b)) by (unfold orient, ccw; destruct a, b, c, d; cbn; ring).
  assert (Y5 : ccw (vsub d a) (vsub c b) = orient a d c - orient a d b) by (unfold orient, ccw; destruct a, b, c, d; cbn; ring).
  pose proof (ccw_anti (vsub d a) (vsub b a)). pose proof (ccw_anti (vsub d a) (vsub d c)). pose proof (ccw_anti (vsub d a) (vsub c b)).
  apply fneq_lt in X1, X2. unfold ltb in *. destruct X1 as [X1|X1], X2 as [X2|X2]; [right; auto|exfalso|exfalso|left; auto].
  - assert (Z1 : 0 < ccw (vsub b a) (vsub c b)) by (apply (slope_tr1 _ (vsub d a)); auto; flra).
    assert (Z2 : 0 < ccw (vsub d c) (vsub c b)) by (apply (slope_tr1 _ (vsub d a)); auto; flra).
    destruct (meet_point b c a d) as [x [Hx Hy]]; [flra|flra|flra|flra|intros E; flra|]. apply (D x); auto.
  - assert (Z1 : 0 < ccw (vsub c b) (vsub b a)) by (apply (slope_tr1 _ (vsub d a)); auto; flra).
    assert (Z2 : 0 < ccw (vsub c b) (vsub d c)) by (apply (slope_tr1 _ (vsub d a)); auto; flra).
    pose proof (ccw_anti (vsub c b) (vsub b a)). pose proof (ccw_anti (vsub c b) (vsub d c)).
    destruct (meet_point' b c a d) as [x [Hx Hy]]; [flra|flra|flra|flra|intros E; flra|]. apply (D x); auto.
Qed.

(** the segment [g] crosses the half line to the right of [q] *)
Definition crs (g : vec K * vec K) q : bool := xorb (ltb (fst g) q) (ltb (snd g) q) &&
  (if ltb (fst g) (snd g) then 0 <? orient (fst g) (snd g) q else 0 <? orient (snd g) (fst g) q).
(** [x] is to the right of the segment from [p] to [q], at a height between [p] and [q] *)
Definition under p q x : bool := xorb (ltb p x) (ltb q x) &&
  (if ltb p q then orient p q x <? 0 else orient q p x <? 0).

Lemma crs_sym u v q : crs (u, v) q = crs (v, u) q.
Proof.
  destruct (vec_dec u v) as [->|N]; auto. unfold crs. cbn [fst snd]. rewrite (ltb_swap u v N), xorb_comm. now destruct (ltb u v).
Qed.
Lemma under_sym p q x : under p q x = under q p x.
Proof.
  destruct (vec_dec p q) as [->|N]; auto. unfold under. rewrite (ltb_swap p q N), xorb_comm. now destruct (ltb p q).
Qed.
Lemma fltb_ge (x y : K) : (x <? y) = false <-> y <= x.
Proof. reflexivity. Qed.
Lemma fltb_neg (x : K) : x < 0 -> (0 <? x) = false.
Proof. intros H. apply fltb_ge. flra. Qed.
Lemma quad_main u v p q : ltb u v = true -> ltb p q = true -> disjoint (u, v) (p, q) ->
  xorb (crs (u, v) p) (crs (u, v) q) = xorb (under p q u) (under p q v).
Proof.
  intros UV PQ D. unfold crs, under. cbn [fst snd]. rewrite UV, PQ.
  assert (N : forall x y, on_segment (u, v) x -> on_segment (p, q) y -> x <> y) by (intros x y A B ->; apply (D y); auto).
  pose proof (N u p (on_seg_l _ _) (on_seg_l _ _)) as N1. pose proof (N u q (on_seg_l _ _) (on_seg_r _ _)) as N2.
  pose proof (N v p (on_seg_r _ _) (on_seg_l _ _)) as N3. pose proof (N v q (on_seg_r _ _) (on_seg_r _ _)) as N4.
  pose proof (ltb_swap _ _ N1) as L1. pose proof (ltb_swap _ _ N2) as L2. pose proof (ltb_swap _ _ N3) as L3. pose proof (ltb_swap _ _ N4) as L4.
  rewrite L1, L2, L3, L4.
  destruct (ltb u p) eqn:E1, (ltb u q) eqn:E2, (ltb v p) eqn:E3, (ltb v q) eqn:E4; cbn [negb xorb andb] in *; try reflexivity;
    try (exfalso; match goal with
      | A : ltb ?a ?b = true, B : ltb ?b ?c = true, C : ltb ?a ?c = false |- _ => pose proof (ltb_trans _ _ _ A B); congruence end).
  - (* u p v q *) destruct (interleave u p v q) as [[A B]|[A B]]; auto.
    + now rewrite A, B.
    + rewrite (fltb_neg _ A). now rewrite (proj2 (fltb_ge _ _)) by flra.
  - (* u p q v *) destruct (nested u p q v) as [[A B]|[A B]]; auto.
    + now rewrite A, B.
    + now rewrite (fltb_neg _ A), (fltb_neg _ B).
  - (* p u v q *) destruct (nested p u v q) as [[A B]|[A B]]; auto.
    + now apply disjoint_sym.
    + now rewrite !(proj2 (fltb_ge _ _)) by flra.
    + now rewrite A, B.
  - (* p u q v *) destruct (interleave p u q v) as [[A B]|[A B]]; auto.
    + now apply disjoint_sym.
    + rewrite (fltb_neg _ B). now rewrite (proj2 (fltb_ge _ _)) by flra.
    + now rewrite A, B.
Qed.
Lemma quad u v p q : u <> v -> p <> q -> disjoint (u, v) (p, q) ->
  xorb (crs (u, v) p) (crs (u, v) q) = xorb (under p q u) (under p q v).
Proof.
  intros NU NP D. destruct (ltb_total u v) as [E|[E|E]]; [contradiction| |]; destruct (ltb_total p q) as [F|[F|F]]; try contradiction.
  - now apply quad_main.
  - rewrite xorb_comm, (under_sym p q u), (under_sym p q v). apply quad_main; auto. apply disjoint_sym, disjoint_swap. now apply disjoint_sym.
  - rewrite (crs_sym u v p), (crs_sym u v q), (xorb_comm (under p q u)). apply quad_main; auto. now apply disjoint_swap.
  - rewrite (crs_sym u v p), (crs_sym u v q), xorb_comm, (under_sym p q u), (under_sym p q v), (xorb_comm (under q p u)).
    apply quad_main; auto. apply disjoint_swap, disjoint_sym, disjoint_swap. now apply disjoint_sym.
Qed.

(** the same for a segment that starts at [p]: only the directions count *)
Definition above (v w : vec K) : bool := eqb (posb v) (posb w) && (if posb v then 0 <? ccw v w else ccw v w <? 0).
Definition same_ray (v w : vec K) := exists t, 0 < t /\ w = vscale t v.
Lemma same_half_ccw v w : v <> vzero -> w <> vzero -> posb v = posb w -> ccw v w = 0 -> same_ray v w.
Proof.
  intros NV NW E C. destruct (posb v) eqn:V.
  - destruct (ccw_col v w) as [t [T H]]; auto. now exists t.
  - assert (V' : posb (vopp v) = true) by (rewrite posb_opp, V; auto).
    assert (W' : posb (vopp w) = true) by (rewrite posb_opp, <- E; auto).
    destruct (ccw_col (vopp v) (vopp w)) as [t [T H]]; auto.
    { rewrite <- C. unfold ccw. cbn. ring. }
    exists t. split; auto. destruct v, w. injection H as H1 H2. apply vec_eq; cbn in *; flra.
Qed.
Lemma above_crs p v q : v <> p -> q <> p -> v <> q -> ~ same_ray (vsub v p) (vsub q p) ->
  above (vsub v p) (vsub q p) = xorb (crs (p, v) q) (under p q v).
Proof.
  intros NV NQ NVQ NR. unfold above, crs, under. cbn [fst snd]. fold (ltb p v). fold (ltb p q).
  rewrite (ltb_swap v q NVQ).
  assert (C : ltb p v = ltb p q -> ccw (vsub v p) (vsub q p) <> 0).
  { intros E X. apply NR. apply same_half_ccw; auto; apply vsub_nz; auto. }
  assert (O1 : orient p v q = ccw (vsub v p) (vsub q p)) by reflexivity.
  assert (O2 : orient v p q = - ccw (vsub v p) (vsub q p)) by (unfold orient, ccw; destruct p, q, v; cbn; ring).
  assert (O3 : orient p q v = - ccw (vsub v p) (vsub q p)) by (unfold orient, ccw; destruct p, q, v; cbn; ring).
  assert (O4 : orient q p v = ccw (vsub v p) (vsub q p)) by (unfold orient, ccw; destruct p, q, v; cbn; ring).
  rewrite O1, O2, O3, O4. set (k := ccw (vsub v p) (vsub q p)) in *. clearbody k. clear O1 O2 O3 O4.
  assert (S1 : (- k <? 0) = (0 <? k)) by (apply eq_true_iff_eq; split; intros H; flra).
  assert (S2 : (0 <? - k) = (k <? 0)) by (apply eq_true_iff_eq; split; intros H; flra).
  rewrite S1, S2.
  pose proof (ltb_swap p v (not_eq_sym NV)) as L1. pose proof (ltb_swap p q (not_eq_sym NQ)) as L2. pose proof (ltb_swap v q NVQ) as L3.
  destruct (ltb p v) eqn:E1, (ltb p q) eqn:E2, (ltb v q) eqn:E3; cbn [eqb negb xorb andb] in *; try reflexivity; try (destruct (0 <? k); reflexivity);
   try (destruct (k <? 0); reflexivity);
   try (exfalso; match goal with
      | A : ltb ?a ?b = true, B : ltb ?b ?c = true, C : ltb ?a ?c = false |- _ => pose proof (ltb_trans _ _ _ A B); congruence end).
Qed.

(** the two forms of the index of a corner agree *)
Lemma corner_forms v w : v <> vzero -> w <> vzero -> ~ same_ray v w ->
  xorb (above v w) (posb w) = xorb (above w v) (negb (posb v)).
Proof.
  intros NV NW NR. unfold above.
  assert (C : posb v = posb w -> ccw v w <> 0) by (intros E X; apply NR; now apply same_half_ccw).
  assert (S1 : (0 <? ccw w v) = (ccw v w <? 0)) by (pose proof (ccw_anti w v); apply eq_true_iff_eq; split; intros H'; flra).
  assert (S2 : (ccw w v <? 0) = (0 <? ccw v w)) by (pose proof (ccw_anti w v); apply eq_true_iff_eq; split; intros H'; flra).
  rewrite S1, S2. clear S1 S2.
  destruct (posb v) eqn:E1, (posb w) eqn:E2; cbn [eqb negb xorb andb]; try reflexivity.
  - specialize (C eq_refl). apply fneq_lt in C. destruct C as [C|C]; rewrite C; rewrite (proj2 (fltb_ge _ _)) by flra; reflexivity.
  - specialize (C eq_refl). apply fneq_lt in C. destruct C as [C|C]; rewrite C; rewrite (proj2 (fltb_ge _ _)) by flra; reflexivity.
Qed.
(** directions inside a corner *)
Lemma corner_inside w x z : w <> vzero -> x <> vzero -> z <> vzero -> 0 < ccw w z -> 0 < ccw w x -> 0 < ccw x z ->
  xorb (above w x) (above z x) = xorb (above z w) (posb w).
Proof.
  intros NW NX NZ A B C. unfold above.
  pose proof (ccw_anti z x) as S1. pose proof (ccw_anti z w) as S2.
  rewrite (fltb_neg (ccw z x)) by flra. rewrite (fltb_neg (ccw z w)) by flra.
  rewrite (proj2 (fltb_ge (ccw w x) 0)) by flra. rewrite B.
  replace (ccw z x <? 0) with true by (symmetry; flra). replace (ccw z w <? 0) with true by (symmetry; flra).
  assert (T1 : posb w = true -> posb z = true -> posb x = true).
  { intros W Z. destruct (posb x) eqn:X; auto. exfalso. assert (X' : posb (vopp x) = true) by (rewrite posb_opp, X; auto).
    assert (0 < ccw z w); [|flra]. apply (slope_tr1 _ (vopp x)); auto.
    - replace (ccw z (vopp x)) with (ccw x z) by (unfold ccw; cbn; ring). auto.
    - replace (ccw (vopp x) w) with (ccw w x) by (unfold ccw; cbn; ring). flra. }
  assert (T2 : posb w = false -> posb z = false -> posb x = false).
  { intros W Z. destruct (posb x) eqn:X; auto. exfalso. assert (W' : posb (vopp w) = true) by (rewrite posb_opp, W; auto).
    assert (Z' : posb (vopp z) = true) by (rewrite posb_opp, Z; auto).
    assert (0 < ccw (vopp z) (vopp w)).
    - apply (slope_tr1 _ x); auto.
      + replace (ccw (vopp z) x) with (ccw x z) by (unfold ccw; cbn; ring). auto.
      + replace (ccw x (vopp w)) with (ccw w x) by (unfold ccw; cbn; ring). flra.
    - replace (ccw (vopp z) (vopp w)) with (- ccw w z) in H by (unfold ccw; cbn; ring). flra. }
  destruct (posb w), (posb z), (posb x); try reflexivity; exfalso; auto; discriminate (T1 eq_refl eq_refl) || discriminate (T2 eq_refl eq_refl).
Qed.
End J.
