(** Rays through copies of convex polygons. *)
From Coq Require Import List Bool ZArith Arith Lia Ring Field.
From Verif Require Import OField FMicromega PField MBase MDict MMut SMut MEuclid SEuclid PEuclid MSim SSim PSim MPoly PPoly PTurn SPoint PPoint MSurf SSurf PSurf PSurf3 PDelaunay PPoint2 PPoint3 SCut SEar PJordan PJordan2 PJordan3 PJordan4 PJordan5 PConvex PEar2 PEar5 PPos PPos2 TPos PLocal PLocal2 MTangent PExit STangent PInward PTangent.
Import ListNotations.

Section C.
Context {K : OField}.
Add Field KF : (of_ft K).
Local Open Scope F_scope.
Implicit Types (p q x h w d : vec K).

Lemma tri (x y : K) : x < y \/ x = y \/ y < x.
Proof. destruct (fltb_total K x y) as [H|[H|H]]; auto. Qed.
(** *** wedges *)
Definition within w0 w1 h := 0 < ccw w0 h /\ 0 < ccw h w1.
Definition on_open p q x := exists t, 0 < t /\ t < 1 /\ x = vadd p (vscale t (vsub q p)).
Lemma lam d p q x : ccw d q * ccw p x = ccw d x * ccw p q + ccw d p * ccw q x.
Proof. unfold ccw. destruct d, p, q, x; cbn. ring. Qed.
Lemma pos_of_mul (a b : K) : 0 < a -> 0 < a * b -> 0 < b.
Proof. intros A M. destruct (tri 0 b) as [H|[H|H]]; auto; [subst b; flra|]. assert (0 < a * - b) by (apply fmul_pos; [auto|flra]). flra. Qed.
Lemma mul_nonneg (a b : K) : 0 <= a -> 0 <= b -> 0 <= a * b.
Proof. intros A B. fnra. Qed.
Lemma trans_l d p q x : 0 < ccw d p -> 0 < ccw d q -> 0 < ccw d x -> 0 <= ccw p q -> 0 < ccw q x -> 0 < ccw p x.
Proof.
  intros A B C E F. apply (pos_of_mul (ccw d q)); auto. rewrite lam. pose proof (mul_nonneg (ccw d x) (ccw p q) ltac:(flra) E). pose proof (fmul_pos _ _ A F). flra.
Qed.
Lemma trans_r d p q x : 0 < ccw d p -> 0 < ccw d q -> 0 < ccw d x -> 0 < ccw p q -> 0 <= ccw q x -> 0 < ccw p x.
Proof.
  intros A B C E F. apply (pos_of_mul (ccw d q)); auto. rewrite lam. pose proof (mul_nonneg (ccw d p) (ccw q x) ltac:(flra) F). pose proof (fmul_pos _ _ C E). flra.
Qed.
Lemma within_pos d w0 w1 h : 0 < ccw d w0 -> 0 < ccw d w1 -> 0 < ccw w0 w1 -> within w0 w1 h -> 0 < ccw d h.
Proof.
  intros A B C [E F]. apply (pos_of_mul (ccw w0 w1)); auto. replace (ccw w0 w1 * ccw d h) with (ccw d w1 * ccw w0 h + ccw d w0 * ccw h w1) by (unfold ccw; destruct d, w0, w1, h; cbn; ring).
  pose proof (fmul_pos _ _ B E). pose proof (fmul_pos _ _ A F). flra.
Qed.
Lemma ccw_anti p q : ccw p q = - ccw q p.
Proof. unfold ccw. destruct p, q; cbn; ring. Qed.
Lemma ccw_self p : ccw p p = 0.
Proof. unfold ccw. destruct p; cbn; ring. Qed.

(** the ray in direction [h] meets the segment from [p] to [q] *)
Lemma meet p q h : 0 < ccw p q -> 0 < ccw p h -> 0 < ccw h q -> exists t, 0 < t /\ on_open p q (vscale t h).
Proof.
  intros A B C. assert (N : ccw p h + ccw h q <> 0) by (intros X; flra). assert (S : 0 < ccw p h + ccw h q) by flra. exists (ccw p q / (ccw p h + ccw h q)). split; [now apply fdiv_pos|].
  exists (ccw p h / (ccw p h + ccw h q)). split; [now apply fdiv_pos|]. split.
  - assert (E : 1 - ccw p h / (ccw p h + ccw h q) = ccw h q / (ccw p h + ccw h q)) by (field; exact N).
    assert (0 < ccw h q / (ccw p h + ccw h q)) by (now apply fdiv_pos). flra.
  - unfold ccw in *. destruct p as [p0 p1], q as [q0 q1], h as [h0 h1]. apply vec_eq; cbn in *; field; exact N.
Qed.
Lemma on_open_sides p q h (t : K) : 0 < t -> 0 < ccw p q -> on_open p q (vscale t h) -> 0 < ccw p h /\ 0 < ccw h q.
Proof.
  intros T A [r [R0 [R1 E]]]. assert (E1 : t * ccw p h = r * ccw p q).
  { transitivity (ccw p (vscale t h)); [unfold ccw; destruct p, h; cbn; ring|]. rewrite E. unfold ccw; destruct p, q; cbn; ring. }
  assert (E2 : t * ccw h q = (1 - r) * ccw p q).
  { transitivity (ccw (vscale t h) q); [unfold ccw; destruct q, h; cbn; ring|]. rewrite E. unfold ccw; destruct p, q; cbn; ring. }
  split; apply (pos_of_mul t); auto; [rewrite E1|rewrite E2]; apply fmul_pos; auto; flra.
Qed.
Lemma open_flip p q x : on_open p q x <-> on_open q p x.
Proof.
  assert (A : forall p q, on_open p q x -> on_open q p x).
  { intros a b [t [T0 [T1 ->]]]. exists (1 - t). split; [flra|]. split; [flra|]. destruct a, b; apply vec_eq; cbn; ring. }
  split; apply A.
Qed.

(** the side of a line on which the points of the ray are *)
Lemma orient_ray p q h (u : K) : orient p q (vscale u h) = ccw p q + u * ccw (vsub q p) h.
Proof. unfold orient, ccw. destruct p, q, h; cbn; ring. Qed.
Lemma orient_open p q a b x : on_open a b x -> 0 <= orient p q a -> 0 <= orient p q b -> 0 <= orient p q x.
Proof.
  intros [t [T0 [T1 ->]]] A B. rewrite orient_seg. pose proof (mul_nonneg t (orient p q b) ltac:(flra) B). pose proof (mul_nonneg (1 - t) (orient p q a) ltac:(flra) A). flra.
Qed.
Lemma orient_on p q x : on_open p q x -> orient p q x = 0.
Proof. intros [t [_ [_ ->]]]. rewrite orient_seg, orient_l, orient_r. ring. Qed.
Lemma three p q x : vadd (vscale (ccw q x) p) (vadd (vscale (ccw x p) q) (vscale (ccw p q) x)) = vzero.
Proof. unfold ccw. destruct p, q, x; apply vec_eq; cbn; ring. Qed.

(** a chord of a convex set with points on both sides runs through the interior *)
Lemma chord e0 e1 h a b (s t u : K) : e0 <> e1 -> s < u -> u < t -> 0 <= orient e0 e1 (vscale s h) -> 0 <= orient e0 e1 (vscale t h) ->
  0 <= orient e0 e1 a -> 0 <= orient e0 e1 b -> 0 < ccw a h -> 0 < ccw h b -> 0 < orient e0 e1 (vscale u h).
Proof.
  intros N SU UT Hs Ht Ha Hb A B. rewrite orient_ray in *. set (al := ccw e0 e1) in *. set (be := ccw (vsub e1 e0) h) in *.
  destruct (tri 0 (al + u * be)) as [H|H]; auto. exfalso.
  assert (Z : be = 0).
  { destruct (tri 0 be) as [P|[P|P]]; auto; exfalso.
    - assert (0 < (u - s) * be) by (apply fmul_pos; flra). destruct H as [H|H]; flra.
    - assert (0 < (t - u) * - be) by (apply fmul_pos; flra). destruct H as [H|H]; flra. }
  assert (Z' : al = 0) by (rewrite Z in *; destruct H as [H|H]; [flra|]; assert (0 <= al) by flra; flra).
  assert (Ea : orient e0 e1 a = al + ccw (vsub e1 e0) a) by (unfold al, orient, ccw; destruct e0, e1, a; cbn; ring).
  assert (Eb : orient e0 e1 b = al + ccw (vsub e1 e0) b) by (unfold al, orient, ccw; destruct e0, e1, b; cbn; ring).
  rewrite Ea, Z' in Ha. rewrite Eb, Z' in Hb.
  assert (PL : ccw (vsub e1 e0) a * ccw h b + ccw (vsub e1 e0) b * ccw a h = be * ccw a b) by (unfold be, ccw; destruct e0, e1, a, b, h; cbn; ring).
  rewrite Z in PL. assert (Ha' : 0 <= ccw (vsub e1 e0) a) by flra. assert (Hb' : 0 <= ccw (vsub e1 e0) b) by flra.
  assert (X0 : ccw (vsub e1 e0) a = 0).
  { pose proof (mul_nonneg _ _ Hb' (ltac:(flra) : 0 <= ccw a h)). destruct (tri 0 (ccw (vsub e1 e0) a)) as [P|[P|P]]; auto; [|flra]. pose proof (fmul_pos _ _ P B). flra. }
  pose proof (three (vsub e1 e0) a h) as T. rewrite X0 in T. assert (Zh : ccw h (vsub e1 e0) = 0) by (rewrite ccw_anti; unfold be in Z; rewrite Z; ring). rewrite Zh in T.
  apply N. assert (T' : vscale (ccw a h) (vsub e1 e0) = vzero) by (rewrite <- T; destruct (vsub e1 e0), a, h; apply vec_eq; cbn; ring).
  assert (Nh : ccw a h <> 0) by (intros X; flra). injection T' as T1 T2. destruct e0 as [x0 y0], e1 as [x1 y1]; cbn in T1, T2.
  assert (W1 : x1 - x0 = 0) by (apply (fcancel _ _ (ccw a h)); auto; transitivity (ccw a h * (x1 - x0)); [ring|rewrite T1; ring]). assert (W2 : y1 - y0 = 0) by (apply (fcancel _ _ (ccw a h)); auto; transitivity (ccw a h * (y1 - y0)); [ring|rewrite T2; ring]).
  apply vec_eq; cbn; flra.
Qed.

(** *** the copy of a polygon *)
Section Image.
Context (P : polygon K) (PR : proper P) (CV : is_convex false P = true) (f : sim K) (FO : sim_ok f) (FS : sg_sign f = true).
Notation n := (length P).
Definition im (j : nat) : vec K := sim_apply f (vertex P j).
Lemma im_orient a b p : orient (sim_apply f a) (sim_apply f b) (sim_apply f p) = sim_det f * orient a b p.
Proof. now apply orient_sim. Qed.
Lemma im_det : 0 < sim_det f. Proof. now apply sim_det_pos. Qed.
Lemma im_pos a b p : 0 < orient (sim_apply f a) (sim_apply f b) (sim_apply f p) <-> 0 < orient a b p.
Proof. rewrite im_orient. pose proof im_det. split; intros H0; [now apply (pos_of_mul (sim_det f))|now apply fmul_pos]. Qed.
Lemma im_nonneg a b p : 0 <= orient (sim_apply f a) (sim_apply f b) (sim_apply f p) <-> 0 <= orient a b p.
Proof.
  rewrite im_orient. pose proof im_det. split; intros H0; [|apply mul_nonneg; auto; flra].
  destruct (tri 0 (orient a b p)) as [X|[X|X]]; [flra|rewrite <- X; flra|]. exfalso. assert (0 < sim_det f * - orient a b p) by (apply fmul_pos; flra). flra.
Qed.
Lemma im_back x : exists p, sim_apply f p = x.
Proof. exists (sim_apply (sim_inv f) x). now apply sim_apply_inv. Qed.
Lemma im_inj p q : sim_apply f p = sim_apply f q -> p = q.
Proof. intros E. rewrite <- (sim_inv_apply f p FO), E. now apply sim_inv_apply. Qed.
Lemma im_inside x : (exists p, get_point_position P p = Interior /\ sim_apply f p = x) <-> forall j, (j < n)%nat -> 0 < orient (im j) (im (S j)) x.
Proof.
  split.
  - intros [p [I <-]] j J. apply im_pos. apply (position_convex P PR CV) in I. now apply I.
  - intros H. destruct (im_back x) as [p <-]. exists p. split; auto. apply (position_convex P PR CV). intros j J. apply im_pos. now apply H.
Qed.
Lemma im_affine a b (t : K) : sim_apply f (vadd a (vscale t (vsub b a))) = vadd (sim_apply f a) (vscale t (vsub (sim_apply f b) (sim_apply f a))).
Proof. apply sim_affine. Qed.
Lemma im_edge e x : (exists p, get_point_position P p = EdgeInterior e /\ sim_apply f p = x) <-> (e < n)%nat /\ on_open (im e) (im (S e)) x.
Proof.
  split.
  - intros [p [E <-]]. apply (C57_edge K P p e PR) in E. destruct E as [L [t [T0 [T1 ->]]]]. split; auto. exists t. split; [auto|split; [auto|]]. unfold edge. apply im_affine.
  - intros [L [t [T0 [T1 ->]]]]. exists (vadd (vertex P e) (vscale t (edge P e))). split; [|unfold edge; apply im_affine]. apply (C57_edge K P _ e PR). split; auto. exists t. auto.
Qed.
Lemma im_unique e e' x : (e < n)%nat -> (e' < n)%nat -> on_open (im e) (im (S e)) x -> on_open (im e') (im (S e')) x -> e = e'.
Proof.
  intros L L' A B. destruct (proj2 (im_edge e x) (conj L A)) as [p [Ep Ex]]. destruct (proj2 (im_edge e' x) (conj L' B)) as [p' [Ep' Ex']].
  assert (p = p') by (apply im_inj; congruence). subst p'. congruence.
Qed.
Lemma im_not_vertex e k : (e < n)%nat -> ~ on_open (im e) (im (S e)) (im k).
Proof.
  intros L A. destruct (proj2 (im_edge e _) (conj L A)) as [p [Ep Ex]]. apply im_inj in Ex. subst p.
  assert (N : (0 < n)%nat) by lia. rewrite <- (vertex_mod P k), (at_vertex P PR) in Ep; [discriminate|]. apply Nat.mod_upper_bound. lia.
Qed.
Lemma left_all e j : (e < n)%nat -> 0 <= orient (im e) (im (S e)) (im j).
Proof.
  intros L. apply im_nonneg. apply (position_convex P PR CV); auto. assert (N : (0 < n)%nat) by lia. rewrite <- (vertex_mod P j), (at_vertex P PR); [discriminate|]. apply Nat.mod_upper_bound. lia.
Qed.
Lemma im_vinj j k : (j < n)%nat -> (k < n)%nat -> im j = im k -> j = k.
Proof.
  intros J Kk E. apply im_inj in E. pose proof (at_vertex P PR j J) as A. rewrite E, (at_vertex P PR k Kk) in A. congruence.
Qed.
Lemma im_neq e : im e <> im (S e).
Proof.
  intros E. apply im_inj in E. destruct PR as [_ [ND _]]. apply (ND e). unfold edge. rewrite E. destruct (vertex P (S e)); apply vec_eq; cbn; ring.
Qed.

(** the ray through the copy *)
Lemma ray_inside h (s t : K) (a b : nat) : (forall j, (j < n)%nat -> 0 <= orient (im j) (im (S j)) (vscale s h)) -> (forall j, (j < n)%nat -> 0 <= orient (im j) (im (S j)) (vscale t h)) ->
  0 < ccw (im a) h -> 0 < ccw h (im b) -> forall u, s < u -> u < t -> forall j, (j < n)%nat -> 0 < orient (im j) (im (S j)) (vscale u h).
Proof.
  intros Hs Ht A B u SU UT j J. apply (chord _ _ h (im a) (im b) s t u); auto; [apply im_neq|apply left_all; auto|apply left_all; auto].
Qed.
(** two ways to leave *)
Definition leaves_by v h := im v = h \/ 0 < ccw (im v) (im (S v)) /\ exists t, 0 < t /\ t < 1 /\ on_open (im v) (im (S v)) (vscale t h).
Lemma leave_before v h (t t' : K) : 0 < ccw (im v) (im (S v)) -> 0 < t -> on_open (im v) (im (S v)) (vscale t h) -> 0 <= orient (im v) (im (S v)) (vscale t' h) -> t' <= t.
Proof.
  intros A T O H. pose proof (orient_on _ _ _ O) as Z. rewrite orient_ray in Z, H. destruct (tri t t') as [X|[X|X]]; [|subst; flra|flra]. exfalso.
  assert (B : 0 < - ccw (vsub (im (S v)) (im v)) h) by (apply (pos_of_mul t); auto; flra). assert (0 < (t' - t) * - ccw (vsub (im (S v)) (im v)) h) by (apply fmul_pos; flra). flra.
Qed.
Lemma leaves_unique v v' h : (v < n)%nat -> (v' < n)%nat -> leaves_by v h -> leaves_by v' h -> v = v'.
Proof.
  assert (one : forall h', vscale 1 h' = h') by (intros [x y]; apply vec_eq; cbn; ring).
  intros L L' [A|[A [t [T0 [T1 O]]]]] [B|[B [t' [T0' [T1' O']]]]].
  - apply im_vinj; auto. congruence.
  - exfalso. assert (X : (1 : K) <= t'); [|flra]. apply (leave_before v' h t' 1); auto. rewrite one, <- A. now apply left_all.
  - exfalso. assert (X : (1 : K) <= t); [|flra]. apply (leave_before v h t 1); auto. rewrite one, <- B. now apply left_all.
  - assert (E : t = t').
    { assert (t' <= t) by (apply (leave_before v h); auto; apply (orient_open _ _ _ _ _ O'); apply left_all; auto).
      assert (t <= t') by (apply (leave_before v' h); auto; apply (orient_open _ _ _ _ _ O); apply left_all; auto).
      destruct (tri t t') as [X|[X|X]]; auto; flra. }
    subst t'. now apply (im_unique v v' (vscale t h)).
Qed.
Lemma leaves_excl v h : (v < n)%nat -> im v = h -> ~ (0 < ccw (im v) (im (S v)) /\ exists t, 0 < t /\ t < 1 /\ on_open (im v) (im (S v)) (vscale t h)).
Proof.
  intros L E [A [t [T0 [T1 O]]]]. assert (X : (1 : K) <= t); [|flra]. apply (leave_before v h t 1); auto. replace (vscale 1 h) with h by (destruct h; apply vec_eq; cbn; ring). rewrite <- E. now apply left_all.
Qed.
End Image.
End C.
