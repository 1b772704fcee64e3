(** Positions of points: crossing parities of arbitrary segments, separation by lines, convex polygons. *)
From Coq Require Import List Bool ZArith Arith Lia Ring Field Permutation.
From Verif Require Import OField FMicromega PField MBase MEuclid SEuclid PEuclid MSim SSim MPoly PPoly PTurn SPoint PPoint SCut SEar PJordan PJordan2 PJordan3 PJordan4 PJordan5 PConvex PEar5.
Import ListNotations.

Section C.
Context {K : OField}.
Add Field KF : (of_ft K).
Local Open Scope F_scope.
Implicit Types (u v w p q x : vec K).

(** the order of points along a segment *)
Lemma ltb_on u v (t : K) : ltb u v = true -> 0 < t -> t < 1 ->
  ltb u (vadd u (vscale t (vsub v u))) = true /\ ltb (vadd u (vscale t (vsub v u))) v = true.
Proof.
  intros L T0 T1. unfold ltb in *. split.
  - replace (vsub (vadd u (vscale t (vsub v u))) u) with (vscale t (vsub v u)) by (destruct u, v; apply vec_eq; cbn; ring). now rewrite posb_scale.
  - replace (vsub v (vadd u (vscale t (vsub v u)))) with (vscale (1 - t) (vsub v u)) by (destruct u, v; apply vec_eq; cbn; ring).
    rewrite posb_scale; auto. flra.
Qed.
Definition crossing_pair (e f : vec K * vec K) := (exists x, on_segment e x /\ on_segment f x) /\
  ~ on_segment e (fst f) /\ ~ on_segment e (snd f) /\ ~ on_segment f (fst e) /\ ~ on_segment f (snd e).
Lemma crossing_sym1 u v f : crossing_pair (u, v) f -> crossing_pair (v, u) f.
Proof.
  intros [[x [A B]] [C1 [C2 [C3 C4]]]]. cbn [fst snd] in *. split; [exists x; split; auto; now apply on_seg_sym|]. cbn [fst snd].
  repeat split; auto; intros H; apply on_seg_sym in H; auto.
Qed.
Lemma crossing_sym2 e p q : crossing_pair e (p, q) -> crossing_pair e (q, p).
Proof.
  intros [[x [A B]] [C1 [C2 [C3 C4]]]]. cbn [fst snd] in *. split; [exists x; split; auto; now apply on_seg_sym|]. cbn [fst snd].
  repeat split; auto; intros H; apply on_seg_sym in H; auto.
Qed.
Lemma quad_cross_main u v p q : ltb u v = true -> ltb p q = true -> crossing_pair (u, v) (p, q) ->
  xorb (crs (u, v) p) (crs (u, v) q) = negb (xorb (under p q u) (under p q v)).
Proof.
  intros U P [[x [[t [T0 [T1 Ex]]] [s [S0 [S1 Ey]]]]] [C1 [C2 [C3 C4]]]]. cbn [fst snd] in *.
  assert (X0 : on_segment (u, v) x) by (exists t; auto). assert (Y0 : on_segment (p, q) x) by (exists s; auto).
  assert (t <> 0). { intros ->. apply C3. replace u with x; auto. rewrite Ex. destruct u, v; apply vec_eq; cbn; ring. }
  assert (t <> 1). { intros ->. apply C4. replace v with x; auto. rewrite Ex. destruct u, v; apply vec_eq; cbn; ring. }
  assert (s <> 0). { intros ->. apply C1. replace p with x; auto. rewrite Ey. destruct p, q; apply vec_eq; cbn; ring. }
  assert (s <> 1). { intros ->. apply C2. replace q with x; auto. rewrite Ey. destruct p, q; apply vec_eq; cbn; ring. }
  assert (0 < t) by (apply fneq_lt in H; destruct H; flra). assert (t < 1) by (apply fneq_lt in H0; destruct H0; flra).
  assert (0 < s) by (apply fneq_lt in H1; destruct H1; flra). assert (s < 1) by (apply fneq_lt in H2; destruct H2; flra).
  destruct (ltb_on u v t U) as [U1 U2]; auto. destruct (ltb_on p q s P) as [P1 P2]; auto. rewrite <- Ex in U1, U2. rewrite <- Ey in P1, P2.
  set (D := ccw (vsub v u) (vsub q p)).
  assert (Ex1 : fst x = fst u + t * (fst v - fst u)) by (rewrite Ex; destruct u, v; cbn; ring).
  assert (Ex2 : snd x = snd u + t * (snd v - snd u)) by (rewrite Ex; destruct u, v; cbn; ring).
  assert (Ey1 : fst x = fst p + s * (fst q - fst p)) by (rewrite Ey; destruct p, q; cbn; ring).
  assert (Ey2 : snd x = snd p + s * (snd q - snd p)) by (rewrite Ey; destruct p, q; cbn; ring).
  assert (R : forall a b c d : K, a = c + d -> b = c + d -> a = b) by (intros; congruence).
  assert (O1 : orient u v p = - s * D).
  { unfold D, orient, ccw. destruct u as [u1 u2], v as [v1 v2], p as [p1 p2], q as [q1 q2]. cbn in *.
    assert (E1 : p1 = u1 + t * (v1 - u1) - s * (q1 - p1)) by (rewrite <- Ex1, Ey1; ring).
    assert (E2 : p2 = u2 + t * (v2 - u2) - s * (q2 - p2)) by (rewrite <- Ex2, Ey2; ring).
    transitivity ((v1 - u1) * ((u2 + t * (v2 - u2) - s * (q2 - p2)) - u2) - (v2 - u2) * ((u1 + t * (v1 - u1) - s * (q1 - p1)) - u1)).
    - rewrite <- E1, <- E2. ring.
    - ring. }
  assert (O2 : orient u v q = (1 - s) * D).
  { assert (E : orient u v q = orient u v p + D) by (unfold D, orient, ccw; destruct u, v, p, q; cbn; ring). rewrite E, O1. ring. }
  assert (O3 : orient p q u = t * D).
  { unfold D, orient, ccw. destruct u as [u1 u2], v as [v1 v2], p as [p1 p2], q as [q1 q2]. cbn in *.
    assert (E1 : u1 = p1 + s * (q1 - p1) - t * (v1 - u1)) by (rewrite <- Ey1, Ex1; ring).
    assert (E2 : u2 = p2 + s * (q2 - p2) - t * (v2 - u2)) by (rewrite <- Ey2, Ex2; ring).
    transitivity ((q1 - p1) * ((p2 + s * (q2 - p2) - t * (v2 - u2)) - p2) - (q2 - p2) * ((p1 + s * (q1 - p1) - t * (v1 - u1)) - p1)).
    - rewrite <- E1, <- E2. ring.
    - ring. }
  assert (O4 : orient p q v = - (1 - t) * D).
  { assert (E : orient p q v = orient p q u - D) by (unfold D, orient, ccw; destruct u, v, p, q; cbn; ring). rewrite E, O3. ring. }
  assert (UQ : ltb u q = true) by now apply (ltb_trans u x). assert (PV : ltb p v = true) by now apply (ltb_trans p x).
  unfold crs, under. cbn [fst snd]. rewrite U, P. rewrite O1, O2, O3, O4. clearbody D.
  assert (Nvq : v <> q) by (intros ->; apply C2, on_seg_r). assert (Nup : u <> p) by (intros ->; apply C1, on_seg_l).
  destruct (flt_total D) as [N|[Z|N]].
  - assert (F1 : (0 <? - s * D) = true) by (change (0 < - s * D); fnra). assert (F2 : (0 <? (1 - s) * D) = false) by (apply fltb_ge; fnra).
    assert (F3 : (t * D <? 0) = true) by (change (t * D < 0); fnra). assert (F4 : (- (1 - t) * D <? 0) = false) by (apply fltb_ge; fnra).
    rewrite F1, F2, F3, F4, !andb_true_r, !andb_false_r, !xorb_false_r. rewrite (ltb_asym _ _ UQ), (ltb_asym _ _ PV), !xorb_false_r. apply (ltb_swap _ _ (not_eq_sym Nup)).
  - exfalso. subst D. destruct (ltb_total u p) as [->|[A|A]]; [now apply Nup| |].
    + apply C1. apply seg_between; auto. rewrite O1. ring.
    + apply C3. apply seg_between; auto. rewrite O3. ring.
  - assert (F1 : (0 <? - s * D) = false) by (apply fltb_ge; fnra). assert (F2 : (0 <? (1 - s) * D) = true) by (change (0 < (1 - s) * D); fnra).
    assert (F3 : (t * D <? 0) = false) by (apply fltb_ge; fnra). assert (F4 : (- (1 - t) * D <? 0) = true) by (change (- (1 - t) * D < 0); fnra).
    rewrite F1, F2, F3, F4, !andb_true_r, !andb_false_r, !xorb_false_l, UQ, PV, (ltb_swap q v) by auto. now destruct (ltb q v).
Qed.
Lemma quad_cross u v p q : u <> v -> p <> q -> crossing_pair (u, v) (p, q) ->
  xorb (crs (u, v) p) (crs (u, v) q) = negb (xorb (under p q u) (under p q v)).
Proof.
  intros NU NP D. destruct (ltb_total u v) as [E|[E|E]]; [contradiction| |]; destruct (ltb_total p q) as [F|[F|F]]; try contradiction.
  - now apply quad_cross_main.
  - rewrite xorb_comm, (under_sym p q u), (under_sym p q v). apply quad_cross_main; auto. now apply crossing_sym2.
  - rewrite (crs_sym u v p), (crs_sym u v q), (xorb_comm (under p q u)). apply quad_cross_main; auto. now apply crossing_sym1.
  - rewrite (crs_sym u v p), (crs_sym u v q), xorb_comm, (under_sym p q u), (under_sym p q v), (xorb_comm (under q p u)).
    apply quad_cross_main; auto. now apply crossing_sym1, crossing_sym2.
Qed.

Section M.
Context (M : vec K * vec K -> bool).
Definition hits (gs : list (vec K * vec K)) := Nat.odd (length (filter M gs)).
Lemma hits_cons g gs : hits (g :: gs) = xorb (M g) (hits gs).
Proof. unfold hits. cbn [filter]. destruct (M g); [|now rewrite xorb_false_l]. cbn [length]. rewrite Nat.odd_succ, <- Nat.negb_odd. reflexivity. Qed.
Lemma tele_cross p q x l : p <> q ->
  (forall u v, In (u, v) (segs (x :: l)) -> u <> v /\ (if M (u, v) then crossing_pair (u, v) (p, q) else disjoint (u, v) (p, q))) ->
  xorb (par p (segs (x :: l))) (par q (segs (x :: l))) = xorb (hits (segs (x :: l))) (xorb (under p q x) (under p q (last l x))).
Proof.
  intros NP. revert x. induction l as [|y l IH]; intros x H; [cbn; now destruct (under p q x)|].
  rewrite segs_cons. cbn [par]. rewrite last_cons, hits_cons. destruct (H x y) as [N D]; [now left|].
  assert (Q : xorb (crs (x, y) p) (crs (x, y) q) = xorb (M (x, y)) (xorb (under p q x) (under p q y))).
  { destruct (M (x, y)); [rewrite (quad_cross x y p q N NP D)|rewrite (quad x y p q N NP D)]; now destruct (under p q x), (under p q y). }
  assert (T : xorb (par p (segs (y :: l))) (par q (segs (y :: l))) = xorb (hits (segs (y :: l))) (xorb (under p q y) (under p q (last l y)))).
  { apply IH. intros u v I. apply H. now right. }
  destruct (crs (x, y) p), (crs (x, y) q), (par p (segs (y :: l))), (par q (segs (y :: l))), (M (x, y)), (hits (segs (y :: l))), (under p q x), (under p q y), (under p q (last l y));
    cbn in *; congruence.
Qed.
Lemma par_cross P p q : NoDup P -> (2 <= length P)%nat -> p <> q ->
  (forall g, In g (cyc P) -> if M g then crossing_pair g (p, q) else disjoint g (p, q)) ->
  xorb (par p (cyc P)) (par q (cyc P)) = hits (cyc P).
Proof.
  intros ND N NP H. destruct P as [|a P]; [reflexivity|].
  assert (T := tele_cross p q a (P ++ [a]) NP). rewrite last_last in T.
  change (segs (a :: P ++ [a])) with (cyc (a :: P)) in T. rewrite T, xorb_nilpotent, xorb_false_r; auto.
  intros u v I. split; [now apply (cyc_neq (a :: P))|now apply H].
Qed.
End M.

(** polygons without right turns *)
Definition no_right_turns (P : list (vec K)) := forall u v w, In (u, v) (cyc P) -> In (v, w) (cyc P) -> 0 <= orient u v w.
Lemma nrt_rot P Q : rot P Q -> no_right_turns P -> no_right_turns Q.
Proof. intros R H u v w U W. apply (H u v w); now apply (rot_cyc_in _ _ _ R). Qed.
Lemma collinear v w : v <> vzero -> w <> vzero -> ccw v w = 0 -> ~ same_ray v w -> exists t, 0 < t /\ w = vscale (- t) v.
Proof.
  intros NV NW C NR. pose proof (ray_opp v w NV NW C NR) as R.
  destruct (same_half_ccw v (vopp w)) as [t [T E]]; auto.
  - intros E. apply NW. destruct w. injection E as E1 E2. apply vec_eq; cbn; flra.
  - rewrite posb_opp, R by auto. now destruct (posb v).
  - transitivity (- ccw v w); [unfold ccw; cbn; ring|rewrite C; ring].
  - exists t. split; auto. destruct v, w. injection E as E1 E2. apply vec_eq; cbn in *; flra.
Qed.
(** a straight angle *)
Lemma flat_between b l : simpleL (b :: l) -> orient (last l b) b (hd b l) = 0 ->
  exists t : K, 0 < t /\ t < 1 /\ b = vadd (last l b) (vscale t (vsub (hd b l) (last l b))).
Proof.
  intros Sb O. pose proof (simple_ray _ _ Sb) as NR. destruct (c_ab b l _ _ Sb eq_refl eq_refl) as [AB [BC [Nab [Ncb [Nac _]]]]].
  set (a := last l b) in *. set (c := hd b l) in *. clearbody a c.
  destruct (collinear (vsub a b) (vsub c b)) as [t [T E]]; auto.
  - apply vsub_nz. congruence.
  - apply vsub_nz. congruence.
  - transitivity (- orient a b c); [unfold orient, ccw; destruct a, b, c; cbn; ring|rewrite O; ring].
  - assert (D : 1 + t <> 0) by (intros X; flra). exists (1 / (1 + t)). split; [apply fdiv_pos; flra|]. split.
    + assert (X : 1 - 1 / (1 + t) = t / (1 + t)) by (field; auto). assert (0 < t / (1 + t)) by (apply fdiv_pos; flra). flra.
    + destruct a as [a1 a2], b as [b1 b2], c as [c1 c2]. injection E as E1 E2. cbn in *.
      assert (F1 : c1 = b1 - t * (a1 - b1)) by (transitivity ((c1 - b1) + b1); [ring|rewrite E1; ring]).
      assert (F2 : c2 = b2 - t * (a2 - b2)) by (transitivity ((c2 - b2) + b2); [ring|rewrite E2; ring]).
      subst c1 c2. apply vec_eq; cbn; field; auto.
Qed.
Lemma flat_split a b c x (t : K) : 0 < t -> t < 1 -> b = vadd a (vscale t (vsub c a)) -> on_segment (a, c) x -> on_segment (a, b) x \/ on_segment (b, c) x.
Proof.
  intros T0 T1 -> [s [S0 [S1 ->]]]. cbn [fst snd]. assert (t <> 0) by (intros X; flra). assert (1 - t <> 0) by (intros X; flra).
  destruct (t <? s) eqn:E.
  - change (t < s) in E. right. exists ((s - t) / (1 - t)). cbn [fst snd]. split; [apply fdiv_nonneg; flra|]. split; [apply fdiv_le; flra|].
    destruct a, c; apply vec_eq; cbn; field; auto.
  - apply fltb_ge in E. left. exists (s / t). cbn [fst snd]. split; [apply fdiv_nonneg; flra|]. split; [apply fdiv_le; flra|].
    destruct a, c; apply vec_eq; cbn; field; auto.
Qed.
Lemma flat_clip b l : simpleL (b :: l) -> orient (last l b) b (hd b l) = 0 -> no_right_turns (b :: l) ->
  (3 <= length l)%nat /\ simpleL l /\ no_right_turns l.
Proof.
  intros Sb O NR. destruct (flat_between b l Sb O) as [t [T0 [T1 Eb]]].
  destruct (c_ab b l _ _ Sb eq_refl eq_refl) as [AB [BC [Nab [Ncb [Nac [NL [NI [Ia Ic]]]]]]]]. pose proof Sb as [ND [LN S]].
  set (a := last l b) in *. set (c := hd b l) in *.
  assert (CT : cyc l = segs l ++ [(a, c)]) by now apply (cyc_tail b l a c Sb).
  assert (CL : forall g, In g (segs l) -> In g (cyc (b :: l))) by (intros g G; now apply segs_cyc).
  assert (B : on_segment (a, c) b) by (exists t; split; [flra|split; [flra|exact Eb]]).
  assert (L3 : (3 <= length l)%nat).
  { destruct (le_lt_dec 3 (length l)) as [|L]; auto. exfalso. cbn in LN. destruct l as [|c' [|a' [|? ?]]]; cbn in LN, L; try lia.
    apply (simple_off b [c'; a'] (c', a') Sb); [now left|]. cbn in a, c. now apply on_seg_sym. }
  assert (Sl : simpleL l).
  { split; [now apply NoDup_cons_iff in ND|]. split; auto.
    assert (X : forall g x, In g (segs l) -> on_segment g x -> on_segment (a, c) x -> (x = fst g /\ x = c) \/ (x = snd g /\ x = a)).
    { intros [u v] x I G J. destruct (in_segs_in _ _ _ I) as [Iu Iv]. cbn [fst snd]. destruct (flat_split a b c x t T0 T1 Eb J) as [H|H].
      - destruct (S (u, v) (a, b) x) as [[X1 X2]|[X1 X2]]; auto; cbn in *.
        + intros [= _ E]. congruence.
        + exfalso. apply NI. rewrite <- X2, X1. auto.
      - destruct (S (u, v) (b, c) x) as [[X1 X2]|[X1 X2]]; auto; cbn in *.
        + intros [= E _]. congruence.
        + exfalso. apply NI. rewrite <- X2, X1. auto. }
    intros e f x E F NE Xe Xf. rewrite CT in E, F. apply in_app_or in E, F. destruct E as [E|[<-|[]]], F as [F|[<-|[]]].
    - apply S; auto.
    - destruct (X e x); auto; cbn; tauto.
    - destruct (X f x); auto; cbn; tauto.
    - contradiction. }
  split; auto. split; auto.
  assert (OA : forall u, 0 <= orient u a b -> 0 <= orient u a c).
  { intros u H. assert (Q : orient u a b = t * orient u a c) by (rewrite Eb, orient_seg, orient_r; ring). fnra. }
  assert (OC : forall w, 0 <= orient b c w -> 0 <= orient a c w).
  { intros w H. rewrite orient_rot1 in H |- *. rewrite orient_rot1 in H |- *.
    assert (Q : orient w b c = (1 - t) * orient w a c) by (rewrite Eb; unfold orient, ccw; destruct a, c, w; cbn; ring). fnra. }
  intros u v w U W. rewrite CT in U, W. apply in_app_or in U, W. destruct U as [U|[E|[]]], W as [W|[F|[]]].
  - apply NR; auto.
  - injection F as <- <-. apply OA, NR; auto.
  - injection E as <- <-. apply OC, NR; auto.
  - injection E as <- <-. injection F as F _. congruence.
Qed.
(** all vertices are to the left of each edge *)
Lemma weak_left P : simpleL P -> no_right_turns P -> forall u v w, In (u, v) (cyc P) -> In w P -> 0 <= orient u v w.
Proof.
  remember (length P) as n eqn:EN. revert P EN. induction n as [n IH] using lt_wf_ind. intros P -> SP NR.
  destruct (forallb (fun g => forallb (fun h => negb (veqb (snd g) (fst h)) || (0 <? orient (fst g) (snd g) (snd h))) (cyc P)) (cyc P)) eqn:E.
  - assert (LT : left_turns P).
    { apply (left_turns_cyc _ SP). intros u v w U W. rewrite forallb_forall in E. apply E in U. rewrite forallb_forall in U. apply U in W. cbn [fst snd] in W.
      rewrite (proj2 (veqb_eq v v) eq_refl) in W. exact W. }
    intros u v w U W. destruct (vec_dec w u) as [->|N1]; [rewrite orient_l; flra|]. destruct (vec_dec w v) as [->|N2]; [rewrite orient_r; flra|].
    pose proof (convex_left P u v w SP LT U W N1 N2). flra.
  - assert (X : exists a b c, In (a, b) (cyc P) /\ In (b, c) (cyc P) /\ orient a b c = 0).
    { destruct (existsb (fun g => existsb (fun h => veqb (snd g) (fst h) && (orient (fst g) (snd g) (snd h) =? 0)) (cyc P)) (cyc P)) eqn:F.
      - apply existsb_exists in F as [[a b] [I F]]. apply existsb_exists in F as [[b' c] [J F]]. apply andb_true_iff in F as [F1 F2]. cbn in F1, F2.
        apply veqb_eq in F1. subst b'. apply feqb_eq in F2. eauto 6.
      - exfalso. apply not_true_iff_false in E. apply E. apply forallb_forall. intros [a b] I. apply forallb_forall. intros [b' c] J. cbn [fst snd].
        destruct (veqb b b') eqn:V; auto. cbn. apply veqb_eq in V. subst b'. pose proof (NR a b c I J) as Q. change (0 < orient a b c).
        assert (orient a b c <> 0); [|apply fneq_lt in H; destruct H; flra]. intros Z. apply not_true_iff_false in F. apply F.
        apply existsb_exists. exists (a, b). split; auto. apply existsb_exists. exists (b, c). split; auto. cbn.
        rewrite (proj2 (veqb_eq b b) eq_refl), Z. now apply feqb_eq. }
    destruct X as (a & b & c & AB & BC & O). pose proof SP as [ND [N3 _]]. destruct (cyc_in_l _ _ _ BC) as [Ib _]. apply rot_to in Ib as [l R].
    pose proof (simpleL_rot _ _ R SP) as Sb. pose proof (nrt_rot _ _ R NR) as NRb.
    destruct (c_ab b l _ _ Sb eq_refl eq_refl) as [AB' [BC' [Nab [Ncb [Nac [NL [NI [Ia Ic]]]]]]]].
    assert (Ea : a = last l b). { apply (cyc_pred P a (last l b) b); auto; [lia|]. now apply (rot_cyc_in _ _ _ R). }
    assert (Ec : c = hd b l). { apply (cyc_succ P b c (hd b l)); auto; [lia|]. now apply (rot_cyc_in _ _ _ R). }
    rewrite Ea, Ec in O. destruct (flat_clip b l Sb O NRb) as [L3 [Sl NRl]]. destruct (flat_between b l Sb O) as [t [T0 [T1 Eb]]].
    rewrite <- Ea, <- Ec in Eb. rewrite <- Ea in Ia. rewrite <- Ec in Ic.
    assert (CT : cyc l = segs l ++ [(a, c)]) by now apply (cyc_tail b l a c Sb).
    assert (IHl : forall u v w, In (u, v) (cyc l) -> In w l -> 0 <= orient u v w).
    { apply (IH (length l)); auto. rewrite (rot_length _ _ R). cbn. lia. }
    assert (IHb : forall u v w, In (u, v) (cyc l) -> In w (b :: l) -> 0 <= orient u v w).
    { intros u v w U [<-|W]; [|auto]. rewrite Eb, orient_seg. pose proof (IHl u v a U Ia). pose proof (IHl u v c U Ic). fnra. }
    intros u v w U W. apply (rot_cyc_in _ _ _ R) in U. apply (rot_in _ _ _ R) in W. rewrite cyc_path in U by auto. rewrite <- Ea, <- Ec in U.
    assert (AC : 0 <= orient a c w) by (apply IHb; auto; rewrite CT; apply in_or_app; right; now left).
    assert (Q1 : orient a b w = t * orient a c w) by (rewrite Eb; unfold orient, ccw; destruct a, c, w; cbn; ring).
    assert (Q2 : orient b c w = (1 - t) * orient a c w) by (rewrite Eb; unfold orient, ccw; destruct a, c, w; cbn; ring).
    destruct U as [U|U]; [injection U as <- <-; fnra|]. apply in_app_or in U as [U|[U|[]]]; [|injection U as <- <-; fnra].
    apply IHb; auto. rewrite CT. apply in_or_app. now left.
Qed.

(** positions *)
Definition bound (P : polygon K) p := exists e, (e < length P)%nat /\ on_segment (side P e) p.
Lemma bound_cyc P p : bound P p <-> exists g, In g (cyc P) /\ on_segment g p.
Proof.
  rewrite cyc_side. split.
  - intros [e [L O]]. exists (side P e). split; auto. apply in_map, in_seq. lia.
  - intros [g [G O]]. apply in_map_iff in G as [e [<- G]]. apply in_seq in G. exists e. split; auto. lia.
Qed.
Lemma pos_off P p : proper P -> ~ bound P p -> get_point_position P p = if par p (cyc P) then Interior else Outside.
Proof.
  intros PR NB. pose proof (position_par P PR p) as H.
  assert (ND : nondeg P) by (destruct PR as [A [B _]]; split; auto). pose proof (position_spec P p ND) as Q.
  assert (L : (0 < length P)%nat) by (destruct PR; lia).
  destruct (get_point_position P p) as [| |e|k].
  - destruct (par p (cyc P)); auto. exfalso. apply H; auto.
  - destruct H as [H _]. destruct H as [H|H]; [discriminate|now rewrite H|]. exfalso. apply NB. now apply bound_cyc.
  - exfalso. destruct Q as [Q1 [[t [T0 [T1 Q2]]] _]]. apply NB. exists e. split; auto. exists t. unfold side. cbn [fst snd]. split; [flra|split; [flra|auto]].
  - exfalso. destruct Q as [Q1 Q2]. apply NB. exists k. split; auto. unfold side. rewrite Q2. apply on_seg_l.
Qed.
Lemma pos_bound P p : proper P -> bound P p -> get_point_position P p <> Outside /\ get_point_position P p <> Interior.
Proof.
  intros PR [e [L O]]. assert (ND : nondeg P) by (destruct PR as [A [B _]]; split; auto). pose proof (position_spec P p ND) as Q.
  destruct (get_point_position P p); split; try discriminate; intros _; now apply (Q e).
Qed.
End C.
