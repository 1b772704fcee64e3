(** Proper polygons near a point of their boundary. *)
From Coq Require Import List Bool ZArith Arith Lia Ring Field Permutation.
From Verif Require Import OField FMicromega PField MBase MDict MMut SMut MEuclid SEuclid PEuclid MSim SSim MPoly PPoly PTurn SPoint PPoint PSurf3 SCut PJordan PJordan2 PJordan3 PJordan4 PJordan5 PConvex PEar2 PEar5 PPos PPos2.
Import ListNotations.

Section C.
Context {K : OField}.
Add Field KF : (of_ft K).
Local Open Scope F_scope.
Implicit Types (P : polygon K) (u v w p q x z d : vec K).

Lemma ltb_scale (t c : K) : 0 < t -> (0 <? t * c) = (0 <? c).
Proof.
  intros T. destruct (0 <? c) eqn:E.
  - apply fmul_pos; auto.
  - apply fltb_ge in E. apply fltb_ge. fnra.
Qed.
Lemma ltb_scale' (t c : K) : 0 < t -> (t * c <? 0) = (c <? 0).
Proof.
  intros T. destruct (c <? 0) eqn:E.
  - change (c < 0) in E. change (t * c < 0). fnra.
  - apply fltb_ge in E. apply fltb_ge. fnra.
Qed.
Lemma above_scale (t : K) v w : 0 < t -> above v (vscale t w) = above v w.
Proof.
  intros T. unfold above. rewrite posb_scale by auto. assert (E : ccw v (vscale t w) = t * ccw v w) by (unfold ccw; destruct v, w; cbn; ring).
  rewrite E, ltb_scale, ltb_scale' by auto. reflexivity.
Qed.
Lemma same_ray_scale (t : K) v w : 0 < t -> same_ray v (vscale t w) -> same_ray v w.
Proof.
  intros T [s [S E]]. exists (s / t). assert (t <> 0) by (intros X; rewrite X in T; flra). split; [apply fdiv_pos; auto|].
  destruct v, w. injection E as E1 E2. apply vec_eq; cbn; apply (fcancel _ _ t); auto.
  - transitivity (t * c1); [ring|rewrite E1; field; auto].
  - transitivity (t * c2); [ring|rewrite E2; field; auto].
Qed.
Lemma same_ray_sym v w : same_ray v w -> same_ray w v.
Proof.
  intros [t [T ->]]. assert (t <> 0) by (intros X; rewrite X in T; flra). exists (1 / t). split; [apply fdiv_pos; auto; apply flt_0_1|].
  destruct v; apply vec_eq; cbn; field; auto.
Qed.
Lemma between_pos w z x : 0 < ccw w z -> is_between w z x = (ccw z x <? 0) && (0 <? ccw w x).
Proof.
  intros C. unfold is_between. replace (fst z * snd w <? fst w * snd z) with true.
  - unfold ccw. f_equal; symmetry.
    + destruct (fst z * snd x <? snd z * fst x) eqn:E; [|apply fltb_ge in E; apply fltb_ge; flra]. change (fst z * snd x < snd z * fst x) in E.
      change (fst z * snd x - snd z * fst x < 0). flra.
    + destruct (snd w * fst x <? fst w * snd x) eqn:E; [|apply fltb_ge in E; apply fltb_ge; flra]. change (snd w * fst x < fst w * snd x) in E.
      change (0 < fst w * snd x - snd w * fst x). flra.
  - symmetry. change (fst z * snd w < fst w * snd z). unfold ccw in C. flra.
Qed.
Lemma between_neg w z x : ccw w z < 0 -> is_between w z x = (0 <? ccw w x) || (ccw z x <? 0).
Proof.
  intros C. unfold is_between. replace (fst z * snd w <? fst w * snd z) with false.
  - replace (fst w * snd z =? fst z * snd w) with false.
    + unfold ccw. f_equal; symmetry.
      * destruct (snd w * fst x <? fst w * snd x) eqn:E; [|apply fltb_ge in E; apply fltb_ge; flra]. change (snd w * fst x < fst w * snd x) in E.
        change (0 < fst w * snd x - snd w * fst x). flra.
      * destruct (fst z * snd x <? snd z * fst x) eqn:E; [|apply fltb_ge in E; apply fltb_ge; flra]. change (fst z * snd x < snd z * fst x) in E.
        change (fst z * snd x - snd z * fst x < 0). flra.
    + symmetry. apply feqb_false. unfold ccw in C. intros X. flra.
  - symmetry. apply fltb_ge. unfold ccw in C. flra.
Qed.
Lemma between_flat w x (t : K) : w <> vzero -> 0 < t -> is_between w (vscale (- t) w) x = (0 <? ccw w x).
Proof.
  intros N T. unfold is_between. replace (fst (vscale (- t) w) * snd w <? fst w * snd (vscale (- t) w)) with false.
  2:{ symmetry. apply fltb_ge. cbn. assert (E : - t * fst w * snd w = fst w * (- t * snd w)) by ring. flra. }
  replace (fst w * snd (vscale (- t) w) =? fst (vscale (- t) w) * snd w) with true.
  2:{ symmetry. apply feqb_eq. cbn. ring. }
  replace ((0 <=? fst w * fst (vscale (- t) w)) && (0 <=? snd w * snd (vscale (- t) w))) with false.
  - unfold ccw. symmetry. destruct (snd w * fst x <? fst w * snd x) eqn:E; [|apply fltb_ge in E; apply fltb_ge; flra]. change (snd w * fst x < fst w * snd x) in E.
    change (0 < fst w * snd x - snd w * fst x). flra.
  - symmetry. destruct w as [a b]. cbn. apply andb_false_iff. destruct (feq_dec a 0) as [A|A].
    + right. apply fleb_false. destruct (feq_dec b 0) as [B|B]; [exfalso; apply N; now rewrite A, B|].
      assert (B2 : 0 < b * b) by (apply fneq_lt in B; destruct B; fnra). pose proof (fmul_pos _ _ T B2). assert (b * (- t * b) = - (t * (b * b))) by ring. flra.
    + left. apply fleb_false. assert (B2 : 0 < a * a) by (apply fneq_lt in A; destruct A; fnra). pose proof (fmul_pos _ _ T B2). assert (a * (- t * a) = - (t * (a * a))) by ring. flra.
Qed.

(** the side of [x] at a corner with the edges [w] and [z] *)
Lemma corner_sector w x z : w <> vzero -> x <> vzero -> z <> vzero -> ~ same_ray w z -> ~ same_ray w x -> ~ same_ray z x ->
  xorb (above w x) (above z x) = xorb (xorb (above z w) (posb w)) (negb (is_between w z x)).
Proof.
  intros Nw Nx Nz Rwz Rwx Rzx. assert (A1 : ccw z x = - ccw x z) by apply ccw_anti. destruct (flt_total (ccw w z)) as [C|[C|C]].
  - rewrite between_neg by auto. assert (C' : 0 < ccw z w) by (rewrite ccw_anti; flra).
    assert (F : xorb (above z w) (posb w) = negb (xorb (above w z) (posb z))).
    { rewrite corner_forms by (auto; intros X; now apply Rwz, same_ray_sym).
      destruct (above w z), (posb z); reflexivity. }
    rewrite F. rewrite xorb_comm. assert (A2 : ccw w x = - ccw x w) by apply ccw_anti.
    destruct ((0 <? ccw w x) || (ccw z x <? 0)) eqn:B.
    + cbn [negb]. assert (NB : ~ (0 < ccw z x /\ 0 < ccw x w)).
      { intros [H1 H2]. apply orb_true_iff in B. destruct B as [B|B]; [change (0 < ccw w x) in B|change (ccw z x < 0) in B]; flra. }
      rewrite corner_outside by auto.
      now rewrite xorb_false_r.
    + apply orb_false_iff in B. destruct B as [B1 B2]. apply fltb_ge in B1. apply fltb_ge in B2.
      assert (S1 : ccw w x <> 0).
      { intros E. destruct (collinear w x Nw Nx E Rwx) as [t [T X]]. assert (Y : ccw z x = - (t * ccw z w)) by (rewrite X; unfold ccw; destruct w, z; cbn; ring).
        pose proof (fmul_pos _ _ T C'). flra. }
      assert (S2 : ccw z x <> 0).
      { intros E. destruct (collinear z x Nz Nx E Rzx) as [t [T X]]. assert (Y : ccw w x = t * ccw z w) by (rewrite X; unfold ccw; destruct w, z; cbn; ring).
        pose proof (fmul_pos _ _ T C'). flra. }
      assert (I1 : 0 < ccw z x) by (apply fneq_lt in S2; destruct S2; flra).
      assert (I2 : 0 < ccw x w) by (apply fneq_lt in S1; destruct S1; flra).
      rewrite corner_inside by auto.
      destruct (above w z), (posb z); reflexivity.
  - destruct (collinear w z Nw Nz C Rwz) as [t [T E]]. rewrite E. rewrite between_flat by auto.
    assert (PZ : posb (vscale (- t) w) = negb (posb w)).
    { replace (vscale (- t) w) with (vscale t (vopp w)) by (destruct w; apply vec_eq; cbn; ring). rewrite posb_scale by auto. now apply posb_opp. }
    unfold above. rewrite PZ. assert (CZ : ccw (vscale (- t) w) x = t * (- ccw w x)) by (unfold ccw; destruct w, x; cbn; ring).
    rewrite CZ, ltb_scale, ltb_scale' by auto. replace (0 <? - ccw w x) with (ccw w x <? 0).
    2:{ destruct (ccw w x <? 0) eqn:H; symmetry; [change (ccw w x < 0) in H; change (0 < - ccw w x); flra|apply fltb_ge in H; apply fltb_ge; flra]. }
    replace (- ccw w x <? 0) with (0 <? ccw w x).
    2:{ destruct (0 <? ccw w x) eqn:H; symmetry; [change (0 < ccw w x) in H; change (- ccw w x < 0); flra|apply fltb_ge in H; apply fltb_ge; flra]. }
    assert (S1 : ccw w x <> 0).
    { intros F. destruct (collinear w x Nw Nx F Rwx) as [s [S X]]. apply Rzx. exists (s / t). assert (t <> 0) by (intros Y; rewrite Y in T; flra). split; [apply fdiv_pos; auto|].
      rewrite X, E. destruct w; apply vec_eq; cbn; field; auto. }
    assert (S2 : (ccw w x <? 0) = negb (0 <? ccw w x)).
    { apply fneq_lt in S1. destruct S1 as [S1|S1].
      - assert (E0 : (0 <? ccw w x) = false) by (apply fltb_ge; flra). rewrite E0. exact S1.
      - assert (E0 : (0 <? ccw w x) = true) by exact S1. rewrite E0. apply fltb_ge. flra. }
    rewrite S2. destruct (posb w), (posb x), (0 <? ccw w x); reflexivity.
  - rewrite between_pos by auto. destruct ((ccw z x <? 0) && (0 <? ccw w x)) eqn:B.
    + apply andb_true_iff in B. destruct B as [B1 B2]. change (ccw z x < 0) in B1. change (0 < ccw w x) in B2. rewrite corner_inside by (auto; flra). cbn [negb]. now rewrite xorb_false_r.
    + assert (NB : ~ (0 < ccw w x /\ 0 < ccw x z)).
      { intros [H1 H2]. apply andb_false_iff in B. destruct B as [B|B]; apply fltb_ge in B; flra. }
      rewrite corner_outside by auto. cbn [negb]. now rewrite xorb_true_r.
Qed.

Lemma sub_add p d : vsub (vadd p d) p = d. Proof. destruct p, d; apply vec_eq; cbn; ring. Qed.
Lemma scale_nz (t : K) d : t <> 0 -> d <> vzero -> vscale t d <> vzero.
Proof.
  intros T D E. apply D. destruct d as [a b]. injection E as E1 E2.
  apply vec_eq; cbn; apply (fcancel _ _ t); auto; [transitivity (t * a)|transitivity (t * b)]; try ring; [rewrite E1|rewrite E2]; ring.
Qed.
Lemma seg_ray p w x : p <> w -> x <> p -> on_segment (p, w) x -> same_ray (vsub w p) (vsub x p).
Proof.
  intros N NX [t [T0 [T1 E]]]. cbn [fst snd] in E. exists t. split.
  - destruct (flt_total t) as [H|[H|H]]; auto; [flra|]. exfalso. apply NX. rewrite E, H. destruct p, w; apply vec_eq; cbn; ring.
  - rewrite E. apply sub_add.
Qed.

(** the points close to the corner [p] in the direction [d] *)
Lemma corner_local p l d : simpleL (p :: l) -> d <> vzero -> ~ same_ray (vsub (hd p l) p) d -> ~ same_ray (vsub (last l p) p) d ->
  exists r, 0 < r /\ forall t, 0 < t -> t <= r -> (forall g, In g (cyc (p :: l)) -> ~ on_segment g (vadd p (vscale t d))) /\
    par (vadd p (vscale t d)) (cyc (p :: l)) = xorb (index (p :: l)) (negb (is_between (vsub (hd p l) p) (vsub (last l p) p) d)).
Proof.
  intros S D R1 R2. pose proof (simple_corner _ _ S) as [w [z [Ew [Ez [A [B [Nw [Nz [Nwz [NL [NI _]]]]]]]]]]].
  destruct (segs_small (segs l) p d) as [r [R H]]; [intros g I; now apply (simple_off p l)|]. exists r. split; auto. intros t T0 T1.
  assert (TN : t <> 0) by (intros X; rewrite X in T0; flra).
  set (q := vadd p (vscale t d)) in *. assert (EQ : vsub q p = vscale t d) by apply sub_add.
  assert (NQ : p <> q). { intros E. apply (scale_nz t d TN D). rewrite <- EQ, <- E. destruct p; apply vec_eq; cbn; ring. }
  assert (Q1 : ~ same_ray (vsub (hd p l) p) (vsub q p)) by (rewrite EQ; intros X; now apply R1, (same_ray_scale t)).
  assert (Q2 : ~ same_ray (vsub (last l p) p) (vsub q p)) by (rewrite EQ; intros X; now apply R2, (same_ray_scale t)).
  assert (RR : forall u, same_ray u u) by (intros u; exists 1; split; [apply flt_0_1|destruct u; apply vec_eq; cbn; ring]).
  assert (DJ : forall g, In g (segs l) -> disjoint g (p, q)) by (intros g I; unfold q; apply disjoint_small; auto; intros s S0 S1; apply H; auto; flra).
  split.
  - intros g I. rewrite cyc_path in I by auto. destruct I as [<-|I]; [|apply in_app_or in I; destruct I as [I|[<-|[]]]].
    + intros O. apply Q1. apply seg_ray; auto. rewrite Ew; auto.
    + apply H; auto. flra.
    + intros O. apply Q2. apply seg_ray; auto; [rewrite Ez; auto|now apply on_seg_sym].
  - rewrite par_corner; auto.
    + unfold index. rewrite xorb_assoc. f_equal. rewrite EQ, !above_scale by auto. apply corner_sector; auto.
      * apply vsub_nz. rewrite Ew. auto.
      * apply vsub_nz. rewrite Ez. auto.
      * intros X. now apply (simple_ray p l S), same_ray_sym.
    + apply S.
    + intros E. apply Q1. rewrite E. apply RR.
    + intros E. apply Q2. rewrite E. apply RR.
Qed.

Lemma crs_flat_main a b c x (t : K) : ltb a c = true -> 0 < t -> t < 1 -> b = vadd a (vscale t (vsub c a)) -> xorb (crs (a, b) x) (crs (b, c) x) = crs (a, c) x.
Proof.
  intros L T0 T1 E. destruct (ltb_on a c t L T0 T1) as [L1 L2]. rewrite <- E in L1, L2. unfold crs. cbn [fst snd]. rewrite L, L1, L2.
  assert (E1 : orient a b x = t * orient a c x) by (rewrite E; unfold orient, ccw; destruct a, c, x; cbn; ring).
  assert (E2 : orient b c x = (1 - t) * orient a c x) by (rewrite E; unfold orient, ccw; destruct a, c, x; cbn; ring).
  rewrite E1, E2, !ltb_scale by flra. destruct (ltb a x), (ltb b x), (ltb c x), (0 <? orient a c x); reflexivity.
Qed.
Lemma crs_flat a b c x (t : K) : a <> c -> 0 < t -> t < 1 -> b = vadd a (vscale t (vsub c a)) -> xorb (crs (a, b) x) (xorb (crs (b, c) x) (crs (c, a) x)) = false.
Proof.
  intros N T0 T1 E. assert (X : xorb (crs (a, b) x) (crs (b, c) x) = crs (c, a) x); [|rewrite <- X; destruct (crs (a, b) x), (crs (b, c) x); reflexivity].
  destruct (ltb_total a c) as [Q|[Q|Q]]; [contradiction| |].
  - rewrite (crs_sym c a). now apply (crs_flat_main a b c x t).
  - rewrite (crs_sym a b), (crs_sym b c), xorb_comm. apply (crs_flat_main c b a x (1 - t)); auto; try flra.
    rewrite E. destruct a, c; apply vec_eq; cbn; ring.
Qed.
(** a new vertex in the middle of an edge *)
Lemma flat_insert b l a c (t : K) : simpleL l -> last l b = a -> hd b l = c -> 0 < t -> t < 1 -> b = vadd a (vscale t (vsub c a)) ->
  simpleL (b :: l) /\ index (b :: l) = index l /\ (forall x, par x (cyc (b :: l)) = par x (cyc l)) /\
  (forall x, (exists g, In g (cyc (b :: l)) /\ on_segment g x) <-> exists g, In g (cyc l) /\ on_segment g x).
Proof.
  intros Sl Ha Hc T0 T1 E. pose proof Sl as [ND [L3 S]].
  assert (NL : l <> []) by (intros ->; cbn in L3; lia).
  assert (CT : cyc l = segs l ++ [(a, c)]).
  { destruct l as [|c' l]; [contradiction|]. cbn in Hc. subst c'. destruct l as [|z l] using rev_ind; [cbn in L3; lia|]. rewrite last_cons, last_last in Ha. subst z.
    unfold cyc. cbn [app]. rewrite <- app_assoc. cbn [app]. apply (segs_snoc (c :: l)). }
  assert (AC : In (a, c) (cyc l)) by (rewrite CT; apply in_or_app; right; now left).
  assert (Nac : a <> c) by (apply (cyc_neq l); auto; lia). destruct (cyc_in_l l a c AC) as [Ia Ic].
  assert (B : on_segment (a, c) b) by (exists t; split; [flra|split; [flra|exact E]]).
  assert (Z : vsub c a <> vzero) by now apply vsub_nz.
  assert (TN : t <> 0) by (intros X; rewrite X in T0; flra).
  assert (Nba : b <> a).
  { intros X. apply (scale_nz t _ TN Z). rewrite <- (sub_add a (vscale t (vsub c a))), <- E, X. destruct a; apply vec_eq; cbn; ring. }
  assert (Nbc : b <> c).
  { intros X. assert (TN1 : 1 - t <> 0) by (intros Y; flra). apply (scale_nz (1 - t) _ TN1 Z).
    transitivity (vsub c b); [rewrite E; destruct a, c; apply vec_eq; cbn; ring|rewrite X; destruct c; apply vec_eq; cbn; ring]. }
  assert (OFF : forall g, In g (segs l) -> ~ on_segment g b).
  { intros g I O. assert (NE : g <> (a, c)).
    { intros ->. destruct (in_segs_in _ _ _ I) as [_ _]. apply in_segs in I. destruct I as [l1 [l2 X]].
      destruct l1 as [|y l1]; [cbn in X; rewrite X in Hc; cbn in Hc; congruence|]. rewrite X in Hc, ND. cbn in Hc. subst y.
      cbn in ND. apply NoDup_cons_iff in ND. apply (proj1 ND). apply in_or_app. right. right. now left. }
    destruct (S g (a, c) b) as [[X1 X2]|[X1 X2]]; auto; [rewrite CT; apply in_or_app; now left|..]; cbn in X2; congruence. }
  assert (NI : ~ In b l).
  { intros I. destruct (vertex_edge l b (a, c) Sl I AC B) as [X|X]; cbn in X; congruence. }
  assert (SUB1 : forall x, on_segment (a, b) x -> on_segment (a, c) x).
  { intros x [s [S0 [S1 X]]]. cbn [fst snd] in X. exists (s * t). cbn [fst snd]. split; [fnra|]. split; [fnra|]. rewrite X, E. destruct a, c; apply vec_eq; cbn; ring. }
  assert (SUB2 : forall x, on_segment (b, c) x -> on_segment (a, c) x).
  { intros x X. apply on_seg_sym. destruct X as [s [S0 [S1 X]]]. cbn [fst snd] in X. exists ((1 - s) * (1 - t)). cbn [fst snd]. split; [fnra|]. split; [fnra|]. rewrite X, E. destruct a, c; apply vec_eq; cbn; ring. }
  assert (A1 : forall x, on_segment (a, b) x -> on_segment (b, c) x -> x = b).
  { intros x [s [S0 [S1 X]]] [s' [S0' [S1' X']]]. cbn [fst snd] in X, X'. assert (Q : vscale (s * t) (vsub c a) = vscale (t + s' * (1 - t)) (vsub c a)).
    { transitivity (vsub x a); [rewrite X, E; destruct a, c; apply vec_eq; cbn; ring|rewrite X', E; destruct a, c; apply vec_eq; cbn; ring]. }
    assert (Q0 : s * t - (t + s' * (1 - t)) = 0).
    { destruct (feq_dec (s * t - (t + s' * (1 - t))) 0) as [|N]; auto. exfalso. apply (scale_nz _ _ N Z). destruct (vsub c a) as [u1 u2]. injection Q as Q1 Q2.
      apply vec_eq; cbn; [transitivity (s * t * u1 - (t + s' * (1 - t)) * u1)|transitivity (s * t * u2 - (t + s' * (1 - t)) * u2)]; try ring; [rewrite Q1|rewrite Q2]; ring. }
    assert (S' : s = 1).
    { assert (W : t * (1 - s) + s' * (1 - t) = 0) by (transitivity (- (s * t - (t + s' * (1 - t)))); [ring|rewrite Q0; ring]).
      assert (W1 : 0 <= t * (1 - s)) by fnra. assert (W2 : 0 <= s' * (1 - t)) by fnra. assert (W3 : t * (1 - s) = 0) by flra.
      apply fmul_eq0 in W3. destruct W3 as [W3|W3]; [congruence|flra]. }
    rewrite X, S'. destruct a, b; apply vec_eq; cbn; ring. }
  assert (NA : forall x, on_segment (b, c) x -> x <> a).
  { intros x X Y. subst x. apply (Nba). symmetry. apply A1; auto. apply on_seg_l. }
  assert (NC : forall x, on_segment (a, b) x -> x <> c).
  { intros x X Y. subst x. apply (Nbc). symmetry. apply A1; auto. apply on_seg_r. }
  assert (TCH : forall g x, In g (segs l) -> on_segment g x -> on_segment (a, c) x -> (x = fst g /\ x = c) \/ (x = snd g /\ x = a)).
  { intros g x I O1 O2. destruct (S g (a, c) x) as [[X1 X2]|[X1 X2]]; auto.
    - rewrite CT. apply in_or_app. now left.
    - intros ->. now apply (OFF (a, c)). }
  assert (Sb : simpleL (b :: l)).
  { split; [now constructor|]. split; [cbn; lia|]. intros e f x Ie If NE Oe Of. rewrite (cyc_path b l NL), Ha, Hc in Ie, If.
    assert (C3 : forall g, In g ((b, c) :: segs l ++ [(a, b)]) -> g = (b, c) \/ In g (segs l) \/ g = (a, b)).
    { intros g [<-|I]; auto. apply in_app_or in I. destruct I as [I|[<-|[]]]; auto. }
    apply C3 in Ie. apply C3 in If. destruct Ie as [->|[Ie| ->]], If as [->|[If| ->]]; try contradiction; cbn [fst snd].
    - destruct (TCH f x If Of (SUB2 x Oe)) as [[X1 X2]|[X1 X2]]; [right; auto|exfalso; now apply (NA x)].
    - left. assert (x = b) by now apply A1. auto.
    - destruct (TCH e x Ie Oe (SUB2 x Of)) as [[X1 X2]|[X1 X2]]; [left; auto|exfalso; now apply (NA x)].
    - apply S; auto; rewrite CT; apply in_or_app; now left.
    - destruct (TCH e x Ie Oe (SUB1 x Of)) as [[X1 X2]|[X1 X2]]; [exfalso; now apply (NC x)|right; auto].
    - right. assert (x = b) by now apply A1. auto.
    - destruct (TCH f x If Of (SUB1 x Oe)) as [[X1 X2]|[X1 X2]]; [exfalso; now apply (NC x)|left; auto]. }
  split; auto. split; [|split].
  - assert (AR : area (b :: l) = area l).
    { rewrite (area_clip b l a c) by auto. assert (O : orient a b c = 0) by (rewrite E; unfold orient, ccw; destruct a, c; cbn; ring). rewrite O. unfold fdiv. ring. }
    pose proof (index_area (b :: l) Sb) as I1. pose proof (index_area l Sl) as I2. rewrite AR in I1.
    destruct (index (b :: l)), (index l); auto; [symmetry; apply I2, I1; auto|apply I1, I2; auto].
  - intros x. rewrite (clip_par b l a c Sb Ha Hc), (crs_flat a b c x t) by auto. apply xorb_false_r.
  - intros x. rewrite (cyc_path b l NL), Ha, Hc, CT. split.
    + intros [g [[<-|I] O]]; [|apply in_app_or in I; destruct I as [I|[<-|[]]]].
      * exists (a, c). split; [apply in_or_app; right; now left|auto].
      * exists g. split; [apply in_or_app; now left|auto].
      * exists (a, c). split; [apply in_or_app; right; now left|auto].
    + intros [g [I O]]. apply in_app_or in I. destruct I as [I|[<-|[]]].
      * exists g. split; [right; apply in_or_app; now left|auto].
      * destruct (flat_split a b c x t T0 T1 E O) as [X|X]; [exists (a, b)|exists (b, c)]; (split; [|auto]); [right; apply in_or_app; right; now left|now left].
Qed.
End C.
