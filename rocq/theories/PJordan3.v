(** Parity of crossings: triangles, and cutting off an ear of a simple polygon. *)
From Coq Require Import List Bool ZArith Arith Lia Ring Field Permutation.
From Verif Require Import OField FMicromega PField MBase MEuclid SEuclid PEuclid MSim SSim MPoly PTurn PJordan PJordan2.
Import ListNotations.

Section T.
Context {K : OField}.
Add Field KFjt : (of_ft K).
Local Open Scope F_scope.
Implicit Types (a b c d p q u v w x y z : vec K) (l P : list (vec K)).

(** the closed triangle *)
Definition in_tri a b c x := 0 <= orient a b x /\ 0 <= orient b c x /\ 0 <= orient c a x.
Lemma orient_rot1 a b c : orient a b c = orient b c a.
Proof. unfold orient, ccw; destruct a, b, c; cbn; ring. Qed.
Lemma orient_swap a b c : orient a b c = - orient b a c.
Proof. unfold orient, ccw; destruct a, b, c; cbn; ring. Qed.
Lemma orient_sum a b c x : orient a b x + orient b c x + orient c a x = orient a b c.
Proof. unfold orient, ccw; destruct a, b, c, x; cbn; ring. Qed.
Lemma orient_l a b : orient a b a = 0.
Proof. unfold orient, ccw; destruct a, b; cbn; ring. Qed.
Lemma orient_r a b : orient a b b = 0.
Proof. unfold orient, ccw; destruct a, b; cbn; ring. Qed.
Lemma bary a b c x : vadd (vadd (vscale (orient b c x) (vsub a x)) (vscale (orient c a x) (vsub b x))) (vscale (orient a b x) (vsub c x)) = vzero.
Proof. unfold orient, ccw; destruct a, b, c, x; apply vec_eq; cbn; ring. Qed.
Lemma orient_seg a b u v (t : K) : orient a b (vadd u (vscale t (vsub v u))) = orient a b u + t * (orient a b v - orient a b u).
Proof. unfold orient, ccw; destruct a, b, u, v; cbn; ring. Qed.

Definition posz d := posb d = true \/ d = vzero.
Lemma posz_add c d : posb c = true -> posz d -> posb (vadd c d) = true.
Proof.
  intros A [B| ->]; [now apply posb_add|]. rewrite <- A. f_equal. destruct c; apply vec_eq; cbn; ring.
Qed.
Lemma posz_scale (t : K) d : 0 <= t -> posb d = true -> posz (vscale t d).
Proof.
  intros T D. destruct (feq_dec t 0) as [->|N]; [right; destruct d; apply vec_eq; cbn; ring|].
  left. rewrite posb_scale; auto. apply fneq_lt in N. destruct N; flra.
Qed.
(** points of the triangle are not smaller than all vertices *)
Lemma low_outside a b c x : 0 < orient a b c -> in_tri a b c x -> ltb x a = true -> ltb x b = true -> ltb x c = true -> False.
Proof.
  intros O [H1 [H2 H3]] A B C. unfold ltb in *. pose proof (orient_sum a b c x) as S. pose proof (bary a b c x) as Z.
  assert (N : forall u v w, posb u = true -> posz v -> posz w -> vadd (vadd u v) w = vzero -> False).
  { intros u v w U V W E. apply (posb_nz (vadd (vadd u v) w)); auto. apply posz_add; auto. now apply posz_add. }
  destruct (feq_dec (orient b c x) 0) as [E|E].
  - destruct (feq_dec (orient c a x) 0) as [E'|E'].
    + apply (N (vscale (orient a b x) (vsub c x)) (vscale (orient b c x) (vsub a x)) (vscale (orient c a x) (vsub b x))).
      * rewrite posb_scale; auto. flra.
      * now apply posz_scale.
      * now apply posz_scale.
      * rewrite <- Z. destruct a, b, c, x; apply vec_eq; cbn; ring.
    + apply (N (vscale (orient c a x) (vsub b x)) (vscale (orient b c x) (vsub a x)) (vscale (orient a b x) (vsub c x))).
      * rewrite posb_scale; auto. apply fneq_lt in E'; destruct E'; flra.
      * now apply posz_scale.
      * now apply posz_scale.
      * rewrite <- Z. destruct a, b, c, x; apply vec_eq; cbn; ring.
  - apply (N (vscale (orient b c x) (vsub a x)) (vscale (orient c a x) (vsub b x)) (vscale (orient a b x) (vsub c x))); auto.
    + rewrite posb_scale; auto. apply fneq_lt in E; destruct E; flra.
    + now apply posz_scale.
    + now apply posz_scale.
Qed.

Lemma apex_up x y z d : 0 < orient x y z -> ltb x d = true -> ltb d y = true -> ltb d z = true ->
  xorb (0 <? orient x y d) (0 <? orient x z d) = true -> in_tri x y z d.
Proof.
  intros A X Y Z H. destruct (0 <? orient x y d) eqn:E1, (0 <? orient x z d) eqn:E2; try discriminate H; clear H.
  - assert (E3 : 0 <= orient z x d) by (rewrite orient_swap; apply fltb_ge in E2; flra). change (0 < orient x y d) in E1.
    split; [flra|]. split; [|auto]. destruct (orient y z d <? 0) eqn:F; [exfalso|exact F]. change (orient y z d < 0) in F.
    pose proof (bary x y z d) as B. unfold ltb in *.
    apply (posb_nz (vadd (vadd (vscale (orient x y d) (vsub z d)) (vscale (- orient y z d) (vsub d x))) (vscale (orient z x d) (vsub y d)))).
    + apply posz_add; [|now apply posz_scale]. apply posb_add; rewrite posb_scale; auto. flra.
    + rewrite <- B. destruct x, y, z, d; apply vec_eq; cbn; ring.
  - exfalso. apply fltb_ge in E1. change (0 < orient x z d) in E2.
    assert (L1 : ltb x y = true) by now apply (ltb_trans _ d). assert (L2 : ltb x z = true) by now apply (ltb_trans _ d).
    unfold ltb in *. assert (0 < ccw (vsub z x) (vsub y x)).
    { apply (slope_tr1 _ (vsub d x)); auto. rewrite ccw_anti. change (0 <= - orient x y d). flra. }
    change (0 < orient x z y) in H. rewrite (orient_rot1 x z y), (orient_swap z y x), <- (orient_rot1 x y z) in H. flra.
Qed.
Lemma apex_down x y z d : 0 < orient x y z -> ltb d x = true -> ltb y d = true -> ltb z d = true ->
  xorb (orient x y d <? 0) (orient x z d <? 0) = true -> in_tri x y z d.
Proof.
  intros A X Y Z H. destruct (orient x y d <? 0) eqn:E1, (orient x z d <? 0) eqn:E2; try discriminate H; clear H.
  - exfalso. apply fltb_ge in E2. change (orient x y d < 0) in E1.
    assert (L1 : ltb y x = true) by now apply (ltb_trans _ d). assert (L2 : ltb z x = true) by now apply (ltb_trans _ d).
    unfold ltb in *. assert (0 < ccw (vsub x z) (vsub x y)).
    { apply (slope_tr2 _ (vsub x d)); auto.
      - replace (ccw (vsub x z) (vsub x d)) with (orient x z d) by (unfold orient, ccw; destruct x, z, d; cbn; ring). auto.
      - replace (ccw (vsub x d) (vsub x y)) with (- orient x y d) by (unfold orient, ccw; destruct x, y, d; cbn; ring). flra. }
    replace (ccw (vsub x z) (vsub x y)) with (- orient x y z) in H by (unfold orient, ccw; destruct x, y, z; cbn; ring). flra.
  - assert (E3 : 0 < orient z x d) by (rewrite orient_swap; change (orient x z d < 0) in E2; flra). apply fltb_ge in E1.
    split; [auto|]. split; [|flra]. destruct (orient y z d <? 0) eqn:F; [exfalso|exact F]. change (orient y z d < 0) in F.
    pose proof (bary x y z d) as B. unfold ltb in *.
    apply (posb_nz (vadd (vadd (vscale (orient z x d) (vsub d y)) (vscale (- orient y z d) (vsub x d))) (vscale (orient x y d) (vsub d z)))).
    + apply posz_add; [|now apply posz_scale]. apply posb_add; rewrite posb_scale; auto. flra.
    + transitivity (vopp (vzero : vec K)); [|apply vec_eq; cbn; ring]. rewrite <- B. destruct x, y, z, d; apply vec_eq; cbn; ring.
Qed.
Lemma in_tri_rot a b c x : in_tri a b c x -> in_tri b c a x.
Proof. unfold in_tri. tauto. Qed.
Lemma tri_neq a b c x : 0 < orient a b c -> ~ in_tri a b c x -> x <> a /\ x <> b /\ x <> c.
Proof.
  intros O N. pose proof (orient_rot1 a b c). pose proof (orient_rot1 b c a).
  repeat split; intros ->; apply N; unfold in_tri; rewrite ?orient_l, ?orient_r; repeat split; flra.
Qed.
(** a point outside a triangle has even parity *)
Lemma tri_even a b c d : 0 < orient a b c -> ~ in_tri a b c d -> xorb (crs (a, b) d) (xorb (crs (b, c) d) (crs (c, a) d)) = false.
Proof.
  intros O N. destruct (tri_neq _ _ _ _ O N) as [Na [Nb Nc]].
  assert (O1 : 0 < orient b c a) by now rewrite <- orient_rot1. assert (O2 : 0 < orient c a b) by now rewrite <- orient_rot1.
  assert (N1 : ~ in_tri b c a d) by (intros X; apply N; unfold in_tri in *; tauto).
  assert (N2 : ~ in_tri c a b d) by (intros X; apply N; unfold in_tri in *; tauto).
  pose proof (ltb_swap d a Na) as Ea. pose proof (ltb_swap d b Nb) as Eb. pose proof (ltb_swap d c Nc) as Ec.
  assert (U : forall x y z, 0 < orient x y z -> ~ in_tri x y z d -> ltb x d = true -> ltb d y = true -> ltb d z = true ->
     xorb (crs (x, y) d) (crs (z, x) d) = false).
  { intros x y z A B X Y Z. destruct (xorb (crs (x, y) d) (crs (z, x) d)) eqn:E; auto. exfalso. apply B. apply apex_up; auto.
    rewrite <- E, (crs_sym z x). unfold crs. cbn [fst snd]. rewrite X, (ltb_asym _ _ Y), (ltb_asym _ _ Z), (ltb_trans _ _ _ X Y), (ltb_trans _ _ _ X Z). reflexivity. }
  assert (V : forall x y z, 0 < orient x y z -> ~ in_tri x y z d -> ltb d x = true -> ltb y d = true -> ltb z d = true ->
     xorb (crs (x, y) d) (crs (z, x) d) = false).
  { intros x y z A B X Y Z. destruct (xorb (crs (x, y) d) (crs (z, x) d)) eqn:E; auto. exfalso. apply B. apply apex_down; auto.
    rewrite <- E, (crs_sym z x). unfold crs. cbn [fst snd]. rewrite Y, Z, (ltb_asym _ _ X).
    pose proof (ltb_trans _ _ _ Y X) as T1. pose proof (ltb_trans _ _ _ Z X) as T2. rewrite (ltb_asym _ _ T1), (ltb_asym _ _ T2).
    cbn [xorb andb]. rewrite (orient_swap y x d), (orient_swap z x d). f_equal; apply eq_true_iff_eq; split; intros; flra. }
  assert (F : forall x y, ltb x d = ltb y d -> crs (x, y) d = false).
  { intros x y E. unfold crs. cbn [fst snd]. rewrite E. now destruct (ltb y d). }
  destruct (ltb d a) eqn:La, (ltb d b) eqn:Lb, (ltb d c) eqn:Lc; cbn [negb] in *.
  - now rewrite !F by congruence.
  - rewrite (F a b) by congruence. rewrite xorb_false_l, xorb_comm. apply (U c a b); auto.
  - rewrite (F c a) by congruence. rewrite xorb_false_r, xorb_comm. apply (U b c a); auto.
  - rewrite (F b c) by congruence. rewrite xorb_false_l. apply (V a b c); auto.
  - rewrite (F b c) by congruence. rewrite xorb_false_l. apply (U a b c); auto.
  - rewrite (F c a) by congruence. rewrite xorb_false_r, xorb_comm. apply (V b c a); auto.
  - rewrite (F a b) by congruence. rewrite xorb_false_l, xorb_comm. apply (V c a b); auto.
  - now rewrite !F by congruence.
Qed.
(** points of the triangle on the line of a side *)
Lemma tri_edge a b c x : 0 < orient a b c -> orient a b x = 0 -> 0 <= orient b c x -> 0 <= orient c a x -> on_segment (a, b) x.
Proof.
  intros O E1 E2 E3. pose proof (orient_sum a b c x) as S. assert (N : orient a b c <> 0) by (intros X; flra).
  exists (orient c a x / orient a b c). split; [apply fdiv_nonneg; flra|]. split; [apply fdiv_le; flra|].
  pose proof (bary a b c x) as B. rewrite E1 in B, S. apply vec_eq; cbn [fst snd vadd vscale vsub]; (apply (fcancel _ _ (orient a b c)); [auto|]).
  - pose proof (f_equal fst B) as B1. cbn in B1.
    transitivity (fst a * orient a b c + orient c a x * (fst b - fst a)); [rewrite <- S; flra|field; auto].
  - pose proof (f_equal snd B) as B1. cbn in B1.
    transitivity (snd a * orient a b c + orient c a x * (snd b - snd a)); [rewrite <- S; flra|field; auto].
Qed.
Lemma tri_convex a b c u v x : in_tri a b c u -> in_tri a b c v -> on_segment (u, v) x -> in_tri a b c x.
Proof.
  intros [A1 [A2 A3]] [B1 [B2 B3]] [t [T0 [T1 ->]]]. cbn [fst snd]. unfold in_tri. rewrite !orient_seg. repeat split; fnra.
Qed.
Lemma seg_in_seg u v x y : on_segment (u, v) x -> on_segment (x, v) y -> on_segment (u, v) y.
Proof.
  intros [t [T0 [T1 ->]]] [s [S0 [S1 ->]]]. cbn [fst snd]. exists (t + s * (1 - t)). cbn [fst snd]. split; [fnra|]. split; [fnra|].
  destruct u, v; apply vec_eq; cbn; ring.
Qed.
Lemma first_exit (x1 x2 u1 u2 : K) : 0 < x1 -> 0 < x2 -> u1 < 0 \/ u2 < 0 ->
  exists t, 0 < t /\ t <= 1 /\ 0 <= x1 + t * (u1 - x1) /\ 0 <= x2 + t * (u2 - x2) /\ (x1 + t * (u1 - x1) = 0 \/ x2 + t * (u2 - x2) = 0).
Proof.
  intros X1 X2.
  assert (W : forall x1 x2 u1 u2 : K, 0 < x1 -> 0 < x2 -> u1 < 0 -> x1 * (u2 - x2) <= x2 * (u1 - x1) \/ 0 <= x2 + (x1 / (x1 - u1)) * (u2 - x2)).
  { intros y1 y2 v1 v2 Y1 Y2 V1. destruct (fleb (y1 * (v2 - y2)) (y2 * (v1 - y1))) eqn:E.
    - left. unfold fleb in E. now apply negb_true_iff in E.
    - right. apply fleb_false in E. assert (N : y1 - v1 <> 0) by (intros X; flra).
      replace (y2 + y1 / (y1 - v1) * (v2 - y2)) with ((y2 * (y1 - v1) + y1 * (v2 - y2)) / (y1 - v1)) by (field; auto).
      apply fdiv_nonneg; flra. }
  assert (G : forall x1 x2 u1 u2 : K, 0 < x1 -> 0 < x2 -> u1 < 0 -> 0 <= x2 + (x1 / (x1 - u1)) * (u2 - x2) ->
    exists t, 0 < t /\ t <= 1 /\ 0 <= x1 + t * (u1 - x1) /\ 0 <= x2 + t * (u2 - x2) /\ x1 + t * (u1 - x1) = 0).
  { intros y1 y2 v1 v2 Y1 Y2 V1 H. assert (N : y1 - v1 <> 0) by (intros X; flra). exists (y1 / (y1 - v1)).
    assert (E : y1 + y1 / (y1 - v1) * (v1 - y1) = 0) by (field; auto).
    split; [apply fdiv_pos; flra|]. split; [apply fdiv_le; flra|]. rewrite E. split; [flra|]. split; [auto|reflexivity]. }
  assert (M : forall x1 x2 u1 u2 : K, 0 < x1 -> 0 < x2 -> u1 < 0 ->
    exists t, 0 < t /\ t <= 1 /\ 0 <= x1 + t * (u1 - x1) /\ 0 <= x2 + t * (u2 - x2) /\ (x1 + t * (u1 - x1) = 0 \/ x2 + t * (u2 - x2) = 0)).
  { intros y1 y2 v1 v2 Y1 Y2 V1. destruct (W y1 y2 v1 v2 Y1 Y2 V1) as [H|H].
    - assert (V2 : v2 < 0) by fnra. assert (N : y2 - v2 <> 0) by (intros X; flra).
      destruct (G y2 y1 v2 v1) as [t [A [B [C [D E]]]]]; auto.
      + replace (y1 + y2 / (y2 - v2) * (v1 - y1)) with ((y1 * (y2 - v2) + y2 * (v1 - y1)) / (y2 - v2)) by (field; auto).
        apply fdiv_nonneg; flra.
      + exists t. tauto.
    - destruct (G y1 y2 v1 v2) as [t [A [B [C [D E]]]]]; auto. exists t. tauto. }
  intros [U|U]; [now apply M|]. destruct (M x2 x1 u2 u1) as [t H]; auto. exists t. tauto.
Qed.
Lemma exit a b c x u : 0 < orient a b c -> 0 < orient a b x -> 0 < orient b c x -> 0 <= orient c a x ->
  orient c a x <= orient c a u -> 0 < orient c a u -> ~ in_tri a b c u ->
  exists y, on_segment (x, u) y /\ 0 < orient c a y /\ (on_segment (a, b) y \/ on_segment (b, c) y).
Proof.
  intros O H1 H2 H3 H4 H5 N.
  assert (E : orient a b u < 0 \/ orient b c u < 0).
  { destruct (orient a b u <? 0) eqn:E1; [left; exact E1|]. destruct (orient b c u <? 0) eqn:E2; [right; exact E2|].
    exfalso. apply N. repeat split; auto. flra. }
  destruct (first_exit _ _ _ _ H1 H2 E) as [t [T0 [T1 [A [B C]]]]].
  exists (vadd x (vscale t (vsub u x))). split; [exists t; repeat split; auto; flra|].
  assert (D : 0 < orient c a (vadd x (vscale t (vsub u x)))).
  { rewrite orient_seg. destruct (feq_dec (orient c a x) 0) as [Z|Z]; [rewrite Z; fnra|apply fneq_lt in Z; destruct Z; fnra]. }
  split; auto. rewrite <- orient_seg in A, B, C. rewrite <- orient_seg in C.
  destruct C as [C|C]; [left|right].
  - apply (tri_edge a b c); auto. flra.
  - apply (tri_edge b c a); auto; [now rewrite <- orient_rot1|flra].
Qed.

(** vertices on edges *)
Lemma cyc_pred P u u' v : NoDup P -> (2 <= length P)%nat -> In (u, v) (cyc P) -> In (u', v) (cyc P) -> u = u'.
Proof.
  intros ND N I J. apply in_cyc in I; auto. destruct I as [r R].
  assert (R' : rot P (v :: r ++ [u])).
  { destruct R as [l1 [l2 [-> E]]]. destruct l2 as [|a l2].
    - exists [u], (v :: r). cbn in E. rewrite app_nil_r. split; auto.
    - injection E as <- E. exists (l1 ++ [u]), l2. split; [now rewrite <- app_assoc|]. rewrite app_assoc, <- E. reflexivity. }
  apply (rot_cyc_in _ _ _ R') in J. pose proof (rot_nodup _ _ R' ND) as ND'.
  rewrite cyc_path in J by (destruct r; discriminate). destruct J as [[= <- E]|J].
  - exfalso. apply NoDup_cons_iff in ND'. apply (proj1 ND'). rewrite <- E. destruct r; cbn; auto.
  - apply in_app_or in J. destruct J as [J|[[= <-]|[]]]; [|now rewrite last_last].
    exfalso. apply NoDup_cons_iff in ND'. apply (proj1 ND'). now apply in_segs_in in J.
Qed.
Lemma has_next P x : (2 <= length P)%nat -> In x P -> exists y, In (x, y) (cyc P).
Proof.
  intros N I. apply rot_to in I. destruct I as [r R]. destruct r as [|y r]; [apply rot_length in R; cbn in R; lia|].
  exists y. apply (rot_cyc_in _ _ _ R). now left.
Qed.
Lemma vertex_edge P x g : simpleL P -> In x P -> In g (cyc P) -> on_segment g x -> x = fst g \/ x = snd g.
Proof.
  intros S I G O. destruct (has_next P x) as [y Y]; auto; [destruct S; lia|].
  destruct g as [u v]. destruct (vec_dec u x) as [->|N]; [now left|]. right. cbn.
  destruct S as [_ [_ S]]. destruct (S (u, v) (x, y) x) as [[A B]|[A B]]; auto; try (cbn in *; congruence). apply on_seg_l.
Qed.

(** a corner [last l b], [b], [hd b l] with a left turn *)
Section Corner.
Context (b : vec K) (l : list (vec K)) (a c : vec K).
Hypothesis Sb : simpleL (b :: l).
Hypothesis Ha : last l b = a.
Hypothesis Hc : hd b l = c.
Hypothesis Ob : 0 < orient a b c.

Lemma c_ab : In (a, b) (cyc (b :: l)) /\ In (b, c) (cyc (b :: l)) /\ a <> b /\ c <> b /\ a <> c /\ l <> [] /\ ~ In b l /\ In a l /\ In c l.
Proof.
  destruct (simple_corner _ _ Sb) as [w [z [<- [<- [X1 [X2 [X3 [X4 [X5 [X6 [X7 [X8 X9]]]]]]]]]]]].
  rewrite Hc, Ha in *. repeat split; auto.
Qed.
Lemma c_D : orient c a b = orient a b c /\ orient c a a = 0 /\ orient c a c = 0.
Proof. rewrite orient_l, orient_r, (orient_rot1 c a b). auto. Qed.
(** the other edges only touch the two sides in [a] and [c] *)
Lemma no_touch g y : In g (segs l) -> on_segment g y -> 0 < orient c a y -> on_segment (a, b) y \/ on_segment (b, c) y -> False.
Proof.
  intros I G D H. destruct c_ab as [A [C [Nab [Ncb [Nac [NL [NI [Ia Ic]]]]]]]]. pose proof c_D as [_ [Da Dc]]. destruct g as [u v].
  pose proof (in_segs_in _ _ _ I) as [Iu Iv]. pose proof (segs_cyc b l _ NL I) as IG.
  pose proof Sb as [_ [_ S]]. destruct H as [H|H].
  - destruct (S (a, b) (u, v) y) as [[E E']|[E E']]; auto; try (cbn in *; congruence).
    cbn in E. subst y. flra.
  - destruct (S (b, c) (u, v) y) as [[E E']|[E E']]; auto; try (cbn in *; congruence).
    cbn in E. subst y. flra.
Qed.
(** an edge that enters the triangle has an end point in it *)
Lemma reach g x : In g (segs l) -> on_segment g x -> in_tri a b c x -> 0 < orient c a x ->
  exists e, In e l /\ (e = fst g \/ e = snd g) /\ orient c a x <= orient c a e /\ in_tri a b c e.
Proof.
  intros I G [T1 [T2 T3]] D. destruct g as [u v]. pose proof (in_segs_in _ _ _ I) as [Iu Iv]. cbn [fst snd].
  assert (H1 : 0 < orient a b x).
  { destruct (feq_dec (orient a b x) 0) as [E|E]; [|apply fneq_lt in E; destruct E; flra].
    exfalso. apply (no_touch (u, v) x); auto. left. now apply (tri_edge a b c). }
  assert (H2 : 0 < orient b c x).
  { destruct (feq_dec (orient b c x) 0) as [E|E]; [|apply fneq_lt in E; destruct E; flra].
    exfalso. apply (no_touch (u, v) x); auto. right. apply (tri_edge b c a); auto. now rewrite <- orient_rot1. }
  assert (W : forall e, on_segment (e, x) e -> (forall y, on_segment (x, e) y -> on_segment (u, v) y) -> In e l -> orient c a x <= orient c a e -> in_tri a b c e).
  { intros e _ SS Ie Le.
    assert (Dec : in_tri a b c e \/ ~ in_tri a b c e).
    { unfold in_tri, fle. destruct (orient a b e <? 0), (orient b c e <? 0), (orient c a e <? 0); intuition congruence. }
    destruct Dec as [Y|Y]; auto. exfalso.
    destruct (exit a b c x e) as [y [Y1 [Y2 Y3]]]; auto; [flra|]. apply (no_touch (u, v) y); auto. }
  assert (M : orient c a x <= orient c a u \/ orient c a x <= orient c a v).
  { destruct G as [t [G0 [G1 ->]]]. cbn [fst snd]. rewrite orient_seg.
    destruct (orient c a u <? orient c a v) eqn:E; [right; change (orient c a u < orient c a v) in E; fnra|left; apply fltb_ge in E; fnra]. }
  destruct M as [M|M].
  - exists u. split; [auto|]. split; [auto|]. split; [auto|]. apply W; auto; [apply on_seg_l|].
    intros y Y. apply on_seg_sym. apply (seg_in_seg v u x y); [now apply on_seg_sym|auto].
  - exists v. split; [auto|]. split; [auto|]. split; [auto|]. apply W; auto; [apply on_seg_l|].
    intros y Y. now apply (seg_in_seg u v x y).
Qed.

Definition empty_corner := forall x, In x l -> in_tri a b c x -> x = a \/ x = c.
Lemma ear_region : empty_corner -> forall g x, In g (segs l) -> on_segment g x -> in_tri a b c x -> orient c a x = 0.
Proof.
  intros EM g x I G T. destruct (feq_dec (orient c a x) 0) as [E|E]; auto. exfalso.
  assert (D : 0 < orient c a x) by (apply fneq_lt in E; destruct T as [_ [_ T]]; destruct E; flra).
  destruct (reach g x I G T D) as [e [Ie [_ [Le Te]]]]. pose proof c_D as [_ [Da Dc]].
  destruct (EM e Ie Te) as [-> | ->]; flra.
Qed.

(** cutting off an ear *)
Lemma clip_touch : empty_corner -> (3 <= length l)%nat -> forall u v x, In (u, v) (segs l) -> on_segment (u, v) x -> on_segment (a, c) x ->
  (x = u /\ x = c) \/ (x = v /\ x = a).
Proof.
  intros EM N u v x I G X. destruct c_ab as [A [C [Nab [Ncb [Nac [NL [NI [Ia Ic]]]]]]]]. pose proof c_D as [Db [Da Dc]].
  pose proof (in_segs_in _ _ _ I) as [Iu Iv]. pose proof (segs_cyc b l _ NL I) as IG. pose proof Sb as [ND [_ S]].
  assert (Ta : on_segment (u, v) a -> a = v).
  { intros H. destruct (S (a, b) (u, v) a) as [[E E']|[E E']]; auto; try (cbn in *; congruence). apply on_seg_l. }
  assert (Tc : on_segment (u, v) c -> c = u).
  { intros H. destruct (S (b, c) (u, v) c) as [[E E']|[E E']]; auto; try (cbn in *; congruence). apply on_seg_r. }
  destruct (vec_dec x a) as [->|Xa]; [right; auto|]. destruct (vec_dec x c) as [->|Xc]; [left; auto|]. exfalso.
  destruct X as [t [T0 [T1 Ex]]]. cbn [fst snd] in Ex.
  assert (t <> 0) as N0 by (intros ->; apply Xa; rewrite Ex; destruct a, c; apply vec_eq; cbn; ring).
  assert (t <> 1) as N1 by (intros ->; apply Xc; rewrite Ex; destruct a, c; apply vec_eq; cbn; ring).
  assert (P0 : 0 < t) by (apply fneq_lt in N0; destruct N0; flra). assert (P1 : t < 1) by (apply fneq_lt in N1; destruct N1; flra).
  assert (Bca : orient b c a = orient a b c) by (now rewrite <- orient_rot1).
  assert (H1 : 0 < orient a b x) by (rewrite Ex, orient_seg, orient_l; fnra).
  assert (H2 : 0 < orient b c x) by (rewrite Ex, orient_seg, orient_r, Bca; fnra).
  assert (H3 : orient c a x = 0) by (rewrite Ex, orient_seg, orient_l, orient_r; ring).
  assert (Hl : forall e, In e l -> in_tri a b c e -> orient a b e = 0 \/ orient b c e = 0).
  { intros e Ie Te. destruct (EM e Ie Te) as [-> | ->]; [left; apply orient_l|right; apply orient_r]. }
  assert (W : forall e, (forall y, on_segment (x, e) y -> on_segment (u, v) y) -> In e l -> orient c a e <= 0).
  { intros e SS Ie. destruct (0 <? orient c a e) eqn:E; [exfalso|exact E]. change (0 < orient c a e) in E.
    destruct (exit a b c x e) as [y [Y1 [Y2 Y3]]]; auto; try flra.
    - intros T. destruct (EM e Ie T) as [-> | ->]; flra.
    - apply (no_touch (u, v) y); auto. }
  assert (Wu : orient c a u <= 0).
  { apply W; auto. intros y Y. apply on_seg_sym. apply (seg_in_seg v u x y); [now apply on_seg_sym|auto]. }
  assert (Wv : orient c a v <= 0).
  { apply W; auto. intros y Y. now apply (seg_in_seg u v x y). }
  destruct G as [s [S0 [S1 Es]]]. cbn [fst snd] in Es.
  assert (Ds : orient c a u + s * (orient c a v - orient c a u) = 0) by (rewrite <- orient_seg, <- Es; auto).
  assert (Hx : in_tri a b c x) by (unfold in_tri; repeat split; flra).
  assert (s <> 0) as M0.
  { intros ->. assert (Eu : x = u) by (rewrite Es; destruct u, v; apply vec_eq; cbn; ring). rewrite Eu in Hx, H1, H2. destruct (Hl u Iu Hx); flra. }
  assert (s <> 1) as M1.
  { intros ->. assert (Eu : x = v) by (rewrite Es; destruct u, v; apply vec_eq; cbn; ring). rewrite Eu in Hx, H1, H2. destruct (Hl v Iv Hx); flra. }
  assert (Q0 : 0 < s) by (apply fneq_lt in M0; destruct M0; flra). assert (Q1 : s < 1) by (apply fneq_lt in M1; destruct M1; flra).
  assert (Du : orient c a u = 0) by fnra. assert (Dv : orient c a v = 0) by fnra.
  (* everything is on the line *)
  assert (NA : orient a b c <> 0) by (intros Y; flra).
  assert (Su := orient_sum a b c u). assert (Sv := orient_sum a b c v). assert (Sx := orient_sum a b c x).
  assert (Ou : orient a b u <= 0 \/ orient b c u <= 0).
  { destruct (0 <? orient a b u) eqn:E1; [|left; exact E1]. destruct (0 <? orient b c u) eqn:E2; [|right; exact E2].
    exfalso. assert (Te : in_tri a b c u) by (unfold in_tri; repeat split; flra). destruct (Hl u Iu Te); flra. }
  assert (Ov : orient a b v <= 0 \/ orient b c v <= 0).
  { destruct (0 <? orient a b v) eqn:E1; [|left; exact E1]. destruct (0 <? orient b c v) eqn:E2; [|right; exact E2].
    exfalso. assert (Te : in_tri a b c v) by (unfold in_tri; repeat split; flra). destruct (Hl v Iv Te); flra. }
  assert (Hs : orient a b x = orient a b u + s * (orient a b v - orient a b u)) by (rewrite <- orient_seg, <- Es; auto).
  assert (Hs' : orient b c x = orient b c u + s * (orient b c v - orient b c u)) by (rewrite <- orient_seg, <- Es; auto).
  assert (L : forall k : K, orient c a (vadd u (vscale k (vsub v u))) = 0) by (intros k; rewrite orient_seg, Du, Dv; ring).
  assert (Eq : forall p q, orient c a p = 0 -> orient c a q = 0 -> orient a b p = orient a b q -> p = q).
  { intros p q E1 E2 E3. assert (Sp := orient_sum a b c p). assert (Sq := orient_sum a b c q). assert (Bp := bary a b c p). assert (Bq := bary a b c q).
    assert (E4 : orient b c p = orient b c q) by flra. rewrite E1 in Bp. rewrite E2, <- E3, <- E4 in Bq.
    apply vec_eq; apply (fcancel _ _ (orient a b c)); auto; rewrite <- Sp, E1.
    - pose proof (f_equal fst Bp) as X1. pose proof (f_equal fst Bq) as X2. cbn in X1, X2. flra.
    - pose proof (f_equal snd Bp) as X1. pose proof (f_equal snd Bq) as X2. cbn in X1, X2. flra. }
  assert (On : forall p, orient c a p = 0 -> orient a b u <= orient a b p /\ orient a b p <= orient a b v \/ orient a b v <= orient a b p /\ orient a b p <= orient a b u ->
     orient a b u <> orient a b v -> on_segment (u, v) p).
  { intros p Ep Bp Nuv. assert (Nz : orient a b v - orient a b u <> 0) by (intros Y; apply Nuv; flra).
    exists ((orient a b p - orient a b u) / (orient a b v - orient a b u)). cbn [fst snd].
    assert (0 <= (orient a b p - orient a b u) / (orient a b v - orient a b u) /\ (orient a b p - orient a b u) / (orient a b v - orient a b u) <= 1) as [Z1 Z2].
    { set (k := (orient a b p - orient a b u) / (orient a b v - orient a b u)).
      assert (Ek : k * (orient a b v - orient a b u) = orient a b p - orient a b u) by (unfold k; field; auto). clearbody k.
      apply fneq_lt in Nz. destruct Nz, Bp as [[B1 B2]|[B1 B2]]; split; fnra. }
    split; auto. split; auto. apply Eq; auto. rewrite orient_seg. field. auto. }
  assert (Ub : orient a b b = 0) by apply orient_r. assert (Ua : orient a b a = 0) by apply orient_l.
  assert (Nuv : orient a b u <> orient a b v).
  { intros Y. rewrite Y in Hs. assert (orient a b x = orient a b v) by flra. destruct Ov; flra. }
  assert (Oa : on_segment (u, v) a).
  { apply On; auto. rewrite Ua. destruct Ou as [Ou|Ou], Ov as [Ov|Ov]; try flra; try (left; split; flra); try (right; split; flra); fnra. }
  assert (Oc : on_segment (u, v) c).
  { apply On; auto. destruct Ou as [Ou|Ou], Ov as [Ov|Ov]; try flra; try (left; split; flra); try (right; split; flra); fnra. }
  pose proof (Ta Oa) as Ea. pose proof (Tc Oc) as Ec. rewrite <- Ea, <- Ec in I.
  destruct l as [|c' [|y m]]; cbn in N; try lia. cbn in Hc. subst c'.
  assert (y = a).
  { apply (cyc_succ (b :: c :: y :: m) c); auto; [cbn; lia|right; now left|]. apply segs_cyc; [discriminate|exact I]. }
  subst y. rewrite last_cons in Ha. rewrite last_cons in Ha. destruct m as [|m0 m]; [cbn in N; lia|].
  apply NoDup_cons_iff in ND. destruct ND as [_ ND]. apply NoDup_cons_iff in ND. destruct ND as [_ ND]. apply NoDup_cons_iff in ND. apply (proj1 ND).
  destruct (exists_last (l := m0 :: m)) as [r [z Er]]; [discriminate|]. rewrite Er, last_last in Ha. subst z. rewrite Er. apply in_or_app. right. now left.
Qed.
Lemma cyc_tail : cyc l = segs l ++ [(a, c)].
Proof.
  destruct c_ab as [_ [_ [_ [_ [_ [NL _]]]]]]. destruct l as [|c' m]; [contradiction|]. cbn in Hc. subst c'.
  destruct (exists_last (l := c :: m)) as [r [z E]]; [discriminate|].
  unfold cyc. rewrite E at 1. rewrite <- app_assoc. cbn [app]. rewrite segs_snoc, <- E. rewrite E, last_last in Ha. now subst z.
Qed.
Lemma clip_simple : empty_corner -> (3 <= length l)%nat -> simpleL l.
Proof.
  intros EM N. pose proof Sb as [ND [_ S]]. destruct c_ab as [A [C [Nab [Ncb [Nac [NL [NI [Ia Ic]]]]]]]].
  split; [now apply NoDup_cons_iff in ND|]. split; auto. intros e f x E F NE Xe Xf. rewrite cyc_tail in E, F.
  apply in_app_or in E, F. destruct E as [E|[<-|[]]], F as [F|[<-|[]]].
  - apply S; auto; now apply segs_cyc.
  - destruct e as [u v]. destruct (clip_touch EM N u v x) as [[Y1 Y2]|[Y1 Y2]]; auto.
  - destruct f as [u v]. destruct (clip_touch EM N u v x) as [[Y1 Y2]|[Y1 Y2]]; auto.
  - contradiction.
Qed.
Lemma clip_par q : par q (cyc (b :: l)) = xorb (par q (cyc l)) (xorb (crs (a, b) q) (xorb (crs (b, c) q) (crs (c, a) q))).
Proof.
  destruct c_ab as [A [C [Nab [Ncb [Nac [NL [NI [Ia Ic]]]]]]]]. rewrite cyc_tail, cyc_path by auto. rewrite Ha, Hc. cbn [par]. rewrite !par_app. cbn [par].
  rewrite (crs_sym c a). destruct (crs (b, c) q), (par q (segs l)), (crs (a, b) q), (crs (a, c) q); reflexivity.
Qed.
Lemma clip_index : empty_corner -> (3 <= length l)%nat -> index l = index (b :: l).
Proof.
  intros EM N. pose proof (clip_simple EM N) as Sl. assert (EM' := EM). unfold empty_corner in EM'. destruct c_ab as [A [C [Nab [Ncb [Nac [NL [NI [Ia Ic]]]]]]]]. pose proof Sb as [ND _].
  destruct l as [|c' [|d m]] eqn:El; cbn in N; try lia. cbn in Hc. subst c'.
  destruct m as [|m0 m] using rev_ind; [cbn in N; lia|clear IHm]. rewrite !last_cons, last_last in Ha. subst m0.
  assert (Nd : d <> a /\ d <> b /\ d <> c).
  { apply NoDup_cons_iff in ND. destruct ND as [NDb ND]. apply NoDup_cons_iff in ND. destruct ND as [NDc ND]. apply NoDup_cons_iff in ND. destruct ND as [NDd ND].
    repeat split; intros ->; [apply NDd|apply NDb|apply NDc]; cbn; auto. apply in_or_app. right. now left. }
  rewrite (index_rot (c :: d :: m ++ [a]) (d :: m ++ [a; c])); auto.
  2:{ exists [c], (d :: m ++ [a]). split; auto. cbn. now rewrite <- app_assoc. }
  rewrite (index_rot (b :: c :: d :: m ++ [a]) (d :: m ++ [a; b; c])); auto.
  2:{ exists [b; c], (d :: m ++ [a]). split; auto. cbn. now rewrite <- app_assoc. }
  unfold index. replace (m ++ [a; c]) with ((m ++ [a]) ++ [c]) by now rewrite <- app_assoc.
  replace (m ++ [a; b; c]) with ((m ++ [a; b]) ++ [c]) by now rewrite <- app_assoc. rewrite !last_last.
  replace (hd d ((m ++ [a; b]) ++ [c])) with (hd d ((m ++ [a]) ++ [c])) by (destruct m; reflexivity). f_equal.
  replace ((m ++ [a; b]) ++ [c]) with ((m ++ [a]) ++ [b; c]) by now rewrite <- !app_assoc.
  rewrite segs_snoc. replace ((m ++ [a]) ++ [b]) with (m ++ [a; b]) by now rewrite <- app_assoc.
  replace ((m ++ [a]) ++ [c]) with (m ++ [a; c]) by now rewrite <- app_assoc. rewrite !segs_snoc, !par_app. cbn [par]. rewrite !xorb_false_r.
  assert (TE : xorb (crs (a, b) d) (xorb (crs (b, c) d) (crs (c, a) d)) = false).
  { apply tri_even; auto. intros T. destruct (EM' d (or_intror (or_introl eq_refl)) T); tauto. }
  rewrite (crs_sym c a) in TE. destruct (par d (segs (m ++ [a]))), (crs (a, b) d), (crs (b, c) d), (crs (a, c) d); cbn in *; congruence.
Qed.
End Corner.
End T.
