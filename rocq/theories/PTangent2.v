(** The flow of tangent vectors through one polygon. *)
From Coq Require Import List Bool ZArith Arith Lia Ring Field Relations.
From Verif Require Import OField FMicromega PField MBase MDict MMut SMut MEuclid SEuclid PEuclid MSim SSim PSim MPoly PPoly PTurn SPoint PPoint MSurf SSurf PSurf PSurf3 PDelaunay PPoint2 PPoint3 SCut PJordan PJordan2 PJordan3 PJordan4 PJordan5 PConvex PEar2 PEar5 PPos PPos2 TPos PLocal PLocal2 MTangent PExit STangent PInward PTangent.
Import ListNotations.

Section C.
Context {K : OField}.
Add Field KF : (of_ft K).
Local Open Scope F_scope.
Implicit Types (P : polygon K) (p x v : vec K).

Lemma half (t : K) : 0 < t -> exists h, 0 < h /\ h < t /\ h + h = t.
Proof. intros T. exists (t / (1 + 1)). assert (X : t / (1 + 1) + t / (1 + 1) = t) by (field; apply f2_neq0). assert (0 < t / (1 + 1)) by (apply fdiv_pos; auto; apply f2_pos). repeat split; auto. flra. Qed.

(** the walk until [b] is in the interior, and ends at the boundary *)
Definition crosses P p v (b : K) := 0 < b /\ (forall s, 0 < s -> s < b -> get_point_position P (go p s v) = Interior) /\ bound P (go p b v).
(** the walk is along an edge *)
Definition follows P e p v := (e < length P)%nat /\ same_ray (edge P e) v /\ exists s : K, 0 <= s /\ s < 1 /\ p = go (vertex P e) s (edge P e).

Section P.
Context (P : polygon K) (PR : proper P).
Notation n := (length P).
Lemma crosses_exit p v (b : K) : v <> vzero -> crosses P p v b -> flow_to_exit P p v = Ok (go p b v, get_point_position P (go p b v)).
Proof.
  intros N [B0 [I B]]. destruct (exit_inward P PR p v N) as [t [pos [T0 [E [Ep [Bt H]]]]]].
  { destruct (half b B0) as [h [H0 [H1 H2]]]. exists h. split; auto. intros s S0 S1. rewrite I; [discriminate|auto|flra]. }
  assert (X : t = b); [|rewrite X in *; now rewrite E, Ep]. destruct (flt_total (t - b)) as [Z|[Z|Z]]; [|flra|].
  - exfalso. assert (Y : get_point_position P (go p t v) = Interior) by (apply I; flra). now apply (pos_bound P _ PR Bt).
  - exfalso. destruct H as [H|[e [k [Le [Pk H]]]]].
    + now apply (pos_bound P _ PR B), H; [|flra].
    + destruct (half b B0) as [h [H0 [H1 H2]]]. assert (Y : get_point_position P (go p h v) = Interior) by (apply I; flra). rewrite H in Y; [discriminate|auto|flra].
Qed.
Lemma follows_param e p v : follows P e p v -> exists s c : K, (e < n)%nat /\ 0 <= s /\ s < 1 /\ 0 < c /\ v = vscale c (edge P e) /\ p = go (vertex P e) s (edge P e) /\ forall t, go p t v = go (vertex P e) (s + t * c) (edge P e).
Proof.
  intros [L [[c [C0 ->]] [s [S0 [S1 ->]]]]]. exists s, c. repeat split; auto. intros t. unfold go. destruct (vertex P e), (edge P e); apply vec_eq; cbn; ring.
Qed.
Lemma follows_exit e p v : v <> vzero -> follows P e p v -> flow_to_exit P p v = Ok (vertex P (S e), AtVertex (S e mod n)) /\
  exists b : K, 0 < b /\ vertex P (S e) = go p b v /\ forall s, 0 < s -> s < b -> get_point_position P (go p s v) = EdgeInterior e.
Proof.
  intros N F. destruct (follows_param e p v F) as [s [c [L [S0 [S1 [C0 [Ev [Ep G]]]]]]]]. assert (CN : c <> 0) by (intros X; rewrite X in C0; now apply flt_irrefl in C0).
  set (b := (1 - s) / c). assert (B : b * c = 1 - s) by (unfold b; field; auto). assert (B0 : 0 < b) by (apply fdiv_pos; flra). clearbody b.
  assert (EB : vertex P (S e) = go p b v) by (rewrite G, B, <- go_end; f_equal; ring).
  assert (I : forall t, 0 < t -> t < b -> get_point_position P (go p t v) = EdgeInterior e).
  { intros t T0 T1. rewrite G. pose proof (fmul_pos _ _ T0 C0). apply at_edge; auto; [flra|]. assert (0 < (b - t) * c) by (apply fmul_pos; flra). assert (X : (b - t) * c = b * c - t * c) by ring. flra. }
  split; [|exists b; auto]. destruct (exit_inward P PR p v N) as [t [pos [T0 [E [Epos [Bt H]]]]]].
  { destruct (half b B0) as [h [H0 [H1 H2]]]. exists h. split; auto. intros u U0 U1. rewrite I; [discriminate|auto|flra]. }
  assert (X : t = b).
  { destruct (flt_total (t - b)) as [Z|[Z|Z]]; [|flra|].
    - exfalso. destruct H as [H|[e' [k [Le [Pk H]]]]].
      + destruct (half t T0) as [h [H0 [H1 H2]]]. specialize (H h H0 H1). rewrite I in H; [discriminate|auto|flra].
      + rewrite Epos, I in Pk; [discriminate|auto|flra].
    - exfalso. assert (Y : get_point_position P (go p b v) = AtVertex (S e mod n)) by (rewrite <- EB; now apply at_vertex'). destruct H as [H|[e' [k [Le [Pk H]]]]]; rewrite H in Y; try discriminate; auto; flra. }
  rewrite X in *. rewrite E, Epos, <- EB. now rewrite at_vertex'.
Qed.
Lemma walk_cases p v : normal P p v -> (exists b, crosses P p v b) \/ (exists e, follows P e p v).
Proof.
  intros [N I NC]. destruct (exit_inward P PR p v N) as [t [pos [T0 [E [Epos [Bt H]]]]]]; [destruct I as [r [R0 I]]; exists r; split; auto|].
  destruct H as [H|[e [k [Le [Pk H]]]]]; [left; exists t; split; auto|]. right. exists e.
  destruct (half t T0) as [h [H0 [H1 H2]]]. assert (X : get_point_position P (go p h v) = EdgeInterior e) by (apply H; auto).
  assert (C : ccw (edge P e) v = 0).
  { assert (C1 : 0 <= ccw (edge P e) v).
    { apply (into_edge P PR e (go p h v) v X). exists (t - h - (t - h) / (1 + 1)). destruct (half (t - h)) as [a [A0 [A1 A2]]]; [flra|].
      assert (A3 : t - h - (t - h) / (1 + 1) = a). { transitivity ((a + a) - (a + a) / (1 + 1)); [rewrite A2; ring|field; apply f2_neq0]. } rewrite A3. split; auto. intros s S0 S1.
      change (get_point_position P (go (go p h v) s v) <> Outside). rewrite go_go, H; [discriminate|flra|flra]. }
    assert (C2 : 0 <= ccw (edge P e) (vopp v)).
    { apply (into_edge P PR e (go p h v) (vopp v) X). destruct (half h H0) as [a [A0 [A1 A2]]]. exists a. split; auto. intros s S0 S1.
      change (get_point_position P (go (go p h v) s (vopp v)) <> Outside). rewrite go_opp, go_go, H; [discriminate|flra|flra]. }
    assert (X2 : ccw (edge P e) (vopp v) = - ccw (edge P e) v) by (unfold ccw; destruct (edge P e), v; cbn; ring). flra. }
  pose proof (edge_nz P PR e) as EN. destruct (edge_point P PR e _ Le X) as [s [S0 [S1 Es]]].
  assert (Ev : exists c, c <> 0 /\ v = vscale c (edge P e)).
  { destruct (ray_dec (edge P e) v EN N) as [[c [C0 ->]]|R]; [exists c; split; auto; intros Z; rewrite Z in C0; now apply flt_irrefl in C0|].
    destruct (collinear (edge P e) v EN N C R) as [c [C0 ->]]. exists (- c). split; auto. intros Z. assert (Z' : c = 0) by flra. rewrite Z' in C0; now apply flt_irrefl in C0. }
  destruct Ev as [c [CN Ev]]. set (g := s - h * c).
  assert (G : forall u, go p u v = go (vertex P e) (g + u * c) (edge P e)).
  { intros u. replace (go p u v) with (go (go p h v) (u - h) v) by (rewrite go_go; f_equal; ring). rewrite Es, Ev. unfold go, g. destruct (vertex P e), (edge P e); apply vec_eq; cbn; ring. }
  assert (Ep : p = go (vertex P e) g (edge P e)) by (rewrite <- (go_0 p v) at 1; rewrite G; f_equal; ring).
  assert (R : forall u, 0 < u -> u < t -> 0 < g + u * c /\ g + u * c < 1).
  { intros u U0 U1. specialize (H u U0 U1). destruct (edge_point P PR e _ Le H) as [s' [S0' [S1' Es']]]. rewrite G in Es'. apply go_inj in Es'; auto. rewrite Es'. auto. }
  assert (G0 : 0 <= g).
  { destruct (g <? 0) eqn:Z; [|now apply fltb_ge]. change (g < 0) in Z. exfalso. destruct (small_mul (- g) c) as [r [R0 Y]]; [flra|].
    destruct (min_pos r h R0 H0) as [u [U0 [U1 U2]]]. specialize (Y u U0 U1). destruct (R u U0); flra. }
  assert (G1 : g <= 1).
  { destruct (1 <? g) eqn:Z; [|now apply fltb_ge]. change (1 < g) in Z. exfalso. destruct (small_mul (g - 1) (- c)) as [r [R0 Y]]; [flra|].
    destruct (min_pos r h R0 H0) as [u [U0 [U1 U2]]]. specialize (Y u U0 U1). assert (u * - c = - (u * c)) by ring. destruct (R u U0); flra. }
  destruct (R h H0 H1) as [R1 R2]. apply fneq_lt in CN. destruct CN as [CN|CN].
  - exfalso. apply NC. rewrite Ep. apply clock_of; auto; [fnra|]. exists (- c). split; [flra|]. rewrite Ev. destruct (edge P e); apply vec_eq; cbn; ring.
  - split; auto. split; [exists c; auto|]. exists g. split; auto. split; [fnra|auto].
Qed.
Lemma not_both e p v (b : K) : v <> vzero -> crosses P p v b -> ~ follows P e p v.
Proof.
  intros N C F. pose proof (crosses_exit p v b N C) as E. destruct (follows_exit e p v N F) as [E' [b' [B0 [EB H]]]]. destruct C as [C0 [C _]].
  destruct (min_pos b b' C0 B0) as [c [X0 [X1 X2]]]. destruct (half c X0) as [h [H0 [H1 H2]]]. specialize (H h H0). specialize (C h H0). rewrite C in H by flra. discriminate H. flra.
Qed.
(** the reversed walk *)
Lemma back_normal p v (b : K) : v <> vzero -> crosses P p v b -> normal P (go p b v) (vopp v).
Proof.
  intros N [B0 [I B]]. destruct (half b B0) as [h [H0 [H1 H2]]]. constructor; [now apply opp_nz| |].
  - exists h. split; auto. intros t T0 T1. change (get_point_position P (go (go p b v) t (vopp v)) <> Outside). rewrite go_opp, go_go, I; [discriminate|flra|flra].
  - intros [e [c [Le [[O [r [R0 O']]] _]]]]. assert (Z : exists u : K, 0 < u /\ u < b /\ u <= r).
    { destruct (min_pos h r H0 R0) as [u [U0 [U1 U2]]]. exists u. repeat split; auto. flra. }
    destruct Z as [u [U0 [U1 U2]]]. assert (RN : r <> 0) by (intros X; rewrite X in R0; now apply flt_irrefl in R0).
    assert (OO : on_segment (side P e) (go (go p b v) u (vopp v))).
    { rewrite side_segment in O, O'. destruct O as [s [S0 [S1 Es]]], O' as [s' [S0' [S1' Es']]]. rewrite side_segment.
      assert (W0 : 0 <= u / r) by (apply fdiv_nonneg; flra). assert (W1 : u / r <= 1) by (apply fdiv_le; auto; assert (1 * r = r) by ring; flra).
      exists (s + (u / r) * (s' - s)). split; [|split]; [assert (X : s + (u / r) * (s' - s) = (1 - u / r) * s + u / r * s') by ring; rewrite X; generalize dependent (u / r); intros; fnra| |].
      - assert (X : s + (u / r) * (s' - s) = 1 - ((1 - u / r) * (1 - s) + u / r * (1 - s'))) by ring; rewrite X; generalize dependent (u / r); intros; fnra.
      - transitivity (vadd (vscale (1 - u / r) (go p b v)) (vscale (u / r) (moved (go p b v) r (vopp v)))).
        + unfold go, moved. destruct p, v; apply vec_eq; cbn [vadd vscale vopp fst snd]; field; auto.
        + rewrite Es'. rewrite Es. destruct (vertex P e), (edge P e); apply vec_eq; cbn [vadd vscale fst snd]; ring. }
    assert (BB : bound P (go (go p b v) u (vopp v))) by (exists e; auto). rewrite go_opp, go_go in BB. apply (pos_bound P _ PR BB). apply I; flra.
Qed.
Lemma crosses_interior p v (b : K) e : v <> vzero -> crosses P p v b -> get_point_position P p = EdgeInterior e -> 0 < ccw (edge P e) v.
Proof.
  intros N [B0 [I B]] H. pose proof (edge_lt P PR e p H) as L. destruct (edge_point P PR e p L H) as [s [S0 [S1 ->]]]. destruct (feq_dec (ccw (edge P e) v) 0) as [Z|Z].
  - exfalso. destruct (local_along P e s v PR L S0 S1 Z) as [r [R0 X]]. destruct (min_pos r b R0 B0) as [c [C0 [C1 C2]]]. destruct (half c C0) as [h [H0 [H1 H2]]].
    specialize (X h H0). specialize (I h H0). rewrite I in X by flra. discriminate X. flra.
  - destruct (local_edge P e s v PR L S0 S1 Z) as [r [R0 X]]. destruct (min_pos r b R0 B0) as [c [C0 [C1 C2]]]. destruct (half c C0) as [h [H0 [H1 H2]]].
    specialize (X h H0). specialize (I h H0). rewrite I in X by flra. destruct (0 <? ccw (edge P e) v) eqn:Y; [exact Y|]. discriminate X. flra.
Qed.
(** maximal extension backwards *)
Lemma crosses_max p v (b : K) : v <> vzero -> crosses P p v b -> exists a, a <= 0 /\ crosses P (go p b v) (vopp v) (b - a) /\ crosses P (go p a v) v (b - a) /\ (bound P p -> a = 0).
Proof.
  intros N C. pose proof C as [B0 [I B]]. pose proof (back_normal p v b N C) as NB. pose proof (opp_nz v N) as N'. destruct (walk_cases _ _ NB) as [[b' C']|[e F]].
  - exists (b - b'). pose proof C' as [B0' [I' B']]. assert (EQ : b - (b - b') = b') by ring. rewrite EQ.
    assert (LE : b - b' <= 0).
    { destruct (0 <? b - b') eqn:Z; [|now apply fltb_ge]. change (0 < b - b') in Z. exfalso. rewrite go_opp, go_go in B'. apply (pos_bound P _ PR B'). apply I; flra. }
    split; auto. split; auto. split.
    + split; auto. split.
      * intros s S0 S1. rewrite go_go. specialize (I' (b' - s)). rewrite go_opp, go_go in I'. replace (b - b' + s) with (b + - (b' - s)) by ring. apply I'; flra.
      * rewrite go_go. now replace (b - b' + b') with b by ring.
    + intros BP. destruct (flt_total (b - b')) as [Z|[Z|Z]]; auto; [|flra]. exfalso. specialize (I' b B0). rewrite go_opp, go_go in I'.
      replace (go p (b + - b) v) with p in I' by (replace (b + - b) with (0 : K) by ring; symmetry; apply go_0). apply (pos_bound P _ PR BP). apply I'. flra.
  - exfalso. destruct (follows_exit e _ _ N' F) as [_ [b' [B0' [_ H]]]]. destruct (min_pos b b' B0 B0') as [c [C0 [C1 C2]]]. destruct (half c C0) as [h [H0 [H1 H2]]].
    specialize (H h H0). rewrite go_opp, go_go, I in H by flra. discriminate H. flra.
Qed.
End P.
End C.
