(** Positions of points close to a given point of a proper polygon. *)
From Coq Require Import List Bool ZArith Arith Lia Ring Field Permutation.
From Verif Require Import OField FMicromega PField MBase MDict MMut SMut MEuclid SEuclid PEuclid MSim SSim MPoly PPoly PTurn SPoint PPoint PSurf3 SCut PJordan PJordan2 PJordan3 PJordan4 PJordan5 PConvex PEar2 PEar5 PPos PPos2 PLocal TPos.
Import ListNotations.

Section C.
Context {K : OField}.
Add Field KF : (of_ft K).
Local Open Scope F_scope.
Implicit Types (P : polygon K) (u v w p q x z d : vec K).

(** the point reached from [q] after time [t] *)
Definition go q (t : K) d : vec K := vadd q (vscale t d).

Lemma vertex_add P k : (0 < length P)%nat -> vertex P (k + length P) = vertex P k.
Proof. intros L. unfold vertex. rewrite <- (Nat.mul_1_l (length P)) at 1. now rewrite Nat.mod_add by lia. Qed.
Lemma vertex_pred P k : (0 < length P)%nat -> vertex P (S (k + length P - 1)) = vertex P k.
Proof. intros L. replace (S (k + length P - 1)) with (k + length P)%nat by lia. apply vertex_add; lia. Qed.

Lemma vertex_rot P k : simpleL P -> (k < length P)%nat ->
  exists l, rot P (vertex P k :: l) /\ hd (vertex P k) l = vertex P (S k) /\ last l (vertex P k) = vertex P (k + length P - 1).
Proof.
  intros S L. pose proof S as [ND [N3 _]]. assert (L0 : (0 < length P)%nat) by lia. pose proof (corner_cyc P k L0) as C. pose proof (corner_cyc P (k + length P - 1) L0) as C'.
  rewrite vertex_pred in C' by auto. pose proof C as C0.
  apply in_cyc in C; [|lia]. destruct C as [r R]. exists (vertex P (Datatypes.S k) :: r). split; auto. split; auto.
  pose proof (simpleL_rot _ _ R S) as S'. destruct (simple_corner _ _ S') as [w [z [_ [Ez [_ [B _]]]]]]. rewrite Ez.
  apply (rot_cyc_in _ _ _ R) in B. apply (cyc_pred P z _ (vertex P k)); auto. lia.
Qed.

Lemma pos_local P (Q : list (vec K)) x (b : bool) : proper P -> (forall y, (exists g, In g (cyc Q) /\ on_segment g y) <-> exists g, In g (cyc P) /\ on_segment g y) ->
  (forall y, par y (cyc Q) = par y (cyc P)) -> (forall g, In g (cyc Q) -> ~ on_segment g x) -> par x (cyc Q) = b ->
  get_point_position P x = if b then Interior else Outside.
Proof.
  intros PR B1 P1 O E. rewrite pos_off; auto.
  - rewrite <- P1, E. reflexivity.
  - intros X. apply bound_cyc in X. apply B1 in X. destruct X as [g [I X]]. now apply (O g I).
Qed.

Lemma vopp_sub p q : vopp (vsub p q) = vsub q p. Proof. destruct p, q; apply vec_eq; cbn; ring. Qed.

Definition prev_edge P k := vopp (edge P (k + length P - 1)).

Lemma prev_edge_eq P k : (0 < length P)%nat -> prev_edge P k = vsub (vertex P (k + length P - 1)) (vertex P k).
Proof. intros L. unfold prev_edge, edge. rewrite vertex_pred by auto. apply vopp_sub. Qed.

Lemma local_vertex P k d : proper P -> (k < length P)%nat -> d <> vzero -> ~ same_ray (edge P k) d -> ~ same_ray (prev_edge P k) d ->
  exists r, 0 < r /\ forall t, 0 < t -> t <= r ->
    get_point_position P (go (vertex P k) t d) = if is_between (edge P k) (prev_edge P k) d then Interior else Outside.
Proof.
  intros PR L D R1 R2. pose proof (proj1 (proper_simpleL P) PR) as [S IX]. destruct (vertex_rot P k S L) as [l [R [H1 H2]]].
  pose proof (simpleL_rot _ _ R S) as S'. rewrite prev_edge_eq in * by lia. unfold edge in *.
  destruct (corner_local (vertex P k) l d S' D) as [r [R0 H]]; [rewrite H1; auto|rewrite H2; auto|]. exists r. split; auto. intros t T0 T1.
  destruct (H t T0 T1) as [HA HB]. rewrite H1, H2 in HB. unfold go.
  apply (pos_local P (vertex P k :: l)); auto.
  - intros y. split; intros [g [I O]]; exists g; (split; [|auto]); [now apply (rot_cyc_in _ _ _ R)|now apply (rot_cyc_in _ _ _ R)].
  - intros y. symmetry. apply par_perm, cyc_rot, R.
  - rewrite HB, <- (index_rot _ _ R S), IX. rewrite xorb_true_l, negb_involutive. reflexivity.
Qed.

Lemma local_edge P e (s : K) d : proper P -> (e < length P)%nat -> 0 < s -> s < 1 -> ccw (edge P e) d <> 0 ->
  exists r, 0 < r /\ forall t, 0 < t -> t <= r ->
    get_point_position P (go (go (vertex P e) s (edge P e)) t d) = if 0 <? ccw (edge P e) d then Interior else Outside.
Proof.
  intros PR L S0 S1 C. pose proof (proj1 (proper_simpleL P) PR) as [SP0 IX].
  set (b := go (vertex P e) s (edge P e)). assert (N1 : (0 < length P)%nat) by lia.
  assert (D : d <> vzero) by (intros ->; apply C; unfold ccw; cbn; ring).
  destruct (vertex_rot P ((Datatypes.S e) mod length P) SP0) as [l [R [H1 H2]]]; [apply Nat.mod_upper_bound; lia|].
  assert (V0 : vertex P (Datatypes.S e mod length P) = vertex P (Datatypes.S e)) by apply vertex_mod.
  assert (V1 : vertex P (Datatypes.S e mod length P + length P - 1) = vertex P e).
  { rewrite <- (vertex_mod P (Datatypes.S e mod length P + length P - 1)), <- (vertex_mod P e). f_equal.
    destruct (Nat.eq_dec (Datatypes.S e) (length P)) as [E|E].
    - rewrite E, Nat.mod_same by lia. replace (0 + length P - 1)%nat with e by lia. reflexivity.
    - rewrite (Nat.mod_small (Datatypes.S e)) by lia. replace (Datatypes.S e + length P - 1)%nat with (e + 1 * length P)%nat by lia. now rewrite Nat.mod_add by lia. }
  rewrite V0 in R, H1, H2. rewrite V1 in H2. set (Q := vertex P (Datatypes.S e) :: l) in *.
  pose proof (simpleL_rot _ _ R SP0) as S'.
  assert (NL : l <> []). { intros ->. destruct S' as [_ [X _]]. cbn in X. lia. }
  assert (LQ : last Q b = vertex P e). { unfold Q. rewrite last_cons. auto. }
  destruct (flat_insert b Q (vertex P e) (vertex P (Datatypes.S e)) s S' LQ eq_refl S0 S1 eq_refl) as [Sb [Ib [Pb Bb]]].
  set (w := edge P e) in *. assert (Nw : w <> vzero) by (destruct PR as [_ [X _]]; apply X).
  assert (E1 : vsub (hd b Q) b = vscale (1 - s) w) by (unfold b, go, w, edge; cbn [hd Q]; destruct (vertex P e), (vertex P (Datatypes.S e)); apply vec_eq; cbn; ring).
  assert (E2 : vsub (last Q b) b = vscale (- (s / (1 - s))) (vscale (1 - s) w)).
  { assert (1 - s <> 0) by (intros X; flra). rewrite LQ. unfold b, go. destruct (vertex P e), w; apply vec_eq; cbn; field; auto. }
  assert (NS : 1 - s <> 0) by (intros X; flra). assert (SP : 0 < s / (1 - s)) by (apply fdiv_pos; flra).
  assert (NR : forall c, ~ same_ray (vscale c w) d).
  { intros c [t [_ X]]. apply C. rewrite X. unfold ccw. destruct w; cbn; ring. }
  destruct (corner_local b Q d Sb D) as [r [R0 H]].
  - rewrite E1. apply NR.
  - rewrite E2. replace (vscale (- (s / (1 - s))) (vscale (1 - s) w)) with (vscale (- s) w) by (destruct w; apply vec_eq; cbn; field; auto). apply NR.
  - exists r. split; auto. intros t T0 T1. destruct (H t T0 T1) as [HA HB]. rewrite E1, E2 in HB. rewrite between_flat in HB; auto using scale_nz.
    assert (CC : ccw (vscale (1 - s) w) d = (1 - s) * ccw w d) by (unfold ccw; destruct w, d; cbn; ring). rewrite CC, ltb_scale in HB by flra.
    rewrite Ib, <- (index_rot _ _ R SP0), IX in HB. apply (pos_local P (b :: Q)); auto.
    + intros y. rewrite Bb. split; intros [g [I O]]; exists g; (split; [|auto]); now apply (rot_cyc_in _ _ _ R).
    + intros y. rewrite Pb. symmetry. apply par_perm, cyc_rot, R.
    + unfold go. rewrite HB. now destruct (0 <? ccw w d).
Qed.

Lemma small_mul (a c : K) : 0 < a -> exists r, 0 < r /\ forall t, 0 < t -> t <= r -> t * c < a.
Proof.
  intros A. destruct (lin_small a (- c) A) as [r [R H]]. exists r. split; auto. intros t T0 T1. assert (X : 0 < a + t * - c) by (apply H; flra). assert (t * - c = - (t * c)) by ring. flra.
Qed.
(** along the edge that starts at a vertex, and along the one that ends there *)
Lemma local_ray P k d : proper P -> (k < length P)%nat -> same_ray (edge P k) d ->
  exists r, 0 < r /\ forall t, 0 < t -> t <= r -> get_point_position P (go (vertex P k) t d) = EdgeInterior k.
Proof.
  intros PR L [c [C E]]. destruct (small_mul 1 c (@flt_0_1 K)) as [r [R H]]. exists r. split; auto. intros t T0 T1. apply C57_edge; auto. split; auto.
  exists (t * c). split; [now apply fmul_pos|]. split; [now apply H|]. unfold go. rewrite E. destruct (vertex P k), (edge P k); apply vec_eq; cbn; ring.
Qed.
Lemma local_back P k d : proper P -> (k < length P)%nat -> same_ray (prev_edge P k) d ->
  exists r, 0 < r /\ forall t, 0 < t -> t <= r -> get_point_position P (go (vertex P k) t d) = EdgeInterior ((k + length P - 1) mod length P).
Proof.
  intros PR L [c [C E]]. destruct (small_mul 1 c (@flt_0_1 K)) as [r [R H]]. exists r. split; auto. intros t T0 T1. apply C57_edge; auto.
  split; [apply Nat.mod_upper_bound; lia|]. exists (1 - t * c). pose proof (H t T0 T1). pose proof (fmul_pos _ _ T0 C). split; [flra|]. split; [flra|].
  unfold edge. rewrite vertex_mod. assert (V : vertex P (S ((k + length P - 1) mod length P)) = vertex P k).
  { rewrite <- (vertex_mod P (S _)). rewrite <- Nat.add_1_l, Nat.add_mod_idemp_r by lia. rewrite vertex_mod. replace (1 + (k + length P - 1))%nat with (k + length P)%nat by lia. apply vertex_add; lia. }
  rewrite V. unfold go. rewrite E, prev_edge_eq by lia. destruct (vertex P k), (vertex P (k + length P - 1)); apply vec_eq; cbn; ring.
Qed.
Lemma local_along P e (s : K) d : proper P -> (e < length P)%nat -> 0 < s -> s < 1 -> ccw (edge P e) d = 0 ->
  exists r, 0 < r /\ forall t, 0 < t -> t <= r -> get_point_position P (go (go (vertex P e) s (edge P e)) t d) = EdgeInterior e.
Proof.
  intros PR L S0 S1 C. set (w := edge P e) in *. assert (Nw : w <> vzero) by (destruct PR as [_ [X _]]; apply X).
  assert (E : exists c, d = vscale c w).
  { destruct w as [w1 w2], d as [d1 d2]. unfold ccw in C. cbn in C. destruct (feq_dec w1 0) as [W|W].
    - assert (W2 : w2 <> 0) by (intros X; apply Nw; now rewrite W, X). exists (d2 / w2). rewrite W in C |- *. apply vec_eq; cbn; [|field; auto].
      apply (fcancel _ _ w2); auto. transitivity (- (0 * d2 - w2 * d1)); [ring|]. rewrite C. field; auto.
    - exists (d1 / w1). apply vec_eq; cbn; [field; auto|]. apply (fcancel _ _ w1); auto. transitivity (w1 * d2 - w2 * d1 + w2 * d1); [ring|]. rewrite C. field; auto. }
  destruct E as [c E]. destruct (lin_small s c S0) as [r [R H]]. destruct (small_mul (1 - s) c) as [r' [R' H']]; [flra|].
  assert (G : exists m, 0 < m /\ m <= r /\ m <= r').
  { destruct (r <? r') eqn:X; [change (r < r') in X; exists r; split; [|split]; auto; flra|apply fltb_ge in X; exists r'; split; [|split]; auto; flra]. }
  destruct G as [m [M0 [M1 M2]]]. exists m. split; auto. intros t T0 T1. apply C57_edge; auto. split; auto. exists (s + t * c).
  split; [apply H; flra|]. split; [assert (t * c < 1 - s) by (apply H'; flra); flra|]. unfold go. rewrite E. fold w. destruct (vertex P e), w; apply vec_eq; cbn; ring.
Qed.
(** away from the boundary *)
Lemma local_off P q d : proper P -> ~ bound P q -> exists r, 0 < r /\ forall t, 0 <= t -> t <= r -> get_point_position P (go q t d) = get_point_position P q.
Proof.
  intros PR NB. pose proof (proj1 (proper_simpleL P) PR) as [S IX]. destruct (segs_small (cyc P) q d) as [r [R H]].
  { intros g I O. apply NB, bound_cyc. now exists g. }
  exists r. split; auto. intros t T0 T1. unfold go. assert (NB' : ~ bound P (vadd q (vscale t d))).
  { intros X. apply bound_cyc in X. destruct X as [g [I O]]. now apply (H g t). }
  rewrite !pos_off by auto. destruct (vec_dec q (vadd q (vscale t d))) as [E|E]; [now rewrite <- E|].
  rewrite (par_segment P q (vadd q (vscale t d))); auto; [apply S|destruct S as [_ [X _]]; lia|].
  intros g I. destruct (feq_dec t 0) as [Z|Z]; [exfalso; apply E; rewrite Z; destruct q, d; apply vec_eq; cbn; ring|].
  apply disjoint_small; [apply fneq_lt in Z; destruct Z; flra|]. intros s A B. apply H; auto. flra.
Qed.

Lemma between_compl w z x : w <> vzero -> x <> vzero -> z <> vzero -> ~ same_ray w z -> ~ same_ray w x -> ~ same_ray z x -> is_between z w x = negb (is_between w z x).
Proof.
  intros Nw Nx Nz Rwz Rwx Rzx. pose proof (corner_sector w x z Nw Nx Nz Rwz Rwx Rzx) as A.
  assert (Rzw : ~ same_ray z w) by (intros X; now apply Rwz, same_ray_sym).
  pose proof (corner_sector z x w Nz Nx Nw Rzw Rzx Rwx) as B. rewrite xorb_comm, A in B.
  pose proof (corner_forms z w Nz Nw Rzw) as F. destruct (above z w), (posb w), (above w z), (posb z), (is_between w z x), (is_between z w x); cbn in *; congruence.
Qed.
Lemma between_ray_l w z x : same_ray w x -> w <> vzero -> z <> vzero -> ~ same_ray w z -> is_between w z x = false.
Proof.
  intros [t [T ->]] Nw Nz R. assert (C0 : ccw w (vscale t w) = 0) by (unfold ccw; destruct w; cbn; ring).
  assert (C1 : ccw z (vscale t w) = - (t * ccw w z)) by (unfold ccw; destruct w, z; cbn; ring).
  destruct (flt_total (ccw w z)) as [C|[C|C]].
  - rewrite between_neg by auto. rewrite C0, C1. apply orb_false_iff. split; apply fltb_ge; [flra|fnra].
  - destruct (collinear w z Nw Nz C R) as [s [S ->]]. rewrite between_flat by auto. rewrite C0. apply fltb_ge. flra.
  - rewrite between_pos by auto. rewrite C0. apply andb_false_iff. right. apply fltb_ge. flra.
Qed.
Lemma between_ray_r w z x : same_ray z x -> w <> vzero -> z <> vzero -> ~ same_ray w z -> is_between w z x = false.
Proof.
  intros [t [T ->]] Nw Nz R. assert (C0 : ccw z (vscale t z) = 0) by (unfold ccw; destruct z; cbn; ring).
  assert (C1 : ccw w (vscale t z) = t * ccw w z) by (unfold ccw; destruct w, z; cbn; ring).
  destruct (flt_total (ccw w z)) as [C|[C|C]].
  - rewrite between_neg by auto. rewrite C0, C1. apply orb_false_iff. split; apply fltb_ge; [fnra|flra].
  - destruct (collinear w z Nw Nz C R) as [s [S E]]. rewrite E. rewrite between_flat by auto. apply fltb_ge. unfold ccw. destruct w; cbn. assert (c * (t * (- s * c0)) - c0 * (t * (- s * c)) = 0) by ring. flra.
  - rewrite between_pos by auto. rewrite C0. apply andb_false_iff. left. apply fltb_ge. flra.
Qed.
End C.
