(** Into which polygon a tangent vector points. *)
From Coq Require Import List Bool ZArith Arith Lia Ring Field Permutation.
From Verif Require Import OField FMicromega PField MBase MDict MMut SMut MEuclid SEuclid PEuclid MSim SSim MPoly PPoly PTurn SPoint PPoint PSurf3 SCut PJordan PJordan2 PJordan3 PJordan4 PJordan5 PConvex PEar2 PEar5 PPos PPos2 TPos PLocal PLocal2 MTangent PExit MSurf SSurf STangent.
Import ListNotations.

Section C.
Context {K : OField}.
Add Field KF : (of_ft K).
Local Open Scope F_scope.
Implicit Types (P : polygon K) (p x v : vec K).

Lemma min_pos (a b : K) : 0 < a -> 0 < b -> exists c, 0 < c /\ c <= a /\ c <= b.
Proof. intros A B. destruct (a <? b) eqn:X; [change (a < b) in X; exists a|apply fltb_ge in X; exists b]; repeat split; auto; flra. Qed.

Section P.
Context (P : polygon K) (PR : proper P).
Notation n := (length P).

Lemma edge_nz e : edge P e <> vzero. Proof. destruct PR as [_ [X _]]. apply X. Qed.
Lemma prev_nz k : prev_edge P k <> vzero.
Proof. unfold prev_edge. intros X. apply (edge_nz (k + n - 1)). destruct (edge P (k + n - 1)) as [a b]. apply vec_eq; cbn; injection X as X1 X2; flra. Qed.
Lemma same_ray_self v : same_ray v v.
Proof. exists 1. split; [apply flt_0_1|]. destruct v; apply vec_eq; cbn; ring. Qed.
Lemma same_ray_trans v w x : same_ray v w -> same_ray v x -> same_ray w x.
Proof.
  intros [s [S0 ->]] [t [T0 ->]]. exists (t / s). split; [now apply fdiv_pos|]. assert (s <> 0) by (intros X; rewrite X in S0; now apply flt_irrefl in S0).
  destruct v; apply vec_eq; cbn [vscale fst snd]; field; auto.
Qed.
Lemma not_back k : (k < n)%nat -> ~ same_ray (edge P k) (prev_edge P k).
Proof.
  intros L R. destruct (local_ray P k (edge P k) PR L (same_ray_self _)) as [r [R0 H]].
  destruct (local_back P k (edge P k) PR L (same_ray_sym _ _ R)) as [r' [R0' H']].
  destruct (min_pos r r' R0 R0') as [c [C0 [C1 C2]]]. specialize (H c C0 C1). specialize (H' c C0 C2). rewrite H in H'. injection H' as H'.
  destruct PR as [N3 _]. destruct (Nat.eq_dec k 0) as [->|X].
  - rewrite Nat.mod_small in H' by lia. lia.
  - replace (k + n - 1)%nat with (k - 1 + 1 * n)%nat in H' by lia. rewrite Nat.mod_add in H' by lia. rewrite Nat.mod_small in H' by lia. lia.
Qed.

(** the model's tests *)
Lemma prev_test k : (k < n)%nat -> vopp (edge P ((k + n - 1) mod n)) = prev_edge P k.
Proof. intros L. unfold prev_edge. now rewrite PSurf3.edge_mod. Qed.
Lemma anti_ray v w : v <> vzero -> w <> vzero -> is_anti_parallel v w = true <-> same_ray (vopp v) w.
Proof.
  intros V W. rewrite is_anti_parallel_spec. split.
  - intros [_ [t [T ->]]]. exists (- t). split; [flra|]. destruct v; apply vec_eq; cbn; ring.
  - intros [t [T ->]]. split; auto. exists (- t). split; [flra|]. destruct v; apply vec_eq; cbn; ring.
Qed.

Lemma into_vertex k v : (k < n)%nat -> v <> vzero -> points_into P (vertex P k) v <-> is_between (prev_edge P k) (edge P k) v = false.
Proof.
  intros L V. pose proof (not_back k L) as NB. assert (NB' : ~ same_ray (prev_edge P k) (edge P k)) by (intros X; now apply NB, same_ray_sym).
  pose proof (edge_nz k) as E0. pose proof (prev_nz k) as E1.
  assert (DEC : forall u, u <> vzero -> same_ray u v \/ ~ same_ray u v).
  { intros u U. destruct (is_anti_parallel (vopp u) v) eqn:X.
    - left. apply anti_ray in X; auto; [|intros Y; apply U; destruct u as [a b]; injection Y as Y1 Y2; apply vec_eq; cbn; flra].
      destruct X as [t [T ->]]. exists t. split; auto. destruct u; apply vec_eq; cbn; ring.
    - right. intros [t [T E]]. assert (Y : is_anti_parallel (vopp u) v = true); [|congruence].
      apply anti_ray; auto; [intros Y; apply U; destruct u as [a b]; injection Y as Y1 Y2; apply vec_eq; cbn; flra|].
      exists t. split; auto. rewrite E. destruct u; apply vec_eq; cbn; ring. }
  destruct (DEC _ E0) as [R|R].
  - split; intros _; [now apply between_ray_r|]. destruct (local_ray P k v PR L R) as [r [R0 H]]. exists r. split; auto.
    intros t T0 T1. unfold in_polygon, moved. change (get_point_position P (go (vertex P k) t v) <> Outside). now rewrite H.
  - destruct (DEC _ E1) as [R'|R'].
    + split; intros _; [now apply between_ray_l|]. destruct (local_back P k v PR L R') as [r [R0 H]]. exists r. split; auto.
      intros t T0 T1. unfold in_polygon, moved. change (get_point_position P (go (vertex P k) t v) <> Outside). now rewrite H.
    + destruct (local_vertex P k v PR L V R R') as [r [R0 H]]. rewrite (between_compl (edge P k)) by auto. split.
      * intros [r' [R0' H']]. destruct (min_pos r r' R0 R0') as [c [C0 [C1 C2]]]. specialize (H c C0 C1). specialize (H' c C0 C2).
        unfold in_polygon, moved in H'. change (get_point_position P (go (vertex P k) c v) <> Outside) in H'. rewrite H in H'.
        destruct (is_between (edge P k) (prev_edge P k) v); [reflexivity|contradiction].
      * intros X. apply negb_false_iff in X. rewrite X in H. exists r. split; auto. intros t T0 T1.
        change (get_point_position P (go (vertex P k) t v) <> Outside). now rewrite H.
Qed.
Lemma edge_point e p : (e < n)%nat -> get_point_position P p = EdgeInterior e -> exists s, 0 < s /\ s < 1 /\ p = go (vertex P e) s (edge P e).
Proof. intros L H. apply C57_edge in H; auto. destruct H as [_ [s [S0 [S1 ->]]]]. exists s. repeat split; auto. Qed.
Lemma edge_lt e p : get_point_position P p = EdgeInterior e -> (e < n)%nat.
Proof. intros H. apply C57_edge in H; auto. apply H. Qed.
Lemma vertex_lt k p : get_point_position P p = AtVertex k -> (k < n)%nat /\ p = vertex P k.
Proof. intros H. apply C57_vertex in H; auto. Qed.
Lemma into_edge e p v : get_point_position P p = EdgeInterior e -> points_into P p v <-> 0 <= ccw (edge P e) v.
Proof.
  intros H. pose proof (edge_lt e p H) as L. destruct (edge_point e p L H) as [s [S0 [S1 ->]]]. destruct (feq_dec (ccw (edge P e) v) 0) as [C|C].
  - rewrite C. split; [intros _; flra|intros _]. destruct (local_along P e s v PR L S0 S1 C) as [r [R0 X]]. exists r. split; auto. intros t T0 T1.
    change (get_point_position P (go (go (vertex P e) s (edge P e)) t v) <> Outside). now rewrite X.
  - destruct (local_edge P e s v PR L S0 S1 C) as [r [R0 X]]. split.
    + intros [r' [R0' X']]. destruct (min_pos r r' R0 R0') as [c [C0 [C1 C2]]]. specialize (X c C0 C1). specialize (X' c C0 C2).
      change (get_point_position P (go (go (vertex P e) s (edge P e)) c v) <> Outside) in X'. rewrite X in X'.
      destruct (0 <? ccw (edge P e) v) eqn:Y; [change (0 < ccw (edge P e) v) in Y; flra|contradiction].
    + intros Y. exists r. split; auto. intros t T0 T1. change (get_point_position P (go (go (vertex P e) s (edge P e)) t v) <> Outside). rewrite X by auto.
      assert (Z : (0 <? ccw (edge P e) v) = true) by (apply fneq_lt in C; destruct C as [C|C]; [flra|exact C]). now rewrite Z.
Qed.
Lemma bound_on x : bound P x <-> on_boundary P x. Proof. reflexivity. Qed.
Lemma off_bound p : get_point_position P p = Interior \/ get_point_position P p = Outside -> ~ bound P p.
Proof. intros H X. apply pos_bound in X; auto. destruct X. now destruct H. Qed.
Lemma into_interior p v : get_point_position P p = Interior -> points_into P p v.
Proof.
  intros H. destruct (local_off P p v PR (off_bound p (or_introl H))) as [r [R0 X]]. exists r. split; auto. intros t T0 T1.
  change (get_point_position P (go p t v) <> Outside). rewrite X by flra. congruence.
Qed.
Lemma into_outside p v : get_point_position P p = Outside -> ~ points_into P p v.
Proof.
  intros H [r' [R0' X']]. destruct (local_off P p v PR (off_bound p (or_intror H))) as [r [R0 X]].
  destruct (min_pos r r' R0 R0') as [c [C0 [C1 C2]]]. apply (X' c C0 C2). change (get_point_position P (go p c v) = Outside). rewrite X by flra. exact H.
Qed.
Lemma into_in p v : points_into P p v -> in_polygon P p.
Proof. intros H X. now apply (into_outside p v). Qed.
End P.
End C.
