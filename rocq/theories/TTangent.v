(** Theorems C58-C61: flowing to the boundary of a polygon, tangent vectors, segments and straight line trajectories. *)
From Coq Require Import List Bool ZArith Arith Lia QArith.
From Verif Require Import OField MBase MDict MEuclid PEuclid SEuclid MSim SSim MPoly MMut SMut SPoint SCut PSimple PEar5 TEuclid MSurf SSurf ExTab TPos MTangent STangent PPos PLocal2 PExit PInward PTangent PTangent2 PTangent3 PTangent4 TLazy TEar.
Import ListNotations.
Open Scope nat_scope.

(** ** C58: [flow_to_exit] *)
Section Exit.
Variables (K : OField) (P : polygon K).
Hypothesis PR : proper P.

(** A walk that starts into the polygon ends at the first point of the boundary: it crosses the interior, or it follows
    an edge until a vertex. *)
Theorem C58_exit p v : v <> vzero -> points_into P p v -> exists t pos, flt f0 t /\ flow_to_exit P p v = Ok (moved p t v, pos) /\
  pos = get_point_position P (moved p t v) /\ on_boundary P (moved p t v) /\
  ((forall s, flt f0 s -> flt s t -> get_point_position P (moved p s v) = Interior) \/
   exists e k, e < length P /\ pos = AtVertex k /\ forall s, flt f0 s -> flt s t -> get_point_position P (moved p s v) = EdgeInterior e).
Proof. intros N I. exact (exit_inward P PR p v N I). Qed.
(** Where a walk starts into the polygon. *)
Theorem C58_points_into p v : v <> vzero ->
  match get_point_position P p with
  | Outside => ~ points_into P p v
  | Interior => points_into P p v
  | EdgeInterior e => points_into P p v <-> fle f0 (ccw (edge P e) v)
  | AtVertex k => points_into P p v <-> ~ sector (vopp (edge P (k + length P - 1))) (edge P k) v
  end.
Proof.
  intros N. destruct (get_point_position P p) as [| |e|k] eqn:E.
  - now apply into_outside.
  - now apply into_interior.
  - now apply into_edge.
  - destruct (vertex_lt P PR k p E) as [L ->]. rewrite (into_vertex P PR k v L N).
    pose proof (is_between_spec (prev_edge P k) (edge P k) v (prev_nz P PR k) (edge_nz P PR k)) as B. unfold prev_edge in *.
    rewrite <- B. destruct (is_between _ _ v); split; intros; congruence.
Qed.
(** In general the walk ends at the first point of the boundary after the start, unless it starts along an edge; there is
    an error if there is no such point or if the direction is zero. *)
Theorem C58_first p v x pos : v <> vzero -> flow_to_exit P p v = Ok (x, pos) -> exists t, flt f0 t /\ x = moved p t v /\
  pos = get_point_position P x /\ on_boundary P x /\
  ((forall s, flt f0 s -> flt s t -> ~ on_boundary P (moved p s v)) \/
   exists e k, e < length P /\ pos = AtVertex k /\ forall s, flt f0 s -> flt s t -> get_point_position P (moved p s v) = EdgeInterior e).
Proof. intros N E. exact (exit_first P PR p v N x pos E). Qed.
Theorem C58_error p v : (v <> vzero -> (exists y, flow_to_exit P p v = Ok y) <-> exists s, flt f0 s /\ on_boundary P (moved p s v)) /\
  (v = vzero \/ ~ (exists s, flt f0 s /\ on_boundary P (moved p s v)) -> flow_to_exit P p v = Err ValueError).
Proof.
  split.
  - intros N. symmetry. exact (exit_ok P PR p v N).
  - intros [->|E]; [|destruct (vec_dec v vzero) as [->|N]; [|exact (exit_err P PR p v N E)]];
      unfold flow_to_exit; (assert (Z : veqb (@vzero K) vzero = true) by now apply veqb_eq); now rewrite Z.
Qed.
End Exit.
Print Assumptions C58_exit.
Print Assumptions C58_points_into.
Print Assumptions C58_first.
Print Assumptions C58_error.

(** ** tangent vectors on closed surfaces whose polygons are simple and have positive area *)
Section Surface.
Variables (K : OField) (L : Type) (EL : EqB L) (D : L -> Prop) (S : surface K L).
Hypothesis V : valid D S.
Hypothesis C : closed D S.
Hypothesis PRS : forall l P, D l -> s_poly S l = Ok P -> proper P.

(** *** C59: the constructor of tangent vectors *)
(** A tangent vector is accepted if and only if it is not zero, its base point is in the polygon and, at a vertex, it
    points into the polygon. *)
Theorem C59_accepted l P p v : D l -> s_poly S l = Ok P ->
  ((exists t, tangent_vector S l p v = Ok t) <-> v <> vzero /\ in_polygon P p /\ ((exists k, p = vertex P k) -> points_into P p v)) /\
  (forall e, tangent_vector S l p v = Err e -> e = NotImplementedError /\ v = vzero \/ e = ValueError /\ v <> vzero).
Proof.
  intros Dl GP. split; [split|].
  - intros [t E]. destruct (tangent_ok_result D S V C PRS l p v t Dl E) as [_ [N _]]. split; [exact N|].
    assert (X : ~ (~ in_polygon P p \/ (exists k, p = vertex P k) /\ ~ points_into P p v)) by (intros X; rewrite (tangent_reject D S PRS l P p v Dl GP N X) in E; discriminate).
    pose proof (PRS l P Dl GP) as PR. assert (I : in_polygon P p) by (unfold in_polygon; intros Z; apply X; left; intros W; now apply W). split; [exact I|].
    intros [k Ek]. destruct (normal_cases P PR p v N I) as [[_ Y _]|[[e [Le LV]]|[_ Y]]]; [exact Y| |exfalso; apply X; right; split; [now exists k|exact Y]].
    destruct LV as [[Z _]|[Z R]]; [rewrite Ek, (at_vertex' P PR) in Z; discriminate|].
    assert (Z' := at_vertex' P PR (Datatypes.S e)). rewrite <- Z in Z'. pose proof (C58_points_into K P PR p v N) as Y. rewrite Z' in Y. apply Y.
    set (k' := (Datatypes.S e mod length P)%nat) in *. assert (Lk : (k' < length P)%nat) by (apply Nat.mod_upper_bound; lia).
    change (vopp (edge P (k' + length P - 1))) with (prev_edge P k'). rewrite <- (is_between_spec _ _ _ (prev_nz P PR k') (edge_nz P PR k')).
    assert (Q : is_between (prev_edge P k') (edge P k') v = false); [|congruence]. apply between_ray_l; [|now apply prev_nz|now apply edge_nz|].
    + rewrite <- (prev_test P k' Lk). now rewrite (succ_pred P e k').
    + intros Q. now apply (not_back P PR k' Lk), PLocal.same_ray_sym.
  - intros [N [I W]]. destruct (tangent_result D S V C PRS l P p v Dl GP N I) as [t [E _]]; [|now exists t]. intros k E. apply W. now exists k.
  - intros e E. destruct (tangent_error D S V C PRS l P p v e Dl GP E) as [X|[X [Y _]]]; auto.
Qed.
(** The result describes the same tangent vector, in the polygon where a walk in its direction starts. *)
Theorem C59_result l p v t : D l -> tangent_vector S l p v = Ok t -> tv_ok D S t /\ tangent_equiv D S (l, p, v) (raw t).
Proof.
  intros Dl E. destruct (tangent_ok_result D S V C PRS l p v t Dl E) as [O [_ [->|X]]]; (split; [exact O|]); [apply Relation_Operators.rst_refl|now apply Relation_Operators.rst_step].
Qed.
(** Two descriptions give equal results if and only if they describe the same tangent vector; equality is decided by
    comparing coordinates. *)
Theorem C59_equal l p v t l' p' v' t' : D l -> D l' -> tangent_vector S l p v = Ok t -> tangent_vector S l' p' v' = Ok t' ->
  (tangent_equiv D S (l, p, v) (l', p', v') <-> t = t') /\ (tv_eqb t t' = true <-> t = t').
Proof.
  intros Dl Dl' E E'. destruct (C59_result l p v t Dl E) as [O X]. destruct (C59_result l' p' v' t' Dl' E') as [O' X']. split; split.
  - intros Y. apply (equiv_unique D S V PRS); auto. eapply Relation_Operators.rst_trans; [apply Relation_Operators.rst_sym; exact X|]. eapply Relation_Operators.rst_trans; [exact Y|exact X'].
  - intros <-. eapply Relation_Operators.rst_trans; [exact X|]. now apply Relation_Operators.rst_sym.
  - intros Y. unfold tv_eqb in Y. apply andb_true_iff in Y as [Y Y3]. apply andb_true_iff in Y as [Y1 Y2]. apply (proj1 (eqb_ok _ _)) in Y1. apply veqb_eq in Y2. apply veqb_eq in Y3.
    apply (tv_raw D S PRS); auto. unfold raw. now rewrite Y1, Y2, Y3.
  - intros <-. unfold tv_eqb. rewrite !andb_true_iff. split; [split|]; [now apply eqb_ok|now apply veqb_eq|now apply veqb_eq].
Qed.
(** [invert] is defined away from the vertices, and inverting twice does not change anything. *)
Theorem C59_invert t : tv_ok D S t -> (is_based_at_singularity t = true -> tv_invert S t = Err ValueError) /\
  (is_based_at_singularity t = false -> exists u, tv_invert S t = Ok u /\ tv_ok D S u /\ tangent_equiv D S (reversed t) (raw u) /\ tv_invert S u = Ok t).
Proof.
  intros O. split; intros NS; [unfold tv_invert; now rewrite NS|]. destruct (invert_ok D S V C PRS t O NS) as [u [IU [Ou [NSu [IIu EQ]]]]]. exists u. auto.
Qed.
(** [differs_by_scaling] is correct. *)
Theorem C59_scaling t u : tv_ok D S t -> tv_ok D S u -> differs_by_scaling t u = true <-> exists c, flt f0 c /\ u = tv_scale c t.
Proof. intros A B. exact (differs_iff D S PRS t u A B). Qed.

(** *** C60: segments *)
(** The segment through a tangent vector: it starts at or behind its base point. *)
Theorem C60_segment t : tv_ok D S t -> exists s a b, segment_of S t = Ok s /\ straight D S s /\ fle a f0 /\ flt f0 b /\
  raw (sg_start s) = (tv_label t, moved (tv_point t) a (tv_vector t), tv_vector t) /\
  tangent_equiv D S (tv_label t, moved (tv_point t) b (tv_vector t), vopp (tv_vector t)) (raw (sg_end s)).
Proof. intros O. exact (segment_span D S V C PRS t O). Qed.
(** The segments are the ones that are computed from their start, and reversed ones from their end. *)
Theorem C60_ends s : straight D S s <-> tv_ok D S (sg_start s) /\ segment_of S (sg_start s) = Ok s.
Proof. split; [intros A; now destruct (straight_facts D S V C PRS s A) as [O1 [_ [E _]]]|intros [O E]; exact (straight_of D S V C PRS _ s O E)]. Qed.
Theorem C60_reverse s : straight D S s -> segment_of S (sg_end s) = Ok (sg_invert s) /\ straight D S (sg_invert s).
Proof. intros A. destruct (straight_facts D S V C PRS s A) as [_ [_ [_ E]]]. split; [exact E|now apply (straight_invert D S V C PRS)]. Qed.
(** [next] is defined unless the end is a vertex, and there is no other continuation. *)
Theorem C60_next s : straight D S s -> (end_is_singular s = true -> sg_next S s = Err ValueError) /\
  (end_is_singular s = false -> exists s', sg_next S s = Ok s' /\ straight D S s' /\ continues D S s s' /\
     forall s2, straight D S s2 -> continues D S s s2 -> s2 = s').
Proof.
  intros A. split; intros NS; [unfold sg_next; now rewrite NS|]. assert (I : is_segment D S s) by now apply (segment_straight D S V C PRS).
  destruct (next_ok D S V C PRS s I NS) as [s' [u [E [I' _]]]]. assert (A' : straight D S s') by now apply (segment_straight D S V C PRS). exists s'. split; [exact E|]. split; [exact A'|].
  split; [now apply (continues_iff D S V C PRS s s' A A')|]. intros s2 A2 X. apply (continues_iff D S V C PRS s s2 A A2) in X. congruence.
Qed.
(** [previous] is the inverse of [next] if neither end is a vertex. Missing: the case that only the end is a vertex, see
    C60_previous_refuted. *)
Theorem C60_previous_partial s : straight D S s -> end_is_singular s = false ->
  (start_is_singular s = true -> sg_previous S s = Err ValueError) /\
  (start_is_singular s = false -> exists s', sg_previous S s = Ok s' /\ straight D S s' /\ continues D S s' s /\ sg_next S s' = Ok s).
Proof.
  intros A NE. split; intros NS; [unfold sg_previous, tv_invert; rewrite NE; unfold start_is_singular in NS; now rewrite NS|].
  destruct (previous_ok D S V C PRS s A NE NS) as [s' [E [A' X]]]. exists s'. split; [exact E|]. split; [exact A'|]. split; [exact X|]. now apply (continues_iff D S V C PRS s' s A' A).
Qed.
(** [is_edge] *)
Theorem C60_is_edge s : straight D S s -> exists b, sg_is_edge S s = Ok b /\
  (b = true <-> exists P e, s_poly S (tv_label (sg_start s)) = Ok P /\ e < length P /\ tv_point (sg_start s) = vertex P e /\ pos_multiple (edge P e) (tv_vector (sg_start s))).
Proof. exact (is_edge_iff D S V C PRS s). Qed.

(** *** C61: trajectories *)
Theorem C61_start t : tv_ok D S t -> exists j s, trajectory_of S t = Ok j /\ traj D S j /\ segment_of S t = Ok s /\ tj_segments j = [s].
Proof. exact (trajectory_ok D S V C PRS t). Qed.
(** Flowing forward adds segments at the end until the trajectory meets a vertex or closes up. *)
Theorem C61_forward n j : (0 <= n)%Z -> traj D S j -> exists j' post, flow S n j = Ok j' /\ traj D S j' /\
  tj_segments j' = tj_segments j ++ post /\ tj_backward j' = tj_backward j /\ (Z.of_nat (length post) <= n)%Z /\
  ((Z.of_nat (length post) < n)%Z -> is_forward_separatrix j' = true \/ is_closed j' = Ok true).
Proof.
  intros N T. destruct (flow_forward_ok D S V C PRS (Z.to_nat n) j T) as [j' [post [E [T' [E1 [E2 [L1 L2]]]]]]]. exists j', post. split.
  - unfold flow. destruct (Z.ltb_spec 0 n); [exact E|]. replace n with 0%Z in * by lia. cbn in E. exact E.
  - split; [exact T'|]. split; [exact E1|]. split; [exact E2|]. split; [lia|]. intros X. destruct L2 as [L2|L2]; [lia| |now right]. left. unfold is_forward_separatrix. now rewrite L2.
Qed.
(** Nothing happens if the trajectory is closed or ends at a vertex. *)
Theorem C61_stop n j : traj D S j -> is_closed j = Ok true \/ (0 <= n)%Z /\ is_forward_separatrix j = true \/ (n <= 0)%Z /\ is_backward_separatrix j = true -> flow S n j = Ok j.
Proof.
  intros T H. unfold flow, is_forward_separatrix, is_backward_separatrix in *. pose proof (traj_reverse D S V C PRS j T) as T'. pose proof (closed_reverse D S V C PRS j T) as CR.
  destruct (Z.ltb_spec 0 n).
  - destruct (Z.to_nat n); [reflexivity|]. cbn [flow_forward]. destruct (tj_forward j) eqn:E; [|reflexivity]. destruct H as [H|[[_ H]|[H _]]]; [now rewrite H|discriminate H|lia].
  - destruct (Z.ltb_spec n 0); [|reflexivity]. destruct (Z.to_nat (- n)); [reflexivity|]. cbn [flow_backward]. destruct (tj_backward j) eqn:E; [|reflexivity].
    destruct H as [H|[[H _]|[_ H]]]; [now rewrite H|lia|discriminate H].
Qed.
(** Flowing backward is flowing forward on the reversed trajectory. *)
Theorem C61_backward n j : traj D S j -> traj D S (tj_reverse j) /\ is_closed (tj_reverse j) = is_closed j /\
  flow S (- n) j = bind (flow S n (tj_reverse j)) (fun x => Ok (tj_reverse x)).
Proof.
  intros T. pose proof (traj_reverse D S V C PRS j T) as T'. split; [exact T'|]. split; [exact (closed_reverse D S V C PRS j T)|].
  unfold flow. destruct (Z.ltb_spec 0 n), (Z.ltb_spec n 0), (Z.ltb_spec 0 (- n)), (Z.ltb_spec (- n) 0); try lia.
  - rewrite Z.opp_involutive. exact (flow_backward_reverse D S V C PRS _ j T).
  - rewrite (flow_backward_reverse D S V C PRS _ _ T'). rewrite (reverse_reverse j). destruct (flow_forward S (Z.to_nat (- n)) j) as [x|]; cbn [bind]; [|reflexivity]. now rewrite (reverse_reverse x).
  - cbn [bind]. now rewrite (reverse_reverse j).
Qed.
Theorem C61_add m n j : (0 <= m)%Z -> (0 <= n)%Z -> traj D S j -> flow S (m + n) j = bind (flow S m j) (flow S n).
Proof.
  intros M N T. assert (X : forall k i, (0 <= k)%Z -> flow S k i = flow_forward S (Z.to_nat k) i).
  { intros k i Hk. unfold flow. destruct (Z.ltb_spec 0 k); [reflexivity|]. replace k with 0%Z by lia. reflexivity. }
  rewrite !X by lia. rewrite Z2Nat.inj_add by lia. rewrite (flow_add S). destruct (flow_forward S (Z.to_nat m) j) as [x|]; cbn [bind]; [|reflexivity]. now rewrite X.
Qed.
(** A trajectory is closed if its next segment would be the first one again, up to scaling. *)
Theorem C61_closed j : traj D S j -> (is_closed j = Ok true <-> exists f s ss c, tj_forward j = Some f /\ tj_segments j = s :: ss /\ flt f0 c /\ f = tv_scale c (sg_start s)) /\
  (is_closed j = Ok true -> exists f s ss c, tj_forward j = Some f /\ tj_segments j = s :: ss /\ flt f0 c /\ segment_of S f = Ok (sg_scale c s)).
Proof.
  intros T. pose proof (closed_spec D S V C PRS j T) as X. split; [exact X|]. intros E. apply X in E. destruct E as [f [s [ss [c [E1 [E2 [C0 E3]]]]]]]. exists f, s, ss, c.
  split; [exact E1|]. split; [exact E2|]. split; [exact C0|]. rewrite E3. assert (A : straight D S s) by (apply (tr_straight _ _ _ T); rewrite E2; now left).
  destruct (straight_facts D S V C PRS s A) as [O1 [_ [E4 _]]]. exact (segment_scale D S V C PRS c _ s C0 O1 E4).
Qed.
(** A trajectory is a saddle connection if it starts and ends at vertices. *)
Theorem C61_saddle j s ss s' ss' : traj D S j -> tj_segments j = s :: ss -> tj_segments j = ss' ++ [s'] ->
  is_saddle_connection j = start_is_singular s && end_is_singular s'.
Proof.
  intros T E1 E2. destruct T as [_ _ T1 T2]. destruct T1 as [s0 [ss0 [F1 X1]]], T2 as [s1 [ss1 [F2 X2]]].
  assert (Q : s0 = s) by congruence. subst s0. rewrite E2 in F2. apply app_inj_tail in F2 as [_ Q]. subst s1.
  unfold is_saddle_connection, is_forward_separatrix, is_backward_separatrix, start_is_singular, end_is_singular.
  destruct (tj_forward j), (tj_backward j); cbn [continuation] in X1, X2;
    [destruct X1 as [X1 _], X2 as [X2 _]|destruct X2 as [X2 _]|destruct X1 as [X1 _]|]; rewrite X1, X2; reflexivity.
Qed.
End Surface.
Print Assumptions C59_accepted.
Print Assumptions C59_result.
Print Assumptions C59_equal.
Print Assumptions C59_invert.
Print Assumptions C59_scaling.
Print Assumptions C60_segment.
Print Assumptions C60_ends.
Print Assumptions C60_reverse.
Print Assumptions C60_next.
Print Assumptions C60_previous_partial.
Print Assumptions C60_is_edge.
Print Assumptions C61_start.
Print Assumptions C61_forward.
Print Assumptions C61_stop.
Print Assumptions C61_backward.
Print Assumptions C61_add.
Print Assumptions C61_closed.
Print Assumptions C61_saddle.

(** ** Examples and counterexamples *)
(** In the notched polygon: a walk from the interior, a walk along an edge, a walk that starts to the outside at a vertex
    and does not come back. *)
Definition exit_report (r : res (vec cqF * position)) : option (Q * Q * position) :=
  match r with Ok (x, p) => Some (cqv (fst x), cqv (snd x), p) | Err _ => None end.
Example C58_ex :
  map exit_report [flow_to_exit notched (qv 1 1) (qv 4 (-1)); flow_to_exit notched (qv 1 0) (qv 2 0); flow_to_exit notched (qv 1 2) (qv 1 (-1)); flow_to_exit notched (qv 0 0) (qv (-1) (-1))] =
    [Some (4, 1#4, EdgeInterior 1); Some (4, 0, AtVertex 1); Some (2, 1, AtVertex 3); None]%Q.
Proof. vm_compute. reflexivity. Qed.
Example C58_hyps : points_into notched (qv 1 1) (qv 1 0) /\ points_into notched (qv 1 0) (qv 2 0) /\ ~ points_into notched (qv 3 (5#2)) (qv (-1) 0).
Proof.
  assert (N1 : qv 1 0 <> vzero) by (intros E; apply (f_equal (fun v : vec cqF => cqv (fst v))) in E; vm_compute in E; discriminate).
  assert (N2 : qv 2 0 <> vzero) by (intros E; apply (f_equal (fun v : vec cqF => cqv (fst v))) in E; vm_compute in E; discriminate).
  assert (N3 : qv (-1) 0 <> vzero) by (intros E; apply (f_equal (fun v : vec cqF => cqv (fst v))) in E; vm_compute in E; discriminate).
  pose proof (C58_points_into cqF notched notched_proper (qv 1 1) _ N1) as A. pose proof (C58_points_into cqF notched notched_proper (qv 1 0) _ N2) as B.
  pose proof (C58_points_into cqF notched notched_proper (qv 3 (5#2)) _ N3) as C.
  replace (get_point_position notched (qv 1 1)) with Interior in A by (vm_compute; reflexivity).
  replace (get_point_position notched (qv 1 0)) with (EdgeInterior 0) in B by (vm_compute; reflexivity).
  replace (get_point_position notched (qv 3 (5#2))) with (EdgeInterior 2) in C by (vm_compute; reflexivity).
  split; [exact A|]. split; [apply B; unfold fle; vm_compute; reflexivity|]. intros X. apply C in X. unfold fle in X. vm_compute in X. discriminate.
Qed.
(** If the point is on the boundary and the direction points to the outside, the documented behaviour would be to stay or
    to raise an error. But the code accepts it if the ray meets the polygon again: the walk is outside of the polygon. *)
Theorem C58_outward_refuted : ~ (forall (K : OField) (P : polygon K) p v x pos t, proper P -> v <> vzero -> in_polygon P p ->
  flow_to_exit P p v = Ok (x, pos) -> x = moved p t v -> forall s, flt f0 s -> flt s t -> in_polygon P (moved p s v)).
Proof.
  intros H. specialize (H cqF notched (qv 3 (5#2)) (qv (-1) 0) (qv (3#2) (5#2)) (EdgeInterior 3) (Q2cq (3#2)) notched_proper).
  refine (H _ _ _ _ (Q2cq 1) _ _ _).
  - intros E; apply (f_equal (fun v : vec cqF => cqv (fst v))) in E; vm_compute in E; discriminate.
  - unfold in_polygon. vm_compute. discriminate.
  - assert (X : match flow_to_exit notched (qv 3 (5#2)) (qv (-1) 0) with Ok (x, EdgeInterior 3) => veqb x (qv (3#2) (5#2)) | _ => false end = true) by (vm_compute; reflexivity).
    destruct (flow_to_exit notched (qv 3 (5#2)) (qv (-1) 0)) as [[x pos]|]; [|discriminate X]. destruct pos as [| |[|[|[|[|]]]]|]; try discriminate X. apply veqb_eq in X. now rewrite X.
  - apply veqb_eq. vm_compute. reflexivity.
  - vm_compute. reflexivity.
  - vm_compute. reflexivity.
  - vm_compute. reflexivity.
Qed.
Print Assumptions C58_outward_refuted.

(** The translation surface from the L-shaped polygon. *)
Definition ell : table cqF := ([[qv 0 0; qv 1 0; qv 2 0; qv 2 1; qv 1 1; qv 1 2; qv 0 2; qv 0 1]],
  [((0, 0), (0, 5)); ((0, 1), (0, 3)); ((0, 2), (0, 7)); ((0, 4), (0, 6))]).
Definition ellS : surface cqF Z := ztab ell.
Definition ellD (l : Z) : Prop := zdom ell l = true.
Lemma ell_valid : valid ellD ellS.
Proof. apply ztab_valid. vm_compute. reflexivity. Qed.
Lemma ell_closed : closed ellD ellS.
Proof. apply ztab_closed. vm_compute. reflexivity. Qed.
Lemma ell_proper : forall l P, ellD l -> s_poly ellS l = Ok P -> proper P.
Proof.
  intros l P Dl E. destruct (ztab_proper ell) with (l := l) as [P' [E' PR]]; [vm_compute; reflexivity|exact Dl|]. unfold ellS in E. rewrite E' in E. injection E as <-. exact PR.
Qed.
Definition position_eqb (a b : position) : bool := match a, b with
  | Outside, Outside | Interior, Interior => true
  | EdgeInterior e, EdgeInterior f | AtVertex e, AtVertex f => e =? f
  | _, _ => false end.
Lemma position_eqb_eq a b : position_eqb a b = true -> a = b.
Proof. destruct a, b; cbn; intros X; try discriminate X; try reflexivity; apply Nat.eqb_eq in X; now rewrite X. Qed.
(** A tangent vector as numbers. *)
Definition tv_report (t : tvec cqF Z) : (Q * Q) * (Q * Q) * position :=
  (cqv (fst (tv_point t)), cqv (snd (tv_point t)), (cqv (fst (tv_vector t)), cqv (snd (tv_vector t))), tv_position t).
Definition res_report {A B} (f : A -> B) (r : res A) : B + exn := match r with Ok x => inl (f x) | Err e => inr e end.
Definition seg_report (s : segment cqF Z) := (fst (fst (tv_report (sg_start s))), fst (fst (tv_report (sg_end s)))).
(** vectors at an edge in both directions, along an edge, at a vertex, and rejected ones *)
Example C59_ex :
  map (fun x => res_report tv_report (tangent_vector ellS 0%Z (fst x) (snd x)))
    [(qv (1#2) 0, qv 1 1); (qv (1#2) 0, qv 1 (-1)); (qv (1#2) 0, qv (-1) 0); (qv 1 1, qv (-1) 0); (qv 1 1, qv 1 0); (qv 1 1, qv 1 1); (qv 3 1, qv 1 1); (qv 1 (1#2), qv 0 0)] =
  [inl ((1#2, 0), (1, 1), EdgeInterior 0); inl ((1#2, 2), (1, -(1)), EdgeInterior 5); inl ((1#2, 2), (-(1), 0), EdgeInterior 5); inl ((1, 1), (-(1), 0), AtVertex 4);
   inl ((1, 0), (1, 0), AtVertex 1); inr ValueError; inr ValueError; inr NotImplementedError]%Q.
Proof. vm_compute. reflexivity. Qed.
(** A tangent vector of the L-shaped surface that satisfies the hypotheses of the theorems. *)
Definition ell_tv : tvec cqF Z := TVec 0%Z (qv (1#2) (1#4)) (qv 1 2) Interior.
Lemma ell_make (t : tvec cqF Z) (l : Z) p v : ellD l -> match tangent_vector ellS l p v with Ok u => tv_eqb t u && position_eqb (tv_position t) (tv_position u) | Err _ => false end = true ->
  tangent_vector ellS l p v = Ok t /\ tv_ok ellD ellS t.
Proof.
  intros Dl. destruct (tangent_vector ellS l p v) as [u|] eqn:E; [|discriminate]. intros X. apply andb_true_iff in X as [X Y]. unfold tv_eqb in X. apply andb_true_iff in X as [X X3]. apply andb_true_iff in X as [X1 X2].
  apply (proj1 (eqb_ok _ _)) in X1. apply veqb_eq in X2. apply veqb_eq in X3. apply position_eqb_eq in Y.
  assert (Q : t = u) by (destruct t, u; cbn in X1, X2, X3, Y; now rewrite X1, X2, X3, Y). rewrite Q. split; [reflexivity|].
  exact (proj1 (C59_result cqF Z ellD ellS ell_valid ell_closed ell_proper l p v u Dl E)).
Qed.

Lemma ell_tv_ok : tangent_vector ellS 0%Z (qv (1#2) (1#4)) (qv 1 2) = Ok ell_tv /\ tv_ok ellD ellS ell_tv.
Proof. apply ell_make; vm_compute; reflexivity. Qed.
(** two descriptions of the same tangent vector *)
Example C59_equal_ex : tangent_vector ellS 0%Z (qv (1#2) 0) (qv 1 (-1)) = tangent_vector ellS 0%Z (qv (1#2) 2) (qv 1 (-1)) /\
  tangent_equiv ellD ellS (0%Z, qv (1#2) 0, qv 1 (-1)) (0%Z, qv (1#2) 2, qv 1 (-1)).
Proof.
  set (t := TVec (K := cqF) 0%Z (qv (1#2) 2) (qv 1 (-1)) (EdgeInterior 5)).
  destruct (ell_make t 0%Z (qv (1#2) 0) (qv 1 (-1))) as [A _]; [vm_compute; reflexivity|vm_compute; reflexivity|].
  destruct (ell_make t 0%Z (qv (1#2) 2) (qv 1 (-1))) as [B _]; [vm_compute; reflexivity|vm_compute; reflexivity|].
  assert (D0 : ellD 0%Z) by (vm_compute; reflexivity). split; [now rewrite A, B|]. apply (proj1 (C59_equal cqF Z _ ellD ellS ell_valid ell_closed ell_proper _ _ _ t _ _ _ t D0 D0 A B)). reflexivity.
Qed.
Example C59_invert_ex : res_report tv_report (tv_invert ellS ell_tv) = inl ((1#2, 1#4), (-(1), -(2)), Interior)%Q.
Proof. vm_compute. reflexivity. Qed.
(** The segment through [ell_tv] and the segments before and after it. *)
Example C60_ex :
  res_report seg_report (segment_of ellS ell_tv) = inl ((3#8, 0), (1, 5#4))%Q /\
  res_report seg_report (bind (segment_of ellS ell_tv) (sg_next ellS)) = inl ((0, 5#4), (3#8, 2))%Q /\
  res_report seg_report (bind (segment_of ellS ell_tv) (sg_previous ellS)) = inl ((0, 5#4), (3#8, 2))%Q.
Proof. split; [|split]; vm_compute; reflexivity. Qed.
(** A trajectory that closes up after two segments, and a saddle connection. *)
Definition tj_report (j : trajectory cqF Z) := (map seg_report (tj_segments j), is_saddle_connection j, res_report (fun b : bool => b) (is_closed j)).
Example C61_ex :
  res_report tj_report (bind (trajectory_of ellS ell_tv) (flow ellS 10)) = inl ([((3#8, 0), (1, 5#4)); ((0, 5#4), (3#8, 2))], false, inl true)%Q /\
  res_report tj_report (bind (trajectory_of ellS ell_tv) (flow ellS (-1))) = inl ([((0, 5#4), (3#8, 2)); ((3#8, 0), (1, 5#4))], false, inl true)%Q /\
  res_report tj_report (bind (bind (tangent_vector ellS 0%Z (qv 0 0) (qv 2 3)) (trajectory_of ellS)) (flow ellS 10)) =
    inl ([((0, 0), (1, 3#2)); ((0, 3#2), (1#3, 2)); ((1#3, 0), (1, 1))], true, inl false)%Q /\
  exists j s, trajectory_of ellS ell_tv = Ok j /\ traj ellD ellS j /\ segment_of ellS ell_tv = Ok s /\ tj_segments j = [s].
Proof.
  split; [|split; [|split]]; [vm_compute; reflexivity|vm_compute; reflexivity|vm_compute; reflexivity|].
  exact (C61_start cqF Z ellD ellS ell_valid ell_closed ell_proper ell_tv (proj2 ell_tv_ok)).
Qed.
(** The segment from (1/2, 0) to the vertex (1, 1) has a predecessor, but [previous] raises an error since it tests the
    end instead of the start. *)
Theorem C60_previous_refuted : ~ (forall (K : OField) (L : Type) (D : L -> Prop) (S : surface K L), valid D S -> closed D S -> (forall l P, D l -> s_poly S l = Ok P -> proper P) ->
  forall s s', straight D S s -> straight D S s' -> continues D S s' s -> sg_previous S s = Ok s').
Proof.
  intros H. specialize (H cqF Z ellD ellS ell_valid ell_closed ell_proper).
  set (t := TVec (K := cqF) 0%Z (qv (1#2) 0) (qv (1#2) 1) (EdgeInterior 0)).
  destruct (ell_make t 0%Z (qv (1#2) 0) (qv (1#2) 1)) as [_ O]; [vm_compute; reflexivity|vm_compute; reflexivity|].
  assert (R : match segment_of ellS t with Ok s => end_is_singular s && negb (start_is_singular s) | Err _ => false end = true) by (vm_compute; reflexivity).
  destruct (segment_of ellS t) as [s|] eqn:E; [|discriminate R]. apply andb_true_iff in R as [R1 R2]. apply negb_true_iff in R2.
  assert (A : straight ellD ellS s) by exact (straight_of ellD ellS ell_valid ell_closed ell_proper t s O E).
  pose proof (straight_invert ellD ellS ell_valid ell_closed ell_proper s A) as A'.
  destruct (C60_next cqF Z ellD ellS ell_valid ell_closed ell_proper (sg_invert s) A') as [_ X]. destruct (X R2) as [s' [_ [B [CO _]]]].
  pose proof (straight_invert ellD ellS ell_valid ell_closed ell_proper s' B) as B'.
  assert (CO' : continues ellD ellS (sg_invert s') s).
  { pose proof (continues_invert ellD ellS ell_valid ell_closed ell_proper _ _ A' B CO) as Y. destruct s. exact Y. }
  specialize (H s (sg_invert s') A B' CO'). unfold sg_previous in H. rewrite R1 in H. discriminate H.
Qed.
Print Assumptions C60_previous_refuted.
