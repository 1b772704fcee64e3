(** Theorems C14, C15, C16: vectors, segments, lines and rays. *)
From Coq Require Import Bool List ZArith QArith.
From Verif Require Import OField MBase MEuclid SEuclid PEuclid.

(** ** C14 *)
Theorem C14_is_parallel (K : OField) (v w : vec K) :
  is_parallel v w = true <-> pos_multiple v w.
Proof. exact (is_parallel_spec v w). Qed.
Print Assumptions C14_is_parallel.

Theorem C14_is_anti_parallel (K : OField) (v w : vec K) :
  is_anti_parallel v w = true <-> neg_multiple v w.
Proof. exact (is_anti_parallel_spec v w). Qed.
Print Assumptions C14_is_anti_parallel.

Theorem C14_is_between (K : OField) (e0 e1 f : vec K) :
  e0 <> vzero -> e1 <> vzero -> (is_between e0 e1 f = true <-> sector e0 e1 f).
Proof. exact (is_between_spec e0 e1 f). Qed.
Print Assumptions C14_is_between.

Definition qv (x y : Q) : vec cqF := (Q2cq x, Q2cq y).

Example C14_ex_parallel : is_parallel (qv 1 2) (qv (1#2) 1) = true /\ is_parallel (qv 1 2) (qv (-1#2) (-1)) = false
  /\ is_anti_parallel (qv 1 2) (qv (-1#2) (-1)) = true /\ is_parallel (qv 1 2) (qv 2 1) = false.
Proof. vm_compute. auto. Qed.
(** a sector of three quarters of a turn *)
Example C14_ex_between : qv 0 1 <> vzero /\ qv 1 0 <> vzero /\
  is_between (qv 0 1) (qv 1 0) (qv (-1) (-1)) = true /\ is_between (qv 0 1) (qv 1 0) (qv 1 1) = false.
Proof. vm_compute. repeat split; discriminate. Qed.

(** ** C15 *)
Theorem C15_segments (K : OField) (s t : vec K * vec K) :
  fst s <> snd s -> fst t <> snd t ->
  exists n, is_segment_intersecting s t = Ok n /\
    (n = 0%nat <-> ~ exists p, on_segment s p /\ on_segment t p) /\
    (n = 1%nat <-> exists p, is_endpoint s p /\ is_endpoint t p /\
                     forall q, on_segment s q /\ on_segment t q -> q = p) /\
    (n = 2%nat <-> (exists p, on_segment s p /\ on_segment t p) /\
               ~ exists p, is_endpoint s p /\ is_endpoint t p /\
                     forall q, on_segment s q /\ on_segment t q -> q = p).
Proof.
  intros Hs Ht. destruct (segment_spec s t Hs Ht) as [n [E S]]. exists n. split; [exact E|].
  split; [|split]; (split; [intros ->; inversion S; auto|]).
  - intros H. exact (seg_spec_unique _ _ _ _ S (seg_disjoint _ _ H)).
  - intros H. exact (seg_spec_unique _ _ _ _ S (seg_touch _ _ H)).
  - intros [H1 H2]. exact (seg_spec_unique _ _ _ _ S (seg_meet _ _ H1 H2)).
Qed.
Print Assumptions C15_segments.

Theorem C15_symmetric (K : OField) (s t : vec K * vec K) :
  is_segment_intersecting s t = is_segment_intersecting t s /\
  is_segment_intersecting (snd s, fst s) t = is_segment_intersecting s t.
Proof.
  destruct (vec_dec (fst s) (snd s)) as [A|A].
  { rewrite !segment_degenerate; auto. }
  destruct (vec_dec (fst t) (snd t)) as [B|B].
  { rewrite !segment_degenerate; auto. }
  destruct (segment_spec s t A B) as [n [E S]]. destruct (segment_spec t s B A) as [m [F T]].
  assert (A' : fst (swap s) <> snd (swap s)) by (cbn; congruence).
  destruct (segment_spec (swap s) t A' B) as [k [G U]].
  rewrite E, F. split.
  - f_equal. apply (seg_spec_unique s t); auto. now apply seg_spec_sym.
  - unfold swap in G. rewrite G. f_equal. apply (seg_spec_unique s t); auto. now apply seg_spec_swap_l.
Qed.
Print Assumptions C15_symmetric.

Theorem C15_degenerate (K : OField) (s t : vec K * vec K) :
  is_segment_intersecting s t = Err ValueError <-> fst s = snd s \/ fst t = snd t.
Proof.
  split; [|exact (segment_degenerate s t)].
  intros E. destruct (vec_dec (fst s) (snd s)) as [A|A]; auto.
  destruct (vec_dec (fst t) (snd t)) as [B|B]; auto.
  destruct (segment_spec s t A B) as [n [F _]]. congruence.
Qed.
Print Assumptions C15_degenerate.

(** crossing, sharing an end point, a T shape, disjoint parallel, overlapping *)
Example C15_ex :
  is_segment_intersecting (qv 0 0, qv 2 2) (qv 0 2, qv 2 0) = Ok 2%nat /\
  is_segment_intersecting (qv 0 0, qv 2 2) (qv 2 2, qv 3 0) = Ok 1%nat /\
  is_segment_intersecting (qv 0 0, qv 2 0) (qv 1 0, qv 1 5) = Ok 2%nat /\
  is_segment_intersecting (qv 0 0, qv 2 0) (qv 0 1, qv 2 1) = Ok 0%nat /\
  is_segment_intersecting (qv 0 0, qv 0 2) (qv 0 3, qv 0 1) = Ok 2%nat /\
  is_segment_intersecting (qv 0 0, qv 0 0) (qv 0 3, qv 0 1) = Err ValueError.
Proof. vm_compute. auto 10. Qed.

(** ** C16 *)
Theorem C16_line_intersection (K : OField) (p1 p2 q1 q2 : vec K) :
  (line_intersection p1 p2 q1 q2 = None <-> ccw (vsub p2 p1) (vsub q2 q1) = 0%F) /\
  (forall p, line_intersection p1 p2 q1 q2 = Some p ->
    forall q, (on_line p1 p2 q /\ on_line q1 q2 q) <-> q = p).
Proof. exact (conj (line_intersection_none p1 p2 q1 q2) (line_intersection_some p1 p2 q1 q2)). Qed.
Print Assumptions C16_line_intersection.

Theorem C16_solve (K : OField) (x u y v : vec K) :
  (ccw u v = 0%F -> solve x u y v = Err ValueError) /\
  (ccw u v <> 0%F -> exists a b, solve x u y v = Ok (a, b) /\
    forall a' b', vadd x (vscale a' u) = vadd y (vscale b' v) <-> (a', b') = (a, b)).
Proof. exact (solve_spec x u y v). Qed.
Print Assumptions C16_solve.

Theorem C16_ray_segment (K : OField) (p d : vec K) (s : vec K * vec K) :
  d <> vzero ->
  forall q, ray_set (ray_segment_intersection p d s) q <-> (on_ray p d q /\ on_segment s q).
Proof. exact (ray_segment_intersection_spec p d s). Qed.
Print Assumptions C16_ray_segment.

Example C16_ex :
  line_intersection (qv 0 0) (qv 1 1) (qv 0 4) (qv 1 3) = Some (qv 2 2) /\
  line_intersection (qv 0 0) (qv 1 1) (qv 0 4) (qv 2 6) = None /\
  solve (qv 0 0) (qv 1 1) (qv 0 4) (qv 1 (-1)) = Ok (Q2cq 2, Q2cq 2) /\
  ray_segment_intersection (qv 0 0) (qv 1 0) (qv 2 (-1), qv 3 1) = RPoint (qv (5#2) 0) /\
  ray_segment_intersection (qv 0 0) (qv 2 0) (qv 3 0, qv (-1) 0) = RSegment (qv 0 0) (qv 3 0) /\
  ray_segment_intersection (qv 0 0) (qv (-1) 0) (qv 2 (-1), qv 3 1) = RNone /\
  qv 2 0 <> vzero.
Proof. vm_compute. repeat split; try reflexivity; discriminate. Qed.
