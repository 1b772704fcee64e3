(** Final theorems: positions of points in polygons. *)
From Coq Require Import List Bool ZArith Arith Lia Ring Field QArith.
From Verif Require Import OField FMicromega PField MBase MEuclid SEuclid PEuclid PSimple TEuclid MSim SSim MPoly PPoly SPoint PPoint PSurf3 SCut SEar PJordan PJordan2 PJordan5 PPos PPos2 MEar TEar.
Import ListNotations.
Local Open Scope nat_scope.

Section C.
Context {K : OField}.
Add Field KF : (of_ft K).
Local Open Scope F_scope.
Lemma open_not_end (u w : vec K) (t : K) : w <> vzero -> 0 < t -> t < 1 -> vadd u (vscale t w) <> u /\ vadd u (vscale t w) <> vadd u w.
Proof.
  intros N T0 T1. destruct u as [u1 u2], w as [w1 w2]. split; intros E; injection E as E1 E2; apply N; apply vec_eq; cbn in *.
  - assert (X : t * w1 = 0) by flra. apply fmul_eq0 in X. destruct X; auto. flra.
  - assert (X : t * w2 = 0) by flra. apply fmul_eq0 in X. destruct X; auto. flra.
  - assert (X : (1 - t) * w1 = 0) by flra. apply fmul_eq0 in X. destruct X; auto. flra.
  - assert (X : (1 - t) * w2 = 0) by flra. apply fmul_eq0 in X. destruct X; auto. flra.
Qed.
Definition on_open (P : polygon K) e q := (e < length P)%nat /\ exists t, 0 < t /\ t < 1 /\ q = vadd (vertex P e) (vscale t (edge P e)).
Lemma open_side P e q : on_open P e q -> on_segment (side P e) q.
Proof. intros [_ [t [T0 [T1 ->]]]]. exists t. unfold side. cbn [fst snd]. split; [flra|split; [flra|reflexivity]]. Qed.
Lemma open_ends (P : polygon K) e q : proper P -> on_open P e q -> q <> vertex P e /\ q <> vertex P (S e).
Proof.
  intros [_ [NE _]] [_ [t [T0 [T1 ->]]]]. destruct (open_not_end (vertex P e) (edge P e) t (NE e) T0 T1) as [A B]. split; auto.
  intros E. apply B. rewrite E. unfold edge. destruct (vertex P e), (vertex P (S e)); apply vec_eq; cbn; ring.
Qed.
Lemma open_unique P e j q : proper P -> on_open P e q -> (j < length P)%nat -> on_segment (side P j) q -> j = e.
Proof.
  intros PR O L S. destruct (Nat.eq_dec j e) as [|N]; auto. exfalso. pose proof (open_ends P e q PR O) as [A B]. pose proof (open_side P e q O) as S'.
  pose proof PR as [_ [_ [SI _]]]. destruct (SI e j q) as [[_ E]|[E E']]; auto; [apply O|now rewrite Nat.add_1_r in E|].
  apply A. rewrite E', E. symmetry. apply vertex_mod.
Qed.
Lemma level (p q v : vec K) : snd p = snd q -> on_segment (p, q) v -> snd v = snd p.
Proof. intros E [t [_ [_ ->]]]. destruct p, q. cbn in *. subst. ring. Qed.
End C.

(** A point is reported at a vertex or in the interior of an edge exactly if it is there. *)
Theorem C57_vertex (K : OField) (P : polygon K) q k : proper P -> get_point_position P q = AtVertex k <-> k < length P /\ q = vertex P k.
Proof.
  intros PR. assert (ND : nondeg P) by (destruct PR as [A [B _]]; split; auto). pose proof (position_spec P q ND) as Q. split.
  - intros E. now rewrite E in Q.
  - intros [L E]. assert (O : on_segment (side P k) q) by (rewrite E; apply on_seg_l). pose proof (proj1 (proper_simpleL P) PR) as [[NDP _] _].
    destruct (get_point_position P q) as [| |e|j].
    + exfalso. now apply (Q k).
    + exfalso. now apply (Q k).
    + exfalso. destruct Q as [_ [_ Q]]. now apply (Q k).
    + destruct Q as [Lj Q]. f_equal. apply (proj1 (nodup_vertex P) NDP); auto. congruence.
Qed.
Print Assumptions C57_vertex.
Theorem C57_edge (K : OField) (P : polygon K) q e : proper P -> get_point_position P q = EdgeInterior e <->
  e < length P /\ exists t, flt f0 t /\ flt t f1 /\ q = vadd (vertex P e) (vscale t (edge P e)).
Proof.
  intros PR. assert (ND : nondeg P) by (destruct PR as [A [B _]]; split; auto). pose proof (position_spec P q ND) as Q. split.
  - intros E. rewrite E in Q. destruct Q as [A [B _]]. auto.
  - intros O. pose proof (open_side P e q O) as S. destruct (get_point_position P q) as [| |j|j].
    + exfalso. now apply (Q e).
    + exfalso. now apply (Q e).
    + f_equal. destruct Q as [Lj [Q _]]. apply (open_unique P e j q PR O Lj). apply open_side. split; auto.
    + exfalso. destruct Q as [Lj Q]. assert (J : j = e) by (apply (open_unique P e j q PR O Lj); rewrite Q; apply on_seg_l).
      subst j. destruct (open_ends P e q PR O) as [A _]. now apply A.
Qed.
Print Assumptions C57_edge.

(** Inside and outside: along a segment that does not run through a vertex the position changes with every edge that is crossed. *)
Theorem C57_parity (K : OField) (P : polygon K) p q es : proper P -> (forall i, ~ on_segment (side P i) p) -> (forall i, ~ on_segment (side P i) q) ->
  (forall i, ~ on_segment (p, q) (vertex P i)) ->
  NoDup es -> (forall i, In i es <-> i < length P /\ exists x, on_segment (side P i) x /\ on_segment (p, q) x) ->
  get_point_position P p = get_point_position P q <-> Nat.even (length es) = true.
Proof. apply position_parity. Qed.
Print Assumptions C57_parity.
(** Points that a line separates from the vertices are outside. Together with the parity this determines the position of each
    point that is not on an edge. *)
Theorem C57_outside (K : OField) (P : polygon K) q (d : vec K) : proper P ->
  (forall i, i < length P -> flt (dot d q) (dot d (vertex P i))) -> get_point_position P q = Outside.
Proof. apply position_separated. Qed.
Print Assumptions C57_outside.
(** Convex polygons, straight angles allowed: the interior is the set of points on the left of all edges. *)
Theorem C57_convex (K : OField) (P : polygon K) q : proper P -> is_convex false P = true ->
  (get_point_position P q <> Outside <-> left_or_on P q) /\ (get_point_position P q = Interior <-> strictly_left P q).
Proof. intros PR CV. now apply position_convex. Qed.
Print Assumptions C57_convex.
(** [is_convex] decides whether the set of points of the polygon is convex. *)
Theorem C57_is_convex (K : OField) (P : polygon K) : proper P -> is_convex false P = true <->
  (forall p q x, get_point_position P p <> Outside -> get_point_position P q <> Outside -> on_segment (p, q) x -> get_point_position P x <> Outside).
Proof. apply convex_region. Qed.
Print Assumptions C57_is_convex.

(** positions in the notched polygon; the segment from the notch to the right meets one edge *)
Example C57_ex :
  get_point_position notched (qv 2 3) = Outside /\ get_point_position notched (qv (7#2) 3) = Interior /\
  get_point_position notched (qv 4 3) = EdgeInterior 1 /\ get_point_position notched (qv 2 1) = AtVertex 3 /\
  is_convex false notched = false.
Proof. vm_compute. auto. Qed.
Lemma C57_ex_es i : In i [2] <-> i < length notched /\ exists x, on_segment (side notched i) x /\ on_segment (qv 2 3, qv (7#2) 3) x.
Proof.
  assert (N : qv 2 3 <> qv (7#2) 3) by (intros E; apply (f_equal (fun v : vec cqF => cqv (fst v))) in E; vm_compute in E; discriminate).
  assert (NE : forall j, j < 7 -> fst (side notched j) <> snd (side notched j)).
  { intros j J. do 7 (destruct j as [|j]; [intros E; apply (f_equal (fun v : vec cqF => (cqv (fst v), cqv (snd v)))) in E; vm_compute in E; discriminate|]). lia. }
  split.
  - intros [<-|[]]. split; [cbn; lia|]. apply meetb_spec; [apply NE; lia|exact N|]. vm_compute. reflexivity.
  - intros [L H]. change (length notched) with 7 in L. apply meetb_spec in H; [|now apply NE|exact N].
    do 7 (destruct i as [|i]; [try (now left); vm_compute in H; discriminate|]). lia.
Qed.
Example C57_parity_ex : get_point_position notched (qv 2 3) <> get_point_position notched (qv (7#2) 3).
Proof.
  assert (OFF : forall p, get_point_position notched p = Outside \/ get_point_position notched p = Interior -> forall i, ~ on_segment (side notched i) p).
  { intros p H. assert (ND : nondeg notched) by (destruct notched_proper as [A [B _]]; split; auto). pose proof (position_spec notched p ND) as Q.
    destruct H as [H|H]; rewrite H in Q; exact Q. }
  intros E. apply (C57_parity cqF notched (qv 2 3) (qv (7#2) 3) [2]) in E.
  - discriminate.
  - exact notched_proper.
  - apply OFF. left. vm_compute. reflexivity.
  - apply OFF. right. vm_compute. reflexivity.
  - intros i O. apply level in O; [|reflexivity]. rewrite <- vertex_mod in O. change (length notched) with 7 in O.
    pose proof (Nat.mod_upper_bound i 7 ltac:(lia)) as L. set (j := i mod 7) in *. clearbody j.
    apply (f_equal cqv) in O. do 7 (destruct j as [|j]; [vm_compute in O; discriminate|]). lia.
  - apply NoDup_cons; [intros []|apply NoDup_nil].
  - apply C57_ex_es.
Qed.
(** a convex polygon with a straight angle *)
Definition flat_square : polygon cqF := [qv 0 0; qv 1 0; qv 2 0; qv 2 2; qv 0 2].
Lemma flat_square_proper : proper flat_square.
Proof.
  assert (H : polygon_check flat_square = Ok tt) by (vm_compute; reflexivity).
  apply (proj1 (polygon_check_spec flat_square)) in H. destruct H as ((A & B) & C & D). exact (conj A (conj B (conj C D))).
Qed.
Example C57_convex_ex : is_convex false flat_square = true /\ is_convex true flat_square = false /\ strictly_left flat_square (qv 1 1).
Proof.
  assert (C : is_convex false flat_square = true) by (vm_compute; reflexivity). split; [exact C|]. split; [vm_compute; reflexivity|].
  apply (C57_convex cqF flat_square (qv 1 1) flat_square_proper C). vm_compute. reflexivity.
Qed.
