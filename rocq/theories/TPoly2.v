(** Theorems C51, C52: the checks of the constructor of polygons, slopes. *)
From Coq Require Import List Bool ZArith Arith Lia QArith.
From Verif Require Import OField FMicromega PField MBase MEuclid SEuclid PEuclid MSim MPoly PPoly SSurf PSurf3 SPoint PPoint PSimple TEuclid TSurf TPoint.
Import ListNotations.
Open Scope nat_scope.

(** ** C51 *)
(** [Polygon(vertices=...)] accepts exactly the simple polygons of positive area with at least three vertices *)
Theorem C51_vertices (K : OField) (vs : list (vec K)) (P : polygon K) :
  Polygon_vertices vs = Ok P <->
  P = vs /\ (3 <= length vs)%nat /\ (forall e, edge vs e <> vzero) /\ simple_polygon vs /\ flt f0 (area vs).
Proof.
  unfold Polygon_vertices. pose proof (polygon_check_spec vs) as H. split.
  - destruct (polygon_check vs) as [[]|]; [|discriminate]. intros E. injection E as <-.
    destruct (proj1 H eq_refl) as [[A B] [C D]]. auto.
  - intros [-> [A [B [C D]]]]. unfold polygon in *. rewrite (proj2 H); auto. split; [split|]; auto.
Qed.
Print Assumptions C51_vertices.
(** [Polygon(edges=...)] accepts exactly the edges of such polygons, and starts at the origin *)
Theorem C51_edges (K : OField) (es : list (vec K)) (P : polygon K) :
  Polygon_edges es = Ok P <->
  edges P = es /\ vertex P 0 = vzero /\ (3 <= length es)%nat /\ (forall e, edge P e <> vzero) /\ simple_polygon P /\ flt f0 (area P).
Proof.
  unfold Polygon_edges. destruct (Nat.ltb_spec (length es) 3) as [L|L].
  { split; [discriminate|]. intros [_ [_ [X _]]]. exfalso. unfold vec in *. lia. }
  split.
  - destruct (vertices_of_edges es) as [vs|] eqn:E; [|discriminate]. intros H. apply C51_vertices in H. destruct H as [-> [A [B [C D]]]].
    destruct (vertices_of_edges_spec es vs E ltac:(lia)) as [X [Y Z]]. do 5 (split; [auto|]). auto.
  - intros [E [Z [_ [B [C D]]]]]. assert (LP : length P = length es) by (rewrite <- E; symmetry; apply length_edges).
    rewrite <- E. rewrite (vertices_of_edges_ok P); [|lia|exact Z]. apply C51_vertices. do 2 (split; [auto; lia|]). auto.
Qed.
Print Assumptions C51_edges.
(** the constructor raises in all other cases; the self-intersecting ones are reported as not implemented *)
Theorem C51_is_simple (K : OField) (P : polygon K) : (3 <= length P)%nat -> (forall e, edge P e <> vzero) ->
  (forall i, ~ neg_multiple (edge P i) (edge P (S i))) -> exists b, is_simple P = Ok b /\ (b = true <-> simple_polygon P).
Proof.
  intros L N A. destruct (simple_checks P (conj L N)) as [b [E H]]. exists b. split; auto. rewrite H. split; [intros ->; split; auto|intros [X _]; exact X].
Qed.
Print Assumptions C51_is_simple.
(** without the test for anti-parallel edges a degenerate polygon would pass as simple: the triangle with vertices 0, 2, 1 *)
Theorem C51_spike_needed : exists P : polygon cqF, (3 <= length P)%nat /\ is_simple P = Ok true /\ ~ simple_polygon P.
Proof.
  exists [qv 0 0; qv 2 0; qv 1 0]. split; [cbn; lia|]. split; [vm_compute; reflexivity|].
  intros SP. destruct (SP 0 1 (qv 1 0)) as [[_ X]|[X _]]; try (cbn; lia).
  - exists (Q2cq (1#2)). split; [|split]; vm_compute; reflexivity.
  - exists (Q2cq 1). split; [|split]; vm_compute; reflexivity.
  - vm_compute in X. discriminate.
  - vm_compute in X. discriminate.
Qed.
Print Assumptions C51_spike_needed.
(** an L-shaped polygon is accepted; a bow tie, a clockwise square and a polygon with a spike are not *)
Example C51_ex :
  Polygon_vertices [qv 0 0; qv 2 0; qv 2 1; qv 1 1; qv 1 2; qv 0 2] = Ok [qv 0 0; qv 2 0; qv 2 1; qv 1 1; qv 1 2; qv 0 2] /\
  Polygon_edges [qv 1 0; qv 0 1; qv (-1) 0; qv 0 (-1)] = Ok [qv 0 0; qv 1 0; qv 1 1; qv 0 1] /\
  Polygon_vertices [qv 0 0; qv 4 0; qv 1 2; qv 4 2; qv 3 3] = Err NotImplementedError /\
  Polygon_vertices [qv 0 0; qv 0 1; qv 1 1; qv 1 0] = Err ValueError /\
  Polygon_vertices [qv 0 0; qv 2 0; qv 3 0; qv 1 0; qv 0 1] = Err ValueError.
Proof. vm_compute. repeat split; reflexivity. Qed.

(** ** C52 *)
(** [slope(a, rotate)] is the sign of the slope of [a] turned by a small amount in the given direction *)
Theorem C52_slope (K : OField) (a : vec K) (r : Z) : a <> vzero -> (r = 0 \/ r = 1 \/ r = -1)%Z ->
  exists s e, slope a r = Ok s /\ flt f0 e /\ forall t, flt f0 t -> flt t e ->
    let u := vadd a (vscale (if (r =? 0)%Z then f0 else if (0 <? r)%Z then t else fopp t) (perp a)) in
    let m := fmul (fst u) (snd u) in (s = 1%Z /\ flt f0 m) \/ (s = (-1)%Z /\ flt m f0) \/ (s = 0%Z /\ m = f0).
Proof. exact (slope_spec a r). Qed.
Print Assumptions C52_slope.
Theorem C52_zero (K : OField) (r : Z) : slope (@vzero K) r = Err ValueError.
Proof. unfold slope. cbn. now rewrite (proj2 (feqb_eq K f0 f0) eq_refl). Qed.
Print Assumptions C52_zero.
Example C52_ex : slope (qv 1 (-3)) 1 = Ok (-1)%Z /\ slope (qv (-2) 0) 1 = Ok 1%Z /\ slope (qv (-2) 0) (-1) = Ok (-1)%Z /\
  slope (qv 0 1) 0 = Ok 0%Z /\ slope (qv 0 1) 1 = Ok (-1)%Z.
Proof. vm_compute. repeat split; reflexivity. Qed.
