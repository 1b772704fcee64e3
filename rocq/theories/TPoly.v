(** Theorems C17, C18: area of polygons and linear maps. *)
From Coq Require Import Bool List ZArith QArith.
From Verif Require Import OField MBase MEuclid MSim MPoly SEuclid SSim PEuclid PSim PPoly TEuclid TSim.
Import ListNotations.

(** ** C17 *)
Theorem C17_vertex_zero (K : OField) (P Q : polygon K) : area (P ++ Q) = area (Q ++ P).
Proof. exact (area_rot P Q). Qed.
Print Assumptions C17_vertex_zero.

Theorem C17_translate (K : OField) (P : polygon K) (u : vec K) : area (translate P u) = area P.
Proof. exact (area_translate P u). Qed.
Print Assumptions C17_translate.

Theorem C17_linear (K : OField) (g : mat K) (P Q : polygon K) :
  P <> nil -> poly_mul g P = Ok Q -> area Q = fmul (fabs (mdet g)) (area P).
Proof. exact (area_mul g P Q). Qed.
Print Assumptions C17_linear.

Theorem C17_similarity (K : OField) (f : sim K) (P : polygon K) :
  area (sim_polygon f P) = fmul (sim_det f) (area P).
Proof. exact (area_sim f P). Qed.
Print Assumptions C17_similarity.

Theorem C17_reverse (K : OField) (P : polygon K) : area (rev P) = fopp (area P).
Proof. exact (area_rev P). Qed.
Print Assumptions C17_reverse.

(** cutting along the diagonal from p to q *)
Theorem C17_cut (K : OField) (A B C : polygon K) (p q : vec K) :
  area (A ++ p :: B ++ q :: C) = fadd (area (p :: B ++ [q])) (area (q :: C ++ A ++ [p])).
Proof. exact (area_cut A p B q C). Qed.
Print Assumptions C17_cut.

Theorem C17_join (K : OField) (P Q R : polygon K) (e f : nat) :
  (2 <= length P)%nat -> (2 <= length Q)%nat -> (e < length P)%nat -> (f < length Q)%nat ->
  poly_join P Q e f = Ok R -> area R = fadd (area P) (area Q).
Proof. exact (area_join P Q e f R). Qed.
Print Assumptions C17_join.

(** the absolute scale of the area: a triangle has half the determinant of its sides *)
Theorem C17_triangle (K : OField) (p q r : vec K) :
  area [p; q; r] = (ccw (vsub q p) (vsub r p) / 2)%F.
Proof. exact (area_triangle p q r). Qed.
Print Assumptions C17_triangle.

(** ** C18 *)
Theorem C18_action (K : OField) (g h : mat K) (P : polygon K) :
  P <> nil -> mdet g <> f0 -> mdet h <> f0 ->
  poly_mul mone P = Ok P /\
  exists Q, poly_mul h P = Ok Q /\ poly_mul g Q = poly_mul (mmul g h) P /\ Q <> nil.
Proof. intros A B C. split; [apply poly_mul_one | now apply poly_mul_mul]. Qed.
Print Assumptions C18_action.

Theorem C18_singular (K : OField) (g : mat K) (P : polygon K) :
  P <> nil -> (poly_mul g P = Err ValueError <-> mdet g = f0).
Proof. exact (poly_mul_singular g P). Qed.
Print Assumptions C18_singular.

Theorem C18_edges (K : OField) (g : mat K) (P Q : polygon K) (i : nat) :
  P <> nil -> poly_mul g P = Ok Q -> (i < length P)%nat ->
  length Q = length P /\
  (flt f0 (mdet g) -> edge Q i = mapply g (edge P i)) /\
  (flt (mdet g) f0 -> edge Q i = vopp (mapply g (edge P (length P - 1 - i)))).
Proof.
  intros A B C. split; [now apply (poly_mul_length g)|split]; intros.
  - now apply edge_mul_pos.
  - now apply edge_mul_neg.
Qed.
Print Assumptions C18_edges.

(** counter-clockwise polygons stay counter-clockwise, and strictly convex corners stay strictly convex *)
Theorem C18_orientation (K : OField) (g : mat K) (P Q : polygon K) :
  P <> nil -> poly_mul g P = Ok Q ->
  (flt f0 (area P) -> flt f0 (area Q)) /\
  (forall strict, is_convex strict P = true -> is_convex strict Q = true).
Proof. intros A B. split; [now apply (poly_mul_area_pos g P Q) | now apply (poly_mul_convex g P Q)]. Qed.
Print Assumptions C18_orientation.

Definition pentagon : polygon cqF := [qv 0 0; qv 2 0; qv 3 1; qv 1 3; qv 0 1].
Definition reflection : mat cqF := Mat (Q2cq (-1)) (Q2cq 1) (Q2cq 0) (Q2cq 2).
Definition res_area (r : res (polygon cqF)) : option cqF := match r with Ok Q => Some (area Q) | Err _ => None end.
Example C17_C18_ex :
  area pentagon = Q2cq (11#2) /\ is_convex true pentagon = true /\
  res_area (poly_mul reflection pentagon) = Some (Q2cq 11) /\
  mdet reflection = Q2cq (-2) /\
  res_area (poly_join pentagon [qv 2 0; qv 0 0; qv 1 (-4)] 0 0) = Some (Q2cq (19#2)).
Proof. vm_compute. repeat split; reflexivity. Qed.
