(** Specification of similarities of the plane. *)
From Coq Require Import Bool.
From Verif Require Import OField MEuclid MSim SEuclid.

Section S.
Context {K : OField}.
Local Open Scope F_scope.

(** elements that the constructor admits *)
Definition sim_ok (f : sim K) : Prop := sg_a f <> 0 \/ sg_b f <> 0.

(** squared distance *)
Definition dist2 (p q : vec K) : K := dot (vsub p q) (vsub p q).
(** twice the oriented area of the triangle p, q, r *)
Definition orient (p q r : vec K) : K := ccw (vsub q p) (vsub r p).

(** a map of the plane is ... *)
Definition map_translation (F : vec K -> vec K) := exists u, forall p, F p = vadd p u.
Definition map_half_translation (F : vec K -> vec K) :=
  exists u, (forall p, F p = vadd p u) \/ (forall p, F p = vsub u p).
Definition map_isometry (F : vec K -> vec K) := forall p q, dist2 (F p) (F q) = dist2 p q.
Definition map_orientation_preserving (F : vec K -> vec K) :=
  forall p q r, 0 < orient p q r -> 0 < orient (F p) (F q) (F r).
(** all distances are scaled by the same positive factor (here: squared factor) *)
Definition map_similarity (F : vec K -> vec K) (c : K) :=
  0 < c /\ forall p q, dist2 (F p) (F q) = c * dist2 p q.
Definition map_rotation (F : vec K -> vec K) :=
  map_isometry F /\ map_orientation_preserving F /\ exists p, F p = p.
End S.
