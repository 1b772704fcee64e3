(** Specification vocabulary for saddle connections: the surface is unfolded into the plane along a ray that starts at a
    vertex. *)
From Coq Require Import List ZArith Arith.
From Verif Require Import OField MBase MEuclid SEuclid MSim MPoly SSim MSurf SSurf.
Import ListNotations.

Section S.
Context {K : OField} {L : Type}.
Local Open Scope F_scope.
Implicit Types (S : surface K L) (D : L -> Prop) (P : polygon K) (h : vec K) (F : vec K -> vec K).

(** between the times [s] and [t] the ray in direction [h] is inside of the copy of [P] *)
Definition inside_between P F h (s t : K) := forall u, s < u -> u < t ->
  exists p, get_point_position P p = Interior /\ F p = vscale u h.

(** Unfolding starts with the copy of the polygon [l] whose vertex [k] is at the origin. The ray from the origin in
    direction [h] walks through the copy of a polygon until, at the time [t], it crosses the interior of an edge and enters
    the copy of the polygon that is glued there. In [reaches ... h s l F], [F] is the map from the polygon [l] to its copy
    that is entered at the time [s]. *)
Inductive reaches D S (l0 : L) (k0 : nat) h : K -> L -> (vec K -> vec K) -> Prop :=
| rs_start P F : D l0 -> s_poly S l0 = Ok P -> (k0 < length P)%nat -> (forall p, F p = vsub p (vertex P k0)) ->
    reaches D S l0 k0 h 0 l0 F
| rs_cross s l F e P l' e' P' G t F' : reaches D S l0 k0 h s l F -> glued_at D S l e P l' e' P' -> gluing_map P e P' e' G ->
    s < t -> inside_between P F h s t -> (exists p, get_point_position P p = EdgeInterior e /\ F p = vscale t h) ->
    (forall p, F' (G p) = F p) -> reaches D S l0 k0 h t l' F'.

(** There is a saddle connection that starts at the vertex [snd x] of the polygon [fst x] and ends at the vertex [snd y] of the
    polygon [fst y]. Its holonomy is [h] when it is unfolded from the start, and [h'], in the opposite direction, when it is
    unfolded from the end. It is the edge that starts at the vertex [snd x] or it starts between this edge and the edge that
    ends there. *)
Definition is_saddle D S (x : L * nat) h (y : L * nat) h' :=
  (exists P P', glued_at D S (fst x) (snd x) P (fst y) (snd y) P' /\ h = edge P (snd x) /\ h' = edge P' (snd y)) \/
  (exists s F P, reaches D S (fst x) (snd x) h s (fst y) F /\ s < 1 /\ s_poly S (fst y) = Ok P /\ (snd y < length P)%nat /\
    inside_between P F h s 1 /\ F (vertex P (snd y)) = h /\ F (vadd (vertex P (snd y)) h') = vzero).

(** the larger one of the coordinates is 1 or -1 *)
Definition unit_square (v : vec K) := (- (1) <= fst v /\ fst v <= 1 /\ - (1) <= snd v /\ snd v <= 1) /\
  (fst v = 1 \/ fst v = - (1) \/ snd v = 1 \/ snd v = - (1)).
(** the direction of a vector *)
Definition direction_of (v d : vec K) := unit_square d /\ pos_multiple v d.
Definition length2 (v : vec K) : K := fst v * fst v + snd v * snd v.
(** the surface is a positive dilation surface *)
Definition positive_dilations D S := forall l e P l' e' P', glued_at D S l e P l' e' P' ->
  exists c, 0 < c /\ edge P' e' = vscale (- c) (edge P e).
End S.
