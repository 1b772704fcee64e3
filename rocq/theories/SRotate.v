(** Specification vocabulary for rotating tangent vectors at vertices. *)
From Coq Require Import List ZArith Arith.
From Verif Require Import OField MBase MEuclid SEuclid MPoly MSurf SSurf MTangent.
Import ListNotations.

Section S.
Context {K : OField} {L : Type}.
Local Open Scope F_scope.
Implicit Types (S : surface K L) (D : L -> Prop) (P : polygon K) (w u v : vec K) (c : L * nat).

(** a translation surface: glued edges are opposite vectors *)
Definition translations D S := forall l e P l' e' P', glued_at D S l e P l' e' P' -> edge P' e' = vopp (edge P e).

(** the corner [c] extends counterclockwise from the direction [u], the edge that starts there, to [v], the edge that ends there *)
Definition corner D S c u v := exists P, D (fst c) /\ s_poly S (fst c) = Ok P /\ (snd c < length P)%nat /\
  u = edge P (snd c) /\ v = vopp (edge P (snd c + length P - 1)).
(** the angle is less than 180 degrees *)
Definition sharp D S c := forall u v, corner D S c u v -> 0 < ccw u v.
(** the next corner at the same vertex, clockwise and counterclockwise *)
Definition clockwise_corner D S c c' := exists P e' P', glued_at D S (fst c) (snd c) P (fst c') e' P' /\
  snd c' = Nat.modulo (Datatypes.S e') (length P').
Definition counterclockwise_corner D S c c' := exists e P P', glued_at D S (fst c) e P (fst c') (snd c') P' /\
  (snd c < length P)%nat /\ snd c = Nat.modulo (Datatypes.S e) (length P).

(** [w] is met when turning clockwise from [v] to [u] by less than a full turn; the direction [v] does not count *)
Definition met_clockwise u v w := ~ pos_multiple u v /\ (sector u v w \/ pos_multiple u w).
(** [w] is in the corner; an edge that belongs to two corners is in the corner on its left *)
Definition in_corner D S c w := exists u v, corner D S c u v /\ (sector u v w \/ pos_multiple u w).

(** Turning clockwise from the tangent vector [t] meets the direction [w] for the first time in the last one of the corners
    0, ..., m of [c]. *)
Definition first_clockwise D S (t : tvec K L) w (c : nat -> L * nat) (m : nat) :=
  fst (c 0%nat) = tv_label t /\ tv_position t = AtVertex (snd (c 0%nat)) /\
  (forall i, (i < m)%nat -> clockwise_corner D S (c i) (c (Datatypes.S i))) /\
  (forall u v, corner D S (c 0%nat) u v -> (m = 0%nat <-> met_clockwise u (tv_vector t) w)) /\
  (forall i, (0 < i < m)%nat -> ~ in_corner D S (c i) w) /\ ((0 < m)%nat -> in_corner D S (c m) w).
(** The same for turning counterclockwise; the first corner starts at [tv_vector t]. *)
Definition first_counterclockwise D S (t : tvec K L) w (c : nat -> L * nat) (m : nat) :=
  fst (c 0%nat) = tv_label t /\ tv_position t = AtVertex (snd (c 0%nat)) /\
  (forall i, (i < m)%nat -> counterclockwise_corner D S (c i) (c (Datatypes.S i))) /\
  (forall u v, corner D S (c 0%nat) u v -> (m = 0%nat <-> sector (tv_vector t) v w)) /\
  (forall i, (0 < i < m)%nat -> ~ in_corner D S (c i) w) /\ ((0 < m)%nat -> in_corner D S (c m) w).
(** the tangent vector with the direction [w] at the corner *)
Definition vector_at S c w (t : tvec K L) := exists P, s_poly S (fst c) = Ok P /\ t = TVec (fst c) (vertex P (snd c)) w (AtVertex (snd c)).
End S.
