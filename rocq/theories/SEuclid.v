(** Specification of plane geometry predicates, independent of the algorithms in MEuclid. *)
From Coq Require Import Bool List.
From Verif Require Import OField MBase MEuclid.

Section S.
Context {K : OField}.
Local Open Scope F_scope.
Implicit Types v w p q f u d : vec K.

(** [w] points in the same direction as [v] *)
Definition pos_multiple v w : Prop := v <> vzero /\ exists a, 0 < a /\ w = vscale a v.
(** [w] points in the direction opposite to [v] *)
Definition neg_multiple v w : Prop := v <> vzero /\ exists a, a < 0 /\ w = vscale a v.

(** [v] turned by a quarter turn counter-clockwise *)
Definition perp v : vec K := (- snd v, fst v).

(** [f] is strictly inside the sector swept counter-clockwise from [e0] to [e1], described by convex cones
    according to whether the angle of the sector is less than, equal to, or more than a half
    turn, or a full turn. *)
Inductive sector (e0 e1 f : vec K) : Prop :=
| sector_small : 0 < ccw e0 e1 ->
    (exists a b, 0 < a /\ 0 < b /\ f = vadd (vscale a e0) (vscale b e1)) -> sector e0 e1 f
| sector_half : neg_multiple e0 e1 ->
    (exists a b, 0 < b /\ f = vadd (vscale a e0) (vscale b (perp e0))) -> sector e0 e1 f
| sector_large : ccw e0 e1 < 0 ->
    ~ (exists a b, 0 <= a /\ 0 <= b /\ f = vadd (vscale a e0) (vscale b e1)) -> sector e0 e1 f
| sector_full : pos_multiple e0 e1 ->
    ~ (exists a, 0 <= a /\ f = vscale a e0) -> sector e0 e1 f.

Definition on_segment (s : vec K * vec K) p : Prop :=
  exists t, 0 <= t /\ t <= 1 /\ p = vadd (fst s) (vscale t (vsub (snd s) (fst s))).
Definition on_line p1 p2 p : Prop := exists t, p = vadd p1 (vscale t (vsub p2 p1)).
Definition on_ray p d q : Prop := exists t, 0 <= t /\ q = vadd p (vscale t d).
Definition is_endpoint (s : vec K * vec K) p : Prop := p = fst s \/ p = snd s.

Definition common (e1 e2 : vec K * vec K) p := on_segment e1 p /\ on_segment e2 p.
(** the segments meet in exactly one point, an end point of both *)
Definition touching (e1 e2 : vec K * vec K) : Prop :=
  exists p, is_endpoint e1 p /\ is_endpoint e2 p /\ forall q, common e1 e2 q -> q = p.

Inductive seg_spec (e1 e2 : vec K * vec K) : nat -> Prop :=
| seg_disjoint : ~ (exists p, common e1 e2 p) -> seg_spec e1 e2 0
| seg_touch : touching e1 e2 -> seg_spec e1 e2 1
| seg_meet : (exists p, common e1 e2 p) -> ~ touching e1 e2 -> seg_spec e1 e2 2.

Definition ray_set (r : ray_result (vec K)) q : Prop :=
  match r with
  | RNone => False
  | RPoint p => q = p
  | RSegment p p' => on_segment (p, p') q
  end.


End S.
