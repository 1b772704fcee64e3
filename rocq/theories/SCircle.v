(** Specification vocabulary for circles and Delaunay triangulations. *)
From Coq Require Import List ZArith Arith.
From Verif Require Import OField MBase MEuclid MSim MPoly SEuclid SSim MSurf SSurf MCircle.

Section S.
Context {K : OField} {L : Type}.
Local Open Scope F_scope.
Implicit Types (p q r s c : vec K).

(** the point lies on the circle, in the open disc, outside *)
Definition on_circle (C : circle K) p := dist2 p (ci_center C) = ci_r2 C.
Definition in_disc (C : circle K) p := dist2 p (ci_center C) < ci_r2 C.
Definition off_disc (C : circle K) p := ci_r2 C < dist2 p (ci_center C).
Definition collinear p q r := orient p q r = 0.
(** a point of the open segment *)
Definition open_segment p q r := exists t, 0 < t /\ t < 1 /\ r = vadd p (vscale t (vsub q p)).

(** [s] relative to the circle through [p], [q], [r] *)
Definition circumcenter p q r c := dist2 c p = dist2 c q /\ dist2 c p = dist2 c r.
Definition inside_circumcircle p q r s := exists c, circumcenter p q r c /\ dist2 c s < dist2 c p.
Definition on_circumcircle p q r s := exists c, circumcenter p q r c /\ dist2 c s = dist2 c p.
Definition outside_circumcircle p q r s := exists c, circumcenter p q r c /\ dist2 c p < dist2 c s.
(** all vertices lie on a circle with center [c] *)
Definition inscribed (P : polygon K) c := forall i j, dist2 c (vertex P i) = dist2 c (vertex P j).
Definition strictly_convex4 p q r s := 0 < orient p q r /\ 0 < orient q r s /\ 0 < orient r s p /\ 0 < orient s p q.

Implicit Types (S : surface K L) (D : L -> Prop).
(** all polygons are positively oriented *)
Definition positive D S := forall l P, D l -> s_poly S l = Ok P -> 0 < area P.
(** an edge that is glued, as listed by [gluings()] *)
Definition listed D S (g : L * nat) := exists P y, D (fst g) /\ s_poly S (fst g) = Ok P /\ (snd g < length P)%nat /\ s_opp S (fst g) (snd g) = Ok (Some y).
(** the triangles at an edge satisfy the condition of Delaunay *)
Definition locally_delaunay D S (g : L * nat) := exists P l' e' P' F, glued_at D S (fst g) (snd g) P l' e' P' /\
  gluing_map P (snd g) P' e' F /\ length P = 3%nat /\ length P' = 3%nat /\
  ~ inside_circumcircle (vertex P' e') (vertex P' (e' + 1)) (vertex P' (e' + 2)) (F (vertex P (snd g + 2))).
(** the polygon [l] is inscribed in a circle, and the next vertex of each neighbour is outside of that circle *)
Definition delaunay_cell D S l := exists P c, s_poly S l = Ok P /\ inscribed P c /\
  forall e l' e' P' F, glued_at D S l e P l' e' P' -> gluing_map P e P' e' F ->
    dist2 (F c) (F (vertex P 0)) < dist2 (F c) (vertex P' (e' + 2)).
End S.
