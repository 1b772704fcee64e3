(** Specification vocabulary for triangulations of surfaces. *)
From Coq Require Import List Bool ZArith Arith.
From Verif Require Import OField MBase MDict MEuclid MSim SSim MPoly MMut SMut SPoint MSurf SSurf SEar MLazy.
Import ListNotations.

(** the polygon of which [t] is a part *)
Definition over (t : tlabel) : Z := match t with Ref l => l | Part l _ => l end.

Section S.
Context {K : OField}.
Local Open Scope F_scope.
Implicit Types (P Q : polygon K).

(** the edge [e] of [Q] is the edge [re] of [P] *)
Definition same_edge Q e P re := vertex Q e = vertex P re /\ vertex Q (S e) = vertex P (S re).
(** the edge [e] of [Q] is the edge [e'] of [Q'], with the other orientation *)
Definition opposite_edges Q e Q' e' := vertex Q e = vertex Q' (S e') /\ vertex Q (S e) = vertex Q' e'.

(** [S'] is obtained from [S] by cutting the polygons with labels in [Tr] into triangles and keeping the others *)
Record triangulation_over (Tr D : Z -> Prop) (S : surface K Z) (D' : tlabel -> Prop) (S' : surface K tlabel) : Prop := {
  to_valid : valid D' S';
  to_closed : closed D' S';
  to_over : forall t, D' t -> D (over t);
  (** the parts of a polygon *)
  to_triangle : forall t Q P, D' t -> Tr (over t) -> s_poly S' t = Ok Q -> s_poly S (over t) = Ok P ->
    exists a b c, (a < length P)%nat /\ (b < length P)%nat /\ (c < length P)%nat /\ Q = [vertex P a; vertex P b; vertex P c] /\
      0 < orient (vertex P a) (vertex P b) (vertex P c);
  to_cover : forall l P q, D l -> Tr l -> s_poly S l = Ok P ->
    ((exists t Q, D' t /\ over t = l /\ s_poly S' t = Ok Q /\ left_or_on Q q) <-> get_point_position P q <> Outside);
  to_disjoint : forall t t' Q Q' q, D' t -> D' t' -> over t = over t' -> Tr (over t) -> s_poly S' t = Ok Q -> s_poly S' t' = Ok Q' ->
    strictly_left Q q -> strictly_left Q' q -> t = t';
  to_kept : forall l P, D l -> ~ Tr l -> s_poly S l = Ok P -> forall t, (D' t /\ over t = l) <-> t = Ref l;
  to_kept_poly : forall t, D' t -> ~ Tr (over t) -> s_poly S' t = s_poly S (over t);
  (** the gluings *)
  to_edge : forall l P re, D l -> s_poly S l = Ok P -> (re < length P)%nat ->
    exists t Q e, D' t /\ over t = l /\ s_poly S' t = Ok Q /\ (e < length Q)%nat /\ same_edge Q e P re;
  to_glued : forall t e Q t' e' Q', glued_at D' S' t e Q t' e' Q' ->
    (over t = over t' /\ opposite_edges Q e Q' e') \/
    (exists re P re' P', glued_at D S (over t) re P (over t') re' P' /\ same_edge Q e P re /\ same_edge Q' e' P' re');
  to_reference : forall l re P l' re' P', glued_at D S l re P l' re' P' ->
    exists t e Q t' e' Q', over t = l /\ over t' = l' /\ glued_at D' S' t e Q t' e' Q' /\ same_edge Q e P re /\ same_edge Q' e' P' re' }.
End S.
