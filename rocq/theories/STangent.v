(** Specification vocabulary for tangent vectors and the straight line flow. *)
From Coq Require Import List ZArith Arith Relations.
From Verif Require Import OField MBase MEuclid SEuclid MSim MPoly SSim MSurf SSurf SPoint MTangent.
Import ListNotations.

Section S.
Context {K : OField} {L : Type}.
Local Open Scope F_scope.
Implicit Types (S : surface K L) (D : L -> Prop) (P : polygon K) (p v : vec K).

(** the point that is reached from [p] after the time [t] with the velocity [v] *)
Definition moved p (t : K) v : vec K := vadd p (vscale t v).
(** a point of the polygon, i.e., of its interior or of its boundary; see [C57_vertex], [C57_edge], [C57_parity] and [C57_outside] *)
Definition in_polygon P p := get_point_position P p <> Outside.
Definition on_boundary P p := exists e, (e < length P)%nat /\ on_segment (side P e) p.
(** a short walk with the velocity [v] stays in the polygon *)
Definition points_into P p v := exists r, 0 < r /\ forall t, 0 < t -> t <= r -> in_polygon P (moved p t v).
(** a short walk with the velocity [v] stays in the edge *)
Definition along P e p v := on_segment (side P e) p /\ exists r, 0 < r /\ on_segment (side P e) (moved p r v).
(** a short walk stays in an edge and goes against the orientation of the boundary *)
Definition clockwise P p v := exists e c, (e < length P)%nat /\ along P e p v /\ c < 0 /\ v = vscale c (edge P e).
(** the tangent vectors for which the polygon is the polygon that contains the start of the walk; an edge that belongs
    to two polygons is followed counterclockwise *)
Record normal P p v : Prop := {
  nm_vector : v <> vzero;
  nm_into : points_into P p v;
  nm_ccw : ~ clockwise P p v }.

(** a tangent vector given by coordinates of a polygon *)
Definition coords := (L * vec K * vec K)%type.
(** A tangent vector at an inner point of an edge has two descriptions, and so has one at an end of the edge if it
    points along the edge. *)
Definition same_tangent D S (x y : coords) := exists e P e' P' F,
  glued_at D S (fst (fst x)) e P (fst (fst y)) e' P' /\ gluing_map P e P' e' F /\
  on_segment (side P e) (snd (fst x)) /\
  ((snd (fst x) <> vertex P e /\ snd (fst x) <> vertex P (Datatypes.S e)) \/ along P e (snd (fst x)) (snd x)) /\
  snd (fst y) = F (snd (fst x)) /\ vadd (snd (fst y)) (snd y) = F (vadd (snd (fst x)) (snd x)).
Definition tangent_equiv D S := clos_refl_sym_trans coords (same_tangent D S).

(** a tangent vector of the library: it is described in the polygon where the walk starts *)
Definition tv_ok D S (t : tvec K L) := D (tv_label t) /\ exists P, s_poly S (tv_label t) = Ok P /\
  tv_position t = get_point_position P (tv_point t) /\ normal P (tv_point t) (tv_vector t).
Definition raw (t : tvec K L) : coords := (tv_label t, tv_point t, tv_vector t).
(** the opposite of a tangent vector *)
Definition reversed (t : tvec K L) : coords := (tv_label t, tv_point t, vopp (tv_vector t)).
(** all coordinates of the vector are multiplied by [c] *)
Definition tv_scale (c : K) (t : tvec K L) := TVec (tv_label t) (tv_point t) (vscale c (tv_vector t)) (tv_position t).
Definition sg_scale (c : K) (s : segment K L) := Segment (tv_scale c (sg_start s)) (tv_scale c (sg_end s)).

(** A straight segment in a polygon whose ends are on the boundary and that meets the boundary nowhere else, or that is
    an edge. Its end is described by the tangent vector that points backwards. *)
Record straight D S (s : segment K L) : Prop := {
  sr_start : tv_ok D S (sg_start s);
  sr_end : tv_ok D S (sg_end s);
  sr_walk : exists l P p v b, raw (sg_start s) = (l, p, v) /\ s_poly S l = Ok P /\ 0 < b /\
    tangent_equiv D S (l, moved p b v, vopp v) (raw (sg_end s)) /\ on_boundary P p /\ on_boundary P (moved p b v) /\
    ((forall t, 0 < t -> t < b -> get_point_position P (moved p t v) = Interior) \/
     exists e, p = vertex P e /\ moved p b v = vertex P (Datatypes.S e) /\ forall t, 0 < t -> t < b -> get_point_position P (moved p t v) = EdgeInterior e) }.
(** [s'] continues [s] *)
Definition continues D S (s s' : segment K L) := is_based_at_singularity (sg_end s) = false /\
  tangent_equiv D S (reversed (sg_end s)) (raw (sg_start s')).
(** the description [o] of how to continue behind [t] *)
Definition continuation D S (t : tvec K L) (o : option (tvec K L)) := match o with
  | None => is_based_at_singularity t = true
  | Some u => is_based_at_singularity t = false /\ tv_ok D S u /\ tangent_equiv D S (reversed t) (raw u) end.
Record traj D S (t : trajectory K L) : Prop := {
  tr_straight : forall s, In s (tj_segments t) -> straight D S s;
  tr_linked : consecutive (continues D S) (tj_segments t);
  tr_first : exists s ss, tj_segments t = s :: ss /\ continuation D S (sg_start s) (tj_backward t);
  tr_last : exists s ss, tj_segments t = ss ++ [s] /\ continuation D S (sg_end s) (tj_forward t) }.
(** the trajectory in the opposite direction *)
Definition tj_reverse (t : trajectory K L) := Trajectory (rev (map sg_invert (tj_segments t))) (tj_backward t) (tj_forward t).
End S.
