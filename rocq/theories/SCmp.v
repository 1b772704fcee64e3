(** Specification of the comparison of polygons and of surfaces. *)
From Coq Require Import List ZArith.
From Verif Require Import OField MBase MEuclid SEuclid MPoly MSurf.

Section S.
Context {K : OField}.
(** the map of the plane sends the vertices of [P] in order to the vertices of [Q], beginning with the vertex [j] *)
Definition carries (F : vec K -> vec K) (P Q : polygon K) j := forall k, F (vertex P k) = vertex Q (k + j).
(** a translation composed with the rotation by the angle pi *)
Definition map_half_turn (F : vec K -> vec K) := exists u, forall p, F p = vsub u p.
(** the labelled surfaces are the same up to the names of the labels: [l1] corresponds to [l2] when they have the same position *)
Record same_surface {L} (S T : surface K L) (labels1 labels2 : list L) : Prop := {
  same_number : length labels1 = length labels2;
  same_polygons : forall i l1 l2, nth_error labels1 i = Some l1 -> nth_error labels2 i = Some l2 ->
    exists P, s_poly S l1 = Ok P /\ s_poly T l2 = Ok P;
  same_gluings : forall i l1 l2 P e, nth_error labels1 i = Some l1 -> nth_error labels2 i = Some l2 -> s_poly S l1 = Ok P -> e < length P ->
    exists j m1 m2 e', s_opp S l1 e = Ok (Some (m1, e')) /\ s_opp T l2 e = Ok (Some (m2, e')) /\ nth_error labels1 j = Some m1 /\ nth_error labels2 j = Some m2 }.
End S.
