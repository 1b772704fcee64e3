(** Specification vocabulary for similarity surfaces. *)
From Coq Require Import List Bool ZArith Arith.
From Verif Require Import OField MBase MEuclid MSim MPoly SSim MSurf.

Section S.
Context {K : OField} {L : Type}.
Local Open Scope F_scope.
Implicit Types (S : surface K L) (D : L -> Prop).

(** [D] is the set of labels of a surface: there are polygons without degenerate edges, and gluing is a partial
    involution on their edges *)
Record valid D S : Prop := {
  v_poly : forall l, D l -> exists P, s_poly S l = Ok P /\ (3 <= length P)%nat /\ forall e, edge P e <> vzero;
  v_opp : forall l P e, D l -> s_poly S l = Ok P -> (e < length P)%nat ->
    s_opp S l e = Ok None \/
    exists l' e' P', s_opp S l e = Ok (Some (l', e')) /\ D l' /\ s_poly S l' = Ok P' /\ (e' < length P')%nat /\
                     s_opp S l' e' = Ok (Some (l, e)) }.

(** there is no boundary *)
Definition closed D S := forall l P e, D l -> s_poly S l = Ok P -> (e < length P)%nat -> s_opp S l e <> Ok None.

(** the edge [e] of [P] at [l] is glued to the edge [e'] of [P'] at [l'] *)
Record glued_at D S (l : L) (e : nat) (P : polygon K) (l' : L) (e' : nat) (P' : polygon K) : Prop := {
  ga_dom : D l;
  ga_poly : s_poly S l = Ok P;
  ga_edge : (e < length P)%nat;
  ga_opp : s_opp S l e = Ok (Some (l', e'));
  ga_poly' : s_poly S l' = Ok P' }.

(** the map of the plane by which the edge [e] of [P] is glued to the edge [e'] of [P']: the similarity that
    preserves the orientation and maps the end points of one to the end points of the other in opposite order *)
Record gluing_map (P : polygon K) (e : nat) (P' : polygon K) (e' : nat) (F : vec K -> vec K) : Prop := {
  gm_similarity : exists c, map_similarity F c;
  gm_orientation : map_orientation_preserving F;
  gm_start : F (vertex P e) = vertex P' (Datatypes.S e');
  gm_end : F (vertex P (Datatypes.S e)) = vertex P' e' }.

(** all gluings are by maps of a given kind *)
Definition all_gluings D S (kind : (vec K -> vec K) -> Prop) :=
  forall l e P l' e' P' F, glued_at D S l e P l' e' P' -> gluing_map P e P' e' F -> kind F.

(** kinds of maps, besides those of SSim *)
Definition map_dilation (F : vec K -> vec K) := exists c u, c <> 0 /\ forall p, F p = vadd (vscale c p) u.
Definition map_positive_dilation (F : vec K -> vec K) := exists c u, 0 < c /\ forall p, F p = vadd (vscale c p) u.
Definition map_identity (F : vec K -> vec K) := forall p, F p = p.

(** [p] is strictly to the left (right) of the edge [e] of [P] *)
Definition left_of (P : polygon K) e p := 0 < orient (vertex P e) (vertex P (Datatypes.S e)) p.
Definition right_of (P : polygon K) e p := orient (vertex P e) (vertex P (Datatypes.S e)) p < 0.

(** two labels are adjacent *)
Definition next_to D S l l' := exists e P e' P', glued_at D S l e P l' e' P'.
End S.
