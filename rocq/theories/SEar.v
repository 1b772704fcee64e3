(** Specification vocabulary for triangulations of polygons. *)
From Coq Require Import List Bool ZArith Arith Permutation.
From Verif Require Import OField MBase MDict MEuclid SEuclid MSim SSim MPoly MMut SMut SPoint.
Import ListNotations.

Section S.
Context {K : OField}.
Local Open Scope F_scope.
Notation nv := (@length (vec K) : polygon K -> nat).
Notation surf := (@surf (polygon K)).
Implicit Types (P Q : polygon K) (s : surf) (q : vec K).

(** [q] is on the left of all edges of the polygon, or on them *)
Definition left_or_on Q q := forall e, (e < length Q)%nat -> 0 <= orient (vertex Q e) (vertex Q (S e)) q.
Definition strictly_left Q q := forall e, (e < length Q)%nat -> 0 < orient (vertex Q e) (vertex Q (S e)) q.
(** the edge [x] of the surface goes from the point [p] to the point [p'] *)
Definition goes s (x : hedge) (p p' : vec K) := exists Q, get_polygon s (fst x) = Ok Q /\ is_edge nv s x /\
  vertex Q (Z.to_nat (snd x)) = p /\ vertex Q (S (Z.to_nat (snd x))) = p'.

(** the surface [s] is a triangulation of [P] and [outer] names the edges of [P] *)
Record triangulation_of P s (outer : dict nat hedge) : Prop := {
  tr_labels : forall l, is_label s l <-> (0 <= l < Z.of_nat (length P) - 2)%Z;
  tr_triangles : forall l Q, get_polygon s l = Ok Q -> exists a b c, (a < length P)%nat /\ (b < length P)%nat /\ (c < length P)%nat /\
    Q = [vertex P a; vertex P b; vertex P c] /\ 0 < orient (vertex P a) (vertex P b) (vertex P c);
  (** the areas add up *)
  tr_area : exists Qs, length Qs = (length P - 2)%nat /\ (forall i Q, nth_error Qs i = Some Q -> get_polygon s (Z.of_nat i) = Ok Q) /\
    fold_right (fun Q r => area Q + r) 0 Qs = area P;
  (** the edges of [P] are the edges that are not glued *)
  tr_keys : Permutation (keys outer) (seq 0 (length P));
  tr_outer : forall i x, dget i outer = Some x <-> (i < length P)%nat /\ free nv s x /\ goes s x (vertex P i) (vertex P (S i));
  tr_free : forall x, free nv s x -> exists i, dget i outer = Some x;
  tr_once : forall i j x, dget i outer = Some x -> dget j outer = Some x -> i = j;
  (** glued edges are the same segment in opposite directions *)
  tr_glued : forall x y, glued nv s x y -> glued nv s y x /\ exists p p', p <> p' /\ goes s x p p' /\ goes s y p' p;
  (** the triangles cover the polygon without overlaps *)
  tr_cover : forall q, (exists l Q, get_polygon s l = Ok Q /\ left_or_on Q q) <-> get_point_position P q <> Outside;
  tr_disjoint : forall l l' Q Q' q, get_polygon s l = Ok Q -> get_polygon s l' = Ok Q' -> strictly_left Q q -> strictly_left Q' q -> l = l' }.
End S.
