(** Specification vocabulary for normalized coordinates and the holonomy field. *)
From Coq Require Import List Bool ZArith Arith.
From Verif Require Import OField MBase MDict MEuclid MSim MPoly MMut SMut SHyp SPoint.
Import ListNotations.

Section S.
Context {K : OField}.
Local Open Scope F_scope.
Notation nv := (@length (vec K) : polygon K -> nat).
Notation surf := (@surf (polygon K)).

(** the field generated by [hs]: the intersection of all subfields that contain [hs] *)
Definition generated (hs : list K) (x : K) : Prop := forall F, subfield F -> (forall h, In h hs -> F h) -> F x.
(** [w] is the holonomy of an edge of [s] *)
Definition holonomy (s : surf) (w : vec K) : Prop := exists l P e, get_polygon s l = Ok P /\ w = edge P e.
(** all edges of [s] are in the [F]-vector space spanned by two vectors; the holonomy field of Kenyon and Smillie is the
    smallest such [F] *)
Definition planar_over (F : K -> Prop) (s : surf) : Prop :=
  exists a b, ccw a b <> 0 /\ forall w, holonomy s w -> exists x y, F x /\ F y /\ w = vadd (vscale x a) (vscale y b).
(** the vertex [j] is the first one after vertex 0 at which the boundary turns, and it turns to the left or right *)
Definition straight (P : polygon K) (j : nat) : Prop := ccw (edge P (j - 1)) (edge P j) = 0.
Definition first_corner (P : polygon K) (j : nat) : Prop :=
  (1 <= j)%nat /\ ~ straight P j /\ forall i, (1 <= i < j)%nat -> straight P i.

(** [t] is the image of [s] under the linear map [M]; the labels are changed and the polygons are moved such that their
    first vertex is the origin *)
Definition linear_image (M : mat K) (s t : surf) : Prop :=
  exists f : label -> label,
    (forall l l', is_label s l -> is_label s l' -> f l = f l' -> l = l') /\
    (forall k, is_label t k <-> exists l, is_label s l /\ k = f l) /\
    (forall l P, get_polygon s l = Ok P -> exists Q, get_polygon t (f l) = Ok Q /\ length Q = length P /\
       forall i, vertex Q i = mapply M (vsub (vertex P i) (vertex P 0))) /\
    (forall l e l' e', is_label s l -> is_label s l' -> (glued nv t (f l, e) (f l', e') <-> glued nv s (l, e) (l', e'))) /\
    (forall l e, is_label s l -> (free nv t (f l, e) <-> free nv s (l, e))).
End S.
