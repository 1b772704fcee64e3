(** Specification vocabulary for the action of flips on chains. *)
From Coq Require Import List Bool ZArith Arith Relations.
From Verif Require Import OField FMicromega MBase MDict MEuclid MSim MPoly MMut SMut MSurf SSurf SFlip.
Import ListNotations.

Section S.
Context {K : OField}.
Local Open Scope F_scope.
Notation surf := (@surf (polygon K)).
Notation nv := (@length (vec K) : polygon K -> nat).

(** a closed translation surface made of triangles: glued edges are opposite vectors *)
Record triangulated (s : surf) : Prop := {
  tr_triangle : forall l P, get_polygon s l = Ok P -> length P = 3%nat /\ 0 < area P;
  tr_closed : forall x, is_edge nv s x -> exists y, glued nv s x y;
  tr_translation : forall x y v, glued nv s x y -> edge_vector s x = Ok v -> edge_vector s y = Ok (vopp v) }.

(** the value of a function of the edges at a chain *)
Definition value (phi : hedge -> K) (c : list (hedge * Z)) : K := fold_right fadd 0 (map (fun t => Z2K K (snd t) * phi (fst t)) c).
(** the sum over the vectors of the edges of a chain *)
Definition total_vector (s : surf) (c : list (hedge * Z)) : vec K :=
  (value (fun y => match edge_vector s y with Ok v => fst v | Err _ => 0 end) c,
   value (fun y => match edge_vector s y with Ok v => snd v | Err _ => 0 end) c).
(** the functions that are zero at the chains that are trivial in homology: opposite edges cancel, and so do the edges of a
    triangle *)
Definition cocycle (s : surf) (phi : hedge -> K) :=
  (forall x y, glued nv s x y -> phi x + phi y = 0) /\
  (forall l, is_label s l -> phi (l, 0%Z) + phi (l, 1%Z) + phi (l, 2%Z) = 0).

(** a corner of a triangle is named by the edge that starts there; the corner where an edge ends: *)
Definition endpoint (x : hedge) : hedge := (fst x, ((snd x + 1) mod 3)%Z).
(** corners at the same vertex of the surface *)
Definition same_vertex (s : surf) : hedge -> hedge -> Prop := clos_refl_sym_trans hedge (fun c d => exists x y, glued nv s x y /\ c = x /\ d = endpoint y).
(** [beta] is a bijection from the vertices of [s] to the vertices of [t] *)
Record vertex_bijection (s t : surf) (beta : hedge -> hedge) : Prop := {
  vb_corner : forall c, is_edge nv s c -> is_edge nv t (beta c);
  vb_same : forall c d, is_edge nv s c -> is_edge nv s d -> (same_vertex s c d <-> same_vertex t (beta c) (beta d));
  vb_all : forall d, is_edge nv t d -> exists c, is_edge nv s c /\ same_vertex t (beta c) d }.
(** the sum of the boundary of a chain, for a function of the corners *)
Definition boundary_value (w : hedge -> K) (c : list (hedge * Z)) : K := value (fun y => w (endpoint y) - w y) c.
End S.
