(** Model of the subdivision of the edges of a surface: flatsurf/geometry/categories/similarity_surfaces.py
    (subdivide_edges), flatsurf/geometry/categories/euclidean_polygons.py (subdivide_edges), flatsurf/geometry/morphism.py
    (SubdivideEdgesMorphism).

    Not modelled: the method of polygons only exists for convex polygons (here for all); negative [parts]. *)
From Coq Require Import List Bool ZArith Arith.
From Verif Require Import OField MBase MDict MEuclid MSim MPoly MMut MSurf MPoint.
Import ListNotations.

Section Sub.
Context {K : OField}.
Local Open Scope F_scope.
Notation nv := (@length (vec K) : polygon K -> nat).
Notation surf := (@surf (polygon K)).

(** the conversion of a natural number to the base ring *)
Fixpoint fnat (n : nat) : K := match n with O => 0 | S n => 1 + fnat n end.

(** euclidean_polygons.py 2192-2220 *)
Definition poly_subdivide_edges (parts : nat) (P : polygon K) : res (polygon K) :=
  if (parts <? 1)%nat then Err ValueError
  else Polygon_edges (flat_map (fun e => repeat (vscale (finv (fnat parts)) e) parts) (edges P)).

(** similarity_surfaces.py 3511-3518 *)
Local Open Scope M_scope.
Definition subdivide_glue (parts : nat) (l : label) (e : nat) (y : hedge) : M surf unit :=
  mfor (seq 0 parts) (fun p =>
    glue nv (l, Z.of_nat (e * parts + p)) (fst y, (snd y * Z.of_nat parts + (Z.of_nat parts - Z.of_nat p - 1))%Z)).
(** similarity_surfaces.py 3445-3520; the state is the new surface *)
Definition subdivide_edges (parts : nat) (s : surf) : M surf unit :=
  let! ls := mlift (iter_labels nv s) in
  let! ps := mlift (rmap (get_polygon s) ls) in
  let! subs := mlift (rmap (poly_subdivide_edges parts) ps) in
  mfor (combine ls subs) (fun lp => add_polygon nv (snd lp) (Some (fst lp)) ;;; mret tt) ;;;
  let! rs := mlift (get_roots nv s) in
  set_roots nv rs ;;;
  mfor (combine ls ps) (fun lP => mfor (seq 0 (nv (snd lP))) (fun e =>
    let! y := mlift (opposite_edge s (fst lP) (Z.of_nat e)) in
    match y with None => mret tt | Some y => subdivide_glue parts (fst lP) e y end)) ;;;
  set_immutable nv.

(** morphism.py 4068-4084 *)
Definition subdivide_edge_image (parts : nat) (x : label * nat) : list (label * nat) :=
  map (fun p => (fst x, (snd x * parts + p)%nat)) (seq 0 parts).
(** morphism.py 4031-4047, for points of finite surfaces: a point with the same label and coordinates; [t] is the
    subdivided surface, [fuel] bounds the walk around a vertex *)
Definition subdivide_image_point (fuel : nat) (t : surf) (l : label) (p : vec K) : res (list (label * vec K)) :=
  surface_point (mut_surface t) fuel l p None.
End Sub.
