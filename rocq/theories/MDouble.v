(** Model of the double of a polygon and of the unfolding of a convex billiard table:
    flatsurf/geometry/similarity_surface_generators.py 719-877 and 923-943. *)
From Coq Require Import List Bool ZArith Arith.
From Verif Require Import OField MBase MDict MEuclid MSim MPoly MMut.
Import ListNotations.
Local Open Scope M_scope.

Section M.
Context {K : OField}.
Local Open Scope F_scope.
Notation surf := (@surf (polygon K)).
Notation nv := (@length (vec K)).

(** 859 and 935: [Polygon(edges=\[V((-x, y)) for x, y in reversed(p.edges())\])]; in 935 the vectors are multiplied by a matrix *)
Definition mirror (P : polygon K) : res (polygon K) := Polygon_edges (map (fun v => (- fst v, snd v)) (rev (edges P))).
(** 923-943; the state is the new surface *)
Definition polygon_double (P : polygon K) : M surf unit :=
  let! Q := mlift (mirror P) in
  add_polygon nv P (Some 0%Z) ;;;
  add_polygon nv Q (Some 1%Z) ;;;
  mfor (seq 0 (length P)) (fun i => glue nv (0%Z, Z.of_nat i) (1%Z, Z.of_nat (length P) - Z.of_nat i - 1)%Z) ;;;
  set_immutable nv.
(** 845-877 for a table that is convex (841-844): there is one polygon and all edges are external, m = 1. Tables that are not
    convex are triangulated first by another algorithm (euclidean_polygons.py 1206-1389), which is not modelled. *)
Definition billiard_convex (P : polygon K) : M surf unit :=
  add_polygon nv P None ;;;
  let! Q := mlift (mirror P) in
  add_polygon nv Q None ;;;
  mfor (seq 0 (length P)) (fun i => glue nv (0%Z, Z.of_nat i) ((1 + 0)%Z, Z.of_nat (length P) - Z.of_nat i - 1)%Z) ;;;
  set_immutable nv.
End M.
