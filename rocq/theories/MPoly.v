(** Model of polygons: flatsurf/geometry/polygon.py and flatsurf/geometry/categories/euclidean_polygons.py.

    A polygon is the list of its vertices (polygon.py 280-284, attribute _v). Categories, base rings,
    plotting, angles (floating point) are not modelled. The checks of the constructor [Polygon(...)] are
    modelled by separate predicates ([is_simple], [area]). *)
From Coq Require Import List Bool ZArith Arith.
From Verif Require Import OField MBase MEuclid MSim.
Import ListNotations.

(** polygon.py 175-251; OUTSIDE, INTERIOR, EDGE_INTERIOR, VERTEX *)
Inductive position := Outside | Interior | EdgeInterior (e : nat) | AtVertex (v : nat).

Section Poly.
Context {K : OField}.
Local Open Scope F_scope.

Definition polygon : Type := list (vec K).

(** euclidean_polygons.py 301-327; indices are taken modulo the number of vertices *)
Definition vertex (P : polygon) (i : nat) : vec K := nth (i mod length P) P vzero.
(** euclidean_polygons.py 344-370 *)
Definition edge (P : polygon) (i : nat) : vec K := vsub (vertex P (S i)) (vertex P i).
(** euclidean_polygons.py 329-342 *)
Definition edges (P : polygon) : list (vec K) := map (edge P) (seq 0 (length P)).

(** euclidean_polygons.py 372-402 *)
Definition is_convex (strict : bool) (P : polygon) : bool :=
  forallb (fun i => let c := ccw (edge P i) (edge P (S i)) in
                    if strict then negb (c <=? 0) else negb (c <? 0)) (seq 0 (length P)).

(** euclidean_polygons.py 679-707 *)
Definition area (P : polygon) : K :=
  fold_left (fun total i => total + (fst (vertex P i) + fst (vertex P (S i))) * snd (edge P i))
    (seq 0 (length P)) 0 / 2.

(** euclidean_polygons.py 709-762; [x[i - 1]] with [i = 0] is the last entry in Python *)
Definition centroid (P : polygon) : vec K :=
  let n := length P in
  let x i := fst (vertex P i) in
  let y i := snd (vertex P i) in
  let sum (f : nat -> nat -> K) := fold_left (fun acc i => acc + f (i + n - 1)%nat i) (seq 0 n) 0 in
  let c := finv ((2 * (2 + 1)) * area P) in
  (c * sum (fun j i => (x j + x i) * (x j * y i - x i * y j)),
   c * sum (fun j i => (y j + y i) * (x j * y i - x i * y j))).

(** polygon.py 418-435 *)
Definition translate (P : polygon) (u : vec K) : polygon := map (fun v => vadd u v) P.

(** euclidean_polygons.py 161-208: for a negative determinant the order is reversed, vertex 0 stays first *)
Definition poly_mul (g : mat K) (P : polygon) : res polygon :=
  let det := mdet g in
  if det =? 0 then Err ValueError
  else if det <? 0 then
    Ok (mapply g (vertex P 0) :: map (fun i => mapply g (vertex P i)) (rev (seq 1 (length P - 1))))
  else Ok (map (mapply g) P).

(** euclidean_polygons.py 251-278; edges are non-adjacent when [(i - j) % n] is neither 0 nor 1 (Python's [%]
    never yields -1) *)
Fixpoint simple_inner (P : polygon) (i : nat) (js : list nat) : res bool :=
  match js with
  | nil => Ok true
  | j :: js =>
    let n := Z.of_nat (length P) in
    let d := ((Z.of_nat i - Z.of_nat j) mod n)%Z in
    if (d =? -1)%Z || (d =? 0)%Z || (d =? 1)%Z then simple_inner P i js
    else
      match is_segment_intersecting (vertex P i, vertex P (S i)) (vertex P j, vertex P (S j)) with
      | Err e => Err e
      | Ok O => simple_inner P i js
      | Ok _ => Ok false
      end
  end.
Fixpoint simple_outer (P : polygon) (is : list nat) : res bool :=
  match is with
  | nil => Ok true
  | i :: is =>
    match simple_inner P i (seq (i + 2) (length P + 1 - (i + 2))) with
    | Ok true => simple_outer P is
    | r => r
    end
  end.
Definition is_simple (P : polygon) : res bool := simple_outer P (seq 0 (length P)).

(** euclidean_polygons.py 764-854 *)
Fixpoint find_vertex (P : polygon) (p : vec K) (i : nat) : option nat :=
  match P with
  | nil => None
  | v :: P => if veqb p v then Some i else find_vertex P p (S i)
  end.
Definition on_edge_interior (v e p : vec K) : bool :=
  (ccw e (vsub p v) =? 0) && ((0 <? dot e (vsub p v)) && (dot e (vsub p v) <? dot e e)).
Fixpoint find_edge (ves : list (vec K * vec K)) (p : vec K) (i : nat) : option nat :=
  match ves with
  | nil => None
  | (v, e) :: ves => if on_edge_interior v e p then Some i else find_edge ves p (S i)
  end.
Definition crossing (p v w : vec K) : Z :=
  Z.sub (if (snd v <? snd p) && (snd p <=? snd w) && (0 <? ccw (vsub w v) (vsub p v)) then 1%Z else 0%Z)
        (if (snd p <=? snd v) && (snd w <? snd p) && (ccw (vsub w v) (vsub p v) <? 0) then 1%Z else 0%Z).
Definition winding_number (P : polygon) (p : vec K) : Z :=
  fold_left (fun acc vw => (acc + crossing p (fst vw) (snd vw))%Z) (combine P (skipn 1 P ++ firstn 1 P)) 0%Z.
Definition get_point_position (P : polygon) (p : vec K) : position :=
  match find_vertex P p 0 with
  | Some i => AtVertex i
  | None =>
    match find_edge (combine P (edges P)) p 0 with
    | Some i => EdgeInterior i
    | None => if (winding_number P p mod 2 =? 0)%Z then Outside else Interior
    end
  end.

(** similarity.py 288-295: the image of a polygon under a similarity *)
Definition sim_polygon (f : sim K) (P : polygon) : polygon := map (sim_apply f) P.

(** polygon.py 1307-1318: vertices from edges; the edges must close up *)
Fixpoint partial_sums (start : vec K) (es : list (vec K)) : list (vec K) :=
  match es with
  | nil => [start]
  | e :: es => start :: partial_sums (vadd start e) es
  end.
Definition vertices_of_edges (es : list (vec K)) : res (list (vec K)) :=
  let vs := partial_sums vzero es in
  if negb (veqb (last vs vzero) vzero) then Err ValueError else Ok (removelast vs).

(** polygon.py 1368-1405 (the checks on vertices only), after 1125-1126 *)
Definition polygon_check (P : polygon) : res unit :=
  if (length P <? 3)%nat then Err ValueError
  else if area P <? 0 then Err ValueError
  else if area P =? 0 then Err ValueError
  else if existsb (fun e => veqb e vzero) (edges P) then Err ValueError
  else if existsb (fun i => is_anti_parallel (edge P i) (edge P (S i))) (seq 0 (length P)) then Err ValueError
  else match is_simple P with
       | Err e => Err e
       | Ok false => Err NotImplementedError
       | Ok true => Ok tt
       end.

(** polygon.py 858-1170: [Polygon(vertices=vs)] and [Polygon(edges=es)] *)
Definition Polygon_vertices (vs : list (vec K)) : res polygon :=
  match polygon_check vs with Ok _ => Ok vs | Err e => Err e end.
Definition Polygon_edges (es : list (vec K)) : res polygon :=
  if (length es <? 3)%nat then Err ValueError else
  match vertices_of_edges es with Ok vs => Polygon_vertices vs | Err e => Err e end.

(** euclidean_polygons.py 856-922 (0 <= edge < n and 0 <= other_edge < m) *)
Definition poly_join (P Q : polygon) (e f : nat) : res polygon :=
  if negb (veqb (vertex P e) (vertex Q (S f))) || negb (veqb (vertex P (S e)) (vertex Q f)) then Err ValueError
  else Polygon_vertices (firstn e P ++ skipn (S f) Q ++ firstn f Q ++ skipn (S e) P).

End Poly.
Arguments polygon : clear implicits.
