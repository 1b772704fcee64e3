(** Model of cutting polygons along diagonals and of joining adjacent polygons:
    MutableOrientedSimilaritySurface.subdivide_polygon and join_polygons of flatsurf/geometry/surface.py.

    Vertices and edges are numbered from 0 (natural numbers); the deprecated keyword [test] is left out. *)
From Coq Require Import List Bool ZArith Arith.
From Verif Require Import OField MBase MDict MEuclid MSim MPoly MMut MSurf.
Import ListNotations.

Section Cut.
Context {K : OField}.
Local Open Scope F_scope.
Notation nv := (@length (vec K) : polygon K -> nat).
Notation surf := (@surf (polygon K)).
Local Open Scope M_scope.

(** surface.py 1876-1880 *)
Definition cut_table (p k : label) (ne v1 v2 : nat) : dict hedge hedge :=
  map (fun i => ((p, Z.of_nat (i mod ne)), (k, Z.of_nat (i - v1 + 1)))) (seq v1 (v2 - v1)) ++
  map (fun i => ((p, Z.of_nat (i mod ne)), (p, Z.of_nat (i - v2 + 1)))) (seq v2 (ne + v1 - v2)).
(** surface.py 1883-1886 and 1889-1892; [None] cannot be subscripted *)
Definition cut_glue (table : dict hedge hedge) (x : hedge) (pair : option hedge) : M surf unit :=
  match pair with
  | None => mraise TypeError
  | Some y => glue nv x (match dget y table with Some y' => y' | None => y end)
  end.
(** surface.py 1833-1892 *)
Definition subdivide_polygon (p : label) (v1 v2 : nat) (new_label : option label) : M surf unit :=
  let! P := mread (fun s => get_polygon s p) in
  let ne := nv P in
  (if ((ne <=? v1) || (ne <=? v2))%nat%bool then mraise ValueError else mret tt) ;;;
  let d := (Nat.max v1 v2 - Nat.min v1 v2)%nat in
  (if ((d <=? 1) || (ne - 1 <=? d))%nat%bool then mraise ValueError else mret tt) ;;;
  let v2 := if (v2 <? v1)%nat then (v2 + ne)%nat else v2 in
  let! Q1 := mlift (Polygon_edges (vsub (vertex P v2) (vertex P v1) :: map (edge P) (seq v2 (v1 + ne - v2)))) in
  let! Q2 := mlift (Polygon_edges (vsub (vertex P v1) (vertex P v2) :: map (edge P) (seq v1 (v2 - v1)))) in
  let! old := mread (fun s => rmap (fun i => opposite_edge s p (Z.of_nat i)) (seq 0 ne)) in
  remove_polygon nv p ;;;
  add_polygon nv Q1 (Some p) ;;;
  let! k := add_polygon nv Q2 new_label in
  glue nv (p, 0%Z) (k, 0%Z) ;;;
  let table := cut_table p k ne v1 v2 in
  mfor (seq 1 (nv Q1 - 1)) (fun e => cut_glue table (p, Z.of_nat e) (nth ((v2 + e - 1) mod ne) old None)) ;;;
  mfor (seq 1 (nv Q2 - 1)) (fun e => cut_glue table (k, Z.of_nat e) (nth ((v1 + e - 1) mod ne) old None)).

(** surface.py 1786-1800: the old edges in the order of the new polygon *)
Definition join_edge_map (p1 : label) (e1 n1 : nat) (p2 : label) (e2 n2 : nat) : list (label * nat) :=
  map (fun i => (p1, i)) (seq 0 e1) ++ map (fun i => (p2, ((e2 + i) mod n2)%nat)) (seq 1 (n2 - 1)) ++
  map (fun i => (p1, i)) (seq (e1 + 1) (n1 - (e1 + 1))).
Definition join_edges (P1 P2 : polygon K) (e1 e2 : nat) (dt : mat K) : list (vec K) :=
  map (edge P1) (seq 0 e1) ++ map (fun i => mapply dt (edge P2 ((e2 + i) mod nv P2))) (seq 1 (nv P2 - 1)) ++
  map (edge P1) (seq (e1 + 1) (nv P1 - (e1 + 1))).
Definition nat_edge (x : label * nat) : hedge := (fst x, Z.of_nat (snd x)).
(** surface.py 1810-1812 *)
Definition join_inv_map (p1 : label) (em : list (label * nat)) : dict hedge hedge :=
  combine (map nat_edge em) (map (fun i => (p1, Z.of_nat i)) (seq 0 (length em))).
(** surface.py 1815-1821; None cannot be unpacked *)
Definition join_partner (s : surf) (p1 p2 : label) (inv_map : dict hedge hedge) (x : label * nat) : res hedge :=
  match opposite_edge s (fst x) (Z.of_nat (snd x)) with
  | Err e => Err e
  | Ok None => Err TypeError
  | Ok (Some y) => if (fst y =? p1)%Z || (fst y =? p2)%Z then dgetE y inv_map else Ok y
  end.
(** surface.py 1767-1831 *)
Definition join_polygons (p1 : label) (e1 : nat) (in_place : bool) : M surf unit :=
  if negb in_place then mraise AttributeError else
  let! P1 := mread (fun s => get_polygon s p1) in
  let! y := mread (fun s => opp_pair (mut_surface s) p1 e1) in
  let p2 := fst y in
  let e2 := snd y in
  let! P2 := mread (fun s => get_polygon s p2) in
  (if (p1 =? p2)%Z then mraise ValueError else mret tt) ;;;
  let! t := mread (fun s => edge_transformation (mut_surface s) p2 e2) in
  let! Q := mlift (Polygon_edges (join_edges P1 P2 e1 e2 (sim_derivative t))) in
  let em := join_edge_map p1 e1 (nv P1) p2 e2 (nv P2) in
  let! glue_list := mread (fun s => rmap (join_partner s p1 p2 (join_inv_map p1 em)) em) in
  let! rs := mread (get_roots nv) in
  (if mem p2 rs then set_roots nv (map (fun l => if (l =? p2)%Z then p1 else l) rs) else mret tt) ;;;
  remove_polygon nv p2 ;;;
  remove_polygon nv p1 ;;;
  add_polygon nv Q (Some p1) ;;;
  mfor (combine (seq 0 (length glue_list)) glue_list) (fun ec => glue nv (p1, Z.of_nat (fst ec)) (snd ec)).
End Cut.
