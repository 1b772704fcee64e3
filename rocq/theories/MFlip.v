(** Model of the surgery on mutable surfaces: MutableOrientedSimilaritySurface_base.triangle_flip of
    flatsurf/geometry/surface.py and what it uses from categories/similarity_surfaces.py.

    Edges are numbered from 0 (no negative indices). *)
From Coq Require Import List Bool ZArith Arith.
From Verif Require Import OField MBase MDict MEuclid MSim MPoly MMut MSurf.
Import ListNotations.

Section Flip.
Context {K : OField}.
Local Open Scope F_scope.
Notation surf := (@surf (polygon K)).
Notation nv := (@length (vec K)).

Local Open Scope res_scope.
(** similarity_surfaces.py 2001-2043 *)
Definition is_convex_at {L} (S : surface K L) (l : L) (e : nat) (strict : bool) : res bool :=
  y <- opp_pair S l e ;;
  p1 <- s_poly S l ;;
  f <- edge_transformation S (fst y) (snd y) ;;
  p2 <- s_poly S (fst y) ;;
  p2 <- Polygon_vertices (map (sim_apply f) p2) ;;
  p <- poly_join p1 p2 e (snd y) ;;
  Ok (is_convex strict p).

Local Open Scope Z_scope.
(** surface.py 1088-1097, the local function [to_new]; its argument is unpacked, None is a TypeError *)
Definition to_new (l0 l1 : label) (d0 d1 : Z) (y : option hedge) : res hedge :=
  match y with
  | None => Err TypeError
  | Some (lbl, edge) =>
    if lbl =? l0 then
      if edge =? d0 then Err AssertionError
      else if edge =? (d0 + 1) mod 3 then Ok (l1, (d1 + 2) mod 3)
      else if edge =? (d0 + 2) mod 3 then Ok (l0, (d0 + 1) mod 3) else Err AssertionError
    else if lbl =? l1 then
      if edge =? d1 then Err AssertionError
      else if edge =? (d1 + 1) mod 3 then Ok (l0, (d0 + 2) mod 3)
      else if edge =? (d1 + 2) mod 3 then Ok (l1, (d1 + 1) mod 3) else Err AssertionError
    else Ok (lbl, edge)
  end.

Local Open Scope M_scope.
(** surface.py 1000-1104 with [in_place = True] and the deprecated keywords [test] and [direction] left out *)
Definition triangle_flip (l : label) (e : nat) : M surf unit :=
  let! y := mread (fun s => opp_pair (mut_surface s) l e) in
  let l' := fst y in
  let e' := snd y in
  let! P := mread (fun s => get_polygon s l) in
  let! P' := mread (fun s => get_polygon s l') in
  (if negb (nv P =? 3)%nat || negb (nv P' =? 3)%nat then mraise ValueError else mret tt) ;;;
  let! c := mread (fun s => is_convex_at (mut_surface s) l e true) in
  (if c : bool then mret tt else mraise ValueError) ;;;
  let! T := mread (fun s => edge_transformation (mut_surface s) l' e') in
  let! P' := mlift (Polygon_vertices (map (sim_apply T) P')) in
  let! g := mread (fun s => rmap (fun i => opposite_edge s l (Z.of_nat ((e + i) mod 3))) [0%nat; 1%nat; 2%nat]) in
  let! g' := mread (fun s => rmap (fun i => opposite_edge s l' (Z.of_nat ((e' + i) mod 3))) [0%nat; 1%nat; 2%nat]) in
  massert (veqb (vertex P e) (vertex P' (e' + 1))) ;;;
  massert (veqb (vertex P (e + 1)) (vertex P' e')) ;;;
  let Q := [vertex P' (e' + 2); vertex P (e + 2); vertex P e] in
  let Q' := [vertex P (e + 2); vertex P' (e' + 2); vertex P' e'] in
  let! Q := mlift (Polygon_vertices (skipn (3 - e) Q ++ firstn (3 - e) Q)) in
  let! Q' := mlift (Polygon_vertices (skipn (3 - e') Q' ++ firstn (3 - e') Q')) in
  replace_polygon nv l (translate Q (vopp (vertex Q 0))) ;;;
  replace_polygon nv l' (translate Q' (vopp (vertex Q' 0))) ;;;
  let d := Z.of_nat e in
  let d' := Z.of_nat e' in
  glue nv (l, d) (l', d') ;;;
  let! y := mlift (to_new l l' d d' (nth 2 g None)) in
  glue nv (l, (d + 1) mod 3) y ;;;
  let! y := mlift (to_new l l' d d' (nth 1 g' None)) in
  glue nv (l, (d + 2) mod 3) y ;;;
  let! y := mlift (to_new l l' d d' (nth 2 g' None)) in
  glue nv (l', (d' + 1) mod 3) y ;;;
  let! y := mlift (to_new l l' d d' (nth 1 g None)) in
  glue nv (l', (d' + 2) mod 3) y.
End Flip.
