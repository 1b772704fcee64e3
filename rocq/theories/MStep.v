(** Model of step billiards: flatsurf/geometry/similarity_surface_generators.py 1094-1187. *)
From Coq Require Import List Bool ZArith Arith.
From Verif Require Import OField FMicromega MBase MDict MEuclid MSim MPoly MMut MGen.
Import ListNotations.
Local Open Scope M_scope.

Section M.
Context {K : OField}.
Local Open Scope F_scope.
Notation surf := (@surf (polygon K)).
Notation nv := (@length (vec K)).

(** 1124-1138: the loop over widths and heights except for the last ones; the polygons and the final values of x and y *)
Fixpoint step_loop (wh : list (K * K)) (x y : K) : res (list (polygon K) * (K * K)) :=
  match wh with
  | nil => Ok (nil, (x, y))
  | (a, b) :: wh =>
    match Polygon_vertices [(x, 0); (x + a, 0); (x + a, y - b); (x + a, y); (x, y)] with
    | Err e => Err e
    | Ok p => match step_loop wh (x + a) (y - b) with Err e => Err e | Ok (ps, xy) => Ok (p :: ps, xy) end
    end
  end.
(** 1149-1152 *)
Definition upside_down (p : polygon K) : res (polygon K) := Polygon_vertices (map (fun v => (fst v, - snd v)) (rev p)).
(** 1169-1184 *)
Local Open Scope Z_scope.
Definition step_gluings (k : nat) : list (hedge * hedge) :=
  let n := Z.of_nat k in
  [hg 0 4 n 4; hg (n - 1) 0 (2 * n - 1) 2; hg (n - 1) 1 (2 * n - 1) 1; hg (n - 1) 2 (2 * n - 1) 0] ++
  flat_map (fun j => let i := Z.of_nat j in [hg i 0 (n + i) 3; hg i 2 (n + i) 1; hg i 3 (n + i) 0]) (seq 0 (k - 1)) ++
  [hg (n - 2) 1 (n - 1) 3; hg (2 * n - 2) 2 (2 * n - 1) 3] ++
  flat_map (fun j => let i := Z.of_nat j in [hg i 1 (i + 1) 4; hg (n + i) 2 (n + i + 1) 4]) (seq 0 (k - 2)).
Local Close Scope Z_scope.
(** 1109-1187; w[:-1], w[-1] are [removelast w] and [last w] for lists that are not empty *)
Definition step_billiard (w h : list K) : M surf unit :=
  let n := length h in
  (if negb (length w =? n)%nat then mraise ValueError else mret tt) ;;;
  (if (n <? 2)%nat then mraise ValueError else mret tt) ;;;
  let H := fold_left fadd h 0 in
  let W := fold_left fadd w 0 in
  let! r := mlift (step_loop (combine (removelast w) (removelast h)) 0 H) in
  let x := fst (snd r) in let y := snd (snd r) in
  massert (x =? W - last w 0) ;;;
  massert (y =? last h 0) ;;;
  let! q := mlift (Polygon_vertices [(x, 0); (x + last w 0, 0); (x + last w 0, y); (x, y)]) in
  let P := fst r ++ [q] in
  let! Prev := mlift (rmap upside_down P) in
  mfor P (fun p => addp None (Ok p)) ;;;
  mfor Prev (fun p => addp None (Ok p)) ;;;
  glues (step_gluings n) ;;;
  set_immutable nv.
End M.
