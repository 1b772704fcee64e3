(** Model of flatsurf/geometry/circle.py, of circumscribed_circle in
    flatsurf/geometry/categories/euclidean_polygons.py and of the Delaunay tests in
    flatsurf/geometry/categories/similarity_surfaces.py.

    Not modelled: base rings, hashing and printing of circles, the deprecated parameter [limit]. *)
From Coq Require Import List Bool ZArith Arith.
From Verif Require Import OField MBase MDict MEuclid MSim MPoly MSurf.
Import ListNotations.

(** circle.py 54-71 *)
Record circle (V : Type) := Circle { ci_center : (V * V)%type; ci_r2 : V }.
Arguments Circle {V}. Arguments ci_center {V}. Arguments ci_r2 {V}.

Section Circle.
Context {K : OField}.
Local Open Scope F_scope.
Local Open Scope res_scope.

(** elements of [K^3] and Sage's cross product *)
Definition vec3 : Type := (K * K * K)%type.
Definition cross3 (u v : vec3) : vec3 :=
  let '(u0, u1, u2) := u in let '(v0, v1, v2) := v in
  (u1 * v2 - u2 * v1, u2 * v0 - u0 * v2, u0 * v1 - u1 * v0).
(** [(v[0] / v[2], v[1] / v[2])] *)
Definition dehomogenize (v : vec3) : res (vec K) :=
  let '(x, y, z) := v in if z =? 0 then Err ZeroDivisionError else Ok (x / z, y / z).
(** [(p[0] - q[0]) ** 2 + (p[1] - q[1]) ** 2] *)
Definition sqdist (p q : vec K) : K := (fst p - fst q) * (fst p - fst q) + (snd p - snd q) * (snd p - snd q).

(** circle.py 32-51 *)
Definition circle_from_three_points (p q r : vec K) : res (circle K) :=
  let line1 := cross3 (fst p + fst q, snd p + snd q, 2) (snd p - snd q, fst q - fst p, 0) in
  let line2 := cross3 (fst p + fst r, snd p + snd r, 2) (snd p - snd r, fst r - fst p, 0) in
  match dehomogenize (cross3 line1 line2) with
  | Err _ => Err ValueError
  | Ok center => Ok (Circle center (sqdist p center))
  end.
(** circle.py 85-99 *)
Definition point_position (c : circle K) (p : vec K) : Z :=
  let value := sqdist p (ci_center c) - ci_r2 c in
  if 0 <? value then (-1)%Z else if value <? 0 then 1%Z else 0%Z.
(** circle.py 101-133 *)
Definition closest_point_on_line (c : circle K) (p d : vec K) : res (vec K) :=
  let l1 := cross3 (fst (ci_center c), snd (ci_center c), 1) (snd d, - fst d, 0) in
  let l2 := cross3 (fst p, snd p, 1) (fst d, snd d, 0) in
  match dehomogenize (cross3 l1 l2) with Err _ => Err ValueError | Ok r => Ok r end.
(** circle.py 135-141 *)
Definition line_position (c : circle K) (p d : vec K) : res Z :=
  r <- closest_point_on_line c p d ;; Ok (point_position c r).
(** circle.py 143-165 *)
Definition line_segment_position (c : circle K) (p q : vec K) : res Z :=
  if (point_position c p =? 1)%Z then Ok 1%Z
  else if (point_position c q =? 1)%Z then Ok 1%Z
  else
    r <- closest_point_on_line c p (vsub q p) ;;
    let pos := point_position c r in
    if (pos =? -1)%Z then Ok (-1)%Z
    else if (if fst p =? fst q
             then (snd p <? snd r) && (snd r <? snd q) || (snd r <? snd p) && (snd q <? snd r)
             else (fst p <? fst r) && (fst r <? fst q) || (fst r <? fst p) && (fst q <? fst r))
         then Ok pos else Ok (-1)%Z.
(** circle.py 167-182 *)
Definition tangent_vector (c : circle K) (p : vec K) : res (vec K) :=
  if negb (point_position c p =? 0)%Z then Err ValueError
  else Ok (snd (ci_center c) - snd p, fst p - fst (ci_center c)).
(** circle.py 184-210 *)
Definition other_intersection (c : circle K) (p v : vec K) : res (vec K) :=
  let l := cross3 (fst p, snd p, 1) (fst v, snd v, 0) in
  let lperp := cross3 (fst (ci_center c), snd (ci_center c), 1) (- snd v, fst v, 0) in
  r <- dehomogenize (cross3 l lperp) ;;
  Ok (2 * fst r - fst p, 2 * snd r - snd p).
(** circle.py 212-234 *)
Definition circle_rmul (s : sim K) (c : circle K) : circle K :=
  Circle (sim_apply s (ci_center c)) (sim_det s * ci_r2 c).
(** circle.py 262-280 *)
Definition circle_eqb (c d : circle K) : bool := veqb (ci_center c) (ci_center d) && (ci_r2 c =? ci_r2 d).

(** euclidean_polygons.py 2110-2132 *)
Definition circumscribed_circle (P : polygon K) : res (circle K) :=
  c <- circle_from_three_points (vertex P 0) (vertex P 1) (vertex P 2) ;;
  if forallb (fun i => (point_position c (vertex P i) =? 0)%Z) (seq 3 (length P - 3)) then Ok c else Err ValueError.
End Circle.

Section Delaunay.
Context {K : OField} {L : Type}.
Variable S : surface K L.
Local Open Scope F_scope.
Local Open Scope res_scope.

(** similarity_surfaces.py 2560-2575 *)
Definition needs_flip (l : L) (e : nat) : res bool :=
  o <- s_opp S l e ;;
  match o with
  | None => Err TypeError
  | Some y =>
    P1 <- s_poly S l ;;
    P2 <- s_poly S (fst y) ;;
    if negb (length P1 =? 3)%nat || negb (length P2 =? 3)%nat then Err ValueError else
    let sim1 := similarity_from_vectors (edge P1 (e + 2)) (vopp (edge P1 (e + 1))) in
    let sim2 := similarity_from_vectors (edge P2 (snd y + 2)) (vopp (edge P2 (snd y + 1))) in
    Ok (m10 (mmul sim1 sim2) <? 0)
  end.
(** similarity_surfaces.py 2577-2596 *)
Definition needs_join (l : L) (e : nat) : res bool :=
  o <- s_opp S l e ;;
  match o with
  | None => Err TypeError
  | Some y =>
    P1 <- s_poly S l ;;
    P2 <- s_poly S (fst y) ;;
    let sim1 := similarity_from_vectors (vsub (vertex P1 e) (vertex P1 (e + 2))) (vopp (edge P1 (e + 1))) in
    let sim2 := similarity_from_vectors (vsub (vertex P2 (snd y)) (vertex P2 (snd y + 2))) (vopp (edge P2 (snd y + 1))) in
    Ok (m10 (mmul sim1 sim2) =? 0)
  end.
(** similarity_surfaces.py 2598-2634; [gs] lists the edges of [gluings()] *)
Fixpoint is_delaunay_triangulated (gs : list (L * nat)) : res bool :=
  match gs with
  | nil => Ok true
  | g :: gs =>
    o <- s_opp S (fst g) (snd g) ;;
    match o with
    | None => Err TypeError
    | Some y =>
      P1 <- s_poly S (fst g) ;;
      if negb (length P1 =? 3)%nat then Ok false else
      P2 <- s_poly S (fst y) ;;
      if negb (length P2 =? 3)%nat then Ok false else
      b <- needs_flip (fst g) (snd g) ;;
      if b then Ok false else is_delaunay_triangulated gs
    end
  end.
(** similarity_surfaces.py 2636-2681: the inner loop for the polygon [l1], then the outer loop *)
Fixpoint decomposed_edges (l1 : L) (c1 : circle K) (es : list nat) : res bool :=
  match es with
  | nil => Ok true
  | e1 :: es =>
    f <- edge_transformation S l1 e1 ;;
    let c2 := circle_rmul f c1 in
    o <- s_opp S l1 e1 ;;
    match o with
    | None => Err TypeError
    | Some y =>
      P2 <- s_poly S (fst y) ;;
      if negb (point_position c2 (vertex P2 (snd y + 2)) =? -1)%Z then Ok false
      else decomposed_edges l1 c1 es
    end
  end.
Fixpoint is_delaunay_decomposed (ls : list L) : res bool :=
  match ls with
  | nil => Ok true
  | l1 :: ls =>
    P1 <- s_poly S l1 ;;
    match circumscribed_circle P1 with
    | Err ValueError => Ok false
    | Err x => Err x
    | Ok c1 =>
      b <- decomposed_edges l1 c1 (seq 0 (length P1)) ;;
      if b then is_delaunay_decomposed ls else Ok false
    end
  end.
End Delaunay.
