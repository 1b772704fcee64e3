(** Model of flatsurf/geometry/euclidean.py (the exact, non floating point part).

    Not modelled: is_cosine_sine_of_rational (lines 31-152), acos and angle (lines 155-294; floating
    point), projectivization (612-660). Coercion to a common base ring (lines 459-477) is the identity here. *)
From Coq Require Import List Bool ZArith.
From Verif Require Import OField MBase.

(** return values of ray_segment_intersection: None, a point, or a pair of points *)
Inductive ray_result (V : Type) :=
| RNone
| RPoint (p : V)
| RSegment (p q : V).
Arguments RNone {V}. Arguments RPoint {V}. Arguments RSegment {V}.

Section Euclid.
Context {K : OField}.
Local Open Scope F_scope.
Local Open Scope res_scope.

(** two dimensional vectors: elements of [K^2] *)
Definition vec : Type := (K * K)%type.

Definition vadd (v w : vec) : vec := (fst v + fst w, snd v + snd w).
Definition vsub (v w : vec) : vec := (fst v - fst w, snd v - snd w).
Definition vopp (v : vec) : vec := (- fst v, - snd v).
Definition vscale (a : K) (v : vec) : vec := (a * fst v, a * snd v).
Definition vzero : vec := (0, 0).
Definition veqb (v w : vec) : bool := (fst v =? fst w) && (snd v =? snd w).
(** dot product [v[0] * w[0] + v[1] * w[1]] *)
Definition dot (v w : vec) : K := fst v * fst w + snd v * snd w.

(** euclidean.py 297-322 *)
Definition ccw (v w : vec) : K := fst v * snd w - snd v * fst w.

(** euclidean.py 325-375 *)
Definition is_parallel (v w : vec) : bool :=
  if negb (ccw v w =? 0) then false else 0 <? dot v w.

(** euclidean.py 378-411 *)
Definition is_anti_parallel (v w : vec) : bool := is_parallel v (vopp w).

(** inverse of a 2x2 matrix applied to a vector (Sage's [matrix.inverse()], [[a, b], [c, d]] by rows) *)
Definition mat_inv_apply (a b c d : K) (v : vec) : vec :=
  let det := a * d - b * c in
  ((d * fst v - b * snd v) / det, (a * snd v - c * fst v) / det).

(** euclidean.py 414-428; [None] is Python's None *)
Definition line_intersection (p1 p2 q1 q2 : vec) : option vec :=
  if ccw (vsub p2 p1) (vsub q2 q1) =? 0 then None
  else
    let t := fst (mat_inv_apply (fst p2 - fst p1) (fst q1 - fst q2) (snd p2 - snd p1) (snd q1 - snd q2)
                   (vsub q1 p1)) in
    Some (vadd p1 (vscale t (vsub p2 p1))).

(** determinant of [[x0,y0,1],[x1,y1,1],[x2,y2,1]], expanded along the last column *)
Definition det3 (p q r : vec) : K :=
  (fst q * snd r - snd q * fst r) - (fst p * snd r - snd p * fst r) + (fst p * snd q - snd p * fst q).

(** euclidean.py 431-533 *)
Definition is_segment_intersecting (e1 e2 : vec * vec) : res nat :=
  if veqb (fst e1) (snd e1) || veqb (fst e2) (snd e2) then Err ValueError else
  let '(xs1, ys1) := fst e1 in
  let '(xt1, yt1) := snd e1 in
  let '(xs2, ys2) := fst e2 in
  let '(xt2, yt2) := snd e2 in
  let s0 := det3 (xs1, ys1) (xt1, yt1) (xs2, ys2) in
  let s1 := det3 (xs1, ys1) (xt1, yt1) (xt2, yt2) in
  if (0 <? s0) && (0 <? s1) || (s0 <? 0) && (s1 <? 0) then Ok 0%nat else
  let s2 := det3 (xs2, ys2) (xt2, yt2) (xs1, ys1) in
  let s3 := det3 (xs2, ys2) (xt2, yt2) (xt1, yt1) in
  if (0 <? s2) && (0 <? s3) || (s2 <? 0) && (s3 <? 0) then Ok 0%nat else
  if (s0 =? 0) && (s1 =? 0) then
    _ <- passert ((s2 =? 0) && (s3 =? 0)) ;;
    let '(xs1, ys1, xt1, yt1) :=
      if (xt1 <? xs1) || (xt1 =? xs1) && (yt1 <? ys1) then (xt1, yt1, xs1, ys1) else (xs1, ys1, xt1, yt1) in
    let '(xs2, ys2, xt2, yt2) :=
      if (xt2 <? xs2) || (xt2 =? xs2) && (yt2 <? ys2) then (xt2, yt2, xs2, ys2) else (xs2, ys2, xt2, yt2) in
    let '(xs1, xt1, xs2, xt2) :=
      if (xs1 =? xt1) && (xt1 =? xs2) && (xs2 =? xt2) then (ys1, yt1, ys2, yt2) else (xs1, xt1, xs2, xt2) in
    _ <- passert ((xs1 <? xt1) && (xs2 <? xt2)) ;;
    if (xt1 <? xs2) || (xt2 <? xs1) then Ok 0%nat
    else if (xs2 =? xt1) || (xt2 =? xs1) then Ok 1%nat
    else
      _ <- passert ((xs1 <=? xs2) && (xs2 <? xt1) || (xs1 <? xt2) && (xt2 <=? xt1)
                   || (xs2 <? xs1) && (xt1 <? xt2) || (xs1 <? xs2) && (xt2 <? xt1)) ;;
      Ok 2%nat
  else if (s0 =? 0) || (s1 =? 0) then
    if (s2 =? 0) || (s3 =? 0) then Ok 1%nat else Ok 2%nat
  else Ok 2%nat.

(** euclidean.py 536-571 *)
Definition is_between (e0 e1 f : vec) : bool :=
  if (fst e1 * snd e0) <? (fst e0 * snd e1) then
    ((fst e1 * snd f) <? (snd e1 * fst f)) && ((snd e0 * fst f) <? (fst e0 * snd f))
  else if (fst e0 * snd e1) =? (fst e1 * snd e0) then
    if (0 <=? fst e0 * fst e1) && (0 <=? snd e0 * snd e1) then
      negb (fst f * snd e0 =? snd f * fst e0) || (fst f * fst e0 <? 0) || (snd f * snd e0 <? 0)
    else (snd e0 * fst f) <? (fst e0 * snd f)
  else ((snd e0 * fst f) <? (fst e0 * snd f)) || ((fst e1 * snd f) <? (snd e1 * fst f)).

(** euclidean.py 574-609 *)
Definition solve (x u y v : vec) : res (K * K) :=
  let d := - fst u * snd v + snd u * fst v in
  if d =? 0 then Err ValueError else
  let a := snd v * (fst x - fst y) + fst v * (snd y - snd x) in
  let b := snd u * (fst x - fst y) + fst u * (snd y - snd x) in
  Ok (a / d, b / d).

(** euclidean.py 663-727 *)
Definition slope (a : vec) (rotate : BinInt.Z) : res BinInt.Z :=
  let x := fst a in let y := snd a in
  if (x =? 0) && (y =? 0) then Err ValueError
  else if (0 <? x) && (0 <? y) || (x <? 0) && (y <? 0) then Ok 1%Z
  else if (0 <? x) && (y <? 0) || (x <? 0) && (0 <? y) then Ok (-1)%Z
  else if BinInt.Z.eqb rotate 0 then Ok 0%Z
  else if BinInt.Z.eqb rotate 1 then Ok (if negb (x =? 0) then 1%Z else (-1)%Z)
  else if BinInt.Z.eqb rotate (-1) then Ok (if negb (y =? 0) then 1%Z else (-1)%Z)
  else Err ValueError.

(** euclidean.py 730-778 *)
Definition time_on_ray (p direction q : vec) : K * K :=
  let delta := if negb (fst direction =? 0) then fst q - fst p else snd q - snd p in
  let length := if negb (fst direction =? 0) then fst direction else snd direction in
  if length <? 0 then (delta * - (1), length * - (1)) else (delta, length).

(** euclidean.py 781-848 *)
Definition ray_segment_intersection (p direction : vec) (segment : vec * vec) : ray_result vec :=
  match line_intersection p (vadd p direction) (fst segment) (snd segment) with
  | None =>
    if negb (ccw direction (vsub (fst segment) p) =? 0) then RNone else
    let '(t0, length) := time_on_ray p direction (fst segment) in
    let '(t1, _) := time_on_ray p direction (snd segment) in
    let '(t0, t1) := if t1 <? t0 then (t1, t0) else (t0, t1) in
    if t1 <? 0 then RNone
    else if t1 =? 0 then RPoint p
    else
      let t0 := t0 / length in
      let t1 := t1 / length in
      if t0 <? 0 then RSegment p (vadd p (vscale t1 direction))
      else RSegment (vadd p (vscale t0 direction)) (vadd p (vscale t1 direction))
  | Some intersection =>
    if fst (time_on_ray p direction intersection) <? 0 then RNone
    else if 0 <? ccw (vsub (fst segment) p) direction * ccw (vsub (snd segment) p) direction then RNone
    else RPoint intersection
  end.

End Euclid.
Arguments vec : clear implicits.
