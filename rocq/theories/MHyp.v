(** Model of flatsurf/geometry/hyperbolic.py: points, geodesics, half spaces, segments and isometries.

    Modelled over an arbitrary ordered field with exact comparisons ([HyperbolicExactGeometry], lines 3898-3994). Not
    modelled: the inexact geometry (3995-4215), conversions between parents and base rings, [change], printing,
    plotting, hashing, random sets, angles, areas and the search for isometries with Groebner bases. *)
From Coq Require Import List Bool ZArith.
From Verif Require Import OField MBase MEuclid.
Import ListNotations.

Section Hyp.
Context {K : OField}.
Local Open Scope F_scope.
Local Open Scope res_scope.

(** [_sgn] of HyperbolicGeometry, 3596-3626: the result is -1, 0 or 1 *)
Definition sgn (x : K) : Z := if 0 <? x then 1%Z else if x <? 0 then (-1)%Z else 0%Z.

(** ** Geodesics *)
(** [HyperbolicGeodesic], 6658-6690: the coefficients of the equation [a + b x + c y = 0] in the Klein model. The
    attributes of oriented and of unoriented geodesics are the same; a half space ([HyperbolicHalfSpace], 6030-6053)
    consists of the oriented geodesic that has it on its left. *)
Record geo := Geo { g_a : K; g_b : K; g_c : K }.

(** 6730-6769 *)
Definition geo_is_ideal (g : geo) : bool := g_b g * g_b g + g_c g * g_c g =? g_a g * g_a g.
(** 6771-6811 *)
Definition geo_is_ultra_ideal (g : geo) : bool := g_b g * g_b g + g_c g * g_c g <? g_a g * g_a g.
(** [_check], 6692-6728 *)
Definition geo_check (g : geo) : res geo :=
  if geo_is_ultra_ideal g || geo_is_ideal g then Err ValueError else Ok g.

(** [geodesic] from coefficients with [check], 1434-1453 *)
Definition geodesic_klein (a b c : K) : res geo := geo_check (Geo a b c).
Definition geodesic_half_plane (a b c : K) : res geo := geodesic_klein (a + c) b (a - c).
(** [equation] with [model="half_plane"] of an oriented geodesic, 6981-6982; without a normalization *)
Definition equation_half_plane (g : geo) : K * K * K := (g_a g + g_c g, 2 * g_b g, g_a g - g_c g).
(** 3743-3783 *)
Definition half_circle (center radius_squared : K) : res geo :=
  if (sgn radius_squared <=? 0)%Z then Err ValueError
  else geodesic_half_plane 1 (- (2) * center) (center * center - radius_squared).
(** 3785-3815 *)
Definition vertical (real : K) : res geo := geodesic_klein real (- (1)) (- real).
(** [__neg__], 8163-8178 *)
Definition geo_neg (g : geo) : geo := Geo (- g_a g) (- g_b g) (- g_c g).
(** [__eq__], 7426-7494, of two oriented or two unoriented geodesics *)
Definition geo_eqb (oriented : bool) (f g : geo) : bool :=
  if negb (sgn (g_b f) =? 0)%Z then
    (negb oriented || (sgn (g_b f) =? sgn (g_b g))%Z) && (g_a f * g_b g =? g_a g * g_b f)
    && (g_c f * g_b g =? g_c g * g_b f)
  else
    (negb oriented || (sgn (g_c f) =? sgn (g_c g))%Z) && (g_a f * g_c g =? g_a g * g_c f)
    && (g_b f * g_c g =? g_b g * g_c f).
(** the direction [(c, -b)] that the code calls tangent, e.g. in line 8374 *)
Definition tangent (g : geo) : vec K := (g_c g, - g_b g).
(** the left hand side of the equation at a point of the Klein model, as in lines 6312 and 7555 *)
Definition geo_eval (g : geo) (p : vec K) : K := g_a g + g_b g * fst p + g_c g * snd p.

(** ** Points with coordinates *)
(** [is_ideal], [is_ultra_ideal] and [is_finite] of a point with coordinates in the Klein model, 8886-8984 *)
Definition norm2 (p : vec K) : K := fst p * fst p + snd p * snd p.
Definition is_ideal (p : vec K) : bool := norm2 p =? 1.
Definition is_ultra_ideal (p : vec K) : bool := 1 <? norm2 p.
Definition is_finite (p : vec K) : bool := norm2 p <? 1.
(** [point] with [model="klein"] and with [check], 1155-1158 and 1173-1176 *)
Definition point_klein (p : vec K) : res (vec K) := if is_ultra_ideal p then Err ValueError else Ok p.
(** [point] with [model="half_plane"], 1159-1169; the check of the Klein model is included *)
Definition point_half_plane (x y : K) : res (vec K) :=
  if (sgn y <? 0)%Z then Err ValueError
  else let denominator := 1 + x * x + y * y in
       point_klein (2 * x / denominator, (- (1) + x * x + y * y) / denominator).
(** 3711-3741; the point of the second case is created without a check, which does not matter *)
Definition projective (p q : K) : res (vec K) :=
  if (p =? 0) && (q =? 0) then Err ValueError
  else if q =? 0 then Ok (0, 1)
  else point_half_plane (p / q) 0.
(** 953-976 and 978-1006 *)
Definition infinity : vec K := (0, 1).
Definition real (r : K) : res (vec K) := projective r 1.

(** [geometry.intersection], 3861-3895 *)
Definition intersection (f g : geo) : option (vec K) :=
  let det := g_b f * g_c g - g_c f * g_b g in
  if det =? 0 then None
  else Some ((- g_c g * g_a f + g_c f * g_a g) / det, (g_b g * g_a f - g_b f * g_a g) / det).
(** [_an_element_], 7920-7945 *)
Definition an_element (g : geo) : res (vec K) :=
  match intersection (Geo 0 (- g_c g) (g_b g)) g with Some p => Ok p | None => Err AssertionError end.
(** 8387-8449 without the check *)
Definition parametrize (g : geo) (p : vec K) : res K :=
  base <- an_element g ;;
  if negb (g_c g =? 0) then Ok ((fst p - fst base) / g_c g)
  else if - g_b g =? 0 then Err ZeroDivisionError else Ok ((snd p - snd base) / (- g_b g)).
(** 8451-8499 without the check *)
Definition unparametrize (g : geo) (l : K) : res (vec K) :=
  base <- an_element g ;; Ok (vadd base (vscale l (tangent g))).

(** [_configuration] of two oriented geodesics, 8288-8385 *)
Inductive configuration := Equal | Negative | Parallel | AntiParallel | Convex | Concave.
Definition configure (f g : geo) : res configuration :=
  match intersection f g with
  | None =>
    let orientation := sgn (g_b f * g_b g + g_c f * g_c g) in
    if (orientation =? 0)%Z then Err AssertionError
    else if geo_eqb true f g then if (0 <? orientation)%Z then Ok Equal else Err AssertionError
    else if geo_eqb true f (geo_neg g) then if (orientation <? 0)%Z then Ok Negative else Err AssertionError
    else if (0 <? orientation)%Z then Ok Parallel else Ok AntiParallel
  | Some _ =>
    let orientation := sgn (- g_c f * g_b g - - g_b f * g_c g) in
    if (orientation =? 0)%Z then Err AssertionError
    else if (0 <? orientation)%Z then Ok Convex else Ok Concave
  end.
(** [ccw], 8535-8619 *)
Definition geo_ccw (euclidean : bool) (f g : geo) : res Z :=
  match intersection f g with
  | None => if geo_eqb false f g then Ok 0%Z else Err ValueError
  | Some p =>
    if is_ideal p && negb euclidean then Ok 0%Z
    else if is_ultra_ideal p && negb euclidean then Err ValueError
    else Ok (sgn (ccw (tangent f) (tangent g)))
  end.

(** ** Points *)
(** [HyperbolicPointFromCoordinates], 9511-9529, and [HyperbolicPointFromGeodesic], 9843-9863 *)
Inductive point := Coord (p : vec K) | Start (g : geo).

(** the comparison of the starting point of a geodesic and a point with coordinates, 10075-10083; [parametrize]
    checks again that the point is on the geodesic *)
Definition start_eqb_coord (g : geo) (p : vec K) : res bool :=
  if negb (is_ideal p) then Ok false
  else if geo_eval g p =? 0 then l <- parametrize g p ;; Ok (l <? 0) else Ok false.
(** [_richcmp_], 9565-9632 and 10006-10085 *)
Definition point_eqb (p q : point) : res bool :=
  match p, q with
  | Coord p, Coord q => Ok (veqb p q)
  | Coord p, Start g | Start g, Coord p => start_eqb_coord g p
  | Start f, Start g =>
    if geo_eqb true f g then Ok true
    else if geo_eqb true f (geo_neg g) then Ok false
    else match intersection f g with
         | None => Ok false
         | Some p => b <- start_eqb_coord f p ;; if b then start_eqb_coord g p else Ok false
         end
  end.
(** [__contains__] of a geodesic, 7496-7555; the orientation of the geodesic does not matter *)
Definition geo_contains (g : geo) (p : point) : res bool :=
  match p with
  | Coord p => Ok (geo_eval g p =? 0)
  | Start f =>
    if geo_eqb false f g then Ok true
    else match intersection g f with
         | None => Ok false
         | Some p => if is_ultra_ideal p then Ok false else start_eqb_coord f p
         end
  end.

Section Sqrt.
(** [sqrt] of an element of the base ring; [None] if the root is not in the base ring *)
Variable sqrt : K -> option K.

(** [_coordinates_klein] with [ring=None], 9531-9563 and 9915-10004; the points on the boundary of the half plane are
    created without a check *)
Definition coordinates_klein (p : point) : res (vec K) :=
  match p with
  | Coord p => Ok p
  | Start g =>
    let '(a, b, c) := equation_half_plane g in
    if a =? 0 then
      if (0 <? sgn b)%Z then Ok infinity
      else if b =? 0 then Err ZeroDivisionError
      else point_half_plane (- c / b) 0
    else
      match sqrt (b * b - 2 * 2 * a * c) with
      | None => Err ValueError
      | Some s =>
        let e := (- b - s) / (2 * a) in
        let e' := (- b + s) / (2 * a) in
        (* min and max *)
        point_half_plane (if (0 <? sgn a)%Z then if e' <? e then e' else e else if e <? e' then e' else e) 0
      end
  end.
(** [coordinates] with [model="half_plane"], 9162-9196, of a point with coordinates *)
Definition coordinates_half_plane (p : vec K) : res (K * K) :=
  let '(x, y) := p in
  if veqb p infinity || is_ultra_ideal p then Err ValueError
  else
    let denominator := 1 - y in
    if negb (is_finite p) then Ok (x / denominator, 0)
    else match sqrt (1 - x * x - y * y) with
         | None => Err ValueError
         | Some s => Ok (x / denominator, s / denominator)
         end.
(** [__contains__] of a half space, 6191-6312 *)
Definition half_space_contains (h : geo) (p : point) : res bool :=
  match coordinates_klein p with
  | Ok q => Ok (0 <=? sgn (geo_eval h q))%Z
  | Err ValueError =>
    match p with
    | Coord _ => Err AssertionError
    | Start g =>
      match intersection h g with
      | None => q <- an_element g ;; Ok (0 <=? sgn (geo_eval h q))%Z
      | Some i =>
        if negb (is_finite i) then q <- an_element g ;; Ok (0 <=? sgn (geo_eval h q))%Z
        else s <- geo_ccw false h g ;; if (s =? 0)%Z then Err AssertionError else Ok (s <? 0)%Z
      end
    end
  | Err e => Err e
  end.
End Sqrt.

(** [geodesic] from two points with coordinates, 1406-1427 *)
Definition geodesic_points (p q : vec K) : res geo :=
  if veqb p q then Err ValueError
  else let C := fst q - fst p in
       let B := snd p - snd q in
       let A := - (B * fst p + C * snd p) in
       geodesic_klein A B C.

(** ** Segments *)
(** the convex sets that segments normalise to *)
Inductive segment_set :=
| SegEmpty | SegPoint (p : vec K) | SegGeodesic (g : geo) | SegSegment (g : geo) (start fin : option (vec K)).

(** [_normalize] of a segment, 12418-12518, for end points with coordinates; the orientation of the result is not
    modelled *)
Definition segment_normalize (g : geo) (start fin : option (vec K)) : res segment_set :=
  if geo_is_ultra_ideal g then Ok SegEmpty
  else
    _ <- match start, fin with
         | Some p, Some q => l <- parametrize g p ;; m <- parametrize g q ;; if m <? l then Err ValueError else Ok tt
         | _, _ => Ok tt
         end ;;
    (* the early return of a set, or the start of the segment *)
    s <- match start with
         | Some p =>
           if negb (is_finite p) then
             l <- parametrize g p ;;
             if (0 <? sgn l)%Z then Ok (inl (if is_ultra_ideal p then SegEmpty else SegPoint p)) else Ok (inr None)
           else Ok (inr (Some p))
         | None => Ok (inr None)
         end ;;
    match s with
    | inl r => Ok r
    | inr start =>
      e <- match fin with
           | Some p =>
             if negb (is_finite p) then
               l <- parametrize g p ;;
               if (sgn l <? 0)%Z then Ok (inl (if is_ultra_ideal p then SegEmpty else SegPoint p)) else Ok (inr None)
             else Ok (inr (Some p))
           | None => Ok (inr None)
           end ;;
      match e with
      | inl r => Ok r
      | inr fin =>
        match start, fin with
        | None, None => Ok (SegGeodesic g)
        | Some p, Some q => if veqb p q then Ok (SegPoint p) else Ok (SegSegment g start fin)
        | _, _ => Ok (SegSegment g start fin)
        end
      end
    end.
(** [_check] of a segment, 12337-12416 *)
Definition segment_check (g : geo) (start fin : option (vec K)) (require_normalized : bool) : res unit :=
  if match start with Some p => negb (geo_eval g p =? 0) | None => false end then Err ValueError
  else if match fin with Some p => negb (geo_eval g p =? 0) | None => false end then Err ValueError
  else match start, fin with
       | Some p, Some q =>
         l <- parametrize g p ;; m <- parametrize g q ;;
         if m <? l then Err ValueError else if require_normalized && (m <=? l) then Err ValueError else Ok tt
       | _, _ => Ok tt
       end.
(** the half spaces at the end points of a segment, [_endpoint_half_spaces], 12597-12626 *)
Definition endpoint_half_spaces (g : geo) (start fin : option (vec K)) : list geo :=
  match start with Some p => [Geo (- g_c g * fst p + g_b g * snd p) (g_c g) (- g_b g)] | None => [] end ++
  match fin with Some p => [Geo (g_c g * fst p - g_b g * snd p) (- g_c g) (g_b g)] | None => [] end.
(** [half_spaces] of a geodesic, 7085-7101, and of a segment, 12647-12666; before they are sorted *)
Definition geodesic_half_spaces (g : geo) : list geo := [g; geo_neg g].
Definition segment_half_spaces (g : geo) (start fin : option (vec K)) : list geo :=
  geodesic_half_spaces g ++ endpoint_half_spaces g start fin.
(** [half_spaces] of a point with coordinates, 8986-9077; before they are sorted. The constructor [half_space] checks
    that the boundary is a geodesic. *)
Definition point_half_spaces (p : vec K) : res (list geo) :=
  let '(x0, y0) := p in
  if is_finite p then
    f <- geodesic_klein (- x0) 1 0 ;; g <- geodesic_klein (- y0) 0 1 ;; h <- geodesic_klein (x0 + y0) (- (1)) (- (1)) ;;
    Ok [f; g; h]
  else
    f <- geodesic_klein 0 (- y0) x0 ;; g <- geodesic_klein (- x0 * x0 - y0 * y0) (y0 + x0) (y0 - x0) ;; Ok [f; g].

(** ** Isometries *)
(** 3x3 matrices by rows *)
Record mat := Mat { m00 : K; m01 : K; m02 : K; m10 : K; m11 : K; m12 : K; m20 : K; m21 : K; m22 : K }.
Definition mat_mul (M N : mat) : mat := Mat
  (m00 M * m00 N + m01 M * m10 N + m02 M * m20 N) (m00 M * m01 N + m01 M * m11 N + m02 M * m21 N)
  (m00 M * m02 N + m01 M * m12 N + m02 M * m22 N)
  (m10 M * m00 N + m11 M * m10 N + m12 M * m20 N) (m10 M * m01 N + m11 M * m11 N + m12 M * m21 N)
  (m10 M * m02 N + m11 M * m12 N + m12 M * m22 N)
  (m20 M * m00 N + m21 M * m10 N + m22 M * m20 N) (m20 M * m01 N + m21 M * m11 N + m22 M * m21 N)
  (m20 M * m02 N + m21 M * m12 N + m22 M * m22 N).
Definition mat_transpose (M : mat) : mat :=
  Mat (m00 M) (m10 M) (m20 M) (m01 M) (m11 M) (m21 M) (m02 M) (m12 M) (m22 M).
Definition mat_diag (x y z : K) : mat := Mat x 0 0 0 y 0 0 0 z.
Definition mat_det (M : mat) : K :=
  m00 M * (m11 M * m22 M - m12 M * m21 M) - m01 M * (m10 M * m22 M - m12 M * m20 M)
  + m02 M * (m10 M * m21 M - m11 M * m20 M).
(** Sage's [inverse()]; the adjugate divided by the determinant *)
Definition mat_inverse (M : mat) : res mat :=
  let d := mat_det M in
  if d =? 0 then Err ZeroDivisionError
  else Ok (Mat
    ((m11 M * m22 M - m12 M * m21 M) / d) ((m02 M * m21 M - m01 M * m22 M) / d) ((m01 M * m12 M - m02 M * m11 M) / d)
    ((m12 M * m20 M - m10 M * m22 M) / d) ((m00 M * m22 M - m02 M * m20 M) / d) ((m02 M * m10 M - m00 M * m12 M) / d)
    ((m10 M * m21 M - m11 M * m20 M) / d) ((m01 M * m20 M - m00 M * m21 M) / d) ((m00 M * m11 M - m01 M * m10 M) / d)).

(** 2x2 matrices by rows *)
Record mat2 := Mat2 { e00 : K; e01 : K; e10 : K; e11 : K }.
(** 2655-2714 *)
Definition gl2_to_sim12 (N : mat2) : mat :=
  let '(Mat2 a b c d) := N in Mat
    (a * d + b * c) (a * c - b * d) (a * c + b * d)
    (a * b - c * d) ((a * a - b * b - c * c + d * d) / 2) ((a * a + b * b - c * c - d * d) / 2)
    (a * b + c * d) ((a * a - b * b + c * c - d * d) / 2) ((a * a + b * b + c * c + d * d) / 2).
(** the checks of [apply_isometry], 5077-5098 *)
Definition check_isometry (M : mat) : res unit :=
  let D := mat_mul (mat_mul (mat_transpose M) (mat_diag 1 1 (- (1)))) M in
  if (m00 D =? 0) || negb (m01 D =? 0) || negb (m02 D =? 0) || negb (m10 D =? 0) || (m11 D =? 0) || negb (m12 D =? 0)
    || negb (m20 D =? 0) || negb (m21 D =? 0) || (m22 D =? 0) then Err ValueError
  else if negb (m00 D =? m11 D) then Err ValueError
  else if negb (m00 D =? - m22 D) then Err ValueError
  else Ok tt.
(** [_apply_isometry_klein] of a point with coordinates, 9731-9766 *)
Definition point_apply (M : mat) (on_right : bool) (p : vec K) : res (vec K) :=
  M <- (if on_right then mat_inverse M else Ok M) ;;
  let x := m00 M * fst p + m01 M * snd p + m02 M in
  let y := m10 M * fst p + m11 M * snd p + m12 M in
  let z := m20 M * fst p + m21 M * snd p + m22 M in
  if z =? 0 then Err ZeroDivisionError else point_klein (x / z, y / z).
(** [_apply_isometry_klein] of a geodesic, 7795-7876, and of a half space, 6502-6529 *)
Definition geo_apply (M : mat) (on_right : bool) (g : geo) : res geo :=
  M <- (if on_right then Ok M else mat_inverse M) ;;
  geodesic_klein (g_b g * m02 M + g_c g * m12 M + g_a g * m22 M)
    (g_b g * m00 M + g_c g * m10 M + g_a g * m20 M) (g_b g * m01 M + g_c g * m11 M + g_a g * m21 M).
(** [_apply_isometry_klein] of the starting point of a geodesic, 10232-10279: the geodesic that the image is the
    starting point of *)
Definition start_apply (M : mat) (on_right : bool) (g : geo) : res geo :=
  g <- geo_apply M on_right g ;; Ok (if (sgn (mat_det M) =? -1)%Z then geo_neg g else g).
(** [_apply_isometry_klein] of a segment, 12520-12595, with the parts of [segment], 1690-1721, that matter: the
    underlying geodesic of the image of an unoriented segment is unoriented *)
Definition segment_apply (M : mat) (on_right oriented : bool) (g : geo) (start fin : option (vec K)) : res segment_set :=
  f <- geo_apply M on_right g ;;
  let f := if (sgn (mat_det M) =? -1)%Z && oriented then geo_neg f else f in
  s <- match start with Some p => q <- point_apply M on_right p ;; Ok (Some q) | None => Ok None end ;;
  e <- match fin with Some p => q <- point_apply M on_right p ;; Ok (Some q) | None => Ok None end ;;
  f <- (if oriented then Ok f
        else match s, e with
             | None, None => Ok f
             | Some p, Some q =>
               if veqb p q then Err ValueError
               else l <- parametrize f p ;; m <- parametrize f q ;; if m <? l then Ok (geo_neg f) else Ok f
             | _, _ => Err ValueError
             end) ;;
  _ <- segment_check f s e false ;;
  segment_normalize f s e.
(** [apply_isometry] with [model="klein"], 5065-5102; for [model="half_plane"] the matrix is [gl2_to_sim12] *)
Definition apply_isometry {A : Type} (apply : mat -> bool -> A -> res A) (M : mat) (on_right : bool) (x : A) : res A :=
  _ <- check_isometry M ;; apply M on_right x.

Section Root.
Variable sqrt : K -> option K.
(** [nth_root(3)] *)
Variable cbrt : K -> option K.
(** 2716-2801 *)
Definition sim12_to_gl2 (M : mat) : res mat2 :=
  let det := mat_det M in
  match cbrt det with
  | None => Err ValueError
  | Some r =>
    let sl2_det := if (sgn det =? sgn r)%Z then r else r * - (1) in
    let a2 := (m12 M + m22 M + m21 M + m11 M) / 2 in
    let b2 := (m12 M + m22 M - m21 M - m11 M) / 2 in
    let c2 := (m21 M + m22 M - m12 M - m11 M) / 2 in
    let d2 := (m11 M + m22 M - m12 M - m21 M) / 2 in
    let ab := (m10 M + m20 M) / 2 in
    let ac := (m01 M + m02 M) / 2 in
    let ad := (m00 M + sl2_det) / 2 in
    let bc := (m00 M - sl2_det) / 2 in
    let bd := (m02 M - m01 M) / 2 in
    let cd := (m20 M - m10 M) / 2 in
    match sqrt a2, sqrt b2, sqrt c2, sqrt d2 with
    | Some pa, Some pb, Some pc, Some pd =>
      let candidates :=
        flat_map (fun sa => flat_map (fun sb => flat_map (fun sc => map (fun sd =>
          Mat2 (sa * pa) (sb * pb) (sc * pc) (sd * pd)) [1; - (1)]) [1; - (1)]) [1; - (1)]) [1; - (1)] in
      match find (fun N => (e00 N * e01 N =? ab) && (e00 N * e10 N =? ac) && (e00 N * e11 N =? ad)
                   && (e01 N * e10 N =? bc) && (e01 N * e11 N =? bd) && (e10 N * e11 N =? cd)) candidates with
      | Some N => Ok N
      | None => Err ValueError
      end
    | _, _, _, _ => Err ValueError
    end
  end.
End Root.
End Hyp.
Arguments geo : clear implicits.
Arguments point : clear implicits.
Arguments mat : clear implicits.
Arguments mat2 : clear implicits.
Arguments segment_set : clear implicits.
