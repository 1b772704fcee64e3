(** Specification of hyperbolic geometry: the Klein model, the upper half plane and their isometries. *)
From Coq Require Import Bool List.
From Verif Require Import OField MBase MEuclid SEuclid MHyp.

Section S.
Context {K : OField}.
Local Open Scope F_scope.
Implicit Types p q : vec K.
Implicit Types g h : geo K.

(** the points of the hyperbolic plane (in the Klein model), its ideal points, and both *)
Definition finite p : Prop := fst p * fst p + snd p * snd p < 1.
Definition ideal p : Prop := fst p * fst p + snd p * snd p = 1.
Definition in_disk p : Prop := fst p * fst p + snd p * snd p <= 1.

(** the line and the closed half plane that the coefficients of a geodesic describe *)
Definition on g p : Prop := g_a g + g_b g * fst p + g_c g * snd p = 0.
Definition left_of g p : Prop := 0 <= g_a g + g_b g * fst p + g_c g * snd p.
(** the coefficients describe a line that contains a point of the hyperbolic plane *)
Definition line g : Prop := g_b g <> 0 \/ g_c g <> 0.
Definition chord g : Prop := line g /\ exists p, on g p /\ finite p.
(** the same oriented line: the same line with the same side on the left *)
Definition same_oriented g h : Prop := forall p, left_of g p <-> left_of h p.
Definition same_line g h : Prop := forall p, on g p <-> on h p.
(** when walking along the geodesic, [q] comes after [p] *)
Definition after g p q : Prop := exists t, 0 < t /\ q = vadd p (vscale t (g_c g, - g_b g)).
(** [p] is the starting point of the geodesic, [q] its end point *)
Definition endpoints g p q : Prop := on g p /\ on g q /\ ideal p /\ ideal q /\ after g p q.
Definition start_of g p : Prop := exists q, endpoints g p q.

(** the point [x + I y] of the closed upper half plane is the point [p] of the Klein model: [p] is projected from
    [(0, 1)] to the line through [(0, 0)] and [(1, 0)], and the height is the one of the hemisphere model *)
Definition half_plane_point (x y : K) p : Prop :=
  0 <= y /\ snd p < 1 /\ fst p = x * (1 - snd p) /\ 1 - (fst p * fst p + snd p * snd p) = y * y * ((1 - snd p) * (1 - snd p)).

(** complex numbers *)
Definition cmul (z w : K * K) : K * K := (fst z * fst w - snd z * snd w, fst z * snd w + snd z * fst w).
Definition conj (z : K * K) : K * K := (fst z, - snd z).
Definition affine (a b : K) (z : K * K) : K * K := (a * fst z + b, a * snd z).
(** [w (c z + d) = a z + b] where [z] is conjugated if the determinant is negative *)
Definition moebius (N : mat2 K) (z w : K * K) : Prop :=
  let z := if e00 N * e11 N - e01 N * e10 N <? 0 then conj z else z in
  cmul w (affine (e10 N) (e11 N) z) = affine (e00 N) (e01 N) z.
(** the denominator vanishes *)
Definition moebius_pole (N : mat2 K) (z : K * K) : Prop := affine (e10 N) (e11 N) z = (0, 0).

(** the square of the hyperbolic cosine of the distance of two finite points is [x / y] *)
Definition cosh2 p q : K * K :=
  ((1 - dot p q) * (1 - dot p q), (1 - dot p p) * (1 - dot q q)).
Definition same_distance p q p' q' : Prop :=
  fst (cosh2 p q) * snd (cosh2 p' q') = fst (cosh2 p' q') * snd (cosh2 p q).

(** the points of the disk between the end points of a segment *)
Definition not_before g (start : option (vec K)) p : Prop :=
  match start with None => True | Some s => p = s \/ after g s p end.
Definition not_after g (fin : option (vec K)) p : Prop :=
  match fin with None => True | Some e => p = e \/ after g p e end.
Definition in_segment g start fin p : Prop := in_disk p /\ on g p /\ not_before g start p /\ not_after g fin p.
Definition set_of (s : segment_set K) p : Prop :=
  match s with
  | SegEmpty => False
  | SegPoint q => p = q
  | SegGeodesic g => in_disk p /\ on g p
  | SegSegment g start fin => in_segment g start fin p
  end.
End S.

(** ** Points and a base ring *)
Section Points.
Context {K : OField}.
Local Open Scope F_scope.
Implicit Types p q : vec K.
(** the point of the Klein model that an object describes *)
Definition denotes (o : point K) p : Prop := match o with Coord q => p = q | Start g => start_of g p end.
(** the objects that the checks of the constructors let pass *)
Definition valid_point (o : point K) : Prop := match o with Coord q => in_disk q | Start g => chord g end.

(** The base ring is a subfield; the points that are given by geodesics may be in a bigger field. *)
Definition subfield (B : K -> Prop) : Prop :=
  B 1 /\ (forall x y, B x -> B y -> B (x + y)) /\ (forall x y, B x -> B y -> B (x * y)) /\ (forall x, B x -> B (- x)) /\
  (forall x, B x -> x <> 0 -> B (finv x)).
(** the square root of an element of the base ring *)
Definition sqrt_in (B : K -> Prop) (sqrt : K -> option K) : Prop :=
  forall x, B x -> match sqrt x with
                   | Some s => B s /\ 0 <= s /\ s * s = x
                   | None => forall s, B s -> s * s <> x
                   end.
Definition geo_over (B : K -> Prop) (g : geo K) : Prop := B (g_a g) /\ B (g_b g) /\ B (g_c g).
Definition over (B : K -> Prop) (o : point K) : Prop :=
  match o with Coord q => B (fst q) /\ B (snd q) | Start g => geo_over B g end.
End Points.

(** ** Relative position of two oriented lines *)
Section Position.
Context {K : OField}.
Local Open Scope F_scope.
Implicit Types f g : geo K.
Definition disjoint_lines f g : Prop := forall p, ~ (on f p /\ on g p).
Definition configured (c : configuration) f g : Prop :=
  match c with
  (* the same line with the same left side *)
  | Equal => same_oriented f g
  (* the same line, the left side of the one is the right side of the other *)
  | Negative => forall p, left_of f p <-> g_a g + g_b g * fst p + g_c g * snd p <= 0
  (* disjoint lines such that one of the left sides contains the other one *)
  | Parallel => disjoint_lines f g /\
      ((forall p, left_of f p -> left_of g p) \/ (forall p, left_of g p -> left_of f p))
  (* disjoint lines such that the left sides are disjoint or cover the plane *)
  | AntiParallel => disjoint_lines f g /\
      ((forall p, ~ (left_of f p /\ left_of g p)) \/ (forall p, left_of f p \/ left_of g p))
  (* the second line crosses the first one to its left side *)
  | Convex => exists p, on f p /\ on g p /\ (forall q, after g p q -> left_of f q /\ ~ on f q) /\ (forall q, after f p q -> ~ left_of g q)
  (* the second line crosses the first one to its right side *)
  | Concave => exists p, on f p /\ on g p /\ (forall q, after g p q -> ~ left_of f q) /\ (forall q, after f p q -> left_of g q /\ ~ on g q)
  end.
End Position.

(** ** Isometries *)
Section Isometries.
Context {K : OField}.
Local Open Scope F_scope.
Implicit Types M : mat K.
Definition lform (x y z : K) : K := x * x + y * y - z * z.
(** the matrix scales the quadratic form by a positive factor *)
Definition similarity M : Prop := exists lam, 0 < lam /\ forall x y z,
  lform (m00 M * x + m01 M * y + m02 M * z) (m10 M * x + m11 M * y + m12 M * z) (m20 M * x + m21 M * y + m22 M * z) = lam * lform x y z.
(** it maps the upper half of the cone to itself *)
Definition keeps_side M : Prop := 0 < m22 M.
(** [p] is mapped to [q] *)
Definition maps M (p q : vec K) : Prop := exists w, w <> 0 /\
  m00 M * fst p + m01 M * snd p + m02 M = w * fst q /\ m10 M * fst p + m11 M * snd p + m12 M = w * snd q /\
  m20 M * fst p + m21 M * snd p + m22 M = w.
End Isometries.

(** ** Segments and matrices *)
Section More.
Context {K : OField}.
Local Open Scope F_scope.
Implicit Types p q : vec K.
Implicit Types g : geo K.
(** the end points are on the geodesic *)
Definition all_on g (o : option (vec K)) : Prop := match o with None => True | Some p => on g p end.
(** the sets that are not degenerate: the end points of a segment are finite points in the right order *)
Definition normal_seg (r : segment_set K) : Prop :=
  match r with
  | SegSegment g s e => chord g /\ (s <> None \/ e <> None) /\
      (forall p, s = Some p -> finite p /\ on g p) /\ (forall p, e = Some p -> finite p /\ on g p) /\
      (forall p q, s = Some p -> e = Some q -> after g p q)
  | SegGeodesic g => chord g
  | SegPoint p => in_disk p
  | SegEmpty => True
  end.
(** [q] is the image of [p] for the action from the left or from the right *)
Definition moved (M : mat K) (on_right : bool) p q : Prop := if on_right then maps M q p else maps M p q.
(** 2x2 matrices *)
Definition det2 (N : mat2 K) := e00 N * e11 N - e01 N * e10 N.
Definition mul2 (N N' : mat2 K) := Mat2 (e00 N * e00 N' + e01 N * e10 N') (e00 N * e01 N' + e01 N * e11 N')
  (e10 N * e00 N' + e11 N * e10 N') (e10 N * e01 N' + e11 N * e11 N').
Definition neg2 (N : mat2 K) := Mat2 (- e00 N) (- e01 N) (- e10 N) (- e11 N).
(** the cube root of an element of the base ring *)
Definition cbrt_in (B : K -> Prop) (cbrt : K -> option K) : Prop :=
  forall x, B x -> match cbrt x with Some s => s * s * s = x | None => forall s, B s -> s * s * s <> x end.
Definition over2 (B : K -> Prop) (N : mat2 K) : Prop := B (e00 N) /\ B (e01 N) /\ B (e10 N) /\ B (e11 N).
Definition over3 (B : K -> Prop) (M : mat K) : Prop := B (m00 M) /\ B (m01 M) /\ B (m02 M) /\ B (m10 M) /\ B (m11 M) /\
  B (m12 M) /\ B (m20 M) /\ B (m21 M) /\ B (m22 M).
End More.
