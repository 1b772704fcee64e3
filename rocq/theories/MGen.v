(** Model of the generators of finite surfaces that depend on parameters:
    flatsurf/geometry/similarity_surface_generators.py 981-1084, 1230-1261, 1331-1781 and 1833-1942. *)
From Coq Require Import List Bool ZArith Arith.
From Verif Require Import OField FMicromega MBase MDict MEuclid MSim MPoly MMut.
Import ListNotations.
Local Open Scope M_scope.

Section M.
Context {K : OField}.
Local Open Scope F_scope.
Notation surf := (@surf (polygon K)).
Notation nv := (@length (vec K)).

(** [s.add_polygon(Polygon(...))]; rings are not modelled, all polygons are over the field K *)
Definition addp (lab : option label) (r : res (polygon K)) : M surf unit := let! P := mlift r in add_polygon nv P lab ;;; mret tt.
(** a sequence of calls [s.glue((l, e), (l', e'))] *)
Definition glues (gl : list (hedge * hedge)) : M surf unit := mfor gl (fun xy => glue nv (fst xy) (snd xy)).
(** the pattern of most generators: polygons are created and added, then edges are glued, then the surface is immutable *)
Definition assemble (rs : list (res (polygon K))) (gl : list (hedge * hedge)) : M surf unit :=
  mfor rs (addp None) ;;; glues gl ;;; set_immutable nv.
Local Open Scope Z_scope.
Definition hg (a b c d : Z) : hedge * hedge := ((a, b), (c, d)).
Local Close Scope Z_scope.

(** 1008-1024 *)
Definition dilation_torus_gluings := [hg 0 0 1 2; hg 0 1 1 3; hg 0 2 1 0; hg 0 3 1 1].
Definition basic_dilation_torus (a : K) : M surf unit :=
  addp (Some 0%Z) (Polygon_edges [(0, 1); (- (1), 0); (0, - (1)); (1, 0)]) ;;;
  addp (Some 1%Z) (Polygon_edges [(0, 1); (- a, 0); (0, - (1)); (a, 0)]) ;;;
  glues dilation_torus_gluings ;;;
  set_roots nv [0%Z] ;;;
  set_immutable nv.

(** 1064-1084; the root is set before the triangles are added *)
Definition genus_two_square_gluings := [hg 0 0 0 3; hg 0 2 0 5; hg 0 1 1 2; hg 0 4 2 0; hg 1 0 2 1; hg 1 1 2 2].
Definition genus_two_square (a b c d : K) : M surf unit :=
  addp (Some 0%Z) (Polygon_edges [(a, 0); (1 - a, b); (0, 1 - b); (- c, 0); (c - 1, - d); (0, d - 1)]) ;;;
  set_roots nv [0%Z] ;;;
  addp (Some 1%Z) (Polygon_edges [(1 - a, 0); (0, b); (a - 1, - b)]) ;;;
  addp (Some 2%Z) (Polygon_edges [(1 - c, d); (c - 1, 0); (0, - d)]) ;;;
  glues genus_two_square_gluings ;;;
  set_immutable nv.

(** 1255-1261 *)
Definition torus_gluings := [hg 0 0 0 2; hg 0 1 0 3].
Definition torus (u v : vec K) : M surf unit :=
  assemble [Polygon_vertices [(0, 0); u; vadd u v; v]] torus_gluings.

(** 1764-1781 *)
Definition mcmullen_L_gluings := [hg 0 0 1 2; hg 0 1 2 3; hg 0 2 1 0; hg 0 3 2 1; hg 1 1 1 3; hg 2 0 2 2].
Definition mcmullen_L (l1 l2 l3 l4 : K) : M surf unit :=
  assemble [Polygon_edges [(l3, 0); (0, l2); (- l3, 0); (0, - l2)];
            Polygon_edges [(l3, 0); (0, l1); (- l3, 0); (0, - l1)];
            Polygon_edges [(l4, 0); (0, l2); (- l4, 0); (0, - l2)]] mcmullen_L_gluings.

(** 1887-1942 *)
Definition cathedral_gluings :=
  [hg 0 0 0 2; hg 0 1 1 9; hg 0 3 3 3; hg 1 0 1 3; hg 1 1 3 4; hg 1 2 3 6; hg 1 4 2 3; hg 1 5 1 8; hg 1 6 3 0; hg 1 7 3 2;
   hg 2 0 2 2; hg 2 1 3 7; hg 3 1 3 5].
Definition cathedral (a b : K) : M surf unit :=
  let half := 1 / 2 in
  assemble
   [Polygon_vertices [(0, 0); (a, 0); (a, 1); (0, 1)];
    Polygon_vertices [(a, 0); (a, - b); (a + half, - b - half); (a + 1, - b); (a + 1, 0); (a + 1, 1); (a + 1, b + 1);
                      (a + half, b + 1 + half); (a, b + 1); (a, 1)];
    Polygon_vertices [(a + 1, 0); (2 * a + 1, 0); (2 * a + 1, 1); (a + 1, 1)];
    Polygon_vertices [(2 * a + 1, 0); (2 * a + 1 + half, - half); (2 * 2 * a + 1 + half, - half); (2 * 2 * a + 2, 0);
                      (2 * 2 * a + 2, 1); (2 * 2 * a + 1 + half, 1 + half); (2 * a + 1 + half, 1 + half); (2 * a + 1, 1)]]
   cathedral_gluings.

(** 1415, 1548: whether the discriminant is a square *)
Definition is_square (D : Z) : bool := (Z.sqrt D * Z.sqrt D =? D)%Z.

(** 1402-1490. The argument [lam] is the root λ of x^2 - e x - w h that is chosen in 1417-1419 and 1435 (the positive one, which
    is a hypothesis of the theorems); [given] tells whether base_ring is given, and then that ring contains λ, hence both
    roots, the smaller one is e - λ: the assertion of 1426 says [roots\[0\] < 0 and roots\[0\] > 0]. *)
Definition genus2_gluings_rel := [hg 0 1 0 3; hg 0 0 1 6; hg 0 2 1 1; hg 1 2 1 4; hg 1 3 1 7; hg 1 0 1 5].
Definition genus2_gluings := [hg 0 1 0 3; hg 0 0 1 4; hg 0 2 1 0; hg 1 1 1 3; hg 1 2 1 5].
Definition genus2_prototype (given : bool) (lam : K) (w h t e : Z) (rel : K) : M surf unit :=
  let g := Z.gcd w h in
  (if (w <=? 0)%Z || (h <=? 0)%Z || (t <? 0)%Z || (g <=? t)%Z || negb (Z.gcd (Z.gcd g t) e =? 1)%Z || (w <=? e + h)%Z
   then mraise ValueError else mret tt) ;;;
  (if negb (is_square (e * e + 4 * w * h)) then
     if given then massert ((Z2K K e - lam <? 0) && (0 <? Z2K K e - lam)) else mret tt
   else mret tt) ;;;
  let w := Z2K K w in let h := Z2K K h in let t := Z2K K t in
  if negb (rel =? 0) then
    (if (rel <? 0) || (w - lam <? rel) then mraise ValueError else mret tt) ;;;
    assemble
     [Polygon_vertices [(0, 0); (lam, 0); (lam + rel, lam); (rel, lam)];
      Polygon_vertices [(0, 0); (rel, 0); (rel + lam, 0); (w, 0); (w + t, h); (lam + rel + t, h); (t + lam, h); (t, h)]]
     genus2_gluings_rel
  else
    assemble
     [Polygon_vertices [(0, 0); (lam, 0); (lam, lam); (0, lam)];
      Polygon_vertices [(0, 0); (lam, 0); (w, 0); (w + t, h); (lam + t, h); (t, h)]]
     genus2_gluings.

(** 1532-1593; [d] is the square root of the discriminant of 1546-1554 *)
Definition genus3_gluings := [hg 0 0 2 3; hg 0 1 0 3; hg 0 2 0 5; hg 0 4 1 0; hg 1 1 1 3; hg 1 2 2 1; hg 2 0 2 4; hg 2 2 2 5].
Definition genus3_prototype (d : K) (w h t e : Z) : M surf unit :=
  (if (0 <? w)%Z then mret tt else mraise ValueError) ;;;
  (if (0 <? h)%Z then mret tt else mraise ValueError) ;;;
  (if (e + 2 * h <? w)%Z then mret tt else mraise ValueError) ;;;
  (if (0 <=? t)%Z then mret tt else mraise ValueError) ;;;
  (if (t <? Z.gcd w h)%Z then mret tt else mraise ValueError) ;;;
  (if (Z.gcd (Z.gcd (Z.gcd w h) t) e =? 1)%Z then mret tt else mraise ValueError) ;;;
  let lam := (Z2K K e + d) / 2 in
  let w := Z2K K w in let h := Z2K K h in let t := Z2K K t in
  assemble
   [Polygon_vertices [(0, 0); (lam, 0); (w, 0); (w + t, h); (lam + t, h); (t, h)];
    Polygon_vertices [(0, 0); (lam, 0); (lam, lam); (0, lam)];
    Polygon_vertices [(0, 0); (w - lam, 0); (w, 0); (w + t, h); (w - lam + t, h); (t, h)]]
   genus3_gluings.

(** 1635-1721; [d] is the square root of the discriminant of 1647-1655 *)
Definition genus4_gluings := [hg 0 0 2 4; hg 0 1 0 3; hg 0 2 1 2; hg 1 0 1 5; hg 1 1 3 2; hg 1 3 1 6; hg 1 4 2 0; hg 2 1 2 3;
   hg 2 2 2 6; hg 2 5 3 0; hg 3 1 3 3].
Definition genus4_prototype (d : K) (w h t e : Z) : M surf unit :=
  (if (0 <? w)%Z then mret tt else mraise ValueError) ;;;
  (if (0 <? h)%Z then mret tt else mraise ValueError) ;;;
  (if (0 <=? t)%Z then mret tt else mraise ValueError) ;;;
  (if (t <? Z.gcd w h)%Z then mret tt else mraise ValueError) ;;;
  (if (Z.gcd (Z.gcd (Z.gcd w h) t) e =? 1)%Z then mret tt else mraise ValueError) ;;;
  let lam := (Z2K K e + d) / 2 in
  let w := Z2K K w in let h := Z2K K h in let t := Z2K K t in
  (if lam <? w then mret tt else mraise ValueError) ;;;
  (if lam =? w / 2 then mraise ValueError else mret tt) ;;;
  assemble
   [Polygon_vertices [(0, 0); (lam / 2, 0); (lam / 2, lam / 2); (0, lam / 2)];
    Polygon_vertices [(0, 0); (w / 2 - lam, 0); (w / 2 - lam / 2, 0); (w / 2, 0); (w / 2 + t / 2, h / 2);
                      (w / 2 - lam + t / 2, h / 2); (t / 2, h / 2)];
    Polygon_vertices [(0, 0); (lam, 0); (w / 2, 0); (w / 2 + t / 2, h / 2); (lam + t / 2, h / 2); (lam / 2 + t / 2, h / 2);
                      (t / 2, h / 2)];
    Polygon_vertices [(0, 0); (lam / 2, 0); (lam / 2, lam / 2); (0, lam / 2)]]
   genus4_gluings.
End M.
