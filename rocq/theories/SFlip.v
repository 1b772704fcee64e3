(** Specification vocabulary for flips of triangles. *)
From Coq Require Import List Bool ZArith Arith.
From Verif Require Import OField MBase MDict MEuclid MSim MPoly SSim MMut SMut MSurf SSurf.
Import ListNotations.

Section S.
Context {K : OField}.
Local Open Scope F_scope.
Notation surf := (@surf (polygon K)).

(** the four points are the corners of a strictly convex quadrilateral, in counter-clockwise order *)
Definition strictly_convex4 (p q r s : vec K) :=
  0 < orient p q r /\ 0 < orient q r s /\ 0 < orient r s p /\ 0 < orient s p q.

(** edge [e + k] of a triangle *)
Definition tri_edge (l : label) (e k : nat) : hedge := (l, Z.of_nat ((e + k) mod 3)).

(** the edge [e] of the triangle [P] at [l] is glued to the edge [e'] of the triangle [P'] at [l'];
    [F] moves [P'] to the other side of the edge *)
Record two_triangles (s : surf) l e l' e' (P P' : polygon K) (F : vec K -> vec K) : Prop := {
  tt_poly : get_polygon s l = Ok P;
  tt_poly' : get_polygon s l' = Ok P';
  tt_len : length P = 3%nat;
  tt_len' : length P' = 3%nat;
  tt_edge : (e < 3)%nat;
  tt_edge' : (e' < 3)%nat;
  tt_glued : opposite_edge s l (Z.of_nat e) = Ok (Some (l', Z.of_nat e'));
  tt_map : gluing_map P' e' P e F }.

(** the four other sides are not on the boundary *)
Definition inner_sides (s : surf) l e l' e' :=
  forall k, k = 1%nat \/ k = 2%nat ->
    ~ free (@length (vec K)) s (tri_edge l e k) /\ ~ free (@length (vec K)) s (tri_edge l' e' k).

(** where the sides of the two triangles are after the flip; all other edges stay *)
Definition moved (l : label) (e : nat) (l' : label) (e' : nat) (x : hedge) : hedge :=
  if eqb x (tri_edge l e 2) then tri_edge l e 1
  else if eqb x (tri_edge l' e' 1) then tri_edge l e 2
  else if eqb x (tri_edge l' e' 2) then tri_edge l' e' 1
  else if eqb x (tri_edge l e 1) then tri_edge l' e' 2
  else x.

(** exchange the two triangles *)
Definition exchanged (l : label) (e : nat) (l' : label) (e' : nat) (x : hedge) : hedge :=
  if eqb x (tri_edge l e 0) then tri_edge l' e' 0
  else if eqb x (tri_edge l e 1) then tri_edge l' e' 1
  else if eqb x (tri_edge l e 2) then tri_edge l' e' 2
  else if eqb x (tri_edge l' e' 0) then tri_edge l e 0
  else if eqb x (tri_edge l' e' 1) then tri_edge l e 1
  else if eqb x (tri_edge l' e' 2) then tri_edge l e 2
  else x.

(** gluings of [s'] are those of [s] after renaming edges with [f] *)
Definition regluing (f : hedge -> hedge) (s s' : surf) :=
  (forall x y, glued (@length (vec K)) s x y -> glued (@length (vec K)) s' (f x) (f y)) /\
  (forall x, free (@length (vec K)) s x -> free (@length (vec K)) s' (f x)).

(** the vector of an edge *)
Definition edge_vector (s : surf) (x : hedge) : res (vec K) :=
  match get_polygon s (fst x) with Ok P => Ok (edge P (Z.to_nat (snd x))) | Err x => Err x end.

(** if there are explicit roots, there is one in every component *)
Definition rooted (s : surf) := roots_ s = nil \/
  forall l, is_label s l -> exists r, In r (roots_ s) /\ linked (@length (vec K)) s r l.
End S.
