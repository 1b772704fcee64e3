(** Specification vocabulary for cutting and joining polygons. *)
From Coq Require Import List Bool ZArith Arith.
From Verif Require Import OField MBase MDict MEuclid MSim SSim MPoly MMut SMut SPoint MSurf SSurf.
Import ListNotations.

(** the number of steps from [v] to [i] around a polygon with [n] vertices *)
Definition off (v n i : nat) : nat := ((i + n - v) mod n)%nat.

Section S.
Context {K : OField}.
Local Open Scope F_scope.
Notation nv := (@length (vec K) : polygon K -> nat).
Notation surf := (@surf (polygon K)).
Notation "'vx' P e" := (vertex P (Z.to_nat e)) (at level 10, P at level 9, e at level 9).

(** a polygon that the constructor accepts, see [C51_vertices] *)
Definition proper (P : polygon K) := (3 <= length P)%nat /\ (forall e, edge P e <> vzero) /\ simple_polygon P /\ 0 < area P.
(** the pieces to the right and to the left of the diagonal from [v1] to [v2] *)
Definition right_piece (P : polygon K) (v1 v2 : nat) : polygon K := vertex P v2 :: map (vertex P) (seq v1 (off v1 (length P) v2)).
Definition left_piece (P : polygon K) (v1 v2 : nat) : polygon K := vertex P v1 :: map (vertex P) (seq v2 (off v2 (length P) v1)).
(** the union of [P1] and of the image of [P2] *)
Definition union (P1 : polygon K) (e1 : nat) (P2 : polygon K) (e2 : nat) (T : vec K -> vec K) : polygon K :=
  map (vertex P1) (seq 0 (S e1)) ++ map (fun i => T (vertex P2 i)) (seq (e2 + 2) (length P2 - 2)) ++ map (vertex P1) (seq (S e1) (length P1 - S e1)).

(** [t] consists of the [kept] edges of [s]: the edge [x] is now called [psi x] and has been moved by the map [A x] *)
Record recut (s t : surf) (kept : hedge -> Prop) (psi : hedge -> hedge) (A : hedge -> vec K -> vec K) : Prop := {
  rc_edge : forall x, is_edge nv s x -> kept x -> is_edge nv t (psi x);
  rc_inj : forall x y, is_edge nv s x -> kept x -> is_edge nv s y -> kept y -> psi x = psi y -> x = y;
  rc_glued : forall x y, is_edge nv s x -> kept x -> is_edge nv s y -> kept y -> (glued nv t (psi x) (psi y) <-> glued nv s x y);
  rc_free : forall x, is_edge nv s x -> kept x -> (free nv t (psi x) <-> free nv s x);
  rc_ends : forall x P Q, is_edge nv s x -> kept x -> get_polygon s (fst x) = Ok P -> get_polygon t (fst (psi x)) = Ok Q ->
    vx Q (snd (psi x)) = A x (vx P (snd x)) /\ vertex Q (S (Z.to_nat (snd (psi x)))) = A x (vertex P (S (Z.to_nat (snd x))));
  rc_moves : forall x, (exists c, map_similarity (A x) c) /\ map_orientation_preserving (A x);
  (** the gluing maps are the same *)
  rc_maps : forall x y P P' Q Q' F G, glued nv s x y -> kept x -> kept y ->
    get_polygon s (fst x) = Ok P -> get_polygon s (fst y) = Ok P' ->
    get_polygon t (fst (psi x)) = Ok Q -> get_polygon t (fst (psi y)) = Ok Q' ->
    gluing_map P (Z.to_nat (snd x)) P' (Z.to_nat (snd y)) F ->
    gluing_map Q (Z.to_nat (snd (psi x))) Q' (Z.to_nat (snd (psi y))) G -> forall q, G (A x q) = A y (F q) }.

(** the edges of [p] from [v1] to [v2] become those of [k] after the diagonal, the other ones those of [p] *)
Definition cut_name (p k : label) (n v1 v2 : nat) (x : hedge) : hedge :=
  if (fst x =? p)%Z then
    let d := off v1 n (Z.to_nat (snd x)) in let w := off v1 n v2 in
    if (d <? w)%nat then (k, Z.of_nat (d + 1)) else (p, Z.of_nat (d - w + 1))
  else x.
(** the pieces are moved such that the diagonal starts at the origin *)
Definition cut_move (p : label) (P : polygon K) (v1 v2 : nat) (x : hedge) (q : vec K) : vec K :=
  if (fst x =? p)%Z then
    if (off v1 (length P) (Z.to_nat (snd x)) <? off v1 (length P) v2)%nat then vsub q (vertex P v2) else vsub q (vertex P v1)
  else q.
(** [t] is [s] with the polygon [P] at [p] cut along the diagonal from [v1] to [v2]; the piece to the right of the
    diagonal is called [k] *)
Record polygon_cut (s t : surf) (p k : label) (P : polygon K) (v1 v2 : nat) : Prop := {
  pc_new : ~ is_label s k;
  pc_labels : forall l, is_label t l <-> is_label s l \/ l = k;
  pc_other : forall l, l <> p -> l <> k -> get_polygon t l = get_polygon s l;
  pc_pieces : exists Q1 Q2, get_polygon t p = Ok Q1 /\ get_polygon t k = Ok Q2 /\
    length Q2 = S (off v1 (length P) v2) /\ length Q1 = S (length P - off v1 (length P) v2) /\
    vertex Q1 0 = vzero /\ vertex Q1 1 = vsub (vertex P v2) (vertex P v1) /\
    vertex Q2 0 = vzero /\ vertex Q2 1 = vsub (vertex P v1) (vertex P v2) /\
    proper Q1 /\ proper Q2 /\ area Q1 + area Q2 = area P;
  pc_diagonal : glued nv t (p, 0%Z) (k, 0%Z);
  pc_edges : forall y, is_edge nv t y -> y = (p, 0%Z) \/ y = (k, 0%Z) \/ exists x, is_edge nv s x /\ y = cut_name p k (length P) v1 v2 x;
  pc_recut : recut s t (fun _ => True) (cut_name p k (length P) v1 v2) (cut_move p P v1 v2) }.

(** the edges of the second polygon are inserted for the edge [e1] of the first one *)
Definition join_name (p1 : label) (e1 : nat) (p2 : label) (e2 n2 : nat) (x : hedge) : hedge :=
  let i := Z.to_nat (snd x) in
  if (fst x =? p1)%Z then (p1, if (i <? e1)%nat then Z.of_nat i else Z.of_nat (i + n2 - 2))
  else if (fst x =? p2)%Z then (p1, Z.of_nat (e1 + off e2 n2 i - 1))
  else x.
(** the second polygon is moved by the gluing map, then both such that the first vertex is the origin *)
Definition join_move (p1 p2 : label) (P1 : polygon K) (T : vec K -> vec K) (x : hedge) (q : vec K) : vec K :=
  if (fst x =? p1)%Z then vsub q (vertex P1 0)
  else if (fst x =? p2)%Z then vsub (T q) (vertex P1 0)
  else q.
(** [t] is [s] with the polygons [P1] at [p1] and [P2] at [p2] joined along the edges [e1] and [e2]; [T] is the gluing map
    that moves [P2] to [P1] *)
Record polygons_joined (s t : surf) p1 (P1 : polygon K) e1 p2 (P2 : polygon K) e2 (T : vec K -> vec K) : Prop := {
  pj_labels : forall l, is_label t l <-> is_label s l /\ l <> p2;
  pj_other : forall l, l <> p1 -> l <> p2 -> get_polygon t l = get_polygon s l;
  pj_polygon : exists Q c, get_polygon t p1 = Ok Q /\ length Q = (length P1 + length P2 - 2)%nat /\ vertex Q 0 = vzero /\
    proper Q /\ map_similarity T c /\ area Q = area P1 + c * area P2;
  pj_edges : forall y, is_edge nv t y -> exists x, is_edge nv s x /\ x <> (p1, Z.of_nat e1) /\ x <> (p2, Z.of_nat e2) /\
    y = join_name p1 e1 p2 e2 (length P2) x;
  pj_recut : recut s t (fun x => x <> (p1, Z.of_nat e1) /\ x <> (p2, Z.of_nat e2)) (join_name p1 e1 p2 e2 (length P2)) (join_move p1 p2 P1 T) }.

(** the edges of [p] are numbered from [v] *)
Definition turn_name (p : label) (n v : nat) (x : hedge) : hedge := if (fst x =? p)%Z then (p, Z.of_nat (off v n (Z.to_nat (snd x)))) else x.
(** [u] is [s] with the vertices of the polygon [P] at [p] numbered from [v], which is moved to the origin *)
Record renumbered (s u : surf) (p : label) (P : polygon K) (v : nat) : Prop := {
  rn_labels : forall l, is_label u l <-> is_label s l;
  rn_other : forall l, is_label s l -> l <> p -> get_polygon u l = get_polygon s l;
  rn_polygon : exists R, get_polygon u p = Ok R /\ length R = length P /\ forall j, vertex R j = vsub (vertex P (v + j)) (vertex P v);
  rn_edges : forall y, is_edge nv u y <-> exists x, is_edge nv s x /\ y = turn_name p (length P) v x;
  rn_glued : forall x y, is_edge nv s x -> is_edge nv s y -> (glued nv u (turn_name p (length P) v x) (turn_name p (length P) v y) <-> glued nv s x y);
  rn_free : forall x, is_edge nv s x -> (free nv u (turn_name p (length P) v x) <-> free nv s x) }.
End S.
