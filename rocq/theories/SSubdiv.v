(** Specification vocabulary for the subdivision of edges. *)
From Coq Require Import List Bool ZArith Arith.
From Verif Require Import OField MBase MDict MEuclid MSim MPoly MMut SMut SPoint MSurf SSurf MSubdiv.
Import ListNotations.

Section S.
Context {K : OField}.
Local Open Scope F_scope.
Notation nv := (@length (vec K) : polygon K -> nat).

(** the polygon [Q] is [P] moved such that its first vertex is the origin, with [k - 1] new vertices on each edge *)
Record divided (k : nat) (P Q : polygon K) : Prop := {
  dv_length : length Q = (length P * k)%nat;
  dv_vertex : forall e p, (e < length P)%nat -> (p <= k)%nat ->
    vertex Q (e * k + p) = vsub (vadd (vertex P e) (vscale (fnat p / fnat k) (edge P e))) (vertex P 0);
  dv_simple : simple_polygon Q;
  dv_area : area Q = area P }.

(** [t] is [s] with all edges divided into [k] parts of the same length, which are glued as they are in [s] *)
Record edges_divided (k : nat) (s t : @surf (polygon K)) : Prop := {
  ed_labels : forall l, is_label t l <-> is_label s l;
  ed_polygon : forall l P, get_polygon s l = Ok P -> exists Q, get_polygon t l = Ok Q /\ divided k P Q;
  ed_glued : forall l e p y, is_edge nv s (l, Z.of_nat e) -> (p < k)%nat ->
    (glued nv t (l, Z.of_nat (e * k + p)) y <->
     exists l' e', glued nv s (l, Z.of_nat e) (l', Z.of_nat e') /\ y = (l', Z.of_nat (e' * k + (k - 1 - p))));
  ed_free : forall l e p, is_edge nv s (l, Z.of_nat e) -> (p < k)%nat ->
    (free nv t (l, Z.of_nat (e * k + p)) <-> free nv s (l, Z.of_nat e));
  ed_maps : forall l e p P Q l' e' P' Q' F, (e < length P)%nat -> (p < k)%nat ->
    get_polygon s l = Ok P -> get_polygon s l' = Ok P' -> get_polygon t l = Ok Q -> get_polygon t l' = Ok Q' ->
    glued nv s (l, Z.of_nat e) (l', Z.of_nat e') -> gluing_map P e P' e' F ->
    gluing_map Q (e * k + p) Q' (e' * k + (k - 1 - p)) (fun x => vsub (F (vadd x (vertex P 0))) (vertex P' 0)) }.
End S.
