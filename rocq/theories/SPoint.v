(** Specification vocabulary for points of surfaces. *)
From Coq Require Import List ZArith Arith Relations.
From Verif Require Import OField MBase MEuclid SEuclid MSim MPoly SSim MSurf SSurf.
Import ListNotations.

Section S.
Context {K : OField} {L : Type}.
Local Open Scope F_scope.
Implicit Types (S : surface K L) (D : L -> Prop) (P : polygon K).

(** the edge number [e] as a segment *)
Definition side P e := (vertex P e, vertex P (Datatypes.S e)).
(** two different edges only meet in a common vertex of consecutive edges *)
Definition simple_polygon P := forall i j p, (i < length P)%nat -> (j < length P)%nat -> i <> j ->
  on_segment (side P i) p -> on_segment (side P j) p ->
  (j = Nat.modulo (i + 1) (length P) /\ p = vertex P (i + 1)) \/
  (i = Nat.modulo (j + 1) (length P) /\ p = vertex P (j + 1)).
Definition simple_polygons D S := forall l P, D l -> s_poly S l = Ok P -> simple_polygon P.

(** a point of an edge is identified with its image under the gluing map of the edge *)
Definition glue_step D S (x y : L * vec K) := exists e P e' P' F,
  glued_at D S (fst x) e P (fst y) e' P' /\ gluing_map P e P' e' F /\
  on_segment (side P e) (snd x) /\ snd y = F (snd x).
(** the points of the surface are the classes of the equivalence relation that this generates *)
Definition identified D S := clos_refl_sym_trans (L * vec K) (glue_step D S).

(** the edges at a vertex: the corner [x] is followed counter-clockwise by the corner [y] at the same vertex *)
Definition corner_next D S (x y : L * nat) := exists P e, D (fst x) /\ s_poly S (fst x) = Ok P /\
  (snd x < length P)%nat /\ e = Nat.modulo (snd x + length P - 1) (length P) /\
  s_opp S (fst x) e = Ok (Some y).

(** turning counter-clockwise from [u] to [v], by at most one full turn, meets the direction [r] after [u] *)
Definition meets (r u v : vec K) := sector u v r \/ pos_multiple v r.
(** turning counter-clockwise from [u] to the first vector, from there to the second, ..., meets [r] that many times *)
Inductive meets_count (r : vec K) : vec K -> list (vec K) -> nat -> Prop :=
| meets_nil u : meets_count r u nil 0
| meets_yes u v vs n : meets r u v -> meets_count r v vs n -> meets_count r u (v :: vs) (Datatypes.S n)
| meets_no u v vs n : ~ meets r u v -> meets_count r v vs n -> meets_count r u (v :: vs) n.
(** no turn is a full turn *)
Inductive proper_turns : vec K -> list (vec K) -> Prop :=
| proper_nil u : proper_turns u nil
| proper_cons u v vs : v <> vzero -> ~ pos_multiple u v -> proper_turns v vs -> proper_turns u (v :: vs).

(** A sector at a vertex: the corner of a polygon, placed in the plane by a linear map. It is bounded by the edge that
    starts at the corner and, counter-clockwise from there, by the edge that ends at the corner. *)
Record place_at := PlaceAt { pa_corner : L * nat; pa_poly : polygon K; pa_frame : mat K }.
Definition pa_exit (s : place_at) : L * nat :=
  (fst (pa_corner s), Nat.modulo (snd (pa_corner s) + length (pa_poly s) - 1) (length (pa_poly s))).
(** the two edges as vectors that point away from the vertex *)
Definition pa_first (s : place_at) : vec K := mapply (pa_frame s) (edge (pa_poly s) (snd (pa_corner s))).
Definition pa_second (s : place_at) : vec K := mapply (pa_frame s) (vopp (edge (pa_poly s) (snd (pa_exit s)))).
(** a rotation followed by a homothety with positive factor *)
Definition turning (m : mat K) := exists a b, (a <> 0 \/ b <> 0) /\ forall v, mapply m v = (a * fst v - b * snd v, b * fst v + a * snd v).
Definition placed D S (s : place_at) := D (fst (pa_corner s)) /\ s_poly S (fst (pa_corner s)) = Ok (pa_poly s) /\
  (snd (pa_corner s) < length (pa_poly s))%nat /\ turning (pa_frame s).
(** [t] is next to [s] counter-clockwise, and is placed next to it *)
Definition next_place S (s t : place_at) := s_opp S (fst (pa_exit s)) (snd (pa_exit s)) = Ok (Some (pa_corner t)) /\
  pa_first t = pa_second s.
Definition consecutive {A} (R : A -> A -> Prop) (l : list A) := forall i a b, nth_error l i = Some a ->
  nth_error l (Datatypes.S i) = Some b -> R a b.
(** all the corners at the vertex of the corner [x], each once, in counter-clockwise order, starting with [x]: either
    once around the vertex, or from one boundary edge to the other *)
Record star D S (x : L * nat) (ss : list place_at) : Prop := {
  st_start : exists s ss', ss = s :: ss' /\ pa_corner s = x;
  st_placed : forall s, In s ss -> placed D S s;
  st_once : NoDup (map pa_corner ss);
  st_next : consecutive (next_place S) ss;
  st_around : exists s0 s1, In s1 ss /\ nth_error ss 0 = Some s0 /\ nth_error ss (length ss - 1) = Some s1 /\
    (s_opp S (fst (pa_exit s1)) (snd (pa_exit s1)) = Ok (Some (pa_corner s0)) \/
     s_opp S (fst (pa_exit s1)) (snd (pa_exit s1)) = Ok None /\
     s_opp S (fst (pa_corner s0)) (snd (pa_corner s0)) = Ok None);
  st_all : forall y, In y (map pa_corner ss) <-> clos_refl_sym_trans (L * nat) (corner_next D S) x y }.
End S.
