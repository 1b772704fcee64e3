(** Specification vocabulary for mutable surfaces, in terms of what can be observed with
    [polygon(label)], [opposite_edge(label, edge)] and [roots()]. *)
From Coq Require Import List Bool ZArith Relations.
From Verif Require Import MBase MDict MMut.
Import ListNotations.
Local Open Scope Z_scope.

Section S.
Context {P : Type} (nv : P -> nat).
Implicit Types (s : @surf P) (x y : hedge) (l : label).

(** [l] is the label of a polygon *)
Definition is_label s l := exists p, get_polygon s l = Ok p.
(** [x] is an edge of a polygon of the surface *)
Definition is_edge s x := exists p, get_polygon s (fst x) = Ok p /\ 0 <= snd x < Z.of_nat (nv p).
(** edges [x] and [y] are glued *)
Definition glued s x y := is_edge s x /\ opposite_edge s (fst x) (snd x) = Ok (Some y).
(** edge [x] is not glued *)
Definition free s x := is_edge s x /\ opposite_edge s (fst x) (snd x) = Ok None.

(** gluings form a partial involution on the edges *)
Definition involutive s := forall x y, glued s x y -> glued s y x.
(** every edge is either glued or free, there are no lookup errors *)
Definition well_defined s := forall x, is_edge s x -> free s x \/ exists y, glued s x y.

(** labels that can be reached by crossing glued edges *)
Definition adjacent s (l l' : label) := exists e e', glued s (l, e) (l', e').
Definition linked s := clos_refl_trans label (adjacent s).

(** an operation only uses edge numbers that are not negative *)
Definition op_nonneg (o : @op P) : Prop :=
  match o with
  | OpGlue x y => 0 <= snd x /\ 0 <= snd y
  | OpUnglue _ e => 0 <= e
  | _ => True
  end.
(** states that can be reached *)
Definition reachable s := exists ops, Forall op_nonneg ops /\ s = run nv ops empty.

(** [s] and [s'] have the same polygons *)
Definition same_polygons s s' := forall l, get_polygon s' l = get_polygon s l.
End S.

Section S2.
Context {P : Type} (nv : P -> nat).
Implicit Types (s : @surf P) (x y : hedge) (l : label).

(** the only call that may damage a surface is [remove_polygon] on an immutable surface, see [C07] *)
Definition damaging s (o : @op P) : Prop := match o with OpRemove _ => mutable s = false | _ => False end.
(** surfaces that are obtained by calls that are not damaging *)
Inductive intact : @surf P -> Prop :=
| intact_empty : intact empty
| intact_op s o : intact s -> op_nonneg o -> ~ damaging s o -> intact (fst (run_op nv o s)).

(** calls that do not involve [remove_polygon] and [replace_polygon] *)
Definition no_remove_replace (o : @op P) : Prop := match o with OpRemove _ | OpReplace _ _ => False | _ => True end.

(** what a user can observe *)
Record same_view s s' : Prop := {
  sv_polygon : forall l, get_polygon s' l = get_polygon s l;
  sv_gluing : forall l e, opposite_edge s' l e = opposite_edge s l e;
  sv_roots : get_roots nv s' = get_roots nv s }.

(** [c] lists the labels linked to [l] *)
Definition is_component s l (c : list label) := NoDup c /\ forall b, In b c <-> linked nv s l b.
(** [rs] has exactly one label in each connected component *)
Definition one_per_component s (rs : list label) :=
  NoDup rs /\ (forall r, In r rs -> is_label s r) /\
  forall l, is_label s l -> exists r, In r rs /\ linked nv s r l /\ forall r', In r' rs -> linked nv s r' l -> r' = r.
(** a choice of at most one label in each connected component *)
Definition admissible_roots s (rs : list label) :=
  NoDup rs /\ (forall r, In r rs -> is_label s r) /\ forall r r', In r rs -> In r' rs -> linked nv s r r' -> r = r'.
End S2.
