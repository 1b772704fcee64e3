(** Specification vocabulary for finite glued surfaces. *)
From Coq Require Import List ZArith Arith Relations.
From Verif Require Import MDict MComb.

Section S.
Context {L : Type}.
Implicit Types S : csurf L.

(** the edges of the surface *)
Definition is_dart S (d : L * nat) := In (fst d) (c_labels S) /\ snd d < c_nv S (fst d).
(** finitely many polygons whose edges are glued in pairs (possibly an edge to itself), or not at all *)
Record cvalid S : Prop := {
  cv_labels : NoDup (c_labels S);
  cv_opp : forall d c, is_dart S d -> c_opp S d = Some c -> is_dart S c /\ c_opp S c = Some d }.
(** there is no boundary *)
Definition cclosed S := forall d, is_dart S d -> c_opp S d <> None.
(** no edge is glued to itself *)
Definition unfolded S := forall d, is_dart S d -> c_opp S d <> Some d.

(** the corner [(l, k)] is the vertex number [k] of the polygon [l]; the edge [e] runs from the corner [e] to
    the corner [e + 1], with the convention that the numbers are modulo the number of vertices *)
Definition same_corner S (l : L) (k : nat) (x : L * nat) := fst x = l /\ snd x = Nat.modulo k (c_nv S l).
(** gluing the edge [(l, e)] to the edge [(l', e')] identifies the start of each with the end of the other *)
Definition corner_step S (x y : L * nat) := exists l e l' e',
  is_dart S (l, e) /\ c_opp S (l, e) = Some (l', e') /\
  ((same_corner S l e x /\ same_corner S l' (e' + 1) y) \/ (same_corner S l (e + 1) x /\ same_corner S l' e' y)).
(** the equivalence relation on corners generated by the gluings *)
Definition same_vertex S := clos_refl_sym_trans (L * nat) (corner_step S).
(** the two edges of a glued pair *)
Definition same_edge S (x y : L * nat) := x = y \/ c_opp S x = Some y.
(** two polygons have a common edge *)
Definition face_step S l l' := exists e e', is_dart S (l, e) /\ c_opp S (l, e) = Some (l', e').
Definition cconnected S := forall l l', In l (c_labels S) -> In l' (c_labels S) -> clos_refl_sym_trans L (face_step S) l l'.

(** the relation [R] has exactly [n] classes on the elements satisfying [D] *)
Definition has_classes {A : Type} (D : A -> Prop) (R : A -> A -> Prop) (n : nat) := exists reps : list A,
  length reps = n /\ NoDup reps /\ (forall x, In x reps -> D x) /\
  (forall x, D x -> exists y, In y reps /\ R x y) /\
  (forall x y, In x reps -> In y reps -> R x y -> x = y).
(** there are exactly [n] elements satisfying [D] *)
Definition has_count {A : Type} (D : A -> Prop) (n : nat) := has_classes D eq n.

(** [V - E + F]; the middle of an edge that is glued to itself is a vertex too *)
Definition euler_number S (chi : Z) := exists V M E F,
  has_classes (is_dart S) (same_vertex S) V /\
  has_count (fun d => is_dart S d /\ c_opp S d = Some d) M /\
  has_classes (is_dart S) (same_edge S) E /\
  has_count (fun l => In l (c_labels S)) F /\
  (chi = Z.of_nat (V + M) - Z.of_nat E + Z.of_nat F)%Z.
End S.
