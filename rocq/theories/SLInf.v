(** Specification of the cells of the L-infinity Delaunay triangulation. *)
From Coq Require Import List Bool ZArith Arith.
From Verif Require Import OField MBase MEuclid.
Import ListNotations.
Inductive marking := MNone | MLeft | MRight | MBottom | MTop.
(** consecutive marked vertices of a triangle, counter-clockwise *)
Definition compatible (m m' : marking) : Prop :=
  match m, m' with
  | MNone, _ | _, MNone | MBottom, MRight | MRight, MTop | MTop, MLeft | MLeft, MBottom => True
  | _, _ => False
  end.
(** the gluings identify the edges in pairs; the edges of a pair are edges of different triangles *)
Definition paired (n : nat) (opp : nat -> nat -> nat * nat) : Prop :=
  forall p e, (p < n)%nat -> (e < 3)%nat -> (fst (opp p e) < n)%nat /\ (snd (opp p e) < 3)%nat /\ opp (fst (opp p e)) (snd (opp p e)) = (p, e) /\ fst (opp p e) <> p.
Section S.
Context {K : OField}.
Local Open Scope F_scope.
(** the separatrix that starts at the vertex between the edges [i] (which ends there) and [o] is between the two edges:
    at a bottom vertex it goes up, at a top vertex down, at a left vertex to the right and at a right vertex to the left *)
Definition has_marking (m : marking) (i o : vec K) : Prop :=
  match m with
  | MNone => True
  | MBottom => 0 <= fst i /\ snd i <= 0 /\ 0 <= fst o /\ 0 <= snd o
  | MTop => fst i <= 0 /\ 0 <= snd i /\ fst o <= 0 /\ snd o <= 0
  | MRight => 0 <= fst i /\ 0 <= snd i /\ fst o <= 0 /\ 0 <= snd o
  | MLeft => fst i <= 0 /\ snd i <= 0 /\ 0 <= fst o /\ snd o <= 0
  end.
Definition vplus (v w : vec K) : vec K := (fst v + fst w, snd v + snd w).
(** triangles with edges [E p e] glued by [opp] *)
Record marked_surface (n : nat) (opp : nat -> nat -> nat * nat) (mark : nat -> nat -> marking) (E : nat -> nat -> vec K) : Prop := {
  ms_close : forall p, (p < n)%nat -> vplus (vplus (E p 0%nat) (E p 1%nat)) (E p 2%nat) = (0, 0);
  ms_opposite : forall p e, (p < n)%nat -> (e < 3)%nat -> vplus (E p e) (E (fst (opp p e)) (snd (opp p e))) = (0, 0);
  ms_marked : forall p e, (p < n)%nat -> (e < 3)%nat -> has_marking (mark p e) (E p ((e + 2) mod 3)%nat) (E p e);
  ms_bounded : forall p e, (p < n)%nat -> (e < 3)%nat -> - (1) <= fst (E p e) /\ fst (E p e) <= 1 /\ - (1) <= snd (E p e) /\ snd (E p e) <= 1 }.
(** squares parallel to the axes *)
Definition closed_square (c : vec K) (s : K) (v : vec K) : Prop := fst c <= fst v /\ fst v <= fst c + s /\ snd c <= snd v /\ snd v <= snd c + s.
Definition open_square (c : vec K) (s : K) (v : vec K) : Prop := fst c < fst v /\ fst v < fst c + s /\ snd c < snd v /\ snd v < snd c + s.
(** the edge from [A] to [B] is in the L-infinity Delaunay triangulation of the quadrilateral with the other vertices [C], [D] *)
Definition delaunay_edge (A B C D : vec K) : Prop := exists c s, closed_square c s A /\ closed_square c s B /\ ~ open_square c s C /\ ~ open_square c s D.
(** For the edge opposite to the vertex [e] of the triangle [p]; the vertex is at the origin. *)
Definition edge_is_delaunay (opp : nat -> nat -> nat * nat) (E : nat -> nat -> vec K) (p e : nat) : Prop :=
  let A := E p e in
  let B := vplus A (E p ((e + 1) mod 3)%nat) in
  let '(q, f) := opp p ((e + 1) mod 3)%nat in
  delaunay_edge A B (0, 0) (vplus A (E q ((f + 1) mod 3)%nat)).
(** the vertex opposite to the vertex [e] of [p], in the other triangle at the opposite edge *)
Definition across (opp : nat -> nat -> nat * nat) (p e : nat) : nat * nat := let '(q, f) := opp p ((e + 1) mod 3)%nat in (q, ((f + 2) mod 3)%nat).
End S.
