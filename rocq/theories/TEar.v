(** Theorems C33: ear clipping. *)
From Coq Require Import List Bool ZArith Arith Lia QArith.
From Verif Require Import OField MBase MDict MEuclid SEuclid MSim SSim MPoly MMut SMut SPoint SCut PSimple PEar5 TEuclid MEar SEar.
Import ListNotations.
Open Scope nat_scope.

(** Every simple polygon with positive area, convex or not, is triangulated: there is always an ear, no assertion fails,
    the triangles cover the polygon without overlaps and the returned dictionary names the edges of the polygon. *)
Theorem C33_triangulate (K : OField) (P : polygon K) : proper P ->
  exists s outer, triangulate P = Ok (s, outer) /\ triangulation_of P s outer /\ intact (@length (vec K)) s /\ mutable s = true.
Proof. apply triangulate_ok. Qed.
Print Assumptions C33_triangulate.
(** The only polygons that are not triangulated are the ones that are not accepted as polygons either. *)
Theorem C33_degenerate (K : OField) (P : polygon K) : length P < 3 -> triangulate P = Err ValueError.
Proof.
  intros H. unfold triangulate, triangulate_in. destruct (Nat.ltb_spec (length P) 3) as [|]; [reflexivity|lia].
Qed.
Print Assumptions C33_degenerate.

(** a polygon with reflex corners, an L with a notch *)
Definition notched : polygon cqF := [qv 0 0; qv 4 0; qv 4 4; qv 2 1; qv 1 4; qv 0 4; qv 1 2].
Lemma notched_proper : proper notched.
Proof.
  assert (H : polygon_check notched = Ok tt) by (vm_compute; reflexivity).
  apply (proj1 (polygon_check_spec notched)) in H. destruct H as ((A & B) & C & D). exact (conj A (conj B (conj C D))).
Qed.
(** the triangles, as lists of the coordinates of their corners, and the edges of the polygon *)
Definition tri_report (r : res (@surf (polygon cqF) * dict nat hedge)) : option (list (list (Q * Q)) * dict nat hedge) :=
  match r with
  | Ok (s, outer) => Some (map (fun lP => map (fun v : vec cqF => (cqv (fst v), cqv (snd v))) (snd lP)) (polys s), outer)
  | Err _ => None end.
Example C33_ex : (exists s outer, triangulate notched = Ok (s, outer) /\ triangulation_of notched s outer /\ intact (@length (vec cqF)) s /\ mutable s = true) /\
  tri_report (triangulate notched) = Some (
    [[(4, 0); (4, 4); (2, 1)]; [(0, 0); (4, 0); (2, 1)]; [(2, 1); (1, 4); (0, 4)]; [(2, 1); (0, 4); (1, 2)]; [(0, 0); (2, 1); (1, 2)]]%Q,
    [(1, (0, 0)%Z); (0, (1, 0)%Z); (3, (2, 0)%Z); (2, (0, 1)%Z); (4, (2, 1)%Z); (5, (3, 1)%Z); (6, (4, 2)%Z)]).
Proof. split; [exact (C33_triangulate cqF notched notched_proper)|]. vm_compute. reflexivity. Qed.
