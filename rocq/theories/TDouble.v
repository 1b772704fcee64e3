(** Theorems C47: the double of a polygon and the unfolding of a billiard table. *)
From Coq Require Import List Bool ZArith Arith Lia Ring Field QArith.
From Verif Require Import OField FMicromega PField MBase MDict PDict MEuclid SEuclid PEuclid MSim SSim PSim MPoly PPoly MMut SMut MSurf SSurf SPoint PPoint PFam2
  TEuclid TMut TPoly2 MDouble PDouble.
Import ListNotations.
Open Scope nat_scope.

(** an isometry that reverses the orientation *)
Definition map_reflection {K} (A : vec K -> vec K) := map_isometry A /\ forall p q r, flt f0 (orient p q r) -> flt (orient (A p) (A q) (A r)) f0.
(** the polygons of the surface [c] are [P] and its mirror image [Q]: there is a reflection [A] that maps the edge [i] of
    [P] to the edge of [Q] to which it is glued. The surface has no boundary and its gluings are isometries that preserve
    the orientation. *)
Record is_double {K : OField} (P : polygon K) (c : @surf (polygon K)) : Prop := {
  id_first : get_polygon c 0%Z = Ok P;
  id_labels : forall l, is_label c l <-> l = 0%Z \/ l = 1%Z;
  id_mirror : exists Q A, get_polygon c 1%Z = Ok Q /\ length Q = length P /\ map_reflection A /\
    forall i, i < length P -> exists j, j < length P /\
      glued (@length (vec K)) c (0%Z, Z.of_nat i) (1%Z, Z.of_nat j) /\ vertex Q j = A (vertex P (S i)) /\ vertex Q (S j) = A (vertex P i);
  id_surface : good_surface (is_label c) (mut_surface c) (fun F => map_isometry F /\ map_orientation_preserving F);
  id_intact : intact (@length (vec K)) c /\ mutable c = false }.

Section K.
Context {K : OField}.
Add Field KF : (of_ft K).
Lemma reflect_reflection (o : vec K) : map_reflection (reflect o).
Proof.
  split.
  - intros p q. unfold reflect, dist2, dot, vsub. cbn [fst snd]. ring.
  - intros p q r. assert (E : orient (reflect o p) (reflect o q) (reflect o r) = fopp (orient p q r)) by (unfold orient, ccw, reflect, vsub; cbn [fst snd]; ring).
    rewrite E. intros H. flra.
Qed.
Lemma doubled_is_double (P : polygon K) c : nondeg P -> simple_polygon P -> flt f0 (area P) -> doubled P (mirrored P) c -> is_double P c.
Proof.
  intros ND SP AP D. pose proof (doubled_good P c ND SP AP D) as G. destruct D as [IN IM P0 P1 LB GL]. constructor; auto.
  exists (mirrored P), (reflect (vertex P 0)). split; auto. split; [apply mirrored_length|]. split; [apply reflect_reflection|].
  intros i Hi. exists (length P - 1 - i). split; [lia|]. split; [now apply GL|]. rewrite !mirrored_vertex by lia. split; f_equal; f_equal; lia.
Qed.
End K.

(** for all polygons that the constructor of polygons accepts *)
Theorem C47_polygon_double (K : OField) (P : polygon K) : (3 <= length P) -> (forall e, edge P e <> vzero) -> simple_polygon P -> flt f0 (area P) ->
  exists c, polygon_double P empty = (c, Ok tt) /\ is_double P c.
Proof.
  intros L ND SP AP. destruct (double_ok P (conj L ND) SP AP) as (c & E & D). exists c. split; auto. apply doubled_is_double; auto. now split.
Qed.
Print Assumptions C47_polygon_double.
(** the unfolding of a convex table is the same surface *)
Theorem C47_billiard_convex (K : OField) (P : polygon K) : (3 <= length P) -> (forall e, edge P e <> vzero) -> simple_polygon P -> flt f0 (area P) ->
  exists c, billiard_convex P empty = (c, Ok tt) /\ is_double P c.
Proof.
  intros L ND SP AP. destruct (billiard_ok P (conj L ND) SP AP) as (c & E & D). exists c. split; auto. apply doubled_is_double; auto. now split.
Qed.
Print Assumptions C47_billiard_convex.

(** ** Examples *)
Definition ex_table : polygon cqF := [qv 1 1; qv 4 1; qv 3 3; qv 1 2].
Lemma ex_table_ok : polygon_check ex_table = Ok tt.
Proof. vm_compute. reflexivity. Qed.
Example C47_ex : exists c, polygon_double ex_table empty = (c, Ok tt) /\ is_double ex_table c.
Proof.
  destruct (proj1 (PSimple.polygon_check_spec ex_table) ex_table_ok) as [[A B] [C D]]. now apply C47_polygon_double.
Qed.
Example C47_ex_mirror : match mirror ex_table with
  | Ok Q => forallb (fun pq => veqb (fst pq) (snd pq)) (combine Q [qv 0 0; qv 0 (-1); qv 2 (-2); qv 3 0]) | Err _ => false end = true.
Proof. vm_compute. reflexivity. Qed.
