(** Specification vocabulary for step billiards. *)
From Coq Require Import List Bool ZArith Arith.
From Verif Require Import OField MBase MEuclid MSim SSim MPoly MMut SMut MSurf SSurf SPoint PFam2 SGen.
Import ListNotations.

Section S.
Context {K : OField}.
Local Open Scope F_scope.
Notation nv := (@length (vec K) : polygon K -> nat).
Definition total (l : list K) : K := fold_right fadd 0 l.
(** the staircase: the [i]-th step lies between x = w_0 + ... + w_(i-1) and x = w_0 + ... + w_i, its height is h_i + h_(i+1) + ... *)
Definition step_x (w : list K) (i : nat) : K := total (firstn i w).
Definition step_y (h : list K) (i : nat) : K := total (skipn i h).
(** the [i]-th step as a polygon; there is a marked point on its right side where the next step ends *)
Definition step (w h : list K) (i : nat) : polygon K :=
  let x := step_x w i in let x' := step_x w (S i) in let y := step_y h i in let y' := step_y h (S i) in
  if (S i =? length h)%nat then [(x, 0); (x', 0); (x', y); (x, y)] else [(x, 0); (x', 0); (x', y'); (x', y); (x, y)].
(** reflection at the horizontal axis *)
Definition flip (p : vec K) : vec K := (fst p, - snd p).
(** sum of the areas w_i (h_i + h_(i+1) + ...) of the steps *)
Fixpoint stairs_area (w h : list K) : K := match w, h with a :: w', b :: h' => a * total h + stairs_area w' h' | _, _ => 0 end.

(** the unfolding of the staircase: the surface consists of the steps (labels 0, ..., n-1) and of their mirror images (labels n, ..., 2n-1).
    Every edge is glued either to an edge of the same half that is the same segment of the plane, or to its mirror image. *)
Record unfolded_stairs (w h : list K) (c : @surf (polygon K)) : Prop := {
  us_immutable : mutable c = false;
  us_labels : forall l, is_label c l <-> (0 <= l < 2 * Z.of_nat (length h))%Z;
  us_step : forall i, (i < length h)%nat -> get_polygon c (Z.of_nat i) = Ok (step w h i);
  us_mirror : forall i, (i < length h)%nat -> get_polygon c (Z.of_nat (length h + i)) = Ok (map flip (rev (step w h i)));
  us_surface : good_surface (is_label c) (mut_surface c) map_half_translation;
  us_linked : forall l, is_label c l -> linked nv c 0%Z l;
  us_edges : forall l e P, get_polygon c l = Ok P -> (e < length P)%nat -> exists l' e' P',
    glued nv c (l, Z.of_nat e) (l', Z.of_nat e') /\ get_polygon c l' = Ok P' /\
    ((vertex P' (S e') = vertex P e /\ vertex P' e' = vertex P (S e) /\ ((l < Z.of_nat (length h)) <-> (l' < Z.of_nat (length h)))%Z) \/
     (vertex P' (S e') = flip (vertex P e) /\ vertex P' e' = flip (vertex P (S e)) /\ (l' = l + Z.of_nat (length h) \/ l = l' + Z.of_nat (length h))%Z));
  us_area : total_area c (2 * length h) = 2 * stairs_area w h }.
Definition all_positive (l : list K) := forall x, In x l -> 0 < x.
Definition all_negative (l : list K) := forall x, In x l -> x < 0.
End S.
