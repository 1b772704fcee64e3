(** Specification of covers. *)
From Coq Require Import List Bool ZArith Arith Permutation.
From Verif Require Import MBase MDict MMut SMut.

(** lists of the images of 0, ..., d - 1 under permutations *)
Definition permutations (d : nat) (data : dict hedge (list nat)) := forall x p, dget x data = Some p -> Permutation p (seq 0 d).
(** crossing [x], which is glued to [y], leads from sheet [i] to sheet [j]: the permutation for [x] maps [i] to [j], the
    one for [y] maps [j] to [i]; without permutations the sheet does not change *)
Definition moves (data : dict hedge (list nat)) (x y : hedge) (i j : nat) : Prop :=
  match dget x data, dget y data with
  | Some p, _ => nth_error p i = Some j
  | None, Some q => nth_error q j = Some i
  | None, None => i = j
  end.

Section S.
Context {P : Type} (nv : P -> nat).
Notation surf := (@surf P).
Implicit Types s c : surf.

(** permutations given for two edges that are glued are inverse to each other *)
Definition consistent s (data : dict hedge (list nat)) := forall x y p q i j, glued nv s x y ->
  dget x data = Some p -> dget y data = Some q -> nth_error p i = Some j -> nth_error q j = Some i.

(** [c] is the cover of degree [d] of [s]: over the polygon [l] there are the polygons [sheet l i] for i < d *)
Record covering s c d data (sheet : label -> nat -> label) : Prop := {
  cv_polygon : forall l i, is_label s l -> i < d -> get_polygon c (sheet l i) = get_polygon s l;
  cv_injective : forall l l' i i', is_label s l -> is_label s l' -> i < d -> i' < d -> sheet l i = sheet l' i' -> l = l' /\ i = i';
  cv_onto : forall k, is_label c k -> exists l i, is_label s l /\ i < d /\ k = sheet l i;
  cv_glued : forall x y i, glued nv s x y -> i < d ->
    exists j, j < d /\ moves data x y i j /\ glued nv c (sheet (fst x) i, snd x) (sheet (fst y) j, snd y) }.
End S.
