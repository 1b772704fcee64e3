(** Specification of the J-invariant: the alternating form on pairs of functions on the plane. *)
From Coq Require Import List Arith.
From Verif Require Import OField MBase MEuclid MSim MPoly MJinv.
Import ListNotations.

Section S.
Context {K : OField}.
Local Open Scope F_scope.

Definition sum_to (n : nat) (f : nat -> K) : K := fold_left (fun t i => t + f i) (seq 0 n) 0.

(** the sum of [f ^ g] over all oriented sides of a polygon *)
Definition period_form (P : polygon K) (f g : vec K -> K) : K :=
  sum_to (length P) (fun i => f (vertex P i) * g (vertex P (S i)) - g (vertex P i) * f (vertex P (S i))).

(** the coordinates of a point of the plane: first those of x, then those of y *)
Definition xc (V : vspace K) (i : nat) (v : vec K) : K := vs_coord V i (fst v).
Definition yc (V : vspace K) (i : nat) (v : vec K) : K := vs_coord V i (snd v).
Definition coo (V : vspace K) (a : nat) : vec K -> K := if (a <? vs_dim V)%nat then xc V a else yc V (a - vs_dim V).

(** the entry of the J-invariant in the second exterior power of [V + V] *)
Definition J_entry (V : vspace K) (P : polygon K) (a b : nat) : K := period_form P (coo V a) (coo V b).

(** the matrix [A] describes the linear map [g] in the coordinates *)
Definition describes (V : vspace K) (A : nat -> nat -> K) (g : mat K) : Prop :=
  forall v a, (a < 2 * vs_dim V)%nat -> coo V a (mapply g v) = sum_to (2 * vs_dim V) (fun b => A a b * coo V b v).
End S.
