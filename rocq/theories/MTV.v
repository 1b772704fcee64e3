(** Model of flatsurf/geometry/thurston_veech.py: surfaces from the multiplicities of multitwists.

    Squares are numbered from 0. The classes and functions from surface_dynamics and SageMath are parameters:
    [perm_dense_cycles] (the labels of the cycles of a permutation, and their lengths), the largest root of the characteristic
    polynomial of a matrix, and the echelon basis of the right kernel. Number fields (131-137) are not modelled: all numbers are
    elements of one field. Matrices are functions of their indices. *)
From Coq Require Import List Bool ZArith Arith.
From Verif Require Import OField MBase MDict MEuclid MPoly MMut.
Import ListNotations.
Local Open Scope M_scope.

(** 78-89: the attributes [_origami] (right, up), [_hcycles], [_num_hcyls], [_vcycles], [_num_vcyls] *)
Record thurston_veech := TV { tv_r : list nat; tv_u : list nat; tv_h : list nat; tv_nh : nat; tv_v : list nat; tv_nv : nat }.
Definition make_tv (dense_cycles : list nat -> list nat * list nat) (r u : list nat) : thurston_veech :=
  let '(h, hsizes) := dense_cycles r in
  let '(v, vsizes) := dense_cycles u in
  TV r u h (length hsizes) v (length vsizes).
(** 86-88 and 103-104: the entry [i], [j] of [cylinder_intersection_matrix] *)
Definition cylinder_intersection (t : thurston_veech) (i j : nat) : nat :=
  length (filter (fun k => (nth k (tv_h t) 0 =? i) && (nth k (tv_v t) 0 =? j)) (seq 0 (length (tv_r t)))).

Section M.
Context {K : OField}.
Local Open Scope F_scope.
Notation surf := (@surf (polygon K)).
Notation nv := (@length (vec K)).
(** integers as elements of the field *)
Fixpoint fnat (n : nat) : K := match n with O => 0 | S n => fnat n + 1 end.
Fixpoint sumn (n : nat) (f : nat -> K) : K := match n with O => 0 | S n => sumn n f + f n end.
(** the product of matrices; [n] is the number of columns of the first one *)
Definition mat_prod (n : nat) (A B : nat -> nat -> K) (i j : nat) : K := sumn n (fun k => A i k * B k j).
(** [F - pf] *)
Definition mat_sub_scalar (A : nat -> nat -> K) (c : K) (i j : nat) : K := if (i =? j)%nat then A i j - c else A i j.
(** the product of a matrix with [m] rows and a vector *)
Definition mat_vec (m n : nat) (A : nat -> nat -> K) (x : list K) : list K := map (fun i => sumn n (fun j => A i j * nth j x 0)) (seq 0 m).

Fixpoint add_polygons (l : list (polygon K)) : M surf unit :=
  match l with [] => mret tt | p :: l => add_polygon nv p None ;;; add_polygons l end.
(** 165-169 *)
Fixpoint rectangles (t : thurston_veech) (h v : list K) (squares : list nat) : res (list (polygon K)) :=
  match squares with
  | [] => Ok []
  | i :: squares =>
    let hi := nth (nth i (tv_h t) 0%nat) h 0 in
    let vi := nth (nth i (tv_v t) 0%nat) v 0 in
    (p <- Polygon_edges [(vi, 0); (0, hi); (- vi, 0); (0, - hi)] ;; l <- rectangles t h v squares ;; Ok (p :: l))%res
  end.
Variable largest_root : nat -> (nat -> nat -> K) -> res K.
Variable kernel : nat -> (nat -> nat -> K) -> list (list K).
(** 117-124: the matrices H, V and F *)
Definition tv_H (t : thurston_veech) (vmult : list K) (i j : nat) : K := fnat (cylinder_intersection t i j) * nth j vmult 0.
Definition tv_V (t : thurston_veech) (hmult : list K) (j i : nat) : K := fnat (cylinder_intersection t i j) * nth i hmult 0.
Definition tv_size (t : thurston_veech) : nat := if (tv_nh t <? tv_nv t)%nat then tv_nh t else tv_nv t.
Definition tv_F (t : thurston_veech) (hmult vmult : list K) : nat -> nat -> K :=
  if (tv_nh t <? tv_nv t)%nat then mat_prod (tv_nv t) (tv_H t vmult) (tv_V t hmult)
  else mat_prod (tv_nh t) (tv_V t hmult) (tv_H t vmult).
(** 106-182 [__call__]; the state is the new surface. The assertions in 126, 143 and 152 hold since kernels have the number of
    columns of the matrix. *)
Definition tv_call (t : thurston_veech) (hmult vmult : list K) : M surf unit :=
  if negb (length hmult =? tv_nh t)%nat || negb (length vmult =? tv_nv t)%nat then mraise ValueError else
  let F := tv_F t hmult vmult in
  let! pf := mlift (largest_root (tv_size t) F) in
  match kernel (tv_size t) (mat_sub_scalar F pf) with
  | [x] =>
    if negb (length x =? tv_size t)%nat then mraise AssertionError else
    if negb (forallb (fun a => 0 <? a) x) then mraise AssertionError else
    let '(hcirc, vcirc, c, d) :=
      if (tv_nh t <? tv_nv t)%nat then (x, mat_vec (tv_nv t) (tv_nh t) (tv_V t hmult) x, 1, pf)
      else (mat_vec (tv_nh t) (tv_nv t) (tv_H t vmult) x, x, pf, 1) in
    if (c =? 0) || (d =? 0) then mraise ZeroDivisionError else
    let h := map (fun i => nth i hcirc 0 * nth i hmult 0 / c) (seq 0 (tv_nh t)) in
    let v := map (fun i => nth i vcirc 0 * nth i vmult 0 / d) (seq 0 (tv_nv t)) in
    let! P := mlift (rectangles t h v (seq 0 (length (tv_r t)))) in
    add_polygons P ;;;
    mfor (seq 0 (length (tv_r t))) (fun i =>
      glue nv (Z.of_nat i, 1%Z) (Z.of_nat (nth i (tv_r t) 0%nat), 3%Z) ;;;
      glue nv (Z.of_nat i, 0%Z) (Z.of_nat (nth i (tv_u t) 0%nat), 2%Z)) ;;;
    set_immutable nv
  | _ => mraise AssertionError
  end.
End M.
