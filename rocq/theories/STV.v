(** Specification of the Thurston-Veech construction. *)
From Coq Require Import List Bool ZArith Arith Relations.
From Verif Require Import OField MBase MEuclid MPoly MSurf.
Import ListNotations.

Definition at_ (p : list nat) (k : nat) : nat := nth k p 0.
(** a permutation of 0, ..., n - 1 *)
Definition permutes (n : nat) (p : list nat) : Prop := length p = n /\ (forall k, k < n -> at_ p k < n) /\ (forall j k, j < n -> k < n -> at_ p j = at_ p k -> j = k).
(** the labels 0, ..., m - 1 of the cycles *)
Definition cycle_labels (n : nat) (p labels : list nat) (m : nat) : Prop :=
  length labels = n /\ (forall k, k < n -> at_ labels k < m) /\ (forall i, i < m -> exists k, k < n /\ at_ labels k = i) /\
  (forall j k, j < n -> k < n -> (at_ labels j = at_ labels k <-> exists s, Nat.iter s (at_ p) j = k)).
Definition dense_ok (n : nat) (p : list nat) (o : list nat * list nat) : Prop := cycle_labels n p (fst o) (length (snd o)).
(** any two squares are connected by steps to the right and upwards *)
Definition transitive (n : nat) (r u : list nat) : Prop :=
  forall j k, j < n -> k < n -> clos_refl_sym_trans nat (fun a b => a < n /\ (b = at_ r a \/ b = at_ u a)) j k.
(** the number of steps to come back to [k] for the first time *)
Definition period (p : list nat) (k m : nat) : Prop := 0 < m /\ Nat.iter m (at_ p) k = k /\ forall i, 0 < i < m -> Nat.iter i (at_ p) k <> k.

Section S.
Context {K : OField}.
Local Open Scope F_scope.
(** the total length of [m] rectangles that are visited by [p] from [k] *)
Fixpoint total (p : list nat) (w : nat -> K) (k m : nat) : K := match m with O => 0 | S m => w k + total p w (at_ p k) m end.
Definition positive (n : nat) (f : nat -> K) : Prop := forall k, (k < n)%nat -> 0 < f k.
(** Sizes of rectangles such that there are multitwists: the matrix [[1, c], [0, 1]] moves the upper side of the horizontal cylinder
    of the square [k] by a multiple of its circumference, similarly [[1, 0], [d, 1]] for vertical cylinders. *)
Definition twists (n : nat) (p labels : list nat) (mult : list K) (size across : nat -> K) (c : K) : Prop :=
  (forall k, (k < n)%nat -> across (at_ p k) = across k) /\
  (forall k m, (k < n)%nat -> period p k m -> c * across k = nth (at_ labels k) mult 0 * total p size k m).
Record multitwists (n : nat) (r u hl vl : list nat) (hmult vmult : list K) (w h : nat -> K) (c d : K) : Prop := {
  mt_c : 0 < c; mt_d : 0 < d; mt_w : positive n w; mt_h : positive n h;
  mt_r : twists n r hl hmult w h c; mt_u : twists n u vl vmult h w d }.
(** linear algebra *)
Fixpoint dot_ (n : nat) (a x : nat -> K) : K := match n with O => 0 | S n => dot_ n a x + a n * x n end.
Definition eigen (n : nat) (A : nat -> nat -> K) (c : K) (x : nat -> K) : Prop := forall i, (i < n)%nat -> dot_ n (A i) x = c * x i.
Definition nonzero (n : nat) (x : nat -> K) : Prop := exists i, (i < n)%nat /\ x i <> 0.
Definition largest_eigenvalue (n : nat) (A : nat -> nat -> K) (c : K) : Prop :=
  (exists x, nonzero n x /\ eigen n A c x) /\ forall e x, nonzero n x -> eigen n A e x -> e <= c.
Definition row (x : list K) (i : nat) : K := nth i x 0.
(** the basis in echelon form of the kernel, if the kernel has dimension one: the first entry that is not zero is 1 *)
Definition line_kernel (n : nat) (A : nat -> nat -> K) (basis : list (list K)) : Prop :=
  (forall x, In x basis -> length x = n /\ nonzero n (row x) /\ eigen n A 0 (row x) /\
    exists i, (i < n)%nat /\ row x i = 1 /\ forall j, (j < i)%nat -> row x j = 0) /\
  (forall y, nonzero n y -> eigen n A 0 y -> (forall z, eigen n A 0 z -> exists s, forall i, (i < n)%nat -> z i = s * y i) -> exists x, basis = [x]).
(** The surface consists of rectangles 0, ..., n - 1 of width [w k] and height [h k]: to the right of the rectangle [k] is [right k],
    and on top of [k] is [up k]. *)
Record rectangles_glued (n : nat) (right up : nat -> nat) (w h : nat -> K) (S : surface K Z) : Prop := {
  rg_labels : forall l, (exists P, s_poly S l = Ok P) <-> exists k, (k < n)%nat /\ l = Z.of_nat k;
  rg_size : forall k, (k < n)%nat -> exists P, s_poly S (Z.of_nat k) = Ok P /\ edges P = [(w k, 0); (0, h k); (- w k, 0); (0, - h k)];
  rg_right : forall k, (k < n)%nat -> s_opp S (Z.of_nat k) 1%nat = Ok (Some (Z.of_nat (right k), 3%nat)) /\ s_opp S (Z.of_nat (right k)) 3%nat = Ok (Some (Z.of_nat k, 1%nat));
  rg_up : forall k, (k < n)%nat -> s_opp S (Z.of_nat k) 2%nat = Ok (Some (Z.of_nat (up k), 0%nat)) /\ s_opp S (Z.of_nat (up k)) 0%nat = Ok (Some (Z.of_nat k, 2%nat)) }.
End S.
