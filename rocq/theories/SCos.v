(** Specification vocabulary for Chebyshev polynomials and minimal polynomials of 2 cos(pi/n). *)
From Coq Require Import List Bool ZArith Arith Ring_theory InitialRing.
From Verif Require Import MBase MCos.
Import ListNotations.

Section S.
Context {R : Type} (r0 r1 : R) (radd rmul : R -> R -> R) (ropp : R -> R).

Fixpoint pow (x : R) (n : nat) : R := match n with O => r1 | S n => rmul x (pow x n) end.
(** the value of a polynomial with integer coefficients *)
Definition of_Z : Z -> R := gen_phiZ r0 r1 radd rmul ropp.
Fixpoint value (p : list Z) (x : R) : R := match p with nil => r0 | a :: p => radd (of_Z a) (rmul x (value p x)) end.
(** there are no zero divisors *)
Definition no_zero_divisors : Prop := r1 <> r0 /\ forall x y, rmul x y = r0 -> x = r0 \/ y = r0.
(** powers of the rotation by the angle with cosine [c] and sine [s] *)
Fixpoint rotation (c s : R) (n : nat) : R * R :=
  match n with
  | O => (r1, r0)
  | S n => let '(cn, sn) := rotation c s n in (radd (rmul c cn) (ropp (rmul s sn)), radd (rmul s cn) (rmul c sn))
  end.
End S.

(** prime numbers *)
Definition is_prime (p : nat) : Prop := (2 <= p)%nat /\ forall a b, p = (a * b)%nat -> a = 1%nat \/ b = 1%nat.
(** [facs] lists the prime factors of [n] in increasing order with their multiplicities *)
Record factorization (n : nat) (facs : list (nat * nat)) : Prop := {
  fa_prime : forall p a, In (p, a) facs -> is_prime p /\ (1 <= a)%nat;
  fa_sorted : forall i j p a q b, (i < j)%nat -> nth_error facs i = Some (p, a) -> nth_error facs j = Some (q, b) -> (p < q)%nat;
  fa_product : n = fold_right (fun pa m => (fst pa ^ snd pa * m)%nat) 1%nat facs }.

Section P.
Context {R : Type} (r0 r1 : R) (radd rmul : R -> R -> R) (ropp : R -> R).
(** [z] is a root of unity of order [2 n]: its [n]-th power is -1 and this is not the case for [n / q] for any odd prime number [q] *)
Definition primitive_root (n : nat) (z : R) : Prop :=
  pow r1 rmul z n = ropp r1 /\ forall q m, is_prime q -> q <> 2%nat -> n = (q * m)%nat -> pow r1 rmul z m <> ropp r1.
End P.

(** the degree is [d] and the leading coefficient is 1 *)
Definition monic_of_degree (d : nat) (p : list Z) : Prop := nth d p 0%Z = 1%Z /\ forall i, (d < i)%nat -> nth i p 0%Z = 0%Z.
(** Euler's totient function by its product formula *)
Definition totient_product (facs : list (nat * nat)) : nat := fold_right (fun pa m => ((fst pa - 1) * fst pa ^ (snd pa - 1) * m)%nat) 1%nat facs.

(** [z] is a root of unity of order [n] *)
Definition has_order {R : Type} (r1 : R) (rmul : R -> R -> R) (z : R) (n : nat) : Prop := pow r1 rmul z n = r1 /\ forall m, (0 < m < n)%nat -> pow r1 rmul z m <> r1.
