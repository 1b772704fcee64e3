(** Specification of cohomology classes: additive functionals on the homology. *)
From Coq Require Import List Bool ZArith Arith.
From Verif Require Import MBase MDict SHomSpace.
Import ListNotations.
Section S.
Context {V : Type}.
Variable vadd : V -> V -> V.
Definition additive (n : nat) (phi : list Z -> V) : Prop := forall u v, length u = n -> length v = n -> phi (vsum Z.add u v) = vadd (phi u) (phi v).
(** the i-th generator of the homology *)
Definition generator (n i : nat) : list Z := basis_vec 0%Z 1%Z n i.
(** dictionaries: no key appears twice *)
Definition dictionary (x : dict (list Z) V) : Prop := NoDup (map fst x).
(** the keys of the dictionary are generators *)
Definition generators_only (n : nat) (x : dict (list Z) V) : Prop := forall k, In k (map fst x) -> exists i, i < n /\ k = generator n i.
End S.
