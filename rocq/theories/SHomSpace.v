(** Specification of homomorphisms of homology groups. *)
From Coq Require Import List Bool ZArith Arith.
From Verif Require Import MBase.
Import ListNotations.

Section S.
Context {R : Type}.
Variables (rO rI : R) (radd rmul : R -> R -> R).
(** linear maps between modules of vectors *)
Fixpoint vsum (u v : list R) : list R := match u, v with x :: u, y :: v => radd x y :: vsum u v | _, _ => [] end.
Definition vtimes (x : R) (v : list R) : list R := map (rmul x) v.
Record linear_map (n m : nat) (T : list R -> list R) : Prop := {
  lm_length : forall v, length v = n -> length (T v) = m;
  lm_add : forall u v, length u = n -> length v = n -> T (vsum u v) = vsum (T u) (T v);
  lm_scale : forall x v, length v = n -> T (vtimes x v) = vtimes x (T v) }.
Fixpoint dot (u v : list R) : R := match u, v with x :: u, y :: v => radd (rmul x y) (dot u v) | _, _ => rO end.
(** the i-th vector of the standard basis *)
Fixpoint basis_vec (n i : nat) : list R := match n with O => [] | S n => match i with O => rI :: repeat rO n | S i => rO :: basis_vec n i end end.
(** homology groups: classes are determined by their coefficients, and all coefficients are possible *)
Context {G C : Type}.
Record homology_groups (rank : G -> nat) (coeffs : G -> C -> res (list R)) (lift : G -> list R -> C) : Prop := {
  hg_lift : forall g v, length v = rank g -> coeffs g (lift g v) = Ok v;
  hg_rank : forall g c v, coeffs g c = Ok v -> length v = rank g }.
(** the homomorphism is [T] in terms of coefficients *)
Definition acts_as (coeffs : G -> C -> res (list R)) (call : C -> res C) (d c : G) (T : list R -> list R) : Prop :=
  forall x v, coeffs d x = Ok v -> exists y, call x = Ok y /\ coeffs c y = Ok (T v).
End S.
