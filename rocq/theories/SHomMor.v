(** Specification: the holonomy of a chain of edges. *)
From Coq Require Import List Bool ZArith Arith.
From Verif Require Import OField MBase MEuclid MSim MPoly MSurf MDict MComb.
Import ListNotations.

Section S.
Context {K : OField} {L R : Type}.
Variable S : surface K L.
(** the edge [e] of the polygon [l] as a vector *)
Definition edge_vec (d : L * nat) : vec K := match s_poly S (fst d) with Ok P => edge P (snd d) | Err _ => vzero end.
(** [inj] maps the coefficients into the field *)
Variable inj : R -> K.
(** the sum over the chain, see the example in homology.py 352-356 *)
Fixpoint holonomy (c : dict (L * nat) R) : vec K :=
  match c with nil => vzero | (d, r) :: c => vadd (vscale (inj r) (edge_vec d)) (holonomy c) end.
End S.
