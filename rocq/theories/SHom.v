(** Specification for homology: chains, their sums, cycles. *)
From Coq Require Import List Bool ZArith Arith Ring_theory.
From Verif Require Import MBase MDict MComb SComb MHom.
Import ListNotations.

Section H.
Context {L : Type} `{EL : EqB L} {R : Type} `{ER : EqB R}.
Variables (rO rI : R) (radd rmul : R -> R -> R) (ropp : R -> R).
(** a commutative ring *)
Definition coeff_ring := ring_theory rO rI radd rmul (fun x y => radd x (ropp y)) ropp (@eq R).

(** a dictionary of coefficients that are not zero *)
Definition chain_ok {X : Type} (D : X -> Prop) (c : dict X R) : Prop :=
  NoDup (keys c) /\ forall x r, In (x, r) c -> D x /\ r <> rO.
Variable S : csurf L.
(** a chain of edges with boundary zero *)
Definition cycle (a : dict (L * nat) R) : Prop :=
  chain_ok (fun d => In d (simplices1 S)) a /\ boundary1 rO radd ropp S nil a = nil.
(** a chain of polygons *)
Definition faces (c : dict L R) : Prop := chain_ok (fun l => In l (c_labels S)) c.
(** how often the chain runs along the edge, counted with direction *)
Definition along (a : dict (L * nat) R) (d : L * nat) : R := radd (coef rO a d) (ropp (coef rO a (opp S d))).
Definition delta {X} `{EqB X} (x y : X) : R := if eqb x y then rI else rO.
(** the chains differ by a boundary *)
Definition homologous (a b : dict (L * nat) R) : Prop := exists c, faces c /\
  forall d, coef rO a d = radd (coef rO b d) (coef rO (boundary2 rO radd ropp S c) d).
End H.
