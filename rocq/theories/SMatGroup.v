(** Specification: generated groups, quadratic forms. *)
From Coq Require Import List Bool Arith ZArith.
From Verif Require Import OField MBase MSim MMatGroup.
Import ListNotations.

Section S.
Context {K : OField}.
Local Open Scope F_scope.
Record subgroup (H : mat K -> Prop) : Prop := {
  sg_one : H mone;
  sg_mul : forall x y, H x -> H y -> H (mmul x y);
  sg_inv : forall x y, H x -> mmul x y = mone -> H y }.
(** the smallest group that contains the matrices *)
Definition generated (gens : list (mat K)) (m : mat K) : Prop := forall H, subgroup H -> (forall g, In g gens -> H g) -> H m.
Definition finite_group (gens : list (mat K)) : Prop := exists l, forall m, generated gens m -> In m l.

(** linear algebra in dimension three *)
Fixpoint combination (rs : list K) (vs : list (vec3 (K := K))) : vec3 :=
  match rs, vs with
  | r :: rs, (a, c, b) :: vs => let '(a', c', b') := combination rs vs in (r * a + a', r * c + c', r * b + b')
  | _, _ => (0, 0, 0)
  end.
Definition spanned (vs : list vec3) (v : vec3) : Prop := exists rs, length rs = length vs /\ v = combination rs vs.
Definition independent (vs : list (vec3 (K := K))) : Prop := forall rs, length rs = length vs -> combination rs vs = (0, 0, 0) -> forall r, In r rs -> r = 0.
(** [gens_of] computes a basis of the solutions of a system of linear equations *)
Definition linear_solver (gens_of : list (vec3 (K := K)) -> list vec3) : Prop := forall rows,
  independent (gens_of rows) /\ (length (gens_of rows) <= 3)%nat /\
  forall v, spanned (gens_of rows) v <-> forall row, In row rows -> dot3 row v = 0.

Definition value (v : vec3) (x y : K) : K := let '(a, c, b) := v in a * x * x + (b + b) * x * y + c * y * y.
(** the form is positive or negative on all vectors that are not zero *)
Definition definite (v : vec3) : Prop :=
  (forall x y, ~ (x = 0 /\ y = 0) -> 0 < value v x y) \/ (forall x y, ~ (x = 0 /\ y = 0) -> value v x y < 0).
Definition preserves_form (m : mat K) (v : vec3) : Prop :=
  forall x y, value v (m00 m * x + m01 m * y) (m10 m * x + m11 m * y) = value v x y.
End S.
