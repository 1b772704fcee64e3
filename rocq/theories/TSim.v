(** Theorems C11: similarities. *)
From Coq Require Import Bool List ZArith QArith.
From Verif Require Import OField MBase MEuclid MSim SEuclid SSim PEuclid PSim TEuclid.

(** group laws for all elements that the constructor admits; composition is composition of maps *)
Theorem C11_group (K : OField) (f g h : sim K) :
  sim_ok f -> sim_ok g ->
  sim_ok (sim_mul f g) /\ sim_ok (sim_inv f) /\ sim_ok (@sim_one K) /\
  sim_mul f (sim_mul g h) = sim_mul (sim_mul f g) h /\
  sim_mul sim_one f = f /\ sim_mul f sim_one = f /\
  sim_mul (sim_inv f) f = sim_one /\ sim_mul f (sim_inv f) = sim_one /\
  sim_div f g = sim_mul f (sim_inv g).
Proof.
  intros Hf Hg. repeat split.
  - now apply sim_ok_mul.
  - now apply sim_ok_inv.
  - apply sim_ok_one.
  - apply sim_mul_assoc.
  - apply sim_mul_1_l.
  - apply sim_mul_1_r.
  - now apply sim_inv_l.
  - now apply sim_inv_r.
  - now apply sim_div_mul.
Qed.
Print Assumptions C11_group.

Theorem C11_action (K : OField) (f g : sim K) (p : vec K) :
  sim_apply (sim_mul f g) p = sim_apply f (sim_apply g p) /\
  sim_apply sim_one p = p /\
  (sim_ok f -> sim_apply (sim_inv f) (sim_apply f p) = p) /\
  (sim_ok f -> sim_apply f (sim_apply (sim_inv f) p) = p) /\
  (sim_ok g -> sim_apply (sim_div f g) (sim_apply g p) = sim_apply f p).
Proof.
  repeat split; intros.
  - apply sim_mul_apply.
  - apply sim_one_apply.
  - now apply sim_inv_apply.
  - now apply sim_apply_inv.
  - rewrite sim_div_mul, sim_mul_apply, sim_inv_apply by auto. reflexivity.
Qed.
Print Assumptions C11_action.

(** equality of elements is equality of maps: [==] decides whether two similarities are the same map *)
Theorem C11_equality (K : OField) (f g : sim K) : sim_ok f ->
  (sim_eqb f g = true <-> forall p, sim_apply f p = sim_apply g p).
Proof.
  intros H. rewrite sim_eqb_eq. split.
  - now intros ->.
  - now apply sim_faithful.
Qed.
Print Assumptions C11_equality.

(** every element scales all distances by the same factor; [det] is the factor of oriented areas;
    the derivative is the linear part and is multiplicative *)
Theorem C11_derivative (K : OField) (f g : sim K) :
  (forall p q, vsub (sim_apply f p) (sim_apply f q) = mapply (sim_derivative f) (vsub p q)) /\
  (sim_ok f -> exists c, map_similarity (sim_apply f) c) /\
  (forall p q r, orient (sim_apply f p) (sim_apply f q) (sim_apply f r) = fmul (sim_det f) (orient p q r)) /\
  mdet (sim_derivative f) = sim_det f /\
  sim_det (sim_mul f g) = fmul (sim_det f) (sim_det g) /\
  sim_derivative (sim_mul f g) = mmul (sim_derivative f) (sim_derivative g).
Proof.
  repeat split; intros.
  - apply sim_derivative_spec.
  - eexists. now apply sim_is_similarity.
  - apply sim_orient.
  - apply sim_derivative_det.
  - apply sim_det_mul.
  - apply sim_derivative_mul.
Qed.
Print Assumptions C11_derivative.

(** the predicates say what they should about the map of the plane *)
Theorem C11_predicates (K : OField) (f : sim K) : sim_ok f ->
  (sim_is_translation f = true <-> map_translation (sim_apply f)) /\
  (sim_is_half_translation f = true <-> map_half_translation (sim_apply f)) /\
  (sim_is_isometry f = true <-> map_isometry (sim_apply f)) /\
  (sim_is_orientable f = true <-> map_orientation_preserving (sim_apply f)) /\
  (sim_is_rotation f = true <-> map_rotation (sim_apply f)).
Proof.
  intros H. exact (conj (sim_is_translation_spec f H) (conj (sim_is_half_translation_spec f H)
    (conj (sim_is_isometry_spec f) (conj (sim_is_orientable_spec f H) (sim_is_rotation_spec f H))))).
Qed.
Print Assumptions C11_predicates.

(** closure of the predicates under the group operations *)
Theorem C11_closure (K : OField) (f g : sim K) : sim_ok f -> sim_ok g ->
  (sim_is_translation f = true -> sim_is_translation g = true ->
     sim_is_translation (sim_mul f g) = true /\ sim_is_translation (sim_inv f) = true) /\
  (sim_is_half_translation f = true -> sim_is_half_translation g = true ->
     sim_is_half_translation (sim_mul f g) = true /\ sim_is_half_translation (sim_inv f) = true) /\
  (sim_is_isometry f = true -> sim_is_isometry g = true ->
     sim_is_isometry (sim_mul f g) = true /\ sim_is_isometry (sim_inv f) = true) /\
  (sim_is_orientable f = true -> sim_is_orientable g = true ->
     sim_is_orientable (sim_mul f g) = true /\ sim_is_orientable (sim_inv f) = true).
Proof. exact (sim_closure f g). Qed.
Print Assumptions C11_closure.

(** a matrix is accepted iff it is a similarity matrix, and the element has this derivative and fixes the origin *)
Theorem C11_from_matrix (K : OField) (m : mat K) :
  (forall f, sim_of_matrix m = Ok f -> sim_ok f /\ sim_derivative f = m /\ sim_apply f vzero = vzero) /\
  ((exists f, sim_ok f /\ sim_derivative f = m) -> exists g, sim_of_matrix m = Ok g).
Proof.
  split.
  - exact (sim_of_matrix_spec m).
  - intros [f [H <-]]. destruct (sim_of_matrix_complete f H) as [g [E _]]. now exists g.
Qed.
Print Assumptions C11_from_matrix.

(** [similarity_from_vectors] is the only rotation-dilation matrix mapping u to v *)
Theorem C11_from_vectors (K : OField) (u v : vec K) (m : mat K) : u <> vzero ->
  (m = similarity_from_vectors u v <-> m00 m = m11 m /\ m01 m = fopp (m10 m) /\ mapply m u = v).
Proof.
  intros H. destruct (similarity_from_vectors_spec u v H) as [A [B C]]. split.
  - intros ->. auto.
  - intros [D [E F]]. apply (rotation_matrix_unique m _ u); auto. congruence.
Qed.
Print Assumptions C11_from_vectors.

Definition qsim (a b s t : Q) (sign : bool) : sim cqF := Sim (Q2cq a) (Q2cq b) (Q2cq s) (Q2cq t) sign.

(** a reflection with scaling and a rotation by a pythagorean angle *)
Example C11_ex :
  sim_ok (qsim 1 2 3 4 false) /\ sim_ok (qsim (3#5) (4#5) 1 0 true) /\
  sim_eqb (sim_mul (qsim 1 2 3 4 false) (qsim (3#5) (4#5) 1 0 true)) (qsim (11#5) (2#5) 4 6 false) = true /\
  sim_is_isometry (qsim (3#5) (4#5) 1 0 true) = true /\ sim_is_translation (qsim (3#5) (4#5) 1 0 true) = false /\
  sim_is_half_translation (qsim (-1) 0 5 6 true) = true /\
  qv 1 2 <> vzero.
Proof. vm_compute. repeat split; try reflexivity; try discriminate; left; discriminate. Qed.
