(** C39, C55: matrix groups *)
From Coq Require Import List Bool ZArith QArith Arith Lia.
From Verif Require Import OField MBase MSim MDict PDict MMatGroup SMatGroup PMatGroup PMatGroup2 TIET.
Import ListNotations.
Local Open Scope nat_scope.

Section T.
Variables (K : OField) (gens : list (mat K)).
Hypothesis Inv : forall g, In g gens -> mdet g <> f0.
Theorem C39_iter_elements n : exists ys wait, iter n gens = Ok (ys, wait) /\ NoDup ys /\ forall m, In m ys -> generated gens m.
Proof. destruct (iter_spec gens Inv n) as (st & E & _ & [A B O C D] & _). eauto 6. Qed.
Theorem C39_iter_complete n ys : iter n gens = Ok (ys, nil) -> forall m, generated gens m <-> In m ys.
Proof.
  intros E m. split; [now apply (iter_complete gens Inv n)|]. destruct (C39_iter_elements n) as (ys' & w & E' & _ & G).
  rewrite E in E'. injection E' as <- <-. apply G.
Qed.
Theorem C39_iter_stops : finite_group gens <-> exists n ys, iter n gens = Ok (ys, nil).
Proof.
  split; [apply (iter_stops gens Inv)|]. intros (n & ys & E). exists ys. apply (iter_complete gens Inv n ys E).
Qed.
Theorem C39_is_abelian : is_abelian gens = true <-> forall x y, generated gens x -> generated gens y -> mmul x y = mmul y x.
Proof. now apply is_abelian_spec. Qed.
(** missing: the answer can be True for infinite groups, see below *)
Theorem C39_is_finite_partial gens_of : linear_solver gens_of -> finite_group gens -> is_finite gens_of gens = Ok true.
Proof. intros S F. now apply finite_is_finite. Qed.
End T.
(** the answer True: the group preserves a definite quadratic form *)
Theorem C39_is_finite_form (K : OField) (gens : list (mat K)) gens_of : linear_solver gens_of -> is_finite gens_of gens = Ok true ->
  2 <= length (filter (fun g => negb (is_scalar g)) gens) -> exists v, definite v /\ forall m, generated gens m -> preserves_form m v.
Proof. apply is_finite_form. Qed.
(** the two auxiliary functions *)
Theorem C39_invariant_forms (K : OField) (m : mat K) v : is_scalar m = false -> mdet m = f1 \/ mdet m = fopp f1 ->
  exists rows, form_rows m = Ok rows /\ (preserves_form m v <-> forall row, In row rows -> dot3 row v = f0).
Proof. apply form_rows_spec. Qed.
Theorem C39_contains_definite (K : OField) (V : list (vec3 (K := K))) : independent V -> length V <= 3 ->
  exists b, contains_definite_form V = Ok b /\ (b = true <-> exists v, spanned V v /\ definite v).
Proof. apply definite_spec. Qed.
Print Assumptions C39_iter_elements.
Print Assumptions C39_iter_complete.
Print Assumptions C39_iter_stops.
Print Assumptions C39_is_abelian.
Print Assumptions C39_is_finite_partial.
Print Assumptions C39_is_finite_form.
Print Assumptions C39_invariant_forms.
Print Assumptions C39_contains_definite.

(** a single generator of infinite order: the answer is True, over every field *)
Theorem C39_is_finite_refuted (K : OField) gens_of : exists gens : list (mat K), (forall g, In g gens -> mdet g <> f0) /\
  is_finite gens_of gens = Ok true /\ ~ finite_group gens.
Proof.
  exists [fib]. split; [|split; [|apply fib_infinite]].
  - intros g [<-|[]]. apply fib_det.
  - apply fib_is_finite.
Qed.
(** the inverse of the only generator is never reached *)
Theorem C55_refuted (K : OField) : exists (gens : list (mat K)) m, (forall g, In g gens -> mdet g <> f0) /\ generated gens m /\
  forall n ys w, iter n gens = Ok (ys, w) -> ~ In m ys.
Proof.
  exists [shear1], (minv shear1). assert (I : forall g, In g [@shear1 K] -> mdet g <> f0) by (intros g [<-|[]]; apply shear_det).
  split; auto. split; [apply gen_inv; auto; now left|]. intros n ys w. apply shear_iter.
Qed.
Print Assumptions C39_is_finite_refuted.
Print Assumptions C55_refuted.

(** ** examples: the group of order eight of the square, two rotations of infinite order *)
Definition qm (a b c d : Q) : mat cqF := Mat (Q2cq a : car cqF) (Q2cq b) (Q2cq c) (Q2cq d).
Definition dihedral := [qm 0 (-1) 1 0; qm 1 0 0 (-1)].
Example C39_ex_solver : linear_solver (kernel (K := cqF)).
Proof. apply kernel_solver. Qed.
Example C39_ex_inv : forall g, In g dihedral -> mdet g <> f0.
Proof. intros g [<-|[<-|[]]] E; vm_compute in E; discriminate. Qed.
Definition count (r : res (list (mat cqF) * list (mat cqF))) : nat * nat := match r with Ok (ys, w) => (length ys, length w) | Err _ => (99, 99) end.
Definition is_true (r : res bool) : bool := match r with Ok b => b | Err _ => false end.
Example C39_ex_iter : map (fun n => count (iter n dihedral)) [0; 1; 2; 3; 9] = [(1, 2); (5, 4); (6, 3); (8, 4); (8, 0)].
Proof. vm_compute. reflexivity. Qed.
Example C39_ex_finite : finite_group dihedral /\ is_true (is_finite kernel dihedral) = true /\ is_abelian dihedral = false.
Proof.
  split; [|vm_compute; auto]. apply (C39_iter_stops cqF dihedral C39_ex_inv). exists 9.
  destruct (C39_iter_elements cqF dihedral C39_ex_inv 9) as (ys & w & E & _). exists ys. rewrite E.
  assert (C : count (iter 9 dihedral) = (8, 0)) by (vm_compute; reflexivity). rewrite E in C. cbn in C. destruct w; [reflexivity|discriminate].
Qed.
Example C39_ex_infinite : is_true (is_finite kernel [qm 1 1 0 1]) = false /\ is_true (is_finite kernel [qm 0 1 1 0; qm 1 (-1) 1 0]) = true /\
  is_true (is_finite kernel [qm 0 (-1) 1 0; qm 0 (-2) (1#2) 0]) = false.
Proof. vm_compute. auto. Qed.
