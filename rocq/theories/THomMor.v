(** C35: the action of linear maps on homology *)
From Coq Require Import List Bool ZArith QArith Arith Lia.
From Verif Require Import OField FMicromega MBase MEuclid TEuclid MSim SSim MPoly MSurf SSurf TSurf MDict PDict MComb SComb
  MHom SHom PHom PHom2 THom MHomMor SHomMor PHom3.
Import ListNotations.
Local Open Scope nat_scope.

(** [inj] maps coefficients, e.g. integers, into the field *)
Record additive (K : OField) {R : Type} (rO : R) (radd : R -> R -> R) (inj : R -> K) : Prop := {
  ad_zero : inj rO = f0; ad_add : forall x y, inj (radd x y) = fadd (inj x) (inj y) }.

Section T.
Variables (K : OField) (L : Type) (EL : EqB L) (R : Type) (ER : EqB R) (rO rI : R) (radd rmul : R -> R -> R) (ropp : R -> R).
Hypothesis Rth : coeff_ring rO rI radd rmul ropp.
Variable inj : R -> K.
Hypothesis Inj : additive K rO radd inj.
Variables (D : L -> Prop) (S : surface K L) (labels : list L).
Hypothesis V : valid D S.
Hypothesis C : closed D S.
Hypothesis ND : NoDup labels.
Hypothesis DL : forall l, In l labels <-> D l.
Notation image := (gl2r_image rO rI radd rmul ropp S labels).
(** the holonomy is the same on homologous chains *)
Theorem C35_holonomy_class a b : all_gluings D S map_translation ->
  chain_ok rO (fun d => In d (simplices1 (csurf_of S labels))) a -> chain_ok rO (fun d => In d (simplices1 (csurf_of S labels))) b ->
  homologous rO radd ropp (csurf_of S labels) a b -> holonomy S inj a = holonomy S inj b.
Proof. destruct Inj as [I0 I1]. intros Tr. now apply (holonomy_homologous rO rI radd rmul ropp Rth inj I0 I1 D S labels). Qed.
(** missing: matrices with negative determinant, see the refutation below *)
Theorem C35_image_partial M c : (f0 < mdet M)%F -> chain_ok rO (fun d => In d (simplices1 (csurf_of S labels))) c ->
  chain_ok rO (fun d => In d (simplices1 (csurf_of (gl2r S M) labels))) (image M c) /\
  holonomy (gl2r S M) inj (image M c) = mapply M (holonomy S inj c).
Proof.
  destruct Inj as [I0 I1]. intros P A. split.
  - now apply (image_spec rO rI radd rmul ropp Rth D S labels V C ND DL M P).
  - now apply (image_holonomy rO rI radd rmul ropp Rth inj I0 D S labels V C ND DL M P).
Qed.
Theorem C35_cycle_partial M c : (f0 < mdet M)%F -> cycle rO radd ropp (csurf_of S labels) c ->
  cycle rO radd ropp (csurf_of (gl2r S M) labels) (image M c).
Proof. intros P A. now apply (image_cycle rO rI radd rmul ropp Rth D S labels V C ND DL M P). Qed.
End T.
Print Assumptions C35_holonomy_class.
Print Assumptions C35_image_partial.
Print Assumptions C35_cycle_partial.

(** ** the torus with integer coefficients *)
Definition Zinj (z : Z) : cqF := Q2cq (inject_Z z).
Lemma Zinj_additive : additive cqF 0%Z Z.add Zinj.
Proof.
  constructor; [reflexivity|]. intros x y. apply cq_eq. change (fadd (Zinj x) (Zinj y)) with (Q2cq (cqv (Zinj x) + cqv (Zinj y))).
  unfold Zinj. rewrite !Q2cq_v. unfold inject_Z, Qplus, Qeq. cbn. ring.
Qed.
Notation torusZ := (csurf_of ex_torus1 [tt]).
Notation imageZ := (gl2r_image 0%Z 1%Z Z.add Z.mul Z.opp ex_torus1 [tt]).
Definition shear : mat cqF := Mat (Q2cq 1) (Q2cq (1#2)) (Q2cq 0) (Q2cq 2).
Example C35_ex : (f0 < mdet shear)%F /\ cycle 0%Z Z.add Z.opp torusZ [((tt, 0), 2%Z); ((tt, 1), (-3)%Z)] /\
  all_gluings (fun _ => True) ex_torus1 map_translation /\
  imageZ shear [((tt, 0), 2%Z); ((tt, 1), (-3)%Z)] = [((tt, 0), 2%Z); ((tt, 1), (-3)%Z)] /\
  holonomy ex_torus1 Zinj [((tt, 0), 2%Z); ((tt, 1), (-3)%Z)] = qv 2 (-3) /\
  holonomy (gl2r ex_torus1 shear) Zinj [((tt, 0), 2%Z); ((tt, 1), (-3)%Z)] = qv (1#2) (-6).
Proof.
  split; [vm_compute; reflexivity|]. split; [|split].
  - split; [|vm_compute; reflexivity]. split; [repeat constructor; cbn; intuition discriminate|].
    intros x r I; cbn in I; repeat (destruct I as [I|I]; [injection I as <- <-; split; [vm_compute; auto|discriminate]|]); destruct I.
  - assert (Ls : forall l, In l [tt] <-> True) by (intros []; cbn; tauto).
    destruct (C13_is_translation_surface cqF unit (fun _ => True) ex_torus1 [tt] (proj1 C12_ex) Ls) as [[b [Rb B]] _].
    replace b with true in B by (vm_compute in Rb; congruence). now apply (proj1 B).
  - vm_compute. repeat split; reflexivity.
Qed.
(** with a reflection the image of the right edge of the square is the edge of the same number, which points to
    the right although the image of the edge points down *)
Definition mirror : mat cqF := Mat (Q2cq 1) (Q2cq 0) (Q2cq 0) (Q2cq (-1)).
Theorem C35_reflection_refuted : ~ forall (M : mat cqF) c, mdet M <> f0 -> cycle 0%Z Z.add Z.opp torusZ c ->
  holonomy (gl2r ex_torus1 M) Zinj (imageZ M c) = mapply M (holonomy ex_torus1 Zinj c).
Proof.
  intros H. specialize (H mirror [((tt, 1), 1%Z)]).
  assert (X : holonomy (gl2r ex_torus1 mirror) Zinj (imageZ mirror [((tt, 1), 1%Z)]) = qv 1 0) by (vm_compute; reflexivity).
  assert (Y : mapply mirror (holonomy ex_torus1 Zinj [((tt, 1), 1%Z)]) = qv 0 (-1)) by (vm_compute; reflexivity).
  rewrite H in X.
  - rewrite Y in X. vm_compute in X. discriminate.
  - intros E. vm_compute in E. discriminate.
  - split; [|vm_compute; reflexivity]. split; [repeat constructor; cbn; intuition discriminate|].
    intros x r I; cbn in I; repeat (destruct I as [I|I]; [injection I as <- <-; split; [vm_compute; auto|discriminate]|]); destruct I.
Qed.
Print Assumptions C35_reflection_refuted.
