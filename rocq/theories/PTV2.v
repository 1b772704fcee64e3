(** The linear algebra of the Thurston-Veech construction. *)
From Coq Require Import List Bool ZArith Arith Lia Ring Field Relations.
From Verif Require Import OField FMicromega PField MBase MEuclid MPoly PRotate PHyp2 MTV STV PTV.
Import ListNotations.

Section P.
Context {K : OField}.
Add Field KF : (of_ft K).
Local Open Scope F_scope.

Lemma fdp_ (x d : K) : 0 < x -> 0 < d -> 0 < x / d.
Proof. intros. now apply fdiv_pos. Qed.
(** ** sizes of cylinders *)
Section L.
Variables (E : nat -> nat -> K) (a b : nat) (hm vm : nat -> K).
Definition sizes (hh vv : nat -> K) (c d : K) : Prop :=
  (forall i, (i < a)%nat -> c * hh i = hm i * sumn b (fun j => E i j * vv j)) /\
  (forall j, (j < b)%nat -> d * vv j = vm j * sumn a (fun i => E i j * hh i)).
Definition FF (i k : nat) : K := sumn b (fun j => (E i j * vm j) * (E k j * hm k)).
Lemma FF_sum i (x : nat -> K) : sumn a (fun k => FF i k * x k) = sumn b (fun j => E i j * (vm j * sumn a (fun k => E k j * (hm k * x k)))).
Proof.
  transitivity (sumn a (fun k => sumn b (fun j => (E i j * vm j) * (E k j * (hm k * x k))))).
  - apply sumn_ext. intros k _. unfold FF. transitivity (x k * sumn b (fun j => (E i j * vm j) * (E k j * hm k))); [ring|]. rewrite <- sumn_scale. apply sumn_ext. intros j _. ring.
  - rewrite sumn_swap. apply sumn_ext. intros j _. rewrite sumn_scale. ring.
Qed.
(** sizes give an eigenvector *)
Lemma sizes_eigen hh vv c d : sizes hh vv c d -> eigen a FF (c * d) (fun i => sumn b (fun j => E i j * vv j)).
Proof.
  intros [H V]. apply eigen_sum. intros i Hi. rewrite FF_sum.
  transitivity (sumn b (fun j => (c * d) * (E i j * vv j))); [|now rewrite sumn_scale]. apply sumn_ext. intros j Hj.
  transitivity (E i j * (vm j * (c * sumn a (fun k => E k j * hh k)))).
  - do 2 f_equal. rewrite <- sumn_scale. apply sumn_ext. intros k Hk. rewrite <- (H k Hk). ring.
  - transitivity (c * E i j * (vm j * sumn a (fun k => E k j * hh k))); [ring|]. rewrite <- (V j Hj). ring.
Qed.
(** an eigenvector gives sizes *)
Lemma eigen_sizes x p : p <> 0 -> eigen a FF p x -> sizes (fun i => x i * hm i / 1) (fun j => sumn a (fun i => E i j * hm i * x i) * vm j / p) 1 p.
Proof.
  intros P0 H. rewrite eigen_sum in H. split.
  - intros i Hi. transitivity (hm i * x i); [field; apply fpos_neq0, flt_0_1|]. f_equal.
    apply (fcancel _ _ p); auto. specialize (H i Hi). rewrite FF_sum in H. rewrite (fmul_comm K _ p), (fmul_comm K _ p), <- H.
    rewrite <- sumn_scale. apply sumn_ext. intros j _.
    transitivity (E i j * (vm j * sumn a (fun i => E i j * hm i * x i))); [|field; auto]. do 2 f_equal. apply sumn_ext. intros; ring.
  - intros j Hj. transitivity (vm j * sumn a (fun i => E i j * hm i * x i)); [field; auto|]. f_equal. apply sumn_ext. intros i _. field. apply fpos_neq0, flt_0_1.
Qed.
Hypothesis En : forall i j, (i < a)%nat -> (j < b)%nat -> 0 <= E i j.
Hypothesis hp : positive a hm.
Hypothesis vp : positive b vm.
Lemma FF_nonneg i k : (i < a)%nat -> (k < a)%nat -> 0 <= FF i k.
Proof.
  intros Hi Hk. apply sumn_nonneg. intros j Hj. pose proof (En i j Hi Hj). pose proof (En k j Hk Hj). pose proof (hp k Hk). pose proof (vp j Hj).
  apply fmul_nonneg; apply fmul_nonneg; auto; flra.
Qed.
Lemma FF_pos i k j : (i < a)%nat -> (k < a)%nat -> (j < b)%nat -> 0 < E i j -> 0 < E k j -> 0 < FF i k.
Proof.
  intros Hi Hk Hj H1 H2. apply (sumn_pos _ _ j); auto.
  - intros l Hl. pose proof (En i l Hi Hl). pose proof (En k l Hk Hl). pose proof (hp k Hk). pose proof (vp l Hl). apply fmul_nonneg; apply fmul_nonneg; auto; flra.
  - apply fmul_pos; apply fmul_pos; auto.
Qed.
Hypothesis rows : forall i, (i < a)%nat -> exists j, (j < b)%nat /\ 0 < E i j.
Hypothesis cols : forall j, (j < b)%nat -> exists i, (i < a)%nat /\ 0 < E i j.
Lemma eigen_pos x p : (0 < a)%nat -> positive a x -> eigen a FF p x -> 0 < p.
Proof.
  intros A X H. rewrite eigen_sum in H. specialize (H 0%nat A). destruct (rows 0%nat A) as [j [Hj Ej]].
  assert (0 < sumn a (fun k => FF 0%nat k * x k)).
  { apply (sumn_pos _ _ 0%nat); auto.
    - intros k Hk. pose proof (X k Hk). apply fmul_nonneg; [now apply FF_nonneg|flra].
    - apply fmul_pos; auto. now apply (FF_pos _ _ j). }
  rewrite H in H0. pose proof (X 0%nat A). destruct (fltb 0 p) eqn:Q; [exact Q|]. fnra.
Qed.
Lemma sizes_pos x p : 0 < p -> positive a x -> positive a (fun i => x i * hm i / 1) /\ positive b (fun j => sumn a (fun i => E i j * hm i * x i) * vm j / p).
Proof.
  intros P X. split.
  - intros i Hi. apply fdp_; [apply fmul_pos; auto|apply flt_0_1].
  - intros j Hj. apply fdp_; auto. apply fmul_pos; auto. destruct (cols j Hj) as [i [Hi Ei]]. apply (sumn_pos _ _ i); auto.
    + intros k Hk. pose proof (X k Hk). pose proof (hp k Hk). apply fmul_nonneg; [apply fmul_nonneg; auto|]; flra.
    + apply fmul_pos; auto. apply fmul_pos; auto.
Qed.
(** all sizes are proportional *)
Hypothesis irr : forall Z : nat -> Prop, (forall i j, (i < a)%nat -> (j < a)%nat -> Z i -> 0 < FF i j -> Z j) -> (exists i, (i < a)%nat /\ Z i) -> forall j, (j < a)%nat -> Z j.
Lemma sizes_unique hh vv c d hh' vv' c' d' : (0 < a)%nat -> 0 < c -> 0 < d -> 0 < c' -> 0 < d' -> positive a hh -> positive b vv -> positive a hh' -> positive b vv' ->
  sizes hh vv c d -> sizes hh' vv' c' d' -> c * d = c' * d' /\ exists s t, 0 < s /\ 0 < t /\ (forall i, (i < a)%nat -> hh' i = s * hh i) /\ (forall j, (j < b)%nat -> vv' j = t * vv j).
Proof.
  intros A C D C' D' P1 P2 P1' P2' S1 S2.
  set (x := fun i => sumn b (fun j => E i j * vv j)). set (y := fun i => sumn b (fun j => E i j * vv' j)).
  assert (XP : forall w, positive b w -> positive a (fun i => sumn b (fun j => E i j * w j))).
  { intros w W i Hi. destruct (rows i Hi) as [j [Hj Ej]]. apply (sumn_pos _ _ j); auto; [|apply fmul_pos; auto].
    intros k Hk. pose proof (W k Hk). apply fmul_nonneg; auto. flra. }
  assert (X := XP vv P2). assert (Y := XP vv' P2').
  pose proof (sizes_eigen _ _ _ _ S1) as E1. pose proof (sizes_eigen _ _ _ _ S2) as E2. fold x in X, E1. fold y in Y, E2.
  assert (NZ : forall z : nat -> K, positive a z -> nonzero a z) by (intros z Hz; exists 0%nat; split; auto; now apply fpos_neq0, Hz).
  assert (NN : forall i j, (i < a)%nat -> (j < a)%nat -> 0 <= FF i j) by (intros; now apply FF_nonneg).
  assert (EQ : c * d = c' * d').
  { apply fle_antisym; [apply (perron_bound a FF NN (c' * d') y (c * d) x); auto|apply (perron_bound a FF NN (c * d) x (c' * d') y); auto]. }
  split; auto. rewrite <- EQ in E2.
  destruct (perron_unique a FF NN (c * d) x y irr) as [q Hq]; auto.
  assert (Q : 0 < q). { pose proof (X 0%nat A) as X0. pose proof (Y 0%nat A) as Y0. rewrite (Hq 0%nat A) in Y0. destruct (fltb 0 q) eqn:T; [exact T|]. fnra. }
  assert (HS : forall i, (i < a)%nat -> hh' i = (q * c / c') * hh i).
  { intros i Hi. apply (fcancel _ _ c'); [now apply fpos_neq0|]. rewrite (fmul_comm K (hh' i)), (proj1 S2 i Hi). fold (y i). rewrite Hq by auto.
    transitivity (q * (c * hh i)); [|field; now apply fpos_neq0]. rewrite (proj1 S1 i Hi). fold (x i). ring. }
  exists (q * c / c'), ((q * c / c') * d / d'). split; [apply fdp_; auto; apply fmul_pos; auto|].
  split; [apply fdp_; auto; apply fmul_pos; auto; apply fdp_; auto; apply fmul_pos; auto|]. split; auto.
  intros j Hj. apply (fcancel _ _ d'); [now apply fpos_neq0|]. rewrite (fmul_comm K (vv' j)), (proj2 S2 j Hj).
  transitivity (vm j * ((q * c / c') * sumn a (fun i => E i j * hh i))).
  - f_equal. rewrite <- sumn_scale. apply sumn_ext. intros i Hi. rewrite HS by auto. ring.
  - transitivity ((q * c / c') * (vm j * sumn a (fun i => E i j * hh i))); [ring|]. rewrite <- (proj2 S1 j Hj). field. split; now apply fpos_neq0.
Qed.
End L.
Lemma sizes_swap E a b hm vm hh vv c d : sizes E a b hm vm hh vv c d -> sizes (fun j i => E i j) b a vm hm vv hh d c.
Proof. intros [H V]. now split. Qed.
End P.
