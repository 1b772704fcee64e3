(** Theorems about the Thurston-Veech construction. *)
From Coq Require Import List Bool ZArith Arith Lia QArith Ring Field Relations.
From Verif Require Import OField OField FMicromega PField MBase MEuclid MPoly MMut SMut MSim SSim MSurf SSurf PFam2 TEuclid MTV STV PTV PTV2 PTV3 PTV4 PTV5.
Import ListNotations.

Section T.
Context {K : OField}.
Local Open Scope F_scope.
Variable dense : list nat -> list nat * list nat.
Variable largest_root : nat -> (nat -> nat -> K) -> res K.
Variable kernel : nat -> (nat -> nat -> K) -> list (list K).
Notation call r u hmult vmult := (tv_call largest_root kernel (make_tv dense r u) hmult vmult empty).

(** C71: a call that returns builds a closed translation surface out of rectangles of positive size, and for these sizes there
    are multitwists with the given multiplicities. *)
Theorem C71_surface (n : nat) (r u : list nat) (hmult vmult : list K) (c : @surf (polygon K)) :
  (0 < n)%nat -> permutes n r -> permutes n u -> dense_ok n r (dense r) -> dense_ok n u (dense u) ->
  (forall m A x, In x (kernel m A) -> eigen m A 0 (row x)) ->
  Forall (fun a => 0 < a) hmult -> Forall (fun a => 0 < a) vmult ->
  call r u hmult vmult = (c, Ok tt) ->
  mutable c = false /\ good_surface (is_label c) (mut_surface c) map_translation /\
  exists (w h : nat -> K) (s d : K) (up : nat -> nat),
    multitwists n r u (fst (dense r)) (fst (dense u)) hmult vmult w h s d /\
    (forall k, (k < n)%nat -> (up k < n)%nat /\ at_ u (up k) = k) /\
    rectangles_glued n (at_ r) up w h (mut_surface c).
Proof.
  intros N R U DR DU KE HP VP E. pose proof (make_ok n dense r u N R U DR DU) as T. destruct (make_fields dense r u) as (F1 & F2 & F3 & F4 & F5 & F6).
  destruct (call_inv _ _ _ _ _ _ _ E) as (x & pf & L1 & L2 & RO & KX & LX & PX & P0).
  rewrite (call_finish largest_root kernel _ _ _ x pf) in E by auto.
  destruct (finish_ok n _ hmult vmult x pf T) as (c' & w & h & s & d & E' & MU & MT & RG & GS); try (now apply Forall_row).
  { apply eigen_sub, KE. rewrite KX. now left. }
  rewrite E in E'. injection E' as <-. split; auto. split; auto. exists w, h, s, d, (inverse_ n u). rewrite F1, F2, ?F3, ?F4 in *. split; auto. split; auto.
  intros k Hk. now apply (inverse_ok n u (fst (dense u)) (length (snd (dense u)))).
Qed.
(** If the surface is connected and there are sizes in the field for which there are multitwists, then the call returns: none of
    its assertions fails and it does not divide by zero. *)
Theorem C71_exists (n : nat) (r u : list nat) (hmult vmult : list K) (w h : nat -> K) (s d : K) :
  (0 < n)%nat -> permutes n r -> permutes n u -> dense_ok n r (dense r) -> dense_ok n u (dense u) -> transitive n r u ->
  (forall A e, largest_eigenvalue (Nat.min (length (snd (dense r))) (length (snd (dense u)))) A e -> largest_root (Nat.min (length (snd (dense r))) (length (snd (dense u)))) A = Ok e) ->
  (forall A, line_kernel (Nat.min (length (snd (dense r))) (length (snd (dense u)))) A (kernel (Nat.min (length (snd (dense r))) (length (snd (dense u)))) A)) ->
  length hmult = length (snd (dense r)) -> length vmult = length (snd (dense u)) ->
  Forall (fun a => 0 < a) hmult -> Forall (fun a => 0 < a) vmult ->
  multitwists n r u (fst (dense r)) (fst (dense u)) hmult vmult w h s d ->
  exists c, call r u hmult vmult = (c, Ok tt).
Proof.
  intros N R U DR DU TR LR KE LH LV HP VP M. pose proof (make_ok n dense r u N R U DR DU) as T. destruct (make_fields dense r u) as (F1 & F2 & F3 & F4 & F5 & F6).
  set (t := make_tv dense r u) in *.
  assert (TR' : transitive n (tv_r t) (tv_u t)) by (rewrite F1, F2; exact TR).
  assert (HP' : positive (tv_nh t) (row hmult)) by (apply Forall_row; congruence). assert (VP' : positive (tv_nv t) (row vmult)) by (apply Forall_row; congruence).
  assert (M' : multitwists n (tv_r t) (tv_u t) (tv_h t) (tv_v t) hmult vmult w h s d) by (rewrite F1, F2, F3, F4; exact M).
  rewrite <- F5, <- F6, <- size_min in LR, KE.
  destruct (eigenvector n t hmult vmult w h s d (kernel (tv_size t) (mat_sub_scalar (tv_F t hmult vmult) (s * d))) T TR' HP' VP' M') as [L B].
  destruct (B (KE _)) as (x & EK & LX & PX). clear B. pose proof (Forall_row x _ LX PX) as PX'.
  assert (EV : eigen (tv_size t) (tv_F t hmult vmult) (s * d) (row x)).
  { apply eigen_sub. apply (proj1 (KE (mat_sub_scalar (tv_F t hmult vmult) (s * d)))). rewrite EK. now left. }
  destruct (finish_ok n t hmult vmult x (s * d) T HP' VP' PX' EV) as (c & w' & h' & s' & d' & EF & _). exists c. rewrite <- EF.
  apply call_finish; auto; try congruence. destruct M. apply fpos_neq0, fmul_pos; auto.
Qed.
(** The surface is unique up to stretching it horizontally and vertically. *)
Theorem C71_unique (n : nat) (r u : list nat) (hmult vmult : list K) (w h w' h' : nat -> K) (s d s' d' : K) :
  (0 < n)%nat -> permutes n r -> permutes n u -> dense_ok n r (dense r) -> dense_ok n u (dense u) -> transitive n r u ->
  length hmult = length (snd (dense r)) -> length vmult = length (snd (dense u)) ->
  Forall (fun a => 0 < a) hmult -> Forall (fun a => 0 < a) vmult ->
  multitwists n r u (fst (dense r)) (fst (dense u)) hmult vmult w h s d -> multitwists n r u (fst (dense r)) (fst (dense u)) hmult vmult w' h' s' d' ->
  s * d = s' * d' /\ exists a b, 0 < a /\ 0 < b /\ forall k, (k < n)%nat -> w' k = a * w k /\ h' k = b * h k.
Proof.
  intros N R U DR DU TR LH LV HP VP. pose proof (make_ok n dense r u N R U DR DU) as T. destruct (make_fields dense r u) as (F1 & F2 & F3 & F4 & F5 & F6).
  set (t := make_tv dense r u) in *. rewrite <- F3, <- F4. intros M M'.
  assert (HP' : positive (tv_nh t) (row hmult)) by (apply Forall_row; congruence). assert (VP' : positive (tv_nv t) (row vmult)) by (apply Forall_row; congruence).
  apply (twists_unique n t hmult vmult w h s d w' h' s' d' T); auto; rewrite F1, F2; auto.
Qed.
(** As documented, there must be one multiplicity for each cylinder. *)
Theorem C71_lengths (r u : list nat) (hmult vmult : list K) :
  length hmult <> length (snd (dense r)) \/ length vmult <> length (snd (dense u)) -> call r u hmult vmult = (empty, Err ValueError).
Proof.
  intros H. destruct (make_fields dense r u) as (_ & _ & _ & _ & F5 & F6). unfold tv_call. rewrite F5, F6. apply or_comm in H.
  destruct (Nat.eqb_spec (length hmult) (length (snd (dense r)))), (Nat.eqb_spec (length vmult) (length (snd (dense u)))); try reflexivity. tauto.
Qed.
(** for the examples: matrices with one row *)
Definition root1 (m : nat) (A : nat -> nat -> K) : res K := Ok (A 0%nat 0%nat).
Definition kernel1 (m : nat) (A : nat -> nat -> K) : list (list K) := if (m =? 1)%nat && (A 0%nat 0%nat =? 0) then [[1]] else [].
End T.
Print Assumptions C71_surface.
Print Assumptions C71_exists.
Print Assumptions C71_unique.
Print Assumptions C71_lengths.

Section Ex.
Context {K : OField}.
Add Field KF : (of_ft K).
Local Open Scope F_scope.
Lemma kernel1_sound m A (x : list K) : In x (kernel1 m A) -> eigen m A 0 (row x).
Proof.
  unfold kernel1. destruct (Nat.eqb_spec m 1) as [->|]; [|intros []]. destruct (A 0%nat 0%nat =? 0) eqn:Z; [|intros []]. apply (feqb_eq K) in Z. intros [<-|[]].
  intros i Hi. assert (i = 0)%nat by lia. subst i. cbn. rewrite Z. ring.
Qed.
Lemma root1_ok (A : nat -> nat -> K) e : largest_eigenvalue 1 A e -> root1 1 A = Ok e.
Proof.
  intros [(x & (i & Hi & X) & E) _]. assert (i = 0)%nat by lia. subst i. specialize (E 0%nat Hi). cbn in E. unfold root1. f_equal. apply (fcancel _ _ (x 0%nat) X). rewrite <- E. ring.
Qed.
Lemma kernel1_ok (A : nat -> nat -> K) : line_kernel 1 A (kernel1 1 A).
Proof.
  assert (O : 1 <> (0 : K)) by apply fpos_neq0, flt_0_1. split.
  - intros x Hx. pose proof (kernel1_sound 1 A x Hx) as E. unfold kernel1 in Hx. cbn [Nat.eqb andb] in Hx. destruct (A 0%nat 0%nat =? 0); [|destruct Hx]. destruct Hx as [<-|[]].
    split; [reflexivity|]. split; [exists 0%nat; split; [lia|exact O]|]. split; auto. exists 0%nat. split; [lia|]. split; [reflexivity|lia].
  - intros y (i & Hi & Y) E _. assert (i = 0)%nat by lia. subst i. specialize (E 0%nat Hi). cbn in E. exists [1]. unfold kernel1. cbn [Nat.eqb andb].
    destruct (A 0%nat 0%nat =? 0) eqn:Z; auto. exfalso. assert (Q : A 0%nat 0%nat * y 0%nat = 0) by (transitivity (0 + A 0%nat 0%nat * y 0%nat); [ring|rewrite E; ring]).
    apply fmul_eq0 in Q. destruct Q as [Q|Q]; [|contradiction]. apply (feqb_eq K) in Q. congruence.
Qed.
End Ex.

(** three rectangles in one horizontal cylinder, and two vertical cylinders *)
Definition right3 : list nat := [1; 2; 0]%nat.
Definition up3 : list nat := [0; 2; 1]%nat.
Definition dense3 (p : list nat) : list nat * list nat := match p with (1 :: _)%nat => ([0; 0; 0]%nat, [3%nat]) | (0 :: 1 :: _)%nat => ([0; 1; 2]%nat, [1; 1; 1]%nat) | _ => ([0; 1; 1]%nat, [1; 2]%nat) end.
Definition ones (n : nat) : list cqF := repeat (@f1 cqF) n.
Definition call3 (r u : list nat) (hmult vmult : list cqF) := tv_call root1 kernel1 (make_tv dense3 r u) hmult vmult empty.
Definition vw (v : vec cqF) : Q * Q := (cqv (fst v), cqv (snd v)).
Definition view_edges (c : @surf (polygon cqF)) (k : nat) : list (Q * Q) := match get_polygon c (Z.of_nat k) with Ok P => map vw (edges P) | Err _ => [] end.
Example C71_ex : let '(c, o) := call3 right3 up3 (ones 1) (ones 2) in
  o = Ok tt /\ map (view_edges c) (seq 0 4) =
   [[(1#5, 0); (0, 1); (-1#5, 0); (0, -1)]; [(2#5, 0); (0, 1); (-2#5, 0); (0, -1)]; [(2#5, 0); (0, 1); (-2#5, 0); (0, -1)]; []]%Q /\
  map (fun k => s_opp (mut_surface c) (Z.of_nat k) 1%nat) (seq 0 3) = [Ok (Some (1%Z, 3%nat)); Ok (Some (2%Z, 3%nat)); Ok (Some (0%Z, 3%nat))] /\
  map (fun k => s_opp (mut_surface c) (Z.of_nat k) 2%nat) (seq 0 3) = [Ok (Some (0%Z, 0%nat)); Ok (Some (2%Z, 0%nat)); Ok (Some (1%Z, 0%nat))].
Proof. vm_compute. auto 10. Qed.
Lemma case3 (P : nat -> Prop) : P 0%nat -> P 1%nat -> P 2%nat -> forall k, (k < 3)%nat -> P k.
Proof. intros A B C [|[|[|k]]] H; auto. lia. Qed.
Lemma perm3 p : In p [right3; up3; [0; 1; 2]%nat] -> permutes 3 p.
Proof.
  intros [<-|[<-|[<-|[]]]]; (split; [reflexivity|]; split; [apply case3; cbn; lia|]; intros j k Hj Hk; destruct j as [|[|[|j]]]; try lia; destruct k as [|[|[|k]]]; try lia; cbn; lia).
Qed.
Lemma dense3_ok p : In p [right3; up3; [0; 1; 2]%nat] -> dense_ok 3 p (dense3 p).
Proof.
  assert (I : forall q (f : nat -> nat), (forall j, f (at_ q j) = f j) -> forall s j, f (Nat.iter s (at_ q) j) = f j).
  { intros q f H s j. induction s as [|s IH]; [reflexivity|]. change (Nat.iter (S s) (at_ q) j) with (at_ q (Nat.iter s (at_ q) j)). now rewrite H. }
  intros [<-|[<-|[<-|[]]]]; (split; [reflexivity|]; split; [apply case3; cbn; lia|]; split).
  - intros i Hi. exists 0%nat. cbn in *. lia.
  - intros j k Hj Hk. split; [intros _|].
    + destruct j as [|[|[|j]]]; try lia; destruct k as [|[|[|k]]]; try lia; ((now exists 0%nat)||(now exists 1%nat)||(now exists 2%nat)).
    + intros _. destruct j as [|[|[|j]]]; try lia; destruct k as [|[|[|k]]]; try lia; reflexivity.
  - intros i Hi. cbn in Hi. exists i. destruct i as [|[|i]]; cbn; lia.
  - intros j k Hj Hk. split.
    + destruct j as [|[|[|j]]]; try lia; destruct k as [|[|[|k]]]; try lia; cbn; intros E; try discriminate; ((now exists 0%nat)||(now exists 1%nat)).
    + intros [s <-]. symmetry. apply (I up3 (at_ (fst (dense3 up3)))). intros [|[|[|i]]]; try reflexivity; destruct i; reflexivity.
  - intros i Hi. cbn in Hi. exists i. destruct i as [|[|[|i]]]; cbn; lia.
  - intros j k Hj Hk. split.
    + destruct j as [|[|[|j]]]; try lia; destruct k as [|[|[|k]]]; try lia; cbn; intros E; try discriminate; now exists 0%nat.
    + intros [s <-]. symmetry. apply (I [0; 1; 2]%nat (at_ [0; 1; 2]%nat)). intros [|[|[|i]]]; try reflexivity; destruct i; reflexivity.
Qed.
Lemma trans3 : transitive 3 right3 up3.
Proof.
  assert (A : forall k, (k < 3)%nat -> clos_refl_sym_trans nat (fun a b => (a < 3)%nat /\ (b = at_ right3 a \/ b = at_ up3 a)) 0%nat k).
  { assert (S1 : clos_refl_sym_trans nat (fun a b => (a < 3)%nat /\ (b = at_ right3 a \/ b = at_ up3 a)) 0%nat 1%nat) by (apply rst_step; cbn; split; [lia|now left]).
    apply case3; auto; [apply rst_refl|]. apply (rst_trans _ _ _ 1%nat); auto. apply rst_step. cbn. split; [lia|now left]. }
  intros j k Hj Hk. apply (rst_trans _ _ _ 0%nat); auto. now apply rst_sym, A.
Qed.
Lemma ones_pos n : Forall (fun a : cqF => flt f0 a) (ones n).
Proof. apply Forall_forall. intros a Ha. apply repeat_spec in Ha. subst a. apply flt_0_1. Qed.
(** the hypotheses of the theorems hold for this example *)
Example C71_hypotheses : exists c w h s d, call3 right3 up3 (ones 1) (ones 2) = (c, Ok tt) /\
  multitwists 3 right3 up3 (fst (dense3 right3)) (fst (dense3 up3)) (ones 1) (ones 2) w h s d /\
  transitive 3 right3 up3 /\ exists c', tv_call root1 kernel1 (make_tv dense3 right3 up3) (ones 1) (ones 2) empty = (c', Ok tt).
Proof.
  destruct (call3 right3 up3 (ones 1) (ones 2)) as [c o] eqn:E. assert (O : o = Ok tt) by (pose proof C71_ex as X; rewrite E in X; apply X). subst o.
  destruct (C71_surface dense3 root1 kernel1 3 right3 up3 (ones 1) (ones 2) c) as (_ & _ & w & h & s & d & _ & M & _ & _); auto using ones_pos;
    try (apply perm3; cbn; auto); try (apply dense3_ok; cbn; auto); try (intros; now apply kernel1_sound).
  exists c, w, h, s, d. split; auto. split; auto. split; [apply trans3|].
  apply (C71_exists dense3 root1 kernel1 3 right3 up3 (ones 1) (ones 2) w h s d); auto using ones_pos, trans3;
    try (apply perm3; cbn; auto); try (apply dense3_ok; cbn; auto); cbn [dense3 right3 up3 snd length Nat.min].
  - intros A e. apply root1_ok.
  - intros A. apply kernel1_ok.
Qed.
(** The documentation of the module says that the second permutation describes the gluings going up. This is wrong: on top of the
    rectangle [u k] is the rectangle [k]. *)
Theorem C71_up_refuted : ~ (forall (n : nat) (r u : list nat) (hmult vmult : list cqF) (c : @surf (polygon cqF)),
  (0 < n)%nat -> permutes n r -> permutes n u -> dense_ok n r (dense3 r) -> dense_ok n u (dense3 u) ->
  Forall (fun a : cqF => flt f0 a) hmult -> Forall (fun a : cqF => flt f0 a) vmult ->
  tv_call root1 kernel1 (make_tv dense3 r u) hmult vmult empty = (c, Ok tt) ->
  exists (w h : nat -> cqF), rectangles_glued n (at_ r) (at_ u) w h (mut_surface c)).
Proof.
  intros H. specialize (H 3%nat [0; 1; 2]%nat right3 (ones 3) (ones 1) (fst (call3 [0; 1; 2]%nat right3 (ones 3) (ones 1)))).
  destruct H as (w & h & R); auto using ones_pos; try (apply perm3; cbn; auto); try (apply dense3_ok; cbn; auto).
  destruct (rg_up _ _ _ _ _ _ R 0%nat ltac:(lia)) as [U _].
  assert (V : s_opp (mut_surface (fst (call3 [0; 1; 2]%nat right3 (ones 3) (ones 1)))) (Z.of_nat 0) 2 = Ok (Some (2%Z, 0%nat))) by (vm_compute; reflexivity).
  rewrite U in V. discriminate V.
Qed.
Print Assumptions C71_up_refuted.
