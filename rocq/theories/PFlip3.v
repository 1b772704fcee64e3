(** Proofs about flips of triangles: gluings. *)
From Coq Require Import List Bool ZArith Arith Lia Ring Field Relations.
From Verif Require Import OField FMicromega PField MBase MDict PDict MEuclid SEuclid PEuclid MSim SSim PSim MPoly PPoly
  MMut SMut PMut PMut2 PMut3 PGlue MSurf SSurf PSurf PSurf3 SPoint PPoint PSimple MFlip SFlip PFlip PFlip2.
Import ListNotations.

Section Flip.
Context {K : OField}.
Add Field KFflip3 : (of_ft K).
Local Open Scope F_scope.
Notation nv := (@length (vec K)).
Implicit Types s : @surf (polygon K).

Lemma tri_edge_Z l e k : tri_edge l e k = (l, (Z.of_nat e + Z.of_nat k) mod 3)%Z.
Proof. unfold tri_edge. now rewrite Nat2Z.inj_mod, Nat2Z.inj_add. Qed.
Lemma tri_edge_0 l e : (e < 3)%nat -> tri_edge l e 0 = (l, Z.of_nat e).
Proof. intros H. unfold tri_edge. rewrite Nat.add_0_r, Nat.mod_small; auto. Qed.
(** every edge of a triangle is one of these *)
Lemma tri_edge_all l e z : (e < 3)%nat -> (0 <= z < 3)%Z -> exists k, (k < 3)%nat /\ (l, z) = tri_edge l e k.
Proof.
  intros He Hz. exists ((Z.to_nat z + 3 - e) mod 3)%nat. split; [apply Nat.mod_upper_bound; lia|].
  unfold tri_edge. f_equal. apply lt3 in He. assert (Z : (z = 0 \/ z = 1 \/ z = 2)%Z) by lia.
  destruct He as [->|[->| ->]], Z as [->|[->| ->]]; reflexivity.
Qed.
Lemma tri_edge_inj l e k k' : (k < 3)%nat -> (k' < 3)%nat -> tri_edge l e k = tri_edge l e k' -> k = k'.
Proof.
  intros H H' E. unfold tri_edge in E. assert (E0 : ((e + k) mod 3 = (e + k') mod 3)%nat) by (apply (f_equal snd) in E; cbn [snd] in E; lia). clear E. rename E0 into E. rewrite (Nat.add_mod e k), (Nat.add_mod e k') in E by lia.
  pose proof (Nat.mod_upper_bound e 3 ltac:(lia)) as Q. apply lt3 in H, H', Q.
  destruct H as [->|[->| ->]], H' as [->|[->| ->]], Q as [Q|[Q|Q]]; rewrite Q in E; cbn in E; auto; lia.
Qed.

Section Moved.
Context (l l' : label) (e e' : nat) (D : l <> l') (He : (e < 3)%nat) (He' : (e' < 3)%nat).
Let t k := tri_edge l e k.
Let t' k := tri_edge l' e' k.
Lemma t_neq k k' : (k < 3)%nat -> (k' < 3)%nat -> k <> k' -> eqb (t k) (t k') = false.
Proof. intros A B C. apply eqb_neq. intros E. apply tri_edge_inj in E; auto. Qed.
Lemma t'_neq k k' : (k < 3)%nat -> (k' < 3)%nat -> k <> k' -> eqb (t' k) (t' k') = false.
Proof. intros A B C. apply eqb_neq. intros E. apply tri_edge_inj in E; auto. Qed.
Lemma tt'_neq k k' : eqb (t k) (t' k') = false.
Proof. apply eqb_neq. intros E. injection E as E _. contradiction. Qed.
Lemma t't_neq k k' : eqb (t' k) (t k') = false.
Proof. apply eqb_neq. intros E. injection E as E _. auto. Qed.
Local Ltac ev := unfold moved; fold (t 0); fold (t 1); fold (t 2); fold (t' 0); fold (t' 1); fold (t' 2);
  rewrite ?eqb_refl, ?tt'_neq, ?t't_neq, ?t_neq, ?t'_neq by lia; try reflexivity.
Lemma moved_0 : moved l e l' e' (t 0) = t 0. Proof. ev. Qed.
Lemma moved_1 : moved l e l' e' (t 1) = t' 2. Proof. ev. Qed.
Lemma moved_2 : moved l e l' e' (t 2) = t 1. Proof. ev. Qed.
Lemma moved_0' : moved l e l' e' (t' 0) = t' 0. Proof. ev. Qed.
Lemma moved_1' : moved l e l' e' (t' 1) = t 2. Proof. ev. Qed.
Lemma moved_2' : moved l e l' e' (t' 2) = t' 1. Proof. ev. Qed.
Lemma moved_other x : fst x <> l -> fst x <> l' -> moved l e l' e' x = x.
Proof.
  intros A B. unfold moved. assert (E : forall k, eqb x (tri_edge l e k) = false) by (intros k; apply eqb_neq; intros ->; apply A; reflexivity).
  assert (E' : forall k, eqb x (tri_edge l' e' k) = false) by (intros k; apply eqb_neq; intros ->; apply B; reflexivity).
  now rewrite !E, !E'.
Qed.
(** the inverse *)
Definition moved_inv (x : hedge) : hedge :=
  if eqb x (t 1) then t 2 else if eqb x (t 2) then t' 1 else if eqb x (t' 1) then t' 2 else if eqb x (t' 2) then t 1 else x.
Local Ltac evi := unfold moved_inv; rewrite ?eqb_refl, ?tt'_neq, ?t't_neq, ?t_neq, ?t'_neq by lia; try reflexivity.
Lemma mi_0 : moved_inv (t 0) = t 0. Proof. evi. Qed.
Lemma mi_1 : moved_inv (t 1) = t 2. Proof. evi. Qed.
Lemma mi_2 : moved_inv (t 2) = t' 1. Proof. evi. Qed.
Lemma mi_0' : moved_inv (t' 0) = t' 0. Proof. evi. Qed.
Lemma mi_1' : moved_inv (t' 1) = t' 2. Proof. evi. Qed.
Lemma mi_2' : moved_inv (t' 2) = t 1. Proof. evi. Qed.
Lemma mi_other x : fst x <> l -> fst x <> l' -> moved_inv x = x.
Proof.
  intros A B. unfold moved_inv, t, t'. assert (E : forall k, eqb x (tri_edge l e k) = false) by (intros k; apply eqb_neq; intros ->; apply A; reflexivity).
  assert (E' : forall k, eqb x (tri_edge l' e' k) = false) by (intros k; apply eqb_neq; intros ->; apply B; reflexivity).
  now rewrite !E, !E'.
Qed.
Definition is_tri (x : hedge) := exists k, (k < 3)%nat /\ (x = t k \/ x = t' k).
(** edges of triangles have numbers 0, 1, 2 *)
Definition fine (x : hedge) := (fst x <> l /\ fst x <> l') \/ is_tri x.
Lemma fine_cases x : fine x -> (fst x <> l /\ fst x <> l') \/ x = t 0 \/ x = t 1 \/ x = t 2 \/ x = t' 0 \/ x = t' 1 \/ x = t' 2.
Proof. intros [A|[k [Hk E]]]; auto. apply lt3 in Hk. destruct Hk as [->|[->| ->]], E as [->| ->]; tauto. Qed.
Lemma moved_mi x : fine x -> moved l e l' e' (moved_inv x) = x.
Proof.
  intros H. destruct (fine_cases x H) as [[A B]|[->|[->|[->|[->|[->| ->]]]]]];
   rewrite ?mi_0, ?mi_1, ?mi_2, ?mi_0', ?mi_1', ?mi_2', ?moved_0, ?moved_1, ?moved_2, ?moved_0', ?moved_1', ?moved_2'; auto.
  rewrite mi_other by auto. now apply moved_other.
Qed.
Lemma mi_moved x : fine x -> moved_inv (moved l e l' e' x) = x.
Proof.
  intros H. destruct (fine_cases x H) as [[A B]|[->|[->|[->|[->|[->| ->]]]]]];
   rewrite ?moved_0, ?moved_1, ?moved_2, ?moved_0', ?moved_1', ?moved_2', ?mi_0, ?mi_1, ?mi_2, ?mi_0', ?mi_1', ?mi_2'; auto.
  rewrite moved_other by auto. now apply mi_other.
Qed.
Lemma tri_is k : (k < 3)%nat -> is_tri (t k) /\ is_tri (t' k).
Proof. intros H. split; exists k; auto. Qed.
Lemma moved_tri x : fine x -> (is_tri x <-> is_tri (moved l e l' e' x)).
Proof.
  intros H. pose proof (tri_is 0 ltac:(lia)). pose proof (tri_is 1 ltac:(lia)). pose proof (tri_is 2 ltac:(lia)).
  destruct (fine_cases x H) as [[A B]|[->|[->|[->|[->|[->| ->]]]]]]; 
   rewrite ?moved_0, ?moved_1, ?moved_2, ?moved_0', ?moved_1', ?moved_2'; try tauto. rewrite moved_other by auto. tauto.
Qed.
Lemma moved_fine x : fine x -> fine (moved l e l' e' x).
Proof.
  intros H. pose proof (moved_tri x H) as M. destruct H as [[A B]|H].
  - rewrite moved_other by auto. left; auto.
  - right. now apply M.
Qed.
Lemma mi_fine x : fine x -> fine (moved_inv x).
Proof.
  intros H. pose proof (tri_is 0 ltac:(lia)). pose proof (tri_is 1 ltac:(lia)). pose proof (tri_is 2 ltac:(lia)).
  unfold fine. destruct (fine_cases x H) as [[A B]|[->|[->|[->|[->|[->| ->]]]]]];
   rewrite ?mi_0, ?mi_1, ?mi_2, ?mi_0', ?mi_1', ?mi_2'; try tauto. rewrite mi_other by auto. tauto.
Qed.

Lemma to_new_ok y : fine y -> y <> t 0 -> y <> t' 0 -> to_new l l' (Z.of_nat e) (Z.of_nat e') (Some y) = Ok (moved l e l' e' y).
Proof.
  intros H N N'. destruct (fine_cases y H) as [[A B]|[->|[->|[->|[->|[->| ->]]]]]]; try contradiction;
   rewrite ?moved_1, ?moved_2, ?moved_1', ?moved_2'.
  - rewrite moved_other by auto. destruct y as [m k]. cbn [fst] in A, B. cbn [to_new].
    rewrite (proj2 (Z.eqb_neq m l)), (proj2 (Z.eqb_neq m l')) by auto. reflexivity.
  - unfold t, t'. rewrite !tri_edge_Z. cbn [to_new]. rewrite Z.eqb_refl. clear -He. apply lt3 in He.
    destruct He as [->|[->| ->]]; reflexivity.
  - unfold t, t'. rewrite !tri_edge_Z. cbn [to_new]. rewrite Z.eqb_refl. clear -He. apply lt3 in He.
    destruct He as [->|[->| ->]]; reflexivity.
  - unfold t, t'. rewrite !tri_edge_Z. cbn [to_new]. rewrite (proj2 (Z.eqb_neq l' l)) by auto. rewrite Z.eqb_refl. clear -He'. apply lt3 in He'.
    destruct He' as [->|[->| ->]]; reflexivity.
  - unfold t, t'. rewrite !tri_edge_Z. cbn [to_new]. rewrite (proj2 (Z.eqb_neq l' l)) by auto. rewrite Z.eqb_refl. clear -He'. apply lt3 in He'.
    destruct He' as [->|[->| ->]]; reflexivity.
Qed.
End Moved.
End Flip.
