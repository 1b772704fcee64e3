(** Theorems C79: step billiards. *)
From Coq Require Import List Bool ZArith Arith Lia QArith.
From Verif Require Import OField MBase MDict MEuclid SEuclid MSim SSim MPoly MMut SMut MSurf SSurf SPoint PFam2 TEuclid TIET TFam SGen MGen MStep SStep PStep5.
Import ListNotations.
Open Scope nat_scope.

(** A step billiard exists exactly if there are as many widths as heights, at least two of them, and if they are all positive or all negative. *)
Theorem C79_exists (K : OField) (w h : list K) :
  (exists c, step_billiard w h empty = (c, Ok tt)) <->
  length w = length h /\ 2 <= length h /\ ((all_positive w /\ all_positive h) \/ (all_negative w /\ all_negative h)).
Proof.
  split.
  - intros (c & E). now apply billiard_inv in E.
  - intros (A & B & C). destruct (billiard_ok w h A B C) as (c & E & _). eauto.
Qed.
Print Assumptions C79_exists.
(** It is a connected half-translation surface without boundary: the unfolding of the staircase. *)
Theorem C79_unfolding (K : OField) (w h : list K) (c : @surf (polygon K)) : step_billiard w h empty = (c, Ok tt) -> unfolded_stairs w h c.
Proof.
  intros E. destruct (billiard_inv w h c E) as (A & B & C). destruct (billiard_ok w h A B C) as (c' & E' & U). rewrite E in E'. now injection E' as <-.
Qed.
Print Assumptions C79_unfolding.

(** ** Examples *)
Definition ex_w : list cqF := [qn 1; qn 1; qn 1; qn 1].
Definition ex_h : list cqF := [qn 1; fdiv (qn 1) (qn 2); fdiv (qn 1) (qn 3); fdiv (qn 1) (qn 5)].
Example C79_ex_ok : is_ok (snd (step_billiard ex_w ex_h empty)) = true.
Proof. vm_compute. reflexivity. Qed.
Example C79_ex_labels : map fst (polys (fst (step_billiard ex_w ex_h empty))) = [0; 1; 2; 3; 4; 5; 6; 7]%Z.
Proof. vm_compute. reflexivity. Qed.
Example C79_ex_area : feqb (total_area (fst (step_billiard ex_w ex_h empty)) 8) (fmul (qn 2) (stairs_area ex_w ex_h)) = true.
Proof. vm_compute. reflexivity. Qed.
Example C79_ex_negative : is_ok (snd (step_billiard [qn (-1); qn (-2)] [qn (-1); qn (-3)] empty)) = true.
Proof. vm_compute. reflexivity. Qed.
Example C79_ex_mixed : is_ok (snd (step_billiard [qn 1; qn 2] [qn 1; qn (-3)] empty)) = false.
Proof. vm_compute. reflexivity. Qed.
Example C79_ex_short : snd (step_billiard [qn 1] [qn 1] empty) = Err ValueError.
Proof. reflexivity. Qed.
