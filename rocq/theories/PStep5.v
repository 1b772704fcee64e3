(** When step billiards exist. *)
From Coq Require Import List Bool ZArith Arith Lia Ring Field.
From Verif Require Import OField FMicromega PField MBase MDict PDict MEuclid SEuclid PEuclid MSim SSim PSim MPoly PPoly MMut SMut PBuild PFlip4
  MSurf SSurf SPoint PPoint PTurn PFam PFam2 TPoly2 MGen SGen PGen PGen2 MStep SStep PStep PStep2 PStep3 PStep4.
Import ListNotations.

Section P.
Context {K : OField}.
Add Field KF : (of_ft K).
Local Open Scope F_scope.
Notation nv := (@length (vec K) : polygon K -> nat).
Definition same_signs (w h : list K) := (all_positive w /\ all_positive h) \/ (all_negative w /\ all_negative h).
Lemma fold_total (l : list K) : fold_left fadd l 0 = total l.
Proof.
  assert (G : forall (l : list K) (z : K), fold_left fadd l z = z + total l). { unfold total. induction l0 as [|a l0 IH]; intros z; cbn [fold_left fold_right]; [ring|]. rewrite IH. ring. }
  rewrite G. ring.
Qed.
Lemma nth_error_ext {A} (l : list A) : forall l', (forall i, nth_error l i = nth_error l' i) -> l = l'.
Proof.
  induction l as [|a l IH]; intros [|b l'] H; auto; try (specialize (H 0%nat); discriminate). pose proof (H 0%nat) as H0. injection H0 as <-. f_equal. apply IH. intros i. exact (H (S i)).
Qed.
Lemma step_x_snoc (ws : list K) a i : (i <= length ws)%nat -> step_x (ws ++ [a]) i = total (firstn i ws).
Proof. intros H. unfold step_x. rewrite firstn_app. replace (i - length ws)%nat with 0%nat by lia. cbn [firstn]. now rewrite app_nil_r. Qed.
Lemma step_y_snoc (hs : list K) b i : (i <= length hs)%nat -> step_y (hs ++ [b]) i = total (hs ++ [b]) - total (firstn i hs).
Proof.
  intros H. unfold step_y. rewrite <- (firstn_skipn i (hs ++ [b])) at 2. rewrite total_app. rewrite firstn_app. replace (i - length hs)%nat with 0%nat by lia. cbn [firstn]. rewrite app_nil_r. ring.
Qed.
Lemma billiard_ok (w h : list K) : length w = length h -> (2 <= length h)%nat -> same_signs w h -> exists c, step_billiard w h empty = (c, Ok tt) /\ unfolded_stairs w h c.
Proof.
  intros LW N2 SG. destruct (exists_last (l := w)) as (ws & a & Ew); [intros ->; cbn in LW; lia|]. destruct (exists_last (l := h)) as (hs & b & Eh); [intros ->; cbn in N2; lia|].
  assert (L : length ws = length hs) by (subst; rewrite !app_length in LW; cbn in LW; lia).
  assert (Ln : length h = S (length hs)) by (subst; rewrite app_length; cbn; lia).
  assert (GS : good_signs ws hs (total h)).
  { rewrite Eh, total_app. change (total [b]) with (b + 0). destruct SG as [[S1 S2]|[S1 S2]]; [left|right]; (split; [intros z Z; apply S1; rewrite Ew; apply in_or_app; auto|]); (split; [intros z Z; apply S2; rewrite Eh; apply in_or_app; auto|]).
    - assert (0 < b) by (apply S2; rewrite Eh; apply in_or_app; cbn; auto). flra.
    - assert (b < 0) by (apply S2; rewrite Eh; apply in_or_app; cbn; auto). flra. }
  destruct (loop_ok ws hs 0 (total h) L GS) as (ps & EL & Lp & Np).
  unfold step_billiard. rewrite LW, Nat.eqb_refl. cbn [negb]. rewrite (mbind_ok _ _ empty empty tt) by reflexivity.
  rewrite (proj2 (Nat.ltb_ge _ _) N2). rewrite (mbind_ok _ _ empty empty tt) by reflexivity. cbv zeta. rewrite !fold_total.
  assert (RL : removelast w = ws /\ last w 0 = a /\ removelast h = hs /\ last h 0 = b) by (subst; now rewrite !removelast_last, !last_last). destruct RL as (-> & -> & -> & ->).
  rewrite (mbind_ok _ _ empty empty _) by (unfold mlift; now rewrite EL). cbn [fst snd].
  assert (T1 : 0 + total ws = total w - a) by (rewrite Ew, total_app; change (total [a]) with (a + 0); ring).
  assert (T2 : total h - total hs = b) by (rewrite Eh, total_app; change (total [b]) with (b + 0); ring).
  rewrite (proj2 (feqb_eq _ _ _) T1). rewrite (mbind_ok _ _ empty empty tt) by reflexivity.
  rewrite (proj2 (feqb_eq _ _ _) T2). rewrite (mbind_ok _ _ empty empty tt) by reflexivity.
  set (m := length hs) in *.
  assert (FI : forall i, (i <= length hs)%nat -> step_x w i = X0 0 ws i /\ step_y h i = Y0 (total h) hs i).
  { intros i Hi. rewrite Ew, Eh. rewrite step_x_snoc, step_y_snoc by lia. unfold X0, Y0. split; [ring|auto]. }
  assert (Q : [(0 + total ws, 0); (0 + total ws + a, 0); (0 + total ws + a, total h - total hs); (0 + total ws, total h - total hs)] = step w h m).
  { unfold step. rewrite Ln, Nat.eqb_refl. destruct (FI m ltac:(lia)) as [F1 F2]. rewrite F1, F2. unfold X0, Y0. rewrite !firstn_all2 by lia.
    assert (SX : step_x w (S m) = 0 + total ws + a). { unfold step_x. rewrite firstn_all2 by lia. rewrite Ew, total_app. change (total [a]) with (a + 0). ring. }
    rewrite SX. reflexivity. }
  rewrite Q. destruct (fine_steps w h LW N2 SG m) as [F _]; [lia|]. rewrite (mbind_ok _ _ empty empty (step w h m)) by (unfold mlift; now rewrite (fine_vertices _ F)).
  assert (TP : ps ++ [step w h m] = tops w h).
  { apply nth_error_ext. intros i. unfold tops. rewrite nth_error_map. destruct (Nat.lt_trichotomy i m) as [Hi|[->|Hi]].
    - rewrite nth_error_app1 by lia. rewrite Np by lia. rewrite (nth_error_nth' _ 0%nat) by (rewrite seq_length; lia). rewrite seq_nth by lia. cbn [option_map Nat.add].
      unfold step. rewrite (proj2 (Nat.eqb_neq _ _)) by lia. destruct (FI i ltac:(lia)) as [F1 F2], (FI (S i) ltac:(lia)) as [F3 F4]. now rewrite F1, F2, F3, F4.
    - rewrite nth_error_app2 by lia. replace (m - length ps)%nat with 0%nat by lia. rewrite (nth_error_nth' _ 0%nat) by (rewrite seq_length; lia). rewrite seq_nth by lia. reflexivity.
    - rewrite (proj2 (nth_error_None (ps ++ [step w h m]) i)) by (rewrite app_length; cbn; lia). rewrite (proj2 (nth_error_None (seq 0 (length h)) i)) by (rewrite seq_length; lia). reflexivity. }
  rewrite TP. assert (RM : rmap upside_down (tops w h) = Ok (bots w h)).
  { unfold bots, tops. rewrite (rmap_map upside_down (fun P => map flip (rev P))); [now rewrite map_map|]. intros P HP. apply in_map_iff in HP. destruct HP as (i & <- & Hi). apply in_seq in Hi.
    unfold upside_down. change (fun v : vec K => (fst v, - snd v)) with (@flip K). apply fine_vertices. apply (fine_steps w h LW N2 SG i). lia. }
  rewrite (mbind_ok _ _ empty empty (bots w h)) by (unfold mlift; now rewrite RM).
  rewrite (mbind_ok _ _ empty _ tt (add_all_unglued (tops w h) nil)). cbn [app].
  rewrite (mbind_ok _ _ _ _ tt (add_all_unglued (bots w h) (tops w h))).
  destruct (glue_stairs w h LW N2 SG) as (c & Ec & U). exists c. split; auto.
Qed.
Lemma billiard_inv (w h : list K) c : step_billiard w h empty = (c, Ok tt) -> length w = length h /\ (2 <= length h)%nat /\ same_signs w h.
Proof.
  intros E. unfold step_billiard in E. apply mbind_inv in E. destruct E as (s1 & u1 & E1 & E). destruct (Nat.eqb_spec (length w) (length h)) as [LW|]; [|discriminate E1].
  apply mbind_inv in E. destruct E as (s2 & u2 & E2 & E). destruct (Nat.ltb_spec (length h) 2) as [|N2]; [discriminate E2|]. split; auto. split; auto.
  cbv zeta in E. apply mbind_inv in E. destruct E as (s3 & r & E3 & E). injection E3 as _ E3. destruct r as [ps [x y]]. cbn [fst snd] in E.
  apply mbind_inv in E. destruct E as (s4 & u4 & E4 & E). apply mbind_inv in E. destruct E as (s5 & u5 & E5 & E). apply mbind_inv in E. destruct E as (s6 & q & E6 & _).
  destruct (exists_last (l := w)) as (ws & a & Ew); [intros ->; cbn in LW; lia|]. destruct (exists_last (l := h)) as (hs & b & Eh); [intros ->; cbn in N2; lia|].
  assert (RL : removelast w = ws /\ last w 0 = a /\ removelast h = hs /\ last h 0 = b) by (subst; now rewrite !removelast_last, !last_last). destruct RL as (R1 & R2 & R3 & R4).
  rewrite R1, R3 in E3. rewrite R2 in E6. rewrite R4 in E5. assert (L : length ws = length hs) by (subst; rewrite !app_length in LW; cbn in LW; lia).
  assert (YB : y = b). { destruct (y =? b) eqn:B; [now apply feqb_eq in B|discriminate E5]. } subst y.
  injection E6 as _ E6. apply C51_vertices in E6. destruct E6 as (_ & _ & _ & _ & A). rewrite area4 in A. assert (A' : 0 < a * b) by flra. apply pos_prod in A'.
  destruct (loop_inv ws hs _ _ _ _ _ L E3) as [->|[(S1 & S2 & S3)|(S1 & S2 & S3)]].
  - exfalso. destruct hs; [|discriminate L]. subst h. cbn in N2. lia.
  - left. assert (0 < a) by (destruct A' as [[? ?]|[? ?]]; [auto|exfalso; flra]). subst w h. split; intros z Z; apply in_app_or in Z; destruct Z as [Z|[<-|[]]]; auto.
  - right. assert (a < 0) by (destruct A' as [[? ?]|[? ?]]; [exfalso; flra|auto]). subst w h. split; intros z Z; apply in_app_or in Z; destruct Z as [Z|[<-|[]]]; auto.
Qed.
End P.
