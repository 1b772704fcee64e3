(** Running the generators. *)
From Coq Require Import List Bool ZArith Arith Lia Ring Field QArith Relations.
From Verif Require Import OField FMicromega PField MBase MDict PDict MEuclid SEuclid PEuclid MSim SSim PSim MPoly PPoly MMut SMut PBuild PFlip4
  MSurf SSurf SPoint PPoint MComb PFam2 TPoly2 MGen SGen PGen PGen2 PGen3.
Import ListNotations.

(** labels that are reached from 0 by crossing at most k edges *)
Fixpoint reach (gl : list (hedge * hedge)) (lens : list nat) (k : nat) : list nat :=
  match k with
  | O => [0%nat]
  | S k => let r := reach gl lens k in
      r ++ flat_map (fun i => flat_map (fun e => match partner gl (Z.of_nat i, Z.of_nat e) with Some (l, _) => [Z.to_nat l] | None => nil end) (seq 0 (nth i lens 0%nat))) r
  end.
Definition reaches_all gl lens := forallb (fun i => existsb (Nat.eqb i) (reach gl lens (length lens))) (seq 0 (length lens)).

Section P.
Context {K : OField}.
Add Field KF : (of_ft K).
Local Open Scope F_scope.
Notation nv := (@length (vec K) : polygon K -> nat).

Lemma as_opposite Ps gl (c : @surf (polygon K)) i P e : assembled Ps gl c -> nth_error Ps i = Some P -> (e < length P)%nat ->
  opposite_edge c (Z.of_nat i) (Z.of_nat e) = Ok (partner gl (Z.of_nat i, Z.of_nat e)).
Proof.
  intros A E He. assert (Hi : (i < length Ps)%nat) by (apply nth_error_Some; congruence).
  unfold opposite_edge, dgetE. rewrite (as_gluings _ _ _ A).
  assert (LG : length (gtable gl (map (@length _) Ps)) = length Ps) by (unfold gtable; now rewrite map_length, seq_length, map_length).
  rewrite <- LG. rewrite dget_zlabels. rewrite (proj2 (Z.leb_le _ _)) by lia. rewrite Nat2Z.id.
  assert (NL : nth i (map (@length (vec K)) Ps) 0%nat = length P).
  { apply nth_error_nth. now apply map_nth_error. }
  assert (NE : nth_error (gtable gl (map (@length _) Ps)) i = Some (map (fun e => partner gl (Z.of_nat i, Z.of_nat e)) (seq 0 (length P)))).
  { unfold gtable. rewrite <- NL. apply (map_nth_error (fun i => map (fun e => partner gl (Z.of_nat i, Z.of_nat e)) (seq 0 (nth i (map (@length (vec K)) Ps) 0%nat)))).
    rewrite map_length. rewrite (nth_error_nth' _ 0%nat) by (now rewrite seq_length). now rewrite seq_nth. }
  rewrite NE. apply lgetE_pos; [lia|]. rewrite Nat2Z.id. apply (map_nth_error (fun e => partner gl (Z.of_nat i, Z.of_nat e))).
  rewrite (nth_error_nth' _ 0%nat) by (now rewrite seq_length). now rewrite seq_nth.
Qed.
Lemma reach_linked Ps gl (c : @surf (polygon K)) k : assembled Ps gl c -> complete gl (map (@length _) Ps) = true -> (0 < length Ps)%nat ->
  forall i, In i (reach gl (map (@length _) Ps) k) -> (i < length Ps)%nat /\ linked nv c 0%Z (Z.of_nat i).
Proof.
  intros A C L. induction k as [|k IH]; intros i; cbn [reach].
  - intros [<-|[]]. split; auto. apply rt_refl.
  - rewrite in_app_iff. intros [H|H]; [now apply IH|]. apply in_flat_map in H. destruct H as (j & Hj & H). apply in_flat_map in H. destruct H as (e & He & H).
    destruct (IH j Hj) as [Lj Kj]. destruct (nth_error Ps j) as [P|] eqn:E; [|apply nth_error_None in E; apply Nat.lt_nge in Lj; contradiction].
    rewrite (nth_error_nth _ _ _ (map_nth_error (@length (vec K)) _ _ E)) in He. apply in_seq in He. destruct He as [_ He]. cbn in He.
    destruct (complete_spec Ps gl j P e C E He) as (l' & e' & P' & X & Y & _). rewrite X in H. destruct H as [H|[]]. rewrite Nat2Z.id in H. subst i.
    split; [apply nth_error_Some; congruence|]. eapply rt_trans; [exact Kj|]. apply rt_step. exists (Z.of_nat e), (Z.of_nat e'). split.
    + exists P. cbn [fst snd]. split; [apply (as_polygon Ps gl c A); rewrite Nat2Z.id; split; [lia|auto]|lia].
    + cbn [fst snd]. rewrite (as_opposite Ps gl c j P e A E He). now rewrite X.
Qed.
Lemma as_total Ps gl (c : @surf (polygon K)) : assembled Ps gl c -> total_area c (length Ps) = fold_right (fun P A => area P + A) 0 Ps.
Proof.
  intros A. unfold total_area, labels_upto.
  assert (G : forall Qs k, (forall i, nth_error Qs i = nth_error Ps (k + i)) ->
    fold_right (fun l A => (match get_polygon c l with Ok P => area P | Err _ => 0 end) + A) 0 (map Z.of_nat (seq k (length Qs))) = fold_right (fun P A => area P + A) 0 Qs).
  { induction Qs as [|Q Qs IH]; intros k H; [reflexivity|]. cbn [length seq map fold_right]. rewrite IH.
    - f_equal. assert (E : get_polygon c (Z.of_nat k) = Ok Q). { apply (as_polygon Ps gl c A). rewrite Nat2Z.id. split; [lia|]. specialize (H 0%nat). rewrite Nat.add_0_r in H. now rewrite <- H. }
      now rewrite E.
    - intros i. specialize (H (S i)). cbn in H. now rewrite H, Nat.add_succ_r. }
  apply G. reflexivity.
Qed.
Section R.
Context (prog : list (res (polygon K)) -> M (@surf (polygon K)) unit) (gl : list (hedge * hedge)) (lens : list nat) (v g : nat).
Hypothesis SH : shaped prog gl lens v (inject_Z (Z.of_nat g)).
Hypothesis CO : complete gl lens = true.
Hypothesis RA : reaches_all gl lens = true.
Hypothesis NE : (0 < length lens)%nat.
Lemma run_general kind Ps : map (@length _) Ps = lens -> (forall c, assembled Ps gl c -> good_surface (is_label c) (mut_surface c) kind) ->
  exists c, prog (map Ok Ps) empty = (c, Ok tt) /\ finite_surface kind (length lens) v g (fold_right (fun P A => area P + A) 0 Ps) c.
Proof.
  intros L G. destruct (SH Ps L) as (c & E & A & Gv & Ge). exists c. split; auto.
  assert (LL : length Ps = length lens) by (rewrite <- L; now rewrite map_length).
  assert (LB : forall l, is_label c l <-> (0 <= l < Z.of_nat (length lens))%Z).
  { intros l. rewrite (as_label Ps gl c A). unfold zlabels. rewrite in_map_iff. rewrite <- LL. split.
    - intros (i & <- & H). apply in_seq in H. unfold polygon in *. lia.
    - intros H. exists (Z.to_nat l). split; [lia|]. apply in_seq. unfold polygon in *. lia. }
  constructor; auto.
  - apply (as_mutable _ _ _ A).
  - intros l H. apply LB in H. assert (R := RA). unfold reaches_all in R. rewrite forallb_forall in R. specialize (R (Z.to_nat l)). rewrite in_seq in R. specialize (R ltac:(lia)).
    rewrite existsb_exists in R. destruct R as (j & Hj & X). apply Nat.eqb_eq in X. subst j. rewrite <- L in Hj.
    assert (C1 : complete gl (map (@length _) Ps) = true) by (now rewrite L). assert (N1 : (0 < length Ps)%nat) by (rewrite LL; auto).
    destruct (reach_linked Ps gl c _ A C1 N1 _ Hj) as [_ X]. now rewrite Z2Nat.id in X by lia.
  - unfold labels_upto. rewrite <- LL. exact Gv.
  - unfold labels_upto. rewrite <- LL. exact Ge.
  - rewrite <- LL. apply (as_total Ps gl c A).
Qed.
Lemma run_translation Ps A : map (@length _) Ps = lens -> Forall fine Ps -> Forall (fun xy => opposite (edge_at Ps (fst xy)) (edge_at Ps (snd xy))) gl ->
  fold_right (fun P A => area P + A) 0 Ps = A ->
  exists c, prog (map Ok Ps) empty = (c, Ok tt) /\ finite_surface map_translation (length lens) v g A c.
Proof. intros L F O <-. apply run_general; auto. intros c As. apply (assembled_translation Ps gl c As); auto. now rewrite L. Qed.
Lemma run_dilation Ps A : map (@length _) Ps = lens -> Forall fine Ps -> Forall (fun xy => antiparallel (edge_at Ps (fst xy)) (edge_at Ps (snd xy))) gl ->
  fold_right (fun P A => area P + A) 0 Ps = A ->
  exists c, prog (map Ok Ps) empty = (c, Ok tt) /\ finite_surface map_positive_dilation (length lens) v g A c.
Proof. intros L F O <-. apply run_general; auto. intros c As. apply (assembled_dilation Ps gl c As); auto. now rewrite L. Qed.
End R.
(** a generator only succeeds if all its polygons exist *)
Lemma addp_inv lab r (s s' : @surf (polygon K)) u : addp lab r s = (s', Ok u) -> exists P, r = Ok P.
Proof. unfold addp, mlift, mbind. destruct r as [P|]; [eauto|discriminate]. Qed.
Lemma assemble_inv rs gl (s s' : @surf (polygon K)) u : assemble rs gl s = (s', Ok u) -> Forall (fun r => exists P, r = Ok P) rs.
Proof.
  intros H. apply mbind_inv in H. destruct H as (s1 & [] & H & _). revert s s1 H. induction rs as [|r rs IH]; intros s s1 H; constructor.
  - cbn [mfor] in H. apply mbind_inv in H. destruct H as (s2 & v & H & _). eapply addp_inv; eauto.
  - cbn [mfor] in H. apply mbind_inv in H. destruct H as (s2 & v & _ & H). eapply IH; eauto.
Qed.
End P.
