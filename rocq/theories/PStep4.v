(** Step billiards unfold to half-translation surfaces. *)
From Coq Require Import List Bool ZArith Arith Lia Ring Field Relations.
From Verif Require Import OField FMicromega PField MBase MDict PDict MEuclid SEuclid PEuclid MSim SSim PSim MPoly PPoly MMut SMut PBuild PFlip4
  MSurf SSurf PSurf PSurf2 PSurf3 SPoint PPoint PFam PFam2 TPoly2 MGen SGen PGen PGen2 PGen4 MStep SStep PStep PStep2 PStep3.
Import ListNotations.

Section P.
Context {K : OField}.
Add Field KF : (of_ft K).
Local Open Scope F_scope.
Notation nv := (@length (vec K) : polygon K -> nat).
Context (w h : list K).
Let n := length h.
Hypothesis LW : length w = n.
Hypothesis N2 : (2 <= n)%nat.
Hypothesis SG : (all_positive w /\ all_positive h) \/ (all_negative w /\ all_negative h).
Definition tops : list (polygon K) := map (step w h) (seq 0 n).
Definition bots : list (polygon K) := map (fun i => map flip (rev (step w h i))) (seq 0 n).
Let X (z : Z) := step_x w (Z.to_nat z).
Let Y (z : Z) := step_y h (Z.to_nat z).
Let zn := Z.of_nat n.

Lemma nth_tops i : (i < n)%nat -> nth_error (tops ++ bots) i = Some (step w h i).
Proof.
  intros H. rewrite nth_error_app1 by (unfold tops; now rewrite map_length, seq_length). unfold tops. rewrite nth_error_map.
  rewrite (nth_error_nth' _ 0%nat) by (now rewrite seq_length). rewrite seq_nth by auto. reflexivity.
Qed.
Lemma nth_bots i : (i < n)%nat -> nth_error (tops ++ bots) (n + i) = Some (map flip (rev (step w h i))).
Proof.
  intros H. rewrite nth_error_app2 by (unfold tops; rewrite map_length, seq_length; lia). unfold tops. rewrite map_length, seq_length. replace (n + i - n)%nat with i by lia.
  unfold bots. rewrite nth_error_map. rewrite (nth_error_nth' _ 0%nat) by (now rewrite seq_length). rewrite seq_nth by auto. reflexivity.
Qed.
Lemma length_all : length (tops ++ bots) = (2 * n)%nat.
Proof. rewrite app_length. unfold tops, bots. rewrite !map_length, !seq_length. lia. Qed.
Lemma top_at i : (0 <= i < zn - 1)%Z -> nth_error (tops ++ bots) (Z.to_nat i) = Some [(X i, 0); (X (i + 1)%Z, 0); (X (i + 1)%Z, Y (i + 1)%Z); (X (i + 1)%Z, Y i); (X i, Y i)].
Proof.
  intros H. rewrite nth_tops by (unfold zn in H; lia). unfold step. fold n. rewrite (proj2 (Nat.eqb_neq _ _)) by (unfold zn in H; lia). unfold X, Y.
  replace (Z.to_nat (i + 1)) with (S (Z.to_nat i)) by lia. reflexivity.
Qed.
Lemma last_at : nth_error (tops ++ bots) (Z.to_nat (zn - 1)) = Some [(X (zn - 1)%Z, 0); (X zn, 0); (X zn, Y (zn - 1)%Z); (X (zn - 1)%Z, Y (zn - 1)%Z)].
Proof.
  rewrite nth_tops by (unfold zn; lia). unfold step. fold n. rewrite (proj2 (Nat.eqb_eq _ _)) by (unfold zn; lia). unfold X, Y.
  replace (Z.to_nat zn) with (S (Z.to_nat (zn - 1))) by (unfold zn; lia). reflexivity.
Qed.
Lemma bot_at i : (0 <= i < zn - 1)%Z -> nth_error (tops ++ bots) (Z.to_nat (zn + i)) = Some [(X i, - Y i); (X (i + 1)%Z, - Y i); (X (i + 1)%Z, - Y (i + 1)%Z); (X (i + 1)%Z, - (0)); (X i, - (0))].
Proof.
  intros H. replace (Z.to_nat (zn + i)) with (n + Z.to_nat i)%nat by (unfold zn; lia). rewrite nth_bots by (unfold zn in H; lia). unfold step. fold n. rewrite (proj2 (Nat.eqb_neq _ _)) by (unfold zn in H; lia). unfold X, Y.
  replace (Z.to_nat (i + 1)) with (S (Z.to_nat i)) by lia. reflexivity.
Qed.
Lemma lastbot_at : nth_error (tops ++ bots) (Z.to_nat (2 * zn - 1)) = Some [(X (zn - 1)%Z, - Y (zn - 1)%Z); (X zn, - Y (zn - 1)%Z); (X zn, - (0)); (X (zn - 1)%Z, - (0))].
Proof.
  replace (Z.to_nat (2 * zn - 1)) with (n + Z.to_nat (zn - 1))%nat by (unfold zn; lia). rewrite nth_bots by (unfold zn; lia). unfold step. fold n. rewrite (proj2 (Nat.eqb_eq _ _)) by (unfold zn; lia). unfold X, Y.
  replace (Z.to_nat zn) with (S (Z.to_nat (zn - 1))) by (unfold zn; lia). reflexivity.
Qed.
(** ** the polygons are accepted *)
Lemma step_x_S i : (i < n)%nat -> exists a, nth_error w i = Some a /\ step_x w (S i) = step_x w i + a.
Proof.
  intros H. destruct (nth_error w i) as [a|] eqn:E; [|apply nth_error_None in E; lia]. exists a. split; auto. unfold step_x.
  destruct (nth_error_split _ _ E) as (l1 & l2 & -> & <-). rewrite !firstn_app. rewrite Nat.sub_diag. replace (S (length l1) - length l1)%nat with 1%nat by lia.
  rewrite (firstn_all2 (n := S (length l1)) l1) by lia. rewrite firstn_all. cbn [firstn]. rewrite app_nil_r, total_app. unfold total. cbn [fold_right]. ring.
Qed.
Lemma skipn_nth {A} (l : list A) i b : nth_error l i = Some b -> skipn i l = b :: skipn (S i) l.
Proof. revert i. induction l as [|a l IH]; intros [|i] E; try discriminate; cbn in *; [now injection E as ->|]. apply IH in E. exact E. Qed.
Lemma step_y_S i : (i < n)%nat -> exists b, nth_error h i = Some b /\ step_y h i = b + step_y h (S i).
Proof.
  intros H. destruct (nth_error h i) as [b|] eqn:E; [|apply nth_error_None in E; unfold n in H; lia]. exists b. split; auto. unfold step_y. rewrite (skipn_nth _ _ _ E). reflexivity.
Qed.
Lemma fine_steps i : (i < n)%nat -> fine (step w h i) /\ fine (map flip (rev (step w h i))).
Proof.
  intros H. destruct (step_x_S i H) as (a & Ea & Xa). destruct (step_y_S i H) as (b & Eb & Yb). apply nth_error_In in Ea, Eb.
  assert (SK : forall z, In z (skipn (S i) h) -> In z h) by (intros z Z; rewrite <- (firstn_skipn (S i) h); apply in_or_app; auto).
  unfold step. fold n. destruct (Nat.eqb_spec (S i) n) as [E|E].
  - assert (Y1 : step_y h (S i) = 0) by (unfold step_y; rewrite skipn_all2 by (unfold n in E; lia); reflexivity).
    cbn [rev app map flip fst snd]. destruct SG as [[S1 S2]|[S1 S2]]; pose proof (S1 a Ea); pose proof (S2 b Eb).
    + split; [apply fine4|apply (fine4r (step_x w i) (step_x w (S i)) (step_y h i))]; flra.
    + split; [apply fine4_neg|apply (fine4r_neg (step_x w i) (step_x w (S i)) (step_y h i))]; flra.
  - assert (Hi : (S i < n)%nat) by lia. destruct (step_y_S (S i) Hi) as (b' & Eb' & Yb'). apply nth_error_In in Eb'.
    assert (SK' : forall z, In z (skipn (S (S i)) h) -> In z h) by (intros z Z; rewrite <- (firstn_skipn (S (S i)) h); apply in_or_app; auto).
    cbn [rev app map flip fst snd]. destruct SG as [[S1 S2]|[S1 S2]]; pose proof (S1 a Ea); pose proof (S2 b Eb); pose proof (S2 b' Eb').
    + assert (0 <= step_y h (S (S i))) by (apply total_pos; intros z Z; auto). split; [apply fine5|apply (fine5r (step_x w i) (step_x w (S i)) (step_y h i) (step_y h (S i)))]; flra.
    + assert (step_y h (S (S i)) <= 0) by (apply total_neg; intros z Z; auto). split; [apply fine5_neg|apply (fine5r_neg (step_x w i) (step_x w (S i)) (step_y h i) (step_y h (S i)))]; flra.
Qed.
Lemma all_fine : Forall fine (tops ++ bots).
Proof.
  apply Forall_app. split; apply Forall_forall; intros P HP; unfold tops, bots in HP; apply in_map_iff in HP; destruct HP as (i & <- & Hi); apply in_seq in Hi; apply fine_steps; lia.
Qed.
(** ** edges *)
Lemma length_at l P : nth_error (tops ++ bots) (Z.to_nat l) = Some P -> (0 <= l)%Z -> (0 <= l < 2 * zn)%Z /\ Z.of_nat (length P) = slen zn l.
Proof.
  intros E L0. assert (B : (0 <= l < 2 * zn)%Z). { assert (Z.to_nat l < length (tops ++ bots))%nat by (apply nth_error_Some; congruence). rewrite length_all in H. unfold zn. lia. }
  split; auto. unfold slen. destruct (Z_lt_le_dec l (zn - 1)) as [H1|H1]; [|destruct (Z.eq_dec l (zn - 1)) as [H2|H2]; [|destruct (Z_lt_le_dec l (2 * zn - 1)) as [H3|H3]]].
  - rewrite top_at in E by lia. injection E as <-. zcase; cbn; lia.
  - subst l. rewrite last_at in E. injection E as <-. zcase; cbn; lia.
  - replace l with (zn + (l - zn))%Z in E by lia. rewrite bot_at in E by lia. injection E as <-. zcase; cbn; lia.
  - assert (l = (2 * zn - 1)%Z) by lia. subst l. rewrite lastbot_at in E. injection E as <-. zcase; cbn; lia.
Qed.
Lemma edge_of_iff x : edge_of (tops ++ bots) x <-> (0 <= fst x < 2 * zn)%Z /\ (0 <= snd x < slen zn (fst x))%Z.
Proof.
  unfold edge_of. split.
  - intros (H0 & P & H1 & H2). destruct (length_at _ _ H1 H0) as [B L]. rewrite L in H2. auto.
  - intros (H0 & H1). split; [lia|]. destruct (nth_error (tops ++ bots) (Z.to_nat (fst x))) as [P|] eqn:E; [|apply nth_error_None in E; rewrite length_all in E; unfold zn in H0; lia].
    exists P. split; auto. destruct (length_at _ _ E) as [B L]; [lia|]. now rewrite L.
Qed.
(** edges that are the same segment of the plane or mirror images of each other *)
Definition matches (x y : hedge) : Prop := exists P P', nth_error (tops ++ bots) (Z.to_nat (fst x)) = Some P /\ nth_error (tops ++ bots) (Z.to_nat (fst y)) = Some P' /\
  let e := Z.to_nat (snd x) in let e' := Z.to_nat (snd y) in
  ((vertex P' (S e') = vertex P e /\ vertex P' e' = vertex P (S e) /\ (fst x < zn <-> fst y < zn)%Z) \/
   (vertex P' (S e') = flip (vertex P e) /\ vertex P' e' = flip (vertex P (S e)) /\ (fst y = fst x + zn \/ fst x = fst y + zn)%Z)).
Lemma flip_flip (p : vec K) : flip (flip p) = p.
Proof. unfold flip. apply vec_eq; cbn; ring. Qed.
Lemma matches_sym x y : matches x y -> matches y x.
Proof.
  intros (P & P' & H1 & H2 & [(A & B & C)|(A & B & C)]); exists P', P; (split; [auto|]); (split; [auto|]).
  - left. split; [auto|]. split; [auto|]. tauto.
  - right. split; [now rewrite B, flip_flip|]. split; [now rewrite A, flip_flip|]. tauto.
Qed.
Ltac vx := lazy [vertex length Nat.modulo Nat.divmod Nat.sub nth flip fst snd Z.to_nat Pos.to_nat Pos.iter_op Nat.add].
Ltac same := left; vx; (split; [apply vec_eq; lazy [fst snd]; try reflexivity; ring|]); (split; [apply vec_eq; lazy [fst snd]; try reflexivity; ring|lia]).
Ltac mirr := right; vx; (split; [apply vec_eq; lazy [fst snd]; try reflexivity; ring|]); (split; [apply vec_eq; lazy [fst snd]; try reflexivity; ring|lia]).
Lemma sg_matches x y : sg zn x y -> matches x y /\ opposite_or_equal (edge_at (tops ++ bots) x) (edge_at (tops ++ bots) y).
Proof.
  assert (Z2 : (2 <= zn)%Z) by (unfold zn; lia).
  assert (B0 : (Z.to_nat zn = Z.to_nat (zn + 0))%nat) by (f_equal; lia).
  assert (B1 : (Z.to_nat (2 * zn - 2) = Z.to_nat (zn + (zn - 2)))%nat) by (f_equal; lia).
  assert (ME : forall P P', nth_error (tops ++ bots) (Z.to_nat (fst x)) = Some P -> nth_error (tops ++ bots) (Z.to_nat (fst y)) = Some P' ->
    (let e := Z.to_nat (snd x) in let e' := Z.to_nat (snd y) in
      (vertex P' (S e') = vertex P e /\ vertex P' e' = vertex P (S e) /\ (fst x < zn <-> fst y < zn)%Z) \/
      (vertex P' (S e') = flip (vertex P e) /\ vertex P' e' = flip (vertex P (S e)) /\ (fst y = fst x + zn \/ fst x = fst y + zn)%Z)) ->
    opposite_or_equal (edge P (Z.to_nat (snd x))) (edge P' (Z.to_nat (snd y))) ->
    matches x y /\ opposite_or_equal (edge_at (tops ++ bots) x) (edge_at (tops ++ bots) y)).
  { intros P P' H1 H2 H3 H4. split; [exists P, P'; auto|]. unfold edge_at. now rewrite (nth_error_nth _ _ _ H1), (nth_error_nth _ _ _ H2). }
  Ltac oe := first [left; lazy [edge vsub vopp vertex length Nat.modulo Nat.divmod Nat.sub nth fst snd Z.to_nat Pos.to_nat Pos.iter_op Nat.add]; apply vec_eq; lazy [fst snd]; ring
    |right; lazy [edge vsub vopp vertex length Nat.modulo Nat.divmod Nat.sub nth fst snd Z.to_nat Pos.to_nat Pos.iter_op Nat.add]; apply vec_eq; lazy [fst snd]; ring].
  intros H. destruct H; cbn [fst snd] in ME.
  - rewrite B0 in ME. eapply ME; [apply top_at; lia|apply bot_at; lia|mirr|oe].
  - eapply ME; [apply last_at|apply lastbot_at|mirr|oe].
  - eapply ME; [apply last_at|apply lastbot_at|mirr|oe].
  - eapply ME; [apply last_at|apply lastbot_at|mirr|oe].
  - eapply ME; [apply top_at; lia|apply bot_at; lia|mirr|oe].
  - eapply ME; [apply top_at; lia|apply bot_at; lia|mirr|oe].
  - eapply ME; [apply top_at; lia|apply bot_at; lia|mirr|oe].
  - eapply ME; [apply top_at; lia|apply last_at|replace (zn - 2 + 1)%Z with (zn - 1)%Z by lia; same|replace (zn - 2 + 1)%Z with (zn - 1)%Z by lia; oe].
  - rewrite B1 in ME. eapply ME; [apply bot_at; lia|apply lastbot_at|replace (zn - 2 + 1)%Z with (zn - 1)%Z by lia; same|replace (zn - 2 + 1)%Z with (zn - 1)%Z by lia; oe].
  - destruct (Z.eq_dec (i + 1) (zn - 1)); [lia|]. eapply ME; [apply top_at; lia|apply top_at; lia|same|oe].
  - replace (zn + i + 1)%Z with (zn + (i + 1))%Z in * by lia. eapply ME; [apply bot_at; lia|apply bot_at; lia|same|oe].
Qed.
(** ** areas *)
Lemma area_step i : (i < n)%nat -> area (step w h i) = (step_x w (S i) - step_x w i) * step_y h i /\ area (map flip (rev (step w h i))) = area (step w h i).
Proof.
  intros H. unfold step. destruct (S i =? length h)%nat; cbn [rev app map flip fst snd].
  - rewrite area4. split; [auto|apply area4r].
  - rewrite area5. split; [auto|apply area5r].
Qed.
Lemma area_tops m : forall k, (k + m = n)%nat -> fold_right (fun P A => area P + A) 0 (map (step w h) (seq k m)) = stairs_area (skipn k w) (skipn k h).
Proof.
  induction m as [|m IH]; intros k E.
  - cbn. rewrite skipn_all2 by lia. reflexivity.
  - cbn [seq map fold_right]. rewrite IH by lia. destruct (step_x_S k) as (a & Ea & Xa); [lia|]. destruct (step_y_S k) as (b & Eb & Yb); [lia|].
    rewrite (proj1 (area_step k ltac:(lia))). rewrite (skipn_nth _ _ _ Ea), (skipn_nth _ _ _ Eb). cbn [stairs_area]. rewrite <- (skipn_nth _ _ _ Eb). fold (step_y h k). rewrite Xa. ring.
Qed.
Lemma area_all : fold_right (fun P A => area P + A) 0 (tops ++ bots) = 2 * stairs_area w h.
Proof.
  rewrite fold_right_app. assert (EB : forall m k, (k + m = n)%nat -> fold_right (fun P A => area P + A) 0 (map (fun i => map flip (rev (step w h i))) (seq k m)) = fold_right (fun P A => area P + A) 0 (map (step w h) (seq k m))).
  { induction m as [|m IH]; intros k E; [reflexivity|]. cbn [seq map fold_right]. rewrite IH by lia. now rewrite (proj2 (area_step k ltac:(lia))). }
  unfold bots. rewrite EB by lia. unfold tops. rewrite area_tops by lia. cbn [skipn].
  assert (FA : forall l (z : K), fold_right (fun (P : polygon K) A => area P + A) z l = fold_right (fun P A => area P + A) 0 l + z).
  { induction l as [|P l IH]; intros z; cbn [fold_right]; [ring|]. rewrite IH. ring. }
  rewrite FA, area_tops by lia. cbn [skipn]. ring.
Qed.
(** ** the surface *)
Lemma unfolded c : paired_surface (tops ++ bots) (step_gluings n) c -> unfolded_stairs w h c.
Proof.
  intros A. assert (Z2 : (2 <= zn)%Z) by (unfold zn; lia).
  assert (GL : forall x y, sg zn x y -> glued nv c x y /\ glued nv c y x).
  { intros x y H. apply sg_In in H; auto. split; apply (pa_glued _ _ _ A); auto. }
  assert (PG : forall l P, get_polygon c l = Ok P <-> (0 <= l)%Z /\ nth_error (tops ++ bots) (Z.to_nat l) = Some P) by apply (pa_polygon _ _ _ A).
  constructor.
  - apply (pa_immutable _ _ _ A).
  - intros l. rewrite (pa_label _ _ _ A), length_all. fold n. lia.
  - intros i Hi. apply PG. split; [lia|]. rewrite Nat2Z.id. now apply nth_tops.
  - intros i Hi. apply PG. split; [lia|]. rewrite Nat2Z.id. now apply nth_bots.
  - apply (paired_good _ _ _ A opposite_or_equal); [apply opposite_or_equal_sym|apply opposite_or_equal_kind|apply ext_half_translation| |apply all_fine|].
    + intros [l e] H. apply edge_of_iff in H. destruct H as [H1 H2]. destruct (sg_complete zn l e Z2 H1 H2) as [y [Hy|Hy]]; exists y; [left|right]; apply sg_In; auto.
    + apply Forall_forall. intros [x y] H. apply sg_In in H; auto. now apply sg_matches.
  - assert (ST : forall l l' e e', sg zn (l, e) (l', e') -> adjacent nv c l l') by (intros l l' e e' H; exists e, e'; exact (proj1 (GL _ _ H))).
    assert (LT : forall i, (i < n)%nat -> linked nv c 0%Z (Z.of_nat i)).
    { induction i as [|i IH]; intros Hi; [apply rt_refl|]. eapply rt_trans; [apply IH; lia|]. apply rt_step. destruct (Nat.eq_dec (S i) (n - 1)) as [E|E].
      - replace (Z.of_nat i) with (zn - 2)%Z by (unfold zn; lia). replace (Z.of_nat (S i)) with (zn - 1)%Z by (unfold zn; lia). eapply ST, sg8.
      - replace (Z.of_nat (S i)) with (Z.of_nat i + 1)%Z by lia. eapply ST, sg10. unfold zn. lia. }
    intros l Hl. apply (pa_label _ _ _ A) in Hl. rewrite length_all in Hl. destruct (Z_lt_le_dec l zn) as [H|H].
    + replace l with (Z.of_nat (Z.to_nat l)) by lia. apply LT. unfold zn in H. lia.
    + eapply rt_trans; [apply (LT (Z.to_nat (l - zn))); unfold zn in *; lia|]. apply rt_step. rewrite Z2Nat.id by lia. destruct (Z.eq_dec (l - zn) (zn - 1)) as [E|E].
      * rewrite E. replace l with (2 * zn - 1)%Z by lia. eapply ST, sg2.
      * replace l with (zn + (l - zn))%Z at 2 by lia. eapply ST, sg5. unfold zn in *. lia.
  - intros l e P HP He. apply PG in HP. destruct HP as [L0 HP]. destruct (length_at _ _ HP L0) as [B LP].
    destruct (sg_complete zn l (Z.of_nat e) Z2 B) as [y Hy]; [unfold polygon in *; lia|].
    assert (MT : matches (l, Z.of_nat e) y /\ glued nv c (l, Z.of_nat e) y).
    { destruct Hy as [Hy|Hy]; [split; [now apply sg_matches|exact (proj1 (GL _ _ Hy))]|split; [apply matches_sym; now apply sg_matches|exact (proj2 (GL _ _ Hy))]]. }
    destruct MT as [(P1 & P' & H1 & H2 & H3) HG]. cbn [fst snd] in *. rewrite HP in H1. injection H1 as <-. destruct y as [l' e']. cbn [fst snd] in *.
    assert (R : (0 <= l')%Z /\ (0 <= e')%Z). { destruct Hy as [Hy|Hy]; apply sg_range in Hy; auto; cbn [fst snd] in Hy; lia. }
    exists l', (Z.to_nat e'), P'. rewrite Z2Nat.id by lia. split; auto. split; [apply PG; tauto|]. rewrite Nat2Z.id in H3. exact H3.
  - replace (2 * length h)%nat with (length (tops ++ bots)) by (rewrite length_all; reflexivity). rewrite (pa_total _ _ _ A). apply area_all.
Qed.
Lemma glue_stairs : exists c, mbind (glues (step_gluings n)) (fun _ => set_immutable nv) (unglued (tops ++ bots)) = (c, Ok tt) /\ unfolded_stairs w h c.
Proof.
  assert (Z2 : (2 <= zn)%Z) by (unfold zn; lia).
  destruct (glue_all (tops ++ bots) (step_gluings n)) as (c & E & A).
  - intros x y y'. rewrite !sg_In by auto. now apply sg_functional.
  - intros x y H. apply sg_In in H; auto. rewrite !edge_of_iff. apply (sg_range zn) in H; auto.
  - exists c. split; auto. now apply unfolded.
Qed.
End P.
