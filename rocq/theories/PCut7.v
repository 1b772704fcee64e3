(** Proofs about cutting and joining polygons: joining after cutting. *)
From Coq Require Import List Bool ZArith Arith Lia Relations.
From Coq Require Import Ring Field.
From Verif Require Import OField FMicromega PField MBase MDict PDict MEuclid SEuclid PEuclid MSim SSim PSim MPoly PPoly MMut SMut PMut PMut2 PMut3 PBuild TMut
  MSurf SSurf PSurf PSurf3 SPoint MPoint PPoint PSimple TPoly2 PSubdiv PSubdiv2 PSubdiv3 MCut SCut PCut PCut2 PCut3 PCut4 PCut5 PCut6.
Import ListNotations.

Section K.
Context {K : OField}.
Add Field KF : (of_ft K).
Local Open Scope F_scope.
Notation nv := (@length (vec K) : polygon K -> nat).
Notation surf := (@surf (polygon K)).

Lemma cut_intact (s : surf) p P v1 v2 lab : intact nv s -> mutable s = true -> (forall l P, get_polygon s l = Ok P -> nondeg P) ->
  get_polygon s p = Ok P -> (v1 < length P)%nat -> (v2 < length P)%nat -> (2 <= off v1 (length P) v2 <= length P - 2)%nat ->
  (forall x, is_edge nv s x -> fst x = p -> exists y, glued nv s x y) ->
  proper (left_piece P v1 v2) -> proper (right_piece P v1 v2) -> (forall l, lab = Some l -> ~ is_label s l) ->
  exists t r k, subdivide_polygon p v1 v2 lab s = (t, r) /\ (r = Ok tt \/ r = Err AssertionError) /\
  ((forall x, In x (roots_ s) -> x = p) -> r = Ok tt /\ roots_ t = nil) /\
  (r = Ok tt -> intact nv t /\ mutable t = true /\ (forall l, lab = Some l -> k = l) /\ polygon_cut s t p k P v1 v2).
Proof.
  intros I Mu ND EP H1 H2 Hw GL PL PR HL. pose proof (intact_good _ s I) as GD.
  apply left_accepted in PL; auto. apply right_accepted in PR; auto. destruct PL as [Q1 E1], PR as [Q2 E2].
  destruct (cut_main s p P v1 v2 GD Mu ND EP H1 H2 Hw) with (Q1 := Q1) (Q2 := Q2) (lab := lab) as (t & r & k & A & B & C & D); auto.
  - intros i Hi. destruct (GL (p, Z.of_nat i)) as [y Hy]; auto. { exists P. cbn [fst snd]. split; auto. change (nv P) with (length P). lia. }
    exists y. now apply (glued_gz nv s _ _ (g_inv nv s GD)).
  - now apply intact_reachable.
  - exists t, r, k. split; auto. split; auto. split; auto. intros Er. destruct (D Er) as (D1 & D2 & D3 & D4). split; auto. now apply reachable_intact.
Qed.

Lemma join_intact (s : surf) p1 P1 e1 p2 P2 e2 T : intact nv s -> mutable s = true -> (forall l P, get_polygon s l = Ok P -> nondeg P) ->
  get_polygon s p1 = Ok P1 -> get_polygon s p2 = Ok P2 -> p1 <> p2 -> glued nv s (p1, Z.of_nat e1) (p2, Z.of_nat e2) -> gluing_map P2 e2 P1 e1 T ->
  (forall x, is_edge nv s x -> fst x = p1 \/ fst x = p2 -> exists y, glued nv s x y) ->
  proper (union P1 e1 P2 e2 T) ->
  exists t r, join_polygons p1 e1 true s = (t, r) /\ (r = Ok tt \/ r = Err AssertionError) /\
  ((forall rs, get_roots nv s = Ok rs -> forall x, In x (if mem p2 rs then rs else roots_ s) -> x = p1 \/ x = p2) -> r = Ok tt /\ roots_ t = nil) /\
  (r = Ok tt -> intact nv t /\ mutable t = true /\ polygons_joined s t p1 P1 e1 p2 P2 e2 T).
Proof.
  intros I Mu ND EP1 EP2 NE G0 GM GL PU. pose proof (intact_good _ s I) as GD.
  assert (G0' := proj1 (glued_gz nv s _ _ (g_inv nv s GD)) G0).
  assert (GL' : forall x, is_edge nv s x -> fst x = p1 \/ fst x = p2 -> exists y, gz (gluings s) x = Some y).
  { intros x Hx F. destruct (GL x Hx F) as [y Hy]. exists y. now apply (glued_gz nv s _ _ (g_inv nv s GD)). }
  destruct (jbounds s p1 p2 P1 P2 e1 e2 GD ND EP1 EP2 G0') as (B1 & B2 & B3 & B4).
  destruct (edge_transformation_raw (mut_surface s) p2 e2 P2 p1 e1 P1) as [t0 [Et0 _]]; auto.
  { cbn [s_opp mut_surface]. assert (O : opposite_edge s p2 (Z.of_nat e2) = Ok (Some (p1, Z.of_nat e1))).
    { apply opposite_edge_Ok; [lia|]. apply (i_inv nv s (g_inv nv s GD)) in G0'. split; auto. eapply gz_range; eauto. }
    rewrite O. now rewrite Nat2Z.id. }
  { apply (ND _ _ EP2). } { apply (ND _ _ EP1). }
  destruct (transformation s p1 p2 P1 P2 e1 e2 T GD ND EP1 EP2 G0' GM t0 Et0) as (Kt & St & Tt).
  destruct (proj1 (union_accepted P1 P2 e1 e2 t0 T B1 B2 B3 B4 Tt (gm_start _ _ _ _ _ GM) (gm_end _ _ _ _ _ GM)) PU) as [Q EQ].
  destruct (join_main s p1 p2 P1 P2 e1 e2 T GD Mu ND EP1 EP2 NE G0' GM GL' t0 Q Et0 EQ (intact_reachable _ s I)) as (t & r & A & B & C & D).
  exists t, r. split; auto. split; auto. split; auto. intros Er. destruct (D Er) as (D1 & D2 & D3). split; auto. now apply reachable_intact.
Qed.

Section Round.
Variables (s t : surf) (p k : label) (P : polygon K) (v1 v2 : nat).
Hypotheses (Is : intact nv s) (It : intact nv t) (Mt : mutable t = true).
Hypothesis PP : forall l P, get_polygon s l = Ok P -> nondeg P.
Hypotheses (EP : get_polygon s p = Ok P) (PR : proper P) (H1 : (v1 < length P)%nat) (H2 : (v2 < length P)%nat).
Hypothesis Hw : (2 <= off v1 (length P) v2 <= length P - 2)%nat.
Hypothesis GL : forall x, is_edge nv s x -> fst x = p -> exists y, glued nv s x y.
Hypothesis CUT : polygon_cut s t p k P v1 v2.
Notation ne := (length P).
Notation w := (off v1 (length P) v2).
Notation psi := (cut_name p k (length P) v1 v2).

Lemma r_kp : k <> p.
Proof. intros ->. apply (pc_new _ _ _ _ _ _ _ CUT). now exists P. Qed.
Lemma r_edge j : (j < ne)%nat -> is_edge nv s (p, Z.of_nat j).
Proof. intros Hj. exists P. cbn [fst snd]. split; auto. change (nv P) with ne. lia. Qed.
Lemma r_name j : (j < ne)%nat -> psi (p, Z.of_nat ((v1 + j) mod ne)) = if (j <? w)%nat then (k, Z.of_nat (j + 1)) else (p, Z.of_nat (j - w + 1)).
Proof.
  intros Hj. unfold cut_name. cbn [fst snd]. rewrite Z.eqb_refl, Nat2Z.id, off_mod by lia. cbv zeta. replace (v1 + j - v1)%nat with j by lia. reflexivity.
Qed.
Lemma r_move j q : (j < ne)%nat -> cut_move p P v1 v2 (p, Z.of_nat ((v1 + j) mod ne)) q = if (j <? w)%nat then vsub q (vertex P v2) else vsub q (vertex P v1).
Proof.
  intros Hj. unfold cut_move. cbn [fst snd]. rewrite Z.eqb_refl, Nat2Z.id, off_mod by lia. replace (v1 + j - v1)%nat with j by lia. reflexivity.
Qed.
Lemma r_next j : (j < ne)%nat -> vertex P (S ((v1 + j) mod ne)) = vertex P (v1 + S j).
Proof.
  intros Hj. rewrite <- vertex_mod, <- (vertex_mod P (v1 + S j)). f_equal. rewrite <- (Nat.add_1_r ((v1 + j) mod ne)), Nat.add_mod_idemp_l by lia. f_equal. lia.
Qed.

(** the pieces *)
Variables (Q1 Q2 : polygon K).
Hypotheses (EQ1 : get_polygon t p = Ok Q1) (EQ2 : get_polygon t k = Ok Q2).
Lemma r_piece2 j : (j <= w)%nat -> vertex Q2 (S j) = vsub (vertex P (v1 + j)) (vertex P v2).
Proof.
  intros Hj. assert (E : forall i, (i < w)%nat -> vertex Q2 (i + 1) = vsub (vertex P (v1 + i)) (vertex P v2) /\ vertex Q2 (S (i + 1)) = vsub (vertex P (v1 + S i)) (vertex P v2)).
  { intros i Hi. pose proof (Nat.mod_upper_bound (v1 + i) ne ltac:(lia)) as MU.
    pose proof (rc_ends _ _ _ _ _ (pc_recut _ _ _ _ _ _ _ CUT) (p, Z.of_nat ((v1 + i) mod ne)) P Q2 (r_edge _ MU) I EP) as R.
    rewrite r_name in R by lia. rewrite !r_move in R by lia. destruct (Nat.ltb_spec i w); [|lia]. cbn [fst snd] in R. rewrite !Nat2Z.id in R. rewrite r_next, vertex_mod in R by lia. apply R. exact EQ2. }
  destruct j as [|j]; [destruct (E 0%nat ltac:(lia)) as [A _]; exact A|]. destruct (E j ltac:(lia)) as [_ A]. rewrite Nat.add_1_r in A. exact A.
Qed.
Lemma r_piece1 j : (j <= ne - w)%nat -> vertex Q1 (S j) = vsub (vertex P (v1 + w + j)) (vertex P v1).
Proof.
  intros Hj. assert (E : forall i, (w <= i < ne)%nat -> vertex Q1 (i - w + 1) = vsub (vertex P (v1 + i)) (vertex P v1) /\ vertex Q1 (S (i - w + 1)) = vsub (vertex P (v1 + S i)) (vertex P v1)).
  { intros i Hi. pose proof (Nat.mod_upper_bound (v1 + i) ne ltac:(lia)) as MU.
    pose proof (rc_ends _ _ _ _ _ (pc_recut _ _ _ _ _ _ _ CUT) (p, Z.of_nat ((v1 + i) mod ne)) P Q1 (r_edge _ MU) I EP) as R.
    rewrite r_name in R by lia. rewrite !r_move in R by lia. destruct (Nat.ltb_spec i w); [lia|]. cbn [fst snd] in R. rewrite !Nat2Z.id in R. rewrite r_next, vertex_mod in R by lia. apply R. exact EQ1. }
  destruct j as [|j].
  - destruct (E w ltac:(lia)) as [A _]. rewrite Nat.sub_diag in A. rewrite Nat.add_0_r. exact A.
  - destruct (E (w + j)%nat ltac:(lia)) as [_ A]. replace (S (w + j - w + 1)) with (S (S j)) in A by lia. rewrite A. do 2 f_equal. lia.
Qed.
Definition r_map (q : vec K) : vec K := vadd q (vsub (vertex P v2) (vertex P v1)).
Hypotheses (LQ2 : length Q2 = S w) (LQ1 : length Q1 = S (ne - w)) (V1 : vertex Q1 0 = vzero) (V2 : vertex Q2 0 = vzero).
Lemma r_gluing : gluing_map Q2 0 Q1 0 r_map.
Proof.
  constructor.
  - exists 1. split; [apply flt_0_1|]. intros a b. unfold r_map, dist2, dot. destruct a, b, (vsub (vertex P v2) (vertex P v1)). cbn. ring.
  - intros a b c H. unfold r_map. replace (orient _ _ _) with (orient a b c); auto. unfold orient, ccw. destruct a, b, c, (vsub (vertex P v2) (vertex P v1)). cbn. ring.
  - rewrite V2, (r_piece1 0) by lia. rewrite Nat.add_0_r, v2_vertex0 by auto. unfold r_map. destruct (vertex P v2), (vertex P v1). apply vec_eq; cbn; ring.
  - rewrite V1, (r_piece2 0) by lia. rewrite Nat.add_0_r. unfold r_map. destruct (vertex P v2), (vertex P v1). apply vec_eq; cbn; ring.
Qed.
Lemma r_union : proper (union Q1 0 Q2 0 r_map).
Proof.
  pose proof (proper_window P (v1 + ne) PR) as W. 
  assert (E : union Q1 0 Q2 0 r_map = translate (map (fun j => vertex P (v1 + ne + j)) (seq 0 ne)) (vopp (vertex P v1))); [|rewrite E; now apply proper_translate].
  unfold union. rewrite LQ1, LQ2. unfold translate. rewrite map_map. replace (S (ne - w) - 1)%nat with (ne - w)%nat by lia. replace (S w - 2)%nat with (w - 1)%nat by lia.
  replace (seq 0 ne) with (seq 0 (1 + ((w - 1) + (ne - w)))) by (f_equal; lia). rewrite !seq_app, !map_app. f_equal; [|f_equal].
  - cbn [seq map]. f_equal. rewrite V1, Nat.add_0_r, vertex_plus. destruct (vertex P v1). apply vec_eq; cbn; ring.
  - apply map_seq_shift. intros j Hj. replace (0 + 2 + j)%nat with (S (S j)) by lia. rewrite r_piece2 by lia.
    replace (v1 + ne + (0 + 1 + j))%nat with (v1 + S j + ne)%nat by lia. rewrite vertex_plus. unfold r_map. destruct (vertex P (v1 + S j)), (vertex P v2), (vertex P v1). apply vec_eq; cbn; ring.
  - apply map_seq_shift. intros j Hj. change (1 + j)%nat with (S j). rewrite r_piece1 by lia.
    replace (v1 + ne + (0 + 1 + (w - 1) + j))%nat with (v1 + w + j + ne)%nat by lia. rewrite vertex_plus. destruct (vertex P (v1 + w + j)), (vertex P v1). apply vec_eq; cbn; ring.
Qed.
Lemma r_glued x : is_edge nv t x -> fst x = p \/ fst x = k -> exists y, glued nv t x y.
Proof.
  intros Hx F. destruct (pc_edges _ _ _ _ _ _ _ CUT x Hx) as [->|[->|(x0 & Hx0 & ->)]].
  - exists (k, 0%Z). apply (pc_diagonal _ _ _ _ _ _ _ CUT).
  - exists (p, 0%Z). pose proof (pc_diagonal _ _ _ _ _ _ _ CUT) as G. pose proof (g_inv nv t (intact_good _ t It)) as Iv. apply (glued_gz nv t _ _ Iv). apply (glued_gz nv t _ _ Iv) in G. now apply (i_inv nv t Iv).
  - assert (F0 : fst x0 = p).
    { unfold cut_name in F. destruct (Z.eqb_spec (fst x0) p); auto. destruct F as [F|F]; auto. exfalso. apply (pc_new _ _ _ _ _ _ _ CUT). destruct Hx0 as [P0 [E0 _]]. exists P0. now rewrite <- F. }
    destruct (GL x0 Hx0 F0) as [y Hy]. exists (psi y). pose proof (g_inv nv s (intact_good _ s Is)) as Iv.
    apply (rc_glued _ _ _ _ _ (pc_recut _ _ _ _ _ _ _ CUT)); auto. apply (glued_gz nv s _ _ Iv) in Hy. apply (i_inv nv s Iv) in Hy. apply (glued_gz nv s _ _ Iv) in Hy. apply Hy.
Qed.
Lemma r_nondeg l Q : get_polygon t l = Ok Q -> nondeg Q.
Proof.
  intros E. destruct (pc_pieces _ _ _ _ _ _ _ CUT) as (R1 & R2 & A1 & A2 & _ & _ & _ & _ & _ & _ & B1 & B2 & _).
  destruct (Z.eq_dec l p) as [->|N]; [rewrite E in A1; injection A1 as <-; now apply proper_nondeg|]. destruct (Z.eq_dec l k) as [->|N']; [rewrite E in A2; injection A2 as <-; now apply proper_nondeg|].
  rewrite (pc_other _ _ _ _ _ _ _ CUT) in E by auto. eapply PP; eauto.
Qed.
Lemma r_turn x : is_edge nv s x -> join_name p 0 k 0 (S w) (psi x) = turn_name p ne v1 x.
Proof.
  intros Hx. pose proof r_kp as KP. destruct x as [l i]. unfold cut_name, turn_name. cbn [fst snd]. destruct (Z.eqb_spec l p) as [->|N].
  - cbv zeta. assert (Hi : (0 <= i < Z.of_nat ne)%Z) by (destruct Hx as [P' [E H]]; cbn [fst snd] in *; rewrite EP in E; injection E as <-; exact H).
    pose proof (off_lt v1 ne (Z.to_nat i) ltac:(lia)) as L. unfold join_name.
    destruct (Nat.ltb_spec (off v1 ne (Z.to_nat i)) w) as [A|A]; cbn [fst snd]; rewrite Nat2Z.id.
    + destruct (Z.eqb_spec k p); [contradiction|]. rewrite Z.eqb_refl. do 2 f_equal. pose proof (off_mod 0 (S w) (off v1 ne (Z.to_nat i) + 1) ltac:(lia) ltac:(lia)) as O.
      rewrite Nat.mod_small in O by lia. rewrite O. lia.
    + rewrite Z.eqb_refl. destruct (Nat.ltb_spec (off v1 ne (Z.to_nat i) - w + 1) 0); [lia|]. do 2 f_equal. lia.
  - unfold join_name. cbn [fst snd]. destruct (Z.eqb_spec l p); [contradiction|]. destruct (Z.eqb_spec l k) as [->|N']; auto.
    exfalso. apply (pc_new _ _ _ _ _ _ _ CUT). destruct Hx as [P0 [E0 _]]. now exists P0.
Qed.
Lemma r_kept x : is_edge nv s x -> psi x <> (p, Z.of_nat 0) /\ psi x <> (k, Z.of_nat 0).
Proof.
  intros Hx. pose proof r_kp as KP. destruct x as [l i]. unfold cut_name. cbn [fst snd]. destruct (Z.eqb_spec l p) as [->|N].
  - cbv zeta. destruct (off v1 ne (Z.to_nat i) <? w)%nat; split; intros E; try (apply (f_equal fst) in E; cbn [fst] in E; congruence); apply (f_equal snd) in E; cbn [snd] in E; lia.
  - split; intros E; apply (f_equal fst) in E; cbn [fst] in E; [contradiction|]. apply (pc_new _ _ _ _ _ _ _ CUT). destruct Hx as [P0 [E0 _]]. cbn [fst] in E0. exists P0. now rewrite <- E.
Qed.
Lemma round_renumbered u : polygons_joined t u p Q1 0 k Q2 0 r_map -> renumbered s u p P v1.
Proof.
  intros J. pose proof r_kp as KP. pose proof (pc_recut _ _ _ _ _ _ _ CUT) as RC. pose proof (pj_recut _ _ _ _ _ _ _ _ _ J) as RJ. rewrite LQ2 in RJ.
  assert (LK : forall l, is_label s l -> l <> k) by (intros l Hl ->; now apply (pc_new _ _ _ _ _ _ _ CUT)).
  constructor.
  - intros l. rewrite (pj_labels _ _ _ _ _ _ _ _ _ J), (pc_labels _ _ _ _ _ _ _ CUT). split; [intros [[A|A] B]; [auto|contradiction]|]. intros H. split; auto.
  - intros l Hl N. rewrite (pj_other _ _ _ _ _ _ _ _ _ J), (pc_other _ _ _ _ _ _ _ CUT); auto.
  - destruct (pj_polygon _ _ _ _ _ _ _ _ _ J) as (R & c & ER & LR & VR & _). exists R. split; auto.
    assert (LR' : length R = ne) by (rewrite LR, LQ1, LQ2; lia). split; auto.
    assert (A : forall j, (j < ne)%nat -> vertex R j = vsub (vertex P (v1 + j)) (vertex P v1)).
    { intros j Hj. pose proof (Nat.mod_upper_bound (v1 + j) ne ltac:(lia)) as MU. pose proof (r_edge _ MU) as HE. set (x := (p, Z.of_nat ((v1 + j) mod ne))) in *.
      pose proof (r_turn x HE) as TN. assert (TN' : turn_name p ne v1 x = (p, Z.of_nat j)).
      { unfold turn_name, x. cbn [fst snd]. rewrite Z.eqb_refl, Nat2Z.id, off_mod by lia. do 2 f_equal. lia. }
      assert (NX : psi x = if (j <? w)%nat then (k, Z.of_nat (j + 1)) else (p, Z.of_nat (j - w + 1))) by (now apply r_name).
      assert (HP := rc_edge _ _ _ _ _ RC x HE I).
      pose proof (rc_ends _ _ _ _ _ RJ (psi x) (if (j <? w)%nat then Q2 else Q1) R HP (r_kept x HE)) as RE. rewrite TN, TN' in RE. cbn [fst snd] in RE. rewrite Nat2Z.id in RE.
      destruct RE as [RE _]; [|exact ER|].
      { rewrite NX. destruct (j <? w)%nat; cbn [fst]; auto. }
      rewrite RE, NX. unfold join_move. destruct (Nat.ltb_spec j w); cbn [fst snd]; rewrite Nat2Z.id, ?Z.eqb_refl, ?V1.
      - destruct (Z.eqb_spec k p); [contradiction|]. rewrite Nat.add_1_r, r_piece2 by lia. unfold r_map. destruct (vertex P (v1 + j)), (vertex P v2), (vertex P v1). apply vec_eq; cbn; ring.
      - rewrite Nat.add_1_r, r_piece1 by lia. replace (v1 + w + (j - w))%nat with (v1 + j)%nat by lia. destruct (vertex P (v1 + j)), (vertex P v1). apply vec_eq; cbn; ring. }
    intros j. rewrite <- vertex_mod, LR', A by (apply Nat.mod_upper_bound; lia). f_equal. rewrite <- vertex_mod, <- (vertex_mod P (v1 + j)), Nat.add_mod_idemp_r by lia. reflexivity.
  - intros y. split.
    + intros Hy. destruct (pj_edges _ _ _ _ _ _ _ _ _ J y Hy) as (x & Hx & N1 & N2 & ->). rewrite LQ2.
      destruct (pc_edges _ _ _ _ _ _ _ CUT x Hx) as [->|[->|(x0 & Hx0 & ->)]]; [contradiction|contradiction|]. exists x0. split; auto. now apply r_turn.
    + intros (x & Hx & ->). rewrite <- r_turn by auto. apply (rc_edge _ _ _ _ _ RJ); [|now apply r_kept]. now apply (rc_edge _ _ _ _ _ RC).
  - intros x y Hx Hy. rewrite <- !r_turn by auto. rewrite (rc_glued _ _ _ _ _ RJ) by (try (now apply r_kept); now apply (rc_edge _ _ _ _ _ RC)). now apply (rc_glued _ _ _ _ _ RC).
  - intros x Hx. rewrite <- !r_turn by auto. rewrite (rc_free _ _ _ _ _ RJ) by (try (now apply r_kept); now apply (rc_edge _ _ _ _ _ RC)). now apply (rc_free _ _ _ _ _ RC).
Qed.
End Round.

(** the pieces of a connected surface form a connected surface *)
Lemma cut_connected (s t : surf) p k P v1 v2 : intact nv s -> intact nv t -> get_polygon s p = Ok P -> polygon_cut s t p k P v1 v2 ->
  (forall l l', is_label s l -> is_label s l' -> linked nv s l l') -> forall l l', is_label t l -> is_label t l' -> linked nv t l l'.
Proof.
  intros Is It EP CUT CO. pose proof (g_inv nv s (intact_good _ s Is)) as Iv. pose proof (g_inv nv t (intact_good _ t It)) as Ivt.
  assert (PK : conn (gluings t) p k). { apply rt_step. exists 0%Z, 0%Z. apply (glued_gz nv t _ _ Ivt). apply (pc_diagonal _ _ _ _ _ _ _ CUT). }
  assert (SY : forall a b, conn (gluings t) a b -> conn (gluings t) b a) by (intros a b; apply conn_sym, (i_inv nv t Ivt)).
  assert (N : forall x, conn (gluings t) (fst x) (fst (cut_name p k (length P) v1 v2 x))).
  { intros x. unfold cut_name. destruct (Z.eqb_spec (fst x) p) as [->|]; [|apply rt_refl]. cbv zeta. destruct (_ <? _)%nat; cbn [fst]; [exact PK|apply rt_refl]. }
  assert (ST : forall a b, conn (gluings s) a b -> conn (gluings t) a b).
  { induction 1 as [a b [e [e' G]]|a|a b c _ IH1 _ IH2]; [|apply rt_refl|exact (rt_trans _ _ _ _ _ IH1 IH2)].
    apply (rt_trans _ _ _ _ _ (N (a, e))). apply (fun h => rt_trans _ _ _ _ _ h (SY _ _ (N (b, e')))). apply rt_step.
    exists (snd (cut_name p k (length P) v1 v2 (a, e))), (snd (cut_name p k (length P) v1 v2 (b, e'))). rewrite !he_eta. apply (glued_gz nv t _ _ Ivt).
    apply (glued_gz nv s _ _ Iv) in G. apply (rc_glued _ _ _ _ _ (pc_recut _ _ _ _ _ _ _ CUT)); auto; [apply G|].
    apply (glued_gz nv s _ _ Iv) in G. apply (i_inv nv s Iv) in G. apply (glued_gz nv s _ _ Iv) in G. apply G. }
  assert (PT : forall l, is_label t l -> conn (gluings t) p l).
  { intros l Hl. apply (pc_labels _ _ _ _ _ _ _ CUT) in Hl. destruct Hl as [Hl| ->]; auto. apply ST. apply (linked_conn nv s _ _ Iv). apply CO; auto. now exists P. }
  intros l l' Hl Hl'. apply (linked_conn nv t _ _ Ivt). exact (rt_trans _ _ _ _ _ (SY _ _ (PT l Hl)) (PT l' Hl')).
Qed.
Lemma join_roots (s : surf) p1 p2 : intact nv s -> (forall l l', is_label s l -> is_label s l' -> linked nv s l l') -> roots_ s = nil ->
  forall rs, get_roots nv s = Ok rs -> forall x, In x (if mem p2 rs then rs else roots_ s) -> x = p1 \/ x = p2.
Proof.
  intros I CO R rs ER x Hx. pose proof (intact_good _ s I) as GD. destruct (mem p2 rs) eqn:M; [|rewrite R in Hx; destruct Hx].
  right. apply mem_In in M. destruct (get_roots_spec nv s GD) as [d [ER' [TR _]]]. rewrite ER in ER'. injection ER' as ->.
  apply (t_sep _ _ _ TR); auto. apply (linked_conn nv s _ _ (g_inv nv s GD)). apply CO; apply is_label_keys; now apply (t_in _ _ _ TR).
Qed.

Lemma round_trip (s : surf) p P v1 v2 lab : intact nv s -> mutable s = true -> (forall l P, get_polygon s l = Ok P -> proper P) ->
  get_polygon s p = Ok P -> (v1 < length P)%nat -> (v2 < length P)%nat -> (2 <= off v1 (length P) v2 <= length P - 2)%nat ->
  (forall x, is_edge nv s x -> fst x = p -> exists y, glued nv s x y) ->
  proper (left_piece P v1 v2) -> proper (right_piece P v1 v2) -> (forall l, lab = Some l -> ~ is_label s l) ->
  (forall l l', is_label s l -> is_label s l' -> linked nv s l l') -> (forall x, In x (roots_ s) -> x = p) ->
  exists t k u, subdivide_polygon p v1 v2 lab s = (t, Ok tt) /\ polygon_cut s t p k P v1 v2 /\ join_polygons p 0 true t = (u, Ok tt) /\ intact nv u /\ renumbered s u p P v1.
Proof.
  intros I Mu PP EP H1 H2 Hw GL PL PR HL CO RO. assert (ND : forall l P, get_polygon s l = Ok P -> nondeg P) by (intros; eapply proper_nondeg, PP; eauto).
  destruct (cut_intact s p P v1 v2 lab I Mu ND EP H1 H2 Hw GL PL PR HL) as (t & r & k & E & _ & O & C). destruct (O RO) as [-> Rt]. destruct (C eq_refl) as (It & Mt & _ & CUT).
  exists t, k. destruct (pc_pieces _ _ _ _ _ _ _ CUT) as (Q1 & Q2 & EQ1 & EQ2 & L2 & L1 & V1 & _ & V2 & _ & A1 & A2 & _).
  pose proof (r_kp s t p k P v1 v2 EP CUT) as KP.
  destruct (join_intact t p Q1 0 k Q2 0 (r_map P v1 v2) It Mt) as (u & r & E' & _ & O' & C'); auto.
  - intros l Q. apply (r_nondeg s t p k P v1 v2 ND CUT).
  - apply (pc_diagonal _ _ _ _ _ _ _ CUT).
  - apply (r_gluing s t p k P v1 v2 EP H1 H2 Hw CUT Q1 Q2); auto.
  - apply (r_glued s t p k P v1 v2 I It GL CUT).
  - apply (r_union s t p k P v1 v2 EP (PP _ _ EP) H1 H2 Hw CUT Q1 Q2); auto.
  - destruct O' as [-> _]. { intros rs ER. apply (join_roots t p k It); auto. now apply (cut_connected s t p k P v1 v2). }
    destruct (C' eq_refl) as (Iu & _ & J). exists u. split; auto. split; auto. split; auto. split; auto.
    apply (round_renumbered s t p k P v1 v2 EP H1 H2 Hw CUT Q1 Q2); auto.
Qed.
End K.
