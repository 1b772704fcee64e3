(** Proofs about the subdivision of the edges of surfaces. *)
From Coq Require Import List Bool ZArith Arith Lia Relations.
From Coq Require Import Ring Field.
From Verif Require Import MBase MDict PDict MMut SMut PMut PMut2 PMut3 PBuild PGlue PRelabel TMut.
Import ListNotations.

Section C.
Context {P : Type} (nv : P -> nat).
Notation surf := (@surf P).
Local Open Scope Z_scope.
Notation gl := (fun xy : hedge * hedge => glue nv (fst xy) (snd xy)).
Definition pair_in (ps : list (hedge * hedge)) x y := In (x, y) ps \/ In (y, x) ps.

Lemma pair_in_app ps qs x y : pair_in (ps ++ qs) x y <-> pair_in ps x y \/ pair_in qs x y.
Proof. unfold pair_in. rewrite !in_app_iff. tauto. Qed.

(** gluing one more pair *)
Lemma glz_pairs (s : surf) qs x y : inv nv s -> (forall u v, gz (gluings s) u = Some v <-> pair_in qs u v) ->
  (forall u v v', pair_in (qs ++ [(x, y)]) u v -> pair_in (qs ++ [(x, y)]) u v' -> v = v') ->
  forall u v, glz (gluings s) x y u = Some v <-> pair_in (qs ++ [(x, y)]) u v.
Proof.
  intros Iv G FU u v.
  assert (X : pair_in (qs ++ [(x, y)]) x y) by (unfold pair_in; rewrite in_app_iff; cbn; auto).
  assert (Y : pair_in (qs ++ [(x, y)]) y x) by (unfold pair_in; rewrite !in_app_iff; cbn; auto).
  assert (Z : forall u v, gz (gluings s) u = Some v -> pair_in (qs ++ [(x, y)]) u v).
  { intros u' v' H. apply pair_in_app. left. now apply G. }
  unfold glz.
  destruct (hedge_case u x) as [[-> E]|[-> E]].
  { subst u. split; [intros [= <-]|]; auto. intros H. f_equal. eapply FU; eauto. }
  destruct (hedge_case u y) as [[-> E']|[-> E']].
  { subst u. split; [intros [= <-]|]; auto. intros H. f_equal. eapply FU; eauto. }
  assert (N : forall c, gz (gluings s) x = Some c -> eqb u c = false).
  { intros c H. apply (eqb_neq u c). intros ->. apply Z in H. apply E', (FU x); auto. }
  assert (N' : forall c, gz (gluings s) y = Some c -> eqb u c = false).
  { intros c H. apply (eqb_neq u c). intros ->. apply Z in H. apply E, (FU y); auto. }
  transitivity (gz (gluings s) u = Some v).
  { destruct (gz (gluings s) x) as [c|] eqn:Gx; [rewrite (N c eq_refl)|]; destruct (gz (gluings s) y) as [c'|] eqn:Gy;
      try rewrite (N' _ eq_refl); tauto. }
  rewrite G, pair_in_app. unfold pair_in at 3. cbn. intuition congruence.
Qed.

Definition paired (s : surf) qs := forall u v, gz (gluings s) u = Some v <-> pair_in qs u v.
Definition functional_pairs (ps : list (hedge * hedge)) := forall u v v', pair_in ps u v -> pair_in ps u v' -> v = v'.
Definition ranged (s : surf) (ps : list (hedge * hedge)) := forall x y, In (x, y) ps -> inrange (gluings s) x /\ inrange (gluings s) y.

Lemma functional_app ps qs : functional_pairs (ps ++ qs) -> functional_pairs ps.
Proof. intros H u v v' A B. apply (H u); apply pair_in_app; auto. Qed.
Lemma ranged_frame s s' ps : frame s s' -> ranged s ps -> ranged s' ps.
Proof. intros F R x y H. destruct (R x y H). split; now apply (frame_range s s'). Qed.
Lemma ranged_tail s x ps : ranged s (x :: ps) -> ranged s ps.
Proof. intros R a b H. apply R. cbn; auto. Qed.

Lemma glue_pairs_any ps : forall qs (s : surf), inv nv s -> mutable s = true -> sep s -> paired s qs ->
  functional_pairs (qs ++ ps) -> ranged s ps ->
  exists s' r, mfor ps gl s = (s', r) /\ inv nv s' /\ frame s s' /\ sep s' /\ (r = Ok tt \/ r = Err AssertionError) /\
    (r = Ok tt -> paired s' (qs ++ ps)) /\ (roots_ s = nil -> r = Ok tt /\ roots_ s' = nil).
Proof.
  induction ps as [|[x y] ps IH]; intros qs s Iv Mu SE PA FU RG.
  - exists s, (Ok tt). cbn. rewrite app_nil_r. split; [reflexivity|]. split; [auto|]. split; [apply frame_refl|]. auto.
  - destruct (RG x y (or_introl eq_refl)) as [Rx Ry].
    destruct (glue_main nv s x y Iv Mu Rx Ry) as (s1 & r & E & I1 & F1 & G1 & B1 & S1 & _ & N1).
    specialize (S1 SE).
    assert (Mu1 : mutable s1 = true) by (rewrite (f_mut _ _ F1); auto).
    assert (AS : qs ++ (x, y) :: ps = (qs ++ [(x, y)]) ++ ps) by (now rewrite <- app_assoc). rewrite AS in *.
    destruct r as [[]|er].
    2:{ destruct B1 as [[= ->] _]; [discriminate|]. exists s1, (Err AssertionError). cbn [mfor fst snd]. rewrite (mbind_err _ _ _ _ _ E).
        split; [reflexivity|]. split; [auto|]. split; [auto|]. split; [auto|]. split; [auto|]. split; [discriminate|].
        intros R. destruct (N1 R) as [_ Z]. discriminate. }
    assert (PA1 : paired s1 (qs ++ [(x, y)])).
    { intros u v. rewrite (G1 eq_refl). apply glz_pairs; auto. exact (functional_app _ _ FU). }
    destruct (IH (qs ++ [(x, y)]) s1 I1 Mu1 S1 PA1 FU) as (s' & r & E' & I' & F' & S' & O' & G' & N').
    { apply (ranged_frame s); auto. eapply ranged_tail; eauto. }
    exists s', r. cbn [mfor fst snd]. rewrite (mbind_ok _ _ _ _ _ E). split; [exact E'|]. split; [auto|].
    split; [eapply frame_trans; eauto|]. split; [auto|]. split; [auto|]. split; [auto|].
    intros R. apply N', N1, R.
Qed.

(** gluing edges of the only root to other edges *)
Definition alone (s : surf) r := forall x y, gz (gluings s) x = Some y -> fst x = r /\ fst y = r.
Lemma alone_conn s r l : alone s r -> conn (gluings s) r l -> l = r.
Proof.
  intros A H. unfold conn in H. apply clos_rt_rt1n in H. remember r as r0 eqn:E in H. 
  induction H as [a|a b c [e [e' H]] _ IH]; auto. subst a. apply IH. apply A in H. apply H.
Qed.
Lemma unglue_alone (s : surf) r x : inv nv s -> mutable s = true -> inrange (gluings s) x -> alone s r ->
  exists s', unglue nv (fst x) (snd x) s = (s', Ok tt) /\ inv nv s' /\ frame s s' /\ roots_ s' = roots_ s /\ alone s' r /\
    (forall y, gz (gluings s') y = ungz (gluings s) x y).
Proof.
  intros Iv Mu R A. destruct x as [l e]. cbn [fst snd] in *.
  destruct (unglue_main nv s l e Iv Mu R) as (s' & o & E & I' & F & G & _ & _ & _ & _ & _).
  assert (E0 : 0 <= e) by (destruct R as [m [_ ?]]; cbn in *; lia).
  assert (AL : alone s' r). { intros u v H. rewrite G in H. apply ungz_sub in H. now apply A. }
  cut (o = Ok tt /\ roots_ s' = roots_ s). { intros [-> Q]. exists s'. auto 8. }
  revert E. unfold unglue, mbind, check_mutable. rewrite Mu. unfold mget, mlift.
  rewrite (proj2 (opposite_edge_Ok s l e (gz (gluings s) (l, e)) E0)) by auto.
  assert (T : total s) by exact (i_tot nv s Iv Mu).
  destruct (gz (gluings s) (l, e)) as [c|] eqn:C.
  - assert (C' := i_inv nv s Iv _ _ C). assert (Rc := gz_range _ _ _ C').
    destruct (set_gluing_Ok s (fst c) (snd c) None) as [s1 [-> [F1 [Q1 G1]]]]; [now rewrite he_eta|].
    destruct (set_gluing_Ok s1 l e None) as [s2 [-> [F2 [Q2 G2]]]]; [now apply (frame_range s s1)|].
    assert (Q : roots_ s2 = roots_ s) by congruence.
    destruct (roots_ s2) as [|r0 rs0] eqn:RS; [intros [= <- <-]; split; congruence|].
    assert (cl : fst c = l) by (destruct (A _ _ C) as [Y Z]; cbn in Y; congruence).
    assert (F' : frame s s2) by (eapply frame_trans; eauto).
    assert (I2 : inv nv s2).
    { apply (inv_frame nv s); auto.
      - intros u v. rewrite !G2, !G1, he_eta.
        intros H. assert (U : ungz (gluings s) (l, e) u = Some v) by (unfold ungz; rewrite C; exact H).
        apply (ungz_inv _ _ (i_inv nv s Iv)) in U. unfold ungz in U. rewrite C in U. exact U.
      - rewrite RS, Q. apply (i_roots nv s Iv). }
    assert (T2 : total s2). { intros k. destruct F' as [-> _ _ _ -> _]. apply T. }
    destruct (component_spec nv s2 l I2 T2) as [cc [-> [_ Hcc]]].
    { destruct F' as [-> _ _ _ _ _]. apply (gz_label nv s (l, e) c Iv C). }
    assert (M : mem (fst c) cc = true). { rewrite cl. apply mem_In, Hcc, rt_refl. }
    rewrite M. intros [= <- <-]. split; congruence.
  - unfold mret at 1. destruct (set_gluing_Ok s l e None) as [s1 [-> [F1 [Q1 G1]]]]; auto. unfold mret. intros [= <- <-]. auto.
Qed.
Lemma glue_first (s : surf) x y : inv nv s -> mutable s = true -> inrange (gluings s) x -> inrange (gluings s) y ->
  roots_ s = [fst x] -> alone s (fst x) ->
  exists s', glue nv x y s = (s', Ok tt) /\ roots_ s' = (if fst y =? fst x then [fst x] else nil).
Proof.
  intros Iv Mu Rx Ry RO A.
  assert (Lx := label_inrange nv s _ Rx Iv). assert (Ly := label_inrange nv s _ Ry Iv).
  unfold glue, mbind at 1, check_mutable. rewrite Mu. unfold mbind at 1, mget.
  rewrite (proj2 (dmem_keys (fst x) (polys s)) Lx), (proj2 (dmem_keys (fst y) (polys s)) Ly).
  unfold mret at 1, mbind at 1. unfold mret at 1, mbind at 1.
  destruct (unglue_alone s (fst x) x Iv Mu Rx A) as (s1 & E1 & I1 & F1 & Q1 & A1 & _).
  rewrite (mbind_ok _ _ _ _ _ E1).
  assert (Mu1 : mutable s1 = true) by (rewrite (f_mut _ _ F1); auto).
  assert (Ry1 : inrange (gluings s1) y) by (now apply (frame_range s s1)).
  destruct (unglue_alone s1 (fst x) y I1 Mu1 Ry1 A1) as (s2 & E2 & I2 & F2 & Q2 & A2 & _).
  rewrite (mbind_ok _ _ _ _ _ E2). unfold mbind at 1.
  assert (F12 : frame s s2) by (eapply frame_trans; eauto).
  assert (Mu2 : mutable s2 = true) by (rewrite (f_mut _ _ F2); auto).
  assert (T2 : total s2) by exact (i_tot nv s2 I2 Mu2).
  assert (RO2 : roots_ s2 = [fst x]) by congruence. rewrite RO2.
  assert (FIN : forall s3, frame s2 s3 -> exists s', mbind (set_gluing (fst x) (snd x) (Some y)) (fun _ => set_gluing (fst y) (snd y) (Some x)) s3 = (s', Ok tt) /\ roots_ s' = roots_ s3).
  { intros s3 F3. assert (F : frame s s3) by (eapply frame_trans; eauto). unfold mbind.
    destruct (set_gluing_Ok s3 (fst x) (snd x) (Some y)) as [s4 [-> [F4 [Q4 G4]]]]; [rewrite he_eta; now apply (frame_range s s3)|].
    destruct (set_gluing_Ok s4 (fst y) (snd y) (Some x)) as [s5 [-> [F5 [Q5 G5]]]].
    { rewrite he_eta. apply (frame_range s s4); auto. eapply frame_trans; eauto. }
    exists s5. split; auto. congruence. }
  destruct (component_spec nv s2 (fst x) I2 T2) as [cc [E3 [_ Hcc]]].
  { destruct F12 as [-> _ _ _ _ _]. auto. }
  assert (CC : forall b, In b cc <-> b = fst x).
  { intros b. rewrite Hcc. split; [apply alone_conn; auto|intros ->; apply rt_refl]. }
  unfold mbind at 1. unfold mlift. unfold mbind at 1. rewrite E3.
  destruct (Z.eqb_spec (fst y) (fst x)) as [Q|Q].
  - assert (M : mem (fst y) cc = true) by (apply mem_In, CC; auto). rewrite M. unfold mret.
    destruct (FIN s2 (frame_refl s2)) as [s' [E' R']]. exists s'. split; auto. congruence.
  - assert (M : mem (fst y) cc = false) by (apply mem_not_In; rewrite CC; auto). rewrite M. unfold mbind at 1.
    destruct (component_spec nv s2 (fst y) I2 T2) as [cr [E4 [_ Hcr]]].
    { destruct F12 as [-> _ _ _ _ _]. auto. }
    rewrite E4. unfold mbind at 1. cbn [rev app merge_root].
    assert (M' : mem (fst x) cc = true) by (apply mem_In, CC; auto). rewrite M'. cbn [orb]. unfold modify.
    cbn [filter]. rewrite eqb_refl. cbn [negb].
    destruct (FIN (set_roots_ nil s2)) as [s' [E' R']].
    { destruct (frame_refl s2). constructor; auto. }
    exists s'. split; auto.
Qed.
Lemma glue_pairs_root r p1 : forall p2 qs (s : surf), inv nv s -> mutable s = true -> sep s -> paired s qs ->
  functional_pairs (qs ++ p1 ++ p2) -> ranged s (p1 ++ p2) -> roots_ s = [r] -> alone s r ->
  (forall x y, In (x, y) p1 -> fst x = r) -> p2 = nil \/ (exists x y, In (x, y) p1 /\ fst y <> r) ->
  exists s', mfor (p1 ++ p2) gl s = (s', Ok tt).
Proof.
  induction p1 as [|[x y] p1 IH]; intros p2 qs s Iv Mu SE PA FU RG RO A H1 H2.
  - destruct H2 as [->|[x [y [[] _]]]]. exists s. reflexivity.
  - destruct (RG x y (or_introl eq_refl)) as [Rx Ry]. assert (X := H1 x y (or_introl eq_refl)). subst r.
    destruct (glue_first s x y Iv Mu Rx Ry RO A) as [s1 [E R1]].
    destruct (glue_main nv s x y Iv Mu Rx Ry) as (s1' & r & E' & I1 & F1 & G1 & B1 & S1 & _ & N1).
    rewrite E in E'. injection E' as <- <-. specialize (S1 SE). specialize (G1 eq_refl).
    assert (Mu1 : mutable s1 = true) by (rewrite (f_mut _ _ F1); auto).
    assert (AS : qs ++ ((x, y) :: p1) ++ p2 = (qs ++ [(x, y)]) ++ p1 ++ p2) by (now rewrite <- app_assoc). rewrite AS in *.
    assert (PA1 : paired s1 (qs ++ [(x, y)])).
    { intros u v. rewrite G1. apply glz_pairs; auto. exact (functional_app _ _ FU). }
    assert (RG1 : ranged s1 (p1 ++ p2)) by (apply (ranged_frame s); auto; eapply ranged_tail; eauto).
    cbn [app mfor fst snd]. rewrite (mbind_ok _ _ _ _ _ E). destruct (Z.eqb_spec (fst y) (fst x)) as [Q|Q].
    + apply (IH p2 (qs ++ [(x, y)])); auto.
      * intros u v H. apply PA1, pair_in_app in H. destruct H as [H|H]; [apply PA in H; now apply A|].
        unfold pair_in in H. cbn in H. destruct H as [[H|[]]|[H|[]]]; injection H as <- <-; auto.
      * intros u v H. apply (H1 u v). cbn; auto.
      * destruct H2 as [H2|[u [v [[H|H] N]]]]; auto; [injection H as <- <-; contradiction|]. right. exists u, v. auto.
    + destruct (glue_pairs_any (p1 ++ p2) (qs ++ [(x, y)]) s1 I1 Mu1 S1 PA1 FU RG1) as (s' & r & E' & _ & _ & _ & _ & _ & N').
      destruct (N' R1) as [-> _]. exists s'. exact E'.
Qed.
End C.
