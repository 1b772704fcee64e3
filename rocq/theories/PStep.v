(** Surfaces assembled from arbitrarily many polygons. *)
From Coq Require Import List Bool ZArith Arith Lia Ring Field.
From Verif Require Import OField FMicromega PField MBase MDict PDict MEuclid SEuclid PEuclid MSim SSim PSim MPoly PPoly MMut SMut PMut PMut2 PMut3 PBuild PCover PFlip4
  MSurf SSurf PSurf PSurf2 PSurf3 SPoint PPoint PFam PFam2 TPoly2 MGen SGen PGen PGen2.
Import ListNotations.

Section P.
Context {K : OField}.
Add Field KF : (of_ft K).
Local Open Scope F_scope.
Notation nv := (@length (vec K) : polygon K -> nat).
Notation surf := (@surf (polygon K)).

(** the surface with polygons [Ps] whose edges are not glued *)
Definition unglued (Ps : list (polygon K)) : surf :=
  Surf (combine (zlabels (length Ps)) Ps) (combine (zlabels (length Ps)) (map (fun P => repeat None (nv P)) Ps)) nil (Z.of_nat (pred (length Ps))) true false.
Lemma zlabels_S n : zlabels (S n) = zlabels n ++ [Z.of_nat n].
Proof. unfold zlabels. now rewrite seq_S, map_app. Qed.
Lemma zlabels_length n : length (zlabels n) = n.
Proof. unfold zlabels. now rewrite map_length, seq_length. Qed.
Lemma combine_snoc {A} n (xs : list A) x : length xs = n -> combine (zlabels (S n)) (xs ++ [x]) = combine (zlabels n) xs ++ [(Z.of_nat n, x)].
Proof.
  intros L. rewrite zlabels_S. generalize (zlabels_length n). generalize (zlabels n). intros zs. rewrite <- L. clear L n. generalize (Z.of_nat (length xs)). intros z.
  revert zs. induction xs as [|y xs IH]; intros [|a zs] H; try discriminate; [reflexivity|]. cbn [app combine]. f_equal. apply IH. cbn in H. lia.
Qed.
Lemma keys_combine {A} n (xs : list A) : length xs = n -> keys (combine (zlabels n) xs) = zlabels n.
Proof.
  intros L. generalize (zlabels_length n). generalize (zlabels n). intros zs. rewrite <- L. clear L n. revert zs.
  induction xs as [|y xs IH]; intros [|a zs] H; try discriminate; [reflexivity|]. cbn. f_equal. apply IH. cbn in H. lia.
Qed.
Lemma in_zlabels n l : In l (zlabels n) <-> (0 <= l < Z.of_nat n)%Z.
Proof.
  unfold zlabels. rewrite in_map_iff. split.
  - intros (i & <- & H). apply in_seq in H. lia.
  - intros H. exists (Z.to_nat l). split; [lia|]. apply in_seq. lia.
Qed.
Lemma dmem_zlabels {A} n (xs : list A) l : length xs = n -> dmem l (combine (zlabels n) xs) = ((0 <=? l) && (l <? Z.of_nat n))%Z.
Proof.
  intros L. destruct (dmem l _) eqn:E.
  - apply dmem_keys in E. rewrite keys_combine, in_zlabels in E by auto. symmetry. rewrite andb_true_iff, Z.leb_le, Z.ltb_lt. auto.
  - apply dmem_false in E. rewrite keys_combine, in_zlabels in E by auto. symmetry. apply not_true_iff_false. rewrite andb_true_iff, Z.leb_le, Z.ltb_lt. auto.
Qed.
Lemma add_unglued Ps P : addp None (Ok P) (unglued Ps) = (unglued (Ps ++ [P]), Ok tt).
Proof.
  set (n := length Ps).
  assert (FR : fresh (S (length (polys (unglued Ps)))) (next_label (unglued Ps)) (polys (unglued Ps)) = Z.of_nat n).
  { unfold unglued; cbn [polys next_label]. rewrite combine_length, zlabels_length, Nat.min_id. fold n. destruct n as [|m] eqn:En.
    - cbn [fresh pred]. rewrite dmem_zlabels by auto. reflexivity.
    - cbn [fresh pred]. rewrite !dmem_zlabels by auto.
      replace ((0 <=? Z.of_nat m)%Z && (Z.of_nat m <? Z.of_nat (S m))%Z) with true by (symmetry; rewrite andb_true_iff, Z.leb_le, Z.ltb_lt; lia).
      replace ((0 <=? Z.of_nat m + 1)%Z && (Z.of_nat m + 1 <? Z.of_nat (S m))%Z) with false by (symmetry; apply andb_false_iff; right; apply Z.ltb_ge; lia). lia. }
  assert (NM : forall (A : Type) (xs : list A), length xs = n -> dmem (Z.of_nat n) (combine (zlabels n) xs) = false).
  { intros A xs L. rewrite dmem_zlabels by auto. apply andb_false_iff. right. apply Z.ltb_ge. lia. }
  assert (NS : forall (A : Type) (xs : list A) x, length xs = n -> dset (Z.of_nat n) x (combine (zlabels n) xs) = combine (zlabels (S n)) (xs ++ [x])).
  { intros A xs x L. rewrite dset_notin; [now rewrite combine_snoc|]. apply dmem_false. now apply NM. }
  set (s0 := set_next (Z.of_nat n) (unglued Ps)).
  assert (AD : add_polygon nv P None (unglued Ps) = (unglued (Ps ++ [P]), Ok (Z.of_nat n))).
  { unfold add_polygon. rewrite (mbind_ok _ _ _ (unglued Ps) tt) by reflexivity.
    rewrite (mbind_ok _ _ _ s0 (Z.of_nat n)) by (unfold choose_label; rewrite FR; reflexivity).
    rewrite (mbind_ok _ _ _ s0 s0) by reflexivity.
    rewrite (mbind_ok _ _ s0 s0 tt) by (unfold s0, unglued, set_next; cbn [polys]; fold n; rewrite NM by auto; reflexivity).
    rewrite (mbind_ok _ _ s0 (set_polys (combine (zlabels (S n)) (Ps ++ [P])) s0) tt)
      by (unfold modify; do 2 f_equal; unfold s0, unglued, set_next; cbn [polys]; fold n; now rewrite NS).
    set (s1 := set_polys _ s0). rewrite (mbind_ok _ _ s1 s1 s1) by reflexivity.
    rewrite (mbind_ok _ _ s1 s1 tt) by (unfold s1, s0, unglued, set_next, set_polys; cbn [gluings]; fold n; rewrite NM by (now rewrite map_length); reflexivity).
    rewrite (mbind_ok _ _ s1 (set_gluings (combine (zlabels (S n)) (map (fun P => repeat None (nv P)) Ps ++ [repeat None (nv P)])) s1) tt)
      by (unfold modify; do 2 f_equal; unfold s1, s0, unglued, set_next, set_polys; cbn [gluings]; fold n; now rewrite NS by (now rewrite map_length)).
    unfold s1, s0, modify, mbind, mret, set_gluings, set_polys, set_next. cbn [polys gluings roots_ next_label mutable connected unglued].
    unfold unglued. rewrite app_length. cbn [length]. fold n. rewrite Nat.add_1_r. cbn [pred]. rewrite map_app. reflexivity. }
  unfold addp. rewrite (mbind_ok _ _ _ (unglued Ps) P) by reflexivity. rewrite (mbind_ok _ _ _ _ _ AD). reflexivity.
Qed.
Lemma add_all_unglued Qs : forall Ps, mfor Qs (fun P => addp None (Ok P)) (unglued Ps) = (unglued (Ps ++ Qs), Ok tt).
Proof.
  induction Qs as [|Q Qs IH]; intros Ps; cbn [mfor]; [rewrite app_nil_r; reflexivity|].
  rewrite (mbind_ok _ _ _ _ _ (add_unglued Ps Q)). rewrite IH. now rewrite <- app_assoc.
Qed.
Lemma unglued_reachable Ps : reachable nv (unglued Ps).
Proof.
  exists (map (fun P => OpAdd P None) Ps). split; [induction Ps; constructor; [exact I|auto]|].
  induction Ps as [|P Ps IH] using rev_ind; [reflexivity|]. rewrite map_app, run_app. rewrite <- IH. cbn [map run fold_left].
  pose proof (add_unglued Ps P) as E. unfold addp, mlift, mbind, mret in E. unfold run. cbn [fold_left run_op]. exact (eq_sym (f_equal fst E)).
Qed.
Lemma unglued_polygon Ps l P : get_polygon (unglued Ps) l = Ok P <-> (0 <= l)%Z /\ nth_error Ps (Z.to_nat l) = Some P.
Proof.
  unfold get_polygon, unglued; cbn [polys]. rewrite dgetE_Ok, dget_zlabels. destruct (Z.leb_spec 0 l); split; intros H'; [auto|tauto|discriminate|lia].
Qed.
Lemma unglued_free Ps z : gz (gluings (unglued Ps)) z = None.
Proof.
  destruct z as [l e]. unfold gz, unglued; cbn [gluings fst snd]. rewrite <- (map_length (fun P : polygon K => repeat (@None hedge) (nv P)) Ps). rewrite dget_zlabels.
  destruct (0 <=? l)%Z; auto. destruct (nth_error (map _ Ps) (Z.to_nat l)) as [r|] eqn:E; auto. destruct (0 <=? e)%Z; auto.
  apply nth_error_In, in_map_iff in E. destruct E as (P & <- & _). destruct (nth_error (repeat None (nv P)) (Z.to_nat e)) as [x|] eqn:N; auto. apply nth_error_In, repeat_spec in N. auto.
Qed.
(** the surface with polygons [Ps] whose edges are glued in pairs *)
Record paired_surface (Ps : list (polygon K)) (gl : list (hedge * hedge)) (c : surf) : Prop := {
  pa_intact : intact nv c;
  pa_immutable : mutable c = false;
  pa_polygon : forall l P, get_polygon c l = Ok P <-> (0 <= l)%Z /\ nth_error Ps (Z.to_nat l) = Some P;
  pa_glued : forall x y, glued nv c x y <-> In (x, y) gl \/ In (y, x) gl }.
Definition edge_of (Ps : list (polygon K)) (x : hedge) := (0 <= fst x)%Z /\ exists P, nth_error Ps (Z.to_nat (fst x)) = Some P /\ (0 <= snd x < Z.of_nat (length P))%Z.
Lemma glue_all Ps gl : (forall x y y', In (x, y) gl \/ In (y, x) gl -> In (x, y') gl \/ In (y', x) gl -> y = y') ->
  (forall x y, In (x, y) gl -> edge_of Ps x /\ edge_of Ps y) ->
  exists c, mbind (glues gl) (fun _ => set_immutable nv) (unglued Ps) = (c, Ok tt) /\ paired_surface Ps gl c.
Proof.
  intros FU RG. pose proof (unglued_reachable Ps) as RE. set (s1 := unglued Ps) in *. assert (Mu : mutable s1 = true) by reflexivity.
  pose proof (intact_good nv s1 (reachable_intact nv s1 RE Mu)) as G. pose proof (g_inv nv s1 G) as Iv.
  assert (IR : forall x, edge_of Ps x -> inrange (gluings s1) x).
  { intros x (H0 & P & H1 & H2). apply edge_inrange with (nv := nv); auto; [exact (i_tot nv s1 Iv Mu)|]. exists P. split; [apply unglued_polygon; auto|exact H2]. }
  destruct (glue_pairs nv gl s1 Iv Mu (g_sep nv s1 G)) as [s2 [E2 [I2 [F2 [S2 [_ [R2 G2]]]]]]]; auto.
  { now left. }
  { intros z. apply unglued_free. }
  { intros x y H. destruct (RG x y H). split; auto. }
  unfold glues. rewrite (mbind_ok _ _ _ _ _ E2).
  assert (M2 : mutable s2 = true) by (rewrite (f_mut _ _ F2); auto).
  assert (R2' : reachable nv s2).
  { change s2 with (fst (s2, @Ok unit tt)). rewrite <- E2. apply pres_for; auto. intros [u v] H. destruct (RG u v H) as [(_ & ? & _ & H1) (_ & ? & _ & H2)].
    apply pres_glue; [apply H1|apply H2]. }
  pose proof (reachable_intact nv s2 R2' M2) as IN2. pose proof (intact_good nv s2 IN2) as GG2.
  destruct (set_immutable_spec nv s2 GG2) as (c & rs & b & E3 & _ & Ec & GC). exists c. split; auto.
  assert (GP : forall l, get_polygon c l = get_polygon s1 l) by (intros l; subst c; unfold get_polygon; cbn; now rewrite (f_polys _ _ F2)).
  constructor.
  - change c with (fst (c, @Ok unit tt)). rewrite <- E3. apply (intact_op nv s2 OpSetImmutable); [exact IN2|exact I|intros []].
  - subst c. reflexivity.
  - intros l P. rewrite GP. apply unglued_polygon.
  - intros x y. rewrite (glued_gz nv c x y (g_inv nv c GC)). subst c. cbn [gluings]. apply G2.
Qed.
Section S.
Context (Ps : list (polygon K)) (gl : list (hedge * hedge)) (c : surf).
Hypothesis A : paired_surface Ps gl c.
Context (R : vec K -> vec K -> Prop) (kind : (vec K -> vec K) -> Prop).
Hypothesis Rsym : forall u v, R u v -> R v u.
Hypothesis Rkind : forall P e P' e', R (edge P e) (edge P' e') -> exists F, gluing_map P e P' e' F /\ kind F.
Hypothesis Kext : kind_ext kind.
Lemma pa_label l : is_label c l <-> (0 <= l < Z.of_nat (length Ps))%Z.
Proof.
  unfold is_label. split.
  - intros [P H]. apply (pa_polygon _ _ _ A) in H. destruct H as [H0 H]. assert (Z.to_nat l < length Ps)%nat by (apply nth_error_Some; congruence). lia.
  - intros H. destruct (nth_error Ps (Z.to_nat l)) as [P|] eqn:E; [|apply nth_error_None in E; lia]. exists P. apply (pa_polygon _ _ _ A). split; [lia|auto].
Qed.
Lemma paired_good : (forall x, edge_of Ps x -> exists y, In (x, y) gl \/ In (y, x) gl) -> Forall fine Ps ->
  Forall (fun xy => R (edge_at Ps (fst xy)) (edge_at Ps (snd xy))) gl -> good_surface (is_label c) (mut_surface c) kind.
Proof.
  intros C F G. rewrite Forall_forall in F, G.
  assert (POL : forall l P, get_polygon c l = Ok P -> (0 <= l)%Z /\ nth_error Ps (Z.to_nat l) = Some P /\ fine P).
  { intros l P H. apply (pa_polygon _ _ _ A) in H. destruct H as [H0 H1]. split; auto. split; auto. apply F. eapply nth_error_In; eauto. }
  assert (OPP : forall l e y, glued nv c (l, Z.of_nat e) y -> s_opp (mut_surface c) l e = Ok (Some (fst y, Z.to_nat (snd y)))).
  { intros l e [l' e'] [_ H]. cbn [fst snd] in *. unfold mut_surface; cbn [s_opp]. now rewrite H. }
  assert (GLU : forall l P e, get_polygon c l = Ok P -> (e < length P)%nat -> exists l' e' P', glued nv c (l, Z.of_nat e) (l', Z.of_nat e') /\ glued nv c (l', Z.of_nat e') (l, Z.of_nat e) /\
     get_polygon c l' = Ok P' /\ (e' < length P')%nat).
  { intros l P e H He. destruct (POL l P H) as (L0 & E & _). destruct (C (l, Z.of_nat e)) as [y Hy]; [split; [auto|]; exists P; split; [auto|cbn; lia]|].
    assert (G1 : glued nv c (l, Z.of_nat e) y) by (apply (pa_glued _ _ _ A); auto).
    assert (G2 : glued nv c y (l, Z.of_nat e)) by (apply (pa_glued _ _ _ A); tauto).
    destruct G2 as [(P' & G3 & G4) G5]. destruct y as [l' e']. cbn [fst snd] in *. exists l', (Z.to_nat e'), P'. rewrite Z2Nat.id by lia.
    split; auto. split; [split; [exists P'; auto|auto]|]. split; auto. lia. }
  assert (V : valid (is_label c) (mut_surface c)).
  { constructor.
    - intros l [P H]. exists P. split; auto. destruct (POL l P H) as (_ & _ & L & N & _). auto.
    - intros l P e _ H He. right. destruct (GLU l P e H He) as (l' & e' & P' & H1 & H2 & H3 & H4).
      exists l', e', P'. split; [etransitivity; [apply (OPP _ _ _ H1)|]; cbn; now rewrite Nat2Z.id|]. split; [exists P'; auto|]. split; auto. split; auto.
      etransitivity; [apply (OPP _ _ _ H2)|]. cbn. now rewrite Nat2Z.id. }
  constructor; auto.
  - intros l P e _ H He. destruct (GLU l P e H He) as (l' & e' & P' & H1 & _). intros X. pose proof (eq_trans (eq_sym (OPP _ _ _ H1)) X) as Y. discriminate Y.
  - intros l P _ H. destruct (POL l P H) as (_ & _ & L & N & S1 & _). auto.
  - intros l P _ H. destruct (POL l P H) as (_ & _ & L & N & S1 & S2). auto.
  - apply all_gluings_intro; auto. intros l e P l' e' P' [_ H He HO H'].
    destruct (GLU l P e H He) as (l1 & e1 & P1 & H1 & H2 & H3 & H4).
    pose proof (eq_trans (eq_sym (OPP _ _ _ H1)) HO) as Y. cbn [fst snd] in Y. rewrite Nat2Z.id in Y. injection Y as -> ->.
    pose proof (eq_trans (eq_sym H3) H') as Y. injection Y as ->.
    assert (EA : forall l P e, get_polygon c l = Ok P -> edge_at Ps (l, Z.of_nat e) = edge P e).
    { intros a b d X. destruct (POL a b X) as (_ & X1 & _). unfold edge_at. cbn [fst snd]. rewrite !Nat2Z.id. now rewrite (nth_error_nth _ _ _ X1). }
    apply Rkind. rewrite <- (EA l P e H), <- (EA l' P' e' H'). apply (pa_glued _ _ _ A) in H1. destruct H1 as [I|I].
    + exact (G _ I).
    + apply Rsym. exact (G _ I).
Qed.
Lemma pa_total : total_area c (length Ps) = fold_right (fun P A => area P + A) 0 Ps.
Proof.
  unfold total_area, labels_upto.
  assert (G : forall Qs k, (forall i, nth_error Qs i = nth_error Ps (k + i)) ->
    fold_right (fun l A => (match get_polygon c l with Ok P => area P | Err _ => 0 end) + A) 0 (map Z.of_nat (seq k (length Qs))) = fold_right (fun P A => area P + A) 0 Qs).
  { induction Qs as [|Q Qs IH]; intros k H; [reflexivity|]. cbn [length seq map fold_right]. rewrite IH.
    - f_equal. assert (E : get_polygon c (Z.of_nat k) = Ok Q). { apply (pa_polygon _ _ _ A). rewrite Nat2Z.id. split; [lia|]. specialize (H 0%nat). rewrite Nat.add_0_r in H. now rewrite <- H. }
      now rewrite E.
    - intros i. specialize (H (S i)). cbn in H. rewrite H. f_equal. lia. }
  apply (G Ps 0%nat). reflexivity.
Qed.
End S.
(** gluings by translations and half turns *)
Definition opposite_or_equal (u v : vec K) := u = vopp v \/ u = v.
Lemma opposite_or_equal_sym u v : opposite_or_equal u v -> opposite_or_equal v u.
Proof. intros [->| ->]; [left; apply vec_eq; cbn; ring|right; auto]. Qed.
Lemma opposite_or_equal_kind (P : polygon K) e P' e' : opposite_or_equal (edge P e) (edge P' e') -> exists F, gluing_map P e P' e' F /\ map_half_translation F.
Proof.
  intros [E|E].
  - eexists. split; [apply gm_translation; exact E|]. eexists. left. reflexivity.
  - set (u := vadd (vertex P' (S e')) (vertex P e)). exists (fun p => vadd (vscale (- (1)) p) u).
    assert (N : - (1) <> 0 :> K) by (intros Z; pose proof (@flt_0_1 K); flra).
    destruct (affine_similarity (- (1)) u (fun p => vadd (vscale (- (1)) p) u) N) as [X Y]; [reflexivity|]. split.
    + constructor; auto; unfold u; [apply vec_eq; cbn; ring|]. unfold edge in E.
      pose proof (f_equal fst E) as E1. pose proof (f_equal snd E) as E2. cbn in E1, E2. apply vec_eq; cbn; flra.
    + exists u. right. intros p. apply vec_eq; cbn; ring.
Qed.
End P.
