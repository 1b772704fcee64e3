(** Proofs about [MHypSet]: merging of ordered sets, and the order of half spaces. *)
From Coq Require Import List Bool ZArith Lia Ring Field Sorted Permutation.
From Verif Require Import OField FMicromega PField MBase MEuclid PEuclid SEuclid PRotate MHyp SHyp PHyp PHyp2 PHyp3 PHyp4 PHyp7 MHypSet PHypSet.
Import ListNotations.

(** ** Lists *)
Lemma ss_app {A} (R : A -> A -> Prop) l m : StronglySorted R (l ++ m) <-> StronglySorted R l /\ StronglySorted R m /\ (forall x y, In x l -> In y m -> R x y).
Proof.
  induction l as [|a l IH]; cbn.
  - split; [intros H; split; [constructor|split; [auto|tauto]]|tauto].
  - split.
    + intros H. apply StronglySorted_inv in H. destruct H as [H F]. apply IH in H. destruct H as [H1 [H2 H3]]. rewrite Forall_forall in F. split; [constructor; auto; rewrite Forall_forall; intros; apply F; apply in_or_app; auto|]. split; auto. intros x y [<-|X] Y; auto. apply F. apply in_or_app; auto.
    + intros [H1 [H2 H3]]. apply StronglySorted_inv in H1. destruct H1 as [H1 F]. constructor; [apply IH; split; [auto|split; auto]|]. rewrite Forall_forall in *. intros x X. apply in_app_or in X. destruct X; auto.
Qed.
Lemma fop_app {A} (R : A -> A -> Prop) l m : ForallOrdPairs R (l ++ m) <-> ForallOrdPairs R l /\ ForallOrdPairs R m /\ (forall x y, In x l -> In y m -> R x y).
Proof.
  induction l as [|a l IH]; cbn.
  - split; [intros H; split; [constructor|split; [auto|tauto]]|tauto].
  - split.
    + intros H. inversion H as [|? ? F H']; subst. apply IH in H'. destruct H' as [H1 [H2 H3]]. rewrite Forall_forall in F. split; [constructor; auto; rewrite Forall_forall; intros; apply F; apply in_or_app; auto|]. split; auto. intros x y [<-|X] Y; auto. apply F. apply in_or_app; auto.
    + intros [H1 [H2 H3]]. inversion H1 as [|? ? F H']; subst. constructor; [|apply IH; split; [auto|split; auto]]. rewrite Forall_forall in *. intros x X. apply in_app_or in X. destruct X; auto.
Qed.

Ltac memb := repeat (progress (rewrite ?in_app_iff in *; cbn [In app] in *)); tauto.

Section Merge.
Context {A : Type}.
Variables (lt : A -> A -> bool) (D : A -> Prop).
Hypothesis TR : forall x y z, D x -> D y -> D z -> lt x y = true -> lt y z = true -> lt x z = true.
(** neither is smaller *)
Definition eqv x y := lt x y = false /\ lt y x = false.
Hypothesis EQT : forall x y z, D x -> D y -> D z -> eqv x y -> eqv y z -> eqv x z.
Hypothesis IRR : forall x, D x -> lt x x = false.
Definition ascending l := StronglySorted (fun x y => lt x y = true) l.
Definition covered (l m : list A) := forall x, In x l -> exists y, In y m /\ eqv x y.
Lemma eqv_refl x : D x -> eqv x x.
Proof. intros H. split; now apply IRR. Qed.
Lemma covered_incl l m : Forall D l -> incl l m -> covered l m.
Proof. intros F I x X. exists x. split; auto. apply eqv_refl. rewrite Forall_forall in F. auto. Qed.
Lemma covered_trans l m n : Forall D l -> Forall D m -> Forall D n -> covered l m -> covered m n -> covered l n.
Proof.
  intros F1 F2 F3 C1 C2 x X. destruct (C1 x X) as [y [Y E]]. destruct (C2 y Y) as [z [Z E']]. exists z. split; auto. rewrite Forall_forall in *. apply (EQT x y z); auto.
Qed.
Lemma covered_app l m n : covered l n -> covered m n -> covered (l ++ m) n.
Proof. intros A1 A2 x X. apply in_app_or in X. destruct X; auto. Qed.

Lemma merge_loop_ok fuel : forall a b m, (length a + length b <= fuel)%nat -> Forall D a -> Forall D b -> Forall D m -> ascending (rev a ++ m) -> ascending (rev b ++ m) ->
  let r := merge_loop lt fuel a b m in ascending r /\ incl r (a ++ b ++ m) /\ covered (a ++ b ++ m) r.
Proof.
  induction fuel as [|fuel IH]; intros a b m L Fa Fb Fm Sa Sb.
  { destruct a, b; cbn in L; try lia. cbn. repeat split; auto; [apply incl_refl|apply covered_incl; auto; apply incl_refl]. }
  destruct a as [|x a].
  { cbn. destruct b as [|y b]; cbn [merge_loop].
    - cbn. repeat split; auto; [apply incl_refl|apply covered_incl; auto; apply incl_refl].
    - split; [exact Sb|]. assert (P : incl (rev (y :: b) ++ m) ((y :: b) ++ m) /\ incl ((y :: b) ++ m) (rev (y :: b) ++ m)). { split; intros z Z; apply in_app_or in Z; apply in_or_app; rewrite <- in_rev in *; tauto. } split; [apply P|]. apply covered_incl; [|apply P]. apply Forall_app. auto. }
  destruct b as [|y b].
  { cbn [merge_loop rev app]. assert (P : incl (rev (x :: a) ++ m) ((x :: a) ++ m) /\ incl ((x :: a) ++ m) (rev (x :: a) ++ m)). { split; intros z Z; apply in_app_or in Z; apply in_or_app; rewrite <- in_rev in *; tauto. } split; [exact Sa|]. split; [apply P|]. apply covered_incl; [change (Forall D ((x :: a) ++ m)); apply Forall_app; auto|apply P]. }
  cbn [merge_loop]. pose proof (Forall_inv Fa) as Dx. pose proof (Forall_inv_tail Fa) as Fa'. pose proof (Forall_inv Fb) as Dy. pose proof (Forall_inv_tail Fb) as Fb'. cbn in L.
  cbn [rev] in Sa, Sb. rewrite <- app_assoc in Sa, Sb. cbn [app] in Sa, Sb. assert (Ga := Sa). assert (Gb := Sb). apply ss_app in Ga, Gb. destruct Ga as [Ga1 [Ga2 Ga3]]. destruct Gb as [Gb1 [Gb2 Gb3]].
  apply StronglySorted_inv in Ga2, Gb2. destruct Ga2 as [Ga2 Ga4]. destruct Gb2 as [Gb2 Gb4]. rewrite Forall_forall in Ga4, Gb4.
  assert (DA : forall z, In z a -> D z) by (rewrite Forall_forall in Fa'; auto). assert (DB : forall z, In z b -> D z) by (rewrite Forall_forall in Fb'; auto). assert (DM : forall z, In z m -> D z) by (rewrite Forall_forall in Fm; auto).
  destruct (lt x y) eqn:E.
  - destruct (IH (x :: a) b (y :: m)) as [S [I C]]; auto; [cbn; lia| |].
    { cbn [rev]. rewrite <- app_assoc. cbn [app]. apply ss_app. split; auto. split.
      - constructor; [constructor; [auto|rewrite Forall_forall; auto]|]. rewrite Forall_forall. intros z [<-|Z]; auto.
      - intros u v U V. destruct V as [<-|[<-|V]]; [apply Ga3; [auto|now left]| |apply Ga3; [auto|now right]]. apply (TR u x y); auto; [apply DA; apply in_rev; auto|apply Ga3; [auto|now left]]. }
    split; auto. split.
    { intros z Z. apply I in Z. memb. } intros z Z. apply C. memb.
  - destruct (lt y x) eqn:E'.
    + destruct (IH a (y :: b) (x :: m)) as [S [I C]]; auto; [cbn; lia| |].
      { cbn [rev]. rewrite <- app_assoc. cbn [app]. apply ss_app. split; auto. split.
        - constructor; [constructor; [auto|rewrite Forall_forall; auto]|]. rewrite Forall_forall. intros z [<-|Z]; auto.
        - intros u v U V. destruct V as [<-|[<-|V]]; [apply Gb3; [auto|now left]| |apply Gb3; [auto|now right]]. apply (TR u y x); auto; [apply DB; apply in_rev; auto|apply Gb3; [auto|now left]]. }
      split; auto. split.
      { intros z Z. apply I in Z. memb. } intros z Z. apply C. memb.
    + destruct (IH a (y :: b) m) as [S [I C]]; auto; [cbn; lia| | |].
      { apply ss_app. split; auto. split; auto. intros u v U V. apply Ga3; [auto|now right]. }
      { cbn [rev]. rewrite <- app_assoc. cbn [app]. auto. }
      split; auto. split.
      { intros z Z. apply I in Z. memb. } intros z Z. cbn in Z. destruct Z as [<-|Z]; [|apply C; memb].
      assert (In y (merge_loop lt fuel a (y :: b) m) -> exists w, In w (merge_loop lt fuel a (y :: b) m) /\ eqv x w) by (intros; exists y; split; auto; split; auto).
      destruct (C y) as [w [W E1]]; [rewrite !in_app_iff; cbn; auto|]. exists w. split; auto. assert (Dw : D w). { apply I in W. rewrite !in_app_iff in W. cbn in W. destruct W as [W|[[<-|W]|W]]; auto. } apply (EQT x y w); auto. split; auto.
Qed.
Lemma merge2_ok a b : Forall D a -> Forall D b -> ascending a -> ascending b -> let r := merge2 lt a b in ascending r /\ incl r (a ++ b) /\ covered (a ++ b) r.
Proof.
  intros Fa Fb Sa Sb. unfold merge2. destruct (merge_loop_ok (length a + length b) (rev a) (rev b) []) as [S [I C]]; rewrite ?rev_length, ?rev_involutive, ?app_nil_r; auto; try now apply Forall_rev.
  split; auto. rewrite !app_nil_r in I, C. split; [intros z Z; apply I in Z|intros z Z; apply C]; rewrite !in_app_iff, <- !in_rev in *; tauto.
Qed.
Lemma merge_ok fuel : forall sets, (length sets <= fuel)%nat -> Forall (fun l => Forall D l /\ ascending l) sets -> let r := merge lt fuel sets in ascending r /\ incl r (concat sets) /\ covered (concat sets) r.
Proof.
  induction fuel as [|fuel IH]; intros sets L F; [destruct sets; cbn in L; [|lia]; cbn; repeat split; [constructor|apply incl_refl|intros x []]|]. cbn [merge].
  destruct sets as [|a [|b [|c sets]]].
  - cbn. repeat split; [constructor|apply incl_refl|intros x []].
  - apply Forall_inv in F. destruct F as [F S]. cbn. rewrite app_nil_r. repeat split; auto; [apply incl_refl|apply covered_incl; auto; apply incl_refl].
  - pose proof (Forall_inv F) as [Fa Sa]. pose proof (Forall_inv (Forall_inv_tail F)) as [Fb Sb]. cbn [concat]. rewrite app_nil_r. apply merge2_ok; auto.
  - set (s := a :: b :: c :: sets) in *. set (n := Nat.div2 (length s)). assert (N : (1 <= n /\ n < length s)%nat). { unfold n. rewrite Nat.div2_div. split; [apply Nat.div_le_lower_bound; cbn; lia|apply Nat.div_lt; cbn; lia]. }
    assert (Q : s = firstn n s ++ skipn n s) by (symmetry; apply firstn_skipn). assert (F1 : Forall (fun l => Forall D l /\ ascending l) (firstn n s) /\ Forall (fun l => Forall D l /\ ascending l) (skipn n s)) by (apply Forall_app; rewrite <- Q; auto). destruct F1 as [F1 F2].
    destruct (IH (firstn n s)) as [S1 [I1 C1]]; auto; [rewrite firstn_length; lia|]. destruct (IH (skipn n s)) as [S2 [I2 C2]]; auto; [rewrite skipn_length; lia|].
    assert (CC : forall t, Forall (fun l => Forall D l /\ ascending l) t -> Forall D (concat t)). { intros t T. rewrite Forall_forall in *. intros x X. apply in_concat in X. destruct X as [l [X Y]]. destruct (T l X) as [Z _]. rewrite Forall_forall in Z. auto. }
    assert (D1 : Forall D (merge lt fuel (firstn n s))) by (apply (incl_Forall I1); auto). assert (D2 : Forall D (merge lt fuel (skipn n s))) by (apply (incl_Forall I2); auto).
    destruct (merge2_ok (merge lt fuel (firstn n s)) (merge lt fuel (skipn n s)) D1 D2 S1 S2) as [S [I C]]. split; [exact S|]. assert (Q' : concat s = concat (firstn n s) ++ concat (skipn n s)) by (rewrite <- concat_app, <- Q; auto). change (concat (a :: b :: c :: sets)) with (concat s). rewrite Q'. split.
    + intros x X. apply I in X. rewrite in_app_iff in *. destruct X as [X|X]; [left; now apply I1|right; now apply I2].
    + apply (covered_trans _ (merge lt fuel (firstn n s) ++ merge lt fuel (skipn n s))); auto.
      * apply Forall_app; split; apply CC; auto.
      * apply Forall_app; auto.
      * apply (incl_Forall I). apply Forall_app; auto.
      * apply covered_app; intros x X; [destruct (C1 x X) as [y [Y E]]|destruct (C2 x X) as [y [Y E]]]; exists y; (split; [apply in_or_app; auto|auto]).
Qed.
Lemma ordered_set_ok l : Forall D l -> let r := ordered_set lt l in ascending r /\ incl r l /\ covered l r.
Proof.
  intros F. unfold ordered_set. destruct (merge_ok (length l + 1) (map (fun x => [x]) l)) as [S [I C]]; [rewrite map_length; lia| |].
  { rewrite Forall_forall in *. intros x X. apply in_map_iff in X. destruct X as [y [<- Y]]. split; [constructor; auto|repeat constructor]. }
  assert (E : concat (map (fun x => [x]) l) = l) by (clear; induction l; cbn; congruence). rewrite E in *. auto.
Qed.
End Merge.

(** ** The order of half spaces *)
Section Order.
Context {K : OField}.
Add Field KF : (of_ft K).
Local Open Scope res_scope. Local Open Scope F_scope.
Implicit Types p q x y : vec K.
Implicit Types f g h u v w : geo K.
Definition onleft u := normal_points_left (g_b u) (g_c u).
(** smaller, for the same direction *)
Definition smaller u v := dotn u v * g_a u < dotn u u * g_a v.
Lemma onleft_true u : onleft u = true <-> g_b u < 0 \/ (g_b u = 0 /\ g_c u < 0).
Proof. unfold onleft, normal_points_left. rewrite orb_true_iff, andb_true_iff, feqb_eq. reflexivity. Qed.
Lemma onleft_false u : line u -> onleft u = false <-> 0 < g_b u \/ (g_b u = 0 /\ 0 < g_c u).
Proof.
  intros L. unfold onleft, normal_points_left. rewrite orb_false_iff, andb_false_iff. split.
  - intros [A B]. bools. destruct (feq_dec (g_b u) 0) as [Z|Z]; [|left; apply fneq_lt in Z; destruct Z; flra]. right. split; auto. destruct B as [B|B]; bools; [tauto|]. destruct L as [L|L]; [tauto|]. apply fneq_lt in L. destruct L; flra.
  - intros [A|[A B]]; [split; [|left]|split; [|right]]; try (apply fnlt_le; intros X; flra); try (rewrite A; apply fltb_irrefl).
    destruct (g_b u =? 0) eqn:E; auto. bools. flra.
Qed.
Lemma side_sign u v : det u v = 0 -> g_b u * g_b v * dotn u v = g_b u * g_b v * (g_b u * g_b v) + g_b u * g_c v * (g_b u * g_c v).
Proof. unfold det, dotn. intros D. assert (E : g_b u * g_c v = g_c u * g_b v) by flra. transitivity (g_b u * g_b v * (g_b u * g_b v) + g_b u * g_c v * (g_c u * g_b v)); [ring|rewrite <- E; ring]. Qed.
Lemma neg_mul (x y : K) : x < 0 -> y < 0 -> 0 < x * y.
Proof. intros A B. assert (0 < (- x) * (- y)) by (apply fmul_pos; flra). flra. Qed.
Lemma neg_pos (x y : K) : x < 0 -> 0 < y -> x * y < 0.
Proof. intros A B. assert (0 < (- x) * y) by (apply fmul_pos; flra). flra. Qed.
Lemma side_pos u v : det u v = 0 -> 0 < g_b u * g_b v -> 0 < dotn u v.
Proof.
  intros D P. apply fnle_lt. intros N. pose proof (side_sign u v D) as E. pose proof (fmul_pos _ _ P P). pose proof (fsq_nonneg (g_b u * g_c v)). assert (0 <= g_b u * g_b v * - dotn u v) by (apply fmul_nonneg; flra). flra.
Qed.
Lemma side_neg u v : det u v = 0 -> g_b u * g_b v < 0 -> dotn u v < 0.
Proof.
  intros D P. apply fnle_lt. intros N. pose proof (side_sign u v D) as E. pose proof (neg_mul _ _ P P). pose proof (fsq_nonneg (g_b u * g_c v)). assert (0 <= - (g_b u * g_b v) * dotn u v) by (apply fmul_nonneg; flra). flra.
Qed.
Lemma zero_side u v : det u v = 0 -> g_b u = 0 -> g_b v <> 0 -> g_c u = 0.
Proof. unfold det. intros D Z N. rewrite Z in D. assert (E : g_c u * g_b v = 0) by flra. apply fmul_eq0 in E. tauto. Qed.
Lemma det_zero_sym u v : det u v = 0 -> det v u = 0.
Proof. rewrite (det_anti u v). intros ->. ring. Qed.
Lemma dotn_sym u v : dotn u v = dotn v u.
Proof. unfold dotn. ring. Qed.
Lemma same_side u v : line u -> line v -> onleft u = onleft v -> det u v = 0 -> same_dir u v.
Proof.
  intros Lu Lv S D. split; auto. pose proof (det_zero_sym _ _ D) as D'.
  destruct (onleft v) eqn:E.
  - apply onleft_true in S, E. destruct S as [S|[S S']], E as [E|[E E']].
    + apply side_pos; auto. now apply neg_mul.
    + assert (g_c v = 0) by (apply (zero_side v u); auto; now apply fneg_neq0). exfalso. flra.
    + assert (g_c u = 0) by (apply (zero_side u v); auto; now apply fneg_neq0). exfalso. flra.
    + unfold dotn. rewrite S, E. pose proof (neg_mul _ _ S' E'). flra.
  - apply (onleft_false _ Lu) in S. apply (onleft_false _ Lv) in E. destruct S as [S|[S S']], E as [E|[E E']].
    + apply side_pos; auto. now apply fmul_pos.
    + assert (g_c v = 0) by (apply (zero_side v u); auto; now apply fpos_neq0). exfalso. flra.
    + assert (g_c u = 0) by (apply (zero_side u v); auto; now apply fpos_neq0). exfalso. flra.
    + unfold dotn. rewrite S, E. pose proof (fmul_pos _ _ S' E'). flra.
Qed.
Lemma left_right u v : line u -> line v -> onleft u = true -> onleft v = false -> ~ same_dir u v.
Proof.
  intros Lu Lv A B [D N]. pose proof (det_zero_sym _ _ D) as D'. apply onleft_true in A. apply (onleft_false _ Lv) in B. destruct A as [A|[A A']], B as [B|[B B']].
  - assert (dotn u v < 0) by (apply side_neg; auto; now apply neg_pos). flra.
  - assert (g_c v = 0) by (apply (zero_side v u); auto; now apply fneg_neq0). flra.
  - assert (g_c u = 0) by (apply (zero_side u v); auto; now apply fpos_neq0). flra.
  - unfold dotn in N. rewrite A, B in N. pose proof (neg_pos _ _ A' B'). flra.
Qed.
Lemma scale_normal u v : line u -> same_dir u v -> exists s, 0 < s /\ g_b v = s * g_b u /\ g_c v = s * g_c u /\ dotn u v = s * dotn u u.
Proof.
  intros L [D N]. destruct (normal_parallel u v L D) as [s [B C]]. pose proof (line_pos u L) as P. exists s. assert (E : dotn u v = s * dotn u u) by (unfold dotn; rewrite B, C; ring). split; [|auto]. apply fnle_lt. intros X. rewrite E in N. assert (0 <= - s * dotn u u) by (apply fmul_nonneg; [flra|apply fle_lteq; left; exact P]). flra.
Qed.
Lemma smaller_scale u v s : line u -> dotn u v = s * dotn u u -> smaller u v <-> s * g_a u < g_a v.
Proof.
  intros L E. unfold smaller. rewrite E. pose proof (line_pos u L) as P. change (g_b u * g_b u + g_c u * g_c u) with (dotn u u) in P. split; intros H.
  - apply fnle_lt. intros C. assert (0 <= dotn u u * (s * g_a u - g_a v)) by (apply fmul_nonneg; flra). flra.
  - assert (0 < dotn u u * (g_a v - s * g_a u)) by (apply fmul_pos; flra). flra.
Qed.
Lemma sgn_prod_neg (x y : K) : x <> 0 -> (sgn x * sgn (x * y) <? 0)%Z = (y <? 0).
Proof.
  intros N. destruct (sgn_cases y) as [[Y _]|[[Y _]|[Y _]]].
  - destruct (y <? 0) eqn:E; [bools; exfalso; flra|]. apply fneq_lt in N. destruct N as [N|N].
    + assert (X : x * y < 0) by (now apply neg_pos). destruct (sgn_cases x) as [[C ->]|[[C ->]|[C ->]]]; try (exfalso; flra). destruct (sgn_cases (x * y)) as [[C' ->]|[[C' ->]|[C' ->]]]; try (exfalso; flra). reflexivity.
    + assert (X : 0 < x * y) by (now apply fmul_pos). destruct (sgn_cases x) as [[C ->]|[[C ->]|[C ->]]]; try (exfalso; flra). destruct (sgn_cases (x * y)) as [[C' ->]|[[C' ->]|[C' ->]]]; try (exfalso; flra). reflexivity.
  - subst y. replace (x * 0) with (0 : K) by ring. destruct (sgn_cases (0 : K)) as [[C ->]|[[C ->]|[C ->]]]; try (exfalso; flra). rewrite Z.mul_0_r. rewrite fltb_irrefl. reflexivity.
  - unfold flt in Y. rewrite Y. change (y < 0) in Y. apply fneq_lt in N. destruct N as [N|N].
    + assert (X : 0 < x * y) by (now apply neg_mul). destruct (sgn_cases x) as [[C ->]|[[C ->]|[C ->]]]; try (exfalso; flra). destruct (sgn_cases (x * y)) as [[C' ->]|[[C' ->]|[C' ->]]]; try (exfalso; flra). reflexivity.
    + assert (X : x * y < 0). { assert (0 < x * - y) by (apply fmul_pos; flra). flra. } destruct (sgn_cases x) as [[C ->]|[[C ->]|[C ->]]]; try (exfalso; flra). destruct (sgn_cases (x * y)) as [[C' ->]|[[C' ->]|[C' ->]]]; try (exfalso; flra). reflexivity.
Qed.
Definition by_offset u v : bool :=
  if negb (g_c u * g_c v =? 0) then (sgn (g_c u) * sgn (g_a u * g_c v - g_a v * g_c u) <? 0)%Z
  else (sgn (g_b u) * sgn (g_a u * g_b v - g_a v * g_b u) <? 0)%Z.
Lemma by_offset_iff u v : line u -> same_dir u v -> by_offset u v = true <-> smaller u v.
Proof.
  intros L S. destruct (scale_normal u v L S) as [s [P [B [C E]]]]. rewrite (smaller_scale u v s L E). unfold by_offset. rewrite B, C. pose proof (fpos_neq0 _ P) as NS.
  assert (X : forall c, g_a u * (s * c) - g_a v * c = c * (s * g_a u - g_a v)) by (intros; ring). rewrite !X.
  destruct (g_c u * (s * g_c u) =? 0) eqn:Z; cbn [negb]; bools.
  - assert (Zc : g_c u = 0). { apply fmul_eq0 in Z. destruct Z as [Z|Z]; auto. apply fmul_eq0 in Z. tauto. } destruct L as [L|L]; [|tauto]. rewrite sgn_prod_neg by auto. split; intros H; bools; unfold flt in *; [flra|]. change (s * g_a u - g_a v < 0). change (s * g_a u < g_a v) in H. flra.
  - assert (Zc : g_c u <> 0) by (intros Q; apply Z; rewrite Q; ring). rewrite sgn_prod_neg by auto. split; intros H; bools; unfold flt in *; [flra|]. change (s * g_a u - g_a v < 0). change (s * g_a u < g_a v) in H. flra.
Qed.
Lemma hs_lt_iff u v : line u -> line v -> hs_lt u v = true <-> (onleft u = true /\ onleft v = false) \/ (onleft u = onleft v /\ (0 < det u v \/ (det u v = 0 /\ smaller u v))).
Proof.
  intros Lu Lv. assert (E : hs_lt u v = (if negb (eqb (onleft u) (onleft v)) then onleft u else if g_b u * g_b v =? 0 then if g_b u =? g_b v then by_offset u v else g_b v =? 0
    else let cmp := (sgn (g_b u * g_b v) * sgn (g_c u * g_b v - g_c v * g_b u))%Z in if (cmp =? 0)%Z then by_offset u v else (cmp <? 0)%Z)) by (destruct u, v; reflexivity). rewrite E. clear E.
  destruct (eqb (onleft u) (onleft v)) eqn:S; cbn [negb].
  2:{ apply eqb_false_iff in S. destruct (onleft u), (onleft v); try tauto; split; try tauto; try congruence; intros [[? ?]|[? ?]]; congruence. }
  apply eqb_prop in S. assert (R : forall Q, ((onleft u = true /\ onleft v = false) \/ (onleft u = onleft v /\ Q)) <-> Q). { intros Q. rewrite S. destruct (onleft v); split; try tauto; intros [[? ?]|[? ?]]; try congruence; auto. } rewrite R. clear R.
  assert (BY : det u v = 0 -> by_offset u v = true <-> (0 < det u v \/ (det u v = 0 /\ smaller u v))). { intros D. rewrite (by_offset_iff u v Lu (same_side u v Lu Lv S D)). rewrite D. split; [auto|]. intros [H|H]; [flra|tauto]. }
  destruct (g_b u * g_b v =? 0) eqn:Z; bools.
  - destruct (g_b u =? g_b v) eqn:Q; bools.
    + apply BY. rewrite Q in Z. apply fsqr_eq0 in Z. unfold det. rewrite Q, Z. ring.
    + rewrite feqb_eq. apply fmul_eq0 in Z. destruct Z as [Z|Z].
      * assert (V : g_b v <> 0) by congruence. split; [tauto|]. intros [H|[H _]]; exfalso.
        -- unfold det in H. rewrite Z in H. destruct (onleft v) eqn:O.
           ++ apply onleft_true in S, O. destruct S as [S|[_ S]]; [flra|]. destruct O as [O|[O _]]; [|tauto]. pose proof (neg_mul _ _ S O). flra.
           ++ apply (onleft_false _ Lu) in S. apply (onleft_false _ Lv) in O. destruct S as [S|[_ S]]; [flra|]. destruct O as [O|[O _]]; [|tauto]. pose proof (fmul_pos _ _ S O). flra.
        -- pose proof (zero_side u v H Z V). destruct Lu; tauto.
      * assert (U : g_b u <> 0) by congruence. split; [intros _|auto]. left. unfold det. rewrite Z. destruct (onleft v) eqn:O.
        -- apply onleft_true in S, O. destruct O as [O|[_ O]]; [flra|]. destruct S as [S|[S _]]; [|tauto]. pose proof (neg_mul _ _ S O). flra.
        -- apply (onleft_false _ Lu) in S. apply (onleft_false _ Lv) in O. destruct O as [O|[_ O]]; [flra|]. destruct S as [S|[S _]]; [|tauto]. pose proof (fmul_pos _ _ S O). flra.
  - assert (BB : 0 < g_b u * g_b v). { destruct (onleft v) eqn:O.
      - apply onleft_true in S, O. destruct S as [S|[S _]]; [|rewrite S in Z; elim Z; ring]. destruct O as [O|[O _]]; [|rewrite O in Z; elim Z; ring]. now apply neg_mul.
      - apply (onleft_false _ Lu) in S. apply (onleft_false _ Lv) in O. destruct S as [S|[S _]]; [|rewrite S in Z; elim Z; ring]. destruct O as [O|[O _]]; [|rewrite O in Z; elim Z; ring]. now apply fmul_pos. }
    assert (SB : sgn (g_b u * g_b v) = 1%Z) by (destruct (sgn_cases (g_b u * g_b v)) as [[C ->]|[[C ->]|[C ->]]]; auto; exfalso; flra). cbv zeta. rewrite SB, Z.mul_1_l. replace (g_c u * g_b v - g_c v * g_b u) with (- det u v) by (unfold det; ring). rewrite sgn_zero, sgn_neg.
    destruct (- det u v =? 0) eqn:D; bools; [apply BY; flra|]. split; [intros H; bools; left; flra|]. intros [H|[H _]]; [|exfalso; apply D; rewrite H; ring]. change (- det u v < 0). flra.
Qed.
Lemma det_scale_l u v w s : g_b v = s * g_b u -> g_c v = s * g_c u -> det v w = s * det u w.
Proof. intros B C. unfold det. rewrite B, C. ring. Qed.
Lemma det_scale_r u v w s : g_b v = s * g_b u -> g_c v = s * g_c u -> det w v = s * det w u.
Proof. intros B C. unfold det. rewrite B, C. ring. Qed.
Lemma pos_factor (s x : K) : 0 < s -> 0 < s * x -> 0 < x.
Proof. intros S P. apply fnle_lt. intros C. assert (0 <= s * - x) by (apply fmul_nonneg; flra). flra. Qed.
Lemma det_trans u v w : line u -> line v -> line w -> onleft u = onleft v -> onleft v = onleft w -> 0 < det u v -> 0 < det v w -> 0 < det u w.
Proof.
  intros Lu Lv Lw S1 S2 A B. assert (E : det u w * g_b v = det u v * g_b w + det v w * g_b u) by (unfold det; ring).
  assert (V : forall c b c' b', (0:K) < b' * c - c' * b -> b' * c = 0 + b' * c) by (intros; ring). clear V.
  destruct (onleft w) eqn:O.
  - rewrite S2 in S1. apply onleft_true in S1, S2, O. destruct S2 as [V|[V V']].
    + assert (R : 0 <= (- det u w) * g_b v + det u w * g_b v) by flra. apply fnle_lt. intros N. assert (X : 0 <= (- det u w) * (- g_b v)) by (apply fmul_nonneg; flra). destruct S1 as [U|[U U']].
      * assert (0 < det v w * - g_b u) by (apply fmul_pos; flra). assert (0 <= det u v * - g_b w) by (apply fmul_nonneg; destruct O as [O|[O _]]; try rewrite O; flra). flra.
      * unfold det in A. rewrite U in A. pose proof (neg_mul _ _ U' V). flra.
    + unfold det in B. rewrite V in B. exfalso. destruct O as [O|[O _]]; [pose proof (neg_mul _ _ V' O); flra|rewrite O in B; flra].
  - rewrite S2 in S1. apply (onleft_false _ Lu) in S1. apply (onleft_false _ Lv) in S2. apply (onleft_false _ Lw) in O. destruct S2 as [V|[V V']].
    + apply fnle_lt. intros N. assert (X : 0 <= (- det u w) * g_b v) by (apply fmul_nonneg; flra). destruct S1 as [U|[U U']].
      * assert (0 < det v w * g_b u) by (apply fmul_pos; flra). assert (0 <= det u v * g_b w) by (apply fmul_nonneg; destruct O as [O|[O _]]; try rewrite O; flra). flra.
      * unfold det in A. rewrite U in A. pose proof (fmul_pos _ _ U' V). flra.
    + unfold det in B. rewrite V in B. exfalso. destruct O as [O|[O _]]; [pose proof (fmul_pos _ _ V' O); flra|rewrite O in B; flra].
Qed.
Lemma hs_trans u v w : line u -> line v -> line w -> hs_lt u v = true -> hs_lt v w = true -> hs_lt u w = true.
Proof.
  intros Lu Lv Lw. rewrite !hs_lt_iff by auto. intros [[A A']|[S A]] [[B B']|[S' B]]; try (left; split; congruence).
  right. split; [congruence|]. destruct A as [A|[A A']], B as [B|[B B']].
  - left. apply (det_trans u v w); auto.
  - left. destruct (scale_normal v w Lv (same_side v w Lv Lw S' B)) as [s [P [Eb [Ec _]]]]. rewrite (det_scale_r v w u s Eb Ec). now apply fmul_pos.
  - left. destruct (scale_normal u v Lu (same_side u v Lu Lv S A)) as [s [P [Eb [Ec _]]]]. rewrite (det_scale_l u v w s Eb Ec) in B. now apply (pos_factor s).
  - right. destruct (scale_normal u v Lu (same_side u v Lu Lv S A)) as [s [P [Eb [Ec Ed]]]]. destruct (scale_normal v w Lv (same_side v w Lv Lw S' B)) as [t [P' [Eb' [Ec' Ed']]]].
    split; [rewrite (det_scale_r v w u t Eb' Ec'), A; ring|]. assert (Q : dotn u w = t * s * dotn u u) by (unfold dotn; rewrite Eb', Ec', Eb, Ec; ring). apply (smaller_scale u w (t * s) Lu Q). apply (smaller_scale u v s Lu Ed) in A'. apply (smaller_scale v w t Lv Ed') in B'. assert (0 < t * (g_a v - s * g_a u)) by (apply fmul_pos; flra). flra.
Qed.
Lemma hs_eqv u v : line u -> line v -> eqv hs_lt u v <-> exists s, 0 < s /\ v = scale_geo s u.
Proof.
  intros Lu Lv. unfold eqv. split.
  - intros [A B]. assert (A' : ~ hs_lt u v = true) by congruence. assert (B' : ~ hs_lt v u = true) by congruence. rewrite hs_lt_iff in A', B' by auto.
    assert (S : onleft u = onleft v). { destruct (onleft u) eqn:X, (onleft v) eqn:Y; auto; exfalso; tauto. }
    assert (D : det u v = 0). { destruct (feq_dec (det u v) 0) as [D|D]; auto. apply fneq_lt in D. exfalso. destruct D as [D|D]; [apply B'; right; split; [auto|left; rewrite (det_anti u v); flra]|apply A'; right; split; [auto|left; auto]]. }
    destruct (scale_normal u v Lu (same_side u v Lu Lv S D)) as [s [P [Eb [Ec Ed]]]]. exists s. split; auto. apply geo_ext; auto. cbn. assert (N1 : ~ s * g_a u < g_a v). { intros N. apply A'. right. split; auto. right. split; auto. now apply (smaller_scale u v s). }
    assert (N2 : ~ g_a v < s * g_a u). { intros N. apply B'. right. split; auto. right. split; [now apply det_zero_sym|]. assert (E : dotn v u = (1 / s) * dotn v v). { unfold dotn. rewrite Eb, Ec. field. now apply fpos_neq0. } apply (smaller_scale v u (1 / s) Lv E). assert (X : s * (1 / s * g_a v) = g_a v) by (field; now apply fpos_neq0). set (y := 1 / s * g_a v) in *. clearbody y. apply fnle_lt. intros C. assert (0 <= s * (y - g_a u)) by (apply fmul_nonneg; flra). flra. }
    apply fnlt_le in N1, N2. apply fle_antisym; auto.
  - intros [s [P ->]]. assert (T : forall g, line g -> hs_lt g g = false). { intros g L. destruct (hs_lt g g) eqn:E; auto. apply (hs_lt_iff g g L L) in E. destruct E as [[A B]|[_ [A|[_ A]]]]; [congruence|rewrite det_self in A; flra|unfold smaller in A; flra]. }
    assert (Q : forall f g, line f -> line g -> (exists r, 0 < r /\ g = scale_geo r f) -> hs_lt f g = false). { intros f g Lf Lg [r [R ->]]. destruct (hs_lt f (scale_geo r f)) eqn:E; auto. apply (hs_lt_iff _ _ Lf Lg) in E. exfalso. assert (D : det f (scale_geo r f) = 0) by (unfold det; cbn; ring). assert (N : 0 < dotn f (scale_geo r f)). { unfold dotn. cbn. pose proof (fmul_pos _ _ R (line_pos f Lf)). flra. } destruct E as [[A B]|[_ [A|[_ A]]]].
      - apply (left_right f (scale_geo r f)); auto. split; auto.
      - flra.
      - unfold smaller, dotn in A. cbn in A. flra. }
    split; apply Q; auto; [now exists s|]. exists (1 / s). pose proof (fpos_neq0 _ P). split; [apply fdiv_pos; auto; apply flt_0_1|]. apply geo_ext; cbn; field; auto.
Qed.
Lemma hs_eqv_trans u v w : line u -> line v -> line w -> eqv hs_lt u v -> eqv hs_lt v w -> eqv hs_lt u w.
Proof.
  intros Lu Lv Lw A B. apply hs_eqv in A, B; auto. apply hs_eqv; auto. destruct A as [s [P ->]], B as [t [Q ->]]. exists (t * s). split; [now apply fmul_pos|]. apply geo_ext; cbn; ring.
Qed.
Lemma hs_irrefl u : line u -> hs_lt u u = false.
Proof. intros L. assert (E : eqv hs_lt u u) by (apply hs_eqv; auto; exists 1; split; [apply flt_0_1|apply geo_ext; cbn; ring]). apply E. Qed.
Lemma scale_ev s u x : ev (scale_geo s u) x = s * ev u x.
Proof. unfold ev. apply eval_scale. Qed.
Lemma eqv_ev u v x : line u -> line v -> eqv hs_lt u v -> 0 <= ev u x <-> 0 <= ev v x.
Proof.
  intros Lu Lv E. apply hs_eqv in E; auto. destruct E as [s [P ->]]. rewrite scale_ev. split; intros H; [apply fmul_nonneg; flra|]. apply fnlt_le. intros C. assert (0 < s * - ev u x) by (apply fmul_pos; flra). flra.
Qed.

(** the intersection of half planes *)
Definition inter (l : list (geo K)) x := forall h, In h l -> 0 <= ev h x.
Lemma half_spaces_set_ok (l : list (geo K)) : Forall line l ->
  let r := half_spaces_set l in ascending hs_lt r /\ incl r l /\ covered hs_lt l r.
Proof. intros F. apply (ordered_set_ok hs_lt line); auto; [apply hs_trans|apply hs_eqv_trans|apply hs_irrefl]. Qed.
Lemma merge2_half_spaces (a b : list (geo K)) : Forall line a -> Forall line b -> ascending hs_lt a -> ascending hs_lt b ->
  let r := merge2 hs_lt a b in ascending hs_lt r /\ incl r (a ++ b) /\ covered hs_lt (a ++ b) r.
Proof. intros. apply (merge2_ok hs_lt line); auto; [apply hs_trans|apply hs_eqv_trans|apply hs_irrefl]. Qed.
Lemma covered_inter (l r : list (geo K)) : Forall line l -> incl r l -> covered hs_lt l r -> forall x, inter r x <-> inter l x.
Proof.
  intros F I C x. rewrite Forall_forall in F. split; intros H h Hh; [|auto]. destruct (C h Hh) as [g [G E]]. apply (eqv_ev h g); auto.
Qed.

(** ** Half spaces with the same direction *)
Lemma same_normal_iff u v : line u -> line v -> same_normal u v = true <-> same_dir u v.
Proof.
  intros Lu Lv. unfold same_normal. rewrite !andb_true_iff, feqb_eq, !sgn_eqb. split.
  - intros [[A [B1 B2]] [C1 C2]]. split; [unfold det; flra|]. unfold dotn. destruct (sgn_cases (g_b u)) as [[X _]|[[X _]|[X _]]].
    + apply side_pos; [unfold det; flra|]. apply fmul_pos; tauto.
    + rewrite X. destruct Lu as [L|L]; [tauto|]. apply fneq_lt in L. destruct L as [L|L]; [pose proof (neg_mul _ _ L (proj1 C2 L))|pose proof (fmul_pos _ _ L (proj1 C1 L))]; flra.
    + apply side_pos; [unfold det; flra|]. apply neg_mul; tauto.
  - intros S. destruct (scale_normal u v Lu S) as [s [P [B [C _]]]]. rewrite B, C. split; [split; [ring|]|].
    + split; split; intros H; try (now apply fmul_pos); try (now apply (pos_factor s)); [pose proof (neg_pos _ _ H P); flra|]. assert (0 < - g_b u) by (apply (pos_factor s); auto; flra). flra.
    + split; split; intros H; try (now apply fmul_pos); try (now apply (pos_factor s)); [pose proof (neg_pos _ _ H P); flra|]. assert (0 < - g_c u) by (apply (pos_factor s); auto; flra). flra.
Qed.
(** the first of two half spaces with the same direction is contained in the second *)
Lemma smaller_incl u v x : line u -> line v -> same_dir u v -> hs_lt u v = true -> 0 <= ev u x -> 0 <= ev v x.
Proof.
  intros Lu Lv S H X. apply (hs_lt_iff u v Lu Lv) in H. destruct H as [[A B]|[_ [A|[_ A]]]]; [elim (left_right u v); auto|destruct S; flra|].
  destruct (scale_normal u v Lu S) as [s [P [B [C E]]]]. apply (smaller_scale u v s Lu E) in A. assert (Q : ev v x = s * ev u x + (g_a v - s * g_a u)) by (unfold ev, geo_eval; rewrite B, C; ring). rewrite Q. assert (0 <= s * ev u x) by (apply fmul_nonneg; flra). flra.
Qed.
Lemma same_dir_trans u v w : line u -> line v -> same_dir u v -> same_dir v w -> same_dir u w.
Proof.
  intros Lu Lv A B. destruct (scale_normal u v Lu A) as [s [P [Eb [Ec _]]]]. destruct (scale_normal v w Lv B) as [t [P' [Eb' [Ec' _]]]]. split; [unfold det; rewrite Eb', Ec', Eb, Ec; ring|]. unfold dotn. rewrite Eb', Ec', Eb, Ec. pose proof (fmul_pos _ _ (fmul_pos _ _ P P') (line_pos u Lu)). flra.
Qed.
(** ordered, without two of the same direction *)
Definition distinct (l : list (geo K)) := ForallOrdPairs (fun u v => ~ same_dir u v) l.
Lemma between u v w : line u -> line v -> line w -> hs_lt u v = true -> hs_lt v w = true -> same_dir u w -> same_dir u v.
Proof.
  intros Lu Lv Lw A B S. assert (AB := hs_trans u v w Lu Lv Lw A B). apply hs_lt_iff in A, B, AB; auto.
  assert (O : onleft u = onleft w). { destruct AB as [[X Y]|[X _]]; auto. elim (left_right u w); auto. }
  assert (O1 : onleft u = onleft v /\ onleft v = onleft w). { destruct A as [[X Y]|[X _]], B as [[X' Y']|[X' _]]; try (split; congruence). }
  destruct O1 as [O1 O2]. apply same_side; auto. destruct A as [[X Y]|[_ [A|[A _]]]]; [congruence| |auto]. destruct B as [[X Y]|[_ [B|[B _]]]]; [congruence| |].
  - pose proof (det_trans u v w Lu Lv Lw O1 O2 A B). destruct S. exfalso. flra.
  - pose proof (same_side v w Lv Lw O2 B) as S'. assert (S'' : same_dir u v) by (apply (same_dir_trans u w v); auto; now apply same_dir_sym). destruct S''. exfalso. flra.
Qed.
Lemma drop_trivial_ok : forall l reduced : list (geo K), Forall line (rev reduced ++ l) -> ascending hs_lt (rev reduced ++ l) -> distinct (rev reduced) ->
  let r := drop_trivial reduced l in ascending hs_lt r /\ incl r (rev reduced ++ l) /\ distinct r /\ (forall x, inter r x <-> inter (rev reduced ++ l) x).
Proof.
  induction l as [|h l IH]; intros reduced F S D; cbn [drop_trivial].
  - rewrite app_nil_r in *. repeat split; auto; apply incl_refl.
  - assert (PUSH : distinct (rev (h :: reduced)) -> let r := drop_trivial (h :: reduced) l in ascending hs_lt r /\ incl r (rev reduced ++ h :: l) /\ distinct r /\ (forall x, inter r x <-> inter (rev reduced ++ h :: l) x)).
    { intros D'. assert (E : rev (h :: reduced) ++ l = rev reduced ++ h :: l) by (cbn; rewrite <- app_assoc; reflexivity). rewrite <- E in F, S |- *. now apply IH. }
    destruct reduced as [|r reduced]; [apply PUSH; cbn; constructor; auto; constructor|]. assert (F0 := F). rewrite Forall_forall in F0.
    assert (Lh : line h) by (apply F0; memb). assert (Lr : line r) by (apply F0; apply in_or_app; left; rewrite <- in_rev; now left).
    destruct (same_normal h r) eqn:N.
    + apply (same_normal_iff h r Lh Lr) in N. assert (HR : hs_lt r h = true). { apply ss_app in S. destruct S as [_ [_ S]]. apply S; [rewrite <- in_rev; now left|now left]. }
      destruct (IH (r :: reduced)) as [A [B [C E]]]; auto.
      * apply Forall_app in F. destruct F as [F1 F2]. apply Forall_app. split; auto. now inversion F2.
      * apply ss_app in S. destruct S as [S1 [S2 S3]]. apply ss_app. split; auto. apply StronglySorted_inv in S2. split; [apply S2|]. intros x y X Y. apply S3; [auto|now right].
      * split; auto. split; [intros x X; apply B in X; memb|]. split; auto. intros x. rewrite E. split; intros H g G; [|apply H; memb]. rewrite in_app_iff in G. cbn [In] in G. destruct G as [G|[<-|G]]; [apply H; memb| |apply H; memb]. apply (smaller_incl r h); auto; [now apply same_dir_sym|]. apply H. rewrite in_app_iff, <- in_rev. left. now left.
    + apply PUSH. assert (N' : ~ same_dir h r) by (intros Q; apply (same_normal_iff h r Lh Lr) in Q; congruence). cbn [rev] in D |- *. apply fop_app. split; auto. split; [constructor; constructor|]. intros x y X [<-|[]]. rewrite in_app_iff in X. destruct X as [X|[<-|[]]]; [|intros Q; apply N'; now apply same_dir_sym].
      intros Q. assert (Lx : line x) by (apply F0; cbn [rev]; rewrite !in_app_iff; tauto). assert (XR : hs_lt x r = true). { cbn [rev] in S. rewrite <- app_assoc in S. apply ss_app in S. destruct S as [_ [_ S]]. apply S; [auto|now left]. }
      assert (RH : hs_lt r h = true). { apply ss_app in S. destruct S as [_ [_ S]]. apply S; [rewrite <- in_rev; now left|now left]. }
      assert (XR' : same_dir x r) by (apply (between x r h); auto). apply N'. apply same_dir_sym. apply (same_dir_trans r x h); auto. now apply same_dir_sym.
Qed.

(** ** Cyclic order *)
Lemma hs_det u v : line u -> line v -> hs_lt u v = true -> ~ same_dir u v -> (onleft u = true /\ onleft v = false) \/ (onleft u = onleft v /\ 0 < det u v).
Proof. intros Lu Lv A N. apply hs_lt_iff in A; auto. destruct A as [A|[S [A|[A _]]]]; auto. elim N. now apply same_side. Qed.
(** a normal vector on the left and one on the right *)
Lemma cross_sides u v w : line u -> line v -> line w -> onleft u = true -> onleft v = true -> onleft w = false -> 0 < det u v -> 0 < det v w \/ 0 < det w u.
Proof.
  intros Lu Lv Lw U V W A. destruct (0 <? det v w) eqn:E; [auto|]. destruct (0 <? det w u) eqn:E'; [auto|]. bools. exfalso.
  rewrite (det_anti u w) in E'. assert (X : det u w * g_b v = det u v * g_b w + det v w * g_b u) by (unfold det; ring). apply onleft_true in U, V. apply (onleft_false _ Lw) in W.
  assert (B1 : g_b v <= 0) by (destruct V as [V|[V _]]; flra). assert (B2 : g_b u <= 0) by (destruct U as [U|[U _]]; flra). assert (B3 : 0 <= g_b w) by (destruct W as [W|[W _]]; flra).
  assert (P1 : 0 <= det u w * - g_b v) by (apply fmul_nonneg; flra). assert (P2 : 0 <= (- det v w) * (- g_b u)) by (apply fmul_nonneg; flra). assert (P3 : 0 <= det u v * g_b w) by (apply fmul_nonneg; flra).
  assert (W0 : g_b w = 0). { destruct (feq_dec (g_b w) 0) as [Z|Z]; auto. assert (0 < det u v * g_b w) by (apply fmul_pos; auto; apply fneq_lt in Z; destruct Z; flra). flra. }
  destruct W as [W|[_ W]]; [flra|]. unfold det in E, A. rewrite W0 in E. assert (V0 : g_b v = 0). { destruct V as [V|[V _]]; auto. pose proof (neg_pos _ _ V W) as Q. unfold det in E'. rewrite W0 in E'.
    (* det v w = b_v c_w < 0, det u w = b_u c_w >= 0 *)
    assert (B0 : g_b u = 0). { destruct (feq_dec (g_b u) 0) as [Z|Z]; auto. assert (g_b u < 0) by (apply fneq_lt in Z; destruct Z; flra). pose proof (neg_pos (g_b u) (g_c w) H W). flra. }
    exfalso. destruct U as [U|[_ U]]; [flra|]. rewrite B0 in A. pose proof (neg_mul _ _ U V). flra. }
  rewrite V0 in *. destruct U as [U|[U _]].
  - unfold det in E'. rewrite W0 in E'. pose proof (neg_pos _ _ U W). flra.
  - rewrite U in A. flra.
Qed.
Lemma cross_sides' u v w : line u -> line v -> line w -> onleft u = true -> onleft v = false -> onleft w = false -> 0 < det v w -> 0 < det u v \/ 0 < det w u.
Proof.
  intros Lu Lv Lw U V W A.
  assert (N : forall g, line g -> onleft (geo_neg g) = negb (onleft g)). { intros g L. destruct (onleft g) eqn:G; cbn [negb].
    - apply (onleft_false _ (line_neg g L)). apply onleft_true in G. cbn. destruct G as [G|[G G']]; [left; flra|right; split; flra].
    - apply onleft_true. apply (onleft_false _ L) in G. cbn. destruct G as [G|[G G']]; [left; flra|right; split; flra]. }
  destruct (cross_sides (geo_neg v) (geo_neg w) (geo_neg u)) as [P|P]; try (now apply line_neg); try (rewrite N by auto; first [rewrite U|rewrite V|rewrite W]; reflexivity).
  - unfold det in *. cbn. flra.
  - right. unfold det in *. cbn in P. flra.
  - left. unfold det in *. cbn in P. flra.
Qed.
Lemma ascending_cyc u v w : line u -> line v -> line w -> hs_lt u v = true -> hs_lt v w = true -> ~ same_dir u v -> ~ same_dir v w -> ~ same_dir u w -> cyc u v w.
Proof.
  intros Lu Lv Lw A B N1 N2 N3. destruct (hs_det u v Lu Lv A N1) as [[U V]|[S1 D1]], (hs_det v w Lv Lw B N2) as [[V' W]|[S2 D2]].
  - congruence.
  - destruct (cross_sides' u v w) as [P|P]; auto; try congruence; unfold cyc; tauto.
  - destruct (cross_sides u v w) as [P|P]; auto; try congruence; unfold cyc; tauto.
  - left. auto.
Qed.
End Order.
