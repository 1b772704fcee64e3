(** Proofs about [MHypSet]: normalization of polygons, intersections, equality. *)
From Coq Require Import List Bool ZArith Lia Ring Field Sorted Permutation.
From Verif Require Import OField FMicromega PField MBase MEuclid PEuclid SEuclid PRotate MHyp SHyp PHyp PHyp2 PHyp3 PHyp4 PHyp7 MHypSet SHypSet PHypSet PHypSet2 PHypSet3 PHypSet4 PHypSet5 PHypSet6 PHypSet7.
Import ListNotations.

Section Main.
Context {K : OField}.
Add Field KF : (of_ft K).
Local Open Scope res_scope. Local Open Scope F_scope.
Implicit Types p q x y z : vec K.
Implicit Types f g h i j u v w A B C : geo K.
Implicit Types l m t : list (geo K).
Implicit Types r : segment_set K.

Lemma common_body l x : common l x <-> body l x.
Proof. unfold common, body, inter. split; intros [D H]; split; auto; intros h Hh; apply ev_left; auto. Qed.
Lemma denotes_result (o : hyp_set K) x : denotes o x <-> result_set o x.
Proof. destruct o; cbn; tauto. Qed.
Lemma chooses_picks (pick : option K -> option K -> K) : chooses pick <-> picks pick.
Proof.
  assert (E : forall lo hi (x : K), element lo hi x <-> inside lo hi x) by (intros [a|] [b|] x; unfold element, inside; cbn; tauto).
  assert (NE : forall lo hi, nonempty lo hi <-> exists x : K, inside lo hi x). { intros [a|] [b|]; unfold nonempty, inside; cbn; split; auto; try (intros [x [H1 H2]]; flra); intros H; [exists a|exists a|exists b|exists 0]; split; auto; flra. }
  split; intros H lo hi; [intros N; apply NE in N; destruct N as [x X]; apply E; apply (H lo hi x); now apply E|]. intros x X. apply E. apply H. apply NE. exists x. now apply E.
Qed.
Lemma eqv_same u v : line u -> line v -> eqv hs_lt u v <-> same_oriented u v.
Proof. intros Lu Lv. rewrite (hs_eqv u v Lu Lv). split; [intros [k [Pk ->]]; now apply scale_same|intros S; destruct (same_scale u v Lu Lv S) as [k [Pk E]]; eauto]. Qed.
Lemma covered_represented l m : Forall line l -> Forall line m -> covered hs_lt l m <-> represented l m.
Proof. intros L M. rewrite Forall_forall in L, M. split; intros H h Hh; destruct (H h Hh) as [g [G E]]; exists g; split; auto; apply eqv_same; auto. Qed.

(** ** The interior of a polygon *)
Lemma solid_ok l m : Forall chord l -> distinct l -> m <> [] -> incl m l -> (forall B, In B m -> two_pts l B) -> (forall B, In B l -> two_pts l B -> In B m) -> (forall A C, In A m -> In C m -> ~ opp A C) ->
  exists w0 : vec K, finite w0 /\ forall h, In h l -> 0 < ev h w0.
Proof.
  intros CH DI NE IM M2 M1 NO. assert (LL : Forall line l) by (eapply Forall_impl; [|exact CH]; intros; now apply chord_line).
  destruct m as [|B1 m0]; [congruence|]. set (m := B1 :: m0) in *. assert (N1 : In B1 m) by (now left). pose proof (IM _ N1) as N1'. destruct (M2 B1 N1) as [a [b [AB [[Da [Oa Ia]] [Db [Ob Ib]]]]]].
  assert (L1 : line B1) by (now apply (proj1 (Forall_forall _ _) LL)).
  assert (NN : 0 < g_b B1 * g_b B1 + g_c B1 * g_c B1) by (apply fsum_sq_pos; unfold line in L1; tauto).
  destruct (push l (mid a b) (g_b B1, g_c B1)) as [e [E P]].
  { intros h Hh. pose proof (mid_inter l a b Ia Ib h Hh) as W. apply fle_lteq in W. destruct W as [W|W]; [now left|]. right. symmetry in W. split; auto. cbn. apply (proj2 (ev_on _ _)) in W. destruct (mid_on l a b h Ia Ib Hh W) as [W1 W2]. assert (Lh : line h) by (now apply (proj1 (Forall_forall _ _) LL)). destruct (collinear B1 h a b L1 Lh AB Oa Ob W1 W2) as [S|O].
    - rewrite <- (distinct_in l B1 h LL DI N1' Hh S). exact NN.
    - exfalso. apply (NO B1 h); auto. apply M1; auto. exists a, b. repeat split; auto. }
  destruct (near_finite (mid a b) (g_b B1, g_c B1) (mid_finite a b Da Db AB)) as [e2 [E2 F2]]. set (s := if e <? e2 then e else e2). assert (S : 0 < s /\ s <= e /\ s <= e2) by (unfold s; destruct (e <? e2) eqn:L; bools; repeat split; auto; flra). clearbody s. destruct S as [S1 [S2 S3]].
  exists (vadd (mid a b) (vscale s (g_b B1, g_c B1))). split; [apply F2; flra|]. apply P; auto.
Qed.
Lemma strict_iff h x : 0 < ev h x <-> left_of h x /\ ~ on h x.
Proof. rewrite ev_left, ev_on. split; [intros H; split; [flra|intros E; flra]|intros [H N]; apply fle_lteq in H; destruct H as [H|H]; auto; congruence]. Qed.
Lemma solid_iff l : solid l <-> exists w0 : vec K, finite w0 /\ forall h, In h l -> 0 < ev h w0.
Proof. split; intros [p [F H]]; exists p; split; auto; intros h Hh; apply strict_iff; auto. Qed.
Lemma edge_iff l B : edge_of (body l) B <-> two_pts l B.
Proof. split; intros [a [b [N H]]]; exists a, b; unfold edgeset, body in *; tauto. Qed.

(** ** Two polygons with the same points *)
Lemma same_multiple g h x : line g -> line h -> same_dir g h -> on g x -> on h x -> same_oriented g h.
Proof.
  intros LG LH [D P] GX HX y. rewrite !ev_left. pose proof (par_eval g h y x D) as E. apply (proj1 (ev_on _ _)) in GX. apply (proj1 (ev_on _ _)) in HX. rewrite GX, HX in E. assert (GG : 0 < dotn g g) by (unfold dotn; apply fsum_sq_pos; unfold line in LG; tauto).
  assert (E' : dotn g g * ev h y = dotn g h * ev g y) by flra. split; intros H; [apply (sign_mul _ _ GG)|apply (sign_mul _ _ P)].
  - assert (0 <= dotn g h * ev g y) by (apply fmul_nonneg; flra). flra.
  - assert (0 <= dotn g g * ev h y) by (apply fmul_nonneg; flra). flra.
Qed.
Lemma zero_dec m c : inter m c -> (forall g, In g m -> 0 < ev g c) \/ exists g, In g m /\ ev g c = 0.
Proof.
  induction m as [|g m IH]; intros H; [left; intros g []|]. assert (H0 := H g (or_introl eq_refl)). destruct IH as [IH|[k [K1 K2]]]; [intros k Hk; apply H; now right| |right; exists k; split; [now right|auto]]. apply fle_lteq in H0. destruct H0 as [P|Z]; [left; intros k [<-|Hk]; auto|right; exists g; split; [now left|auto]].
Qed.
Lemma canon l m : Forall chord l -> Forall chord m -> solid l -> (forall x, body l x <-> body m x) -> (forall B, In B l -> edge_of (body l) B) -> represented l m.
Proof.
  intros CL CM SO EQ ED B HB. rewrite Forall_forall in CL, CM. apply solid_iff in SO. destruct SO as [w0 [FW W]]. destruct (ED B HB) as [a [b [AB [Ba [Bb [Oa Ob]]]]]]. pose proof (chord_line _ (CL B HB)) as LB. destruct Ba as [Da Ia], Bb as [Db Ib].
  assert (Ia' : inter m a) by (now apply EQ). assert (Ib' : inter m b) by (now apply EQ). pose proof (mid_finite a b Da Db AB) as FM. pose proof (mid_inter m a b Ia' Ib') as IM.
  assert (OM : ev B (mid a b) = 0). { pose proof (ev_mid B a b) as E. apply (proj1 (ev_on _ _)) in Oa. apply (proj1 (ev_on _ _)) in Ob. rewrite Oa, Ob in E. flra. }
  destruct (zero_dec m (mid a b) IM) as [P|[g [G Z]]].
  - exfalso. destruct (push m (mid a b) (- g_b B, - g_c B)) as [e [E H]]; [intros g Hg; left; auto|]. destruct (near_finite (mid a b) (- g_b B, - g_c B) FM) as [e2 [E2 F2]]. set (s := if e <? e2 then e else e2). assert (S : 0 < s /\ s <= e /\ s <= e2) by (unfold s; destruct (e <? e2) eqn:L; bools; repeat split; auto; flra). clearbody s. destruct S as [S1 [S2 S3]].
    assert (Q : body m (vadd (mid a b) (vscale s (- g_b B, - g_c B)))). { split; [apply finite_disk, F2; flra|]. intros g Hg. specialize (H s S1 S2 g Hg). flra. } apply EQ in Q. destruct Q as [_ Q]. specialize (Q B HB). rewrite ev_dir, OM in Q. cbn in Q. assert (NN : 0 < g_b B * g_b B + g_c B * g_c B) by (apply fsum_sq_pos; unfold line in LB; tauto). assert (0 < s * (g_b B * g_b B + g_c B * g_c B)) by (now apply fmul_pos). flra.
  - exists g. split; auto. pose proof (chord_line _ (CM g G)) as Lg. apply (proj2 (ev_on _ _)) in Z. destruct (mid_on m a b g Ia' Ib' G Z) as [Z1 Z2]. destruct (collinear B g a b LB Lg AB Oa Ob Z1 Z2) as [S|O]; [now apply (same_multiple B g a)|].
    exfalso. assert (BW : body m w0). { apply EQ. split; [now apply finite_disk|]. intros h Hh. pose proof (W h Hh). flra. } destruct BW as [_ BW]. specialize (BW g G). pose proof (W B HB) as WB. destruct O as [k [Pk ->]]. rewrite scale_ev in BW. assert (0 < k * ev B w0) by (now apply fmul_pos). flra.
Qed.
(** sorted lists with the same elements *)
Lemma lt_eqv u v w : line u -> line v -> line w -> hs_lt u v = true -> eqv hs_lt v w -> hs_lt u w = true.
Proof.
  intros Lu Lv Lw A E. destruct (hs_lt u w) eqn:Q; auto. exfalso. destruct (hs_lt w u) eqn:Q'; [pose proof (hs_trans w u v Lw Lu Lv Q' A); destruct E; congruence|]. assert (E' : eqv hs_lt u v) by (apply (hs_eqv_trans u w v); auto; [now split|destruct E; now split]). destruct E'. congruence.
Qed.
Lemma sorted_unique : forall l m, Forall line l -> Forall line m -> increasing hs_lt l -> increasing hs_lt m -> represented l m -> represented m l -> Forall2 same_oriented l m.
Proof.
  assert (GEN : forall (x y : geo K) l m, Forall line (x :: l) -> Forall line (y :: m) -> increasing hs_lt (x :: l) -> increasing hs_lt (y :: m) -> represented (x :: l) (y :: m) -> same_oriented x y -> represented l m).
  { intros x y l m Lx Ly Sx Sy R E x' Hx'. rewrite Forall_forall in Lx, Ly. apply StronglySorted_inv in Sx. destruct Sx as [_ Sx]. rewrite Forall_forall in Sx. destruct (R x' (or_intror Hx')) as [y' [[<-|Hy'] E']]; [|eauto]. exfalso. assert (W : eqv hs_lt x x') by (apply eqv_same; [apply Lx; now left|apply Lx; now right|intros p; rewrite (E p), (E' p); tauto]). destruct W as [W _]. rewrite (Sx x' Hx') in W. discriminate. }
  induction l as [|x l IH]; intros m Ll Lm Sl Sm R1 R2.
  - destruct m as [|y m]; [constructor|]. destruct (R2 y (or_introl eq_refl)) as [g [[] _]].
  - destruct m as [|y m]; [destruct (R1 x (or_introl eq_refl)) as [g [[] _]]|]. pose proof (proj1 (Forall_forall _ _) Ll) as Ll'. pose proof (proj1 (Forall_forall _ _) Lm) as Lm'. assert (Lx : line x) by (apply Ll'; now left). assert (Ly : line y) by (apply Lm'; now left).
    assert (E : same_oriented x y). { destruct (R1 x (or_introl eq_refl)) as [y' [[<-|Hy'] E1]]; auto. destruct (R2 y (or_introl eq_refl)) as [x' [[<-|Hx'] E2]]; [intros p; symmetry; apply E2|]. exfalso. pose proof Sl as Sl'. pose proof Sm as Sm'. apply StronglySorted_inv in Sl', Sm'. destruct Sl' as [_ Sl'], Sm' as [_ Sm']. rewrite Forall_forall in Sl', Sm'. assert (Lx' : line x') by (apply Ll'; now right). assert (Ly' : line y') by (apply Lm'; now right).
      assert (Q1 : hs_lt x y = true) by (apply (lt_eqv x x' y); auto; apply eqv_same; auto; intros p; symmetry; apply E2). assert (Q2 : hs_lt y x = true) by (apply (lt_eqv y y' x); auto; apply eqv_same; auto; intros p; symmetry; apply E1). pose proof (hs_trans x y x Lx Ly Lx Q1 Q2) as Q3. rewrite hs_irrefl in Q3 by auto. discriminate. }
    constructor; auto. apply IH; [now inversion Ll|now inversion Lm|now apply StronglySorted_inv in Sl|now apply StronglySorted_inv in Sm|now apply (GEN x y)|apply (GEN y x); auto; intros p; symmetry; apply E].
Qed.
Lemma eqb_list l m : Forall line l -> Forall line m -> half_spaces_eqb l m = true <-> Forall2 same_oriented l m.
Proof.
  intros L. revert m. induction L as [|x l Lx L IH]; intros [|y m] M; cbn; try (split; [discriminate|inversion 1]); [split; [constructor|reflexivity]|]. inversion M as [|? ? My M']; subst. rewrite andb_true_iff, (IH m M'), (eqb_oriented x y Lx My). split; [intros [A B]; now constructor|inversion 1; auto].
Qed.
Lemma Forall2_body l m : Forall2 same_oriented l m -> forall x, common l x <-> common m x.
Proof.
  intros F x. unfold common. assert (E : (forall h, In h l -> left_of h x) <-> forall h, In h m -> left_of h x); [|tauto]. induction F as [|g h l m E F IH]; [tauto|]. split; intros H k [<-|Hk]; try (apply E; apply H; now left); [apply (proj1 IH)|apply (proj2 IH)]; auto; intros k' Hk'; apply H; now right.
Qed.

(** ** Normalization *)
Section Base.
Context (B0 : K -> Prop) (sqrt : K -> option K) (SB : subfield B0) (SQ : sqrt_in B0 sqrt).
Context (shuffle : list (geo K) -> list (geo K)) (SH : forall l, Permutation l (shuffle l)) (pick : option K -> option K -> K) (PI : picks pick).
Definition outcome (X : vec K -> Prop) (o : res (hyp_set K)) := match o with
  | Ok o => proper_set hs_lt o /\ forall x, denotes o x <-> X x
  | Err e => e = ValueError /\ irrational_ray B0 X
  end.
Lemma ray_ext (X Y : vec K -> Prop) : (forall x, X x <-> Y x) -> irrational_ray B0 X -> irrational_ray B0 Y.
Proof. intros E [g [p [C1 [C2 [C3 [C4 C5]]]]]]. exists g, p. split; auto. split; auto. split; auto. split; auto. intros q. rewrite <- E. apply C4. Qed.
Lemma outcome_ext (X Y : vec K -> Prop) o : (forall x, X x <-> Y x) -> outcome X o -> outcome Y o.
Proof. intros E. destruct o as [o|e]; cbn; intros [H1 H2]; split; auto; [intros x; rewrite H2; apply E|now apply (ray_ext X)]. Qed.
Lemma normalize_ok l : l <> [] -> Forall chord l -> Forall (geo_over B0) l -> increasing hs_lt l -> outcome (common l) (normalize sqrt shuffle pick l).
Proof.
  intros NE CH OV AS. assert (LL : Forall line l) by (eapply Forall_impl; [|exact CH]; intros; now apply chord_line). unfold normalize. destruct (drop_trivial_ok l []) as [A1 [A2 [A3 A4]]]; auto; [constructor|]. cbn [rev app] in *. set (t := drop_trivial [] l) in *.
  assert (TN : t <> []). { intros E. rewrite E in A4. destruct l as [|h l']; [congruence|]. inversion LL as [|? ? Lh _]; subst. pose proof (far_point h (- (1)) Lh) as FP. set (far := vadd (foot h) _) in FP. assert (Q : inter (h :: l') far) by (apply A4; intros k []). specialize (Q h (or_introl eq_refl)). unfold ev in Q. rewrite FP in Q. pose proof (@flt_0_1 K). flra. }
  assert (CT' : Forall chord t) by (apply Forall_forall; intros h Hh; apply (proj1 (Forall_forall _ _) CH); auto). assert (OT : Forall (geo_over B0) t) by (apply Forall_forall; intros h Hh; apply (proj1 (Forall_forall _ _) OV); auto). assert (LT : Forall line t) by (eapply Forall_impl; [|exact CT']; intros; now apply chord_line).
  pose proof (ascending_good t LT A1 A3) as GT. destruct (euclidean_boundary_ok pick t (shuffle t) PI (SH t) TN GT) as [o [EO BS]].
  assert (BODY : forall m, (forall z, inter m z <-> inter t z) -> forall x, body m x <-> common l x). { intros m H x. rewrite common_body. unfold body. rewrite H, A4. tauto. } assert (BT : forall x, body t x <-> common l x) by (apply BODY; tauto).
  destruct t as [|t0 t'] eqn:ET; [congruence|]. rewrite <- ET in *. rewrite EO. cbn [bind]. destruct o as [|p|r|h|m]; cbn [boundary_spec] in BS; try contradiction.
  - cbn. split; auto. intros x. rewrite <- BT. split; [intros []|intros [D I]]. exact (BS x D I) || (elim (BS x); auto).
  - destruct BS as [D P]. cbn. split; auto. intros x. rewrite <- BT. unfold body. rewrite P. split; [intros ->; auto|tauto].
  - destruct BS as [Hh [a [b [AB [Ia [Ib [Oa Ob]]]]]]]. destruct (drop_euclidean_redundant_ok t h GT Hh) as [m [EM [MN [GM [CM [AM [IM EI]]]]]]]; [exists a, b; auto|]. rewrite EM. cbn [bind]. pose proof (BODY m EI) as BM.
    assert (CHM : Forall chord m) by (apply Forall_forall; intros k Hk; apply (proj1 (Forall_forall _ _) CT'); auto). assert (OVM : Forall (geo_over B0) m) by (apply Forall_forall; intros k Hk; apply (proj1 (Forall_forall _ _) OT); auto).
    pose proof (drop_unit_disk_redundant_ok B0 sqrt SB SQ m a b MN GM CM AM CHM OVM AB (proj2 (EI a) Ia) (proj2 (EI b) Ib)) as DR. destruct (drop_unit_disk_redundant sqrt m) as [o|e].
    + destruct DR as [RN RS]. assert (DS : forall x, denotes o x <-> common l x) by (intros x; rewrite denotes_result, RS; apply BM). split; auto. destruct o as [|p|r|k|n]; cbn in *; auto.
      * destruct RN as [P N]. destruct r; cbn in *; auto.
      * destruct RN as [Hk _]. now apply (proj1 (Forall_forall _ _) CHM).
      * destruct RN as [IN [LN [AN [DN [TN' NO]]]]]. assert (CN : Forall chord n) by (apply Forall_forall; intros k Hk; apply (proj1 (Forall_forall _ _) CHM); auto). split; auto. split; auto. split; auto. assert (BN : forall x, body n x <-> body m x) by (intros x; rewrite <- common_body, DS; symmetry; apply BM).
        assert (TW : forall B, In B n -> two_pts n B) by (intros B HB; apply edge_iff; destruct (TN' B HB) as [x [y [XY [X Y]]]]; exists x, y; unfold edgeset in *; rewrite !BN; unfold body; tauto). split.
        -- apply solid_iff. apply (solid_ok n n); auto; [intros ->; cbn in LN; lia|apply incl_refl].
        -- intros B HB. apply TW in HB. apply edge_iff in HB. destruct HB as [x [y H]]. exists x, y. rewrite !common_body. exact H.
    + destruct DR as [-> DR]. split; auto. now apply (ray_ext (body m)).
Qed.
Lemma polygon_ok l : l <> [] -> Forall chord l -> Forall (geo_over B0) l -> outcome (common l) (polygon sqrt shuffle pick l).
Proof.
  intros NE CH OV. assert (LL : Forall line l) by (eapply Forall_impl; [|exact CH]; intros; now apply chord_line). destruct (half_spaces_set_ok l LL) as [A [I C]]. set (m := half_spaces_set l) in *. unfold polygon. fold m.
  assert (NM : m <> []). { intros E. rewrite E in C. destruct l as [|h l']; [congruence|]. destruct (C h (or_introl eq_refl)) as [g [[] _]]. }
  assert (H : outcome (common m) (normalize sqrt shuffle pick m)) by (apply normalize_ok; auto; apply Forall_forall; intros h Hh; [apply (proj1 (Forall_forall _ _) CH)|apply (proj1 (Forall_forall _ _) OV)]; auto).
  assert (EQ : forall x, common m x <-> common l x) by (intros x; rewrite !common_body; unfold body; rewrite (covered_inter l m LL I C); tauto). now apply (outcome_ext (common m)).
Qed.
Lemma inter_app l m x : inter (l ++ m) x <-> inter l x /\ inter m x.
Proof. unfold inter. split; [intros H; split; intros h Hh; apply H; apply in_app_iff; auto|intros [H1 H2] h Hh; apply in_app_iff in Hh; destruct Hh; auto]. Qed.
Lemma fold_merge (sets : list (list (geo K))) : forall acc, Forall line acc -> increasing hs_lt acc -> Forall (fun l => Forall line l /\ increasing hs_lt l) sets ->
  let r := fold_left (merge2 hs_lt) sets acc in increasing hs_lt r /\ incl r (acc ++ concat sets) /\ forall x, inter r x <-> inter (acc ++ concat sets) x.
Proof.
  induction sets as [|l sets IH]; intros acc La Sa F; cbn [fold_left concat]; [rewrite app_nil_r; split; auto; split; [apply incl_refl|tauto]|]. inversion F as [|? ? [Ll Sl] F']; subst. destruct (merge2_half_spaces acc l La Ll Sa Sl) as [A [I C]]. set (m := merge2 hs_lt acc l) in *. assert (LAL : Forall line (acc ++ l)) by (apply Forall_app; auto). assert (Lm : Forall line m) by (apply Forall_forall; intros h Hh; apply (proj1 (Forall_forall _ _) LAL); auto). destruct (IH m Lm A F') as [A' [I' E']]. split; auto. split.
  - intros h Hh. apply I' in Hh. rewrite app_assoc. apply in_app_iff. apply in_app_iff in Hh. destruct Hh as [Hh|Hh]; auto.
  - intros x. rewrite E', app_assoc. pose proof (covered_inter _ _ LAL I C x) as Q. rewrite inter_app in Q. rewrite !inter_app. tauto.
Qed.
Lemma intersect_sets_ok (sets : list (list (geo K))) : concat sets <> [] -> Forall (fun l => Forall chord l /\ Forall (geo_over B0) l /\ increasing hs_lt l) sets -> outcome (common (concat sets)) (intersect_sets sqrt shuffle pick sets).
Proof.
  intros NE F. assert (FL : Forall (fun l => Forall line l /\ increasing hs_lt l) sets) by (eapply Forall_impl; [|exact F]; intros l [H1 [_ H2]]; split; auto; eapply Forall_impl; [|exact H1]; intros; now apply chord_line). destruct (fold_merge sets [] (Forall_nil _) (SSorted_nil _) FL) as [A [I E]]. cbn [app] in *. unfold intersect_sets. set (m := fold_left (merge2 hs_lt) sets []) in *.
  assert (CC : Forall chord (concat sets) /\ Forall (geo_over B0) (concat sets)). { clear - F. induction F as [|l sets [H1 [H2 _]] F [IH1 IH2]]; cbn; auto. split; apply Forall_app; auto. } destruct CC as [CC OC].
  assert (NM : m <> []). { intros Q. rewrite Q in E. destruct (concat sets) as [|h t]; [congruence|]. inversion CC as [|? ? Ch _]; subst. pose proof (chord_line _ Ch) as Lh. pose proof (far_point h (- (1)) Lh) as FP. set (far := vadd (foot h) _) in FP. assert (W : inter (h :: t) far) by (apply E; intros k []). specialize (W h (or_introl eq_refl)). unfold ev in W. rewrite FP in W. pose proof (@flt_0_1 K). flra. }
  assert (H : outcome (common m) (normalize sqrt shuffle pick m)) by (apply normalize_ok; auto; apply Forall_forall; intros h Hh; [apply (proj1 (Forall_forall _ _) CC)|apply (proj1 (Forall_forall _ _) OC)]; auto).
  assert (EQ : forall x, common m x <-> common (concat sets) x) by (intros x; rewrite !common_body; unfold body; rewrite E; tauto). now apply (outcome_ext (common m)).
Qed.
(** ** Intersections of sets *)
Lemma two_over : B0 (2) /\ B0 1 /\ B0 0.
Proof. destruct SB as [O [P [M [N _]]]]. split; [now apply P|]. split; auto. assert (E : (0 : K) = (1 : K) + - (1 : K)) by ring. rewrite E. auto. Qed.
Lemma empty_half_spaces_ok : exists l, @empty_half_spaces K = Ok l /\ l <> [] /\ Forall chord l /\ Forall (geo_over B0) l /\ increasing hs_lt l /\ forall x, common l x <-> False.
Proof.
  destruct two_over as [B2 [B1 Bz]]. destruct SB as [_ [P [M [N _]]]]. unfold empty_half_spaces, half_circle. rewrite !sgn_nonpos. assert (O := @flt_0_1 K). unfold flt in O. rewrite O. cbn [negb]. unfold geodesic_half_plane, geodesic_klein.
  assert (CH : forall c : K, c * c = 2 * 2 -> chord (Geo (1 + (c * c - 1)) (- (2) * c) (1 - (c * c - 1)))). { intros c E. apply chord_iff. cbn. assert (X : - (2) * c * (- (2) * c) = (1 + 1 + 1 + 1) * (c * c)) by ring. rewrite X, E. pose proof (@flt_0_1 K). flra. }
  assert (C1 := CH (- (2)) ltac:(ring)). assert (C2 := CH 2 ltac:(ring)). rewrite (check_ok _ C1), (check_ok _ C2). cbn [bind]. eexists. split; [reflexivity|]. match goal with |- context [half_spaces_set ?L] => set (l := L) end.
  assert (CL : Forall chord l) by (constructor; [now apply chord_neg|constructor; [now apply chord_neg|constructor]]). assert (LL : Forall line l) by (eapply Forall_impl; [|exact CL]; intros; now apply chord_line). destruct (half_spaces_set_ok l LL) as [A [I C]]. set (m := half_spaces_set l) in *.
  assert (CM : Forall chord m) by (apply Forall_forall; intros h Hh; apply (proj1 (Forall_forall _ _) CL); auto).
  assert (OL : Forall (geo_over B0) l). { unfold l. assert (W : forall c : K, B0 c -> geo_over B0 (Geo (1 + (c * c - 1)) (- (2) * c) (1 - (c * c - 1)))). { intros c Bc. assert (D : B0 (c * c - 1)) by (replace (c * c - 1) with (c * c + - (1)) by ring; auto). repeat split; cbn; auto. replace (1 - (c * c - 1)) with (1 + - (c * c - 1)) by ring. auto. } constructor; [|constructor; [|constructor]]; apply (over_neg B0 SB); apply W; auto. }
  split; [intros E; rewrite E in C; destruct (C _ (or_introl eq_refl)) as [g [[] _]]|]. split; auto. split; [apply Forall_forall; intros h Hh; apply (proj1 (Forall_forall _ _) OL); auto|]. split; auto.
  intros x. split; [|intros []]. intros X. assert (Y : common l x) by (rewrite common_body in *; destruct X as [D X]; split; auto; now apply (covered_inter l m LL I C)). destruct Y as [D Y]. pose proof (Y _ (or_introl eq_refl)) as Y1. pose proof (Y _ (or_intror (or_introl eq_refl))) as Y2. unfold left_of, geo_neg in Y1, Y2. cbn in Y1, Y2. unfold in_disk in D.
  assert (Q : 2 <= snd x). { apply fnlt_le. intros Q. pose proof (@flt_0_1 K). flra. } pose proof (fsq_nonneg (fst x)) as F1. pose proof (fsq_nonneg (snd x - 1)) as F2. pose proof (@flt_0_1 K). flra.
Qed.
Lemma sorted_sets l : l <> [] -> Forall chord l -> Forall (geo_over B0) l -> let m := half_spaces_set l in m <> [] /\ Forall chord m /\ Forall (geo_over B0) m /\ increasing hs_lt m /\ forall x, common m x <-> common l x.
Proof.
  intros NE CL OL. assert (LL : Forall line l) by (eapply Forall_impl; [|exact CL]; intros; now apply chord_line). destruct (half_spaces_set_ok l LL) as [A [I C]]. set (m := half_spaces_set l) in *. cbn zeta. split; [intros E; rewrite E in C; destruct l as [|h t]; [congruence|]; destruct (C h (or_introl eq_refl)) as [g [[] _]]|]. split; [apply Forall_forall; intros h Hh; apply (proj1 (Forall_forall _ _) CL); auto|]. split; [apply Forall_forall; intros h Hh; apply (proj1 (Forall_forall _ _) OL); auto|]. split; auto. intros x. rewrite !common_body. unfold body. rewrite (covered_inter l m LL I C). tauto.
Qed.
Lemma point_over p l : point_half_spaces p = Ok l -> B0 (fst p) -> B0 (snd p) -> l <> [] /\ Forall (geo_over B0) l.
Proof.
  destruct p as [x y]. cbn [fst snd]. intros E X Y. destruct two_over as [_ [B1 Bz]]. destruct SB as [_ [P [M [N _]]]].
  assert (G : forall a b c g, @geodesic_klein K a b c = Ok g -> B0 a -> B0 b -> B0 c -> geo_over B0 g). { intros a b c g H A B C. unfold geodesic_klein, geo_check in H. destruct (_ || _); [discriminate|]. injection H as <-. repeat split; auto. }
  unfold point_half_spaces in E. destruct (is_finite (x, y)).
  - destruct (geodesic_klein (- x) 1 0) as [f|] eqn:E1; [|discriminate]. destruct (geodesic_klein (- y) 0 1) as [g|] eqn:E2; [|discriminate]. destruct (geodesic_klein (x + y) (- (1)) (- (1))) as [h|] eqn:E3; [|discriminate]. cbn [bind] in E. injection E as <-. split; [discriminate|]. constructor; [eapply G; eauto|constructor; [eapply G; eauto|constructor; [eapply G; eauto|constructor]]].
  - destruct (geodesic_klein 0 (- y) x) as [f|] eqn:E1; [|discriminate]. destruct (geodesic_klein (- x * x - y * y) (y + x) (y - x)) as [g|] eqn:E2; [|discriminate]. cbn [bind] in E. injection E as <-. split; [discriminate|]. constructor; [eapply G; eauto|constructor; [|constructor]]. apply (G _ _ _ _ E2); auto; [replace (- x * x - y * y) with (- (x * x) + - (y * y)) by ring; auto|replace (y - x) with (y + - x) by ring; auto].
Qed.
Lemma set_half_spaces_ok (o : hyp_set K) : proper_set hs_lt o -> set_over B0 o -> exists l, set_half_spaces o = Ok l /\ l <> [] /\ Forall chord l /\ Forall (geo_over B0) l /\ increasing hs_lt l /\ forall x, common l x <-> denotes o x.
Proof.
  intros PR OV. destruct o as [|p|[|p|g|g s e]|h|l]; cbn [set_half_spaces] in *; try contradiction.
  - apply empty_half_spaces_ok.
  - destruct (point_half_spaces_ok p PR) as [l [E [CL H]]]. rewrite E. cbn [bind]. destruct (point_over p l E) as [NE OL]; try apply OV. destruct (sorted_sets l NE CL OL) as [A1 [A2 [A3 [A4 A5]]]]. eexists. do 5 (split; [eauto|]). intros x. rewrite A5. unfold common. cbn. split; [intros [D X]; now apply H|intros ->; split; auto; now apply H].
  - destruct (sorted_sets (geodesic_half_spaces g)) as [A1 [A2 [A3 [A4 A5]]]]; [discriminate|constructor; [exact PR|constructor; [apply chord_neg; exact PR|constructor]]|constructor; [exact OV|constructor; [apply (over_neg B0 SB g OV)|constructor]]|]. eexists. do 5 (split; [eauto|]). intros x. rewrite A5. unfold common. rewrite geodesic_half_spaces_ok. reflexivity.
  - destruct PR as [CG [NN [HS [HE SE]]]]. destruct OV as [OG [OS OE]]. destruct (segment_half_spaces_ok g s e CG HS HE) as [CA HA]. unfold segment_half_spaces in *. apply Forall_app in CA. destruct CA as [CA1 CA2]. assert (OA1 : Forall (geo_over B0) (geodesic_half_spaces g)) by (constructor; [exact OG|constructor; [apply (over_neg B0 SB g OG)|constructor]]).
    assert (OA2 : Forall (geo_over B0) (endpoint_half_spaces g s e)). { destruct SB as [_ [P [M [N _]]]]. destruct OG as [Oa [Ob Oc]]. unfold endpoint_half_spaces. apply Forall_app. split; [destruct s as [p|]; constructor; auto; destruct (OS p eq_refl) as [Px Py]|destruct e as [p|]; constructor; auto; destruct (OE p eq_refl) as [Px Py]]; repeat split; cbn; auto. replace (g_c g * fst p - g_b g * snd p) with (g_c g * fst p + - (g_b g * snd p)) by ring. auto. }
    destruct (sorted_sets (geodesic_half_spaces g)) as [A1 [A2 [A3 [A4 A5]]]]; [discriminate|auto|auto|]. assert (NE : endpoint_half_spaces g s e <> []). { unfold endpoint_half_spaces. destruct s as [p|]; [discriminate|]. destruct e as [p|]; [discriminate|]. destruct NN; congruence. } destruct (sorted_sets (endpoint_half_spaces g s e) NE CA2 OA2) as [E1 [E2 [E3 [E4 E5]]]].
    set (l1 := half_spaces_set (geodesic_half_spaces g)) in *. set (l2 := half_spaces_set (endpoint_half_spaces g s e)) in *. assert (L1 : Forall line l1) by (eapply Forall_impl; [|exact A2]; intros; now apply chord_line). assert (L2 : Forall line l2) by (eapply Forall_impl; [|exact E2]; intros; now apply chord_line). destruct (merge2_half_spaces l1 l2 L1 L2 A4 E4) as [M1 [M2 M3]]. set (m := merge2 hs_lt l1 l2) in *. exists m. split; auto.
    assert (C12 : Forall chord (l1 ++ l2)) by (apply Forall_app; auto). assert (O12 : Forall (geo_over B0) (l1 ++ l2)) by (apply Forall_app; auto). assert (L12 : Forall line (l1 ++ l2)) by (apply Forall_app; auto).
    split; [intros Z; destruct l1 as [|k l1']; [congruence|]; destruct (M3 k (or_introl eq_refl)) as [k' [Hk' _]]; rewrite Z in Hk'; destruct Hk'|]. split; [apply Forall_forall; intros h Hh; apply (proj1 (Forall_forall _ _) C12); auto|]. split; [apply Forall_forall; intros h Hh; apply (proj1 (Forall_forall _ _) O12); auto|]. split; auto.
    intros x. cbn [denotes set_of]. specialize (A5 x). specialize (E5 x). unfold common in A5, E5. rewrite common_body. unfold body. rewrite (covered_inter _ m L12 M2 M3), inter_app. specialize (HA x). rewrite all_app in HA. unfold inter. unfold in_segment in *. unfold left_of in *. unfold ev, geo_eval. tauto.
  - exists [h]. split; auto. split; [discriminate|]. split; auto. split; auto. split; [repeat constructor|]. intros x. unfold common. cbn. split; intros [D H]; split; auto. intros k [<-|[]]. auto.
  - destruct PR as [CL [LN [IN _]]]. exists l. split; auto. split; [intros ->; cbn in LN; lia|]. split; auto. split; auto. split; auto. intros x. reflexivity.
Qed.
Lemma intersection_of_ok (sets : list (hyp_set K)) : (2 <= length sets)%nat -> Forall (proper_set hs_lt) sets -> Forall (set_over B0) sets -> outcome (fun x => forall o, In o sets -> denotes o x) (intersection_of sqrt shuffle pick sets).
Proof.
  intros LN PR OV. assert (ALL : exists ls, all_half_spaces sets = Ok ls /\ (sets <> [] -> concat ls <> []) /\ Forall (fun l => Forall chord l /\ Forall (geo_over B0) l /\ increasing hs_lt l) ls /\ forall x, (in_disk x /\ forall o, In o sets -> denotes o x) <-> common (concat ls) x).
  { clear LN. induction PR as [|o sets P PR IH]; [exists []; split; auto; split; [congruence|]; split; [constructor|]; intros x; cbn; unfold common; cbn; split; intros [D _]; (split; [exact D|intros ? []])|]. inversion OV as [|? ? O OV']; subst. destruct (IH OV') as [ls [E [NE [F H]]]]. destruct (set_half_spaces_ok o P O) as [l [El [Nl [Cl [Ol [Il Hl]]]]]]. cbn [all_half_spaces]. rewrite El, E. cbn [bind]. exists (l :: ls). split; auto. split; [intros _; cbn; destruct l; [congruence|discriminate]|]. split; [constructor; auto|].
    intros x. cbn [concat]. rewrite common_body. unfold body. rewrite inter_app. specialize (H x). specialize (Hl x). rewrite common_body in H, Hl. unfold body in H, Hl. split.
    - intros [D Q]. split; auto. split; [apply Hl; apply Q; now left|]. apply H. split; auto. intros o' Ho'. apply Q. now right.
    - intros [D [Q1 Q2]]. split; auto. intros o' [<-|Ho']; [now apply Hl|]. assert (W : in_disk x /\ inter (concat ls) x) by auto. apply H in W. now apply W. }
  destruct ALL as [ls [E [NE [F H]]]]. destruct sets as [|o1 [|o2 sets]]; cbn in LN; try lia. unfold intersection_of. rewrite E. cbn [bind]. apply (outcome_ext (common (concat ls))).
  - intros x. rewrite <- H. split; [tauto|]. intros Q. split; auto. inversion PR as [|? ? P1 _]; subst. inversion OV as [|? ? O1 _]; subst. destruct (set_half_spaces_ok o1 P1 O1) as [l [_ [_ [_ [_ [_ Hl]]]]]]. assert (W : denotes o1 x) by (apply Q; now left). apply Hl in W. apply W.
  - apply intersect_sets_ok; auto. apply NE. discriminate.
Qed.
End Base.
End Main.
