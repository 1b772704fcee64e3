(** Proofs about normalized coordinates: the surface. *)
From Coq Require Import List Bool ZArith Arith Lia Ring Field.
From Verif Require Import OField FMicromega PField MBase MDict PDict MEuclid SEuclid PEuclid MSim SSim PSim MPoly PPoly MMut SMut PMut PMut2 PMut3 PGlue PBuild PCover
  SPoint PPoint PSimple SHyp SCut TMut TPoly2 MSubdiv PSubdiv PSubdiv3 PCut6 PTV4 MNorm SNorm PNorm.
Import ListNotations.

Section P.
Context {K : OField}.
Add Field KF : (of_ft K).
Local Open Scope F_scope.
Notation nv := (@length (vec K) : polygon K -> nat).
Notation surf := (@surf (polygon K)).

Lemma dget_combine (ls : list label) : forall a k l, NoDup ls -> nth_error ls k = Some l ->
  dget l (combine ls (map Z.of_nat (seq a (length ls)))) = Some (Z.of_nat (a + k)).
Proof.
  induction ls as [|x ls IH]; intros a k l ND H; [now destruct k|]. inversion ND as [|? ? N ND']; subst. cbn [length seq map combine dget].
  destruct k as [|k]; cbn in H.
  - injection H as ->. rewrite eqb_refl. f_equal. lia.
  - destruct (eqb_case l x) as [[Q ->]|[Q NQ]].
    + exfalso. apply N. now apply nth_error_In in H.
    + rewrite Q. rewrite (IH (S a) k l ND' H). f_equal. lia.
Qed.
Lemma norm_polygons_ok (M : mat K) : 0 < mdet M -> forall lps Ps s, stacked Ps s -> (forall lP, In lP lps -> proper (snd lP)) ->
  exists s', norm_polygons M lps s = (s', Ok (combine (map fst lps) (map Z.of_nat (seq (length Ps) (length lps))))) /\
    stacked (Ps ++ map (fun lP => norm_polygon M (snd lP)) lps) s'.
Proof.
  intros D. induction lps as [|[l P] lps IH]; intros Ps s ST PR; cbn [norm_polygons map length seq combine].
  - exists s. rewrite app_nil_r. auto.
  - destruct (norm_polygon_ok M P D (PR (l, P) (or_introl eq_refl))) as [E _].
    rewrite (mbind_ok _ _ s s (norm_polygon M P)) by (unfold mlift; now rewrite E).
    destruct (stacked_add Ps s (norm_polygon M P) ST) as (s1 & E1 & S1). rewrite (mbind_ok _ _ _ _ _ E1).
    destruct (IH _ _ S1) as (s2 & E2 & S2). { intros lP H. apply PR. now right. }
    rewrite (mbind_ok _ _ _ _ _ E2). exists s2. rewrite app_length. cbn [length fst snd]. rewrite Nat.add_1_r. split; [reflexivity|]. now rewrite <- app_assoc in S2.
Qed.

Section Run.
Variable s : surf.
Hypothesis IN : intact nv s.
Hypothesis PR : forall l P, get_polygon s l = Ok P -> proper P.
Variables (ls : list label).
Hypothesis EL : iter_labels nv s = Ok ls.

Let GD : good nv s := intact_good nv s IN.
Lemma ls_nodup : NoDup ls.
Proof. destruct (iter_labels_spec nv s GD) as [ls' [E [N _]]]. rewrite EL in E. now injection E as ->. Qed.
Lemma ls_labels l : In l ls <-> is_label s l.
Proof. destruct (iter_labels_spec nv s GD) as [ls' [E [_ H]]]. rewrite EL in E. injection E as ->. rewrite H, is_label_keys. tauto. Qed.

Lemma glued_sym : involutive nv s.
Proof. intros x y H. apply (glued_gz nv s x y (g_inv nv s GD)) in H. apply (glued_gz nv s y x (g_inv nv s GD)). now apply (i_inv nv s (g_inv nv s GD)). Qed.

Definition nd : dict label label := combine ls (map Z.of_nat (seq 0 (length ls))).
Definition nf (l : label) : label := match dget l nd with Some k => k | None => 0%Z end.
Lemma nd_get l : is_label s l -> exists k, nth_error ls k = Some l /\ nf l = Z.of_nat k /\ dgetE l nd = Ok (nf l).
Proof.
  intros H. apply ls_labels in H. apply In_nth_error in H. destruct H as [k H]. exists k. pose proof (dget_combine ls 0 k l ls_nodup H) as E. unfold nf, dgetE. fold nd in E. unfold label in *. rewrite E. auto.
Qed.
Lemma nf_inj l l' : is_label s l -> is_label s l' -> nf l = nf l' -> l = l'.
Proof. intros H H' E. destruct (nd_get l H) as (k & A & B & _), (nd_get l' H') as (k' & A' & B' & _). assert (k = k') by lia. congruence. Qed.

Lemma norm_run (M : mat K) (l0 : label) : 0 < mdet M -> hd_error ls = Some l0 -> norm_matrix (pol s l0) = Ok M ->
  exists t, normalized_coordinates BaseField s empty = (t, Ok (M, norm_hols (flat_map (norm_edges M) (map (pol s) ls)))) /\
    intact nv t /\ mutable t = true /\ linear_image M s t.
Proof.
  intros D H0 EM. unfold normalized_coordinates.
  rewrite (mbind_ok _ _ empty empty ls) by (unfold mlift; now rewrite EL).
  destruct ls as [|l1 ls'] eqn:Els; [discriminate|]. cbn in H0. injection H0 as ->. rewrite <- Els in *.
  rewrite (mbind_ok _ _ empty empty l0) by reflexivity.
  assert (L0 : is_label s l0) by (apply ls_labels; rewrite Els; now left).
  rewrite (mbind_ok _ _ empty empty (pol s l0)) by (unfold mlift; now rewrite (pol_ok s l0 L0)).
  rewrite (mbind_ok _ _ empty empty M) by (unfold mlift; now rewrite EM).
  rewrite (mbind_ok _ _ empty empty (map (pol s) ls)).
  2:{ unfold mlift. rewrite (rmap_map _ (pol s)); auto. intros l Hl. apply pol_ok. now apply ls_labels. }
  rewrite combine_map. set (lps := map (fun l => (l, pol s l)) ls).
  destruct (norm_polygons_ok M D lps [] empty stacked_empty) as (s1 & E1 & S1).
  { intros lP H. unfold lps in H. apply in_map_iff in H. destruct H as [l [<- H]]. apply (PR l). cbn [snd]. apply pol_ok. now apply ls_labels. }
  assert (F1 : combine (map fst lps) (map Z.of_nat (seq 0 (length lps))) = nd).
  { unfold lps, nd. rewrite map_map, map_id, map_length. reflexivity. }
  cbn [length] in E1. rewrite F1 in E1. cbn [app] in S1.
  set (Qs := map (fun lP => norm_polygon M (snd lP)) lps) in *.
  assert (NQ : forall k l, nth_error ls k = Some l -> nth_error Qs k = Some (norm_polygon M (pol s l))).
  { intros k l H. unfold Qs, lps. rewrite map_map. cbn [snd]. now apply (map_nth_error (fun l => norm_polygon M (pol s l))). }
  assert (LQ : length Qs = length ls) by (unfold Qs, lps; now rewrite !map_length).
  rewrite (mbind_ok _ _ _ _ _ E1).
  destruct (C08_iteration nv s IN) as (es & gs & _ & EG & _ & _ & _ & HG).
  rewrite (mbind_ok _ _ s1 s1 gs) by (unfold mlift; now rewrite EG).
  set (g := fun xy : hedge * hedge => ((nf (fst (fst xy)), snd (fst xy)) : hedge, (nf (fst (snd xy)), snd (snd xy)) : hedge)).
  assert (LAB : forall x y, glued nv s x y -> is_label s (fst x) /\ is_label s (fst y) /\ (0 <= snd x < Z.of_nat (nv (pol s (fst x))))%Z /\ (0 <= snd y < Z.of_nat (nv (pol s (fst y))))%Z).
  { intros x y H. pose proof (glued_sym x y H) as [[Q [Q1 Q2]] _]. destruct H as [[P [P1 P2]] _]. unfold pol. rewrite P1, Q1. split; [now exists P|]. split; [now exists Q|]. auto. }
  assert (LOOP : mfor gs (norm_glue nd) s1 = mfor (map g gs) (fun xy => glue nv (fst xy) (snd xy)) s1).
  { rewrite mfor_map. apply mfor_ext. intros [x y] st H. apply HG in H. destruct (LAB x y H) as (A & B & _). destruct (nd_get _ A) as (k & _ & _ & G1), (nd_get _ B) as (k' & _ & _ & G2).
    unfold norm_glue. cbn [fst snd]. rewrite (mbind_ok _ _ st st (nf (fst x))) by (unfold mlift; now rewrite G1). rewrite (mbind_ok _ _ st st (nf (fst y))) by (unfold mlift; now rewrite G2). reflexivity. }
  assert (HGG : forall u v, In (u, v) (map g gs) <-> exists x y, glued nv s x y /\ u = (nf (fst x), snd x) /\ v = (nf (fst y), snd y)).
  { intros u v. rewrite in_map_iff. split.
    - intros [[x y] [E H]]. unfold g in E. cbn [fst snd] in E. injection E as <- <-. exists x, y. split; auto. now apply HG.
    - intros (x & y & H & -> & ->). exists (x, y). split; auto. now apply HG. }
  destruct S1 as [RE Mu RO KE PO NX FR]. rewrite LQ in KE. pose proof (intact_good nv s1 (reachable_intact nv s1 RE Mu)) as G. pose proof (g_inv nv s1 G) as Iv.
  assert (P1 : forall l, is_label s l -> get_polygon s1 (nf l) = Ok (norm_polygon M (pol s l))).
  { intros l H. destruct (nd_get l H) as (k & A & -> & _). apply PO. now apply NQ. }
  assert (LN : forall P, length (norm_polygon M P) = length P) by (intros P; apply map_length).
  assert (RG : forall x y, glued nv s x y -> inrange (gluings s1) (nf (fst x), snd x)).
  { intros x y H. destruct (LAB x y H) as (A & _ & B & _). apply edge_inrange with (nv := nv); auto; [exact (i_tot nv s1 Iv Mu)|]. exists (norm_polygon M (pol s (fst x))). split; [now apply P1|]. rewrite LN. exact B. }
  destruct (glue_sym nv (map g gs) s1 Iv Mu (g_sep nv s1 G)) as (t & E2 & I2 & F2 & S2 & _ & R2 & G2); auto.
  { now left. }
  { intros u v H. apply HGG in H. destruct H as (x & y & H & -> & ->). apply HGG. exists y, x. split; auto. now apply glued_sym. }
  { intros u v v' H H'. apply HGG in H. apply HGG in H'. destruct H as (x & y & H & -> & ->), H' as (x' & y' & H' & E & ->). injection E as E1' E2'.
    apply nf_inj in E1'; [|apply (LAB x y H)|apply (LAB x' y' H')]. assert (x = x') by (destruct x, x'; cbn in *; congruence). subst x'. destruct H as [_ H], H' as [_ H']. rewrite H in H'. injection H' as ->. reflexivity. }
  { intros u v H. apply HGG in H. destruct H as (x & y & H & -> & ->). now apply (RG x y). }
  assert (E2' := eq_trans LOOP E2). clear E2. rename E2' into E2. rewrite (mbind_ok _ _ _ _ _ E2). exists t. split; [reflexivity|].
  assert (M2 : mutable t = true) by (rewrite (f_mut _ _ F2); auto).
  assert (R2' : reachable nv t).
  { change t with (fst (t, @Ok unit tt)). rewrite <- E2. rewrite LOOP. apply pres_for; auto. intros [u v] H. apply HGG in H.
    destruct H as (x & y & H & -> & ->). destruct (LAB x y H) as (_ & _ & A & B). apply pres_glue; cbn; lia. }
  pose proof (reachable_intact nv t R2' M2) as IN2. split; auto. split; auto.
  assert (GP : forall l, get_polygon t l = get_polygon s1 l) by (intros l; unfold get_polygon; now rewrite (f_polys _ _ F2)).
  assert (EDGE : forall l e, is_label s l -> (is_edge nv t (nf l, e) <-> is_edge nv s (l, e))).
  { intros l e H. unfold is_edge. cbn [fst snd]. rewrite GP, (P1 l H), (pol_ok s l H). split; intros [Q [Q1 Q2]]; [exists (pol s l)|exists (norm_polygon M (pol s l))]; (split; [reflexivity|]); injection Q1 as <-; rewrite LN in *; auto. }
  assert (GLUE : forall l e l' e', is_label s l -> is_label s l' -> glued nv t (nf l, e) (nf l', e') <-> glued nv s (l, e) (l', e')).
  { intros l e l' e' H H'. rewrite (glued_gz nv t _ _ I2). rewrite G2, HGG. split.
    - intros (x & y & X & E & E'). injection E as A B. injection E' as A' B'. destruct (LAB x y X) as (C & C' & _). apply nf_inj in A; auto. apply nf_inj in A'; auto. subst. destruct x, y. exact X.
    - intros X. exists (l, e), (l', e'). auto. }
  exists nf. split; [exact nf_inj|]. split; [|split; [|split; [exact GLUE|]]].
  - intros k. rewrite is_label_keys, (f_polys _ _ F2), KE. split.
    + intros Hk. destruct (nth_error ls (Z.to_nat k)) as [l|] eqn:N; [|apply nth_error_None in N; lia]. exists l. assert (is_label s l) by (apply ls_labels; now apply nth_error_In in N). split; auto.
      destruct (nd_get l H) as (k' & A & -> & _). assert (k' = Z.to_nat k); [|lia]. apply (proj1 (NoDup_nth_error ls) ls_nodup); [apply nth_error_Some; congruence|congruence].
    + intros [l [H ->]]. destruct (nd_get l H) as (k & A & -> & _). assert (k < length ls)%nat by (apply nth_error_Some; congruence). lia.
  - intros l P H. assert (HL : is_label s l) by now exists P. exists (norm_polygon M P). rewrite GP, (P1 l HL). unfold pol. rewrite H. split; auto. split; auto.
    intros i. unfold norm_polygon. rewrite vertex_map; auto. destruct (PR l P H) as [L3 _]. destruct P; [cbn in L3; lia|discriminate].
  - intros l e H. assert (W : is_edge nv s (l, e) -> free nv s (l, e) \/ exists y, glued nv s (l, e) y) by apply (C01_well_defined nv s IN).
    assert (W' : is_edge nv t (nf l, e) -> free nv t (nf l, e) \/ exists y, glued nv t (nf l, e) y) by apply (C01_well_defined nv t IN2).
    split; intros X.
    + destruct W as [A|[[l' e'] A]]; auto. { apply EDGE; auto. apply X. } exfalso. destruct (LAB _ _ A) as (_ & B & _). apply GLUE in A; auto. destruct A as [_ A], X as [_ X]. rewrite A in X. discriminate.
    + destruct W' as [A|[[k e'] A]]; auto. { apply EDGE; auto. apply X. } exfalso. pose proof A as A0. apply (glued_gz nv t _ _ I2) in A0. apply G2, HGG in A0. destruct A0 as (x & y & Y & E & E').
      injection E as E1' E2'. destruct (LAB x y Y) as (B & _). apply nf_inj in E1'; auto. destruct x as [l1' e1]. cbn in E1', E2'. subst. destruct Y as [_ Y], X as [_ X]. rewrite Y in X. discriminate.
Qed.
End Run.
End P.
