(** Proofs about [MHypSet]: kinds of sets and rotated sets. *)
From Coq Require Import List Bool ZArith Lia Ring Field Sorted Permutation.
From Verif Require Import OField FMicromega PField MBase MEuclid PEuclid SEuclid PRotate MHyp SHyp PHyp PHyp2 PHyp3 PHyp4 PHyp7 MHypSet SHypSet PHypSet PHypSet2 PHypSet3 PHypSet4 PHypSet5 PHypSet6 PHypSet7 PHypSet8.
Import ListNotations.

Section Kinds.
Context {K : OField}.
Add Field KF : (of_ft K).
Local Open Scope res_scope. Local Open Scope F_scope.
Implicit Types p q x y z : vec K.
Implicit Types f g h i j u v w A B C : geo K.
Implicit Types l m t : list (geo K).

Definition kind (o : hyp_set K) : nat := match o with HEmpty => 0 | HPoint _ => 1 | HSegment _ => 2 | HHalfSpace _ => 3 | HPolygon _ => 4 end.
(** a solid set is not contained in a line *)
Lemma solid_not_flat l g : line g -> solid l -> ~ forall x, common l x -> on g x.
Proof.
  intros LG SO H. apply solid_iff in SO. destruct SO as [c [F W]]. assert (NN : 0 < g_b g * g_b g + g_c g * g_c g) by (apply fsum_sq_pos; unfold line in LG; tauto).
  destruct (push l c (g_b g, g_c g)) as [e [E P]]; [intros h Hh; left; auto|]. destruct (near_finite c (g_b g, g_c g) F) as [e2 [E2 F2]]. set (s := if e <? e2 then e else e2). assert (S : 0 < s /\ s <= e /\ s <= e2) by (unfold s; destruct (e <? e2) eqn:L; bools; repeat split; auto; flra). clearbody s. destruct S as [S1 [S2 S3]].
  assert (C1 : common l c) by (apply common_body; split; [now apply finite_disk|intros h Hh; pose proof (W h Hh); flra]). assert (C2 : common l (vadd c (vscale s (g_b g, g_c g)))). { apply common_body. split; [apply finite_disk, F2; flra|]. intros h Hh. specialize (P s S1 S2 h Hh). flra. }
  apply H in C1. apply H in C2. apply (proj1 (ev_on _ _)) in C1. apply (proj1 (ev_on _ _)) in C2. rewrite ev_dir, C1 in C2. cbn in C2. assert (0 < s * (g_b g * g_b g + g_c g * g_c g)) by (now apply fmul_pos). flra.
Qed.
Lemma half_solid h : chord h -> solid [h] /\ edge_of (body [h]) h.
Proof.
  intros CH. pose proof (chord_line _ CH) as LH. destruct (chord_two h CH) as [a [b [AB [Fa [Fb [Oa Ob]]]]]]. assert (Z : forall y, on h y -> finite y -> body [h] y) by (intros y O F; split; [now apply finite_disk|intros k [<-|[]]; apply (proj1 (ev_on _ _)) in O; rewrite O; flra]).
  assert (ED : edge_of (body [h]) h) by (exists a, b; auto 10). split; auto. apply solid_iff. apply (solid_ok [h] [h]); auto; [constructor; [constructor|constructor]|discriminate|apply incl_refl|intros B [<-|[]]; now apply edge_iff|].
  intros A C [<-|[]] [<-|[]] O. apply (not_same_opp h h LH); auto. now apply same_dir_refl.
Qed.
(** what a set of each kind looks like *)
Lemma shape (o : hyp_set K) : proper_set hs_lt o -> match o with
  | HEmpty => forall x, ~ denotes o x
  | HPoint p => forall x, denotes o x <-> x = p
  | HSegment _ => (exists x y, x <> y /\ denotes o x /\ denotes o y) /\ exists g, line g /\ forall x, denotes o x -> on g x
  | HHalfSpace h => solid [h] /\ Forall chord [h] /\ increasing hs_lt [h] /\ (forall B, In B [h] -> edge_of (body [h]) B) /\ forall x, denotes o x <-> body [h] x
  | HPolygon l => solid l /\ Forall chord l /\ increasing hs_lt l /\ (forall B, In B l -> edge_of (body l) B) /\ (forall x, denotes o x <-> body l x) /\ (2 <= length l)%nat
  end.
Proof.
  destruct o as [|p|r|h|l]; cbn [proper_set].
  - intros _ x [].
  - intros _ x. reflexivity.
  - intros H. assert (NP : normal_seg r /\ proper r) by (destruct r; cbn in *; tauto). destruct NP as [N P]. split; [apply (proper_two r N P)|]. destruct r as [|p|g|g s e]; cbn in P; try tauto; exists g; (split; [apply chord_line; apply N|]); intros x; cbn; unfold in_segment; tauto.
  - intros CH. destruct (half_solid h CH) as [S E]. split; auto. split; auto. split; [repeat constructor|]. split; [intros B [<-|[]]; auto|]. intros x. cbn. rewrite <- common_body. unfold common. cbn. split; intros [D H]; split; auto. intros k [<-|[]]; auto.
  - intros [CH [LN [IN [SO ED]]]]. split; auto. split; auto. split; auto. split; [|split; [intros x; apply common_body|auto]]. intros B HB. destruct (ED B HB) as [x [y [N [X [Y O]]]]]. exists x, y. apply common_body in X. apply common_body in Y. auto.
Qed.
Lemma solid_lists l m : solid l -> solid m -> Forall chord l -> Forall chord m -> increasing hs_lt l -> increasing hs_lt m -> (forall B, In B l -> edge_of (body l) B) -> (forall B, In B m -> edge_of (body m) B) ->
  (forall x, body l x <-> body m x) -> Forall2 same_oriented l m.
Proof.
  intros Sl Sm Cl Cm Il Im El Em E. assert (LL : forall l, Forall chord l -> Forall line l) by (intros l0 H; eapply Forall_impl; [|exact H]; intros; now apply chord_line). apply sorted_unique; auto; [now apply canon|apply canon; auto; intros x; symmetry; apply E].
Qed.
Lemma same_kind (o o' : hyp_set K) : proper_set hs_lt o -> proper_set hs_lt o' -> (forall x, denotes o x <-> denotes o' x) -> kind o = kind o'.
Proof.
  assert (SOL : forall l, solid l -> exists x, body l x) by (intros l S; apply solid_iff in S; destruct S as [c [F W]]; exists c; split; [now apply finite_disk|intros h Hh; pose proof (W h Hh); flra]).
  assert (FLAT : forall l g, line g -> solid l -> ~ forall x, body l x -> on g x) by (intros l g L S H; apply (solid_not_flat l g L S); intros x X; apply H; now apply common_body).
  assert (PT : forall l p, solid l -> ~ forall x, body l x -> x = p). { intros l p S H. assert (L : line (Geo (- fst p) 1 0)) by (left; cbn; apply fpos_neq0, flt_0_1). apply (FLAT l _ L S). intros x X. rewrite (H x X). unfold on. cbn. ring. }
  assert (LE : forall l m, Forall2 (@same_oriented K) l m -> length l = length m) by (induction 1; cbn; auto).
  assert (SYM : forall o o' : hyp_set K, (kind o < kind o')%nat -> proper_set hs_lt o -> proper_set hs_lt o' -> (forall x, denotes o x <-> denotes o' x) -> False).
  { clear o o'. intros o o' LT P P' E. apply shape in P, P'.
    assert (NE : (1 <= kind o')%nat -> exists x, denotes o' x). { intros _. destruct o' as [|p|r|h|l]; cbn in LT; try lia; [exists p; now apply P'|destruct P' as [[x [y [_ [X _]]]] _]; eauto| |]; [destruct P' as [S [_ [_ [_ D]]]]|destruct P' as [S [_ [_ [_ [D _]]]]]]; destruct (SOL _ S) as [x X]; exists x; now apply D. }
    destruct o as [|p|r|h|l]; destruct o' as [|p'|r'|h'|l']; cbn in LT; try lia.
    1-4: destruct NE as [x X]; [cbn; lia|]; apply E in X; exact (P x X).
    - destruct P' as [[x [y [N [X Y]]]] _]. apply E in X. apply E in Y. apply P in X. apply P in Y. congruence.
    - destruct P' as [S [_ [_ [_ D]]]]. apply (PT _ p S). intros x X. apply P, E, D, X.
    - destruct P' as [S [_ [_ [_ [D _]]]]]. apply (PT _ p S). intros x X. apply P, E, D, X.
    - destruct P' as [S [_ [_ [_ D]]]]. destruct P as [_ [g [L G]]]. apply (FLAT _ g L S). intros x X. apply G, E, D, X.
    - destruct P' as [S [_ [_ [_ [D _]]]]]. destruct P as [_ [g [L G]]]. apply (FLAT _ g L S). intros x X. apply G, E, D, X.
    - destruct P as [S [C [I [ED D]]]], P' as [S' [C' [I' [ED' [D' LN]]]]]. assert (F : Forall2 same_oriented [h] l') by (apply solid_lists; auto; intros x; rewrite <- D, <- D'; apply E). apply LE in F. cbn in F. lia. }
  intros P P' E. destruct (Nat.lt_trichotomy (kind o) (kind o')) as [L|[L|L]]; auto; exfalso; [now apply (SYM o o')|apply (SYM o' o); auto; intros x; symmetry; apply E].
Qed.
(** entries that are sorted up to a rotation *)
Lemma rotated_ok (u0 v0 : list (geo K)) : Forall line (u0 ++ v0) -> increasing hs_lt (v0 ++ u0) -> rotated_set hs_lt (u0 ++ v0) = v0 ++ u0.
Proof.
  intros F S. destruct (u0 ++ v0) as [|a t] eqn:E; [apply app_eq_nil in E; destruct E as [-> ->]; reflexivity|]. unfold rotated_set. rewrite <- E in *. set (full := u0 ++ v0) in *.
  destruct (min_index_ok full full [] a 0 0) as [m0 [N M]]; auto; [rewrite E; reflexivity|intros y []|]. set (k := min_index hs_lt a 0 0 full) in *. clearbody k.
  assert (LL : forall y : geo K, In y (v0 ++ u0) -> line y) by (intros y Hy; apply (proj1 (Forall_forall _ _) F); unfold full; apply in_app_iff; apply in_app_iff in Hy; tauto).
  assert (ND : NoDup full). { apply (Permutation_NoDup (l := v0 ++ u0)); [apply Permutation_app_comm|]. clear - S LL. induction (v0 ++ u0) as [|y l IH]; [constructor|]. apply StronglySorted_inv in S. destruct S as [S FA]. constructor; [|apply IH; auto; intros; apply LL; now right]. intros Hy. rewrite Forall_forall in FA. specialize (FA y Hy). rewrite hs_irrefl in FA; [discriminate|apply LL; now left]. }
  assert (HD : forall (x : geo K) t', v0 ++ u0 = x :: t' -> m0 = x). { intros x t' EQ. assert (Hm : In m0 (v0 ++ u0)) by (apply nth_error_In in N; unfold full in N; apply in_app_iff; apply in_app_iff in N; tauto). rewrite EQ in *. destruct Hm as [->|Hm]; auto. apply StronglySorted_inv in S. destruct S as [_ FA]. rewrite Forall_forall in FA. specialize (FA m0 Hm). rewrite M in FA; [discriminate|]. assert (Q : In x (v0 ++ u0)) by (rewrite EQ; now left). unfold full. apply in_app_iff. apply in_app_iff in Q. tauto. }
  assert (NN : forall j : nat, nth_error full j = Some m0 -> k = j). { intros j J. apply (proj1 (NoDup_nth_error full) ND); [apply nth_error_Some; congruence|congruence]. }
  destruct v0 as [|x v0].
  - unfold full in *. rewrite app_nil_r in *. cbn [app] in *. destruct u0 as [|x t']; [discriminate|]. assert (k = 0)%nat by (apply NN; rewrite (HD x t' eq_refl); reflexivity). subst k. cbn. now rewrite app_nil_r.
  - assert (k = length u0) by (apply NN; unfold full; rewrite nth_error_app2, Nat.sub_diag by lia; rewrite (HD x (v0 ++ u0) eq_refl); reflexivity). subst k. unfold full. rewrite skipn_app, skipn_all, Nat.sub_diag, firstn_app, firstn_all, Nat.sub_diag. cbn. now rewrite app_nil_r.
Qed.
End Kinds.
