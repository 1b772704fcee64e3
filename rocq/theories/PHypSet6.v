(** Proofs about [MHypSet]: dropping the half spaces that do not contribute an edge in the unit disk. *)
From Coq Require Import List Bool ZArith Lia Ring Field Sorted Permutation.
From Verif Require Import OField FMicromega PField MBase MEuclid PEuclid SEuclid PRotate MHyp SHyp PHyp PHyp2 PHyp3 PHyp4 PHyp7 MHypSet PHypSet PHypSet2 PHypSet3 PHypSet4 PHypSet5.
Import ListNotations.

Section Global.
Context {K : OField}.
Add Field KF : (of_ft K).
Local Open Scope res_scope. Local Open Scope F_scope.
Implicit Types p q x y z : vec K.
Implicit Types f g h i j s u v w A B C : geo K.
Implicit Types l m t : list (geo K).
Implicit Types r : segment_set K.

(** the intersection of the half spaces *)
Definition body l x := in_disk x /\ inter l x.
Lemma opp_flat l A C x : opp A C -> In A l -> In C l -> inter l x -> on A x.
Proof.
  intros [s [S ->]] NA NC X. pose proof (X _ NA) as XA. pose proof (X _ NC) as XC. apply ev_on. unfold ev, geo_eval, scale_geo in *. cbn in *. assert (S' : 0 <= - (g_a A + g_b A * fst x + g_c A * snd x)). { apply (sign_mul _ s S). flra. } flra.
Qed.
Lemma opp_sym A C : opp A C -> opp C A.
Proof. intros [s [S ->]]. exists (1 / s). split; [apply fdiv_pos; auto; apply flt_0_1|]. assert (E : 1 / s * s = 1) by (apply fdiv_mul; now apply fpos_neq0). set (k := 1 / s) in *. clearbody k. unfold scale_geo. destruct A as [a b c]. cbn. f_equal; [transitivity (k * s * a)|transitivity (k * s * b)|transitivity (k * s * c)]; try ring; rewrite E; ring. Qed.
Lemma flat_two l g e x : inter l e -> finite e -> inter l x -> x <> e -> on g e -> on g x -> two_pts l g.
Proof.
  intros E F X N OE OX. destruct (near_finite e (vsub x e) F) as [d [D H]]. set (t := if d <? 1 then d else 1).
  assert (T : 0 < t /\ t <= d /\ t <= 1) by (unfold t; destruct (d <? 1) eqn:L; bools; repeat split; try flra). clearbody t. destruct T as [T1 [T2 T3]]. assert (EQ : vadd e (vscale t (vsub x e)) = mix t e x) by (unfold mix, vadd, vscale, vsub; apply vec_eq; cbn; ring).
  assert (FT : finite (mix t e x)) by (rewrite <- EQ; apply H; flra). exists e, (mix t e x). split; [|split; (split; [now apply finite_disk|split])]; auto.
  - intros Q. apply N. rewrite <- EQ in Q. pose proof (f_equal fst Q) as Q1. pose proof (f_equal snd Q) as Q2. cbn in Q1, Q2. apply vec_eq; [destruct (fmul_eq0 t (fst x - fst e)) as [Z|Z]|destruct (fmul_eq0 t (snd x - snd e)) as [Z|Z]]; try flra; try (rewrite Z in T1; flra).
  - apply ev_on. rewrite ev_mix. apply (proj1 (ev_on _ _)) in OE. apply (proj1 (ev_on _ _)) in OX. rewrite OE, OX. ring.
  - intros h Hh. apply mix_left; auto; flra.
Qed.
Lemma mid_on l p q B : inter l p -> inter l q -> In B l -> on B (mid p q) -> on B p /\ on B q.
Proof. intros P Q NB O. pose proof (ev_mid B p q) as E. apply (proj1 (ev_on _ _)) in O. rewrite O in E. pose proof (P _ NB). pose proof (Q _ NB). split; apply ev_on; flra. Qed.
Lemma mid_inter l p q : inter l p -> inter l q -> inter l (mid p q).
Proof. intros P Q B NB. destruct (@half_lt K). apply mix_left; auto; flra. Qed.
Lemma chord_two g : chord g -> exists a b, a <> b /\ finite a /\ finite b /\ on g a /\ on g b.
Proof.
  intros CG. pose proof (chord_line _ CG) as LG. destruct (near_finite (at_param g 0) (tangent g) (center_finite g CG)) as [e [E H]]. assert (F : finite (vadd (at_param g 0) (vscale e (tangent g)))) by (apply H; flra). exists (vadd (at_param g 0) (vscale e (tangent g))), (at_param g 0). split; [apply tangent_neq; auto; now apply fpos_neq0|]. split; auto. split; [now apply center_finite|]. split; [|now apply param_on]. apply ev_on. rewrite ev_move, det_self. pose proof (proj1 (ev_on _ _) (param_on g 0 LG)) as Z. rewrite Z. ring.
Qed.
(** what is known about the neighbours of a degenerate edge *)
Definition isolated l := forall B e, In B l -> edgeset l B e -> finite e -> ~ two_pts l B -> exists A C, In A l /\ In C l /\ opp A C.
Lemma strict_not_opp l (z : vec K) A C : (forall h, In h l -> 0 < ev h z) -> In A l -> In C l -> opp A C -> False.
Proof. intros Z NA NC O. assert (X : inter l z) by (intros h Hh; pose proof (Z h Hh); flra). pose proof (opp_flat l A C z O NA NC X) as W. apply (proj1 (ev_on _ _)) in W. pose proof (Z A NA). flra. Qed.
Lemma one_point l : l <> [] -> Forall chord l -> isolated l -> (forall B, In B l -> ~ two_pts l B) -> forall p q, body l p -> body l q -> p = q.
Proof.
  intros NE CH IS NP p q [Dp Ip] [Dq Iq]. destruct (veqb p q) eqn:V; [now apply veqb_eq|]. exfalso. assert (N : p <> q) by (intros E; apply veqb_eq in E; congruence). clear V.
  assert (M : forall h, In h l -> 0 < ev h (mid p q)). { intros h Hh. pose proof (mid_inter l p q Ip Iq h Hh) as W. apply fle_lteq in W. destruct W as [W|W]; auto. exfalso. symmetry in W. apply (proj2 (ev_on _ _)) in W. destruct (mid_on l p q h Ip Iq Hh W) as [W1 W2]. apply (NP h Hh). exists p, q. repeat split; auto. }
  destruct l as [|B0 l0]; [congruence|]. set (l := B0 :: l0) in *. assert (N0 : In B0 l) by (now left). pose proof (proj1 (Forall_forall _ _) CH B0 N0) as C0. destruct (chord_two B0 C0) as [a [b [AB [Fa [Fb [Oa Ob]]]]]].
  assert (EX : exists c, finite c /\ ~ inter l c). { destruct (inter_dec l a) as [Ia|[h [H1 H2]]]; [|exists a; split; auto; intros Q; pose proof (Q h H1); flra]. destruct (inter_dec l b) as [Ib|[h [H1 H2]]]; [|exists b; split; auto; intros Q; pose proof (Q h H1); flra]. elim (NP B0 N0). exists a, b. repeat split; auto using finite_disk. }
  destruct EX as [c [Fc Ic]]. destruct (exit l (mid p q) c) as [t [B [T0 [T1 [NB [OB [IB _]]]]]]]; auto; [now apply mid_inter|]. assert (FE : finite (mix t (mid p q) c)) by (apply mix_finite; auto using finite_disk, mid_finite).
  destruct (IS B _ NB (Logic.conj (finite_disk _ FE) (Logic.conj OB IB)) FE (NP B NB)) as [A [C [NA [NC O]]]]. exact (strict_not_opp l _ A C M NA NC O).
Qed.
Lemma no_point l : l <> [] -> Forall chord l -> (forall B x, In B l -> ~ edgeset l B x) -> forall x, ~ body l x.
Proof.
  intros NE CH NP z [Dz Iz]. destruct l as [|B0 l0]; [congruence|]. set (l := B0 :: l0) in *. assert (N0 : In B0 l) by (now left). pose proof (proj1 (Forall_forall _ _) CH B0 N0) as C0. set (c := at_param B0 0). assert (Fc : finite c) by (now apply center_finite). assert (Oc : on B0 c) by (apply param_on; now apply chord_line).
  assert (Ic : ~ inter l c) by (intros Q; apply (NP B0 c N0); split; [now apply finite_disk|auto]). destruct (exit l z c Iz Ic) as [t [B [T0 [T1 [NB [OB [IB _]]]]]]]. apply (NP B (mix t z c) NB). split; auto. apply mix_disk; auto using finite_disk. flra.
Qed.
(** the direction that is orthogonal to a geodesic *)
Lemma ev_dir g p (d : vec K) (s : K) : ev g (vadd p (vscale s d)) = ev g p + s * (g_b g * fst d + g_c g * snd d).
Proof. unfold ev, geo_eval. cbn. ring. Qed.
Lemma push l p (d : vec K) : (forall g, In g l -> 0 < ev g p \/ (ev g p = 0 /\ 0 < g_b g * fst d + g_c g * snd d)) -> exists e : K, 0 < e /\ forall s : K, 0 < s -> s <= e -> forall g, In g l -> 0 < ev g (vadd p (vscale s d)).
Proof.
  induction l as [|h l IH]; intros H; [exists 1; split; [apply flt_0_1|intros s S1 S2 g []]|]. destruct IH as [e [E IH]]; [intros g Hg; apply H; now right|].
  assert (EX : exists e0 : K, 0 < e0 /\ forall s : K, 0 < s -> s <= e0 -> 0 < ev h (vadd p (vscale s d))).
  { destruct (H h (or_introl eq_refl)) as [P|[Z P]].
    - destruct (small 0 (- (g_b h * fst d + g_c h * snd d)) (- ev h p)) as [e0 [E0 H0]]; [flra|]. exists e0. split; auto. intros s S1 S2. rewrite ev_dir. assert (Q := H0 s). assert (Q' : 0 * (s * s) + - (g_b h * fst d + g_c h * snd d) * s + - ev h p < 0) by (apply Q; flra). flra.
    - exists 1. split; [apply flt_0_1|]. intros s S1 _. rewrite ev_dir, Z. assert (0 < s * (g_b h * fst d + g_c h * snd d)) by (now apply fmul_pos). flra. }
  destruct EX as [e0 [E0 H0]]. exists (if e <? e0 then e else e0). split; [destruct (e <? e0); auto|]. intros s S1 S2. assert (S3 : s <= e /\ s <= e0) by (destruct (e <? e0) eqn:L; bools; split; flra). intros g [<-|Hg]; [apply H0; tauto|apply IH; tauto].
Qed.
Lemma distinct_in l (u v : geo K) : Forall line l -> distinct l -> In u l -> In v l -> same_dir u v -> u = v.
Proof.
  unfold distinct. induction l as [|a l IH]; intros L D U V S; [destruct U|]. inversion D as [|? ? D1 D2]; subst. inversion L as [|? ? L1 L2]; subst. rewrite Forall_forall in D1. destruct U as [<-|U], V as [<-|V]; auto; [elim (D1 _ V); auto|elim (D1 _ U); now apply same_dir_sym].
Qed.
Lemma collinear g h x y : line g -> line h -> x <> y -> on g x -> on g y -> on h x -> on h y -> same_dir g h \/ opp g h.
Proof.
  intros LG LH N GX GY HX HY. destruct (on_from g x y LG GX GY) as [t E]. assert (T : t <> 0) by (intros ->; apply N; rewrite E; apply vec_eq; cbn; ring).
  assert (D : det h g = 0). { pose proof (ev_move h g x t) as EM. rewrite <- E in EM. apply (proj1 (ev_on _ _)) in HX. apply (proj1 (ev_on _ _)) in HY. rewrite HX, HY in EM. destruct (fmul_eq0 t (det h g)) as [Z|Z]; [flra|congruence|auto]. }
  assert (D' : det g h = 0) by (rewrite det_anti, D; ring). pose proof (dot_det g h LG LH D') as NZ. destruct (0 <? dotn g h) eqn:P; bools; [left; split; auto|]. right.
  assert (P' : 0 < - dotn g h) by (apply fneq_lt in NZ; destruct NZ; flra). assert (GG : 0 < dotn g g). { unfold dotn. apply fsum_sq_pos. unfold line in LG. tauto. }
  exists ((- dotn g h) / dotn g g). split; [now apply fdiv_pos|]. assert (EQ : (- dotn g h) / dotn g g * dotn g g = - dotn g h) by (apply fdiv_mul; now apply fpos_neq0). set (k := (- dotn g h) / dotn g g) in *. clearbody k.
  assert (EB : g_b h = - k * g_b g). { apply (fcancel _ _ (dotn g g)); [now apply fpos_neq0|]. transitivity (- g_b g * (k * dotn g g)); [|ring]. rewrite EQ. unfold dotn, det in *. transitivity (g_b g * (g_b g * g_b h + g_c g * g_c h) - g_c g * (g_b g * g_c h - g_c g * g_b h)); [ring|rewrite D'; ring]. }
  assert (EC : g_c h = - k * g_c g). { apply (fcancel _ _ (dotn g g)); [now apply fpos_neq0|]. transitivity (- g_c g * (k * dotn g g)); [|ring]. rewrite EQ. unfold dotn, det in *. transitivity (g_c g * (g_b g * g_b h + g_c g * g_c h) + g_b g * (g_b g * g_c h - g_c g * g_b h)); [ring|rewrite D'; ring]. }
  apply (proj1 (ev_on _ _)) in GX. apply (proj1 (ev_on _ _)) in HX. unfold ev, geo_eval in GX, HX. destruct h as [a b c]. cbn in *. subst b c. unfold scale_geo. f_equal. transitivity (- k * g_a g + (a + - k * g_b g * fst x + - k * g_c g * snd x) - (- k) * (g_a g + g_b g * fst x + g_c g * snd x)); [ring|]. rewrite GX, HX. ring.
Qed.
Lemma not_same_opp g h : line g -> same_dir g h -> opp g h -> False.
Proof. intros LG [_ P] [s [S ->]]. unfold dotn, scale_geo in P. cbn in P. assert (GG : 0 < g_b g * g_b g + g_c g * g_c g) by (apply fsum_sq_pos; unfold line in LG; tauto). assert (0 < s * (g_b g * g_b g + g_c g * g_c g)) by (now apply fmul_pos). flra. Qed.
(** the half spaces with an edge determine the intersection *)
Lemma enough l m : Forall chord l -> distinct l -> isolated l -> m <> [] -> incl m l -> (forall B, In B l -> two_pts l B -> In B m) -> (forall B, In B m -> two_pts l B) ->
  (forall A C, In A m -> In C m -> ~ opp A C) -> forall z, body m z <-> body l z.
Proof.
  intros CH DI IS NE IM M1 M2 NO z. assert (LL : Forall line l) by (eapply Forall_impl; [|exact CH]; intros; now apply chord_line). split; [|intros [Dz Iz]; split; auto; intros h Hh; auto]. intros [Dz Iz]. split; auto.
  destruct (inter_dec l z) as [Q|Q]; auto. exfalso. assert (NI : ~ inter l z) by (intros W; destruct Q as [h [H1 H2]]; pose proof (W h H1); flra). clear Q.
  destruct m as [|B1 m0]; [congruence|]. set (m := B1 :: m0) in *. assert (N1 : In B1 m) by (now left). pose proof (IM _ N1) as N1'. destruct (M2 B1 N1) as [a [b [AB [[Da [Oa Ia]] [Db [Ob Ib]]]]]].
  assert (L1 : line B1) by (now apply (proj1 (Forall_forall _ _) LL)).
  assert (NN : 0 < g_b B1 * g_b B1 + g_c B1 * g_c B1) by (apply fsum_sq_pos; unfold line in L1; tauto).
  assert (OM : on B1 (mid a b)). { pose proof (ev_mid B1 a b) as E. apply (proj1 (ev_on _ _)) in Oa. apply (proj1 (ev_on _ _)) in Ob. rewrite Oa, Ob in E. apply ev_on. flra. }
  destruct (push l (mid a b) (g_b B1, g_c B1)) as [e [E P]].
  { intros h Hh. pose proof (mid_inter l a b Ia Ib h Hh) as W. apply fle_lteq in W. destruct W as [W|W]; [now left|]. right. symmetry in W. split; auto. cbn. apply (proj2 (ev_on _ _)) in W. destruct (mid_on l a b h Ia Ib Hh W) as [W1 W2]. assert (Lh : line h) by (now apply (proj1 (Forall_forall _ _) LL)). destruct (collinear B1 h a b L1 Lh AB Oa Ob W1 W2) as [S|O].
    - rewrite <- (distinct_in l B1 h LL DI N1' Hh S). exact NN.
    - exfalso. apply (NO B1 h); auto. apply M1; auto. exists a, b. repeat split; auto. }
  destruct (near_finite (mid a b) (g_b B1, g_c B1) (mid_finite a b Da Db AB)) as [e2 [E2 F2]]. set (s := if e <? e2 then e else e2). assert (S : 0 < s /\ s <= e /\ s <= e2) by (unfold s; destruct (e <? e2) eqn:L; bools; repeat split; auto; flra). clearbody s. destruct S as [S1 [S2 S3]]. set (w := vadd (mid a b) (vscale s (g_b B1, g_c B1))). assert (W : forall h, In h l -> 0 < ev h w) by (apply P; auto). assert (FW : finite w) by (apply F2; flra).
  assert (IW : inter l w) by (intros h Hh; pose proof (W h Hh); flra). destruct (exit l w z IW NI) as [t [B [T0 [T1 [NB [OB [IB EB]]]]]]]. assert (FE : finite (mix t w z)) by (apply mix_finite; auto).
  assert (NP : ~ two_pts l B). { intros T. pose proof (Iz B (M1 B NB T)). flra. } destruct (IS B _ NB (Logic.conj (finite_disk _ FE) (Logic.conj OB IB)) FE NP) as [A [C [NA [NC O]]]]. exact (strict_not_opp l _ A C W NA NC O).
Qed.

(** ** Triples *)
Fixpoint trip A l (z : geo K) : list (geo K * geo K * geo K) := match l with [] => [] | B :: t => (A, B, hd z t) :: trip B t z end.
Lemma triples_trip (x : geo K) t : triples (x :: t) = trip (last (x :: t) x) (x :: t) x.
Proof.
  assert (G : forall t (b a z : geo K), combine (combine (a :: removelast (b :: t)) (b :: t)) (t ++ [z]) = trip a (b :: t) z). { clear. induction t as [|c t IH]; intros b a z; [reflexivity|]. specialize (IH c b z). cbn [removelast combine app trip hd] in *. f_equal. exact IH. }
  apply G.
Qed.
Lemma trip_nbr l d B t (x : geo K) : l = d ++ B :: t -> nbr l (last d (last l x)) B (hd (hd x l) t).
Proof.
  intros E. exists d, t. split; auto. destruct d as [|a d].
  - cbn in E. subst l. rewrite app_nil_r. cbn [hd]. split; auto. cbn [last]. destruct t as [|c t]; [reflexivity|]. clear. revert c. induction t as [|b t IH]; intros c; [reflexivity|]. exact (IH b).
  - subst l. split; [|destruct t; reflexivity]. destruct (snoc_cases (a :: d) B) as [W|[d' W]]; [discriminate|]. rewrite W, app_assoc, !last_snoc. reflexivity.
Qed.
End Global.
