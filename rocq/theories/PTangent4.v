(** Straight line trajectories. *)
From Coq Require Import List Bool ZArith Arith Lia Ring Field Relations.
From Verif Require Import OField FMicromega PField MBase MDict MMut SMut MEuclid SEuclid PEuclid MSim SSim PSim MPoly PPoly PTurn SPoint PPoint MSurf SSurf PSurf PSurf3 PDelaunay PPoint2 PPoint3 SCut PJordan PJordan2 PJordan3 PJordan4 PJordan5 PConvex PEar2 PEar5 PPos PPos2 TPos PLocal PLocal2 MTangent PExit STangent PInward PTangent PTangent2 PTangent3.
Import ListNotations.

Section C.
Context {K : OField}.
Add Field KF : (of_ft K).
Local Open Scope F_scope.
Implicit Types (P : polygon K) (p x v : vec K).

Lemma neq_pos (c : K) : 0 < c -> c <> 0.
Proof. intros C X. rewrite X in C. now apply flt_irrefl in C. Qed.
Lemma go_scale p (c t : K) v : c <> 0 -> go p (t / c) (vscale c v) = go p t v.
Proof. intros C. unfold go. destruct p, v; apply vec_eq; cbn [vadd vscale fst snd]; field; auto. Qed.
Lemma go_scale' p (c t : K) v : go p t (vscale c v) = go p (t * c) v.
Proof. unfold go. destruct p, v; apply vec_eq; cbn [vadd vscale fst snd]; ring. Qed.
Lemma same_ray_scale2 (c : K) v w : 0 < c -> same_ray v w -> same_ray v (vscale c w).
Proof. intros C [t [T ->]]. exists (c * t). split; [now apply fmul_pos|]. destruct v; apply vec_eq; cbn; ring. Qed.
Lemma ccw_scale2 (c : K) v w : ccw v (vscale c w) = c * ccw v w.
Proof. unfold ccw. destruct v, w; cbn; ring. Qed.
Lemma div_mul_lt (u b c : K) : 0 < c -> u < b / c -> u * c < b.
Proof. intros C U. assert (X : b / c * c = b) by (field; now apply neq_pos). assert (Y : 0 < (b / c - u) * c) by (apply fmul_pos; auto; flra). assert (Z : (b / c - u) * c = b / c * c - u * c) by ring. flra. Qed.

Section P.
Context (P : polygon K) (PR : proper P) (c : K) (C0 : 0 < c).
Lemma crosses_scale p v (b : K) : crosses P p v b -> crosses P p (vscale c v) (b / c).
Proof.
  intros [B0 [I B]]. split; [now apply fdiv_pos|]. rewrite go_scale by now apply neq_pos. split; auto. intros s S0 S1. rewrite go_scale'. apply I; [now apply fmul_pos|now apply div_mul_lt].
Qed.
Lemma follows_scale e p v : follows P e p v -> follows P e p (vscale c v).
Proof. intros [L [R X]]. split; auto. split; auto. now apply same_ray_scale2. Qed.
Lemma normal_scale p v : normal P p v -> normal P p (vscale c v).
Proof.
  intros [N [r [R0 I]] NC]. constructor; [apply scale_nz; auto; now apply neq_pos| |].
  - exists (r / c). split; [now apply fdiv_pos|]. intros t T0 T1. change (in_polygon P (go p t (vscale c v))). rewrite go_scale'. apply I; [now apply fmul_pos|].
    assert (X : r / c * c = r) by (field; now apply neq_pos). assert (Y : 0 <= (r / c - t) * c) by (assert (0 <= r / c - t) by flra; fnra). assert (Z : (r / c - t) * c = r / c * c - t * c) by ring. flra.
  - intros X. apply NC. destruct (clock_edge P PR _ _ X) as [e [s [Le [S0 [S1 [E R]]]]]]. rewrite E. apply clock_of; auto. now apply (same_ray_scale c).
Qed.
Lemma leaves_scale e p v : leaves P e p v -> leaves P e p (vscale c v).
Proof.
  intros [[A [B|B]]|[A B]]; [left; split; auto; left; rewrite ccw_scale2; fnra|left; split; auto; right; now apply same_ray_scale2|right; split; auto; now apply same_ray_scale2].
Qed.
Lemma exit_scale p v : normal P p v -> exists x pos, flow_to_exit P p v = Ok (x, pos) /\ flow_to_exit P p (vscale c v) = Ok (x, pos).
Proof.
  intros N. pose proof N as [N1 _ _]. pose proof (normal_scale p v N) as [N1' _ _]. destruct (walk_cases P PR p v N) as [[b X]|[e F]].
  - rewrite (crosses_exit P PR p v b N1 X), (crosses_exit P PR p _ (b / c) N1' (crosses_scale p v b X)). rewrite go_scale by now apply neq_pos. eexists _, _. split; reflexivity.
  - destruct (follows_exit P PR e p v N1 F) as [-> _]. destruct (follows_exit P PR e p _ N1' (follows_scale e p v F)) as [-> _]. eexists _, _. split; reflexivity.
Qed.
End P.

Context {L : Type} `{EqB L}.
Context (D : L -> Prop) (S : surface K L) (V : valid D S) (C : closed D S) (PRS : forall l P, D l -> s_poly S l = Ok P -> proper P).
Notation tvec := (tvec K L).
Implicit Types (t u : tvec) (s : segment K L).
Notation ok := (tv_ok D S).

(** *** scaling *)
Lemma tangent_scale l p v u (c : K) : 0 < c -> D l -> tangent_vector S l p v = Ok u -> tangent_vector S l p (vscale c v) = Ok (tv_scale c u).
Proof.
  intros C0 Dl E. destruct (v_poly _ _ V l Dl) as [P [GP _]]. pose proof (PRS l P Dl GP) as PR.
  assert (N : v <> vzero) by (intros ->; rewrite (tangent_zero S l P) in E by auto; discriminate).
  assert (N' : vscale c v <> vzero) by (apply scale_nz; auto; now apply neq_pos).
  assert (I : in_polygon P p \/ ~ in_polygon P p) by (unfold in_polygon; destruct (get_point_position P p); auto; left; discriminate).
  destruct I as [I|I]; [|rewrite (tangent_reject D S PRS l P) in E; auto; discriminate].
  destruct (normal_cases P PR p v N I) as [NM|[[e' [Le LV]]|[[k [Lk E']] NP]]].
  - rewrite (tangent_stay D S PRS l P) in E by auto. injection E as <-. rewrite (tangent_stay D S PRS l P); auto. now apply normal_scale.
  - destruct (glue_ex D S V C l P e' Dl GP Le) as [l2 [e2 [P2 G]]]. destruct (crossing D S V _ _ _ _ _ _ G) as [f [Dl' [Le' [Ef [_ [_ [_ [_ [SC _]]]]]]]]].
    destruct (tangent_move D S V PRS l e' P l2 e2 P2 p v f G Ef N LV) as [T _]. destruct (tangent_move D S V PRS l e' P l2 e2 P2 p _ f G Ef N' (leaves_scale P c C0 e' p v LV)) as [T' _].
    rewrite T in E. injection E as <-. rewrite T', SC. reflexivity.
  - rewrite (tangent_reject D S PRS l P) in E; auto; [discriminate|]. right. split; [now exists k|auto].
Qed.
Lemma scale_ok (c : K) t : 0 < c -> ok t -> ok (tv_scale c t).
Proof. intros C0 [Dl [P [GP [E N]]]]. split; auto. exists P. cbn. split; auto. split; auto. apply normal_scale; auto. eapply PRS; eauto. Qed.
Lemma invert_scale (c : K) t u : 0 < c -> ok t -> tv_invert S t = Ok u -> tv_invert S (tv_scale c t) = Ok (tv_scale c u).
Proof.
  intros C0 [Dl _] E. unfold tv_invert in *. change (is_based_at_singularity (tv_scale c t)) with (is_based_at_singularity t). destruct (is_based_at_singularity t); [discriminate|].
  cbn [tv_scale tv_label tv_point tv_vector]. rewrite opp_scale. now apply tangent_scale.
Qed.
Lemma forward_scale (c : K) t u : 0 < c -> ok t -> forward_to_polygon_boundary S t = Ok u -> forward_to_polygon_boundary S (tv_scale c t) = Ok (tv_scale c u).
Proof.
  intros C0 [Dl [P [GP [_ N]]]] E. pose proof (PRS _ P Dl GP) as PR. unfold forward_to_polygon_boundary in *. cbn [tv_scale tv_label tv_point tv_vector]. rewrite GP in *. cbn [bind] in *.
  destruct (exit_scale P PR c C0 _ _ N) as [x [pos [X1 X2]]]. rewrite X1 in E. rewrite X2. cbn [bind fst] in *. rewrite opp_scale. now apply tangent_scale.
Qed.
Lemma segment_scale (c : K) t s : 0 < c -> ok t -> segment_of S t = Ok s -> segment_of S (tv_scale c t) = Ok (sg_scale c s).
Proof.
  intros C0 O E. unfold segment_of in *. destruct (forward_to_polygon_boundary S t) as [u|] eqn:F1; [|discriminate]. cbn [bind] in E.
  destruct (segment_ok D S V C PRS t O) as [s' [E' [_ [O1 [O2 [F3 F4]]]]]]. unfold segment_of in E'. rewrite F1 in E'. cbn [bind] in E'.
  destruct (forward_to_polygon_boundary S u) as [w|] eqn:F2; [|discriminate]. cbn [bind] in E, E'. injection E as <-. injection E' as <-. cbn [sg_start sg_end] in *.
  rewrite (forward_scale c t u) by auto. cbn [bind]. rewrite (forward_scale c u w) by auto. reflexivity.
Qed.

(** *** uniqueness *)
Lemma equiv_unique t u : ok t -> ok u -> tangent_equiv D S (raw t) (raw u) -> t = u.
Proof.
  intros A B E. destruct (equiv_result D S V PRS _ _ E) as [X|[X Y]]; [now apply (tv_raw D S PRS)|]. cbn [raw fst snd] in *.
  assert (N : tv_vector t <> vzero) by (destruct A as [_ [P [_ [_ [N _ _]]]]]; exact N). specialize (Y N). rewrite (tv_rebuild D S PRS t A), (tv_rebuild D S PRS u B) in Y. now injection Y.
Qed.

(** *** segments *)
Lemma segment_straight s : is_segment D S s <-> straight D S s.
Proof.
  split.
  - intros I. destruct (segment_facts D S V C PRS s I) as [A [B [X _]]]. destruct (segment_ok D S V C PRS _ A) as [s' [E [F _]]]. rewrite X in E. injection E as <-. constructor; auto.
    destruct A as [Dl [P0 [GP0 [_ [N _ _]]]]]. destruct F as [P a b GP A0 B0 XC BA AB ES EE|P e l' e' P' f G Ef FO ES EE].
    + pose proof XC as [W1 [W2 W3]]. set (z := sg_start s) in *.
      exists (tv_label z), P, (go (tv_point z) a (tv_vector z)), (tv_vector z), (b - a). assert (RZ : raw z = (tv_label z, go (tv_point z) a (tv_vector z), tv_vector z)).
      { transitivity (raw (TVec (tv_label z) (go (tv_point z) a (tv_vector z)) (tv_vector z) (get_point_position P (go (tv_point z) a (tv_vector z))))); [f_equal; exact ES|reflexivity]. }
      clear ES.
      split; auto. split; auto. split; auto. assert (EQ : moved (go (tv_point z) a (tv_vector z)) (b - a) (tv_vector z) = go (tv_point z) b (tv_vector z)) by (change (moved (go (tv_point z) a (tv_vector z)) (b - a) (tv_vector z)) with (go (go (tv_point z) a (tv_vector z)) (b - a) (tv_vector z)); rewrite go_go; f_equal; ring).
      rewrite EQ. split; [rewrite EE; apply rst_refl|]. split; [exact BA|]. split; [change (go (go (tv_point z) a (tv_vector z)) (b - a) (tv_vector z)) with (moved (go (tv_point z) a (tv_vector z)) (b - a) (tv_vector z)) in W3; rewrite EQ in W3; exact W3|]. left. exact W2.
    + pose proof (ga_poly _ _ _ _ _ _ _ _ G) as GP. pose proof (PRS _ P Dl GP) as PR. pose proof FO as [Le [R _]].
      exists (tv_label (sg_start s)), P, (vertex P e), (tv_vector (sg_start s)).
      assert (FV : follows P e (vertex P e) (tv_vector (sg_start s))) by (split; auto; split; auto; exists 0; split; [flra|]; split; [apply flt_0_1|symmetry; apply go_start]).
      destruct (follows_exit P PR e _ _ N FV) as [_ [b [B0 [EB HB]]]]. exists b. split; [unfold raw; rewrite ES; reflexivity|]. split; auto. split; auto.
      change (moved (vertex P e) b (tv_vector (sg_start s))) with (go (vertex P e) b (tv_vector (sg_start s))). rewrite <- EB. split.
      * rewrite EE. unfold raw. cbn [tv_label tv_point tv_vector]. assert (EV : sim_apply f (vertex P (Datatypes.S e)) = vertex P' e').
        { destruct (crossing D S V _ _ _ _ _ _ G) as [f' [_ [_ [Ef' [_ [M _]]]]]]. rewrite Ef in Ef'. injection Ef' as <-. apply M. }
        rewrite <- EV. apply rst_step. apply (leaves_same D S V PRS _ e P _ e' P'); auto. left. right. split; auto. now apply opp_ray.
      * split; [exists e; split; auto; apply on_seg_l|]. split; [exists e; split; auto; apply on_seg_r|]. right. exists e. auto.
  - intros [A B [l [P [p [v [b [ER [GP [B0 [EQ [BP [BQ W]]]]]]]]]]]]. exists (sg_start s). split; auto. destruct (segment_ok D S V C PRS _ A) as [s' [E [F [A' [B' _]]]]]. rewrite E. f_equal.
    pose proof A as [Dl [P0 [GP0 [_ [N _ _]]]]]. unfold raw in ER. injection ER as E1 E2 E3. rewrite E1 in Dl, GP0. rewrite E3 in N. rewrite GP in GP0. injection GP0 as <-. pose proof (PRS _ P Dl GP) as PR.
    destruct F as [P1 a b1 GP1 A0 B1 XC BA AB ES EE|P1 e l' e' P' f G Ef FO ES EE].
    + rewrite E1 in GP1, ES, EE. rewrite E2, E3 in XC, BA, ES, EE. rewrite E2 in AB. rewrite GP in GP1. injection GP1 as <-. assert (Z : a = 0) by (apply AB; exact BP). subst a. rewrite go_0 in *. replace (b1 - 0) with b1 in XC by ring.
      destruct W as [W|[e [V0 [V1 W]]]].
      * assert (XC' : crosses P p v b) by (split; auto). pose proof (crosses_exit P PR p v b N XC') as X1. rewrite (crosses_exit P PR p v b1 N XC) in X1. 
        assert (X3 : go p b1 v = go p b v) by congruence. apply go_inj in X3; auto. subst b1. assert (S1 : sg_start s' = sg_start s) by (apply (tv_raw D S PRS); auto; unfold raw; rewrite ES, E1, E2, E3; reflexivity).
        assert (S2 : sg_end s' = sg_end s) by (apply equiv_unique; auto; unfold raw at 1; rewrite EE; exact EQ). destruct s, s'. cbn in *. congruence.
      * exfalso. destruct XC as [_ [XC _]]. destruct (min_pos b b1 B0 B1) as [c [C0 [C1 C2]]]. destruct (half c C0) as [h [H0 [H1 H2]]].
        specialize (W h H0). specialize (XC h H0). change (moved p h v) with (go p h v) in W. rewrite XC in W by flra. discriminate W. flra.
    + rewrite E1 in G, Ef, ES. rewrite E2, E3 in FO. rewrite E3 in ES, EE. pose proof (ga_poly _ _ _ _ _ _ _ _ G) as GP1. rewrite GP in GP1. injection GP1 as <-.
      destruct (follows_exit P PR e _ _ N FO) as [_ [b1 [B1 [EB HB]]]].
      destruct (min_pos b b1 B0 B1) as [c [C0 [C1 C2]]]. destruct (half c C0) as [h [H0 [H1 H2]]]. specialize (HB h H0).
      destruct W as [W|[e1 [V0 [V1 W]]]]; specialize (W h H0); change (moved p h v) with (go p h v) in W; rewrite W in HB by flra; [discriminate HB; flra|].
      assert (EE' : e1 = e) by (assert (X : h < b1) by flra; specialize (HB X); now injection HB). subst e1.
      assert (S1 : sg_start s' = sg_start s) by (apply (tv_raw D S PRS); auto; unfold raw; rewrite ES, E1, E2, E3, V0; reflexivity).
      assert (S2 : sg_end s' = sg_end s).
      { apply equiv_unique; auto. apply (rst_trans _ _ _ (l, vertex P (Datatypes.S e), vopp v)); [|rewrite <- V1; exact EQ]. apply rst_sym, rst_step. unfold raw. rewrite EE. cbn [tv_label tv_point tv_vector].
        assert (EV : sim_apply f (vertex P (Datatypes.S e)) = vertex P' e').
        { destruct (crossing D S V _ _ _ _ _ _ G) as [f' [_ [_ [Ef' [_ [M _]]]]]]. rewrite Ef in Ef'. injection Ef' as <-. apply M. }
        rewrite <- EV. apply (leaves_same D S V PRS _ e P _ e' P'); auto. left. right. split; auto. destruct FO as [_ [R _]]. now apply opp_ray. }
      destruct s, s'. cbn in *. congruence.
Qed.
Lemma straight_facts s : straight D S s -> ok (sg_start s) /\ ok (sg_end s) /\ segment_of S (sg_start s) = Ok s /\ segment_of S (sg_end s) = Ok (sg_invert s).
Proof. rewrite <- segment_straight. apply (segment_facts D S V C PRS). Qed.
Lemma straight_invert s : straight D S s -> straight D S (sg_invert s).
Proof. rewrite <- !segment_straight. apply (invert_segment D S V C PRS). Qed.
Lemma straight_of t s : ok t -> segment_of S t = Ok s -> straight D S s.
Proof. intros O E. apply segment_straight. now exists t. Qed.
(** *** continuations *)
Lemma setup_ok t : ok t -> exists o, setup S t = Ok o /\ continuation D S t o.
Proof.
  intros O. unfold setup. destruct (is_based_at_singularity t) eqn:NS; [exists None; split; auto|]. destruct (invert_ok D S V C PRS t O NS) as [u [IU [Ou [NSu [IIu EQ]]]]].
  rewrite IU. cbn [bind]. exists (Some u). split; auto. split; auto.
Qed.
Lemma setup_iff t o : ok t -> continuation D S t o <-> setup S t = Ok o.
Proof.
  intros O. destruct (setup_ok t O) as [o' [E X]]. rewrite E. split; [|intros Y; injection Y as <-; exact X]. intros Y. f_equal.
  destruct o as [u|], o' as [u'|]; cbn in *; auto; try (destruct X; congruence); try (destruct Y; congruence). destruct X as [_ [X1 X2]], Y as [_ [Y1 Y2]]. f_equal. apply equiv_unique; auto.
  apply (rst_trans _ _ _ (reversed t)); auto. now apply rst_sym.
Qed.
Lemma continues_iff s s' : straight D S s -> straight D S s' -> continues D S s s' <-> sg_next S s = Ok s'.
Proof.
  intros A A'. destruct (straight_facts s A) as [O1 [O2 [E1 E2]]]. destruct (straight_facts s' A') as [O1' [O2' [E1' E2']]]. unfold continues, sg_next, end_is_singular. split.
  - intros [NS EQ]. rewrite NS. destruct (invert_ok D S V C PRS _ O2 NS) as [u [IU [Ou [NSu [IIu EQ']]]]]. rewrite IU. cbn [bind].
    replace u with (sg_start s'); auto. apply equiv_unique; auto. apply (rst_trans _ _ _ (reversed (sg_end s))); auto. now apply rst_sym.
  - destruct (is_based_at_singularity (sg_end s)) eqn:NS; [discriminate|]. destruct (invert_ok D S V C PRS _ O2 NS) as [u [IU [Ou [NSu [IIu EQ']]]]]. rewrite IU. cbn [bind]. intros E. split; auto.
    assert (I : is_segment D S s) by now apply segment_straight. destruct (next_start D S V C PRS s u I NS IU) as [s2 [Es [_ EU]]]. rewrite E in Es. injection Es as <-. rewrite EU. exact EQ'.
Qed.
Lemma continues_invert s s' : straight D S s -> straight D S s' -> continues D S s s' -> continues D S (sg_invert s') (sg_invert s).
Proof.
  intros A A' X. apply continues_iff; try now apply straight_invert. apply continues_iff in X; auto.
  assert (I : is_segment D S s) by now apply segment_straight. assert (NS : end_is_singular s = false) by (unfold sg_next in X; destruct (end_is_singular s); [discriminate|auto]).
  destruct (next_ok D S V C PRS s I NS) as [s2 [u [E [_ [_ [_ [_ Y]]]]]]]. rewrite X in E. injection E as <-. exact Y.
Qed.
Lemma next_straight s f : straight D S s -> continuation D S (sg_end s) (Some f) -> exists s', segment_of S f = Ok s' /\ straight D S s' /\ sg_start s' = f /\ continues D S s s'.
Proof.
  intros A Y. destruct (straight_facts s A) as [O1 [O2 [E1 E2]]]. pose proof Y as [NS [Of EQ]]. apply setup_iff in Y; auto. unfold setup in Y. rewrite NS in Y.
  destruct (tv_invert S (sg_end s)) as [u|] eqn:IU; [|discriminate]. cbn [bind] in Y. injection Y as ->. assert (I : is_segment D S s) by now apply segment_straight.
  destruct (next_start D S V C PRS s f I NS IU) as [s' [Es [I' EU]]]. exists s'. split; auto. split; [now apply segment_straight|]. split; auto. split; auto. now rewrite EU.
Qed.

(** *** closing up *)
Lemma differs_iff t u : ok t -> ok u -> differs_by_scaling t u = true <-> exists c, 0 < c /\ u = tv_scale c t.
Proof.
  intros A B. unfold differs_by_scaling. rewrite !andb_true_iff, eqb_ok, veqb_eq, is_parallel_spec. split.
  - intros [[E1 E2] [_ [c [C0 E3]]]]. exists c. split; auto. apply (tv_raw D S PRS); auto; [now apply scale_ok|]. unfold raw. cbn. congruence.
  - intros [c [C0 ->]]. cbn. split; auto. split; [destruct A as [_ [P [_ [_ [N _ _]]]]]; exact N|]. now exists c.
Qed.
Lemma differs_sym t u : ok t -> ok u -> differs_by_scaling t u = differs_by_scaling u t.
Proof.
  intros A B. assert (X : forall t u, ok t -> ok u -> differs_by_scaling t u = true -> differs_by_scaling u t = true).
  { intros t1 t2 A1 B1 E. apply differs_iff in E; auto. destruct E as [c [C0 ->]]. apply differs_iff; auto. exists (1 / c). split; [apply fdiv_pos; auto; apply flt_0_1|].
    destruct t1 as [l p v pos]. unfold tv_scale. cbn. f_equal. destruct v; apply vec_eq; cbn [vscale fst snd]; field; now apply neq_pos. }
  destruct (differs_by_scaling t u) eqn:E1, (differs_by_scaling u t) eqn:E2; auto; [apply X in E1|apply X in E2]; auto; congruence.
Qed.
Lemma differs_invert t u t' u' : ok t -> ok u -> tv_invert S t = Ok t' -> tv_invert S u = Ok u' -> differs_by_scaling t u = differs_by_scaling t' u'.
Proof.
  intros A B E1 E2. assert (X : forall t u t' u', ok t -> ok u -> tv_invert S t = Ok t' -> tv_invert S u = Ok u' -> ok t' /\ ok u' /\ (differs_by_scaling t u = true -> differs_by_scaling t' u' = true) /\ tv_invert S t' = Ok t).
  { intros t1 u1 t2 u2 A1 B1 I1 I2. assert (N1 : is_based_at_singularity t1 = false) by (unfold tv_invert in I1; destruct (is_based_at_singularity t1); [discriminate|auto]).
    assert (N2 : is_based_at_singularity u1 = false) by (unfold tv_invert in I2; destruct (is_based_at_singularity u1); [discriminate|auto]).
    destruct (invert_ok D S V C PRS _ A1 N1) as [x [IX [OX [_ [IIX _]]]]]. rewrite I1 in IX. injection IX as <-.
    destruct (invert_ok D S V C PRS _ B1 N2) as [y [IY [OY [_ [IIY _]]]]]. rewrite I2 in IY. injection IY as <-. split; auto. split; auto. split; auto.
    intros E. apply differs_iff in E; auto. destruct E as [c [C0 ->]]. rewrite (invert_scale c t1 t2 C0 A1 I1) in I2. injection I2 as <-. apply differs_iff; auto. now exists c. }
  destruct (X t u t' u' A B E1 E2) as [O1 [O2 [X1 I1]]]. destruct (X u t u' t' B A E2 E1) as [_ [_ [_ I2]]]. destruct (X t' u' t u O1 O2 I1 I2) as [_ [_ [X2 _]]].
  clear -X1 X2. destruct (differs_by_scaling t u), (differs_by_scaling t' u'); try reflexivity; [specialize (X1 eq_refl)|specialize (X2 eq_refl)]; congruence.
Qed.

(** *** trajectories *)
Implicit Types (j : trajectory K L).
Notation tr := (traj D S).
Lemma traj_ends j : tr j -> exists s ss s' ss', tj_segments j = s :: ss /\ tj_segments j = ss' ++ [s'] /\ straight D S s /\ straight D S s' /\
  continuation D S (sg_start s) (tj_backward j) /\ continuation D S (sg_end s') (tj_forward j).
Proof.
  intros [A B [s [ss [E1 X1]]] [s' [ss' [E2 X2]]]]. exists s, ss, s', ss'. split; auto. split; auto. split; [apply A; rewrite E1; now left|]. split; [apply A; rewrite E2; apply in_or_app; right; now left|]. auto.
Qed.
Lemma closed_ok j : tr j -> exists b, is_closed j = Ok b.
Proof.
  intros T. destruct (traj_ends j T) as [s [ss [s' [ss' [E1 _]]]]]. unfold is_closed, initial_tangent_vector. rewrite E1. destruct (tj_forward j); [|eauto]. cbn [bind]. eauto.
Qed.
Lemma consecutive_rev {A} (R : A -> A -> Prop) (l : list A) : consecutive R l -> consecutive (fun a b => R b a) (rev l).
Proof.
  intros X i a b E1 E2. assert (L1 : (i < length (rev l))%nat) by (apply nth_error_Some; congruence). assert (L2 : (Datatypes.S i < length (rev l))%nat) by (apply nth_error_Some; congruence).
  rewrite rev_length in L1, L2. pose proof (nth_error_nth _ _ a E1) as F1. pose proof (nth_error_nth _ _ a E2) as F2. rewrite rev_nth in F1 by auto. rewrite rev_nth in F2 by auto.
  apply (X (length l - Datatypes.S (Datatypes.S i))%nat).
  - rewrite <- F2. apply nth_error_nth'. lia.
  - rewrite <- F1. replace (Datatypes.S (length l - Datatypes.S (Datatypes.S i))) with (length l - Datatypes.S i)%nat by lia. apply nth_error_nth'. lia.
Qed.
Lemma consecutive_map {A B} (R : A -> A -> Prop) (R' : B -> B -> Prop) (f : A -> B) l : (forall a b, In a l -> In b l -> R a b -> R' (f a) (f b)) -> consecutive R l -> consecutive R' (map f l).
Proof.
  intros X Y i a b E1 E2. rewrite nth_error_map in E1, E2. destruct (nth_error l i) as [a'|] eqn:F1; [|discriminate]. destruct (nth_error l (Datatypes.S i)) as [b'|] eqn:F2; [|discriminate].
  injection E1 as <-. injection E2 as <-. apply X; [eapply nth_error_In; eauto|eapply nth_error_In; eauto|]. now apply (Y i).
Qed.
Lemma consecutive_snoc {A} (R : A -> A -> Prop) l (a b : A) : consecutive R (l ++ [a]) -> R a b -> consecutive R ((l ++ [a]) ++ [b]).
Proof.
  intros X Y i x y E1 E2. destruct (Nat.lt_ge_cases (Datatypes.S i) (length (l ++ [a]))) as [Z|Z].
  - rewrite nth_error_app1 in E1, E2 by lia. now apply (X i).
  - assert (L2 : (Datatypes.S i < length ((l ++ [a]) ++ [b]))%nat) by (apply nth_error_Some; congruence). rewrite !app_length in *. cbn in L2, Z.
    assert (W : i = length l) by lia. subst i. rewrite nth_error_app1 in E1 by (rewrite app_length; cbn; lia). rewrite nth_error_app2, Nat.sub_diag in E1 by lia. injection E1 as <-.
    rewrite nth_error_app2 in E2 by (rewrite app_length; cbn; lia). rewrite app_length in E2. cbn [length] in E2. replace (Datatypes.S (length l) - (length l + 1))%nat with 0%nat in E2 by lia. injection E2 as <-. exact Y.
Qed.
Lemma invert_invert s : sg_invert (sg_invert s) = s. Proof. now destruct s. Qed.
Lemma map_invert_invert l : map sg_invert (map sg_invert l) = (l : list (segment K L)).
Proof. induction l as [|a l IH]; cbn [map]; auto. now rewrite IH, invert_invert. Qed.
Lemma reverse_reverse j : tj_reverse (tj_reverse j) = j.
Proof. destruct j as [l f b]. unfold tj_reverse. cbn. f_equal. rewrite map_rev, rev_involutive. apply map_invert_invert. Qed.
Lemma traj_reverse j : tr j -> tr (tj_reverse j).
Proof.
  intros [A B [s [ss [E1 X1]]] [s' [ss' [E2 X2]]]]. constructor.
  - intros x I. unfold tj_reverse in I. cbn in I. rewrite <- in_rev in I. apply in_map_iff in I. destruct I as [y [<- I]]. now apply straight_invert, A.
  - unfold tj_reverse. cbn. apply (consecutive_rev (fun a b => continues D S b a)). apply (consecutive_map (continues D S)); auto. intros a b I1 I2 X. apply continues_invert; auto.
  - exists (sg_invert s'), (rev (map sg_invert ss')). unfold tj_reverse. cbn. rewrite E2, map_app, rev_app_distr. cbn. split; auto.
  - exists (sg_invert s), (rev (map sg_invert ss)). unfold tj_reverse. cbn. rewrite E1. cbn. split; auto.
Qed.
Lemma closed_reverse j : tr j -> is_closed (tj_reverse j) = is_closed j.
Proof.
  intros T. destruct (traj_ends j T) as [s [ss [s' [ss' [E1 [E2 [A [A' [X X']]]]]]]]]. destruct j as [l f b]. cbn [tj_segments tj_forward tj_backward] in *.
  unfold is_closed, initial_tangent_vector, tj_reverse. cbn [tj_segments tj_forward tj_backward]. assert (E3 : rev (map sg_invert l) = sg_invert s' :: rev (map sg_invert ss')) by (rewrite E2, map_app, rev_app_distr; reflexivity). rewrite E3, E1. cbn [bind sg_invert sg_start].
  destruct (straight_facts s A) as [O1 [O2 _]]. destruct (straight_facts s' A') as [O1' [O2' _]].
  destruct f as [f|], b as [b|]; auto.
  - f_equal. destruct X as [NS1 [Ob Eb]], X' as [NS2 [Of Ef]]. destruct (invert_ok D S V C PRS _ O1 NS1) as [x [IX [OX [_ [IIX EX]]]]]. destruct (invert_ok D S V C PRS _ O2' NS2) as [y [IY [OY [_ [IIY EY]]]]].
    assert (Ex : x = b) by (apply equiv_unique; auto; apply (rst_trans _ _ _ (reversed (sg_start s))); auto; now apply rst_sym).
    assert (Ey : y = f) by (apply equiv_unique; auto; apply (rst_trans _ _ _ (reversed (sg_end s'))); auto; now apply rst_sym). subst x y.
    rewrite (differs_invert b (sg_end s') (sg_start s) f) by auto. apply differs_sym; auto.
  - (* the start is a vertex, and the continuation is not *)
    destruct X' as [NS2 [Of Ef]]. cbn in X. f_equal. symmetry. destruct (differs_by_scaling f (sg_start s)) eqn:Z; auto. apply differs_iff in Z; auto. destruct Z as [c [_ Z]].
    destruct (invert_ok D S V C PRS _ O2' NS2) as [y [IY [OY [NY [IIY EY]]]]]. assert (Ey : y = f) by (apply equiv_unique; auto; apply (rst_trans _ _ _ (reversed (sg_end s'))); auto; now apply rst_sym). subst y.
    rewrite Z in X. change (is_based_at_singularity f = true) in X. congruence.
  - destruct X as [NS1 [Ob Eb]]. cbn in X'. f_equal. destruct (differs_by_scaling b (sg_end s')) eqn:Z; auto. apply differs_iff in Z; auto. destruct Z as [c [_ Z]].
    destruct (invert_ok D S V C PRS _ O1 NS1) as [y [IY [OY [NY [IIY EY]]]]]. assert (Ey : y = b) by (apply equiv_unique; auto; apply (rst_trans _ _ _ (reversed (sg_start s))); auto; now apply rst_sym). subst y.
    rewrite Z in X'. change (is_based_at_singularity b = true) in X'. congruence.
Qed.
Lemma closed_spec j : tr j -> is_closed j = Ok true <-> exists f s ss c, tj_forward j = Some f /\ tj_segments j = s :: ss /\ 0 < c /\ f = tv_scale c (sg_start s).
Proof.
  intros T. destruct (traj_ends j T) as [s [ss [s' [ss' [E1 [E2 [A [A' [X X']]]]]]]]]. unfold is_closed, initial_tangent_vector. rewrite E1. destruct (straight_facts s A) as [O1 _].
  destruct (tj_forward j) as [f|]; cbn [bind].
  - destruct X' as [_ [Of _]]. split.
    + intros E. injection E as E. rewrite differs_sym in E by auto. apply differs_iff in E; auto. destruct E as [c [C0 E]]. exists f, s, ss, c. auto.
    + intros [f' [s2 [ss2 [c [Ef [Es [C0 E]]]]]]]. injection Ef as <-. injection Es as <- <-. f_equal. rewrite differs_sym by auto. apply differs_iff; auto. now exists c.
  - split; [discriminate|]. intros [f' [s2 [ss2 [c [Ef _]]]]]. discriminate.
Qed.

Lemma trajectory_ok t : ok t -> exists j s, trajectory_of S t = Ok j /\ tr j /\ segment_of S t = Ok s /\ tj_segments j = [s].
Proof.
  intros O. destruct (segment_ok D S V C PRS t O) as [s [E _]]. pose proof (straight_of t s O E) as A. destruct (straight_facts s A) as [O1 [O2 _]].
  destruct (setup_ok (sg_end s) O2) as [f [Ef Xf]]. destruct (setup_ok (sg_start s) O1) as [b [Eb Xb]]. exists (Trajectory [s] f b), s. unfold trajectory_of. rewrite E. cbn [bind]. rewrite Ef. cbn [bind]. rewrite Eb. cbn [bind].
  split; auto. split; auto. constructor; cbn.
  - intros x [<-|[]]; auto.
  - intros i x y E1 E2. destruct i as [|[|i]]; discriminate.
  - exists s, nil. auto.
  - exists s, nil. auto.
Qed.
Lemma forward_step j f : tr j -> tj_forward j = Some f -> exists s o, segment_of S f = Ok s /\ sg_start s = f /\ setup S (sg_end s) = Ok o /\ tr (Trajectory (tj_segments j ++ [s]) o (tj_backward j)).
Proof.
  intros T Ef. pose proof T as [A B [s [ss [E1 X1]]] [s' [ss' [E2 X2]]]]. rewrite Ef in X2. assert (A' : straight D S s') by (apply A; rewrite E2; apply in_or_app; right; now left).
  destruct (next_straight s' f A' X2) as [s2 [Es [A2 [EU CN]]]]. destruct (straight_facts s2 A2) as [O1 [O2 _]]. destruct (setup_ok (sg_end s2) O2) as [o [Eo Xo]].
  exists s2, o. split; auto. split; auto. split; auto. constructor; cbn [tj_segments tj_forward tj_backward].
  - intros x I. apply in_app_or in I. destruct I as [I|[<-|[]]]; auto.
  - rewrite E2 in *. now apply consecutive_snoc.
  - exists s, (ss ++ [s2]). rewrite E1. auto.
  - exists s2, (tj_segments j). auto.
Qed.
Lemma flow_forward_ok n : forall j, tr j -> exists j' post, flow_forward S n j = Ok j' /\ tr j' /\ tj_segments j' = tj_segments j ++ post /\ tj_backward j' = tj_backward j /\
  (length post <= n)%nat /\ ((length post < n)%nat -> tj_forward j' = None \/ is_closed j' = Ok true).
Proof.
  induction n as [|n IH]; intros j T; cbn [flow_forward].
  - exists j, nil. rewrite app_nil_r. split; auto. split; auto. split; auto. split; auto. split; [cbn; lia|]. cbn. lia.
  - destruct (tj_forward j) as [f|] eqn:Ef; [|exists j, nil; rewrite app_nil_r; split; auto; split; auto; split; auto; split; auto; split; [cbn; lia|auto]].
    destruct (closed_ok j T) as [b Eb]. rewrite Eb. cbn [bind]. destruct b; [exists j, nil; rewrite app_nil_r; split; auto; split; auto; split; auto; split; auto; split; [cbn; lia|auto]|].
    destruct (forward_step j f T Ef) as [s [o [Es [EU [Eo T']]]]]. rewrite Es. cbn [bind]. rewrite Eo. cbn [bind]. destruct (IH _ T') as [j' [post [E [T2 [E2 [E3 [L1 L2]]]]]]].
    exists j', (s :: post). split; auto. split; auto. split; [rewrite E2; cbn; now rewrite <- app_assoc|]. split; auto. split; [cbn; lia|]. cbn. intros X. apply L2. lia.
Qed.
Lemma flow_backward_reverse n : forall j, tr j -> flow_backward S n j = bind (flow_forward S n (tj_reverse j)) (fun y => Ok (tj_reverse y)).
Proof.
  induction n as [|n IH]; intros j T; cbn [flow_backward flow_forward].
  - cbn [bind]. now rewrite reverse_reverse.
  - change (tj_forward (tj_reverse j)) with (tj_backward j). destruct (tj_backward j) as [b|] eqn:Ef; [|cbn [bind]; now rewrite reverse_reverse].
    rewrite closed_reverse by auto. destruct (closed_ok j T) as [c Eb]. rewrite Eb. cbn [bind]. destruct c; [cbn [bind]; now rewrite reverse_reverse|].
    destruct (forward_step (tj_reverse j) b (traj_reverse j T) Ef) as [s [o [Es [EU [Eo T']]]]]. rewrite Es. cbn [bind sg_invert sg_start]. rewrite Eo. cbn [bind].
    assert (EQ : Trajectory (sg_invert s :: tj_segments j) (tj_forward j) o = tj_reverse (Trajectory (tj_segments (tj_reverse j) ++ [s]) o (tj_backward (tj_reverse j)))).
    { unfold tj_reverse. cbn. rewrite map_app, rev_app_distr. cbn. f_equal. f_equal. rewrite map_rev, rev_involutive. symmetry. apply map_invert_invert. }
    change (Segment (sg_end s) (sg_start s)) with (sg_invert s). rewrite EQ. rewrite IH by (apply traj_reverse; exact T'). now rewrite reverse_reverse.
Qed.
Lemma flow_add m n : forall j, flow_forward S (m + n) j = bind (flow_forward S m j) (flow_forward S n).
Proof.
  induction m as [|m IH]; intros j; [reflexivity|]. cbn [Nat.add flow_forward]. destruct (tj_forward j) as [f|] eqn:Ef; [|cbn [bind]; destruct n; cbn [flow_forward]; auto; now rewrite Ef].
  destruct (is_closed j) as [c|] eqn:Ec; [|reflexivity]. cbn [bind]. destruct c; [cbn [bind]; destruct n; cbn [flow_forward]; auto; rewrite Ef, Ec; reflexivity|].
  destruct (segment_of S f) as [seg|]; [|reflexivity]. cbn [bind]. destruct (setup S (sg_end seg)); [|reflexivity]. cbn [bind]. apply IH.
Qed.
Lemma is_edge_iff s : straight D S s -> exists b, sg_is_edge S s = Ok b /\
  (b = true <-> exists P e, s_poly S (tv_label (sg_start s)) = Ok P /\ (e < length P)%nat /\ tv_point (sg_start s) = vertex P e /\ pos_multiple (edge P e) (tv_vector (sg_start s))).
Proof.
  intros A. destruct (straight_facts s A) as [O1 [O2 [E1 E2]]]. pose proof O1 as [Dl [P [GP [EP NM]]]]. pose proof NM as [N _ _]. pose proof (PRS _ P Dl GP) as PR.
  assert (X : forall Q e, s_poly S (tv_label (sg_start s)) = Ok Q -> (e < length Q)%nat -> tv_point (sg_start s) = vertex Q e -> pos_multiple (edge Q e) (tv_vector (sg_start s)) ->
    tv_position (sg_start s) = AtVertex e /\ end_is_singular s = true).
  { intros Q e GQ Le Ev [_ [c [C0 Ec]]]. rewrite GP in GQ. injection GQ as <-. split; [rewrite EP, Ev; now apply at_vertex|].
    assert (FO : follows P e (tv_point (sg_start s)) (tv_vector (sg_start s))).
    { split; auto. split; [exists c; auto|]. exists 0. split; [flra|]. split; [apply flt_0_1|]. rewrite Ev. symmetry. apply go_start. }
    destruct (glue_ex D S V C _ P e Dl GP Le) as [l' [e' [P' G]]]. destruct (crossing D S V _ _ _ _ _ _ G) as [f [Dl' [Le' [Ef _]]]].
    destruct (forward_follow D S V PRS _ P e _ _ (tv_position (sg_start s)) l' e' P' f G Ef N FO) as [F1 _]. rewrite <- tv_eta in F1.
    unfold segment_of in E1. rewrite F1 in E1. cbn [bind] in E1. destruct (forward_to_polygon_boundary S _) as [z|] in E1; [|discriminate]. cbn [bind] in E1. injection E1 as E1. rewrite <- E1. reflexivity. }
  unfold sg_is_edge. destruct (negb (start_is_singular s) || negb (end_is_singular s)) eqn:NS.
  - exists false. split; auto. split; [discriminate|]. intros [Q [e [GQ [Le [Ev Ec]]]]]. destruct (X Q e GQ Le Ev Ec) as [X1 X2]. unfold start_is_singular, is_based_at_singularity in NS. rewrite X1, X2 in NS. discriminate.
  - apply orb_false_iff in NS. destruct NS as [NS _]. apply negb_false_iff in NS. unfold start_is_singular, is_based_at_singularity in NS. destruct (tv_position (sg_start s)) as [| |e|k] eqn:PS; try discriminate.
    rewrite GP. cbn [bind]. eexists. split; [reflexivity|]. rewrite is_parallel_spec. symmetry in EP. destruct (vertex_lt P PR k _ EP) as [Lk Ek]. split.
    + intros [_ [c [C0 Ec]]]. exists P, k. split; auto. split; auto. split; auto. split; [now apply edge_nz|]. exists (1 / c). split; [apply fdiv_pos; auto; apply flt_0_1|].
      rewrite Ec. destruct (tv_vector (sg_start s)); apply vec_eq; cbn [vscale fst snd]; field; now apply neq_pos.
    + intros [Q [e [GQ [Le [Ev Ec]]]]]. injection GQ as <-. destruct (X P e GP Le Ev Ec) as [X1 X2]. injection X1 as ->. destruct Ec as [_ [c [C0 Ec]]]. split; auto. exists (1 / c). split; [apply fdiv_pos; auto; apply flt_0_1|].
      rewrite Ec. destruct (edge P e); apply vec_eq; cbn [vscale fst snd]; field; now apply neq_pos.
Qed.
Lemma previous_ok s : straight D S s -> end_is_singular s = false -> start_is_singular s = false -> exists s', sg_previous S s = Ok s' /\ straight D S s' /\ continues D S s' s.
Proof.
  intros A NE NS. pose proof (straight_invert s A) as A'. assert (I : is_segment D S (sg_invert s)) by now apply segment_straight.
  destruct (next_ok D S V C PRS (sg_invert s) I NS) as [s2 [u [E [I2 [IU [ES [_ Y]]]]]]]. assert (A2 : straight D S s2) by now apply segment_straight.
  exists (sg_invert s2). unfold sg_previous. rewrite NE. unfold sg_next in E. change (end_is_singular (sg_invert s)) with (start_is_singular s) in E. rewrite NS in E. cbn [sg_invert sg_end] in E, IU. rewrite IU in E |- *. cbn [bind] in E |- *.
  rewrite E. cbn [bind]. split; auto. split; [now apply straight_invert|]. apply continues_iff; auto; [now apply straight_invert|]. rewrite invert_invert in Y. exact Y.
Qed.
Lemma segment_span t : ok t -> exists s a b, segment_of S t = Ok s /\ straight D S s /\ a <= 0 /\ 0 < b /\
  raw (sg_start s) = (tv_label t, moved (tv_point t) a (tv_vector t), tv_vector t) /\
  tangent_equiv D S (tv_label t, moved (tv_point t) b (tv_vector t), vopp (tv_vector t)) (raw (sg_end s)).
Proof.
  intros O. destruct (segment_ok D S V C PRS t O) as [s [E [F _]]]. pose proof (straight_of t s O E) as A. pose proof O as [Dl [P0 [GP0 [_ [N _ _]]]]].
  destruct F as [P a b GP A0 B0 XC BA AB ES EE|P e l' e' P' f G Ef FO ES EE].
  - exists s, a, b. split; auto. split; auto. split; auto. split; auto. unfold raw. rewrite ES, EE. split; [reflexivity|apply rst_refl].
  - pose proof (ga_poly _ _ _ _ _ _ _ _ G) as GP. pose proof (PRS _ P Dl GP) as PR. destruct (follows_exit P PR e _ _ N FO) as [_ [b [B0 [EB HB]]]].
    destruct (follows_param P e _ _ FO) as [u [c [Le [U0 [U1 [C0 [Ev [Ep Eg]]]]]]]]. exists s, (- (u / c)), b. split; auto. split; auto. split; [|split; auto; split].
    + assert (0 <= u / c) by (apply fdiv_nonneg; auto). flra.
    + unfold raw. rewrite ES. cbn [tv_label tv_point tv_vector]. f_equal. f_equal. change (vertex P e = go (tv_point t) (- (u / c)) (tv_vector t)). rewrite Eg, <- go_start at 1. f_equal. field. now apply neq_pos.
    + change (moved (tv_point t) b (tv_vector t)) with (go (tv_point t) b (tv_vector t)). rewrite <- EB. unfold raw. rewrite EE. cbn [tv_label tv_point tv_vector].
      assert (EV : sim_apply f (vertex P (Datatypes.S e)) = vertex P' e').
      { destruct (crossing D S V _ _ _ _ _ _ G) as [f' [_ [_ [Ef' [_ [M _]]]]]]. rewrite Ef in Ef'. injection Ef' as <-. apply M. }
      rewrite <- EV. apply rst_step. apply (leaves_same D S V PRS _ e P _ e' P'); auto. left. right. split; auto. destruct FO as [_ [R _]]. now apply opp_ray.
Qed.
End C.
