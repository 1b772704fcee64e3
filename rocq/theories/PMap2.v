(** Linear maps act on the tangent vectors of dilation surfaces. *)
From Coq Require Import List Bool ZArith Arith Lia Ring Field Relations.
From Verif Require Import OField FMicromega PField MBase MDict MEuclid SEuclid PEuclid MSim SSim PSim MPoly PPoly PTurn SPoint PPoint MSurf SSurf PSurf PSurf3 SCut PJordan PPos TPos PLocal PLocal2 PPoint2 PPoint3 PNorm MTangent STangent PInward PTangent PTangent3 PTangent4 TTangent MMap SMap PMap.
Import ListNotations.

Section C.
Context {K : OField}.
Add Field KF : (of_ft K).
Local Open Scope F_scope.
Context {L : Type} `{EqB L}.
Context (D : L -> Prop) (S : surface K L) (V : valid D S) (C : closed D S) (PRS : forall l P, D l -> s_poly S l = Ok P -> proper P).
Context (M : mat K) (Hd : mdet M <> 0).
Notation T := (gl2r S M).
Notation m := (mapply M).
Notation r P := (ridx M (length P)).
Notation im := (linear_image_coords (K := K) (L := L)).

Lemma m_inj p q : m p = m q -> p = q.
Proof. intros E. rewrite <- (mapply_inv' M p), E by auto. now apply mapply_inv'. Qed.
Lemma m_add p q : m (vadd p q) = vadd (m p) (m q). Proof. destruct p, q. apply vec_eq; cbn; ring. Qed.
Lemma m_nz v : v <> vzero -> m v <> vzero. Proof. now apply mapply_nz. Qed.
Lemma three l P : D l -> s_poly S l = Ok P -> (3 <= length P)%nat. Proof. intros A B. apply (PRS l P A B). Qed.
Lemma ne l P : D l -> s_poly S l = Ok P -> P <> nil. Proof. intros A B E. pose proof (three l P A B). rewrite E in *. cbn in *. lia. Qed.
Lemma T_poly l Q : D l -> s_poly T l = Ok Q -> exists P, s_poly S l = Ok P /\ poly_mul M P = Ok Q.
Proof. intros A E. destruct (v_poly _ _ V l A) as [P [EP _]]. exists P. split; auto. cbn in E. rewrite EP in E. exact E. Qed.
Lemma T_proper l Q : D l -> s_poly T l = Ok Q -> proper Q.
Proof. intros A E. destruct (T_poly l Q A E) as [P [EP EQ]]. apply (im_proper M P Q Hd (three l P A EP) EQ). eauto. Qed.
Lemma T_valid : valid D T. Proof. now apply gl2r_valid. Qed.
Lemma T_closed : closed D T. Proof. now apply gl2r_valid. Qed.

Lemma glued_im l e P l' e' P' : glued_at D S l e P l' e' P' -> exists Q Q', poly_mul M P = Ok Q /\ poly_mul M P' = Ok Q' /\ glued_at D T l (r P e) Q l' (r P' e') Q'.
Proof.
  intros G. pose proof (ga_dom _ _ _ _ _ _ _ _ G) as Dl. pose proof (ga_poly _ _ _ _ _ _ _ _ G) as Pl. pose proof (ga_edge _ _ _ _ _ _ _ _ G) as Le. pose proof (ne l P Dl Pl) as HP.
  destruct (poly_mul_total M P HP Hd) as [Q HQ].
  destruct (gl2r_opp D S M l P Q (r P e) V C Hd Dl Pl HQ (ridx_lt M _ _ Le)) as [l2 [e2 [P2 [Q2 [G2 [He2 [D2 [MQ O]]]]]]]]. rewrite ridx_ridx in G2 by auto.
  assert (E : Some (l2, ridx M (length P2) e2) = Some (l', e')) by (destruct G, G2; congruence). injection E as -> E.
  assert (P2 = P') by (destruct G, G2; congruence). subst P2. exists Q, Q2. split; auto. split; auto. rewrite <- E, ridx_ridx by auto. constructor; auto.
  - cbn. rewrite Pl. exact HQ.
  - rewrite (poly_mul_length M P Q HP HQ). now apply ridx_lt.
  - cbn. rewrite (ga_poly' _ _ _ _ _ _ _ _ G2). exact MQ.
Qed.
Lemma glued_im' l e Q l' e' Q' : glued_at D T l e Q l' e' Q' -> exists P P', poly_mul M P = Ok Q /\ poly_mul M P' = Ok Q' /\ (e < length P)%nat /\ (e' < length P')%nat /\ glued_at D S l (r P e) P l' (r P' e') P'.
Proof. intros G. destruct (gl2r_glued D S M _ _ _ _ _ _ V C Hd G) as [P [P' [A [B [G' [X Y]]]]]]. exists P, P'. auto. Qed.

Section Pair.
Variables (l : L) (e : nat) (P : polygon K) (l' : L) (e' : nat) (P' Q Q' : polygon K) (F F' : vec K -> vec K).
Hypothesis Le : (e < length P)%nat.
Hypothesis Le' : (e' < length P')%nat.
Hypothesis N3 : (3 <= length P)%nat.
Hypothesis HQ : poly_mul M P = Ok Q.
Hypothesis HQ' : poly_mul M P' = Ok Q'.

Lemma affine_im (c : K) u : c <> 0 -> gluing_map P (r P e) P' (r P' e') F -> (forall p, F p = vadd (vscale c p) u) ->
  gluing_map Q e Q' e' (fun p => vadd (vscale c p) (m u)).
Proof.
  intros Nc [_ _ A B] HF. destruct (affine_similarity c (m u) (fun p => vadd (vscale c p) (m u)) Nc) as [X Y]; auto.
  rewrite HF in A, B.
  pose proof (poly_mul_vertex M P Q e HQ Le) as W. pose proof (poly_mul_vertex M P' Q' e' HQ' Le') as W'. cbv zeta in W, W'.
  destruct (mdet M <? 0); destruct W as [W1 W2], W' as [W1' W2']; constructor; auto;
    rewrite ?W1, ?W2, ?W1', ?W2', <- mapply_affine; congruence.
Qed.
Lemma pair_core p v q w : F' (m p) = m (F p) -> F' (m (vadd p v)) = m (F (vadd p v)) ->
  (on_segment (side Q e) (m p) /\ ((m p <> vertex Q e /\ m p <> vertex Q (Datatypes.S e)) \/ along Q e (m p) (m v)) /\ m q = F' (m p) /\ vadd (m q) (m w) = F' (vadd (m p) (m v))) <->
  (on_segment (side P (r P e)) p /\ ((p <> vertex P (r P e) /\ p <> vertex P (Datatypes.S (r P e))) \/ along P (r P e) p v) /\ q = F p /\ vadd q w = F (vadd p v)).
Proof.
  intros F1 F2. rewrite <- !m_add, F1, F2. rewrite (im_side M P Q Hd HQ) by auto.
  assert (A : along Q e (m p) (m v) <-> along P (r P e) p v) by (rewrite <- (im_along M P Q Hd HQ) by (now apply ridx_lt); now rewrite ridx_ridx). rewrite A.
  assert (X : (m p <> vertex Q e /\ m p <> vertex Q (Datatypes.S e)) <-> (p <> vertex P (r P e) /\ p <> vertex P (Datatypes.S (r P e)))).
  { assert (I : forall z, m p <> m z <-> p <> z) by (intros z; split; intros B E; apply B; [now rewrite E|now apply m_inj]).
    pose proof (poly_mul_vertex M P Q e HQ Le) as W. cbv zeta in W. destruct (mdet M <? 0); destruct W as [-> ->]; rewrite !I; tauto. }
  rewrite X. assert (I : forall a b, m a = m b <-> a = b) by (intros a b; split; [apply m_inj|now intros ->]). rewrite !I. reflexivity.
Qed.
End Pair.

Lemma im_back x : im M (im (minv M) x) = x. Proof. destruct x as [[l p] v]. unfold linear_image_coords. cbn. now rewrite !mapply_inv. Qed.
Lemma im_forth x : im (minv M) (im M x) = x. Proof. destruct x as [[l p] v]. unfold linear_image_coords. cbn. now rewrite !mapply_inv'. Qed.
Lemma param P Q e (s : K) : (e < length P)%nat -> poly_mul M P = Ok Q -> m (go (vertex P (r P e)) s (edge P (r P e))) = go (vertex Q e) (if mdet M <? 0 then 1 - s else s) (edge Q e).
Proof.
  intros Le HQ. pose proof (poly_mul_vertex M P Q e HQ Le) as W. cbv zeta in W. unfold go, edge. rewrite !Nat.add_1_r || idtac.
  destruct (mdet M <? 0); destruct W as [W1 W2]; rewrite ?W1, ?W2; destruct (vertex P (r P e)), (vertex P (Datatypes.S (r P e))); apply vec_eq; cbn; ring.
Qed.
Lemma line_conj l e P l' e' P' Q Q' F F' (s : K) : (e < length P)%nat -> (e' < length P')%nat -> poly_mul M P = Ok Q -> poly_mul M P' = Ok Q' ->
  glued_at D S l (r P e) P l' (r P' e') P' -> glued_at D T l e Q l' e' Q' -> gluing_map P (r P e) P' (r P' e') F -> gluing_map Q e Q' e' F' ->
  F' (m (go (vertex P (r P e)) s (edge P (r P e)))) = m (F (go (vertex P (r P e)) s (edge P (r P e)))).
Proof.
  intros Le Le' HQ HQ' G GT GM GM'. assert (A : F (go (vertex P (r P e)) s (edge P (r P e))) = go (vertex P' (r P' e')) (1 - s) (edge P' (r P' e'))) by exact (glued_param D S _ _ _ _ _ _ F s V G GM).
  assert (B : forall a, F' (go (vertex Q e) a (edge Q e)) = go (vertex Q' e') (1 - a) (edge Q' e')) by (intros a; exact (glued_param D T _ _ _ _ _ _ F' a T_valid GT GM')).
  rewrite A, (param P Q e), (param P' Q' e'), B by auto. destruct (mdet M <? 0); reflexivity.
Qed.
(** a vector that points into a polygon is only moved to another polygon if it is parallel to an edge *)
Lemma leaves_line (R : polygon K) e p v : proper R -> (e < length R)%nat -> points_into R p v -> leaves R e p v -> exists s c : K, 0 < s /\ s <= 1 /\ c < 0 /\
  p = go (vertex R e) s (edge R e) /\ v = vscale c (edge R e).
Proof.
  intros PR Le I LV. assert (R0 : same_ray (vopp (edge R e)) v).
  { destruct LV as [[E [X|X]]|[_ X]]; auto. apply (into_edge R PR e p v E) in I. exfalso. flra. }
  destruct R0 as [c [C0 Ev]]. assert (EV : v = vscale (- c) (edge R e)) by (rewrite Ev; destruct (edge R e); apply vec_eq; cbn; ring).
  destruct LV as [[E _]|[-> _]].
  - destruct (edge_point R PR e p Le E) as [s [S0 [S1 Ep]]]. exists s, (- c). split; auto. split; [flra|]. split; [flra|]. auto.
  - exists 1, (- c). split; [apply flt_0_1|]. split; [flra|]. split; [flra|]. split; auto. symmetry. apply go_end.
Qed.
Lemma line_sum (q d : vec K) (s c : K) : vadd (go q s d) (vscale c d) = go q (s + c) d.
Proof. unfold go. destruct q, d. apply vec_eq; cbn; ring. Qed.
Lemma moved_back l P p v u : D l -> s_poly S l = Ok P -> v <> vzero -> points_into P p v -> tangent_vector T l (m p) (m v) = Ok u -> tangent_equiv D S (l, p, v) (im (minv M) (raw u)).
Proof.
  intros Dl EP N I E. pose proof (PRS _ P Dl EP) as PR. pose proof (three _ P Dl EP) as N3. destruct (poly_mul_total M P (ne _ P Dl EP) Hd) as [Q HQ].
  assert (EQ : s_poly T l = Ok Q) by (cbn; rewrite EP; exact HQ). pose proof (T_proper l Q Dl EQ) as PRQ.
  assert (IQ : points_into Q (m p) (m v)) by now apply (im_into M P Q Hd N3 HQ).
  destruct (normal_cases Q PRQ (m p) (m v) (m_nz v N) (into_in Q PRQ _ _ IQ)) as [NM|[[e [Le LV]]|[_ X]]]; [| |contradiction].
  { rewrite (tangent_stay D T T_proper l Q) in E by auto. injection E as <-. unfold raw. cbn [tv_label tv_point tv_vector].
    change (tangent_equiv D S (l, p, v) (im (minv M) (im M (l, p, v)))). rewrite im_forth. apply rst_refl. }
  destruct (leaves_line Q e _ _ PRQ Le IQ LV) as [s [c [S0 [S1 [C0 [Ep Ev]]]]]].
  destruct (glue_ex D T T_valid T_closed l Q e Dl EQ Le) as [l' [e' [Q' G]]]. destruct (crossing D T T_valid _ _ _ _ _ _ G) as [f [Dl' [Le' [Ef [_ [GM' [_ [_ [_ [_ [AF _]]]]]]]]]]].
  destruct (tangent_move D T T_valid T_proper l e Q l' e' Q' _ _ f G Ef (m_nz v N) LV) as [T0 _]. rewrite E in T0. injection T0 as ->.
  destruct (glued_im' _ _ _ _ _ _ G) as [P1 [P' [HQ1 [HQ' [L1 [L1' G']]]]]]. assert (P1 = P) by (destruct G'; congruence). subst P1.
  destruct (gm_exists _ _ _ _ _ _ _ _ V G') as [F GM].
  assert (F1 : forall z, (exists a, m z = go (vertex Q e) a (edge Q e)) -> sim_apply f (m z) = m (F z)).
  { intros z [a Ez]. assert (Z : z = go (vertex P (r P e)) (if mdet M <? 0 then 1 - a else a) (edge P (r P e))).
    { apply m_inj. rewrite Ez, (param P Q e) by auto. destruct (mdet M <? 0); f_equal; ring. }
    rewrite Z. now apply (line_conj l e P l' e' P' Q Q'). }
  apply rst_step. exists (r P e), P, (r P' e'), P', F. unfold linear_image_coords, raw. cbn [fst snd tv_label tv_point tv_vector]. split; auto. split; auto.
  apply (pair_core e P Q F (sim_apply f) L1 HQ p v).
  - apply F1. eauto.
  - apply F1. exists (s + c). rewrite m_add, Ep, Ev. apply line_sum.
  - rewrite !mapply_inv by auto. split; [rewrite Ep; apply on_side; auto; flra|]. split; [|split; [reflexivity|symmetry; apply AF]].
    right. rewrite Ep, Ev. apply along_of; auto. flra.
Qed.
Lemma moved_forth l P p v t : D l -> s_poly S l = Ok P -> v <> vzero -> points_into P p v -> tangent_vector S l p v = Ok t -> tangent_equiv D T (im M (l, p, v)) (im M (raw t)).
Proof.
  intros Dl EP N I E. pose proof (PRS _ P Dl EP) as PR. pose proof (three _ P Dl EP) as N3.
  destruct (normal_cases P PR p v N (into_in P PR _ _ I)) as [NM|[[e [Le LV]]|[_ X]]]; [| |contradiction].
  { rewrite (tangent_stay D S PRS l P) in E by auto. injection E as <-. apply rst_refl. }
  destruct (leaves_line P e _ _ PR Le I LV) as [s [c [S0 [S1 [C0 [Ep Ev]]]]]].
  destruct (glue_ex D S V C l P e Dl EP Le) as [l' [e' [P' G]]]. destruct (crossing D S V _ _ _ _ _ _ G) as [f [Dl' [Le' [Ef [_ [GM [_ [_ [_ [_ [AF _]]]]]]]]]]].
  destruct (tangent_move D S V PRS l e P l' e' P' _ _ f G Ef N LV) as [T0 _]. rewrite E in T0. injection T0 as ->.
  destruct (glued_im _ _ _ _ _ _ G) as [Q [Q' [HQ [HQ' G']]]]. destruct (gm_exists _ _ _ _ _ _ _ _ T_valid G') as [F' GM'].
  pose proof (ridx_lt M _ _ Le) as L1. pose proof (ridx_lt M _ _ Le') as L1'.
  assert (F1 : forall a, F' (m (go (vertex P e) a (edge P e))) = m (sim_apply f (go (vertex P e) a (edge P e)))).
  { intros a. pose proof (line_conj l (r P e) P l' (r P' e') P' Q Q' (sim_apply f) F' a L1 L1' HQ HQ') as LC. rewrite !ridx_ridx in LC by auto. now apply LC. }
  apply rst_step. exists (r P e), Q, (r P' e'), Q', F'. unfold linear_image_coords, raw. cbn [fst snd tv_label tv_point tv_vector]. split; auto. split; auto.
  apply (pair_core (r P e) P Q (sim_apply f) F' L1 HQ p v).
  - rewrite Ep. apply F1.
  - rewrite Ep, Ev, line_sum. apply F1.
  - rewrite ridx_ridx by auto. split; [rewrite Ep; apply on_side; auto; flra|]. split; [|split; [reflexivity|symmetry; apply AF]].
    right. rewrite Ep, Ev. apply along_of; auto. flra.
Qed.
Lemma accept (S' : surface K L) (V' : valid D S') (C' : closed D S') (PR' : forall l P, D l -> s_poly S' l = Ok P -> proper P) l P p v : D l -> s_poly S' l = Ok P -> v <> vzero -> points_into P p v -> in_polygon P p ->
  exists t, tangent_vector S' l p v = Ok t /\ tv_ok D S' t /\ tangent_equiv D S' (l, p, v) (raw t).
Proof.
  intros Dl Pl N I I'. destruct (tangent_result D S' V' C' PR' l P p v Dl Pl N I') as [t [E [O X]]]; auto. exists t. split; auto. split; auto.
  destruct X as [<-|X]; [apply rst_refl|now apply rst_step].
Qed.
Lemma push_ok t : tv_ok D S t -> exists u, tangent_vector T (tv_label t) (m (tv_point t)) (m (tv_vector t)) = Ok u /\ tv_ok D T u /\
  tangent_equiv D T (im M (raw t)) (raw u) /\ tangent_vector S (tv_label u) (mapply (minv M) (tv_point u)) (mapply (minv M) (tv_vector u)) = Ok t.
Proof.
  intros O. pose proof O as [Dl [P [EP [_ [N I _]]]]]. pose proof (PRS _ P Dl EP) as PR. pose proof (three _ P Dl EP) as N3. destruct (poly_mul_total M P (ne _ P Dl EP) Hd) as [Q HQ].
  assert (EQ : s_poly T (tv_label t) = Ok Q) by (cbn; rewrite EP; exact HQ).
  destruct (accept T T_valid T_closed T_proper _ Q (m (tv_point t)) (m (tv_vector t)) Dl EQ (m_nz _ N)) as [u [E [OU EU]]].
  { now apply (im_into M P Q Hd N3 HQ). } { apply (im_in M P Q Hd N3 HQ); auto. apply (into_in P PR (tv_point t) (tv_vector t)); auto. }
  exists u. split; auto. split; auto. split; auto. pose proof OU as [Dl' [Q' [EQ' [_ [N' I' _]]]]]. destruct (T_poly _ _ Dl' EQ') as [P' [EP' HQ']].
  pose proof (PRS _ P' Dl' EP') as PR'. pose proof (three _ P' Dl' EP') as N3'.
  assert (IN : points_into P' (mapply (minv M) (tv_point u)) (mapply (minv M) (tv_vector u))) by (apply (im_into M P' Q' Hd N3' HQ'); auto; now rewrite !mapply_inv).
  assert (NZ : mapply (minv M) (tv_vector u) <> vzero).
  { intros Z. apply N'. rewrite <- (mapply_inv M (tv_vector u)), Z by auto. apply vec_eq; cbn; ring. }
  destruct (accept S V C PRS _ P' _ _ Dl' EP' NZ IN) as [t' [E' [OT ET]]]; [now apply (into_in P' PR' _ (mapply (minv M) (tv_vector u)))|].
  rewrite E'. f_equal. symmetry. apply (equiv_unique D S V PRS); auto. apply rst_trans with (y := im (minv M) (raw u)); [|exact ET].
  apply (moved_back _ P _ _ u Dl EP); auto.
Qed.
Lemma pull_ok u : tv_ok D T u -> exists t, tangent_vector S (tv_label u) (mapply (minv M) (tv_point u)) (mapply (minv M) (tv_vector u)) = Ok t /\ tv_ok D S t /\
  tangent_vector T (tv_label t) (m (tv_point t)) (m (tv_vector t)) = Ok u.
Proof.
  intros OU. pose proof OU as [Dl' [Q' [EQ' [_ [N' I' _]]]]]. destruct (T_poly _ _ Dl' EQ') as [P' [EP' HQ']].
  pose proof (PRS _ P' Dl' EP') as PR'. pose proof (three _ P' Dl' EP') as N3'.
  assert (IN : points_into P' (mapply (minv M) (tv_point u)) (mapply (minv M) (tv_vector u))) by (apply (im_into M P' Q' Hd N3' HQ'); auto; now rewrite !mapply_inv).
  assert (NZ : mapply (minv M) (tv_vector u) <> vzero).
  { intros Z. apply N'. rewrite <- (mapply_inv M (tv_vector u)), Z by auto. apply vec_eq; cbn; ring. }
  destruct (accept S V C PRS _ P' _ _ Dl' EP' NZ IN) as [t [E' [OT ET]]]; [now apply (into_in P' PR' _ (mapply (minv M) (tv_vector u)))|].
  exists t. split; auto. split; auto. destruct (push_ok t OT) as [u' [E [OU' [EU _]]]]. rewrite E. f_equal. apply (equiv_unique D T T_valid T_proper); auto.
  apply rst_sym. apply rst_trans with (y := im M (raw t)); [|exact EU]. rewrite <- (im_back (raw u)). apply (moved_forth _ P' _ _ t Dl' EP'); auto.
Qed.
(** *** maps that preserve the orientation *)
Lemma pos_normal P Q p v : 0 < mdet M -> proper P -> poly_mul M P = Ok Q -> normal Q (m p) (m v) <-> normal P p v.
Proof.
  intros Pos PR HQ. pose proof (proj1 PR) as N3. assert (HP : P <> nil) by (intros E; rewrite E in N3; cbn in N3; lia).
  assert (NEG : (mdet M <? 0) = false) by (apply fltb_false; flra). assert (RI : forall e, r P e = e) by (intros e; unfold ridx; now rewrite NEG).
  assert (CW : clockwise Q (m p) (m v) <-> clockwise P p v).
  { split; intros [e [c [Le [A [C0 E]]]]]; exists e, c.
    - rewrite (im_len M P Q N3 HQ) in Le. split; auto. rewrite <- (RI e) in A at 1. apply (im_along M P Q Hd HQ) in A; auto. split; auto. split; auto.
      apply m_inj. rewrite E, (edge_mul_pos M P Q e HP Pos HQ). destruct (edge P e). apply vec_eq; cbn; ring.
    - rewrite (im_len M P Q N3 HQ). split; auto. split; [|split; auto].
      + rewrite <- (RI e) at 1. now apply (im_along M P Q Hd HQ).
      + rewrite E, (edge_mul_pos M P Q e HP Pos HQ). destruct (edge P e). apply vec_eq; cbn; ring. }
  pose proof (im_into M P Q Hd N3 HQ p v PR) as I. split; intros [A B E]; constructor; try tauto.
  - intros Z. apply A. rewrite Z. apply vec_eq; cbn; ring.
  - now apply m_nz.
Qed.
Lemma push_pos t P : 0 < mdet M -> tv_ok D S t -> s_poly S (tv_label t) = Ok P -> exists Q, poly_mul M P = Ok Q /\
  tangent_vector T (tv_label t) (m (tv_point t)) (m (tv_vector t)) = Ok (TVec (tv_label t) (m (tv_point t)) (m (tv_vector t)) (get_point_position Q (m (tv_point t)))).
Proof.
  intros Pos [Dl [P0 [EP [_ N]]]] EP'. rewrite EP in EP'. injection EP' as ->. destruct (poly_mul_total M P (ne _ P Dl EP) Hd) as [Q HQ]. exists Q. split; auto.
  apply (tangent_stay D T T_proper); auto; [cbn; rewrite EP; exact HQ|]. apply (pos_normal P Q); auto. eapply PRS; eauto.
Qed.
Context (DIL : all_gluings D S map_dilation).
Lemma conj_maps l e P l' e' P' Q Q' F F' : (e < length P)%nat -> (e' < length P')%nat -> poly_mul M P = Ok Q -> poly_mul M P' = Ok Q' ->
  glued_at D S l (r P e) P l' (r P' e') P' -> glued_at D T l e Q l' e' Q' -> gluing_map P (r P e) P' (r P' e') F -> gluing_map Q e Q' e' F' -> forall p, F' (m p) = m (F p).
Proof.
  intros Le Le' HQ HQ' G GT GM GM' p. destruct (DIL _ _ _ _ _ _ _ G GM) as [c [u [Nc HF]]].
  rewrite (gm_unique D T _ _ _ _ _ _ _ _ T_valid GT GM' (affine_im e P e' P' Q Q' F Le Le' HQ HQ' c u Nc GM HF)). now rewrite HF, mapply_affine.
Qed.
Lemma im_dilation : all_gluings D T map_dilation.
Proof.
  intros l e Q l' e' Q' F' G GM'. destruct (glued_im' _ _ _ _ _ _ G) as [P [P' [HQ [HQ' [Le [Le' G']]]]]]. destruct (gm_exists _ _ _ _ _ _ _ _ V G') as [F GM].
  destruct (DIL _ _ _ _ _ _ _ G' GM) as [c [u [Nc HF]]]. exists c, (m u). split; auto. intros p.
  exact (gm_unique D T _ _ _ _ _ _ _ _ T_valid G GM' (affine_im e P e' P' Q Q' F Le Le' HQ HQ' c u Nc GM HF) p).
Qed.
Lemma same_im x y : same_tangent D T (im M x) (im M y) <-> same_tangent D S x y.
Proof.
  destruct x as [[l p] v], y as [[l' q] w]. unfold linear_image_coords, same_tangent. cbn [fst snd]. split.
  - intros [e [Q [e' [Q' [F' [G [GM' [O [A [E1 E2]]]]]]]]]]. destruct (glued_im' _ _ _ _ _ _ G) as [P [P' [HQ [HQ' [Le [Le' G']]]]]]. destruct (gm_exists _ _ _ _ _ _ _ _ V G') as [F GM].
    pose proof (conj_maps _ _ _ _ _ _ _ _ F F' Le Le' HQ HQ' G' G GM GM') as FF. exists (r P e), P, (r P' e'), P', F. split; auto. split; auto.
    apply (pair_core e P Q F F' Le HQ p v q w (FF _) (FF _)). auto.
  - intros [e [P [e' [P' [F [G [GM [O [A [E1 E2]]]]]]]]]]. destruct (glued_im _ _ _ _ _ _ G) as [Q [Q' [HQ [HQ' G']]]]. destruct (gm_exists _ _ _ _ _ _ _ _ T_valid G') as [F' GM'].
    pose proof (ga_edge _ _ _ _ _ _ _ _ G) as Le. destruct (glued_partner _ _ _ _ _ _ _ _ V G) as [_ [Le' _]].
    assert (FF : forall z, F' (m z) = m (F z)).
    { apply (conj_maps l (r P e) P l' (r P' e') P' Q Q' F F'); auto; rewrite ?ridx_ridx; auto; now apply ridx_lt. }
    exists (r P e), Q, (r P' e'), Q', F'. split; auto. split; auto. apply (pair_core (r P e) P Q F F' (ridx_lt M _ _ Le) HQ p v q w (FF _) (FF _)). rewrite ridx_ridx by auto. auto.
Qed.
Lemma equiv_forth x y : tangent_equiv D S x y -> tangent_equiv D T (im M x) (im M y).
Proof. induction 1; [apply rst_step; now apply same_im|apply rst_refl|now apply rst_sym|eapply rst_trans; eauto]. Qed.
Lemma equiv_back x y : tangent_equiv D T x y -> tangent_equiv D S (im (minv M) x) (im (minv M) y).
Proof. induction 1; [apply rst_step; apply same_im; now rewrite !im_back|apply rst_refl|now apply rst_sym|eapply rst_trans; eauto]. Qed.

(** on dilation surfaces all descriptions of a tangent vector have the same image *)
Lemma push_natural l p v t : D l -> tangent_vector S l p v = Ok t -> exists u, tangent_vector T l (m p) (m v) = Ok u /\
  tangent_vector T (tv_label t) (m (tv_point t)) (m (tv_vector t)) = Ok u.
Proof.
  intros Dl E. destruct (C59_result K L D S V C PRS l p v t Dl E) as [O EQ]. destruct (push_ok t O) as [u [E1 [OU [EU _]]]]. exists u. split; auto.
  destruct (v_poly _ _ V l Dl) as [P [EP _]]. pose proof (three _ P Dl EP) as N3. pose proof (PRS _ P Dl EP) as PR. destruct (poly_mul_total M P (ne _ P Dl EP) Hd) as [Q HQ].
  assert (ET : s_poly T l = Ok Q) by (cbn; rewrite EP; exact HQ).
  destruct (proj1 (proj1 (C59_accepted K L D S V C PRS l P p v Dl EP))) as [N [I W]]; [eauto|].
  destruct (proj2 (proj1 (C59_accepted K L D T T_valid T_closed T_proper l Q (m p) (m v) Dl ET))) as [u' E2].
  { split; [now apply m_nz|]. split; [now apply (im_in M P Q Hd N3 HQ)|]. intros [k Ek]. apply (im_into M P Q Hd N3 HQ); auto. apply W.
    destruct (im_vertex M P Q N3 HQ k) as [j [_ Ej]]. exists j. apply m_inj. congruence. }
  rewrite E2. f_equal. destruct (C59_result K L D T T_valid T_closed T_proper l _ _ u' Dl E2) as [OU' EU']. apply (equiv_unique D T T_valid T_proper); auto.
  apply rst_trans with (y := im M (l, p, v)); [apply rst_sym; exact EU'|]. apply rst_trans with (y := im M (raw t)); [now apply equiv_forth|exact EU].
Qed.
End C.
