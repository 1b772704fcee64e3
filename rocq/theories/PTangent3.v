(** Segments of straight line trajectories. *)
From Coq Require Import List Bool ZArith Arith Lia Ring Field Relations.
From Verif Require Import OField FMicromega PField MBase MDict MMut SMut MEuclid SEuclid PEuclid MSim SSim PSim MPoly PPoly PTurn SPoint PPoint MSurf SSurf PSurf PSurf3 PDelaunay PPoint2 PPoint3 SCut PJordan PJordan2 PJordan3 PJordan4 PJordan5 PConvex PEar2 PEar5 PPos PPos2 TPos PLocal PLocal2 MTangent PExit STangent PInward PTangent PTangent2.
Import ListNotations.

Section C.
Context {K : OField}.
Add Field KF : (of_ft K).
Local Open Scope F_scope.
Implicit Types (P : polygon K) (p x v : vec K).
Context {L : Type} `{EqB L}.
Context (D : L -> Prop) (S : surface K L) (V : valid D S) (C : closed D S) (PRS : forall l P, D l -> s_poly S l = Ok P -> proper P).
Notation tvec := (tvec K L).
Implicit Types (t u : tvec).

Lemma glue_ex l P e : D l -> s_poly S l = Ok P -> (e < length P)%nat -> exists l' e' P', glued_at D S l e P l' e' P'.
Proof.
  intros Dl GP Le. destruct (v_opp _ _ V l P e Dl GP Le) as [X|[l' [e' [P' [X [Dl' [GP' _]]]]]]]; [now apply (C l P e Dl GP Le) in X|].
  exists l', e', P'. constructor; auto.
Qed.
(** *** the constructor *)
Lemma tangent_result l P p v : D l -> s_poly S l = Ok P -> v <> vzero -> in_polygon P p -> (forall k, p = vertex P k -> points_into P p v) ->
  exists t, tangent_vector S l p v = Ok t /\ tv_ok D S t /\ ((l, p, v) = raw t \/ same_tangent D S (l, p, v) (raw t)).
Proof.
  intros Dl GP N I W. pose proof (PRS l P Dl GP) as PR. destruct (normal_cases P PR p v N I) as [NM|[[e [Le LV]]|[[k [Lk E]] NP]]].
  - eexists. split; [now apply (tangent_stay D S PRS l P)|]. split; [|now left]. split; auto. exists P. cbn. auto.
  - destruct (glue_ex l P e Dl GP Le) as [l' [e' [P' G]]]. destruct (crossing D S V _ _ _ _ _ _ G) as [f [Dl' [Le' [Ef _]]]].
    destruct (tangent_move D S V PRS l e P l' e' P' p v f G Ef N LV) as [T [E NM]]. eexists. split; [exact T|]. split.
    + split; [exact Dl'|]. exists P'. cbn. split; [apply G|auto].
    + right. unfold raw. cbn. apply (leaves_same D S V PRS l e P l' e' P'); auto.
  - exfalso. apply NP. now apply (W k).
Qed.
Lemma tangent_reject l P p v : D l -> s_poly S l = Ok P -> v <> vzero -> (~ in_polygon P p \/ (exists k, p = vertex P k) /\ ~ points_into P p v) ->
  tangent_vector S l p v = Err ValueError.
Proof.
  intros Dl GP N W. pose proof (PRS l P Dl GP) as PR. unfold tangent_vector. rewrite GP. cbn [bind].
  assert (E : veqb v vzero = false) by now apply veqb_neq. rewrite E. destruct W as [W|[[k ->] W]].
  - unfold in_polygon in W. destruct (get_point_position P p); auto; exfalso; apply W; discriminate.
  - rewrite (at_vertex' P PR). destruct PR as [N3 _]. set (k' := (k mod length P)%nat). assert (Lk : (k' < length P)%nat) by (apply Nat.mod_upper_bound; lia).
    rewrite (prev_test P k' Lk). rewrite <- (vertex_mod P k) in W. fold k' in W. rewrite into_vertex in W by (auto; eapply PRS; eauto).
    destruct (is_between (prev_edge P k') (edge P k') v); [reflexivity|exfalso; now apply W].
Qed.
Lemma tangent_error l P p v e : D l -> s_poly S l = Ok P -> tangent_vector S l p v = Err e ->
  (e = NotImplementedError /\ v = vzero) \/ (e = ValueError /\ v <> vzero /\ (~ in_polygon P p \/ (exists k, p = vertex P k) /\ ~ points_into P p v)).
Proof.
  intros Dl GP E. destruct (vec_dec v vzero) as [->|N]; [left; rewrite (tangent_zero S l P) in E by auto; injection E as <-; auto|right].
  pose proof (PRS l P Dl GP) as PR. assert (W : ~ in_polygon P p \/ (exists k, p = vertex P k) /\ ~ points_into P p v).
  { assert (I : in_polygon P p \/ ~ in_polygon P p) by (unfold in_polygon; destruct (get_point_position P p); auto; left; discriminate).
    destruct I as [I|I]; auto. destruct (normal_cases P PR p v N I) as [NM|[[e' [Le LV]]|[[k [Lk E']] NP]]].
    - rewrite (tangent_stay D S PRS l P) in E; auto. discriminate.
    - destruct (glue_ex l P e' Dl GP Le) as [l2 [e2 [P2 G]]]. destruct (crossing D S V _ _ _ _ _ _ G) as [f [Dl' [Le' [Ef _]]]].
      destruct (tangent_move D S V PRS l e' P l2 e2 P2 p v f G Ef N LV) as [T _]. rewrite T in E. discriminate.
    - right. split; [now exists k|auto]. }
  split; auto. rewrite (tangent_reject l P p v Dl GP N W) in E. now injection E.
Qed.
Lemma tangent_ok_result l p v t : D l -> tangent_vector S l p v = Ok t -> tv_ok D S t /\ v <> vzero /\ ((l, p, v) = raw t \/ same_tangent D S (l, p, v) (raw t)).
Proof.
  intros Dl E. destruct (v_poly _ _ V l Dl) as [P [GP _]]. destruct (vec_dec v vzero) as [->|N]; [rewrite (tangent_zero S l P) in E by auto; discriminate|].
  pose proof (PRS l P Dl GP) as PR. assert (I : in_polygon P p \/ ~ in_polygon P p) by (unfold in_polygon; destruct (get_point_position P p); auto; left; discriminate).
  destruct I as [I|I]; [|rewrite (tangent_reject l P) in E; auto; discriminate].
  assert (W : forall k, p = vertex P k -> points_into P p v).
  { intros k Ek. destruct (normal_cases P PR p v N I) as [[_ NM _]|[[e' [Le LV]]|W]]; auto; [|rewrite (tangent_reject l P) in E; auto; [discriminate|right; destruct W as [[j [_ W1]] W2]; split; auto; now exists j]].
    destruct LV as [[X _]|[X R]]; [rewrite Ek, (at_vertex' P PR) in X; discriminate|]. rewrite X.
    set (k' := (Datatypes.S e' mod length P)%nat). assert (Lk : (k' < length P)%nat) by (apply Nat.mod_upper_bound; lia). rewrite <- (vertex_mod P (Datatypes.S e')). fold k'.
    apply into_vertex; auto. assert (Ek' : ((k' + length P - 1) mod length P)%nat = e') by now apply succ_pred.
    apply between_ray_l; [rewrite <- (prev_test P k' Lk), Ek'; exact R|now apply prev_nz|now apply edge_nz|]. intros Z. now apply (not_back P PR k' Lk), same_ray_sym. }
  destruct (tangent_result l P p v Dl GP N I W) as [t' [E' [O X]]]. rewrite E in E'. injection E' as <-. auto.
Qed.

(** *** rebuilding a tangent vector *)
Lemma tv_eta t : t = TVec (tv_label t) (tv_point t) (tv_vector t) (tv_position t). Proof. now destruct t. Qed.
Lemma tv_rebuild t : tv_ok D S t -> tangent_vector S (tv_label t) (tv_point t) (tv_vector t) = Ok t.
Proof. intros [Dl [P [GP [E N]]]]. rewrite (tangent_stay D S PRS _ P); auto. now rewrite <- E, <- tv_eta. Qed.
Lemma tv_raw t u : tv_ok D S t -> tv_ok D S u -> raw t = raw u -> t = u.
Proof.
  intros A B E. injection E as E1 E2 E3. pose proof (tv_rebuild t A) as X. rewrite E1, E2, E3 in X. rewrite (tv_rebuild u B) in X. now injection X.
Qed.

(** *** inversion *)
Lemma invert_ok t : tv_ok D S t -> is_based_at_singularity t = false -> exists u, tv_invert S t = Ok u /\ tv_ok D S u /\ is_based_at_singularity u = false /\ tv_invert S u = Ok t /\
  tangent_equiv D S (tv_label t, tv_point t, vopp (tv_vector t)) (raw u).
Proof.
  intros [Dl [P [GP [E N]]]] NS. pose proof (PRS _ P Dl GP) as PR. pose proof N as [N1 N2 N3]. destruct t as [l p v pos]. cbn [tv_label tv_point tv_vector tv_position] in *.
  unfold is_based_at_singularity in NS. cbn [tv_position] in NS. pose proof (opp_nz v N1) as N'. subst pos. unfold tv_invert at 1. unfold is_based_at_singularity at 1. cbn [tv_label tv_point tv_vector tv_position].
  destruct (get_point_position P p) as [| |e|k] eqn:H0; try discriminate.
  - exfalso. now apply (into_in P PR p v).
  - assert (NM : normal P p (vopp v)) by (constructor; auto; [now apply into_interior|apply clock_off; auto]).
    exists (TVec l p (vopp v) Interior). rewrite (tangent_stay D S PRS l P), H0 by auto. split; auto. split; [split; auto; exists P; cbn; auto|]. split; auto. split; [|apply rst_refl].
    unfold tv_invert, is_based_at_singularity. cbn. rewrite opp_opp. rewrite (tangent_stay D S PRS l P), H0 by auto. reflexivity.
  - pose proof (edge_lt P PR e p H0) as Le. apply (into_edge P PR e) in N2; auto. rewrite (clock_edgepoint P PR e) in N3 by auto.
    assert (EX : leaves P e p (vopp v)).
    { left. split; auto. assert (X : ccw (edge P e) (vopp v) = - ccw (edge P e) v) by (unfold ccw; destruct (edge P e), v; cbn; ring). rewrite X.
      destruct (flt_total (ccw (edge P e) v)) as [Z|[Z|Z]]; [flra| |left; flra]. right. destruct (ray_dec (edge P e) v) as [R|R]; auto; [now apply edge_nz|now apply opp_ray|].
      exfalso. destruct (collinear (edge P e) v) as [c [C0 C1]]; auto; [now apply edge_nz|]. apply N3. exists c. split; auto. rewrite C1. destruct (edge P e); apply vec_eq; cbn; ring. }
    destruct (glue_ex l P e Dl GP Le) as [l' [e' [P' G]]]. destruct (crossing D S V _ _ _ _ _ _ G) as [f [Dl' [Le' [Ef [Ei [M [PA [ED [SC [_ [AF [IP IV]]]]]]]]]]]].
    destruct (tangent_move D S V PRS l e P l' e' P' p (vopp v) f G Ef N' EX) as [T [EN NM]]. rewrite T. eexists. split; [reflexivity|]. destruct (glued_proper D S V PRS _ _ _ _ _ _ G) as [_ PR'].
    assert (HP : get_point_position P' (sim_apply f p) = EdgeInterior e').
    { destruct (edge_point P PR e p Le H0) as [s [S0 [S1 ->]]]. rewrite PA. apply at_edge; auto; flra. }
    split; [split; [exact Dl'|]; exists P'; cbn; split; [apply G|auto]|]. rewrite HP. split; auto. split; [|apply rst_step; unfold raw; cbn; apply (leaves_same D S V PRS l e P l' e' P'); auto].
    unfold tv_invert, is_based_at_singularity. cbn. pose proof (glued_sym _ _ _ _ _ _ _ _ V G) as G'. rewrite <- m_opp, opp_opp.
    assert (NN : mapply (sim_derivative f) v <> vzero) by now apply (m_nz D S V l e P l' e' P').
    assert (LV : leaves P' e' (sim_apply f p) (mapply (sim_derivative f) v)).
    { apply (leaves_enters D S V PRS l' e' P' l e P (sim_inv f) G' Ei); auto. rewrite IP, IV. left. auto. }
    destruct (tangent_move D S V PRS l' e' P' l e P _ _ _ G' Ei NN LV) as [T' _]. rewrite IP, IV, H0 in T'. exact T'.
Qed.

(** *** forward_to_polygon_boundary *)
Lemma forward_cross l P p v pos (b : K) : D l -> s_poly S l = Ok P -> v <> vzero -> crosses P p v b ->
  forward_to_polygon_boundary S (TVec l p v pos) = Ok (TVec l (go p b v) (vopp v) (get_point_position P (go p b v))) /\
  tv_ok D S (TVec l (go p b v) (vopp v) (get_point_position P (go p b v))).
Proof.
  intros Dl GP N X. pose proof (PRS _ P Dl GP) as PR. unfold forward_to_polygon_boundary. cbn [tv_label tv_point tv_vector]. rewrite GP. cbn [bind].
  rewrite (crosses_exit P PR p v b N X). cbn [bind fst]. pose proof (back_normal P PR p v b N X) as NB. rewrite (tangent_stay D S PRS l P) by auto. split; auto.
  split; auto. exists P. cbn. auto.
Qed.
Lemma forward_follow l P e p v pos l' e' P' f : glued_at D S l e P l' e' P' -> edge_transformation S l e = Ok f -> v <> vzero -> follows P e p v ->
  forward_to_polygon_boundary S (TVec l p v pos) = Ok (TVec l' (vertex P' e') (mapply (sim_derivative f) (vopp v)) (AtVertex e')) /\
  tv_ok D S (TVec l' (vertex P' e') (mapply (sim_derivative f) (vopp v)) (AtVertex e')) /\
  follows P' e' (vertex P' e') (mapply (sim_derivative f) (vopp v)).
Proof.
  intros G Ef N F. destruct (glued_proper D S V PRS _ _ _ _ _ _ G) as [PR PR']. unfold forward_to_polygon_boundary. cbn [tv_label tv_point tv_vector]. rewrite (ga_poly _ _ _ _ _ _ _ _ G). cbn [bind].
  destruct (follows_exit P PR e p v N F) as [E _]. rewrite E. cbn [bind fst]. destruct F as [Le [R [s [S0 [S1 Es]]]]]. pose proof (opp_nz v N) as N'.
  assert (LV : leaves P e (vertex P (Datatypes.S e)) (vopp v)) by (right; split; auto; now apply opp_ray).
  destruct (crossing D S V _ _ _ _ _ _ G) as [f' [Dl' [Le' [Ef' [Ei [M [PA [ED [SC [_ [AF [IP IV]]]]]]]]]]]]. rewrite Ef in Ef'. injection Ef' as <-.
  assert (EV : sim_apply f (vertex P (Datatypes.S e)) = vertex P' e') by (destruct M; auto).
  destruct (tangent_move D S V PRS l e P l' e' P' _ (vopp v) f G Ef N' LV) as [T [EN NM]]. rewrite EV in *. rewrite T, (at_vertex P' PR') by auto. split; auto. split.
  - split; [exact Dl'|]. exists P'. cbn. split; [apply G|]. split; auto. now rewrite (at_vertex P' PR').
  - split; auto. split; [|exists 0; split; [flra|]; split; [apply flt_0_1|symmetry; apply go_start]].
    replace (edge P' e') with (mapply (sim_derivative f) (vopp (edge P e))) by (rewrite m_opp, ED; apply opp_opp). apply (m_ray D S V l e P l' e' P'); auto. now apply opp_ray.
Qed.

(** *** segments *)
(** The two possibilities for the segment through [t]: it crosses the interior, or it is an edge. *)
Inductive seg_form t (s : segment K L) : Prop :=
| seg_crossing P a b : s_poly S (tv_label t) = Ok P -> a <= 0 -> 0 < b ->
    crosses P (go (tv_point t) a (tv_vector t)) (tv_vector t) (b - a) -> bound P (go (tv_point t) a (tv_vector t)) ->
    (bound P (tv_point t) -> a = 0) ->
    sg_start s = TVec (tv_label t) (go (tv_point t) a (tv_vector t)) (tv_vector t) (get_point_position P (go (tv_point t) a (tv_vector t))) ->
    sg_end s = TVec (tv_label t) (go (tv_point t) b (tv_vector t)) (vopp (tv_vector t)) (get_point_position P (go (tv_point t) b (tv_vector t))) -> seg_form t s
| seg_edge P e l' e' P' f : glued_at D S (tv_label t) e P l' e' P' -> edge_transformation S (tv_label t) e = Ok f -> follows P e (tv_point t) (tv_vector t) ->
    sg_start s = TVec (tv_label t) (vertex P e) (tv_vector t) (AtVertex e) ->
    sg_end s = TVec l' (vertex P' e') (mapply (sim_derivative f) (vopp (tv_vector t))) (AtVertex e') -> seg_form t s.

Lemma segment_ok t : tv_ok D S t -> exists s, segment_of S t = Ok s /\ seg_form t s /\ tv_ok D S (sg_start s) /\ tv_ok D S (sg_end s) /\
  forward_to_polygon_boundary S (sg_start s) = Ok (sg_end s) /\ forward_to_polygon_boundary S (sg_end s) = Ok (sg_start s).
Proof.
  intros [Dl [P [GP [E NM]]]]. pose proof NM as [N _ _]. pose proof (PRS _ P Dl GP) as PR. destruct t as [l p v pos]. cbn [tv_label tv_point tv_vector tv_position] in *.
  destruct (walk_cases P PR p v NM) as [[b X]|[e F]].
  - destruct (forward_cross l P p v pos b Dl GP N X) as [F1 O1]. destruct (crosses_max P PR p v b N X) as [a [A [X1 [X2 AB]]]]. pose proof X as [B0 _].
    destruct (forward_cross l P (go p b v) (vopp v) (get_point_position P (go p b v)) (b - a) Dl GP (opp_nz v N) X1) as [F2 O2].
    assert (EP : go (go p b v) (b - a) (vopp v) = go p a v) by (rewrite go_opp, go_go; f_equal; ring). rewrite EP, opp_opp in F2, O2.
    destruct (forward_cross l P (go p a v) v (get_point_position P (go p a v)) (b - a) Dl GP N X2) as [F3 O3].
    assert (EQ : go (go p a v) (b - a) v = go p b v) by (rewrite go_go; f_equal; ring). rewrite EQ in F3, O3.
    exists (Segment (TVec l (go p a v) v (get_point_position P (go p a v))) (TVec l (go p b v) (vopp v) (get_point_position P (go p b v)))).
    split; [unfold segment_of; rewrite F1; cbn [bind]; rewrite F2; reflexivity|]. split; [|cbn [sg_start sg_end]; auto].
    apply (seg_crossing _ _ P a b); cbn [tv_label tv_point tv_vector sg_start sg_end]; auto. pose proof X1 as [_ [_ BB]]. now rewrite EP in BB.
  - pose proof F as [Le _]. destruct (glue_ex l P e Dl GP Le) as [l' [e' [P' G]]]. destruct (crossing D S V _ _ _ _ _ _ G) as [f [Dl' [Le' [Ef [Ei [M [PA [ED [SC [_ [AF [IP IV]]]]]]]]]]]].
    pose proof (glued_sym _ _ _ _ _ _ _ _ V G) as G'. destruct (forward_follow l P e p v pos l' e' P' f G Ef N F) as [F1 [O1 FO1]].
    assert (NN : mapply (sim_derivative f) (vopp v) <> vzero) by (apply (m_nz D S V l e P l' e' P' f G Ef); now apply opp_nz).
    destruct (forward_follow l' P' e' _ _ (AtVertex e') l e P (sim_inv f) G' Ei NN FO1) as [F2 [O2 FO2]]. rewrite <- m_opp, opp_opp, IV in F2, O2, FO2.
    destruct (forward_follow l P e (vertex P e) v (AtVertex e) l' e' P' f G Ef N FO2) as [F3 _].
    exists (Segment (TVec l (vertex P e) v (AtVertex e)) (TVec l' (vertex P' e') (mapply (sim_derivative f) (vopp v)) (AtVertex e'))).
    split; [unfold segment_of; rewrite F1; cbn [bind]; rewrite F2; reflexivity|]. split; [|cbn [sg_start sg_end]; auto].
    apply (seg_edge _ _ P e l' e' P' f); auto.
Qed.
Definition is_segment (s : segment K L) := exists t, tv_ok D S t /\ segment_of S t = Ok s.
Lemma segment_facts s : is_segment s -> tv_ok D S (sg_start s) /\ tv_ok D S (sg_end s) /\ segment_of S (sg_start s) = Ok s /\ segment_of S (sg_end s) = Ok (sg_invert s).
Proof.
  intros [t [O E]]. destruct (segment_ok t O) as [s' [E' [F [O1 [O2 [F1 F2]]]]]]. rewrite E in E'. injection E' as <-. split; auto. split; auto. unfold segment_of.
  split; [rewrite F1; cbn [bind]; rewrite F2; now destruct s|]. rewrite F2; cbn [bind]; rewrite F1. now destruct s.
Qed.
Lemma invert_segment s : is_segment s -> is_segment (sg_invert s).
Proof. intros I. destruct (segment_facts s I) as [A [B [X Y]]]. now exists (sg_end s). Qed.
(** the segment that continues another one starts where this one ends *)
Lemma next_start s u : is_segment s -> is_based_at_singularity (sg_end s) = false -> tv_invert S (sg_end s) = Ok u -> exists s', segment_of S u = Ok s' /\ is_segment s' /\ sg_start s' = u.
Proof.
  intros [t [O E]] NS IU. destruct (segment_ok t O) as [s' [E' [F [O1 [O2 [F1 F2]]]]]]. rewrite E in E'. injection E' as <-.
  destruct (invert_ok (sg_end s) O2 NS) as [u' [IU' [Ou [NSu [IIu EQ]]]]]. rewrite IU in IU'. injection IU' as <-.
  destruct (segment_ok u Ou) as [s' [Es [F' [O1' [O2' _]]]]]. exists s'. split; auto. split; [now exists u|]. apply tv_raw; auto.
  destruct O as [Dl [P0 [GP0 [_ [N _ _]]]]].
  destruct F as [P a b GP A0 B0 X BA AB ES EE|P e l' e' P' f G Ef FO ES EE]; [|exfalso; rewrite EE in NS; discriminate].
  rewrite GP in GP0. injection GP0 as <-. pose proof (PRS _ P Dl GP) as PR.
  destruct t as [l p v pos]. cbn [tv_label tv_point tv_vector tv_position] in *. set (q := go p b v) in *.
  assert (Bq : bound P q) by (destruct X as [_ [_ X]]; rewrite go_go in X; unfold q; now replace (a + (b - a)) with b in X by ring).
  assert (NQ : exists e, get_point_position P q = EdgeInterior e).
  { rewrite EE in NS. cbn in NS. destruct (pos_bound P q PR Bq) as [Z1 Z2]. destruct (get_point_position P q) as [| |e|k]; try contradiction; [now exists e|discriminate NS]. }
  destruct NQ as [e HQ]. pose proof (edge_lt P PR e q HQ) as Le.
  assert (XB : crosses P q (vopp v) (b - a)).
  { destruct X as [X0 [X1 X2]]. split; auto. unfold q. split; [|rewrite go_opp, go_go; now replace (b + - (b - a)) with a by ring].
    intros s0 S0 S1. rewrite go_opp, go_go. specialize (X1 (b - a - s0)). rewrite go_go in X1. replace (b + - s0) with (a + (b - a - s0)) by ring. apply X1; flra. }
  assert (CW : 0 < ccw (edge P e) (vopp v)) by (apply (crosses_interior P PR q (vopp v) (b - a) e); auto; now apply opp_nz).
  destruct (glue_ex l P e Dl GP Le) as [l' [e' [P' G]]]. destruct (crossing D S V _ _ _ _ _ _ G) as [f [Dl' [Le' [Ef [Ei [M [PA [ED [SC [[c [C0 CC]] [AF [IP IV]]]]]]]]]]]].
  assert (CN : ccw (edge P e) v < 0) by (assert (Z : ccw (edge P e) (vopp v) = - ccw (edge P e) v) by (unfold ccw; destruct (edge P e), v; cbn; ring); flra).
  assert (LV : leaves P e q v) by (left; auto).
  destruct (tangent_move D S V PRS l e P l' e' P' q v f G Ef N LV) as [T _]. destruct (glued_proper D S V PRS _ _ _ _ _ _ G) as [_ PR'].
  assert (Eu : u = TVec l' (sim_apply f q) (mapply (sim_derivative f) v) (get_point_position P' (sim_apply f q))).
  { rewrite EE in IU. unfold tv_invert in IU. rewrite EE in NS. rewrite NS in IU. cbn [tv_label tv_point tv_vector] in IU. rewrite opp_opp, T in IU. now injection IU. }
  assert (HP : get_point_position P' (sim_apply f q) = EdgeInterior e').
  { destruct (edge_point P PR e q Le HQ) as [s0 [S0 [S1 Eq]]]. rewrite Eq, PA. apply at_edge; auto; flra. }
  destruct F' as [P2 a2 b2 GP2 A2 B2 X2 BA2 AB2 ES2 EE2|P2 e2 l2 e2' P2' f2 G2 Ef2 FO2 ES2 EE2].
  - assert (Z : a2 = 0).
    { apply AB2. rewrite Eu in GP2 |- *. cbn [tv_label tv_point] in *. rewrite (ga_poly' _ _ _ _ _ _ _ _ G) in GP2. injection GP2 as <-. exists e'. split; auto.
      destruct (edge_point P PR e q Le HQ) as [s0 [S0 [S1 Eq]]]. rewrite Eq, PA. apply on_side; flra. }
    rewrite ES2, Z. unfold raw. cbn [tv_label tv_point tv_vector]. now rewrite go_0.
  - exfalso. rewrite Eu in G2, FO2. cbn [tv_label tv_point tv_vector] in *. assert (EP2 : P2 = P') by (pose proof (ga_poly _ _ _ _ _ _ _ _ G2) as Z1; rewrite (ga_poly' _ _ _ _ _ _ _ _ G) in Z1; now injection Z1).
    subst P2. pose proof FO2 as [Le2 [R2 [s2 [S20 [S21 Es2]]]]].
    assert (EE' : e2 = e').
    { destruct (feq_dec s2 0) as [Z|Z].
      - rewrite Es2, Z, go_start, (at_vertex P' PR') in HP by auto. discriminate.
      - rewrite Es2, at_edge in HP; auto; [now injection HP|]. apply fneq_lt in Z. destruct Z; flra. }
    subst e2. apply ray_ccw in R2. assert (Z : ccw (edge P' e') (mapply (sim_derivative f) v) = - (c * ccw (edge P e) v)).
    { replace (edge P' e') with (vopp (mapply (sim_derivative f) (edge P e))) by (rewrite ED; apply opp_opp). transitivity (- ccw (mapply (sim_derivative f) (edge P e)) (mapply (sim_derivative f) v)); [|now rewrite CC].
      generalize (mapply (sim_derivative f) (edge P e)), (mapply (sim_derivative f) v). intros [x1 x2] [y1 y2]. unfold ccw. cbn. ring. }
    rewrite R2 in Z. clear -Z C0 CN. fnra.
Qed.
Lemma next_ok s : is_segment s -> end_is_singular s = false -> exists s' u, sg_next S s = Ok s' /\ is_segment s' /\ tv_invert S (sg_end s) = Ok u /\ sg_start s' = u /\
  start_is_singular s' = false /\ sg_next S (sg_invert s') = Ok (sg_invert s).
Proof.
  intros I NS. destruct (segment_facts s I) as [A [B [X Y]]]. destruct (invert_ok (sg_end s) B NS) as [u [IU [Ou [NSu [IIu EQ]]]]].
  destruct (next_start s u I NS IU) as [s' [Es [I' ES]]]. exists s', u. unfold sg_next at 1. rewrite NS, IU. cbn [bind]. rewrite Es. split; auto. split; auto. split; auto. split; auto.
  split; [unfold start_is_singular; now rewrite ES|]. unfold sg_next, end_is_singular. cbn [sg_end sg_invert]. rewrite ES, NSu, IIu. cbn [bind]. exact Y.
Qed.
End C.
