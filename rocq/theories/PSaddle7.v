(** Saddle connections that are computed with the straight line flow. *)
From Coq Require Import List Bool ZArith Arith Lia Ring Field Relations.
From Verif Require Import OField FMicromega PField MBase MDict MMut SMut MEuclid SEuclid PEuclid MSim SSim PSim MPoly PPoly PTurn SPoint PPoint MSurf SSurf PSurf PSurf3 PDelaunay PPoint2 PPoint3 SCut PJordan PJordan2 PJordan3 PJordan4 PJordan5 PConvex PEar2 PEar5 PPos PPos2 TPos PLocal PLocal2 MTangent PExit STangent PInward PTangent PTangent2 PTangent3 PTangent4 MSaddle SSaddle PSaddle PSaddle2 PSaddle3 PSaddle4 PSaddle5 PSaddle6.
Import ListNotations.

Section C.
Context {K : OField}.
Add Field KF : (of_ft K).
Local Open Scope F_scope.
Implicit Types (P : polygon K) (p v d h w : vec K).
Context {L : Type} `{EL : EqB L}.
Context (D : L -> Prop) (S : surface K L) (Cat : categories) (V : valid D S) (C : closed D S) (PRS : forall l P, D l -> s_poly S l = Ok P -> proper P).

(** *** one segment *)
Lemma straight_cases s l p v pos : straight D S s -> sg_start s = TVec l p v pos -> exists P, D l /\ s_poly S l = Ok P /\ v <> vzero /\ pos = get_point_position P p /\ proper P /\
  ((exists b, crosses P p v b /\ sg_end s = TVec l (go p b v) (vopp v) (get_point_position P (go p b v))) \/
   (exists e l' e' P' f, glued_at D S l e P l' e' P' /\ edge_transformation S l e = Ok f /\ same_ray (edge P e) v /\ p = vertex P e /\ pos = AtVertex e /\
     sg_end s = TVec l' (vertex P' e') (mapply (sim_derivative f) (vopp v)) (AtVertex e'))).
Proof.
  intros SS ES. destruct (straight_facts D S V C PRS s SS) as [O1 [O2 [E1 _]]]. destruct (segment_ok D S V C PRS (sg_start s) O1) as [s' [E' [F _]]]. rewrite E1 in E'. injection E' as <-.
  destruct O1 as [Dl [P [GP [EP [N _ _]]]]]. rewrite ES in *. cbn [tv_label tv_point tv_vector tv_position] in *. exists P. split; auto. split; auto. split; auto. split; auto. split; [now apply (PRS l)|].
  destruct F as [P1 a b GP1 A0 B0 X BA AB ES1 EE1|P1 e l' e' P' f G Ef FO ES1 EE1]; cbn [tv_label tv_point tv_vector] in *.
  - left. exists b. assert (P1 = P) by congruence. subst P1. assert (Z : a = 0).
    { rewrite ES1 in ES. apply (f_equal tv_point) in ES. cbn in ES. apply (go_inj p v); auto. rewrite go_0. exact ES. }
    subst a. rewrite go_0 in X. replace (b - 0) with b in X by ring. split; auto.
  - right. assert (P1 = P) by (pose proof (ga_poly _ _ _ _ _ _ _ _ G); congruence). subst P1. exists e, l', e', P', f. rewrite ES1 in ES. injection ES as E2 E3. split; auto. split; auto. split; [apply FO|]. split; auto.
Qed.
(** *** the next segment *)
Lemma next_cross s s2 l p v b P : straight D S s -> straight D S s2 -> continues D S s s2 -> D l -> s_poly S l = Ok P -> v <> vzero -> crosses P p v b ->
  sg_end s = TVec l (go p b v) (vopp v) (get_point_position P (go p b v)) ->
  exists e l' e' P' f, glued_at D S l e P l' e' P' /\ edge_transformation S l e = Ok f /\ get_point_position P (go p b v) = EdgeInterior e /\
    sg_start s2 = TVec l' (sim_apply f (go p b v)) (mapply (sim_derivative f) v) (EdgeInterior e').
Proof.
  intros SS S2 CO Dl GP N X EE. pose proof (PRS _ P Dl GP) as PR. pose proof CO as [NS _]. assert (NE : end_is_singular s = false) by exact NS.
  destruct (next_ok D S V C PRS s (proj2 (segment_straight D S V C PRS s) SS) NE) as [s' [u [E1 [_ [IU [E2 _]]]]]].
  apply (proj1 (continues_iff D S V C PRS s s2 SS S2)) in CO. rewrite E1 in CO. injection CO as ->. rewrite E2. clear E1 E2. set (q := go p b v) in *.
  assert (Bq : bound P q) by (apply X). destruct (pos_bound P q PR Bq) as [Z1 Z2].
  assert (NQ : exists e, get_point_position P q = EdgeInterior e).
  { rewrite EE in NS. cbn in NS. destruct (get_point_position P q) as [| |e|k]; try contradiction; [now exists e|discriminate NS]. }
  destruct NQ as [e HQ]. pose proof (edge_lt P PR e q HQ) as Le. exists e.
  assert (XI : ccw (edge P e) v < 0).
  { destruct (crosses_max P PR p v b N X) as [a [A [XB _]]]. pose proof (crosses_interior P PR _ _ _ e (opp_nz v N) XB HQ) as CW.
    assert (Z : ccw (edge P e) (vopp v) = - ccw (edge P e) v) by (unfold ccw; destruct (edge P e), v; cbn; ring). flra. }
  destruct (glue_ex D S V C l P e Dl GP Le) as [l' [e' [P' G]]]. destruct (PTangent.crossing D S V _ _ _ _ _ _ G) as [f [Dl' [Le' [Ef [Ei [M [PA _]]]]]]].
  exists l', e', P', f. split; auto. split; auto. split; auto.
  assert (LV : leaves P e q v) by (left; auto).
  destruct (tangent_move D S V PRS l e P l' e' P' q v f G Ef N LV) as [T _]. destruct (glued_proper D S V PRS _ _ _ _ _ _ G) as [_ PR'].
  rewrite EE in IU. unfold tv_invert in IU. rewrite EE in NS. rewrite NS in IU. cbn [tv_label tv_point tv_vector] in IU. rewrite opp_opp, T in IU. injection IU as <-. f_equal.
  destruct (edge_point P PR e q Le HQ) as [s0 [S0 [S1 Eq]]]. rewrite Eq, PA. apply at_edge; auto; flra.
Qed.

Lemma sim_affine (f : sim K) p v : sim_apply f (vadd p v) = vadd (sim_apply f p) (mapply (sim_derivative f) v).
Proof. unfold sim_apply, sim_derivative, sgn, mapply. destruct p, v, (sg_sign f); apply vec_eq; cbn; ring. Qed.
Lemma sim_go (f : sim K) p (t : K) v : sim_apply f (go p t v) = go (sim_apply f p) t (mapply (sim_derivative f) v).
Proof. unfold go. rewrite sim_affine. f_equal. unfold mapply. destruct v; apply vec_eq; cbn; ring. Qed.

Lemma last_cons {A} (l : list A) (a b : A) : last (a :: l) b = last l a.
Proof. revert a b. induction l as [|c l IH]; intros; auto. change (last (a :: c :: l) b) with (last (c :: l) b). now rewrite !IH. Qed.

(** *** a chain of segments *)
Context (l0 : L) (k0 : nat) (P0 : polygon K).
Notation v0 := (vertex P0 k0).
Lemma chain d ss : forall seg f (s b : K) l p v pos P, (forall x, In x (seg :: ss) -> straight D S x) -> consecutive (continues D S) (seg :: ss) ->
  sg_start seg = TVec l p v pos -> D l -> s_poly S l = Ok P -> v <> vzero -> crosses P p v b -> sg_end seg = TVec l (go p b v) (vopp v) (get_point_position P (go p b v)) ->
  sim_ok f -> reaches D S l0 k0 d s l (fun q => vsub (sim_apply f q) v0) -> (forall t : K, vsub (sim_apply f (go p t v)) v0 = vscale (s + t) d) ->
  is_based_at_singularity (sg_end (last ss seg)) = true ->
  exists f' (T : K) ly ky Q w, develop_segments S f ss = Ok f' /\ sim_ok f' /\ 0 < T /\ s_poly S ly = Ok Q /\ sg_end (last ss seg) = TVec ly (vertex Q ky) w (AtVertex ky) /\
    ray_saddle D S l0 k0 d T (ly, ky) (vscale T w) /\ vsub (sim_apply f' (vertex Q ky)) v0 = vscale T d /\ mapply (sim_derivative f') w = vopp d.
Proof.
  induction ss as [|s2 ss IH]; intros seg f s b l p v pos P ST CO ES Dl GP N X EE OK R LN SG.
  - cbn [last] in *. rewrite EE in SG. cbn in SG. pose proof (PRS _ P Dl GP) as PR. destruct (get_point_position P (go p b v)) as [| | |k] eqn:HQ; try discriminate SG.
    destruct (vertex_lt P PR k (go p b v) HQ) as [Lk EV]. destruct X as [B0 [X1 X2]]. pose proof (reaches_0 D S l0 k0 _ _ _ _ R) as S0.
    exists f, (s + b), l, k, P, (vopp v). split; [reflexivity|]. split; auto. split; [flra|]. split; auto. split; [now rewrite <- EV|]. split; [|split].
    + exists s, (fun q => vsub (sim_apply f q) v0), P. cbn [fst snd]. split; auto. split; [flra|]. split; auto. split; auto. split; [|split].
      * intros u U1 U2. exists (go p (u - s) v). split; [apply X1; flra|]. rewrite LN. f_equal. ring.
      * rewrite <- EV. apply LN.
      * rewrite <- EV. replace (vadd (go p b v) (vscale (s + b) (vopp v))) with (go p (- s) v) by (unfold go; destruct p, v; apply vec_eq; cbn; ring). rewrite LN. destruct d; apply vec_eq; cbn; ring.
    + rewrite <- EV. apply LN.
    + pose proof (LN 1) as L1. pose proof (LN 0) as L0. rewrite sim_go in L0, L1. rewrite m_opp. f_equal. unfold go in *. destruct (sim_apply f p), (mapply (sim_derivative f) v), d, v0. injection L0 as A1 A2. injection L1 as B1 B2. apply vec_eq; cbn; flra.
  - assert (S1 : straight D S seg) by (apply ST; now left). assert (S2 : straight D S s2) by (apply ST; right; now left).
    assert (C1 : continues D S seg s2) by (apply (CO 0%nat); reflexivity).
    destruct (next_cross seg s2 l p v b P S1 S2 C1 Dl GP N X EE) as [e [l' [e' [P' [g [G [Eg [HQ ES2]]]]]]]].
    destruct (PTangent.crossing D S V _ _ _ _ _ _ G) as [g' [Dl' [Le' [Eg' [Ei [M [PA [ED [SC [_ [AF [IP IV]]]]]]]]]]]]. assert (g' = g) by congruence. subst g'.
    destruct (gluing_exists D S l e P l' e' P' V G) as [g' [Eg'' [Kg _]]]. assert (g' = g) by congruence. subst g'.
    destruct (straight_cases s2 _ _ _ _ S2 ES2) as [P2 [Dl2 [GP2 [N2 [_ [PR2 CS]]]]]]. destruct CS as [[b2 [X2 EE2]]|[e2 [l2 [e3 [P3 [f3 [_ [_ [_ [_ [Z _]]]]]]]]]]]; [|discriminate Z].
    assert (P2 = P') by (pose proof (ga_poly' _ _ _ _ _ _ _ _ G); congruence). subst P2. pose proof X as [B0 [X1 XB]].
    destruct (IH s2 (sim_mul f (sim_inv g)) (s + b) b2 l' _ _ _ P' (fun x I => ST x (or_intror I)) (fun i a c A1 A2 => CO (Datatypes.S i) a c A1 A2) ES2 Dl2 GP2 N2 X2 EE2) as [f' [T [ly [ky [Q [w [DV R']]]]]]].
    + apply sim_ok_mul; auto. now apply sim_ok_inv.
    + eapply (rs_cross D S l0 k0 d s l _ e P l' e' P' (sim_apply g) (s + b)); [exact R|exact G|exact M|flra| | |].
      * intros u U1 U2. exists (go p (u - s) v). split; [apply X1; flra|]. rewrite LN. f_equal. ring.
      * exists (go p b v). auto.
      * intros q. cbn beta. now rewrite sim_mul_apply, IP.
    + intros t. rewrite <- sim_go, sim_mul_apply, IP, go_go, LN. f_equal. ring.
    + now rewrite last_cons in SG.
    + exists f', T, ly, ky, Q, w. cbn [develop_segments]. rewrite ES2. cbn [tv_position tv_label]. rewrite Ei. cbn [bind]. split; auto.
      destruct R' as [R1 [R2 [R3 [R4 R5]]]]. split; auto. split; auto. split; auto. split; auto. now rewrite last_cons.
Qed.

(** *** the whole trajectory *)
Context (Dl0 : D l0) (GP0 : s_poly S l0 = Ok P0) (Lk0 : (k0 < length P0)%nat).
Lemma same_vertex e : (e < length P0)%nat -> vertex P0 e = v0 -> e = k0.
Proof. intros Le E. pose proof (PRS _ _ Dl0 GP0) as PR. pose proof (at_vertex P0 PR e Le) as A. rewrite E, (at_vertex P0 PR k0 Lk0) in A. now injection A. Qed.
Lemma start_segment d : normal P0 v0 d -> exists s j, start_tangent_vector S (l0, k0) d = Ok (TVec l0 v0 d (AtVertex k0)) /\ trajectory_of S (TVec l0 v0 d (AtVertex k0)) = Ok j /\ traj D S j /\ tj_segments j = [s] /\
  straight D S s /\ sg_start s = TVec l0 v0 d (AtVertex k0).
Proof.
  intros NM. pose proof (PRS _ _ Dl0 GP0) as PR. pose proof (at_vertex P0 PR k0 Lk0) as AV. set (t := TVec l0 v0 d (AtVertex k0)).
  assert (O : tv_ok D S t) by (split; auto; exists P0; cbn; auto).
  destruct (trajectory_ok D S V C PRS t O) as [j [s [TJ [TR [SG EJ]]]]]. exists s, j.
  split; [unfold start_tangent_vector; cbn [fst snd]; rewrite GP0; cbn [bind]; rewrite (tangent_stay D S PRS l0 P0) by auto; now rewrite AV|]. split; auto. split; auto. split; auto.
  split; [apply (tr_straight _ _ _ TR); rewrite EJ; now left|].
  destruct (segment_ok D S V C PRS t O) as [s' [E' [F _]]]. assert (s' = s) by congruence. subst s'.
  destruct F as [P1 a b GP1 A0 B0 X BA AB ES1 EE1|P1 e l' e' P' f G Ef FO ES1 EE1]; cbn [t tv_label tv_point tv_vector] in *.
  - assert (P1 = P0) by congruence. subst P1. rewrite ES1, AB, go_0, AV; auto. exists k0. split; auto. rewrite <- (go_0 v0 (edge P0 k0)). pose proof (@flt_0_1 K). apply on_side; flra.
  - assert (P1 = P0) by (pose proof (ga_poly _ _ _ _ _ _ _ _ G); congruence). subst P1. rewrite ES1. destruct FO as [Le [SR [u [U0 [U1 E]]]]].
    assert (e = k0); [|now subst]. destruct (feq_dec u 0) as [->|NU].
    + rewrite go_0 in E. now apply same_vertex.
    + exfalso. rewrite E, at_edge in AV; auto; [discriminate AV|]. apply fneq_lt in NU. destruct NU; flra.
Qed.

(** what the constructor computes from the segments of a trajectory that ends at a vertex *)
Lemma computed d s ss : (forall x, In x (s :: ss) -> straight D S x) -> consecutive (continues D S) (s :: ss) -> sg_start s = TVec l0 v0 d (AtVertex k0) ->
  is_based_at_singularity (sg_end (last ss s)) = true -> exists ly ky q w h h', sg_end (last ss s) = TVec ly q w (AtVertex ky) /\ w <> vzero /\ is_saddle D S (l0, k0) h (ly, ky) h' /\
    pos_multiple h d /\ pos_multiple h' w /\
    ((sg_is_edge S s = Ok true /\ exists Q, s_poly S ly = Ok Q /\ h = edge P0 k0 /\ h' = edge Q ky) \/
     (sg_is_edge S s = Ok false /\ exists f, develop_segments S sim_one ss = Ok f /\ h = vsub (sim_apply f q) v0 /\ h' = vopp (mapply (minv (sim_derivative f)) h))).
Proof.
  intros ST CO ES SG. pose proof (PRS _ _ Dl0 GP0) as PR. assert (S1 : straight D S s) by (apply ST; now left). pose proof (is_edge_iff D S V C PRS s S1) as [b0 [IE EI]].
  destruct (straight_cases s _ _ _ _ S1 ES) as [P [_ [GP [N [EP [_ CS]]]]]]. assert (P = P0) by congruence. subst P. destruct CS as [[b [X EE]]|[e [l' [e' [P' [f [G [Ef [SR [Ev [Ek EE]]]]]]]]]]].
  - destruct (chain d ss s sim_one 0 b l0 v0 d _ P0 ST CO ES Dl0 GP0 N X EE) as [f [T [ly [ky [Q [w [DV [OK [T0 [GQ [E2 [RS [HF HW]]]]]]]]]]]]]; auto.
    + left. cbn. pose proof (@flt_0_1 K). intros Z. flra.
    + apply (rs_start D S l0 k0 d P0); auto. intros p. now rewrite sim_one_apply.
    + intros t. rewrite sim_one_apply. unfold go. destruct v0, d; apply vec_eq; cbn; ring.
    + assert (NT : T <> 0) by (intros Z; flra). assert (NW : w <> vzero).
      { intros Z. apply N. rewrite Z in HW. destruct d. unfold mapply in HW. injection HW as H1 H2. apply vec_eq; cbn in *; flra. }
      exists ly, ky, (vertex Q ky), w, (vscale T d), (vscale T w). split; auto. split; auto.
      assert (RS1 : ray_saddle D S l0 k0 (vscale T d) 1 (ly, ky) (vscale T w)).
      { replace 1 with (1 / T * T) by (field; auto). apply (ray_scale D S l0 k0); [apply fdiv_pos; auto; apply flt_0_1|]. replace (vscale (1 / T) (vscale T d)) with d; auto. destruct d; apply vec_eq; cbn; field; auto. }
      split; [apply is_saddle_cases; now right|]. assert (PM : forall u : vec K, u <> vzero -> pos_multiple (vscale T u) u).
      { intros u Nu. split; [intros Z; apply Nu; destruct u; injection Z as Z1 Z2; apply vec_eq; cbn; apply (fcancel _ _ T); auto; flra|]. exists (1 / T). split; [apply fdiv_pos; auto; apply flt_0_1|]. destruct u; apply vec_eq; cbn; field; auto. }
      split; [auto|]. split; [auto|]. right. split.
      * rewrite IE. f_equal. destruct b0; auto. exfalso. destruct (proj1 EI eq_refl) as [P1 [e [GP1 [Le [Ev [_ [c [C0 Ec]]]]]]]]. rewrite ES in *. cbn [tv_label tv_point tv_vector] in *.
        assert (P1 = P0) by congruence. subst P1. symmetry in Ev. apply same_vertex in Ev; auto. subst e. assert (NC : c <> 0) by (intros Z; flra).
        apply (ray_not_edge D S PRS l0 k0 d T (ly, ky) (vscale T w) P0 (1 / c)); auto; [apply fdiv_pos; auto; apply flt_0_1|]. rewrite Ec. destruct (edge P0 k0); apply vec_eq; cbn; field; auto.
      * exists f. split; auto. split; auto. assert (Ed : d = mapply (sim_derivative f) (vopp w)) by (rewrite m_opp, HW; destruct d; apply vec_eq; cbn; ring). rewrite Ed.
        assert (DN : mdet (sim_derivative f) <> 0) by (rewrite sim_derivative_det; now apply sim_det_nz). generalize DN. generalize (sim_derivative f). clear. intros M DN. unfold mapply, minv, mdet in *. destruct w, M. cbn in *. apply vec_eq; cbn; field; auto.
  - assert (e = k0) by (injection Ek as <-; reflexivity). subst e. destruct ss as [|s2 ss].
    + cbn [last] in *. destruct (PTangent.crossing D S V _ _ _ _ _ _ G) as [g [Dl' [Le' [Eg [Ei [M [PA [ED [SC _]]]]]]]]]. assert (g = f) by congruence. subst g.
      destruct SR as [c [C0 Ec]]. pose proof (glued_sym _ _ _ _ _ _ _ _ V G) as G'. pose proof (PRS _ _ Dl' (ga_poly' _ _ _ _ _ _ _ _ G)) as PR'.
      assert (EW : mapply (sim_derivative f) (vopp d) = vscale c (edge P' e')).
      { rewrite Ec. replace (vopp (vscale c (edge P0 k0))) with (vscale (- c) (edge P0 k0)) by (destruct (edge P0 k0); apply vec_eq; cbn; ring). rewrite SC, ED. destruct (edge P' e'); apply vec_eq; cbn; ring. }
      assert (PM2 : pos_multiple (edge P' e') (mapply (sim_derivative f) (vopp d))) by (split; [now apply edge_nz|exists c; auto]).
      assert (PM1 : pos_multiple (edge P0 k0) d) by (split; [now apply edge_nz|exists c; auto]).
      exists l', e', (vertex P' e'), (mapply (sim_derivative f) (vopp d)), (edge P0 k0), (edge P' e'). split; auto.
      split; [apply (m_nz D S V l0 k0 P0 l' e' P' f G Ef); now apply opp_nz|]. split; [left; exists P0, P'; auto|]. split; auto. split; auto. left. split.
      * rewrite IE. f_equal. apply EI. exists P0, k0. rewrite ES. auto.
      * exists P'. split; [apply G|auto].
    + exfalso. destruct (CO 0%nat s s2 eq_refl eq_refl) as [Z _]. rewrite EE in Z. discriminate Z.
Qed.

Lemma canonical_nz v : v <> vzero -> canonical v <> vzero.
Proof. intros N Z. pose proof (canonical_direction v N) as X. now apply (direction_nz v (canonical v)) in X. Qed.
Lemma normal_pos v d : pos_multiple v d -> normal P0 v0 v -> normal P0 v0 d.
Proof. intros [_ [a [A0 ->]]]. apply normal_scale; auto. now apply (PRS l0). Qed.
Lemma direction_pos h v : v <> vzero -> pos_multiple h (canonical v) -> direction_of h (canonical v).
Proof. intros N PM. split; auto. now apply canonical_direction. Qed.
Lemma pos_canonical h w : w <> vzero -> pos_multiple h w -> pos_multiple h (canonical w).
Proof.
  intros N [Nh [a [A0 Ea]]]. split; auto. destruct (canonical_direction w N) as [_ [_ [c [C0 Ec]]]]. exists (c * a). split; [now apply fmul_pos|]. rewrite Ec, Ea. destruct h; apply vec_eq; cbn; ring.
Qed.
(** the last step of the constructor *)
Definition result v od oe oh oh' (s : segment K L) (ss : list (segment K L)) : res (saddle K L) :=
  let tv := sg_end (last ss s) in
  match tv_position tv with
  | AtVertex k =>
    let y := (tv_label tv, k) in
    if negb (agrees eqb od y) then Err ValueError else
    let d := canonical (tv_vector tv) in
    if negb (agrees veqb oe d) then Err ValueError else
    bind (sg_is_edge S s) (fun b =>
    bind (if b : bool then bind (s_poly S l0) (fun P => bind (s_poly S (fst y)) (fun Q => Ok (edge P k0, edge Q (snd y)))) else
             bind (develop_segments S sim_one ss) (fun f => let h := vsub (sim_apply f (tv_point tv)) (tv_point (sg_start s)) in
             Ok (h, vopp (mapply (minv (sim_derivative f)) h)))) (fun hh =>
    let '(h, h') := hh in
    if negb (agrees veqb oh h) then Err ValueError else
    if negb (agrees veqb oh' h') then Err ValueError else
    Ok (Saddle (l0, k0) (canonical v) y d h h')))
  | _ => Err ValueError
  end.
Lemma flow_nat n j : flow S (Z.of_nat n) j = flow_forward S n j.
Proof. unfold flow. destruct n; [reflexivity|]. replace (0 <? Z.of_nat (Datatypes.S n))%Z with true by (symmetry; apply Z.ltb_lt; lia). now rewrite Nat2Z.id. Qed.
Lemma new_unfold v od oe oh oh' check limit : normal P0 v0 v -> check = true \/ od = None ->
  exists s ss j0 j, trajectory_of S (TVec l0 v0 (canonical v) (AtVertex k0)) = Ok j0 /\ flow_forward S limit j0 = Ok j /\ traj D S j /\ tj_segments j = s :: ss /\
    sg_start s = TVec l0 v0 (canonical v) (AtVertex k0) /\ tj_backward j = None /\
    saddle_new S Cat (l0, k0) v od oe oh oh' check limit = bind (infer_end_direction S Cat (canonical v) od (option_map canonical oe))
      (fun oe' => if negb (is_saddle_connection j) then Err ValueError else result v od oe' oh (infer_end_holonomy Cat v oe' oh oh') s ss).
Proof.
  intros NM CH. pose proof NM as [N _ _]. assert (NM' : normal P0 v0 (canonical v)) by (apply (normal_pos v); auto; apply canonical_direction; auto).
  destruct (start_segment (canonical v) NM') as [s [j0 [E1 [E2 [T0 [EJ [ST ES]]]]]]]. destruct (flow_forward_ok D S V C PRS limit j0 T0) as [j [post [EF [TR [EP [EB _]]]]]].
  exists s, post, j0, j. split; auto. split; auto. split; auto. split; [now rewrite EP, EJ|]. split; auto. split.
  { rewrite EB. destruct (tr_first _ _ _ T0) as [s' [ss' [E3 CT]]]. rewrite EJ in E3. injection E3 as <- <-. destruct (tj_backward j0); auto. destruct CT as [CT _]. rewrite ES in CT. discriminate CT. }
  unfold saddle_new. rewrite (proj2 (veqb_neq _ _) N). set (d := canonical v) in *. destruct (infer_end_direction S Cat d od (option_map canonical oe)) as [oe'|]; [|reflexivity]. cbn [bind].
  transitivity (bind (start_tangent_vector S (l0, k0) d) (fun tv => bind (trajectory_of S tv) (fun t => bind (flow S (Z.of_nat limit) t) (fun t => if negb (is_saddle_connection t) then Err ValueError else match tj_segments t with nil => Err IndexError | s :: ss => result v od oe' oh (infer_end_holonomy Cat v oe' oh oh') s ss end)))).
  - destruct CH as [->| ->]; [destruct od, oe', oh, (infer_end_holonomy Cat v _ _ oh'); reflexivity|reflexivity].
  - rewrite E1. cbn [bind]. rewrite E2. cbn [bind]. rewrite flow_nat, EF. cbn [bind]. now rewrite EP, EJ.
Qed.

Lemma result_cases v s ss : v <> vzero -> (forall x, In x (s :: ss) -> straight D S x) -> consecutive (continues D S) (s :: ss) -> sg_start s = TVec l0 v0 (canonical v) (AtVertex k0) ->
  is_based_at_singularity (sg_end (last ss s)) = true -> exists (y : L * nat) h h' d, is_saddle D S (l0, k0) h y h' /\ direction_of h (canonical v) /\ direction_of h' d /\
    forall od oe oh oh', result v od oe oh oh' s ss = if agrees eqb od y && agrees veqb oe d && agrees veqb oh h && agrees veqb oh' h' then Ok (Saddle (l0, k0) (canonical v) y d h h') else Err ValueError.
Proof.
  intros N ST CO ES SG. destruct (computed (canonical v) s ss ST CO ES SG) as [ly [ky [q [w [h [h' [EE [NW [IS [PM [PM' CS]]]]]]]]]]].
  exists (ly, ky), h, h', (canonical w). split; auto. split; [now apply direction_pos|]. split; [apply direction_pos; auto; now apply pos_canonical|].
  intros od oe oh oh'. unfold result. rewrite EE. cbn [tv_position tv_label tv_vector tv_point fst snd].
  destruct (agrees eqb od (ly, ky)); [|reflexivity]. destruct (agrees veqb oe (canonical w)); [|reflexivity]. cbn [negb andb].
  destruct CS as [[IE [Q [GQ [-> ->]]]]|[IE [f [DV [Eh Eh']]]]]; rewrite IE; cbn [bind].
  - rewrite GP0. cbn [bind]. rewrite GQ. cbn [bind]. destruct (agrees veqb oh (edge P0 k0)); [|reflexivity]. cbn [negb andb]. destruct (agrees veqb oh' (edge Q ky)); reflexivity.
  - rewrite DV, ES. cbn [bind tv_point]. rewrite <- Eh, <- Eh'. destruct (agrees veqb oh h); [|reflexivity]. cbn [negb andb]. destruct (agrees veqb oh' h'); reflexivity.
Qed.
Lemma new_cases v od oe oh oh' check limit : normal P0 v0 v -> check = true \/ od = None -> exists j0 j, trajectory_of S (TVec l0 v0 (canonical v) (AtVertex k0)) = Ok j0 /\ flow_forward S limit j0 = Ok j /\
  ((is_saddle_connection j = false /\ saddle_new S Cat (l0, k0) v od oe oh oh' check limit = bind (infer_end_direction S Cat (canonical v) od (option_map canonical oe)) (fun _ => Err ValueError)) \/
   exists (y : L * nat) h h' d, is_saddle_connection j = true /\ is_saddle D S (l0, k0) h y h' /\ direction_of h (canonical v) /\ direction_of h' d /\
     saddle_new S Cat (l0, k0) v od oe oh oh' check limit = bind (infer_end_direction S Cat (canonical v) od (option_map canonical oe)) (fun oe' =>
       if agrees eqb od y && agrees veqb oe' d && agrees veqb oh h && agrees veqb (infer_end_holonomy Cat v oe' oh oh') h' then Ok (Saddle (l0, k0) (canonical v) y d h h') else Err ValueError)).
Proof.
  intros NM CH. destruct (new_unfold v od oe oh oh' check limit NM CH) as [s [ss [j0 [j [E0 [EF [TR [EJ [ES [EB EN]]]]]]]]]]. exists j0, j. split; auto. split; auto. rewrite EN. destruct (is_saddle_connection j) eqn:SC; [right|left; auto]. cbn [negb].
  destruct (result_cases v s ss) as [y [h [h' [d [A1 [A2 [A3 A4]]]]]]]; auto.
  - apply NM.
  - intros x I. apply (tr_straight _ _ _ TR). now rewrite EJ.
  - rewrite <- EJ. apply TR.
  - destruct (tr_last _ _ _ TR) as [s' [ss' [E3 CT]]]. unfold is_saddle_connection, is_forward_separatrix in SC. destruct (tj_forward j); [discriminate SC|]. cbn in CT. rewrite <- CT. f_equal. f_equal.
    rewrite EJ in E3. rewrite <- (last_cons ss s s'), E3. apply last_last.
  - exists y, h, h', d. split; auto. split; auto. split; auto. split; auto. destruct (infer_end_direction S Cat (canonical v) od (option_map canonical oe)); [|reflexivity]. cbn [bind]. apply A4.
Qed.
Lemma new_sound v od oe oh oh' check limit c : normal P0 v0 v -> check = true \/ od = None -> saddle_new S Cat (l0, k0) v od oe oh oh' check limit = Ok c ->
  (is_saddle D S (sc_start c) (sc_holonomy c) (sc_end c) (sc_end_holonomy c) /\ direction_of (sc_holonomy c) (sc_direction c) /\ direction_of (sc_end_holonomy c) (sc_end_direction c)) /\
  sc_start c = (l0, k0) /\ pos_multiple v (sc_direction c) /\ (forall y, od = Some y -> sc_end c = y) /\ (forall w, oe = Some w -> canonical w = sc_end_direction c) /\
  (forall h, oh = Some h -> sc_holonomy c = h) /\ (forall h', oh' = Some h' -> sc_end_holonomy c = h').
Proof.
  intros NM CH E. destruct (new_cases v od oe oh oh' check limit NM CH) as [j0 [j [_ [_ [[_ EN]|[y [h [h' [d [_ [A1 [A2 [A3 EN]]]]]]]]]]]]].
  - rewrite EN in E. destruct (infer_end_direction S Cat (canonical v) od (option_map canonical oe)); discriminate E.
  - rewrite EN in E. destruct (infer_end_direction S Cat (canonical v) od (option_map canonical oe)) as [oe'|] eqn:IE; [|discriminate E]. cbn [bind] in E.
    destruct (agrees eqb od y) eqn:G1; [|discriminate E]. destruct (agrees veqb oe' d) eqn:G2; [|discriminate E]. destruct (agrees veqb oh h) eqn:G3; [|discriminate E].
    destruct (agrees veqb (infer_end_holonomy Cat v oe' oh oh') h') eqn:G4; [|discriminate E]. injection E as <-. cbn [sc_start sc_holonomy sc_end sc_end_holonomy sc_direction sc_end_direction].
    split; auto. split; auto. split; [apply canonical_direction, NM|]. split; [|split; [|split]].
    + intros y' ->. cbn [agrees] in G1. symmetry. exact (proj1 (eqb_ok _ _) G1).
    + intros w ->. cbn in IE. injection IE as <-. cbn in G2. now apply (proj1 (veqb_eq _ _)) in G2.
    + intros h2 ->. cbn in G3. now apply (proj1 (veqb_eq _ _)) in G3.
    + intros h2 ->. cbn in G4. now apply (proj1 (veqb_eq _ _)) in G4.
Qed.

(** *** every saddle connection is found *)
Lemma open_traj j s ss f : traj D S j -> tj_segments j = s :: ss -> start_is_singular s = true -> tj_forward j = Some f -> is_closed j = Ok false.
Proof.
  intros TR EJ SG EF. destruct (closed_ok D S j TR) as [[|] B]; auto. exfalso. apply (closed_spec D S V C PRS j TR) in B. destruct B as [f' [s' [ss' [c [E1 [E2 [C0 E3]]]]]]]. assert (E4 : f = tv_scale c (sg_start s)) by congruence. clear E1 E2 E3.
  destruct (traj_ends D S j TR) as [a [bb [s2 [ss2 [_ [_ [_ [ST [_ CT]]]]]]]]]. rewrite EF in CT. destruct CT as [NS [OK TE]]. destruct (straight_facts D S V C PRS s2 ST) as [_ [O2 _]].
  destruct (invert_ok D S V C PRS (sg_end s2) O2 NS) as [u [IU [Ou [NSu [_ EQ]]]]].
  assert (CU : continuation D S (sg_end s2) (Some f)) by (split; auto). apply (setup_iff D S V C PRS (sg_end s2) (Some f) O2) in CU. unfold setup in CU. rewrite NS, IU in CU. injection CU as EU.
  rewrite EU, E4 in NSu. unfold start_is_singular, is_based_at_singularity, tv_scale in *. cbn [tv_position] in NSu. congruence.
Qed.
(** a segment that starts inside of a copy ends where the ray leaves the copy *)
Lemma segment_event s l p v pos d F P (a t : K) q : straight D S s -> sg_start s = TVec l p v pos -> D l -> s_poly S l = Ok P -> (forall x y, F x = F y -> x = y) ->
  (forall u : K, F (go p u v) = vscale (a + u) d) -> event P F d a t q -> crosses P p v (t - a) /\ go p (t - a) v = q /\ sg_end s = TVec l q (vopp v) (get_point_position P q).
Proof.
  intros ST ES Dl GP INJ LN EV. pose proof EV as [AT [IB [NI FQ]]]. destruct (straight_cases s l p v pos ST ES) as [P1 [_ [GP1 [N [EP [PR CS]]]]]]. assert (P1 = P) by congruence. subst P1.
  destruct CS as [[b [X EE]]|[e [l' [e' [P' [f [G [Ef [SR [Ev [Ek EE]]]]]]]]]]].
  - pose proof X as [B0 [X1 X2]]. destruct (pos_bound P (go p b v) PR X2) as [_ Z2].
    assert (EV2 : event P F d a (a + b) (go p b v)) by (split; [flra|]; split; [|split; auto]; intros u U1 U2; exists (go p (u - a) v); split; [apply X1; flra|rewrite LN; f_equal; ring]).
    destruct (event_unique P F d a t (a + b) q (go p b v) INJ EV EV2) as [-> ->]. replace (a + b - a) with b by ring. auto.
  - exfalso. destruct SR as [c [C0 Ec]]. assert (NC : c <> 0) by (intros Z; flra).
    assert (EX : exists u, 0 < u /\ u < t - a /\ u * c < 1).
    { assert (H1 : 0 < t - a) by flra. destruct (half (t - a) H1) as [x [X0 [X1 _]]]. assert (H2 : 0 < 1 / c) by (apply fdiv_pos; auto; apply flt_0_1). destruct (half (1 / c) H2) as [y [Y0 [Y1 _]]].
      assert (LT : forall u, 0 < u -> u < 1 / c -> u * c < 1) by (intros u U0 U1; assert (0 < (1 / c - u) * c) by (apply fmul_pos; flra); assert (E1 : (1 / c - u) * c = 1 - u * c) by (field; auto); flra).
      destruct (tri x y) as [T|[T|T]]; [exists x|exists x|exists y]; (split; [auto|]; split; [flra|]; apply LT; auto; flra). }
    destruct EX as [u [U0 [U1 U2]]]. destruct (IB (a + u)) as [z [Iz Fz]]; [flra|flra|]. rewrite <- LN in Fz. apply INJ in Fz. subst z. rewrite Ev, Ec, go_scale', at_edge in Iz; auto; [discriminate Iz|apply (ga_edge _ _ _ _ _ _ _ _ G)|now apply fmul_pos].
Qed.
Lemma flow_reach d s l F : reaches D S l0 k0 d s l F -> normal P0 v0 d -> forall j0, trajectory_of S (TVec l0 v0 d (AtVertex k0)) = Ok j0 ->
  exists n j s0 ss0 seg ss p v pos, flow_forward S n j0 = Ok j /\ traj D S j /\ tj_segments j = s0 :: ss0 /\ sg_start s0 = TVec l0 v0 d (AtVertex k0) /\ tj_backward j = None /\ tj_segments j = ss ++ [seg] /\ sg_start seg = TVec l p v pos /\
    forall t : K, F (go p t v) = vscale (s + t) d.
Proof.
  intros R NM j0 E0. induction R as [P F Dl GP Lk FE|s l F e P l' e' P' G t F' R IH GA M LT IB [q [HQ FQ]] FG].
  - destruct (start_segment d NM) as [sg [j [E1 [E2 [T0 [EJ [ST ES]]]]]]]. assert (j = j0) by congruence. subst j. exists 0%nat, j0, sg, [], sg, [], v0, d, (AtVertex k0). split; auto. split; auto. split; auto. split; auto. split.
    { destruct (tr_first _ _ _ T0) as [s' [ss' [E3 CT]]]. rewrite EJ in E3. injection E3 as <- <-. destruct (tj_backward j0); auto. destruct CT as [CT _]. rewrite ES in CT. discriminate CT. }
    split; auto. split; auto. intros t. assert (P = P0) by congruence. subst P. rewrite FE. unfold go. destruct v0, d; apply vec_eq; cbn; ring.
  - destruct IH as [n [j [s0 [ss0 [seg [ss [p [v [pos [EF [TR [EJ [ES0 [EB [EL2 [ES LN]]]]]]]]]]]]]]]]. pose proof (ga_dom _ _ _ _ _ _ _ _ GA) as Dl. pose proof (ga_poly _ _ _ _ _ _ _ _ GA) as GP.
    assert (ST : straight D S seg) by (apply (tr_straight _ _ _ TR); rewrite EL2; apply in_or_app; right; now left). pose proof (reaches_inj D S V l0 k0 _ _ _ _ R) as INJ.
    assert (EV : event P F d s t q) by (split; auto; split; auto; split; [congruence|auto]).
    destruct (segment_event seg l p v pos d F P s t q ST ES Dl GP INJ LN EV) as [X [Eq EE]].
    destruct (tr_last _ _ _ TR) as [s' [ss' [E3 CT]]]. rewrite EL2 in E3. apply app_inj_tail in E3. destruct E3 as [<- <-].
    destruct (tj_forward j) as [f|] eqn:FW; [|cbn in CT; rewrite EE in CT; unfold is_based_at_singularity in CT; cbn in CT; rewrite HQ in CT; discriminate CT].
    assert (SG0 : start_is_singular s0 = true) by (unfold start_is_singular; now rewrite ES0).
    pose proof (open_traj j s0 ss0 f TR EJ SG0 FW) as OP. destruct (forward_step D S V C PRS j f TR FW) as [s2 [o [E4 [E5 [E6 TR2]]]]].
    exists (n + 1)%nat, (Trajectory (tj_segments j ++ [s2]) o (tj_backward j)), s0, (ss0 ++ [s2]), s2, (tj_segments j).
    assert (S2 : straight D S s2) by (apply (tr_straight _ _ _ TR2); cbn [tj_segments]; apply in_or_app; right; now left).
    assert (CO : continues D S seg s2) by (split; [apply CT|]; rewrite E5; apply CT).
    assert (N : v <> vzero) by (destruct (straight_cases seg l p v pos ST ES) as [P1 [_ [_ [N _]]]]; auto). rewrite <- Eq in EE.
    destruct (next_cross seg s2 l p v (t - s) P ST S2 CO Dl GP N X EE) as [e1 [l1 [e1' [P1 [g [G1 [Eg [HQ1 ES2]]]]]]]].
    assert (e1 = e) by (rewrite Eq in HQ1; congruence). subst e1. destruct (glued_fun D S _ _ _ _ _ _ _ _ _ GA G1) as [-> [-> ->]].
    destruct (PTangent.crossing D S V _ _ _ _ _ _ GA) as [g' [Dl' [Le' [Eg' [Ei [M1 _]]]]]]. assert (g' = g) by congruence. subst g'.
    eexists _, _, _. split; [rewrite flow_add, EF; cbn [bind flow_forward]; rewrite FW, OP; cbn [bind]; rewrite E4; cbn [bind]; rewrite E6; reflexivity|]. split; auto. cbn [tj_segments tj_backward].
    split; [now rewrite EJ|]. split; auto. split; auto. split; [reflexivity|]. split; [exact ES2|]. intros u. rewrite <- sim_go.
    rewrite (gluing_unique D S l e P l1 e1' P1 (sim_apply g) G V GA M1 M), FG, go_go, LN. f_equal. ring.
Qed.

Lemma reaches_positive d s l F : positive_dilations D S -> reaches D S l0 k0 d s l F -> exists (c : K) u, 0 < c /\ forall p, F p = vadd (vscale c p) u.
Proof.
  intros PD R. induction R as [P F Dl GP Lk FE|s l F e P l' e' P' G t F' R IH GA M LT IB X FG].
  - exists 1, (vopp (vertex P k0)). split; [apply flt_0_1|]. intros p. rewrite FE. destruct p, (vertex P k0); apply vec_eq; cbn; ring.
  - destruct IH as [c [u [C0 EF]]]. destruct (PD _ _ _ _ _ _ GA) as [a [A0 Ea]]. destruct (gluing_exists D S l e P l' e' P' V GA) as [g [Eg [Kg [Sg M1]]]].
    pose proof (derivative_edge D S l e P l' e' P' g V GA Eg) as DE. rewrite Ea in DE. pose proof (PRS _ _ (ga_dom _ _ _ _ _ _ _ _ GA) (ga_poly _ _ _ _ _ _ _ _ GA)) as PR.
    assert (NE : edge P e <> vzero) by (apply edge_nz; auto; apply (ga_edge _ _ _ _ _ _ _ _ GA)). assert (AB : sg_a g = a /\ sg_b g = 0).
    { unfold sim_derivative, sgn, mapply in DE. rewrite Sg in DE. destruct (edge P e) as [x y]. cbn in DE. injection DE as D1 D2.
      assert (NN : x * x + y * y <> 0) by (intros Z; apply fsum_sq_eq0 in Z; destruct Z as [-> ->]; now apply NE).
      pose proof (f_equal (fmul x) D1) as X1. pose proof (f_equal (fmul y) D2) as X2. pose proof (f_equal (fmul y) D1) as X3. pose proof (f_equal (fmul x) D2) as X4. clear D1 D2.
      split; apply (fcancel _ _ (x * x + y * y)); auto; flra. }
    destruct AB as [Ha Hb]. assert (EG : forall p, G p = vadd (vscale a p) (sg_s g, sg_t g)).
    { intros p. rewrite (gluing_unique D S _ _ _ _ _ _ G (sim_apply g) V GA M M1). unfold sim_apply. rewrite Sg, Ha, Hb. destruct p; apply vec_eq; cbn; ring. }
    assert (NA : a <> 0) by (intros Z; flra). exists (c / a), (vadd u (vscale (- (c / a)) (sg_s g, sg_t g))). split; [now apply fdiv_pos|].
    intros q. assert (EQ : q = G (vscale (1 / a) (vsub q (sg_s g, sg_t g)))) by (rewrite EG; destruct q; apply vec_eq; cbn; field; auto). rewrite EQ at 1. rewrite FG, EF. destruct q, u; apply vec_eq; cbn; field; auto.
Qed.
Lemma ray_normal d (t : K) y h' : d <> vzero -> 0 < t -> ray_saddle D S l0 k0 d t y h' -> normal P0 v0 d.
Proof.
  intros N T0 [s [F [P [R [ST [GP [Lk [IB _]]]]]]]]. destruct (reaches_inside D S l0 k0 d s (fst y) F P t R GP ST IB) as [P1 [t0 [D0 [GP1 [L0 [T1 X]]]]]]. assert (P1 = P0) by congruence. subst P1.
  pose proof (PRS _ _ Dl0 GP0) as PR. destruct (half t0 T1) as [r [R0 [R1 _]]].
  assert (PI : points_into P0 v0 d) by (exists r; split; auto; intros u U0 U1; unfold in_polygon, moved; rewrite X; [discriminate|auto|flra]).
  assert (I : in_polygon P0 v0) by (unfold in_polygon; rewrite (at_vertex P0 PR k0 Lk0); discriminate).
  destruct (normal_cases P0 PR v0 d N I) as [NM|[[e [Le LV]]|[_ NP]]]; auto; [exfalso|contradiction].
  destruct LV as [[Z _]|[Ev [c [C0 Ec]]]]; [rewrite (at_vertex P0 PR k0 Lk0) in Z; discriminate|].
  assert (EX : exists u, 0 < u /\ u < t0 /\ u * c < 1).
  { assert (NC : c <> 0) by (intros Z; flra). assert (H2 : 0 < 1 / c) by (apply fdiv_pos; auto; apply flt_0_1). destruct (half (1 / c) H2) as [z [Y0 [Y1 _]]].
    assert (LT : forall u, 0 < u -> u < 1 / c -> u * c < 1) by (intros u U0 U1; assert (0 < (1 / c - u) * c) by (apply fmul_pos; flra); assert (E1 : (1 / c - u) * c = 1 - u * c) by (field; auto); flra).
    destruct (tri r z) as [T|[T|T]]; [exists r|exists r|exists z]; (split; [auto|]; split; [flra|]; apply LT; auto; flra). }
  destruct EX as [u [U0 [U1 U2]]]. specialize (X u U0 U1). assert (0 < u * c) by now apply fmul_pos.
  replace (vadd v0 (vscale u d)) with (go (vertex P0 e) (1 - u * c) (edge P0 e)) in X; [rewrite at_edge in X; auto; [discriminate X|flra|flra]|].
  rewrite Ev, Ec. unfold go, edge. destruct (vertex P0 e), (vertex P0 (Datatypes.S e)); apply vec_eq; cbn; ring.
Qed.

Lemma saddle_normal h (y : L * nat) h' : is_saddle D S (l0, k0) h y h' -> normal P0 v0 h.
Proof.
  intros IS. pose proof (PRS _ _ Dl0 GP0) as PR. pose proof (saddle_nonzero D S PRS _ _ _ _ IS) as N. apply is_saddle_cases in IS. destruct IS as [[P [P' [G [-> _]]]]|R].
  - assert (P = P0) by (pose proof (ga_poly _ _ _ _ _ _ _ _ G); congruence). subst P. apply (enters_normal P0 PR k0); auto. right. split; auto. exists 1. split; [apply flt_0_1|]. destruct (edge P0 k0); apply vec_eq; cbn; ring.
  - apply (ray_normal h 1 y h'); auto. apply flt_0_1.
Qed.
Lemma saddle_positive h (y : L * nat) h' : positive_dilations D S -> is_saddle D S (l0, k0) h y h' -> exists c, 0 < c /\ h' = vscale c (vopp h).
Proof.
  intros PD IS. apply is_saddle_cases in IS. destruct IS as [[P [P' [G [-> ->]]]]|[s [F [P [R [ST [GP [Lk [IB [FV FH]]]]]]]]]].
  - destruct (PD _ _ _ _ _ _ G) as [c [C0 E]]. exists c. split; auto. rewrite E. destruct (edge P k0); apply vec_eq; cbn; ring.
  - destruct (reaches_positive h s (fst y) F PD R) as [c [u [C0 E]]]. assert (NC : c <> 0) by (intros Z; flra). rewrite E in FV, FH. exists (1 / c). split; [apply fdiv_pos; auto; apply flt_0_1|].
    destruct (vertex P (snd y)) as [x1 x2], h as [h1 h2], h' as [g1 g2], u as [u1 u2]. injection FV as A1 A2. injection FH as B1 B2. apply vec_eq; cbn in *; apply (fcancel _ _ c); auto; [transitivity (- h1)|transitivity (- h2)]; try flra; field; auto.
Qed.
Lemma flow_stops h (y : L * nat) h' d : is_saddle D S (l0, k0) h y h' -> pos_multiple h d -> forall j0, trajectory_of S (TVec l0 v0 d (AtVertex k0)) = Ok j0 ->
  exists n j, flow_forward S n j0 = Ok j /\ is_saddle_connection j = true.
Proof.
  intros IS PM j0 E0. pose proof (PRS _ _ Dl0 GP0) as PR. pose proof (normal_pos h d PM (saddle_normal h y h' IS)) as NM. apply is_saddle_cases in IS. destruct IS as [[P [P' [G [Eh _]]]]|R].
  - assert (P = P0) by (pose proof (ga_poly _ _ _ _ _ _ _ _ G); congruence). subst P. exists 0%nat, j0. split; auto. destruct (start_segment d NM) as [s [j [_ [E2 [TR [EJ [ST ES]]]]]]]. assert (j = j0) by congruence. subst j.
    destruct (traj_ends D S j0 TR) as [a [bb [s2 [ss2 [A1 [A2 [_ [_ [CT1 CT2]]]]]]]]]. rewrite EJ in A1, A2. injection A1 as <- _. apply (app_inj_tail []) in A2. destruct A2 as [_ <-].
    unfold is_saddle_connection, is_forward_separatrix, is_backward_separatrix. apply andb_true_intro. split.
    + destruct (tj_forward j0); auto. exfalso. destruct CT2 as [CT2 _]. destruct (straight_cases s _ _ _ _ ST ES) as [P [_ [GP [N [_ [_ CS]]]]]]. assert (P = P0) by congruence. subst P.
      destruct CS as [[b [[B0 [X _]] EE]]|[e [l' [e' [P1 [f [_ [_ [_ [_ [_ EE]]]]]]]]]]]; [|rewrite EE in CT2; discriminate CT2].
      destruct PM as [_ [c [C0 Ec]]]. assert (NC : c <> 0) by (intros Z; flra). assert (EX : exists u, 0 < u /\ u < b /\ u * c < 1).
      { assert (H2 : 0 < 1 / c) by (apply fdiv_pos; auto; apply flt_0_1). destruct (half b B0) as [r [R0 [R1 _]]]. destruct (half (1 / c) H2) as [z [Y0 [Y1 _]]].
        assert (LT : forall u, 0 < u -> u < 1 / c -> u * c < 1) by (intros u U0 U1; assert (0 < (1 / c - u) * c) by (apply fmul_pos; flra); assert (E1 : (1 / c - u) * c = 1 - u * c) by (field; auto); flra).
        destruct (tri r z) as [T|[T|T]]; [exists r|exists r|exists z]; (split; [auto|]; split; [flra|]; apply LT; auto; flra). }
      destruct EX as [u [U0 [U1 U2]]]. specialize (X u U0 U1). rewrite Ec, Eh, go_scale', at_edge in X; auto; [discriminate X|now apply fmul_pos].
    + destruct (tj_backward j0); auto. destruct CT1 as [CT1 _]. rewrite ES in CT1. discriminate CT1.
  - destruct PM as [Nh [c [C0 Ec]]]. assert (NC : c <> 0) by (intros Z; flra). assert (R1 : ray_saddle D S l0 k0 d (1 / c * 1) y h').
    { apply (ray_scale D S l0 k0); [apply fdiv_pos; auto; apply flt_0_1|]. replace (vscale (1 / c) d) with h; auto. rewrite Ec. destruct h; apply vec_eq; cbn; field; auto. }
    destruct R1 as [s [F [P [RR [ST [GP [Lk [IB [FV FH]]]]]]]]]. destruct (flow_reach d s (fst y) F RR NM j0 E0) as [n [j [s0 [ss0 [seg [ss [p [v [pos [EF [TR [EJ [ES0 [EB [EL2 [ES LN]]]]]]]]]]]]]]]].
    exists n, j. split; auto. assert (Dl : D (fst y)) by (apply (reaches_dom D S V l0 k0 _ _ _ _ RR)). pose proof (PRS _ _ Dl GP) as PRy. pose proof (at_vertex P PRy (snd y) Lk) as AV.
    assert (S2 : straight D S seg) by (apply (tr_straight _ _ _ TR); rewrite EL2; apply in_or_app; right; now left).
    destruct (segment_event seg (fst y) p v pos d F P s (1 / c * 1) (vertex P (snd y)) S2 ES Dl GP (reaches_inj D S V l0 k0 _ _ _ _ RR) LN) as [X [Eq EE]]; [split; auto; split; auto; split; [congruence|auto]|].
    unfold is_saddle_connection, is_forward_separatrix, is_backward_separatrix. rewrite EB. apply andb_true_intro. split; auto.
    destruct (tr_last _ _ _ TR) as [s' [ss' [E3 CT]]]. rewrite EL2 in E3. apply app_inj_tail in E3. destruct E3 as [<- <-]. destruct (tj_forward j); auto. destruct CT as [CT _]. rewrite EE in CT. unfold is_based_at_singularity in CT. cbn in CT. rewrite AV in CT. discriminate CT.
Qed.
Lemma new_complete h (y : L * nat) h' v : (c_positive Cat = true -> positive_dilations D S) -> is_saddle D S (l0, k0) h y h' -> pos_multiple h v ->
  exists n, forall check limit, (n <= limit)%nat -> saddle_new S Cat (l0, k0) v None None None None check limit = Ok (Saddle (l0, k0) (canonical v) y (canonical h') h h').
Proof.
  intros PD IS PM. pose proof (saddle_normal h y h' IS) as NH. pose proof (normal_pos h v PM NH) as NM. assert (N : v <> vzero) by apply NM.
  pose proof (pos_canonical h v N PM) as PC. assert (NC : normal P0 v0 (canonical v)) by now apply (normal_pos h). destruct (start_segment (canonical v) NC) as [s0 [j0 [_ [E0 _]]]].
  destruct (flow_stops h y h' (canonical v) IS PC j0 E0) as [n [j [EF SC]]]. exists n. intros check limit LE.
  destruct (new_cases v None None None None check limit NM (or_intror eq_refl)) as [j0' [j' [E0' [EF' CS]]]]. assert (j0' = j0) by congruence. subst j0'.
  assert (j' = j).
  { replace limit with (n + (limit - n))%nat in EF' by lia. rewrite flow_add, EF in EF'. cbn [bind] in EF'. unfold is_saddle_connection, is_forward_separatrix in SC. destruct (limit - n)%nat; cbn [flow_forward] in EF'; [congruence|]. destruct (tj_forward j); [discriminate SC|congruence]. }
  subst j'. destruct CS as [[Z _]|[y2 [h2 [h2' [d2 [_ [IS2 [A2 [A3 EN]]]]]]]]]; [congruence|]. rewrite EN.
  assert (DH : direction_of h (canonical v)) by now apply direction_pos. destruct (direction_multiple h h2 (canonical v) DH A2) as [t [T0 Et]].
  assert (IS3 := IS2). rewrite Et in IS3. destruct (saddle_unique D S V PRS l0 k0 h y h' y2 h2' t T0 IS IS3) as [E1 [-> ->]]. rewrite E1 in Et. subst h2. clear IS3 E1.
  assert (N' : h' <> vzero) by (apply (saddle_nonzero D S PRS _ _ _ _ (saddle_sym D S V PRS _ _ _ _ IS))). assert (Ed : d2 = canonical h') by (apply (direction_unique h'); auto; now apply canonical_direction). subst d2.
  cbn [option_map infer_end_direction]. destruct (c_positive Cat) eqn:EC; cbn [bind agrees andb infer_end_holonomy]; [|reflexivity].
  destruct (saddle_positive h y h' (PD eq_refl) IS) as [c [C0 Ec]]. assert (Ev : veqb (vopp (canonical v)) (canonical h') = true).
  { apply veqb_eq. destruct PM as [Nh [a [A0 Ea]]]. rewrite Ec, canonical_scale, canonical_opp by (auto; now apply opp_nz). f_equal. rewrite Ea. now apply canonical_scale. }
  rewrite Ev. reflexivity.
Qed.
End C.
