(** The search for saddle connections: soundness and completeness. *)
From Coq Require Import List Bool ZArith Arith Lia Ring Field.
From Verif Require Import OField FMicromega PField MBase MDict MMut SMut MEuclid SEuclid PEuclid MSim SSim PSim MPoly PPoly PTurn SPoint PPoint MSurf SSurf PSurf PSurf3 PDelaunay PPoint2 PPoint3 SCut SEar PJordan PJordan2 PJordan3 PJordan4 PJordan5 PConvex PEar2 PEar5 PPos PPos2 TPos PLocal PLocal2 MTangent PExit STangent PInward PTangent PTangent2 PTangent3 MCircle SCircle PCircle TCircle MSaddle SSaddle PSaddle PSaddle2.
Import ListNotations.

Section Canon.
Context {K : OField}.
Add Field KF : (of_ft K).
Local Open Scope F_scope.
Lemma canonical_direction (v : vec K) : v <> vzero -> direction_of v (canonical v).
Proof.
  intros N. destruct v as [x y]. unfold canonical, absolute. cbn [fst snd].
  assert (P : forall m, 0 < m -> - m <= x -> x <= m -> - m <= y -> y <= m -> (x = m \/ x = - m \/ y = m \/ y = - m) -> direction_of (x, y) (x / m, y / m)).
  { intros m M A1 A2 B1 B2 Z. assert (Nm : m <> 0) by (intros X; flra). split.
    - assert (LE : forall a : K, a <= m -> a / m <= 1) by (intros a Ha; apply fdiv_le; auto; flra).
      assert (GE : forall a : K, - m <= a -> - (1) <= a / m) by (intros a Ha; assert (- a / m <= 1) by (apply fdiv_le; auto; flra); assert (- a / m = - (a / m)) by (field; auto); flra).
      split; [cbn; repeat split; auto|]. cbn. destruct Z as [Z|[Z|[Z|Z]]]; rewrite Z; [left|right; left|right; right; left|right; right; right]; field; auto.
    - split; auto. exists (1 / m). split; [apply fdiv_pos; auto; apply flt_0_1|]. apply vec_eq; cbn; field; auto. }
  assert (NZ : x <> 0 \/ y <> 0).
  { destruct (tri x 0) as [X|[X|X]]; [left; intros E; flra| |left; intros E; flra]. destruct (tri y 0) as [Y|[Y|Y]]; [right; intros E; flra| |right; intros E; flra]. exfalso. apply N. now subst. }
  destruct (x <? 0) eqn:Tx, (y <? 0) eqn:Ty.
  - destruct (- y <? - x) eqn:T; apply P; flra || auto.
    + right; left; ring. + right; right; right; ring.
  - destruct (y <? - x) eqn:T; apply P; try flra; [right; left; ring|right; right; left; ring].
  - destruct (- y <? x) eqn:T; apply P; try flra; [left; ring|right; right; right; ring].
  - destruct (y <? x) eqn:T; apply P; try flra; [left; ring| |right; right; left; ring]. destruct NZ as [Z|Z]; apply fneq_lt in Z; destruct Z; flra.
Qed.
End Canon.

Section C.
Context {K : OField} {L : Type} `{EL : EqB L} (D : L -> Prop) (S : surface K L) (Cat : categories).
Add Field KF : (of_ft K).
Local Open Scope F_scope.
Context (V : valid D S) (C : closed D S) (PRS : forall l P, D l -> s_poly S l = Ok P -> proper P)
  (CV : forall l P, D l -> s_poly S l = Ok P -> is_convex false P = true) (l0 : L) (k0 : nat) (bound : K) (B0 : 0 < bound).
Implicit Types (P Q : polygon K) (p q x h w d : vec K) (b : beam K L).
Notation image b P := (im P (bm_sim b)).
Notation w0 b := (fst (bm_wedge b)).
Notation w1 b := (snd (bm_wedge b)).
Notation inv := (inv D S l0 k0).

Lemma new_given start direction y e h h' n : direction <> vzero ->
  saddle_new S Cat start direction (Some y) (Some e) (Some h) (Some h') false n = Ok (Saddle start (canonical direction) y (canonical e) h h').
Proof. intros N. unfold saddle_new. apply veqb_neq in N. rewrite N. reflexivity. Qed.

Definition found b P v := Saddle (l0, k0) (canonical (image b P v)) (bm_label b, v) (canonical (mapply (minv (sim_derivative (bm_sim b))) (vopp (image b P v)))) (image b P v)
  (mapply (minv (sim_derivative (bm_sim b))) (vopp (image b P v))).
Lemma beam_vertex_spec b P v : (inw b (image b P v) /\ length2 (image b P v) <= bound /\ beam_vertex S Cat bound (l0, k0) b P v = Ok [found b P v]) \/
  (~ (inw b (image b P v) /\ length2 (image b P v) <= bound) /\ beam_vertex S Cat bound (l0, k0) b P v = Ok nil).
Proof.
  unfold beam_vertex. fold (image b P v). unfold inw, within, length2. set (p := image b P v).
  destruct (0 <? ccw (w0 b) p) eqn:T1; [|right; split; [intros [[X _] _]; flra|reflexivity]].
  destruct (0 <? ccw p (w1 b)) eqn:T2; [|right; split; [intros [[_ X] _]; flra|reflexivity]].
  unfold fleb. destruct (bound <? fst p * fst p + snd p * snd p) eqn:T3; cbn [negb andb].
  - right. split; [|reflexivity]. intros [_ X]. flra.
  - left. split; [auto|]. split; [exact T3|]. rewrite new_given; [reflexivity|]. intros Z. rewrite Z in T1. unfold ccw in T1. cbn in T1. flra.
Qed.

(** *** the order of the search *)
Inductive explore : beam K L -> list (saddle K L) -> Prop :=
| ex_nil b : bm_verts b = nil -> explore b nil
| ex_none b P v vs cs out : bm_verts b = v :: vs -> s_poly S (bm_label b) = Ok P -> beam_vertex S Cat bound (l0, k0) b P v = Ok cs ->
    beam_edge S bound b P v = Ok None -> explore (Beam (bm_sim b) (bm_label b) (bm_wedge b) vs) out -> explore b (cs ++ out)
| ex_some b P v vs cs b' out' out : bm_verts b = v :: vs -> s_poly S (bm_label b) = Ok P -> beam_vertex S Cat bound (l0, k0) b P v = Ok cs ->
    beam_edge S bound b P v = Ok (Some b') -> explore b' out' -> explore (Beam (bm_sim b) (bm_label b) (bm_wedge b) vs) out -> explore b (cs ++ out' ++ out).
Lemma search_explore fuel : forall chain acc out, beam_search S Cat fuel bound (l0, k0) chain acc = Ok out ->
  exists outs, Forall2 explore chain outs /\ out = acc ++ concat outs.
Proof.
  induction fuel as [|fuel IH]; intros chain acc out E; [discriminate|]. cbn [beam_search] in E. destruct chain as [|b chain]; [injection E as <-; exists nil; split; [constructor|cbn; now rewrite app_nil_r]|].
  destruct (bm_verts b) as [|v vs] eqn:EV.
  - apply IH in E. destruct E as [outs [F ->]]. exists (nil :: outs). split; [constructor; auto; now constructor|reflexivity].
  - destruct (s_poly S (bm_label b)) as [P|] eqn:GP; [|discriminate]. cbn [bind] in E. destruct (beam_vertex _ _ _ _ _ _ _) as [cs|] eqn:EC; [|discriminate]. cbn [bind] in E.
    destruct (beam_edge _ _ _ _ _) as [[b'|]|] eqn:EE; [| |discriminate]; cbn [bind] in E; apply IH in E; destruct E as [outs [F ->]].
    + inversion F as [|b1 o1 c1 os1 X1 F1]; subst. inversion F1 as [|b2 o2 c2 os2 X2 F2]; subst. exists ((cs ++ o1 ++ o2) :: os2). split; [constructor; auto; now apply (ex_some b P v vs cs b' o1 o2)|]. cbn. now rewrite <- !app_assoc.
    + inversion F as [|b1 o1 c1 os1 X1 F1]; subst. exists ((cs ++ o1) :: os1). split; [constructor; auto; now apply (ex_none b P v vs cs o1)|]. cbn. now rewrite <- !app_assoc.
Qed.

(** *** soundness *)
Definition sound_sc (c : saddle K L) := sc_start c = (l0, k0) /\ is_saddle D S (l0, k0) (sc_holonomy c) (sc_end c) (sc_end_holonomy c) /\
  length2 (sc_holonomy c) <= bound /\ direction_of (sc_holonomy c) (sc_direction c) /\ direction_of (sc_end_holonomy c) (sc_end_direction c).
Lemma entry_verts via b P h s vs : entry via (Beam (bm_sim b) (bm_label b) (bm_wedge b) vs) P h s = entry via b P h s.
Proof. reflexivity. Qed.
Lemma inv_verts via b P vs : inv via b P -> inv via (Beam (bm_sim b) (bm_label b) (bm_wedge b) vs) P.
Proof. intros [A1 A2 A3 A4 A5 A6]. split; auto. Qed.

Lemma entry_before via b P v s : inv via b P -> (v < length P)%nat -> entry via b P (image b P v) s -> 0 <= s -> s < 1.
Proof.
  intros I Lv EN S0. destruct via as [e|]; cbn in EN; [|subst s; apply flt_0_1]. destruct EN as [Le [N O]].
  pose proof (iv_dom _ _ _ _ _ _ _ I) as Dl. pose proof (iv_poly _ _ _ _ _ _ _ I) as GP. pose proof (iv_ok _ _ _ _ _ _ _ I) as OK. pose proof (iv_sign _ _ _ _ _ _ _ I) as SG. pose proof (PRS _ _ Dl GP) as PR. pose proof (CV _ _ Dl GP) as CP.
  pose proof (orient_on _ _ _ O) as Z. pose proof (left_all P PR CP (bm_sim b) OK SG e v Le) as A. assert (one : image b P v = vscale 1 (image b P v)) by (destruct (image b P v); apply vec_eq; cbn; ring).
  rewrite one in A. rewrite orient_ray in A, Z. set (be := ccw (vsub (image b P (Datatypes.S e)) (image b P e)) (image b P v)) in *. set (al := ccw (image b P e) (image b P (Datatypes.S e))) in *.
  destruct (tri s 1) as [X|[X|X]]; auto; exfalso.
  - subst s. rewrite <- one in O. now apply (im_not_vertex P PR (bm_sim b) OK e v Le).
  - assert (Pb : 0 < be) by (apply (pos_of_mul s); [flra|flra]). assert (0 < (s - 1) * be) by (apply fmul_pos; flra). flra.
Qed.
Lemma end_holonomy b p : sim_ok (bm_sim b) -> sim_apply (bm_sim b) (vadd p (mapply (minv (sim_derivative (bm_sim b))) (vopp (sim_apply (bm_sim b) p)))) = vzero.
Proof.
  intros OK. set (f := bm_sim b) in *. assert (DN : mdet (sim_derivative f) <> 0) by (rewrite sim_derivative_det; now apply sim_det_nz).
  assert (AF : forall v, sim_apply f (vadd p v) = vadd (sim_apply f p) (mapply (sim_derivative f) v)).
  { intros v. unfold sim_apply, sim_derivative, sgn, mapply. destruct p, v, (sg_sign f); apply vec_eq; cbn; ring. }
  rewrite AF. set (y := sim_apply f p). set (M := sim_derivative f) in *.
  assert (MM : forall v, mapply M (mapply (minv M) v) = v) by (intros [v0 v1]; unfold mapply, minv, mdet in *; destruct M; cbn in *; apply vec_eq; cbn; field; auto).
  rewrite MM. destruct y; apply vec_eq; cbn; ring.
Qed.
Lemma found_sound via b P v : inv via b P -> (v < length P)%nat -> inw b (image b P v) -> length2 (image b P v) <= bound -> sound_sc (found b P v).
Proof.
  intros I Lv W LB. destruct (iv_reach _ _ _ _ _ _ _ I _ W) as [s [S0 [R [Ls [[i [j [Hi Hj]]] EN]]]]]. pose proof (entry_before via b P v s I Lv EN S0) as S1.
  pose proof (iv_dom _ _ _ _ _ _ _ I) as Dl. pose proof (iv_poly _ _ _ _ _ _ _ I) as GP. pose proof (iv_ok _ _ _ _ _ _ _ I) as OK. pose proof (iv_sign _ _ _ _ _ _ _ I) as SG. pose proof (PRS _ _ Dl GP) as PR. pose proof (CV _ _ Dl GP) as CP.
  assert (N : image b P v <> vzero) by (intros Z; destruct W as [W _]; rewrite Z in W; unfold ccw in W; cbn in W; flra).
  pose proof (end_holonomy b (vertex P v) OK) as EH. fold (image b P v) in EH.
  split; [reflexivity|]. split; [|split; [exact LB|split; [now apply canonical_direction|]]].
  - right. cbn [sc_holonomy sc_end sc_end_holonomy found fst snd]. exists s, (sim_apply (bm_sim b)), P. split; auto. split; auto. split; auto. split; auto. split; [|split; auto].
    assert (one : image b P v = vscale 1 (image b P v)) by (destruct (image b P v); apply vec_eq; cbn; ring).
    assert (L1 : forall j, (j < length P)%nat -> 0 <= orient (image b P j) (image b P (Datatypes.S j)) (vscale 1 (image b P v))) by (intros j' J; rewrite <- one; now apply left_all).
    intros u SU UT. apply (im_inside P PR CP (bm_sim b) OK SG). apply (ray_inside P PR CP (bm_sim b) OK SG _ s 1 i j); auto.
  - apply canonical_direction. intros Z. cbn [sc_end_holonomy found] in Z. rewrite Z in EH. apply N. replace (vadd (vertex P v) vzero) with (vertex P v) in EH by (destruct (vertex P v); apply vec_eq; cbn; ring). exact EH.
Qed.
Lemma explore_sound b out : explore b out -> forall via P, inv via b P -> verts_ok b P -> forall c, In c out ->
  sound_sc c /\ inw b (sc_holonomy c) /\ (exists s, 0 <= s /\ s < 1 /\ entry via b P (sc_holonomy c) s) /\ exists v, In v (bm_verts b) /\ leaves_by P (bm_sim b) v (sc_holonomy c).
Proof.
  assert (HERE : forall b P v via cs c, inv via b P -> (v < length P)%nat -> beam_vertex S Cat bound (l0, k0) b P v = Ok cs -> In c cs ->
    sound_sc c /\ inw b (sc_holonomy c) /\ (exists s, 0 <= s /\ s < 1 /\ entry via b P (sc_holonomy c) s) /\ leaves_by P (bm_sim b) v (sc_holonomy c)).
  { intros b0 P v via cs c I Lv E IN. destruct (beam_vertex_spec b0 P v) as [[W [LB E']]|[_ E']]; rewrite E in E'; injection E' as ->; [|destruct IN]. destruct IN as [<-|[]].
    split; [now apply (found_sound via)|]. cbn [found sc_holonomy]. split; auto. destruct (iv_reach _ _ _ _ _ _ _ I _ W) as [s [S0 [R [Ls [_ EN]]]]]. split; [|left; reflexivity].
    exists s. split; auto. split; auto. now apply (entry_before via b0 P v s). }
  induction 1 as [b EV|b P v vs cs out EV GP EC EE X IH|b P v vs cs b' out' out EV GP EC EE X' IH' X IH]; intros via P0 I VO c IN; [destruct IN| |].
  - assert (P0 = P) by (pose proof (iv_poly _ _ _ _ _ _ _ I) as GP'; congruence). subst P0. destruct VO as [VL VN]. rewrite EV in VL, VN.
    assert (Lv : (v < length P)%nat) by (apply VL; now left). apply in_app_or in IN. destruct IN as [IN|IN].
    + destruct (HERE b P v via cs c I Lv EC IN) as [A1 [A2 [A3 A4]]]. split; auto. split; auto. split; auto. exists v. rewrite EV. split; auto. now left.
    + destruct (IH via P (inv_verts _ _ _ vs I)) with (c := c) as [A1 [A2 [A3 [v' [A4 A5]]]]]; auto; [split; cbn; [intros; apply VL; now right|now inversion VN]|].
      split; auto. split; auto. split; auto. exists v'. rewrite EV. split; auto. now right.
  - assert (P0 = P) by (pose proof (iv_poly _ _ _ _ _ _ _ I) as GP'; congruence). subst P0. destruct VO as [VL VN]. rewrite EV in VL, VN.
    assert (Lv : (v < length P)%nat) by (apply VL; now left). apply in_app_or in IN. destruct IN as [IN|IN]; [|apply in_app_or in IN; destruct IN as [IN|IN]].
    + destruct (HERE b P v via cs c I Lv EC IN) as [A1 [A2 [A3 A4]]]. split; auto. split; auto. split; auto. exists v. rewrite EV. split; auto. now left.
    + destruct (beam_edge_some D S V C bound b P v b' GP Lv (iv_dom _ _ _ _ _ _ _ I) EE) as [l' [e' [Q [g [G [Eg [A [B [E Eb]]]]]]]]].
      pose proof (child_inv D S V PRS CV l0 k0 b P via v l' e' Q g I G Eg A B E) as CI. rewrite <- Eb in CI.
      pose proof (child_verts D S V b P v l' e' Q g G Eg) as CVs. rewrite <- Eb in CVs.
      destruct (IH' (Some e') Q CI CVs c IN) as [A1 [A2 [[t [T0 [T1 [Le' [N' O']]]]] _]]]. split; auto.
      pose proof (child_narrow D S l0 k0 b P via v l' e' Q g I A B E (sc_holonomy c)) as CN. rewrite <- Eb in CN. destruct (CN A2) as [W W']. split; auto.
      assert (O : on_open (image b P v) (image b P (Datatypes.S v)) (vscale t (sc_holonomy c))) by (apply (child_open D S V b P v l' e' Q g G Eg); rewrite <- Eb; auto).
      pose proof (child_time D S PRS CV l0 k0 b P via v l' e' Q g I G A B E (sc_holonomy c)) as CT. rewrite <- Eb in CT. destruct (CT A2) as [s [t' [S0 [ST [O2 [R [IB EN]]]]]]].
      pose proof (iv_dom _ _ _ _ _ _ _ I) as Dl. pose proof (PRS _ _ Dl GP) as PR. pose proof (CV _ _ Dl GP) as CP. pose proof (iv_ok _ _ _ _ _ _ _ I) as OK. pose proof (iv_sign _ _ _ _ _ _ _ I) as SG.
      assert (T0' : 0 < t).
      { destruct (tri 0 t) as [Z|[Z|Z]]; auto; [|flra]. subst t. exfalso. pose proof (orient_on _ _ _ O) as Z. rewrite orient_ray in Z. flra. }
      assert (LT : t' <= t) by (apply (leave_before P (bm_sim b) v (sc_holonomy c) t t'); auto; apply (orient_open _ _ _ _ _ O2); now apply left_all).
      split; [exists s; split; auto; split; [flra|auto]|]. exists v. rewrite EV. split; [now left|]. right. split; auto. exists t. auto.
    + destruct (IH via P (inv_verts _ _ _ vs I)) with (c := c) as [A1 [A2 [A3 [v' [A4 A5]]]]]; auto; [split; cbn; [intros; apply VL; now right|now inversion VN]|].
      split; auto. split; auto. split; auto. exists v'. rewrite EV. split; auto. now right.
Qed.

(** *** each saddle connection is found once *)
Lemma nodup_app {A} (l l' : list A) : NoDup l -> NoDup l' -> (forall y, In y l -> In y l' -> False) -> NoDup (l ++ l').
Proof.
  induction l as [|a l IH]; intros N N' X; auto. inversion N as [|a' l1 NI ND]; subst. cbn. constructor.
  - intros IN. apply in_app_or in IN. destruct IN as [IN|IN]; [auto|]. apply (X a); auto. now left.
  - apply IH; auto. intros x I1 I2. apply (X x); auto. now right.
Qed.
Lemma explore_nodup b out : explore b out -> forall via P, inv via b P -> verts_ok b P -> NoDup (map sc_holonomy out).
Proof.
  assert (HERE : forall b P v cs, beam_vertex S Cat bound (l0, k0) b P v = Ok cs -> NoDup (map sc_holonomy cs) /\ forall h, In h (map sc_holonomy cs) -> image b P v = h).
  { intros b0 P v cs E. destruct (beam_vertex_spec b0 P v) as [[_ [_ E']]|[_ E']]; rewrite E in E'; injection E' as ->; cbn; (split; [repeat constructor; auto|]); intros h IH; [destruct IH as [<-|[]]; reflexivity|destruct IH]. }
  induction 1 as [b EV|b P v vs cs out EV GP EC EE X IH|b P v vs cs b' out' out EV GP EC EE X' IH' X IH]; intros via P0 I VO; [constructor| |].
  - assert (P0 = P) by (pose proof (iv_poly _ _ _ _ _ _ _ I) as GP'; congruence). subst P0. destruct VO as [VL VN]. rewrite EV in VL, VN. assert (Lv : (v < length P)%nat) by (apply VL; now left).
    destruct (HERE b P v cs EC) as [N1 H1]. rewrite map_app. assert (VO' : verts_ok (Beam (bm_sim b) (bm_label b) (bm_wedge b) vs) P) by (split; cbn; [intros; apply VL; now right|now inversion VN]).
    pose proof (iv_dom _ _ _ _ _ _ _ I) as Dl. pose proof (PRS _ _ Dl GP) as PR. pose proof (CV _ _ Dl GP) as CP. pose proof (iv_ok _ _ _ _ _ _ _ I) as OK. pose proof (iv_sign _ _ _ _ _ _ _ I) as SG.
    apply nodup_app; auto; [apply (IH via P (inv_verts _ _ _ vs I) VO')|]. intros h I1 I2. apply H1 in I1. apply in_map_iff in I2. destruct I2 as [c [Ec IC]].
    destruct (explore_sound _ _ X via P (inv_verts _ _ _ vs I) VO' c IC) as [_ [_ [_ [v' [V1 V2]]]]]. cbn in V1, V2. rewrite Ec in V2. inversion VN as [|? ? NI ?]; subst. apply NI.
    replace v with v'; auto. apply (leaves_unique P PR CP (bm_sim b) OK SG v' v (image b P v)); auto; [apply VL; now right|now left].
  - assert (P0 = P) by (pose proof (iv_poly _ _ _ _ _ _ _ I) as GP'; congruence). subst P0. destruct VO as [VL VN]. rewrite EV in VL, VN. assert (Lv : (v < length P)%nat) by (apply VL; now left).
    destruct (HERE b P v cs EC) as [N1 H1]. rewrite !map_app. assert (VO' : verts_ok (Beam (bm_sim b) (bm_label b) (bm_wedge b) vs) P) by (split; cbn; [intros; apply VL; now right|now inversion VN]).
    pose proof (iv_dom _ _ _ _ _ _ _ I) as Dl. pose proof (PRS _ _ Dl GP) as PR. pose proof (CV _ _ Dl GP) as CP. pose proof (iv_ok _ _ _ _ _ _ _ I) as OK. pose proof (iv_sign _ _ _ _ _ _ _ I) as SG.
    destruct (beam_edge_some D S V C bound b P v b' GP Lv Dl EE) as [l' [e' [Q [g [G [Eg [A [B [E Eb]]]]]]]]].
    pose proof (child_inv D S V PRS CV l0 k0 b P via v l' e' Q g I G Eg A B E) as CI. rewrite <- Eb in CI. pose proof (child_verts D S V b P v l' e' Q g G Eg) as CVs. rewrite <- Eb in CVs.
    assert (INNER : forall h, In h (map sc_holonomy out') -> 0 < ccw (image b P v) (image b P (Datatypes.S v)) /\ exists t, 0 < t /\ t < 1 /\ on_open (image b P v) (image b P (Datatypes.S v)) (vscale t h)).
    { intros h IN. apply in_map_iff in IN. destruct IN as [c [<- IC]]. destruct (explore_sound _ _ X' (Some e') Q CI CVs c IC) as [_ [_ [[t [T0 [T1 [Le' [N' O']]]]] _]]]. split; auto. exists t.
      assert (O : on_open (image b P v) (image b P (Datatypes.S v)) (vscale t (sc_holonomy c))) by (apply (child_open D S V b P v l' e' Q g G Eg); rewrite <- Eb; auto).
      split; auto. destruct (tri 0 t) as [Z|[Z|Z]]; auto; [|flra]. subst t. exfalso. pose proof (orient_on _ _ _ O) as Z. rewrite orient_ray in Z. flra. }
    assert (REST : forall h, In h (map sc_holonomy out) -> ~ leaves_by P (bm_sim b) v h).
    { intros h IN LV. apply in_map_iff in IN. destruct IN as [c [Ec IC]]. destruct (explore_sound _ _ X via P (inv_verts _ _ _ vs I) VO' c IC) as [_ [_ [_ [v' [V1 V2]]]]]. cbn in V1, V2. rewrite Ec in V2. inversion VN as [|? ? NI ?]; subst. apply NI.
      replace v with v'; auto. apply (leaves_unique P PR CP (bm_sim b) OK SG v' v (sc_holonomy c)); auto. apply VL; now right. }
    apply nodup_app; auto; [apply nodup_app|]; [now apply (IH' (Some e') Q)|now apply (IH via P (inv_verts _ _ _ vs I))| |].
    + intros h I1 I2. apply (REST h I2). right. now apply INNER.
    + intros h I1 I2. apply H1 in I1. apply in_app_or in I2. destruct I2 as [I2|I2]; [|apply (REST h I2); now left]. apply (leaves_excl P PR CP (bm_sim b) OK SG v h Lv I1). now apply INNER.
Qed.
End C.
