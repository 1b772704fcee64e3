(** The search for saddle connections: the start and completeness. *)
From Coq Require Import List Bool ZArith Arith Lia Ring Field.
From Verif Require Import OField FMicromega PField MBase MDict MMut SMut MEuclid SEuclid PEuclid MSim SSim PSim MPoly PPoly PTurn SPoint PPoint MSurf SSurf PSurf PSurf3 PDelaunay PPoint2 PPoint3 SCut SEar PJordan PJordan2 PJordan3 PJordan4 PJordan5 PConvex PEar2 PEar5 PPos PPos2 TPos PLocal PLocal2 MTangent PExit STangent PInward PTangent PTangent2 PTangent3 MCircle SCircle PCircle TCircle MSaddle SSaddle PSaddle PSaddle2 PSaddle3.
Import ListNotations.

Section Dir.
Context {K : OField}.
Add Field KF : (of_ft K).
Local Open Scope F_scope.
Lemma direction_unique (v d d' : vec K) : direction_of v d -> direction_of v d' -> d = d'.
Proof.
  intros [[A1 A2] [N [a [a0 ->]]]] [[B1 B2] [_ [b [b0 ->]]]]. f_equal. destruct v as [x y]. cbn in *.
  destruct A1 as [A3 [A4 [A5 A6]]], B1 as [B3 [B4 [B5 B6]]].
  assert (LE : forall a b : K, 0 < a -> 0 < b -> - (1) <= a * x -> a * x <= 1 -> - (1) <= a * y -> a * y <= 1 -> (b * x = 1 \/ b * x = - (1) \/ b * y = 1 \/ b * y = - (1)) -> a <= b).
  { clear. intros a b a0 b0 X1 X2 Y1 Y2 Z. destruct (tri b a) as [T|[T|T]]; [exfalso|subst; flra|flra].
    assert (Q : forall z : K, (b * z = 1 -> 0 < (a - b) * z) /\ (b * z = - (1) -> 0 < (a - b) * - z)).
    { intros z. assert (P01 := @flt_0_1 K). split; intros E; apply fmul_pos; try flra; apply (pos_of_mul b); auto; flra. }
    destruct (Q x) as [Q1 Q2], (Q y) as [Q3 Q4]. destruct Z as [Z|[Z|[Z|Z]]]; [apply Q1 in Z as W|apply Q2 in Z as W|apply Q3 in Z as W|apply Q4 in Z as W]; flra. }
  assert (a <= b) by (apply LE; auto). assert (b <= a) by (apply LE; auto). destruct (tri a b) as [T|[T|T]]; auto; flra.
Qed.
Lemma direction_scale (v d : vec K) c : 0 < c -> direction_of (vscale c v) d -> direction_of v d.
Proof.
  intros C0 [U [N [a [a0 E]]]]. split; auto. split; [intros Z; apply N; subst; apply vec_eq; cbn; ring|]. exists (a * c). split; [now apply fmul_pos|]. rewrite E. destruct v; apply vec_eq; cbn; ring.
Qed.
Lemma canonical_scale (v : vec K) c : 0 < c -> v <> vzero -> canonical (vscale c v) = canonical v.
Proof.
  intros C0 N. apply (direction_unique v); [|now apply canonical_direction]. apply (direction_scale v _ c); auto. apply canonical_direction. intros Z. apply N. destruct v as [x y]. injection Z as Zx Zy.
  assert (c <> 0) by (intros X; flra). apply vec_eq; cbn in *; apply (fcancel _ _ c); auto; flra.
Qed.
Lemma canonical_opp (v : vec K) : v <> vzero -> canonical (vopp v) = vopp (canonical v).
Proof.
  intros N. destruct (canonical_direction v N) as [[U1 U2] [_ [a [a0 E]]]]. apply (direction_unique (vopp v)); [apply canonical_direction; now apply opp_nz|]. split.
  - destruct (canonical v) as [x y]. cbn in *. split; [cbn; destruct U1 as [? [? [? ?]]]; split; [flra|split; [flra|split; flra]]|]. destruct U2 as [Z|[Z|[Z|Z]]]; [right; left|left|right; right; right|right; right; left]; cbn; flra.
  - split; [now apply opp_nz|]. exists a. split; auto. rewrite E. destruct v; apply vec_eq; cbn; ring.
Qed.
End Dir.

Section C.
Context {K : OField} {L : Type} `{EL : EqB L} (D : L -> Prop) (S : surface K L) (Cat : categories).
Add Field KF : (of_ft K).
Local Open Scope F_scope.
Context (V : valid D S) (C : closed D S) (PRS : forall l P, D l -> s_poly S l = Ok P -> proper P).
Implicit Types (P Q : polygon K) (p q x h w d : vec K) (b : beam K L).
Notation image b P := (im P (bm_sim b)).
Notation w0 b := (fst (bm_wedge b)).
Notation w1 b := (snd (bm_wedge b)).

(** *** edges *)
Lemma new_edge l k P l' e' P' n : (c_positive Cat = true -> positive_dilations D S) -> glued_at D S l k P l' e' P' ->
  saddle_new S Cat (l, k) (edge P k) None None None None true (Datatypes.S n) = Ok (Saddle (l, k) (canonical (edge P k)) (l', e') (canonical (edge P' e')) (edge P k) (edge P' e')).
Proof.
  intros PD G. pose proof (ga_dom _ _ _ _ _ _ _ _ G) as Dl. pose proof (ga_poly _ _ _ _ _ _ _ _ G) as GP. pose proof (PRS _ _ Dl GP) as PR. pose proof (ga_edge _ _ _ _ _ _ _ _ G) as Lk. pose proof (ga_poly' _ _ _ _ _ _ _ _ G) as GP'.
  pose proof (glued_sym _ _ _ _ _ _ _ _ V G) as G'. pose proof (PRS _ _ (ga_dom _ _ _ _ _ _ _ _ G') GP') as PR'.
  assert (N : edge P k <> vzero) by (apply edge_nz; auto). assert (N' : edge P' e' <> vzero) by (apply edge_nz; auto). pose proof (canonical_direction (edge P k) N) as [_ [_ [c [c0 Ec]]]]. set (d := canonical (edge P k)) in *.
  assert (Nd : d <> vzero) by (rewrite Ec; intros Z; apply N; destruct (edge P k) as [x y]; injection Z as Zx Zy; assert (c <> 0) by (intros X; flra); apply vec_eq; cbn in *; apply (fcancel _ _ c); auto; flra).
  assert (SR : same_ray (edge P k) d) by (exists c; auto). destruct (crossing D S V _ _ _ _ _ _ G) as [f [Dl' [Le' [Ef [Ei [M [PA [ED [SC [_ [AF [IP IV]]]]]]]]]]]].
  assert (FO : follows P k (vertex P k) d) by (split; auto; split; auto; exists 0; split; [flra|]; split; [apply flt_0_1|symmetry; apply go_0]).
  assert (NM : normal P (vertex P k) d) by (apply (enters_normal P PR k); auto; right; auto).
  assert (TV : start_tangent_vector S (l, k) d = Ok (TVec l (vertex P k) d (AtVertex k))).
  { unfold start_tangent_vector. cbn [fst snd]. rewrite GP. cbn [bind]. rewrite (tangent_stay D S PRS l P) by auto. now rewrite (at_vertex P PR). }
  destruct (forward_follow D S V PRS l P k (vertex P k) d (AtVertex k) l' e' P' f G Ef Nd FO) as [F1 [O1 FO1]].
  assert (EV : mapply (sim_derivative f) (vopp d) = vscale c (edge P' e')).
  { rewrite Ec. replace (vopp (vscale c (edge P k))) with (vscale (- c) (edge P k)) by (destruct (edge P k); apply vec_eq; cbn; ring). rewrite SC, ED. destruct (edge P' e'); apply vec_eq; cbn; ring. }
  assert (NN : mapply (sim_derivative f) (vopp d) <> vzero) by (apply (m_nz D S V l k P l' e' P' f G Ef); now apply opp_nz).
  destruct (forward_follow D S V PRS l' P' e' _ _ (AtVertex e') l k P (sim_inv f) G' Ei NN FO1) as [F2 [O2 FO2]]. rewrite <- m_opp, opp_opp, IV in F2.
  assert (TR : trajectory_of S (TVec l (vertex P k) d (AtVertex k)) = Ok (Trajectory [Segment (TVec l (vertex P k) d (AtVertex k)) (TVec l' (vertex P' e') (mapply (sim_derivative f) (vopp d)) (AtVertex e'))] None None)).
  { unfold trajectory_of, segment_of. rewrite F1. cbn [bind]. rewrite F2. reflexivity. }
  assert (CE : canonical (mapply (sim_derivative f) (vopp d)) = canonical (edge P' e')) by (rewrite EV; now apply canonical_scale).
  unfold saddle_new. rewrite (proj2 (veqb_neq _ _) N). fold d. cbn [option_map].
  assert (IE : exists o, infer_end_direction S Cat d None None = Ok o /\ agrees veqb o (canonical (edge P' e')) = true).
  { cbn [infer_end_direction]. destruct (c_positive Cat) eqn:EP; [|exists None; split; reflexivity]. exists (Some (vopp d)). split; [reflexivity|]. cbn. apply veqb_eq.
    destruct (PD eq_refl _ _ _ _ _ _ G) as [c' [c'0 E']]. unfold d. rewrite <- canonical_opp by auto. rewrite E'. replace (vscale (- c') (edge P k)) with (vscale c' (vopp (edge P k))) by (destruct (edge P k); apply vec_eq; cbn; ring).
    symmetry. apply canonical_scale; auto. now apply opp_nz. }
  destruct IE as [o [IE AG]]. rewrite IE. cbn [bind]. rewrite TV. cbn [bind]. rewrite TR. cbn [bind].
  assert (FL : flow S (Z.of_nat (Datatypes.S n)) (Trajectory [Segment (TVec l (vertex P k) d (AtVertex k)) (TVec l' (vertex P' e') (mapply (sim_derivative f) (vopp d)) (AtVertex e'))] None None) =
    Ok (Trajectory [Segment (TVec l (vertex P k) d (AtVertex k)) (TVec l' (vertex P' e') (mapply (sim_derivative f) (vopp d)) (AtVertex e'))] None None)).
  { unfold flow. replace (0 <? Z.of_nat (Datatypes.S n))%Z with true by (symmetry; apply Z.ltb_lt; lia). rewrite Nat2Z.id. reflexivity. }
  rewrite FL. cbn [bind is_saddle_connection is_forward_separatrix is_backward_separatrix tj_forward tj_backward negb andb tj_segments last sg_end sg_start tv_position tv_label tv_vector agrees].
  rewrite CE, AG. cbn [negb]. unfold sg_is_edge, start_is_singular, end_is_singular, is_based_at_singularity. cbn [sg_start sg_end tv_position negb orb tv_label tv_vector]. rewrite GP. cbn [bind].
  replace (is_parallel d (edge P k)) with true; [cbn [fst snd]; rewrite GP; cbn [bind]; rewrite GP'; cbn; destruct o; reflexivity|]. symmetry. apply is_parallel_spec. split; auto. exists (1 / c). assert (c <> 0) by (intros X; flra).
  split; [apply fdiv_pos; auto; apply flt_0_1|]. rewrite Ec. destruct (edge P k); apply vec_eq; cbn; field; auto.
Qed.

(** *** the start *)
Context (CV : forall l P, D l -> s_poly S l = Ok P -> is_convex false P = true) (l0 : L) (k0 : nat) (bound : K) (B0 : 0 < bound).
Context P0 (Dl0 : D l0) (GP0 : s_poly S l0 = Ok P0) (Lk0 : (k0 < length P0)%nat).
Notation inv := (inv D S l0 k0).
Definition sim0 : sim K := Sim 1 0 (- fst (vertex P0 k0)) (- snd (vertex P0 k0)) true.
Definition pred0 := ((k0 + length P0 - 1) mod length P0)%nat.
Definition start_beam := Beam sim0 l0 (sim_apply sim0 (vertex P0 ((k0 + 1) mod length P0)), sim_apply sim0 (vertex P0 pred0)) (map (fun i => (k0 + length P0 - i) mod length P0)%nat (rev (seq 2 (length P0 - 2)))).
Notation n0 := (length P0).
Notation i0 := (image start_beam P0).
Lemma sim0_apply p : sim_apply sim0 p = vsub p (vertex P0 k0).
Proof. unfold sim_apply, sim0. cbn. destruct p, (vertex P0 k0); apply vec_eq; cbn; ring. Qed.
Lemma sim0_ok : sim_ok sim0. Proof. apply sim_ok_nz. cbn. intros X. pose proof (@flt_0_1 K). flra. Qed.
Lemma i0_k : i0 k0 = vzero. Proof. unfold im. cbn [bm_sim start_beam]. rewrite sim0_apply. destruct (vertex P0 k0); apply vec_eq; cbn; ring. Qed.
Lemma pred_lt : (pred0 < n0)%nat. Proof. unfold pred0. apply prev_lt; auto. Qed.
Lemma PR0 : proper P0. Proof. now apply (PRS l0). Qed.
Lemma i0_pred : i0 (Datatypes.S pred0) = vzero.
Proof. unfold im, pred0. rewrite (pred_vertex P0 k0 Lk0). apply i0_k. Qed.
Lemma start_w0 : w0 start_beam = i0 (Datatypes.S k0). Proof. cbn [bm_wedge start_beam fst]. now rewrite next_vertex. Qed.
Lemma start_w1 : w1 start_beam = i0 pred0. Proof. reflexivity. Qed.
Lemma start_w0_edge : w0 start_beam = edge P0 k0.
Proof. rewrite start_w0. unfold im. cbn [bm_sim start_beam]. now rewrite sim0_apply. Qed.
Lemma start_w1_edge : w1 start_beam = vopp (edge P0 pred0).
Proof. rewrite start_w1. unfold im. cbn [bm_sim start_beam]. rewrite sim0_apply. unfold edge. unfold pred0. rewrite (pred_vertex P0 k0 Lk0). destruct (vertex P0 k0), (vertex P0 ((k0 + n0 - 1) mod n0)); apply vec_eq; cbn; ring. Qed.
Lemma start_left j : 0 <= ccw (w0 start_beam) (i0 j) /\ 0 <= ccw (i0 j) (w1 start_beam).
Proof.
  pose proof (left_all P0 PR0 (CV _ _ Dl0 GP0) sim0 sim0_ok eq_refl k0 j Lk0) as A. pose proof (left_all P0 PR0 (CV _ _ Dl0 GP0) sim0 sim0_ok eq_refl pred0 j pred_lt) as B.
  change (im P0 sim0) with i0 in A, B. rewrite i0_k in A. rewrite i0_pred in B. rewrite <- start_w0 in A. rewrite <- start_w1 in B. set (y := i0 j) in *. set (u := w0 start_beam) in *. set (u' := w1 start_beam) in *. clearbody y u u'.
  split; [replace (ccw u y) with (orient vzero u y) by (unfold orient, ccw; destruct u, y; cbn; ring); auto|replace (ccw y u') with (orient u' vzero y) by (unfold orient, ccw; destruct u', y; cbn; ring); auto].
Qed.
Lemma start_sharp : 0 < ccw (w0 start_beam) (w1 start_beam) -> sharp_wedge start_beam P0.
Proof.
  intros A. split; auto. set (u := w0 start_beam) in *. set (u' := w1 start_beam) in *. assert (LA : forall x, ccw (vsub u u') x = ccw u x + ccw x u') by (intros [x1 x2]; unfold ccw; destruct u, u'; cbn; ring). assert (S1 := ccw_self u). assert (S2 := ccw_self u').
  exists (vsub u u'). rewrite !LA. split; [flra|]. split; [flra|]. intros j. rewrite LA. destruct (start_left j) as [X Y]. fold u in X. fold u' in Y.
  destruct (tri 0 (ccw u (i0 j) + ccw (i0 j) u')) as [T|[T|T]]; [now right| |flra]. left.
  assert (Z1 : ccw u (i0 j) = 0) by flra. assert (Z2 : ccw (i0 j) u' = 0) by flra. pose proof (three u (i0 j) u') as TT. rewrite Z1, Z2 in TT. rewrite (ccw_anti u' u) in TT.
  set (y := i0 j) in *. set (m := ccw u u') in *. assert (m <> 0) by (intros Q; flra). clearbody y m. destruct y as [y1 y2], u as [u1 u2], u' as [v1 v2]. injection TT as T1 T2. apply vec_eq; cbn in *; apply (fcancel _ _ m); auto; flra.
Qed.
Lemma start_flat : ccw (w0 start_beam) (w1 start_beam) = 0 -> flat_wedge start_beam.
Proof.
  intros Z. pose proof (edge_nz P0 PR0 k0) as N. pose proof (not_back P0 PR0 k0 Lk0) as NB. pose proof (prev_nz P0 PR0 k0) as N'.
  unfold flat_wedge. rewrite start_w0_edge, start_w1_edge in *. unfold pred0 in *. rewrite (prev_test P0 k0 Lk0) in *. destruct (PPos.collinear (edge P0 k0) (prev_edge P0 k0) N N' Z NB) as [t [T0 E]]. exists t. auto.
Qed.
Lemma start_inv : inv None start_beam P0.
Proof.
  split; auto; [apply sim0_ok| |].
  - destruct (start_left pred0) as [A _]. rewrite <- start_w1 in A. destruct (tri 0 (ccw (w0 start_beam) (w1 start_beam))) as [T|[T|T]]; [left; now apply start_sharp|right; now apply start_flat|flra].
  - intros h [H1 H2]. exists 0. split; [flra|]. split; [|split; [|split; [|reflexivity]]].
    + apply (rs_start D S l0 k0 h P0); auto. intros p. apply sim0_apply.
    + intros j J. replace (vscale 0 h) with (i0 k0) by (rewrite i0_k; destruct h; apply vec_eq; cbn; ring). apply (left_all P0 PR0 (CV _ _ Dl0 GP0) sim0 sim0_ok eq_refl); auto.
    + exists (Datatypes.S k0), pred0. rewrite <- start_w0, <- start_w1. auto.
Qed.
Lemma n0_three : (3 <= n0)%nat. Proof. destruct (v_poly _ _ V l0 Dl0) as [Q [GQ [LQ _]]]. rewrite GP0 in GQ. now injection GQ as ->. Qed.
Lemma start_verts : verts_ok start_beam P0.
Proof. pose proof n0_three. split; cbn [bm_verts start_beam]; [intros v I; apply others_start in I; [tauto|auto|lia]|apply others_nodup; [auto|lia]]. Qed.
Lemma start_full : full start_beam P0.
Proof.
  pose proof n0_three. split; intros j J X; cbn [bm_verts start_beam]; apply others_start; auto; try lia; (split; [auto|]).
  - split; intros ->; [rewrite i0_k in X|fold pred0 in X; rewrite i0_pred in X]; unfold ccw in X; [destruct (i0 (Datatypes.S k0))|destruct (i0 pred0)]; cbn in X; flra.
  - destruct X as [X Y]. split; intros ->; [rewrite i0_k in X; unfold ccw in X; destruct (w0 start_beam); cbn in X; flra|]. fold pred0 in Y. rewrite start_w1, ccw_self in Y. flra.
Qed.

(** *** completeness *)
Notation explore := (explore S Cat l0 k0 bound).
Lemma explore_child b out : explore b out -> forall P v b', s_poly S (bm_label b) = Ok P -> In v (bm_verts b) -> beam_edge S bound b P v = Ok (Some b') -> exists out', explore b' out' /\ incl out' out.
Proof.
  induction 1 as [b EV|b P v vs cs out EV GP EC EE X IH|b P v vs cs b' out' out EV GP EC EE X' IH' X IH]; intros P1 v1 b1 GP1 IN E1.
  - rewrite EV in IN. destruct IN.
  - rewrite EV in IN. assert (P1 = P) by congruence. subst P1. destruct IN as [<-|IN]; [congruence|]. destruct (IH P v1 b1 GP IN E1) as [o [O1 O2]]. exists o. split; auto. intros c Ic. apply in_or_app. right. auto.
  - rewrite EV in IN. assert (P1 = P) by congruence. subst P1. destruct IN as [<-|IN].
    + assert (b1 = b') by congruence. subst b1. exists out'. split; auto. intros c Ic. apply in_or_app. right. apply in_or_app. now left.
    + destruct (IH P v1 b1 GP IN E1) as [o [O1 O2]]. exists o. split; auto. intros c Ic. apply in_or_app. right. apply in_or_app. right. auto.
Qed.
Lemma explore_vertex b out : explore b out -> forall P v c, s_poly S (bm_label b) = Ok P -> In v (bm_verts b) -> beam_vertex S Cat bound (l0, k0) b P v = Ok [c] -> In c out.
Proof.
  induction 1 as [b EV|b P v vs cs out EV GP EC EE X IH|b P v vs cs b' out' out EV GP EC EE X' IH' X IH]; intros P1 v1 c GP1 IN E1.
  - rewrite EV in IN. destruct IN.
  - rewrite EV in IN. assert (P1 = P) by congruence. subst P1. apply in_or_app. destruct IN as [<-|IN]; [left; assert (cs = [c]) by congruence; subst; now left|]. right. apply (IH P v1 c GP IN E1).
  - rewrite EV in IN. assert (P1 = P) by congruence. subst P1. apply in_or_app. destruct IN as [<-|IN]; [left; assert (cs = [c]) by congruence; subst; now left|]. right. apply in_or_app. right. apply (IH P v1 c GP IN E1).
Qed.
Lemma reaches_nonneg h s l F : reaches D S l0 k0 h s l F -> 0 <= s.
Proof. induction 1 as [|s l F e P l' e' P' G t F' R IH]; flra. Qed.
Lemma cross_edge via b P e h (t : K) : inv via b P -> sharp_wedge b P -> (e < length P)%nat -> inw b h -> 0 < t -> t < 1 -> length2 h <= bound ->
  0 < ccw (image b P e) (image b P (Datatypes.S e)) -> on_open (image b P e) (image b P (Datatypes.S e)) (vscale t h) ->
  exists b', beam_edge S bound b P e = Ok (Some b').
Proof.
  intros I SW Le W T0 T1 LB A O. destruct (on_open_sides _ _ _ _ T0 A O) as [H1 H2]. destruct SW as [WW [d [D0 [D1 DV]]]]. destruct W as [W0 W1].
  pose proof (within_pos d _ _ h D0 D1 WW (conj W0 W1)) as Dh.
  assert (Dp : 0 < ccw d (image b P e)). { destruct (DV e) as [Z|Z]; auto. exfalso. rewrite Z in A. unfold ccw in A. destruct (image b P (Datatypes.S e)); cbn in A. flra. }
  assert (Dq : 0 < ccw d (image b P (Datatypes.S e))). { destruct (DV (Datatypes.S e)) as [Z|Z]; auto. exfalso. rewrite Z in A. unfold ccw in A. destruct (image b P e); cbn in A. flra. }
  assert (B : 0 < ccw (w0 b) (image b P (Datatypes.S e))) by (apply (trans_r d _ h); auto; flra).
  assert (E : 0 < ccw (image b P e) (w1 b)) by (apply (trans_r d _ h); auto; flra).
  pose proof (iv_dom _ _ _ _ _ _ _ I) as Dl. pose proof (iv_poly _ _ _ _ _ _ _ I) as GP.
  destruct (glue_ex D S V C (bm_label b) P e Dl GP Le) as [l' [e' [Q G]]]. destruct (gluing_exists D S _ _ _ _ _ _ V G) as [g [Eg _]].
  unfold beam_edge. rewrite next_vertex. fold (image b P e). fold (image b P (Datatypes.S e)). rewrite A, B, E. cbn [andb].
  assert (NE : image b P e <> image b P (Datatypes.S e)) by (intros Z; rewrite Z, ccw_self in A; flra).
  destruct (C23_line_segment K (Circle vzero bound) _ _ NE) as [z [Ez [[_ Z1] _]]]. rewrite Ez. cbn [bind]. rewrite Z1.
  - cbn. unfold opp_pair. rewrite (ga_opp _ _ _ _ _ _ _ _ G). cbn [bind]. rewrite Eg. cbn [bind fst snd]. rewrite (ga_poly' _ _ _ _ _ _ _ _ G). cbn [bind]. eauto.
  - exists (vscale t h). split; [exact O|]. unfold in_disc, dist2. cbn [ci_center ci_r2].
    assert (HP : 0 < length2 h).
    { unfold length2. destruct h as [x y]. cbn. destruct (tri (x * x + y * y) 0) as [Z|[Z|Z]]; auto; [|]; exfalso; [fnra|]. assert (x = 0) by fnra. assert (y = 0) by fnra. subst. unfold ccw in H1. cbn in H1. destruct (image b P e). cbn in H1. flra. }
    assert (0 < (1 - t * t) * length2 h) by (apply fmul_pos; auto; fnra). unfold length2, dot in *. destruct h as [x y]; cbn in *. flra.
Qed.
Lemma complete_beam out0 : 0 < ccw (w0 start_beam) (w1 start_beam) -> explore start_beam out0 ->
  forall h s l F, reaches D S l0 k0 h s l F -> forall P (t' : K), s_poly S l = Ok P -> s < t' -> inside_between P F h s t' -> s < 1 -> length2 h <= bound ->
  exists b out via, explore b out /\ incl out out0 /\ inv via b P /\ sharp_wedge b P /\ full b P /\ bm_label b = l /\ (forall p, F p = sim_apply (bm_sim b) p) /\ inw b h.
Proof.
  intros SH EX h s l F R. induction R as [P1 F D1 GP1 LK1 EF|s l F e P l' e' P' G t F' R IH GA GM ST IB [p [Ep Fp]] EF']; intros Q t' GQ TT IBQ S1 LB.
  - assert (P1 = P0) by congruence. subst P1. assert (Q = P0) by congruence. subst Q. exists start_beam, out0, None. split; auto. split; [apply incl_refl|]. split; [apply start_inv|]. split; [now apply start_sharp|]. split; [apply start_full|].
    split; [reflexivity|]. split; [intros q; rewrite EF; symmetry; apply sim0_apply|].
    destruct (half t' TT) as [u [U0 [U1 _]]]. destruct (IBQ u U0 U1) as [p [Ip Ep]]. rewrite EF, <- sim0_apply in Ep.
    pose proof (proj1 (im_inside P0 PR0 (CV _ _ Dl0 GP0) sim0 sim0_ok eq_refl (vscale u h)) (ex_intro _ p (conj Ip Ep))) as IN.
    pose proof (IN k0 Lk0) as A. pose proof (IN pred0 pred_lt) as B. change (im P0 sim0) with i0 in A, B. rewrite i0_k in A. rewrite i0_pred in B. rewrite <- start_w0 in A. rewrite <- start_w1 in B.
    set (a := w0 start_beam) in *. set (a' := w1 start_beam) in *. unfold inw, within. fold a a'. clearbody a a'. split; apply (pos_of_mul u); auto.
    + replace (u * ccw a h) with (orient vzero a (vscale u h)) by (unfold orient, ccw; destruct a, h; cbn; ring). exact A.
    + replace (u * ccw h a') with (orient a' vzero (vscale u h)) by (unfold orient, ccw; destruct a', h; cbn; ring). exact B.
  - assert (Q = P') by (pose proof (ga_poly' _ _ _ _ _ _ _ _ GA); congruence). subst Q. pose proof (ga_poly _ _ _ _ _ _ _ _ GA) as GP. pose proof (ga_dom _ _ _ _ _ _ _ _ GA) as Dl. pose proof (ga_edge _ _ _ _ _ _ _ _ GA) as Le.
    destruct (IH P t GP ST IB ltac:(flra) LB) as [b [out [via [X [IC [I [SW [FU [EL' [EF W]]]]]]]]]]. pose proof (reaches_nonneg _ _ _ _ R) as S0. subst l.
    pose proof (PRS _ _ Dl GP) as PR. pose proof (CV _ _ Dl GP) as CP. pose proof (iv_ok _ _ _ _ _ _ _ I) as OK. pose proof (iv_sign _ _ _ _ _ _ _ I) as SG. rewrite EF in Fp.
    destruct (proj1 (im_edge P PR (bm_sim b) e (vscale t h)) (ex_intro _ p (conj Ep Fp))) as [_ O].
    destruct (half (t - s) ltac:(flra)) as [u [U0 [U1 _]]]. destruct (IB (s + u) ltac:(flra) ltac:(flra)) as [p' [Ip' Fp']]. rewrite EF in Fp'.
    pose proof (proj1 (im_inside P PR CP (bm_sim b) OK SG _) (ex_intro _ p' (conj Ip' Fp')) e Le) as A. pose proof (orient_on _ _ _ O) as Z. rewrite orient_ray in A, Z.
    set (al := ccw (image b P e) (image b P (Datatypes.S e))) in *. set (be := ccw (vsub (image b P (Datatypes.S e)) (image b P e)) h) in *.
    assert (NB : 0 < - be) by (apply (pos_of_mul (t - s - u)); flra). assert (PA : 0 < al) by (assert (0 < t * - be) by (apply fmul_pos; flra); flra).
    destruct (cross_edge via b P e h t I SW Le W ltac:(flra) S1 LB PA O) as [b' Eb]. pose proof (fu_edges _ _ FU e Le PA) as INe. destruct (explore_child b out X P e b' GP INe Eb) as [out' [X' IC']].
    destruct (beam_edge_some D S V C bound b P e b' GP Le Dl Eb) as [l2 [e2 [Q2 [g [G2 [Eg [A2 [B2 [E2 Eb']]]]]]]]].
    assert (EE : l2 = l' /\ e2 = e') by (pose proof (ga_opp _ _ _ _ _ _ _ _ G2) as O1; pose proof (ga_opp _ _ _ _ _ _ _ _ GA) as O2; rewrite O1 in O2; injection O2 as -> ->; auto). destruct EE as [-> ->].
    assert (Q2 = P') by (pose proof (ga_poly' _ _ _ _ _ _ _ _ G2); congruence). subst Q2. exists b', out', (Some e'). split; auto. split; [intros c Ic; apply IC; auto|].
    rewrite Eb'. split; [now apply (child_inv D S V PRS CV l0 k0 b P via)|]. split; [now apply (child_sharp D S V PRS CV l0 k0 b P via)|]. split; [now apply (child_full D S V l0 k0 b P via)|]. split; [reflexivity|]. split.
    + intros q. pose proof (proj1 (gluing_map_iff D S _ _ _ _ _ _ g V GA Eg G) GM) as EG. destruct (g_facts D S V b P e l' e' P' g G2 Eg) as [Kg _].
      rewrite <- (sim_apply_inv g q Kg). rewrite <- EG, EF', EF, EG. symmetry. apply (child_sim D S V b P e l' e' P' g G2 Eg).
    + apply (child_widen D S l0 k0 b P via); auto. apply (on_open_sides _ _ _ t); auto. flra.
Qed.
Lemma complete_search out0 : 0 < ccw (w0 start_beam) (w1 start_beam) -> explore start_beam out0 ->
  forall h y h', is_saddle D S (l0, k0) h y h' -> length2 h <= bound -> h = edge P0 k0 \/ exists c, In c out0 /\ sc_holonomy c = h /\ sc_end c = y /\ sc_end_holonomy c = h'.
Proof.
  intros SH EX h [l k] h' [[P [P' [G [-> _]]]]|[s [F [P [R [S1 [GP [Lk [IB [Fk Fh]]]]]]]]]] LB.
  - left. cbn [fst snd] in *. pose proof (ga_poly _ _ _ _ _ _ _ _ G). congruence.
  - right. cbn [fst snd] in *. destruct (complete_beam out0 SH EX h s l F R P 1 GP S1 IB S1 LB) as [b [out [via [X [IC [I [SW [FU [EL' [EF W]]]]]]]]]]. subst l. rewrite EF in Fk. fold (image b P k) in Fk.
    rewrite <- Fk in W, LB. pose proof (fu_verts _ _ FU k Lk W) as INk. destruct (beam_vertex_spec S Cat l0 k0 bound b P k) as [[_ [_ E]]|[NE _]]; [|exfalso; auto].
    exists (found l0 k0 b P k). split; [apply IC; now apply (explore_vertex b out X P k)|]. split; [exact Fk|]. split; [reflexivity|]. cbn [found sc_end_holonomy].
    pose proof (iv_ok _ _ _ _ _ _ _ I) as OK. pose proof (end_holonomy b (vertex P k) OK) as EH. fold (image b P k) in EH. rewrite EF, <- EH in Fh. apply (im_inj (bm_sim b) OK) in Fh.
    set (z := mapply _ _) in *. clearbody z. destruct h' as [a1 a2], z as [b1 b2], (vertex P k) as [c1 c2]. injection Fh as E1 E2. apply vec_eq; cbn; flra.
Qed.
End C.
