(** Tangent vectors: the constructor chooses one of the descriptions of a tangent vector. *)
From Coq Require Import List Bool ZArith Arith Lia Ring Field Relations.
From Verif Require Import OField FMicromega PField MBase MDict MMut SMut MEuclid SEuclid PEuclid MSim SSim PSim MPoly PPoly PTurn SPoint PPoint MSurf SSurf PSurf PSurf3 PDelaunay PPoint2 PPoint3 SCut PJordan PJordan2 PJordan3 PJordan4 PJordan5 PConvex PEar2 PEar5 PPos PPos2 TPos PLocal PLocal2 MTangent PExit STangent PInward.
Import ListNotations.

Section C.
Context {K : OField}.
Add Field KF : (of_ft K).
Local Open Scope F_scope.
Implicit Types (P : polygon K) (p x v : vec K).

Lemma opp_opp v : vopp (vopp v) = v. Proof. destruct v; apply vec_eq; cbn; ring. Qed.
Lemma opp_nz v : v <> vzero -> vopp v <> vzero.
Proof. intros N X. apply N. rewrite <- (opp_opp v), X. apply vec_eq; cbn; ring. Qed.
Lemma opp_scale (c : K) v : vopp (vscale c v) = vscale c (vopp v). Proof. destruct v; apply vec_eq; cbn; ring. Qed.
Lemma opp_ray v w : same_ray v w -> same_ray (vopp v) (vopp w).
Proof. intros [t [T ->]]. exists t. split; auto. apply opp_scale. Qed.
Lemma ray_ccw v w : same_ray v w -> ccw v w = 0.
Proof. intros [t [T ->]]. unfold ccw. destruct v; cbn; ring. Qed.
Lemma ray_dec v w : v <> vzero -> w <> vzero -> same_ray v w \/ ~ same_ray v w.
Proof.
  intros V W. destruct (is_anti_parallel (vopp v) w) eqn:X.
  - left. apply anti_ray in X; auto; [|now apply opp_nz]. now rewrite opp_opp in X.
  - right. intros Y. assert (Z : is_anti_parallel (vopp v) w = true); [|congruence]. apply anti_ray; auto; [now apply opp_nz|]. now rewrite opp_opp.
Qed.
Lemma go_opp p (t : K) v : go p t (vopp v) = go p (- t) v.
Proof. unfold go. destruct p, v; apply vec_eq; cbn; ring. Qed.
Lemma go_go p (s t : K) v : go (go p s v) t v = go p (s + t) v.
Proof. unfold go. destruct p, v; apply vec_eq; cbn; ring. Qed.
Lemma ray_nz v w : same_ray v w -> v <> vzero -> w <> vzero.
Proof. intros [t [T ->]] V. apply scale_nz; auto. intros X; rewrite X in T; now apply flt_irrefl in T. Qed.

(** what a vector does at an edge: it goes through it from inside or along it clockwise, or the converse *)
Definition leaves P e p v := (get_point_position P p = EdgeInterior e /\ (ccw (edge P e) v < 0 \/ same_ray (vopp (edge P e)) v)) \/
  (p = vertex P (S e) /\ same_ray (vopp (edge P e)) v).
Definition enters P e p v := (get_point_position P p = EdgeInterior e /\ 0 <= ccw (edge P e) v /\ ~ same_ray (vopp (edge P e)) v) \/
  (p = vertex P e /\ same_ray (edge P e) v).

Section P.
Context (P : polygon K) (PR : proper P).
Notation n := (length P).
Lemma go_start e : go (vertex P e) 0 (edge P e) = vertex P e. Proof. apply go_0. Qed.
Lemma go_end e : go (vertex P e) 1 (edge P e) = vertex P (S e).
Proof. unfold go, edge. destruct (vertex P e), (vertex P (S e)); apply vec_eq; cbn; ring. Qed.
Lemma on_side e (s : K) : 0 <= s -> s <= 1 -> on_segment (side P e) (go (vertex P e) s (edge P e)).
Proof. intros A B. apply side_segment. now exists s. Qed.
Lemma side_go e (s : K) : on_segment (side P e) (go (vertex P e) s (edge P e)) -> 0 <= s /\ s <= 1.
Proof. intros H. rewrite side_segment in H. destruct H as [t [T0 [T1 E]]]. apply go_inj in E; [|now apply edge_nz]. now subst t. Qed.
Lemma along_ray e p v : v <> vzero -> along P e p v -> (same_ray (edge P e) v \/ same_ray (vopp (edge P e)) v) /\
  exists s, 0 <= s /\ s <= 1 /\ p = go (vertex P e) s (edge P e) /\ (same_ray (edge P e) v -> s < 1) /\ (same_ray (vopp (edge P e)) v -> 0 < s).
Proof.
  intros V [O [r [R O']]]. rewrite side_segment in O. destruct O as [s [S0 [S1 E]]]. rewrite side_segment in O'. destruct O' as [u [U0 [U1 E']]].
  assert (RN : r <> 0) by (intros X; rewrite X in R; now apply flt_irrefl in R).
  assert (Ev : v = vscale ((u - s) / r) (edge P e)).
  { clear -E E' RN. unfold moved in E'. rewrite E in E'. clear E. revert E'. generalize (vertex P e), (edge P e). intros [a b] [c d] E'. destruct v as [v1 v2]. injection E' as X1 X2.
    apply vec_eq; cbn [vscale fst snd]; (apply (fcancel _ _ r); [auto|]); [transitivity (a + s * c + r * v1 - (a + s * c))|transitivity (b + s * d + r * v2 - (b + s * d))]; try ring; [rewrite X1|rewrite X2]; field; auto. }
  pose proof (edge_nz P PR e) as EN. assert (C1 : same_ray (edge P e) v -> 0 < u - s).
  { intros [t [T0 T]]. rewrite Ev in T. assert (X : go vzero ((u - s) / r) (edge P e) = go vzero t (edge P e)) by (unfold go; now rewrite T).
    apply go_inj in X; auto. assert (X' : u - s = t * r) by (rewrite <- X; field; auto). rewrite X'. now apply fmul_pos. }
  assert (C2 : same_ray (vopp (edge P e)) v -> u - s < 0).
  { intros [t [T0 T]]. rewrite Ev in T. assert (X : go vzero ((u - s) / r) (edge P e) = go vzero (- t) (edge P e)).
    { unfold go. rewrite T. destruct (edge P e); apply vec_eq; cbn; ring. }
    apply go_inj in X; auto. assert (X' : u - s = - (t * r)) by (transitivity ((u - s) / r * r); [field; auto|rewrite X; ring]). pose proof (fmul_pos _ _ T0 R). flra. }
  split.
  - destruct (flt_total (u - s)) as [Z|[Z|Z]].
    + right. exists ((s - u) / r). split; [apply fdiv_pos; flra|]. rewrite Ev. destruct (edge P e); apply vec_eq; cbn [vscale vopp fst snd]; field; auto.
    + exfalso. apply V. rewrite Ev, Z. destruct (edge P e); apply vec_eq; cbn [vscale vzero fst snd]; field; auto.
    + left. exists ((u - s) / r). split; [now apply fdiv_pos|auto].
  - exists s. split; auto. split; auto. split; auto. split; intros X; [specialize (C1 X)|specialize (C2 X)]; flra.
Qed.
Lemma along_of e (s c : K) : 0 <= s -> s <= 1 -> (0 < c /\ s < 1 \/ c < 0 /\ 0 < s) -> along P e (go (vertex P e) s (edge P e)) (vscale c (edge P e)).
Proof.
  intros S0 S1 H. split; [now apply on_side|]. destruct H as [[C H]|[C H]].
  - assert (C' : c <> 0) by (intros X; rewrite X in C; now apply flt_irrefl in C).
    exists ((1 - s) / c). split; [apply fdiv_pos; flra|]. replace (moved _ _ _) with (go (vertex P e) 1 (edge P e)); [apply on_side; [pose proof (@flt_0_1 K)|]; flra|].
    unfold moved, go. destruct (vertex P e), (edge P e); apply vec_eq; cbn [vadd vscale fst snd]; field; auto.
  - assert (C' : c <> 0) by (intros X; rewrite X in C; now apply flt_irrefl in C).
    exists (s / - c). split; [apply fdiv_pos; flra|]. replace (moved _ _ _) with (go (vertex P e) 0 (edge P e)); [apply on_side; [|pose proof (@flt_0_1 K)]; flra|].
    unfold moved, go. destruct (vertex P e), (edge P e); apply vec_eq; cbn [vadd vscale fst snd]; field; auto; intros X; apply C'; flra.
Qed.
Lemma clock_of e (s : K) v : (e < n)%nat -> 0 < s -> s <= 1 -> same_ray (vopp (edge P e)) v -> clockwise P (go (vertex P e) s (edge P e)) v.
Proof.
  intros L S0 S1 [t [T0 ->]]. assert (E : vscale t (vopp (edge P e)) = vscale (- t) (edge P e)) by (destruct (edge P e); apply vec_eq; cbn; ring). rewrite E.
  exists e, (- t). split; auto. split; [apply along_of; [flra|auto|right; split; flra]|]. split; [flra|auto].
Qed.
Lemma clock_edge p v : clockwise P p v -> exists e s, (e < n)%nat /\ 0 < s /\ s <= 1 /\ p = go (vertex P e) s (edge P e) /\ same_ray (vopp (edge P e)) v.
Proof.
  intros [e [c [L [A [C E]]]]]. pose proof (edge_nz P PR e) as EN. assert (R : same_ray (vopp (edge P e)) v) by (exists (- c); split; [flra|]; rewrite E; destruct (edge P e); apply vec_eq; cbn; ring).
  assert (V : v <> vzero) by (apply (ray_nz _ _ R); now apply opp_nz). destruct (along_ray e p v V A) as [_ [s [S0 [S1 [Ep [_ H]]]]]].
  exists e, s. split; auto.
Qed.
Lemma at_edge e (s : K) : (e < n)%nat -> 0 < s -> s < 1 -> get_point_position P (go (vertex P e) s (edge P e)) = EdgeInterior e.
Proof. intros L S0 S1. apply C57_edge; auto. split; auto. now exists s. Qed.
Lemma at_vertex k : (k < n)%nat -> get_point_position P (vertex P k) = AtVertex k.
Proof. intros L. apply C57_vertex; auto. Qed.
Lemma at_vertex' k : get_point_position P (vertex P k) = AtVertex (k mod n).
Proof. destruct PR as [N3 _]. apply C57_vertex; auto. split; [apply Nat.mod_upper_bound; lia|now rewrite vertex_mod]. Qed.
Lemma clock_edgepoint e p v : get_point_position P p = EdgeInterior e -> clockwise P p v <-> same_ray (vopp (edge P e)) v.
Proof.
  intros H. pose proof (edge_lt P PR e p H) as L. destruct (edge_point P PR e p L H) as [s [S0 [S1 E]]]. split.
  - intros C. destruct (clock_edge p v C) as [e' [s' [L' [S0' [S1' [E' R]]]]]]. destruct (feq_dec s' 1) as [->|N].
    + rewrite go_end in E'. rewrite E', at_vertex' in H. discriminate.
    + assert (S1'' : s' < 1) by (apply fneq_lt in N; destruct N; flra). rewrite E', at_edge in H by auto. injection H as <-. exact R.
  - intros R. rewrite E. apply clock_of; auto. flra.
Qed.
Lemma pred_vertex k : (k < n)%nat -> vertex P (S ((k + n - 1) mod n)) = vertex P k.
Proof.
  intros L. rewrite <- (vertex_mod P (S _)). rewrite <- Nat.add_1_l, Nat.add_mod_idemp_r by lia. rewrite vertex_mod. replace (1 + (k + n - 1))%nat with (k + n)%nat by lia. apply vertex_add; lia.
Qed.
Lemma succ_pred e k : (e < n)%nat -> (k < n)%nat -> (S e mod n)%nat = k -> ((k + n - 1) mod n)%nat = e.
Proof.
  intros L K0 <-. destruct (Nat.eq_dec (S e) n) as [X|X].
  - rewrite X, Nat.mod_same by lia. rewrite Nat.mod_small; lia.
  - rewrite (Nat.mod_small (S e)) by lia. replace (S e + n - 1)%nat with (e + 1 * n)%nat by lia. rewrite Nat.mod_add by lia. apply Nat.mod_small; lia.
Qed.
Lemma clock_vertex k v : (k < n)%nat -> clockwise P (vertex P k) v <-> same_ray (prev_edge P k) v.
Proof.
  intros L. pose proof (at_vertex k L) as H. split.
  - intros C. destruct (clock_edge _ v C) as [e' [s' [L' [S0' [S1' [E' R]]]]]]. destruct (feq_dec s' 1) as [->|N].
    + rewrite go_end in E'. rewrite E', at_vertex' in H. injection H as H. rewrite <- (prev_test P k L). now rewrite (succ_pred e' k).
    + assert (S1'' : s' < 1) by (apply fneq_lt in N; destruct N; flra). rewrite E', at_edge in H by auto. discriminate.
  - intros R. set (e := ((k + n - 1) mod n)%nat). assert (Le : (e < n)%nat) by (apply Nat.mod_upper_bound; lia).
    rewrite <- (pred_vertex k L). fold e. rewrite <- go_end. pose proof (@flt_0_1 K). apply clock_of; auto; [flra|]. unfold e. now rewrite prev_test.
Qed.
Lemma clock_off p v : get_point_position P p = Interior \/ get_point_position P p = Outside -> ~ clockwise P p v.
Proof.
  intros H C. apply (off_bound P PR p H). destruct (clock_edge p v C) as [e [s [L [S0 [S1 [E R]]]]]]. exists e. split; auto. rewrite E. apply on_side; auto. flra.
Qed.
Lemma leaves_clock e p v : (e < n)%nat -> leaves P e p v -> ~ normal P p v.
Proof.
  intros L [[H [C|C]]|[H C]] [N1 N2 N3].
  - apply (into_edge P PR e) in N2; auto. flra.
  - apply N3. now apply (clock_edgepoint e).
  - apply N3. rewrite H, <- go_end. pose proof (@flt_0_1 K). apply clock_of; auto. flra.
Qed.
Lemma enters_normal e p v : (e < n)%nat -> v <> vzero -> enters P e p v -> normal P p v.
Proof.
  intros L V [[H [C R]]|[-> R]].
  - constructor; auto; [now apply (into_edge P PR e)|]. now rewrite (clock_edgepoint e).
  - pose proof (not_back P PR e L) as NB. constructor; auto.
    + apply into_vertex; auto. apply between_ray_r; auto; [now apply prev_nz|now apply edge_nz|]. intros X; now apply NB, same_ray_sym.
    + rewrite clock_vertex by auto. intros X. apply NB. apply (same_ray_trans v); now apply same_ray_sym.
Qed.
(** the cases that the constructor distinguishes *)
Lemma normal_cases p v : v <> vzero -> in_polygon P p ->
  normal P p v \/ (exists e, (e < n)%nat /\ leaves P e p v) \/ ((exists k, (k < n)%nat /\ p = vertex P k) /\ ~ points_into P p v).
Proof.
  intros V I. unfold in_polygon in I. destruct (get_point_position P p) as [| |e|k] eqn:H; try contradiction.
  - left. constructor; auto; [now apply into_interior|apply clock_off; auto].
  - pose proof (edge_lt P PR e p H) as L. destruct (ccw (edge P e) v <? 0) eqn:X.
    + right; left. exists e. split; auto. left. split; auto.
    + apply fltb_ge in X. destruct (ray_dec (vopp (edge P e)) v) as [R|R]; auto; [apply opp_nz, edge_nz; auto| |].
      * right; left. exists e. split; auto. left. split; auto.
      * left. apply (enters_normal e); auto. left. auto.
  - destruct (vertex_lt P PR k p H) as [L ->]. destruct (is_between (prev_edge P k) (edge P k) v) eqn:B.
    + right; right. split; [now exists k|]. rewrite into_vertex by auto. congruence.
    + destruct (ray_dec (prev_edge P k) v) as [R|R]; auto; [now apply prev_nz| |].
      * right; left. exists ((k + n - 1) mod n)%nat. split; [apply Nat.mod_upper_bound; lia|]. right. rewrite pred_vertex, prev_test by auto. auto.
      * left. constructor; auto; [now apply into_vertex|now rewrite clock_vertex].
Qed.
End P.

Section Surface.
Context {L : Type} `{EqB L}.
Context (D : L -> Prop) (S : surface K L) (V : valid D S) (PRS : forall l P, D l -> s_poly S l = Ok P -> proper P).
Notation tvec := (tvec K L).
Implicit Types (t u : tvec).


Lemma tangent_zero l P p : s_poly S l = Ok P -> tangent_vector S l p vzero = Err NotImplementedError.
Proof. intros GP. unfold tangent_vector. rewrite GP. cbn [bind]. assert (E : veqb (@vzero K) vzero = true) by now apply veqb_eq. now rewrite E. Qed.
Lemma tangent_stay l P p v : D l -> s_poly S l = Ok P -> normal P p v -> tangent_vector S l p v = Ok (TVec l p v (get_point_position P p)).
Proof.
  intros Dl GP N. pose proof (PRS l P Dl GP) as PR. pose proof N as [N1 N2 N3]. unfold tangent_vector. rewrite GP. cbn [bind].
  assert (E : veqb v vzero = false) by now apply veqb_neq. rewrite E. destruct (get_point_position P p) as [| |e|k] eqn:H0; auto.
  - exfalso. now apply (into_in P PR p v).
  - pose proof (edge_lt P PR e p H0) as Le. apply (into_edge P PR e) in N2; auto. rewrite (clock_edgepoint P PR e) in N3 by auto.
    assert (X : (ccw (edge P e) v <? 0) = false) by now apply fltb_ge. rewrite X. cbn [orb].
    destruct (is_anti_parallel (edge P e) v) eqn:Y; auto. exfalso. apply N3. apply anti_ray in Y; auto. now apply edge_nz.
  - destruct (vertex_lt P PR k p H0) as [Lk ->]. rewrite (prev_test P k Lk). apply into_vertex in N2; auto. rewrite N2. rewrite clock_vertex in N3 by auto.
    destruct (is_anti_parallel (edge P ((k + length P - 1) mod length P)) v) eqn:Y; auto. exfalso. apply N3. apply anti_ray in Y; auto; [|now apply edge_nz].
    now rewrite (prev_test P k Lk) in Y.
Qed.
Lemma tangent_leave l P e p v : D l -> s_poly S l = Ok P -> (e < length P)%nat -> v <> vzero -> leaves P e p v -> tangent_vector S l p v = tv_move S l e p v.
Proof.
  intros Dl GP Le N LV. pose proof (PRS l P Dl GP) as PR. unfold tangent_vector. rewrite GP. cbn [bind].
  assert (E : veqb v vzero = false) by now apply veqb_neq. rewrite E. destruct LV as [[X C]|[X C]].
  - rewrite X. destruct C as [C|C].
    + assert (Y : (ccw (edge P e) v <? 0) = true) by exact C. now rewrite Y.
    + assert (Y : is_anti_parallel (edge P e) v = true) by (apply anti_ray; auto; now apply edge_nz). rewrite Y. now rewrite orb_true_r.
  - set (k := (Datatypes.S e mod length P)%nat). assert (Lk : (k < length P)%nat) by (apply Nat.mod_upper_bound; lia).
    assert (Ek : ((k + length P - 1) mod length P)%nat = e) by now apply succ_pred.
    rewrite X, (at_vertex' P PR). fold k. rewrite Ek. assert (Y : is_anti_parallel (edge P e) v = true) by (apply anti_ray; auto; now apply edge_nz). rewrite Y.
    assert (Z : vopp (edge P e) = prev_edge P k) by (rewrite <- (prev_test P k Lk), Ek; reflexivity). rewrite Z in *.
    rewrite between_ray_l; auto; [now apply prev_nz|now apply edge_nz|]. intros W. now apply (not_back P PR k Lk), same_ray_sym.
Qed.

(** the gluings *)
Lemma crossing l e P l' e' P' : glued_at D S l e P l' e' P' -> exists f, D l' /\ (e' < length P')%nat /\ edge_transformation S l e = Ok f /\ edge_transformation S l' e' = Ok (sim_inv f) /\
  gluing_map P e P' e' (sim_apply f) /\
  (forall s, sim_apply f (go (vertex P e) s (edge P e)) = go (vertex P' e') (1 - s) (edge P' e')) /\
  mapply (sim_derivative f) (edge P e) = vopp (edge P' e') /\
  (forall c v, mapply (sim_derivative f) (vscale c v) = vscale c (mapply (sim_derivative f) v)) /\
  (exists c, 0 < c /\ forall a b, ccw (mapply (sim_derivative f) a) (mapply (sim_derivative f) b) = c * ccw a b) /\
  (forall p v, sim_apply f (vadd p v) = vadd (sim_apply f p) (mapply (sim_derivative f) v)) /\
  (forall p, sim_apply (sim_inv f) (sim_apply f p) = p) /\
  (forall v, mapply (sim_derivative (sim_inv f)) (mapply (sim_derivative f) v) = v).
Proof.
  intros G. pose proof (glued_sym _ _ _ _ _ _ _ _ V G) as G'. destruct (gluing_exists D S l e P l' e' P' V G) as [f [Ef [Kf [Sf M]]]]. exists f.
  split; [apply G'|]. split; [apply G'|]. split; auto. split; [now apply (edge_transformation_inverse D S l e P l' e' P')|]. split; auto.
  assert (AF : forall p v, sim_apply f (vadd p v) = vadd (sim_apply f p) (mapply (sim_derivative f) v)).
  { intros p v. unfold sim_apply, sim_derivative, sgn, mapply. rewrite Sf. destruct p, v; apply vec_eq; cbn; ring. }
  assert (IV : forall p, sim_apply (sim_inv f) (sim_apply f p) = p) by (intros; now apply sim_inv_apply).
  split; [intros s; exact (glued_param D S l e P l' e' P' (sim_apply f) s V G M)|]. split; [exact (derivative_edge D S l e P l' e' P' f V G Ef)|]. split; [|split; [|split; [auto|split; [auto|]]]].
  - intros c v. unfold mapply. destruct v; apply vec_eq; cbn; ring.
  - exists (sg_a f * sg_a f + sg_b f * sg_b f). split; [apply (sim_is_similarity f Kf)|]. intros a b. unfold sim_derivative, sgn, mapply. rewrite Sf. unfold ccw. destruct a, b; cbn; ring.
  - intros v. transitivity (vsub (sim_apply (sim_inv f) (sim_apply f v)) (sim_apply (sim_inv f) (sim_apply f vzero))).
    + rewrite sim_derivative_spec. f_equal. unfold sim_apply, sim_derivative, sgn, mapply. rewrite Sf. destruct v; apply vec_eq; cbn; ring.
    + rewrite !IV. destruct v; apply vec_eq; cbn; ring.
Qed.
Lemma move_ok l e P l' e' P' p v f : glued_at D S l e P l' e' P' -> edge_transformation S l e = Ok f ->
  tv_move S l e p v = Ok (TVec l' (sim_apply f p) (mapply (sim_derivative f) v) (get_point_position P' (sim_apply f p))).
Proof.
  intros G Ef. unfold tv_move, opp_pair. rewrite (ga_opp _ _ _ _ _ _ _ _ G). cbn [bind]. rewrite Ef. cbn [bind fst]. rewrite (ga_poly' _ _ _ _ _ _ _ _ G). reflexivity.
Qed.
Lemma glued_proper l e P l' e' P' : glued_at D S l e P l' e' P' -> proper P /\ proper P'.
Proof. intros G. pose proof (glued_sym _ _ _ _ _ _ _ _ V G) as G'. split; [eapply PRS; apply G|eapply PRS; apply G']. Qed.
Section Glued.
Context l e P l' e' P' f (G : glued_at D S l e P l' e' P') (Ef : edge_transformation S l e = Ok f).
Notation m := (mapply (sim_derivative f)).
Lemma m_nz v : v <> vzero -> m v <> vzero.
Proof.
  destruct (crossing _ _ _ _ _ _ G) as [f' [_ [_ [Ef' [_ [_ [_ [_ [_ [_ [_ [_ I]]]]]]]]]]]]. rewrite Ef in Ef'. injection Ef' as <-.
  intros N X. apply N. rewrite <- (I v), X. unfold mapply, vzero. apply vec_eq; cbn; ring.
Qed.
Lemma m_ray v w : same_ray v w -> same_ray (m v) (m w).
Proof.
  destruct (crossing _ _ _ _ _ _ G) as [f' [_ [_ [Ef' [_ [_ [_ [_ [SC _]]]]]]]]]. rewrite Ef in Ef'. injection Ef' as <-. intros [t [T ->]]. exists t. split; auto.
Qed.
Lemma m_ray' v w : same_ray (m v) (m w) -> same_ray v w.
Proof.
  destruct (crossing _ _ _ _ _ _ G) as [f' [_ [_ [Ef' [Ei [_ [_ [_ [SC [_ [_ [_ I]]]]]]]]]]]]. rewrite Ef in Ef'. injection Ef' as <-. intros [t [T E]]. exists t. split; auto.
  rewrite <- (I w), E, <- SC. now rewrite I.
Qed.
Lemma m_opp v : m (vopp v) = vopp (m v). Proof. unfold mapply. destruct v; apply vec_eq; cbn; ring. Qed.
Lemma leaves_enters p v : v <> vzero -> leaves P e p v <-> enters P' e' (sim_apply f p) (m v).
Proof.
  intros N. destruct (glued_proper _ _ _ _ _ _ G) as [PR PR']. pose proof (ga_edge _ _ _ _ _ _ _ _ G) as Le.
  destruct (crossing _ _ _ _ _ _ G) as [f' [Dl' [Le' [Ef' [Ei [M [PA [ED [SC [[c [C0 CC]] [AF [IP IV]]]]]]]]]]]]. rewrite Ef in Ef'. injection Ef' as <-.
  assert (PA' : forall s, sim_apply (sim_inv f) (go (vertex P' e') s (edge P' e')) = go (vertex P e) (1 - s) (edge P e)).
  { intros s. rewrite <- (IP (go (vertex P e) (1 - s) (edge P e))), PA. f_equal. f_equal. ring. }
  assert (POS : get_point_position P p = EdgeInterior e <-> get_point_position P' (sim_apply f p) = EdgeInterior e').
  { split; intros X.
    - destruct (edge_point P PR e p Le X) as [s [S0 [S1 ->]]]. rewrite PA. apply at_edge; auto; flra.
    - destruct (edge_point P' PR' e' _ Le' X) as [s [S0 [S1 E]]]. rewrite <- (IP p), E, PA'. apply at_edge; auto; flra. }
  assert (E' : edge P' e' = m (vopp (edge P e))) by (rewrite m_opp, ED; symmetry; apply opp_opp).
  assert (RR : same_ray (vopp (edge P e)) v <-> same_ray (edge P' e') (m v)) by (rewrite E'; split; [apply m_ray|apply m_ray']).
  assert (RR' : same_ray (edge P e) v <-> same_ray (vopp (edge P' e')) (m v)) by (rewrite E', m_opp, opp_opp; split; [apply m_ray|apply m_ray']).
  assert (CE : ccw (edge P' e') (m v) = - (c * ccw (edge P e) v)).
  { rewrite E', CC. unfold ccw. destruct (edge P e), v; cbn; ring. }
  assert (VV : p = vertex P (Datatypes.S e) <-> sim_apply f p = vertex P' e').
  { rewrite <- go_end, <- (go_start P' e'). split; [intros ->; rewrite PA; f_equal; ring|]. intros X. rewrite <- (IP p), X, PA'. f_equal. ring. }
  unfold leaves, enters. rewrite <- POS, <- VV, <- RR, <- RR', CE. split.
  - intros [[A B]|[A B]]; [left; split; auto|now right]. split.
    + destruct B as [B|B]; [fnra|]. apply ray_ccw in B. assert (ccw (edge P e) v = 0). { transitivity (- ccw (vopp (edge P e)) v); [unfold ccw; destruct (edge P e), v; cbn; ring|rewrite B; ring]. } rewrite H0. assert (c * 0 = 0) by ring. flra.
    + intros R. destruct B as [B|B]; [apply ray_ccw in R; flra|]. destruct R as [a [A0 ->]]. destruct B as [b [B0 EB]].
      assert (X : go vzero a (edge P e) = go vzero (- b) (edge P e)) by (unfold go; rewrite EB; destruct (edge P e); apply vec_eq; cbn; ring).
      apply go_inj in X; [flra|now apply edge_nz].
  - intros [[A [B1 B2]]|[A B]]; [left; split; auto|now right]. destruct (flt_total (ccw (edge P e) v)) as [Z|[Z|Z]]; [now left| |fnra].
    right. destruct (collinear (edge P e) v) as [t [T ->]]; auto; [now apply edge_nz|]. exists t. split; auto. destruct (edge P e); apply vec_eq; cbn; ring.
Qed.
End Glued.

Definition is_ok {A} (r : res A) := exists a, r = Ok a.
Lemma tangent_move l e P l' e' P' p v f : glued_at D S l e P l' e' P' -> edge_transformation S l e = Ok f -> v <> vzero -> leaves P e p v ->
  tangent_vector S l p v = Ok (TVec l' (sim_apply f p) (mapply (sim_derivative f) v) (get_point_position P' (sim_apply f p))) /\
  enters P' e' (sim_apply f p) (mapply (sim_derivative f) v) /\ normal P' (sim_apply f p) (mapply (sim_derivative f) v).
Proof.
  intros G Ef N LV. destruct (glued_proper _ _ _ _ _ _ G) as [PR PR']. destruct (crossing _ _ _ _ _ _ G) as [_ [_ [Le' _]]].
  assert (E : enters P' e' (sim_apply f p) (mapply (sim_derivative f) v)) by (apply (leaves_enters l e P l'); auto).
  rewrite (tangent_leave l P e); auto; try apply G. split; [now apply (move_ok l e P l' e')|]. split; auto. apply (enters_normal P' PR' e'); auto. now apply (m_nz l e P l' e' P').
Qed.
Lemma same_leaves (x y : coords) : snd x <> vzero -> same_tangent D S x y -> exists e P e' P' f, glued_at D S (fst (fst x)) e P (fst (fst y)) e' P' /\ edge_transformation S (fst (fst x)) e = Ok f /\
  y = (fst (fst y), sim_apply f (snd (fst x)), mapply (sim_derivative f) (snd x)) /\ (leaves P e (snd (fst x)) (snd x) \/ enters P e (snd (fst x)) (snd x)).
Proof.
  destruct x as [[l p] v], y as [[l' p'] v']. cbn [fst snd]. intros N [e [P [e' [P' [F [G [M [O [A [E1 E2]]]]]]]]]]. cbn [fst snd] in *.
  destruct (crossing _ _ _ _ _ _ G) as [f [Dl' [Le' [Ef [Ei [Mf [PA [ED [SC [_ [AF [IP IV]]]]]]]]]]]].
  pose proof (proj1 (gluing_map_iff D S l e P l' e' P' f V G Ef F) M) as FF. rewrite FF in E1. rewrite FF, AF, E1 in E2.
  exists e, P, e', P', f. split; auto. split; auto. split.
  - f_equal; [now rewrite E1|]. transitivity (vsub (vadd (sim_apply f p) v') (sim_apply f p)); [symmetry; apply sub_add|]. rewrite E2. apply sub_add.
  - destruct (glued_proper _ _ _ _ _ _ G) as [PR PR']. pose proof (ga_edge _ _ _ _ _ _ _ _ G) as Le.
    apply side_cases in O. destruct O as [O|[O|[s [S0 [S1 O]]]]].
    + destruct A as [[A _]|A]; [contradiction|]. destruct (along_ray P PR e p v N A) as [R [s [S0 [S1 [Es [H1 H2]]]]]].
      assert (s = 0). { rewrite O in Es. apply (go_inj (vertex P e) (edge P e)); [now apply edge_nz|]. rewrite <- Es. symmetry; apply go_start. } subst s.
      right. right. split; auto. destruct R as [R|R]; auto. specialize (H2 R). now apply flt_irrefl in H2.
    + destruct A as [[_ A]|A]; [contradiction|]. destruct (along_ray P PR e p v N A) as [R [s [S0 [S1 [Es [H1 H2]]]]]].
      assert (s = 1). { rewrite O in Es. apply (go_inj (vertex P e) (edge P e)); [now apply edge_nz|]. rewrite <- Es. symmetry; apply go_end. } subst s.
      left. right. split; auto. destruct R as [R|R]; auto. specialize (H1 R). now apply flt_irrefl in H1.
    + assert (X : get_point_position P p = EdgeInterior e) by (rewrite O; now apply at_edge).
      destruct (ccw (edge P e) v <? 0) eqn:Y; [left; left; auto|]. apply fltb_ge in Y.
      destruct (ray_dec (vopp (edge P e)) v) as [R|R]; auto; [apply opp_nz; now apply edge_nz|left; left; auto|right; left; auto].
Qed.
Lemma leaves_same l e P l' e' P' p v f : glued_at D S l e P l' e' P' -> edge_transformation S l e = Ok f -> leaves P e p v \/ enters P e p v ->
  same_tangent D S (l, p, v) (l', sim_apply f p, mapply (sim_derivative f) v).
Proof.
  intros G Ef LV. destruct (crossing _ _ _ _ _ _ G) as [f' [Dl' [Le' [Ef' [Ei [Mf [PA [ED [SC [_ [AF [IP IV]]]]]]]]]]]]. rewrite Ef in Ef'. injection Ef' as <-.
  exists e, P, e', P', (sim_apply f). cbn [fst snd]. split; auto. split; auto. destruct (glued_proper _ _ _ _ _ _ G) as [PR PR']. pose proof (ga_edge _ _ _ _ _ _ _ _ G) as Le.
  pose proof (@flt_0_1 K) as Z01. assert (X : get_point_position P p = EdgeInterior e \/ (p = vertex P e /\ same_ray (edge P e) v) \/ (p = vertex P (Datatypes.S e) /\ same_ray (vopp (edge P e)) v))
    by (destruct LV as [[[LV _]|LV]|[[LV _]|LV]]; auto).
  split; [|split; [|split; auto]].
  - destruct X as [X|[[-> X]|[-> X]]]; [destruct (edge_point P PR e p Le X) as [s [S0 [S1 ->]]]; apply on_side; auto; flra|apply on_seg_l|apply on_seg_r].
  - destruct X as [X|[[-> X]|[-> X]]].
    + left. split; intros Y; rewrite Y, (at_vertex' P PR) in X; discriminate.
    + right. destruct X as [c [C ->]]. rewrite <- (go_start P e). apply along_of; auto; flra.
    + right. destruct X as [c [C ->]]. rewrite <- (go_end P e). replace (vscale c (vopp (edge P e))) with (vscale (- c) (edge P e)) by (destruct (edge P e); apply vec_eq; cbn; ring).
      apply along_of; auto; try flra. right. split; flra.
Qed.

Lemma same_result (x y : coords) : snd x <> vzero -> same_tangent D S x y -> exists t, tangent_vector S (fst (fst x)) (snd (fst x)) (snd x) = Ok t /\ tangent_vector S (fst (fst y)) (snd (fst y)) (snd y) = Ok t.
Proof.
  intros N ST. destruct (same_leaves x y N ST) as [e [P [e' [P' [f [G [Ef [Ey X]]]]]]]]. destruct x as [[l p] v], y as [[l' p'] v']. cbn [fst snd] in *. injection Ey as -> ->.
  destruct (crossing _ _ _ _ _ _ G) as [f' [Dl' [Le' [Ef' [Ei [Mf [PA [ED [SC [_ [AF [IP IV]]]]]]]]]]]]. rewrite Ef in Ef'. injection Ef' as <-.
  pose proof (glued_sym _ _ _ _ _ _ _ _ V G) as G'. destruct (glued_proper _ _ _ _ _ _ G) as [PR PR']. destruct X as [X|X].
  - destruct (tangent_move l e P l' e' P' p v f G Ef N X) as [T [E NM]]. eexists. split; [exact T|]. now apply tangent_stay; try apply G'.
  - assert (N' : mapply (sim_derivative f) v <> vzero) by now apply (m_nz l e P l' e' P').
    assert (LV : leaves P' e' (sim_apply f p) (mapply (sim_derivative f) v)).
    { apply (leaves_enters l' e' P' l e P (sim_inv f) G' Ei); auto. now rewrite IP, IV. }
    destruct (tangent_move l' e' P' l e P _ _ _ G' Ei N' LV) as [T [E NM]]. rewrite IP, IV in T, NM. eexists. split; [|exact T]. apply tangent_stay; auto; apply G.
Qed.
Lemma same_nz (x y : coords) : same_tangent D S x y -> snd x <> vzero <-> snd y <> vzero.
Proof.
  intros [e [P [e' [P' [F [G [M [O [A [E1 E2]]]]]]]]]]. destruct (crossing _ _ _ _ _ _ G) as [f [Dl' [Le' [Ef [Ei [Mf [PA [ED [SC [_ [AF [IP IV]]]]]]]]]]]].
  pose proof (proj1 (gluing_map_iff D S _ e P _ e' P' f V G Ef F) M) as FF. rewrite FF in E1. rewrite FF, AF, E1 in E2.
  assert (Y : snd y = mapply (sim_derivative f) (snd x)) by (rewrite <- (sub_add (sim_apply f (snd (fst x))) (snd y)), E2; apply sub_add). rewrite Y.
  assert (M0 : mapply (sim_derivative f) vzero = vzero) by (unfold mapply, vzero; apply vec_eq; cbn; ring).
  split; [now apply (m_nz _ _ _ _ _ _ _ G Ef)|]. intros X Z. apply X. now rewrite Z.
Qed.
Lemma equiv_result (x y : coords) : tangent_equiv D S x y -> x = y \/ (snd x <> vzero <-> snd y <> vzero) /\
  (snd x <> vzero -> tangent_vector S (fst (fst x)) (snd (fst x)) (snd x) = tangent_vector S (fst (fst y)) (snd (fst y)) (snd y)).
Proof.
  induction 1 as [x y ST|x|x y _ IH|x y z _ IH1 _ IH2].
  - right. split; [now apply same_nz|]. intros N. destruct (same_result x y N ST) as [t [-> ->]]. reflexivity.
  - now left.
  - destruct IH as [->|[A B]]; [now left|right]. split; [tauto|]. intros N. symmetry. apply B. tauto.
  - destruct IH1 as [->|[A B]]; auto. destruct IH2 as [<-|[A' B']]; [right; split; auto|]. right. split; [tauto|]. intros N. rewrite B by auto. apply B'. tauto.
Qed.
End Surface.
End C.
