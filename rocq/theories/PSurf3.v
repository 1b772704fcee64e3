(** Proofs about similarity surfaces: linear images and covers. *)
From Coq Require Import List Bool ZArith Arith Lia Ring Field.
From Verif Require Import OField FMicromega PField MBase MDict PDict MEuclid SEuclid PEuclid MSim SSim PSim MPoly PPoly
  MMut MSurf SSurf PSurf PSurf2.
Import ListNotations.

Section P.
Context {K : OField}.
Add Field KF : (of_ft K).
Local Open Scope F_scope.
Implicit Types (P Q : polygon K).

Lemma vertex_mod P i : vertex P (i mod length P) = vertex P i.
Proof.
  unfold vertex. destruct (length P) eqn:E; [destruct P; [destruct i; reflexivity|discriminate]|].
  f_equal. apply Nat.mod_mod. lia.
Qed.
Lemma vertex_S_mod P i : vertex P (S (i mod length P)) = vertex P (S i).
Proof.
  unfold vertex. destruct (length P) eqn:E; [destruct P; [destruct i; reflexivity|discriminate]|].
  f_equal. replace (S (i mod S n)) with (i mod S n + 1)%nat by lia. replace (S i) with (i + 1)%nat by lia.
  now rewrite Nat.add_mod_idemp_l by lia.
Qed.
Lemma edge_mod P i : edge P (i mod length P) = edge P i.
Proof. unfold edge. now rewrite vertex_S_mod, vertex_mod. Qed.
Lemma edges_nz P : (1 <= length P)%nat -> (forall e, (e < length P)%nat -> edge P e <> vzero) -> forall e, edge P e <> vzero.
Proof. intros L H e. rewrite <- edge_mod. apply H. apply Nat.mod_upper_bound. lia. Qed.

Lemma affine_similarity (c : K) (u : vec K) F : c <> 0 -> (forall p, F p = vadd (vscale c p) u) ->
  (exists k, map_similarity F k) /\ map_orientation_preserving F.
Proof.
  intros N E. assert (C : 0 < c * c) by (apply fneq_lt in N; destruct N; fnra). split.
  - exists (c * c). split; auto. intros p q. rewrite !E. unfold dist2, dot. cbn. ring.
  - intros p q r O. rewrite !E.
    assert (X : orient (vadd (vscale c p) u) (vadd (vscale c q) u) (vadd (vscale c r) u) = c * c * orient p q r)
      by (unfold orient, ccw; cbn; ring).
    rewrite X. fnra.
Qed.

(** the kind of a gluing can be read off the edges *)
Lemma gm_translation P e P' e' : edge P e = vopp (edge P' e') ->
  gluing_map P e P' e' (fun p => vadd p (vsub (vertex P' (S e')) (vertex P e))).
Proof.
  intros E. destruct (affine_similarity 1 (vsub (vertex P' (S e')) (vertex P e))
    (fun p => vadd p (vsub (vertex P' (S e')) (vertex P e)))) as [A B].
  - apply f1_neq_0.
  - intros p. apply vec_eq; cbn; ring.
  - constructor; auto.
    + apply vec_eq; cbn; ring.
    + unfold edge in E. destruct (vertex P (S e)), (vertex P e), (vertex P' (S e')), (vertex P' e').
      injection E as E1 E2. apply vec_eq; cbn in *; flra.
Qed.
Lemma gm_half P e P' e' : edge P e = edge P' e' ->
  gluing_map P e P' e' (fun p => vsub (vadd (vertex P' (S e')) (vertex P e)) p).
Proof.
  intros E. destruct (affine_similarity (- (1)) (vadd (vertex P' (S e')) (vertex P e))
    (fun p => vsub (vadd (vertex P' (S e')) (vertex P e)) p)) as [A B].
  - pose proof (@flt_0_1 K). intros Z. flra.
  - intros p. apply vec_eq; cbn; ring.
  - constructor; auto.
    + apply vec_eq; cbn; ring.
    + unfold edge in E. destruct (vertex P (S e)), (vertex P e), (vertex P' (S e')), (vertex P' e').
      injection E as E1 E2. apply vec_eq; cbn in *; flra.
Qed.

Context {L : Type}.
Implicit Types (S : surface K L) (D : L -> Prop).

Lemma gm_unique D S l e P l' e' P' F G : valid D S -> glued_at D S l e P l' e' P' ->
  gluing_map P e P' e' F -> gluing_map P e P' e' G -> forall p, F p = G p.
Proof.
  intros V GA HF HG p. destruct (edge_transformation_ok _ _ _ _ _ _ _ _ V GA) as [f [Ef _]].
  pose proof (gluing_map_iff _ _ _ _ _ _ _ _ _ V GA Ef) as I.
  rewrite (proj1 (I F) HF), (proj1 (I G) HG). reflexivity.
Qed.
Lemma gm_exists D S l e P l' e' P' : valid D S -> glued_at D S l e P l' e' P' -> exists F, gluing_map P e P' e' F.
Proof.
  intros V G. destruct (edge_transformation_ok _ _ _ _ _ _ _ _ V G) as [f [Ef _]].
  exists (sim_apply f). now apply (gluing_map_iff _ _ _ _ _ _ _ _ _ V G Ef).
Qed.

(** a description of all gluings by one map suffices *)
Lemma all_gluings_intro D S kind : valid D S -> kind_ext kind ->
  (forall l e P l' e' P', glued_at D S l e P l' e' P' -> exists F, gluing_map P e P' e' F /\ kind F) ->
  all_gluings D S kind.
Proof.
  intros V Ext H l e P l' e' P' F G GM. destruct (H _ _ _ _ _ _ G) as [F' [GM' Kd]].
  apply (Ext F'); auto. intros p. eapply gm_unique; eauto.
Qed.
Lemma all_gluings_elim D S kind l e P l' e' P' : valid D S -> all_gluings D S kind -> glued_at D S l e P l' e' P' ->
  exists F, gluing_map P e P' e' F /\ kind F.
Proof. intros V A G. destruct (gm_exists _ _ _ _ _ _ _ _ V G) as [F HF]. exists F. split; auto. eapply A; eauto. Qed.

Lemma translation_edges D S l e P l' e' P' F : glued_at D S l e P l' e' P' -> gluing_map P e P' e' F ->
  map_translation F -> edge P e = vopp (edge P' e').
Proof.
  intros _ [_ _ A B] [u U]. rewrite U in A, B. unfold edge. rewrite <- A, <- B. apply vec_eq; cbn; ring.
Qed.

Lemma half_edges P e P' e' F : gluing_map P e P' e' F -> map_half_translation F ->
  edge P' e' = edge P e \/ edge P' e' = vopp (edge P e).
Proof.
  intros [_ _ A B] [u U]. unfold edge. rewrite <- A, <- B.
  destruct U as [U|U]; rewrite !U; [right|left]; apply vec_eq; cbn; ring.
Qed.

(** ** linear images *)
Definition ridx (M : mat K) (n e : nat) : nat := if mdet M <? 0 then (n - 1 - e)%nat else e.
Lemma ridx_lt M n e : (e < n)%nat -> (ridx M n e < n)%nat.
Proof. unfold ridx. destruct (_ <? _); lia. Qed.
Lemma ridx_ridx M n e : (e < n)%nat -> ridx M n (ridx M n e) = e.
Proof. unfold ridx. destruct (_ <? _); lia. Qed.

Lemma poly_mul_vertex M P Q e : poly_mul M P = Ok Q -> (e < length P)%nat ->
  let v := mapply M (vertex P (ridx M (length P) e)) in
  let v' := mapply M (vertex P (Datatypes.S (ridx M (length P) e))) in
  if mdet M <? 0 then vertex Q e = v' /\ vertex Q (Datatypes.S e) = v
  else vertex Q e = v /\ vertex Q (Datatypes.S e) = v'.
Proof.
  intros H He. assert (HP : P <> nil) by (intros ->; cbn in He; lia).
  assert (Hd : mdet M <> 0). { intros E. apply (poly_mul_singular M P HP) in E. congruence. }
  rewrite poly_mul_eq in H by auto. injection H as <-. unfold ridx.
  destruct (mdet M <? 0).
  - assert (N : reverse0 P <> nil) by (destruct P; discriminate || congruence).
    rewrite !vertex_map by auto. rewrite !vertex_reverse0 by lia. split; f_equal; f_equal; lia.
  - rewrite !vertex_map by auto. auto.
Qed.

Lemma mapply_nz (M : mat K) (u : vec K) : mdet M <> 0 -> u <> vzero -> mapply M u <> vzero.
Proof.
  intros Hd N E. apply N. destruct u as [x y]. unfold mapply, vzero in E. cbn in E. injection E as A B.
  unfold mdet in Hd.
  assert (X : mdet M * x = 0).
  { transitivity (m11 M * (m00 M * x + m01 M * y) - m01 M * (m10 M * x + m11 M * y)); [unfold mdet; ring|].
    rewrite A, B. ring. }
  assert (Y : mdet M * y = 0).
  { transitivity (m00 M * (m10 M * x + m11 M * y) - m10 M * (m00 M * x + m01 M * y)); [unfold mdet; ring|].
    rewrite A, B. ring. }
  apply fmul_eq0 in X. apply fmul_eq0 in Y. apply vec_eq; cbn; unfold mdet in *; tauto.
Qed.

Lemma poly_mul_total M P : P <> nil -> mdet M <> 0 -> exists Q, poly_mul M P = Ok Q.
Proof. intros. rewrite poly_mul_eq by auto. eauto. Qed.

Lemma poly_mul_edges_nz M P Q : mdet M <> 0 -> poly_mul M P = Ok Q -> (1 <= length P)%nat ->
  (forall e, edge P e <> vzero) -> forall e, edge Q e <> vzero.
Proof.
  intros Hd H Ln N. assert (HP : P <> nil) by (intros ->; cbn in Ln; lia).
  pose proof (poly_mul_length M P Q HP H) as LQ. apply edges_nz; [lia|]. intros e He. rewrite LQ in He.
  destruct (fltb_total K (mdet M) 0) as [Z|[Z|Z]]; [|congruence|].
  - rewrite (edge_mul_neg M P Q e HP Z He H). intros E. apply (mapply_nz M (edge P (length P - 1 - e)) Hd (N _)).
    destruct (mapply M _) as [x y]. injection E as E1 E2. apply vec_eq; cbn in *; flra.
  - rewrite (edge_mul_pos M P Q e HP Z H). now apply mapply_nz.
Qed.

Lemma gl2r_opp D S M l P Q e : valid D S -> closed D S -> mdet M <> 0 -> D l -> s_poly S l = Ok P -> poly_mul M P = Ok Q ->
  (e < length P)%nat ->
  exists l' e' P' Q', glued_at D S l (ridx M (length P) e) P l' (ridx M (length P') e') P' /\ (e' < length P')%nat /\
    D l' /\ poly_mul M P' = Ok Q' /\ s_opp (gl2r S M) l e = Ok (Some (l', e')).
Proof.
  intros V C Hd Dl Pl PQ He.
  assert (HP : P <> nil) by (intros ->; cbn in He; lia).
  pose proof (ridx_lt M _ _ He) as Hr. pose proof (poly_mul_length M P Q HP PQ) as LQ.
  destruct (v_opp _ _ V l P (ridx M (length P) e) Dl Pl Hr) as [X|[l2 [e2 [P2 [X [Dl2 [Pl2 [Lt2 Back]]]]]]]].
  { destruct (C l P _ Dl Pl Hr X). }
  destruct (v_poly _ _ V l2 Dl2) as [P2' [R1 [R2 R3]]]. rewrite Pl2 in R1. injection R1 as <-.
  assert (HP2 : P2 <> nil) by (intros ->; cbn in R2; lia).
  destruct (poly_mul_total M P2 HP2 Hd) as [Q2 HQ2].
  exists l2, (ridx M (length P2) e2), P2, Q2. rewrite ridx_ridx by auto.
  split; [constructor; auto|]. split; [now apply ridx_lt|]. split; [auto|]. split; [auto|].
  unfold gl2r, ridx in *. cbn [s_opp s_poly]. unfold opp_pair. destruct (mdet M <? 0).
  - rewrite Pl. cbn [bind]. rewrite PQ. cbn [bind]. rewrite LQ, X. cbn [bind fst snd]. rewrite Pl2. reflexivity.
  - cbn [bind]. rewrite X. reflexivity.
Qed.

Lemma gl2r_valid D S M : valid D S -> closed D S -> mdet M <> 0 -> valid D (gl2r S M) /\ closed D (gl2r S M).
Proof.
  intros V C Hd.
  assert (PQ : forall l Q, D l -> s_poly (gl2r S M) l = Ok Q -> exists P, s_poly S l = Ok P /\ poly_mul M P = Ok Q /\
             (3 <= length P)%nat /\ length Q = length P /\ (forall e, edge P e <> vzero)).
  { intros l Q Dl H. destruct (v_poly _ _ V l Dl) as [P [Pl [L3 Nz]]]. exists P. cbn in H. rewrite Pl in H. cbn in H.
    do 3 (split; [auto|]). split; auto. apply (poly_mul_length M); auto. intros ->. cbn in L3. lia. }
  split; [constructor|].
  - intros l Dl. destruct (v_poly _ _ V l Dl) as [P [Pl [L3 Nz]]].
    destruct (poly_mul_total M P) as [Q HQ]; auto. { intros ->. cbn in L3. lia. }
    exists Q. cbn. rewrite Pl. cbn. split; [exact HQ|]. split.
    + rewrite (poly_mul_length M P Q); auto. intros ->. cbn in L3. lia.
    + apply (poly_mul_edges_nz M P); auto. lia.
  - intros l Q e Dl HQ He. right. destruct (PQ l Q Dl HQ) as [P [Pl [MP [L3 [LQ Nz]]]]].
    rewrite LQ in He. destruct (gl2r_opp D S M l P Q e V C Hd Dl Pl MP He) as [l' [e' [P' [Q' [G [He' [Dl' [MQ O]]]]]]]].
    exists l', e', Q'. assert (HP' : P' <> nil) by (intros ->; cbn in He'; lia).
    split; [exact O|]. split; [exact Dl'|]. split; [cbn; rewrite (ga_poly' _ _ _ _ _ _ _ _ G); exact MQ|].
    split; [now rewrite (poly_mul_length M P' Q')|].
    destruct (gl2r_opp D S M l' P' Q' e' V C Hd Dl' (ga_poly' _ _ _ _ _ _ _ _ G) MQ He')
      as [l'' [e'' [P'' [Q'' [G' [He'' [_ [_ O']]]]]]]].
    rewrite O'. destruct (glued_partner _ _ _ _ _ _ _ _ V G) as [_ [_ [Back _]]].
    rewrite (ga_opp _ _ _ _ _ _ _ _ G') in Back. injection Back as -> E.
    assert (P'' = P) by (destruct G'; congruence). subst P''. f_equal. f_equal. f_equal.
    rewrite <- (ridx_ridx M (length P) e) by auto. rewrite <- E. symmetry. now apply ridx_ridx.
  - intros l Q e Dl HQ He. destruct (PQ l Q Dl HQ) as [P [Pl [MP [L3 [LQ Nz]]]]].
    rewrite LQ in He. destruct (gl2r_opp D S M l P Q e V C Hd Dl Pl MP He) as [l' [e' [P' [Q' [G [He' [Dl' [MQ O]]]]]]]].
    rewrite O. discriminate.
Qed.

Lemma gl2r_glued D S M l e Q l' e' Q' : valid D S -> closed D S -> mdet M <> 0 ->
  glued_at D (gl2r S M) l e Q l' e' Q' -> exists P P', (e < length P)%nat /\ (e' < length P')%nat /\
  glued_at D S l (ridx M (length P) e) P l' (ridx M (length P') e') P' /\ poly_mul M P = Ok Q /\ poly_mul M P' = Ok Q'.
Proof.
  intros V C Hd G. destruct (v_poly _ _ V l (ga_dom _ _ _ _ _ _ _ _ G)) as [P [Pl [L3 Nz]]].
  assert (MP : poly_mul M P = Ok Q). { pose proof (ga_poly _ _ _ _ _ _ _ _ G) as X. cbn in X. rewrite Pl in X. exact X. }
  assert (HP : P <> nil) by (intros ->; cbn in L3; lia).
  assert (He : (e < length P)%nat). { rewrite <- (poly_mul_length M P Q HP MP). apply (ga_edge _ _ _ _ _ _ _ _ G). }
  destruct (gl2r_opp D S M l P Q e V C Hd (ga_dom _ _ _ _ _ _ _ _ G) Pl MP He)
    as [l2 [e2 [P' [Q2 [G' [He' [Dl' [MQ O]]]]]]]].
  rewrite (ga_opp _ _ _ _ _ _ _ _ G) in O. injection O as <- <-.
  exists P, P'. do 4 (split; [auto|]).
  pose proof (ga_poly' _ _ _ _ _ _ _ _ G) as X. cbn in X. rewrite (ga_poly' _ _ _ _ _ _ _ _ G') in X. exact X.
Qed.

Lemma mapply_affine (M : mat K) (c : K) (u p : vec K) : mapply M (vadd (vscale c p) u) = vadd (vscale c (mapply M p)) (mapply M u).
Proof. apply vec_eq; cbn; ring. Qed.

(** a dilation by which edges are glued becomes a dilation with the same factor *)
Lemma gl2r_affine D S M l e Q l' e' Q' : valid D S -> closed D S -> mdet M <> 0 ->
  glued_at D (gl2r S M) l e Q l' e' Q' -> exists r P r' P', glued_at D S l r P l' r' P' /\
  forall F c u, c <> 0 -> gluing_map P r P' r' F -> (forall p, F p = vadd (vscale c p) u) ->
  gluing_map Q e Q' e' (fun p => vadd (vscale c p) (mapply M u)).
Proof.
  intros V C Hd G. destruct (gl2r_glued D S M l e Q l' e' Q' V C Hd G) as [P [P' [He [He' [G' [MP MP']]]]]].
  exists (ridx M (length P) e), P, (ridx M (length P') e'), P'. split; [exact G'|].
  intros F c u Nc [_ _ A B] HF. destruct (affine_similarity c (mapply M u) (fun p => vadd (vscale c p) (mapply M u)) Nc) as [X Y]; auto.
  rewrite HF in A, B.
  pose proof (poly_mul_vertex M P Q e MP He) as W. pose proof (poly_mul_vertex M P' Q' e' MP' He') as W'. cbv zeta in W, W'.
  destruct (mdet M <? 0); destruct W as [W1 W2], W' as [W1' W2']; constructor; auto;
    rewrite ?W1, ?W2, ?W1', ?W2', <- mapply_affine; congruence.
Qed.

Lemma gl2r_kind D S M kind : valid D S -> closed D S -> mdet M <> 0 -> kind_ext kind ->
  (forall F, kind F -> exists c u, c <> 0 /\ (forall p, F p = vadd (vscale c p) u) /\
       forall v, kind (fun p => vadd (vscale c p) v)) ->
  all_gluings D S kind -> all_gluings D (gl2r S M) kind.
Proof.
  intros V C Hd Ext Hk A. destruct (gl2r_valid D S M V C Hd) as [V' _].
  apply all_gluings_intro; auto. intros l e Q l' e' Q' G.
  destruct (gl2r_affine D S M l e Q l' e' Q' V C Hd G) as [r [P [r' [P' [G' H]]]]].
  destruct (all_gluings_elim D S kind _ _ _ _ _ _ V A G') as [F [GM Kd]].
  destruct (Hk F Kd) as [c [u [Nc [E Kv]]]].
  exists (fun p => vadd (vscale c p) (mapply M u)). split; [eapply H; eauto|]. apply Kv.
Qed.

Lemma gl2r_next D S M l l' : valid D S -> closed D S -> mdet M <> 0 ->
  (next_to D (gl2r S M) l l' <-> next_to D S l l').
Proof.
  intros V C Hd. split.
  - intros [e [Q [e' [Q' G]]]]. destruct (gl2r_affine D S M l e Q l' e' Q' V C Hd G) as [r [P [r' [P' [G' H]]]]].
    exists r, P, r', P'. exact G'.
  - intros [e [P [e' [P' G]]]]. destruct (v_poly _ _ V l (ga_dom _ _ _ _ _ _ _ _ G)) as [P0 [Pl [L3 Nz]]].
    rewrite (ga_poly _ _ _ _ _ _ _ _ G) in Pl. injection Pl as <-.
    assert (HP : P <> nil) by (intros ->; cbn in L3; lia).
    destruct (poly_mul_total M P HP Hd) as [Q HQ]. pose proof (ga_edge _ _ _ _ _ _ _ _ G) as He.
    destruct (gl2r_opp D S M l P Q (ridx M (length P) e) V C Hd) as [l2 [e2 [P2 [Q2 [G2 [He2 [D2 [MQ O]]]]]]]];
      try (destruct G; auto; fail). { now apply ridx_lt. }
    rewrite ridx_ridx in G2 by auto.
    assert (E : Some (l2, ridx M (length P2) e2) = Some (l', e')) by (destruct G, G2; congruence). injection E as -> E.
    exists (ridx M (length P) e), Q, e2, Q2. constructor; auto.
    + apply (ga_dom _ _ _ _ _ _ _ _ G).
    + cbn. rewrite (ga_poly _ _ _ _ _ _ _ _ G). exact HQ.
    + rewrite (poly_mul_length M P Q); auto. now apply ridx_lt.
    + cbn. rewrite (ga_poly' _ _ _ _ _ _ _ _ G2). exact MQ.
Qed.
Lemma gl2r_kinds D S (M : mat K) :
  valid D S -> closed D S -> mdet M <> 0 ->
  (all_gluings D S map_translation -> all_gluings D (gl2r S M) map_translation) /\
  (all_gluings D S map_half_translation -> all_gluings D (gl2r S M) map_half_translation) /\
  (all_gluings D S map_dilation -> all_gluings D (gl2r S M) map_dilation) /\
  (all_gluings D S map_positive_dilation -> all_gluings D (gl2r S M) map_positive_dilation).
Proof.
  intros V C Hd. pose proof (@flt_0_1 K). repeat split; apply gl2r_kind; auto.
  - apply ext_translation.
  - intros F [u U]. exists 1, u. split; [apply f1_neq_0|]. split.
    + intros p. rewrite U. apply vec_eq; cbn; ring.
    + intros v. exists v. intros p. apply vec_eq; cbn; ring.
  - apply ext_half_translation.
  - intros F [u [U|U]].
    + exists 1, u. split; [apply f1_neq_0|]. split.
      * intros p. rewrite U. apply vec_eq; cbn; ring.
      * intros v. exists v. left. intros p. apply vec_eq; cbn; ring.
    + exists (- (1)), u. split; [intros E; flra|]. split.
      * intros p. rewrite U. apply vec_eq; cbn; ring.
      * intros v. exists v. right. intros p. apply vec_eq; cbn; ring.
  - apply ext_dilation.
  - intros F [c [u [Nc U]]]. exists c, u. split; [auto|]. split; [auto|]. intros v. exists c, v. auto.
  - apply ext_positive_dilation.
  - intros F [c [u [Nc U]]]. exists c, u. split; [now apply fpos_neq0|]. split; [auto|]. intros v. exists c, v. auto.
Qed.
End P.
