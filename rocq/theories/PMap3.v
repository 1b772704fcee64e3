(** Linear maps that preserve the orientation take straight segments of dilation surfaces to straight segments. *)
From Coq Require Import List Bool ZArith Arith Lia Ring Field Relations.
From Verif Require Import OField FMicromega PField MBase MDict MEuclid SEuclid PEuclid MSim SSim PSim MPoly PPoly PTurn SPoint PPoint MSurf SSurf PSurf PSurf3 SCut PJordan PPos TPos PLocal PLocal2 PPoint2 PPoint3 PNorm MTangent STangent PInward PTangent PTangent3 PTangent4 TTangent SRotate MMap SMap PMap PMap2.
Import ListNotations.

Section C.
Context {K : OField}.
Add Field KF : (of_ft K).
Local Open Scope F_scope.
Context {L : Type} `{EqB L}.
Context (D : L -> Prop) (S : surface K L) (V : valid D S) (C : closed D S) (PRS : forall l P, D l -> s_poly S l = Ok P -> proper P).
Context (M : mat K) (Pos : 0 < mdet M).
Notation T := (gl2r S M).
Notation m := (mapply M).
Notation im := (linear_image_coords (K := K) (L := L)).

Lemma pos_nz : mdet M <> 0. Proof. intros E. flra. Qed.
Lemma pos_vertex P Q k : proper P -> poly_mul M P = Ok Q -> vertex Q k = m (vertex P k).
Proof.
  intros PR HQ. pose proof (proj1 PR) as N3. assert (NEG : (mdet M <? 0) = false) by (apply fltb_false; flra).
  rewrite <- (vertex_mod Q k), <- (vertex_mod P k), (im_len M P Q N3 HQ). assert (Lk : (k mod length P < length P)%nat) by (apply Nat.mod_upper_bound; lia).
  pose proof (poly_mul_vertex M P Q _ HQ Lk) as W. cbv zeta in W. unfold ridx in W. rewrite NEG in W. apply W.
Qed.
Lemma pos_position P Q p : proper P -> poly_mul M P = Ok Q -> get_point_position Q (m p) = get_point_position P p.
Proof.
  intros PR HQ. pose proof (proj1 PR) as N3. pose proof (im_proper M P Q pos_nz N3 HQ PR) as PRQ. destruct (get_point_position P p) as [| |e|k] eqn:E.
  - assert (X : ~ in_polygon Q (m p)) by (rewrite (im_in M P Q pos_nz N3 HQ p PR); unfold in_polygon; rewrite E; tauto). unfold in_polygon in X.
    destruct (get_point_position Q (m p)); auto; exfalso; apply X; discriminate.
  - assert (I : in_polygon Q (m p)) by (apply (im_in M P Q pos_nz N3 HQ p PR); unfold in_polygon; rewrite E; discriminate).
    assert (NB : ~ bound Q (m p)) by (rewrite (im_bound M P Q pos_nz N3 HQ p); apply (off_bound P PR); auto).
    rewrite (pos_off Q _ PRQ NB) in *. unfold in_polygon in I. rewrite (pos_off Q _ PRQ NB) in I. destruct (PJordan2.par (m p) (PJordan2.cyc Q)); auto. now destruct I.
  - apply (C57_edge K P p e PR) in E as [Le [t [T0 [T1 ->]]]]. apply (C57_edge K Q _ e PRQ). split; [now rewrite (im_len M P Q N3 HQ)|]. exists t. split; auto. split; auto.
    unfold edge. rewrite !(pos_vertex P Q) by auto. destruct (vertex P e), (vertex P (Datatypes.S e)). apply vec_eq; cbn; ring.
  - apply (C57_vertex K P p k PR) in E as [Lk ->]. apply (C57_vertex K Q _ k PRQ). split; [now rewrite (im_len M P Q N3 HQ)|]. symmetry. now apply pos_vertex.
Qed.
(** the image of a tangent vector; its position does not change *)
Definition tv_image (t : tvec K L) : tvec K L := TVec (tv_label t) (m (tv_point t)) (m (tv_vector t)) (tv_position t).
Lemma push_image t : tv_ok D S t -> tangent_vector T (tv_label t) (m (tv_point t)) (m (tv_vector t)) = Ok (tv_image t) /\ tv_ok D T (tv_image t).
Proof.
  intros O. pose proof O as [Dl [P [EP [EPos N]]]]. destruct (push_pos D S V PRS M pos_nz t P Pos O EP) as [Q [HQ E]].
  rewrite (pos_position P Q) in E by (eauto). rewrite <- EPos in E. change (TVec (tv_label t) (m (tv_point t)) (m (tv_vector t)) (tv_position t)) with (tv_image t) in E. split; auto.
  split; [exact Dl|]. exists Q. cbn. split; [rewrite EP; exact HQ|]. split; [rewrite (pos_position P Q) by eauto; exact EPos|].
  apply (pos_normal M pos_nz P Q); auto. eauto.
Qed.
Context (DIL : all_gluings D S map_dilation).
Lemma straight_image s : straight D S s -> straight D T (Segment (tv_image (sg_start s)) (tv_image (sg_end s))).
Proof.
  intros [A B [l [P [p [v [b [ER [EP [B0 [EQ [BP [BQ W]]]]]]]]]]]]. pose proof A as [Dl _]. assert (El : tv_label (sg_start s) = l) by (unfold raw in ER; congruence). rewrite El in Dl.
  pose proof (PRS l P Dl EP) as PR. pose proof (proj1 PR) as N3. destruct (poly_mul_total M P (ne D S PRS l P Dl EP) pos_nz) as [Q HQ].
  constructor; cbn [sg_start sg_end]; [now apply push_image|now apply push_image|].
  exists l, Q, (m p), (m v), b. split; [unfold raw, tv_image in *; cbn; congruence|]. split; [cbn; rewrite EP; exact HQ|]. split; auto. split.
  { pose proof (equiv_forth D S V C PRS M pos_nz DIL _ _ EQ) as X. unfold linear_image_coords in X at 1. cbn [fst snd] in X. rewrite im_moved in X.
    replace (m (vopp v)) with (vopp (m v)) in X by (destruct v; apply vec_eq; cbn; ring). exact X. }
  rewrite <- im_moved. split; [now apply (im_bound M P Q pos_nz N3 HQ)|]. split; [now apply (im_bound M P Q pos_nz N3 HQ)|].
  destruct W as [W|[e [E1 [E2 W]]]]; [left|right].
  - intros t T0 T1. rewrite <- im_moved, (pos_position P Q) by auto. now apply W.
  - exists e. rewrite !(pos_vertex P Q) by auto. split; [congruence|]. split; [congruence|]. intros t T0 T1. rewrite <- im_moved, (pos_position P Q) by auto. now apply W.
Qed.
End C.

Section D.
Context {K : OField} {L : Type}.
Add Field KF2 : (of_ft K).
Local Open Scope F_scope.
Lemma translation_gluings (D : L -> Prop) (S : surface K L) : valid D S -> translations D S -> all_gluings D S map_dilation.
Proof.
  intros V TR. apply all_gluings_intro; auto.
  { intros F G E [c [u [N A]]]. exists c, u. split; auto. intros p. now rewrite <- E. }
  intros l e P l' e' P' G. pose proof (TR _ _ _ _ _ _ G) as E. set (u := vsub (vertex P' (Datatypes.S e')) (vertex P e)).
  destruct (affine_similarity 1 u (fun p => vadd (vscale 1 p) u) (f1_neq_0 K)) as [A B]; auto.
  exists (fun p => vadd (vscale 1 p) u). split; [|exists 1, u; split; [apply f1_neq_0|auto]]. constructor; auto; unfold u.
  - destruct (vertex P e). apply vec_eq; cbn; ring.
  - unfold edge in E. destruct (vertex P e) as [a b], (vertex P (Datatypes.S e)) as [c d], (vertex P' e') as [x y], (vertex P' (Datatypes.S e')) as [z w]. cbn in *. injection E as E1 E2. apply vec_eq; cbn; flra.
Qed.
End D.
