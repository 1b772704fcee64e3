(** Isometries of oriented geodesics and segments; matrices of the half plane model. *)
From Coq Require Import List Bool ZArith Lia Ring Field.
From Verif Require Import OField FMicromega PField MBase MEuclid PEuclid SEuclid MHyp SHyp PHyp PHyp2 PHyp3 PHyp4 PHyp5.
Import ListNotations.

Section Hyp.
Context {K : OField}.
Add Field KF : (of_ft K).
Local Open Scope res_scope. Local Open Scope F_scope.
Implicit Types p q s e : vec K.
Implicit Types f g h : geo K.
Implicit Types x y z : K.
Implicit Types M N : mat K.

Definition orient M f : geo K := if (sgn (mat_det M) =? -1)%Z then geo_neg f else f.
Lemma orient_on M f p : on (orient M f) p <-> on f p.
Proof. unfold orient. destruct (_ =? _)%Z; [|tauto]. unfold on. cbn. split; intros; flra. Qed.
Lemma orient_chord M f : chord f -> chord (orient M f).
Proof. unfold orient. destruct (_ =? _)%Z; auto. apply chord_neg. Qed.
Lemma wz_same lam M p q : isom lam M -> in_disk p -> in_disk q -> 0 < wz M p * wz M q.
Proof.
  intros I Dp Dq. pose proof (wz_sign lam M p I Dp) as A. pose proof (wz_sign lam M q I Dq) as B. pose proof (fmul_pos _ _ A B) as C. set (u := wz M p) in *. set (v := wz M q) in *. clearbody u v. pose proof (fsq_nonneg (m22 M)) as D. set (m := m22 M) in *. clearbody m.
  apply fnle_lt. intros W. assert (0 <= m * m * - (u * v)); [|flra]. set (w := u * v) in *. destruct (proj1 (fle_lteq _ _) D) as [V|V]; [|rewrite <- V; flra]. destruct (proj1 (fle_lteq _ _) W) as [V'|V']; [apply fle_lteq; left; apply fmul_pos; flra|rewrite V'; flra].
Qed.
Lemma after_img lam M N g p q : isom lam M -> mat_mul N M = one -> in_disk p -> in_disk q -> on g p -> after g p q -> after (orient M (gimg N g)) (img M p) (img M q).
Proof.
  intros I E Dp Dq O [t [T Eq]]. pose proof (cofactor M N g p t E O) as H. cbv zeta in H. rewrite <- Eq in H. destruct H as [H1 H2]. pose proof (wz_same lam M p q I Dp Dq) as W. pose proof (isom_det lam M I) as D0. pose proof (wz_neq lam M p I Dp) as Zp. pose proof (wz_neq lam M q I Dq) as Zq.
  set (f := gimg N g) in *. clearbody f. set (d := mat_det M) in *. assert (A : img M q = vadd (img M p) (vscale (d * t / (wz M p * wz M q)) (g_c f, - g_b f))).
  { unfold img, vadd, vscale. cbn [fst snd]. set (X := wx M p) in *. set (Y := wy M p) in *. set (Z := wz M p) in *. set (X' := wx M q) in *. set (Y' := wy M q) in *. set (Z' := wz M q) in *. clearbody X Y Z X' Y' Z'. f_equal.
    - transitivity (X / Z + (X' * Z - X * Z') / (Z * Z')); [field; auto|]. rewrite H1. unfold fdiv. ring.
    - transitivity (Y / Z + (Y' * Z - Y * Z') / (Z * Z')); [field; auto|]. rewrite H2. unfold fdiv. ring. }
  unfold orient. fold d. rewrite sgn_m1. apply fneq_lt in D0. destruct D0 as [D0|D0].
  - change (d <? 0 = true) in D0. rewrite D0. exists (- d * t / (wz M p * wz M q)). split; [apply fdiv_pos; auto; apply fmul_pos; bools; flra|]. rewrite A. unfold vadd, vscale, fdiv. cbn. f_equal; ring.
  - destruct (d <? 0) eqn:Q; bools; [exfalso; flra|]. exists (d * t / (wz M p * wz M q)). split; [apply fdiv_pos; auto; now apply fmul_pos|exact A].
Qed.
Lemma start_img lam M N g p : isom lam M -> mat_mul N M = one -> start_of g p -> start_of (orient M (gimg N g)) (img M p).
Proof.
  intros I E [q [A [B [C [D F]]]]]. exists (img M q). pose proof (ideal_disk _ C) as Dp. pose proof (ideal_disk _ D) as Dq. unfold endpoints. rewrite !orient_on.
  split; [now apply (gimg_on_iff lam M N)|]. split; [now apply (gimg_on_iff lam M N)|]. split; [now apply (img_norm lam M)|]. split; [now apply (img_norm lam M)|]. now apply (after_img lam M N).
Qed.
Lemma start_apply_ok lam M N g : isom lam M -> mat_inverse M = Ok N -> mat_mul N M = one -> chord g -> start_apply M false g = Ok (orient M (gimg N g)).
Proof. intros I E1 E2 C. unfold start_apply. rewrite (geo_apply_ok lam M N g I E1 E2 C). reflexivity. Qed.

(** ** Segments *)
Lemma after_total g p q : line g -> on g p -> on g q -> p = q \/ after g p q \/ after g q p.
Proof.
  intros L A B. destruct (on_point g p L A) as [t Ep]. destruct (on_point g q L B) as [u Eq]. rewrite (after_iff g p q t u L Ep Eq), (after_iff g q p u t L Eq Ep). destruct (fltb_total K t u) as [T|[T|T]]; auto. left. rewrite Ep, Eq. congruence.
Qed.
Lemma after_asym g p q : line g -> on g p -> after g p q -> after g q p -> False.
Proof.
  intros L A H H'. pose proof (after_on g p q A H) as B. destruct (on_point g p L A) as [t Ep]. destruct (on_point g q L B) as [u Eq]. apply (after_iff g p q t u L Ep Eq) in H. apply (after_iff g q p u t L Eq Ep) in H'. flra.
Qed.
Lemma after_img_iff lam M N g p q : isom lam M -> mat_mul N M = one -> chord g -> in_disk p -> in_disk q -> on g p -> on g q -> after (orient M (gimg N g)) (img M p) (img M q) <-> after g p q.
Proof.
  intros I E C Dp Dq Op Oq. split; [|now apply (after_img lam M N)]. intros H. pose proof (chord_line _ (orient_chord M _ (gimg_chord lam M N g I E C))) as L.
  destruct (after_total g p q (chord_line g C) Op Oq) as [Q|[Q|Q]]; auto; exfalso.
  - subst. now apply (after_irrefl _ _ L) in H.
  - apply (after_img lam M N) in Q; auto. apply (after_asym _ _ _ L) in H; auto. apply orient_on. now apply (gimg_on_iff lam M N).
Qed.
Lemma in_segment_img lam M N g (start fin : option (vec K)) p : isom lam M -> mat_mul N M = one -> chord g -> in_disk p ->
  (forall s, start = Some s -> in_disk s /\ on g s) -> (forall s, fin = Some s -> in_disk s /\ on g s) ->
  in_segment (orient M (gimg N g)) (option_map (img M) start) (option_map (img M) fin) (img M p) <-> in_segment g start fin p.
Proof.
  intros I E C D Hs He. unfold in_segment. rewrite orient_on, (gimg_on_iff lam M N g p I E D). pose proof (proj1 (img_norm lam M p I D)) as D'.
  assert (on g p -> (not_before (orient M (gimg N g)) (option_map (img M) start) (img M p) <-> not_before g start p)).
  { intros O. destruct start as [s|]; cbn; [|tauto]. destruct (Hs s eq_refl) as [Ds Os]. rewrite (after_img_iff lam M N g s p) by auto. split; (intros [H|H]; [left|right; auto]); [now apply (img_inj lam M)|now rewrite H]. }
  assert (on g p -> (not_after (orient M (gimg N g)) (option_map (img M) fin) (img M p) <-> not_after g fin p)).
  { intros O. destruct fin as [s|]; cbn; [|tauto]. destruct (He s eq_refl) as [Ds Os]. rewrite (after_img_iff lam M N g p s) by auto. split; (intros [W|W]; [left|right; auto]); [now apply (img_inj lam M)|now rewrite W]. }
  tauto.
Qed.
(** the part of [segment_apply] that depends on the orientation only chooses the right geodesic *)
Lemma segment_check_ok g (start fin : option (vec K)) : line g -> all_on g start -> all_on g fin -> (forall p q, start = Some p -> fin = Some q -> p = q \/ after g p q) -> segment_check g start fin false = Ok tt.
Proof.
  intros L A B H. unfold segment_check.
  assert (SA : match start with Some p => negb (geo_eval g p =? 0) | None => false end = false). { destruct start as [p|]; auto. cbn in A. apply negb_false_iff, feqb_eq. exact A. }
  assert (SB : match fin with Some p => negb (geo_eval g p =? 0) | None => false end = false). { destruct fin as [p|]; auto. cbn in B. apply negb_false_iff, feqb_eq. exact B. }
  rewrite SA, SB. destruct start as [p|], fin as [q|]; auto. destruct (parametrize_ok g p L A) as [t [Et Ep]]. destruct (parametrize_ok g q L B) as [u [Eu Eq]]. rewrite Et, Eu. cbn [bind andb]. destruct (u <? t) eqn:W; auto. exfalso. bools. destruct (H p q eq_refl eq_refl) as [Q|Q].
  - rewrite <- Q, Et in Eu. injection Eu as ->. flra.
  - apply (after_iff g p q t u L Ep Eq) in Q. flra.
Qed.
Lemma segment_apply_ok lam M N oriented g (start fin : option (vec K)) : isom lam M -> mat_inverse M = Ok N -> mat_mul N M = one ->
  normal_seg (SegSegment g start fin) -> (oriented = true \/ (start <> None /\ fin <> None)) ->
  exists r, segment_apply M false oriented g start fin = Ok r /\ normal_seg r /\ forall p, in_disk p -> set_of r (img M p) <-> in_segment g start fin p.
Proof.
  intros I E1 E2 [C [NN [Hs [He Ho]]]] OR. pose proof (chord_line g C) as L. set (f := gimg N g). assert (Cf : chord f) by (now apply (gimg_chord lam M)).
  assert (Cof : chord (orient M f)) by (now apply orient_chord). pose proof (chord_line _ Cof) as Lof.
  assert (Ds : forall s, start = Some s -> in_disk s /\ on g s). { intros s Q. destruct (Hs s Q). split; auto. now apply finite_disk. }
  assert (De : forall s, fin = Some s -> in_disk s /\ on g s). { intros s Q. destruct (He s Q). split; auto. now apply finite_disk. }
  set (start' := option_map (img M) start). set (fin' := option_map (img M) fin).
  assert (As : all_on (orient M f) start'). { unfold start'. destruct start as [s|]; cbn; auto. destruct (Ds s eq_refl). apply orient_on. now apply (gimg_on_iff lam M N). }
  assert (Ae : all_on (orient M f) fin'). { unfold fin'. destruct fin as [s|]; cbn; auto. destruct (De s eq_refl). apply orient_on. now apply (gimg_on_iff lam M N). }
  assert (Ho' : forall p q, start' = Some p -> fin' = Some q -> after (orient M f) p q). { unfold start', fin'. intros p q. destruct start as [s|], fin as [e|]; cbn; try discriminate. intros P Q. injection P as <-. injection Q as <-. destruct (Ds s eq_refl), (De e eq_refl). apply (after_img lam M N); auto. }
  unfold segment_apply. rewrite (geo_apply_ok lam M N g I E1 E2 C). cbn [bind]. fold f.
  assert (S1 : match start with Some p => q <- point_apply M false p ;; Ok (Some q) | None => Ok None end = Ok start'). { unfold start'. destruct start as [s|]; auto. rewrite (point_apply_ok lam M s I) by (apply Ds; auto). reflexivity. }
  assert (S2 : match fin with Some p => q <- point_apply M false p ;; Ok (Some q) | None => Ok None end = Ok fin'). { unfold fin'. destruct fin as [s|]; auto. rewrite (point_apply_ok lam M s I) by (apply De; auto). reflexivity. }
  rewrite S1, S2. cbn [bind].
  assert (CH : (if oriented then Ok (if (sgn (mat_det M) =? -1)%Z && oriented then geo_neg f else f)
        else match start', fin' with
             | None, None => Ok (if (sgn (mat_det M) =? -1)%Z && oriented then geo_neg f else f)
             | Some p, Some q =>
               if veqb p q then Err ValueError
               else l <- parametrize (if (sgn (mat_det M) =? -1)%Z && oriented then geo_neg f else f) p ;; m <- parametrize (if (sgn (mat_det M) =? -1)%Z && oriented then geo_neg f else f) q ;; if m <? l then Ok (geo_neg (if (sgn (mat_det M) =? -1)%Z && oriented then geo_neg f else f)) else Ok (if (sgn (mat_det M) =? -1)%Z && oriented then geo_neg f else f)
             | _, _ => Err ValueError
             end) = Ok (orient M f)).
  { destruct oriented. - rewrite andb_true_r. reflexivity.
    - rewrite andb_false_r. destruct OR as [OR|[N1 N2]]; [discriminate|]. destruct start as [s|]; [|tauto]. destruct fin as [e|]; [|tauto]. cbn [option_map] in start', fin'. unfold start' in *. unfold fin' in *. pose proof (Ho' _ _ eq_refl eq_refl) as A.
      destruct (veqb (img M s) (img M e)) eqn:V. { exfalso. apply (proj1 (veqb_eq _ _)) in V. rewrite V in A. now apply (after_irrefl _ _ Lof) in A. }
      cbn in As, Ae. pose proof (chord_line f Cf) as Lf. apply orient_on in As. apply orient_on in Ae. destruct (parametrize_ok f _ Lf As) as [t [Et Ep]]. destruct (parametrize_ok f _ Lf Ae) as [u [Eu Eq]]. rewrite Et, Eu. cbn [bind]. unfold orient in *. destruct (sgn (mat_det M) =? -1)%Z.
      + assert (B : after f (img M e) (img M s)). { destruct A as [k [Kp Ek]]. exists k. split; auto. rewrite Ek. apply vec_eq; unfold vadd, vscale; cbn; ring. } apply (after_iff f _ _ u t Lf Eq Ep) in B. unfold flt in B. now rewrite B.
      + apply (after_iff f _ _ t u Lf Ep Eq) in A. destruct (u <? t) eqn:W; auto. exfalso. bools. flra. }
  match goal with |- context [bind ?a (fun f0 : geo K => bind (segment_check _ _ _ _) _)] => replace a with (Ok (orient M f) : res (geo K)) by (symmetry; exact CH) end. cbn [bind]. rewrite (segment_check_ok (orient M f) start' fin' Lof As Ae) by (intros; right; now apply Ho'). cbn [bind].
  destruct (segment_normalize_ok (orient M f) start' fin' Cof As Ae) as [[r [R1 [R2 [R3 R4]]]]|[_ [p [q [P [Q A]]]]]].
  - exists r. split; auto. split; auto. intros p D. rewrite R4. now apply (in_segment_img lam M N).
  - exfalso. rewrite P in As. apply (after_asym _ p q Lof As); auto.
Qed.
Lemma segment_apply_half lam M N g (start fin : option (vec K)) : isom lam M -> mat_inverse M = Ok N -> mat_mul N M = one ->
  normal_seg (SegSegment g start fin) -> (start = None \/ fin = None) -> segment_apply M false false g start fin = Err ValueError.
Proof.
  intros I E1 E2 [C [NN [Hs [He Ho]]]] OR. unfold segment_apply. rewrite (geo_apply_ok lam M N g I E1 E2 C). cbn [bind]. destruct start as [s|], fin as [e|]; destruct OR as [Q|Q]; try discriminate Q; try (destruct NN; congruence).
  - cbn [bind]. rewrite (point_apply_ok lam M s I) by (apply finite_disk; now apply Hs). reflexivity.
  - cbn [bind]. rewrite (point_apply_ok lam M e I) by (apply finite_disk; now apply He). reflexivity.
Qed.

(** ** The action from the right *)
Lemma det_sign M N : mat_det M * mat_det N = 1 -> (sgn (mat_det M) =? -1)%Z = (sgn (mat_det N) =? -1)%Z.
Proof.
  intros E. rewrite !sgn_m1. set (d := mat_det M) in *. set (k := mat_det N) in *. clearbody d k. pose proof (@flt_0_1 K) as P. destruct (d <? 0) eqn:A, (k <? 0) eqn:B; auto; exfalso; bools.
  - destruct (proj1 (fle_lteq _ _) B) as [V|V]; [assert (0 < (- d) * k) by (apply fmul_pos; flra)|rewrite <- V in E]; flra.
  - destruct (proj1 (fle_lteq _ _) A) as [V|V]; [assert (0 < d * - k) by (apply fmul_pos; flra)|rewrite <- V in E]; flra.
Qed.
Lemma right_apply lam M N : isom lam M -> mat_inverse M = Ok N -> mat_inverse N = Ok M -> mat_det M * mat_det N = 1 ->
  (forall p, point_apply M true p = point_apply N false p) /\ (forall g, geo_apply M true g = geo_apply N false g) /\ (forall g, start_apply M true g = start_apply N false g) /\
  (forall oriented g start fin, segment_apply M true oriented g start fin = segment_apply N false oriented g start fin).
Proof.
  intros I E1 E2 D. assert (A : forall p, point_apply M true p = point_apply N false p) by (intros p; unfold point_apply; rewrite E1; reflexivity). assert (B : forall g, geo_apply M true g = geo_apply N false g) by (intros g; unfold geo_apply; rewrite E2; reflexivity).
  split; auto. split; auto. split.
  - intros g. unfold start_apply. now rewrite B, (det_sign M N D).
  - intros o g s e. unfold segment_apply. rewrite B, (det_sign M N D). destruct s as [s|], e as [e|]; rewrite ?A; reflexivity.
Qed.

(** ** Matrices of the half plane model *)
Lemma gl2_mul (N N' : mat2 K) : gl2_to_sim12 (mul2 N N') = mat_mul (gl2_to_sim12 N) (gl2_to_sim12 N').
Proof. destruct N as [a b c d], N' as [a' b' c' d']. unfold gl2_to_sim12, mul2. cbn [e00 e01 e10 e11]. pose proof (@f2_neq0 K) as N2. apply mat_ext; cbn [mat_mul m00 m01 m02 m10 m11 m12 m20 m21 m22]; field; exact N2. Qed.
Lemma gl2_isom (N : mat2 K) : det2 N <> 0 -> isom (det2 N * det2 N) (gl2_to_sim12 N).
Proof.
  intros D. split; [now apply fsq_pos|]. destruct N as [a b c d]. unfold det2, gl2_to_sim12 in *. cbn [e00 e01 e10 e11 m00 m01 m02 m10 m11 m12 m20 m21 m22] in *. pose proof (@f2_neq0 K) as N2. repeat split; field; exact N2.
Qed.
Lemma gl2_det (N : mat2 K) : mat_det (gl2_to_sim12 N) = det2 N * det2 N * det2 N.
Proof. destruct N as [a b c d]. unfold det2, gl2_to_sim12, mat_det. cbn [e00 e01 e10 e11 m00 m01 m02 m10 m11 m12 m20 m21 m22]. pose proof (@f2_neq0 K) as N2. field. exact N2. Qed.
Lemma gl2_side (N : mat2 K) : det2 N <> 0 -> 0 < m22 (gl2_to_sim12 N).
Proof.
  intros D. destruct N as [a b c d]. unfold det2 in D. cbn in *. apply fdiv_pos; [apply f2_pos|]. pose proof (fsq_nonneg a) as A. pose proof (fsq_nonneg b) as B. pose proof (fsq_nonneg c) as C. pose proof (fsq_nonneg d) as E. apply fnle_lt. intros H.
  assert (a * a = 0) by (apply fle_antisym; flra). assert (b * b = 0) by (apply fle_antisym; flra). apply fsqr_eq0 in H0. apply fsqr_eq0 in H1. apply D. subst. ring.
Qed.
Lemma gl2_check (N : mat2 K) : det2 N = 0 -> forall lam, ~ isom lam (gl2_to_sim12 N).
Proof. intros D lam I. apply (isom_det lam _ I). rewrite gl2_det, D. ring. Qed.
(** the denominator is the sum of the squares of numerator and denominator *)
Definition num (N : mat2 K) x y := (e00 N * x + e01 N) * (e00 N * x + e01 N) + e00 N * y * (e00 N * y).
Definition den (N : mat2 K) x y := (e10 N * x + e11 N) * (e10 N * x + e11 N) + e10 N * y * (e10 N * y).
Lemma wz_gl2 (N : mat2 K) x y : wz (gl2_to_sim12 N) (hp x y) * (1 + x * x + y * y) = num N x y + den N x y.
Proof. pose proof (fpos_neq0 _ (hp_den x y)) as H. pose proof (@f2_neq0 K) as N2. destruct N as [a b c d]. unfold wz, hp, num, den, gl2_to_sim12. cbn [fst snd e00 e01 e10 e11 m20 m21 m22]. field. auto. Qed.
Lemma wx_gl2 (N : mat2 K) x y : wx (gl2_to_sim12 N) (hp x y) * (1 + x * x + y * y) = 2 * ((e00 N * x + e01 N) * (e10 N * x + e11 N) + e00 N * e10 N * (y * y)).
Proof. pose proof (fpos_neq0 _ (hp_den x y)) as H. pose proof (@f2_neq0 K) as N2. destruct N as [a b c d]. unfold wx, hp, gl2_to_sim12. cbn [fst snd e00 e01 e10 e11 m00 m01 m02]. field. auto. Qed.
Lemma wy_gl2 (N : mat2 K) x y : wy (gl2_to_sim12 N) (hp x y) * (1 + x * x + y * y) = num N x y - den N x y.
Proof. pose proof (fpos_neq0 _ (hp_den x y)) as H. pose proof (@f2_neq0 K) as N2. destruct N as [a b c d]. unfold wy, hp, num, den, gl2_to_sim12. cbn [fst snd e00 e01 e10 e11 m10 m11 m12]. field. auto. Qed.
Lemma den_zero (N : mat2 K) x y : den N x y = 0 <-> moebius_pole N (x, y).
Proof.
  unfold den, moebius_pole, affine. cbn [fst snd]. split.
  - intros E. assert (A : e10 N * x + e11 N = 0). { destruct (feq_dec (e10 N * x + e11 N) 0) as [Q|Q]; auto. exfalso. apply fsq_pos in Q. pose proof (fsq_nonneg (e10 N * y)). flra. }
    assert (B : e10 N * y = 0). { destruct (feq_dec (e10 N * y) 0) as [Q|Q]; auto. exfalso. apply fsq_pos in Q. pose proof (fsq_nonneg (e10 N * x + e11 N)). flra. } now rewrite A, B.
  - intros E. assert (A : e10 N * x + e11 N = 0) by congruence. assert (B : e10 N * y = 0) by congruence. rewrite A, B. ring.
Qed.
(** multiplying with the conjugate of the denominator *)
Lemma moebius_solve (a b c d x y u v : K) : cmul (u, v) (affine c d (x, y)) = affine a b (x, y) ->
  u * ((c * x + d) * (c * x + d) + c * y * (c * y)) = (a * x + b) * (c * x + d) + a * c * (y * y) /\ v * ((c * x + d) * (c * x + d) + c * y * (c * y)) = (a * d - b * c) * y.
Proof.
  unfold cmul, affine. cbn [fst snd]. intros E. assert (A : u * (c * x + d) - v * (c * y) = a * x + b) by congruence. assert (B : u * (c * y) + v * (c * x + d) = a * y) by congruence.
  split.
  - transitivity ((u * (c * x + d) - v * (c * y)) * (c * x + d) + (u * (c * y) + v * (c * x + d)) * (c * y)); [ring|]. rewrite A, B. ring.
  - transitivity ((u * (c * y) + v * (c * x + d)) * (c * x + d) - (u * (c * x + d) - v * (c * y)) * (c * y)); [ring|]. rewrite A, B. ring.
Qed.
Lemma moebius_img (N : mat2 K) x y u v : det2 N <> 0 -> 0 <= y -> ~ moebius_pole N (x, y) -> moebius N (x, y) (u, v) -> 0 <= v /\ img (gl2_to_sim12 N) (hp x y) = hp u v.
Proof.
  intros D Y P H. rewrite <- den_zero in P. unfold moebius in H.
  assert (S : u * den N x y = (e00 N * x + e01 N) * (e10 N * x + e11 N) + e00 N * e10 N * (y * y) /\ (v * den N x y = det2 N * y /\ 0 < det2 N \/ v * den N x y = - det2 N * y /\ det2 N < 0)).
  { unfold den. destruct (e00 N * e11 N - e01 N * e10 N <? 0) eqn:Q; bools; fold (det2 N) in Q.
    - unfold SHyp.conj in H. cbn [fst snd] in H. apply moebius_solve in H. destruct H as [H1 H2]. split; [etransitivity; [|etransitivity; [exact H1|ring]]; ring|]. right. split; auto. etransitivity; [|etransitivity; [exact H2|]]; unfold det2; ring.
    - apply moebius_solve in H. destruct H as [H1 H2]. split; [etransitivity; [|etransitivity; [exact H1|ring]]; ring|]. left. split; [|apply fneq_lt in D; destruct D; auto; exfalso; flra]. etransitivity; [|etransitivity; [exact H2|]]; unfold det2; ring. }
  destruct S as [S1 S2]. assert (DP : 0 < den N x y). { pose proof (fsq_nonneg (e10 N * x + e11 N)). pose proof (fsq_nonneg (e10 N * y)). apply fneq_lt in P. destruct P as [P|P]; auto. exfalso. unfold den in P. flra. }
  assert (V : 0 <= v). { apply (pos_mul_iff v (den N x y) DP). destruct S2 as [[S2 S3]|[S2 S3]]; rewrite S2; destruct (proj1 (fle_lteq _ _) Y) as [V|V]; try (rewrite <- V; flra); apply fle_lteq; left; apply fmul_pos; auto; flra. }
  split; auto.
  assert (V2 : v * den N x y * (v * den N x y) = det2 N * det2 N * (y * y)) by (destruct S2 as [[-> _]|[-> _]]; ring).
  (* |w|² den = num *)
  assert (NM : (u * u + v * v) * den N x y = num N x y). { apply (fcancel _ _ (den N x y) P). transitivity (u * den N x y * (u * den N x y) + v * den N x y * (v * den N x y)); [ring|]. rewrite S1, V2. unfold num, den, det2. ring. }
  pose proof (fpos_neq0 _ (hp_den x y)) as H1. pose proof (fpos_neq0 _ (hp_den u v)) as H2. pose proof (wx_gl2 N x y) as X. pose proof (wy_gl2 N x y) as Y'. pose proof (wz_gl2 N x y) as Z. rewrite <- S1 in X. rewrite <- NM in Y', Z.
  assert (Z0 : wz (gl2_to_sim12 N) (hp x y) <> 0) by (apply (wz_neq _ _ _ (gl2_isom N D)); apply hp_in_disk).
  unfold img. set (a := wx (gl2_to_sim12 N) (hp x y)) in *. set (b := wy (gl2_to_sim12 N) (hp x y)) in *. set (c := wz (gl2_to_sim12 N) (hp x y)) in *. set (k := 1 + x * x + y * y) in *. set (dd := den N x y) in *. clearbody a b c k dd. unfold hp.
  f_equal.
  - apply (fcancel _ _ (c * k * (1 + u * u + v * v))); [repeat apply fmul_neq0; auto|]. transitivity ((a * k) * (1 + u * u + v * v)); [field; auto|]. rewrite X. transitivity (2 * u * (c * k)); [rewrite Z; ring|field; auto].
  - apply (fcancel _ _ (c * k * (1 + u * u + v * v))); [repeat apply fmul_neq0; auto|]. transitivity ((b * k) * (1 + u * u + v * v)); [field; auto|]. rewrite Y'. transitivity ((- (1) + u * u + v * v) * (c * k)); [rewrite Z; ring|field; auto].
Qed.
Lemma moebius_pole_img (N : mat2 K) x y : det2 N <> 0 -> 0 <= y -> moebius_pole N (x, y) -> img (gl2_to_sim12 N) (hp x y) = infinity.
Proof.
  intros D Y P. pose proof (proj2 (den_zero N x y) P) as E. pose proof (wx_gl2 N x y) as X. pose proof (wy_gl2 N x y) as Y'. pose proof (wz_gl2 N x y) as Z. rewrite E in Y', Z. unfold moebius_pole, affine in P. cbn [fst snd] in P. assert (A : e10 N * x + e11 N = 0) by congruence. assert (B : e10 N * y = 0) by congruence.
  assert (X' : wx (gl2_to_sim12 N) (hp x y) * (1 + x * x + y * y) = 0). { rewrite X, A. transitivity (2 * (e00 N * y * (e10 N * y))); [ring|]. rewrite B. ring. } clear X.
  assert (Z0 : wz (gl2_to_sim12 N) (hp x y) <> 0) by (apply (wz_neq _ _ _ (gl2_isom N D)); apply hp_in_disk). pose proof (fpos_neq0 _ (hp_den x y)) as H1.
  unfold img, infinity. set (a := wx (gl2_to_sim12 N) (hp x y)) in *. set (b := wy (gl2_to_sim12 N) (hp x y)) in *. set (c := wz (gl2_to_sim12 N) (hp x y)) in *. set (k := 1 + x * x + y * y) in *. clearbody a b c k.
  assert (a = 0) by (apply fmul_eq0 in X'; destruct X'; tauto). assert (b = c) by (apply (fcancel _ _ k H1); rewrite Y', Z; ring). subst. f_equal; field; auto.
Qed.
Lemma infinity_img (N : mat2 K) : det2 N <> 0 -> img (gl2_to_sim12 N) infinity = if e10 N =? 0 then infinity else hp (e00 N / e10 N) 0.
Proof.
  intros D. assert (DI : in_disk (infinity : vec K)) by (unfold in_disk, infinity; cbn; flra). pose proof (wz_neq _ _ _ (gl2_isom N D) DI) as Z0. pose proof (@f2_neq0 K) as N2. destruct N as [a b c d]. unfold img, wx, wy, wz, infinity, gl2_to_sim12 in *. cbn [fst snd e00 e01 e10 e11 m00 m01 m02 m10 m11 m12 m20 m21 m22] in *.
  assert (EX : (a * d + b * c) * 0 + (a * c - b * d) * 1 + (a * c + b * d) = 2 * (a * c)) by ring.
  assert (EY : (a * b - c * d) * 0 + (a * a - b * b - c * c + d * d) / 2 * 1 + (a * a + b * b - c * c - d * d) / 2 = a * a - c * c) by (field; exact N2).
  assert (EZ : (a * b + c * d) * 0 + (a * a - b * b + c * c - d * d) / 2 * 1 + (a * a + b * b + c * c + d * d) / 2 = a * a + c * c) by (field; exact N2).
  rewrite EX, EY. rewrite EZ in *. destruct (c =? 0) eqn:C; bools.
  - subst c. assert (A : a * a <> 0) by (intros Q; apply Z0; rewrite Q; ring). f_equal; [transitivity (0 / (a * a + 0 * 0)); [unfold fdiv; ring|unfold fdiv; ring]|]. replace (a * a - 0 * 0) with (a * a) by ring. replace (a * a + 0 * 0) with (a * a) by ring. field. intros Q. apply A. rewrite Q. ring.
  - unfold hp. pose proof (fpos_neq0 _ (hp_den (a / c) 0)) as H. assert (R : 1 + a / c * (a / c) + 0 * 0 = (a * a + c * c) / (c * c)) by (field; exact C). rewrite R in *. set (n := a * a + c * c) in *.
    assert (EN : n = a * a + c * c) by reflexivity. clearbody n. f_equal; [field; auto|]. assert (Q : - (1) + a / c * (a / c) + 0 * 0 = (a * a - c * c) / (c * c)) by (field; exact C). rewrite Q. field. auto.
Qed.
End Hyp.
