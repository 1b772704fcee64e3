(** Isometries. *)
From Coq Require Import List Bool ZArith Lia Ring Field.
From Verif Require Import OField FMicromega PField MBase MEuclid PEuclid SEuclid MHyp SHyp PHyp PHyp2 PHyp3 PHyp4.
Import ListNotations.

Section Hyp.
Context {K : OField}.
Add Field KF : (of_ft K).
Local Open Scope res_scope. Local Open Scope F_scope.
Implicit Types p q : vec K.
Implicit Types f g h : geo K.
Implicit Types x y z : K.
Implicit Types M N : mat K.

(** ** Matrices *)
Lemma mat_ext M N : m00 M = m00 N -> m01 M = m01 N -> m02 M = m02 N -> m10 M = m10 N -> m11 M = m11 N -> m12 M = m12 N ->
  m20 M = m20 N -> m21 M = m21 N -> m22 M = m22 N -> M = N.
Proof. destruct M, N. cbn. intros. subst. reflexivity. Qed.
Lemma mul_assoc M N P : mat_mul M (mat_mul N P) = mat_mul (mat_mul M N) P.
Proof. apply mat_ext; cbn; ring. Qed.
Definition one := @mat_diag K 1 1 1.
Lemma mul_1_l M : mat_mul one M = M.
Proof. apply mat_ext; cbn; ring. Qed.
Lemma mul_1_r M : mat_mul M one = M.
Proof. apply mat_ext; cbn; ring. Qed.
Lemma det_mul M N : mat_det (mat_mul M N) = mat_det M * mat_det N.
Proof. unfold mat_det. cbn. ring. Qed.
Lemma det_one : mat_det one = 1.
Proof. unfold mat_det. cbn. ring. Qed.
Lemma inverse_ok M : mat_det M <> 0 -> exists N, mat_inverse M = Ok N /\ mat_mul M N = one /\ mat_mul N M = one.
Proof.
  intros D. unfold mat_inverse. destruct (mat_det M =? 0) eqn:E; bools; [tauto|]. eexists. split; [reflexivity|].
  split; apply mat_ext; cbn [mat_mul m00 m01 m02 m10 m11 m12 m20 m21 m22 one mat_diag]; unfold mat_det in *; field; exact D.
Qed.
Lemma inverse_unique M N : mat_mul M N = one -> mat_inverse M = Ok N /\ mat_mul N M = one.
Proof.
  intros E. assert (D : mat_det M <> 0). { intros Z. assert (Q : mat_det (mat_mul M N) = 1) by (rewrite E; apply det_one). rewrite det_mul, Z in Q. apply (fpos_neq0 _ (@flt_0_1 K)). rewrite <- Q. ring. }
  destruct (inverse_ok M D) as [P [E1 [E2 E3]]]. assert (N = P). { rewrite <- (mul_1_l N), <- E3, <- mul_assoc, E, mul_1_r. reflexivity. } subst P. auto.
Qed.

(** ** The check *)
Definition isom (lam : K) M : Prop := 0 < lam /\
  m00 M * m00 M + m10 M * m10 M - m20 M * m20 M = lam /\ m01 M * m01 M + m11 M * m11 M - m21 M * m21 M = lam /\
  m02 M * m02 M + m12 M * m12 M - m22 M * m22 M = - lam /\
  m00 M * m01 M + m10 M * m11 M - m20 M * m21 M = 0 /\ m00 M * m02 M + m10 M * m12 M - m20 M * m22 M = 0 /\
  m01 M * m02 M + m11 M * m12 M - m21 M * m22 M = 0.
Lemma signature M lam : lam <> 0 ->
  m00 M * m00 M + m10 M * m10 M - m20 M * m20 M = lam -> m01 M * m01 M + m11 M * m11 M - m21 M * m21 M = lam ->
  m00 M * m01 M + m10 M * m11 M - m20 M * m21 M = 0 -> 0 < lam.
Proof.
  destruct M as [a b c d e f g h i]. cbn. intros N A B C. apply fneq_lt in N. destruct N as [N|N]; auto. exfalso.
  assert (A' : a * a + d * d < g * g) by flra. assert (B' : b * b + e * e < h * h) by flra.
  assert (P : 0 < (g * g - (a * a + d * d)) * (h * h)). { apply fmul_pos; [flra|]. pose proof (fsq_nonneg b). pose proof (fsq_nonneg e). flra. }
  assert (Q : 0 <= (a * a + d * d) * (h * h - (b * b + e * e))). { pose proof (fsq_nonneg a). pose proof (fsq_nonneg d). assert (H1 : 0 <= a * a + d * d) by flra. destruct (proj1 (fle_lteq _ _) H1) as [W|W]; [apply fle_lteq; left; apply fmul_pos; flra|rewrite <- W; flra]. }
  assert (G : g * h = a * b + d * e) by flra. assert (G2 : g * g * (h * h) = (a * b + d * e) * (a * b + d * e)) by (rewrite <- G; ring). pose proof (fsq_nonneg (a * e - d * b)). flra.
Qed.
Lemma check_isom M : (check_isometry M = Ok tt /\ exists lam, isom lam M) \/ (check_isometry M = Err ValueError /\ forall lam, ~ isom lam M).
Proof.
  unfold check_isometry. cbn [mat_mul mat_transpose mat_diag m00 m01 m02 m10 m11 m12 m20 m21 m22].
  set (d00 := m00 M * m00 M + m10 M * m10 M - m20 M * m20 M). set (d11 := m01 M * m01 M + m11 M * m11 M - m21 M * m21 M). set (d22 := m02 M * m02 M + m12 M * m12 M - m22 M * m22 M).
  set (d01 := m00 M * m01 M + m10 M * m11 M - m20 M * m21 M). set (d02 := m00 M * m02 M + m10 M * m12 M - m20 M * m22 M). set (d12 := m01 M * m02 M + m11 M * m12 M - m21 M * m22 M).
  match goal with |- context [(?u =? 0) || negb (?v =? 0) || negb (?w =? 0) || negb (?v' =? 0) || (?x =? 0) || negb (?y =? 0) || negb (?w' =? 0) || negb (?y' =? 0) || (?z =? 0)] =>
    replace u with d00 by (unfold d00; ring); replace v with d01 by (unfold d01; ring); replace w with d02 by (unfold d02; ring); replace v' with d01 by (unfold d01; ring);
    replace x with d11 by (unfold d11; ring); replace y with d12 by (unfold d12; ring); replace w' with d02 by (unfold d02; ring); replace y' with d12 by (unfold d12; ring); replace z with d22 by (unfold d22; ring) end.
  assert (IS : forall lam, isom lam M <-> 0 < lam /\ d00 = lam /\ d11 = lam /\ d22 = - lam /\ d01 = 0 /\ d02 = 0 /\ d12 = 0) by (intros; reflexivity).
  assert (SG : d00 <> 0 -> d11 = d00 -> d01 = 0 -> 0 < d00) by (intros N H H0; apply (signature M d00 N eq_refl H H0)).
  clearbody d00 d11 d22 d01 d02 d12.
  destruct (d00 =? 0) eqn:E1; bools; cbn [orb]. { right. split; auto. intros lam Q. apply IS in Q. destruct Q as [P [Q _]]. flra. }
  destruct (d01 =? 0) eqn:E2; bools; cbn [orb negb]. 2:{ right. split; auto. intros lam Q. apply IS in Q. tauto. }
  destruct (d02 =? 0) eqn:E3; bools; cbn [orb negb]. 2:{ right. split; auto. intros lam Q. apply IS in Q. tauto. }
  destruct (d11 =? 0) eqn:E4; bools; cbn [orb negb]. { right. split; auto. intros lam Q. apply IS in Q. destruct Q as [P [_ [Q _]]]. flra. }
  destruct (d12 =? 0) eqn:E5; bools; cbn [orb negb]. 2:{ right. split; auto. intros lam Q. apply IS in Q. tauto. }
  destruct (d22 =? 0) eqn:E6; bools; cbn [orb negb]. { right. split; auto. intros lam Q. apply IS in Q. destruct Q as [P [_ [_ [Q _]]]]. flra. }
  destruct (d00 =? d11) eqn:E7; bools; cbn [negb]. 2:{ right. split; auto. intros lam Q. apply IS in Q. destruct Q as [_ [Q1 [Q2 _]]]. congruence. }
  destruct (d00 =? - d22) eqn:E8; bools; cbn [negb]. 2:{ right. split; auto. intros lam Q. apply IS in Q. destruct Q as [_ [Q1 [_ [Q2 _]]]]. apply E8. rewrite Q1, Q2. ring. }
  left. split; auto. exists d00. apply IS. split; [apply SG; auto|]. repeat split; auto. rewrite E8. ring.
Qed.
Lemma isom_similarity M : similarity M <-> exists lam, isom lam M.
Proof.
  split.
  - intros [lam [P H]]. exists lam. split; auto. unfold lform in H.
    pose proof (H 1 0 0) as H1. pose proof (H 0 1 0) as H2. pose proof (H 0 0 1) as H3. pose proof (H 1 1 0) as H4. pose proof (H 1 0 1) as H5. pose proof (H 0 1 1) as H6. clear H. repeat split; flra.
  - intros [lam [P [A [B [C [D [E F]]]]]]]. exists lam. split; auto. intros x y z. unfold lform.
    transitivity (x * x * (m00 M * m00 M + m10 M * m10 M - m20 M * m20 M) + y * y * (m01 M * m01 M + m11 M * m11 M - m21 M * m21 M) + z * z * (m02 M * m02 M + m12 M * m12 M - m22 M * m22 M)
      + 2 * x * y * (m00 M * m01 M + m10 M * m11 M - m20 M * m21 M) + 2 * x * z * (m00 M * m02 M + m10 M * m12 M - m20 M * m22 M) + 2 * y * z * (m01 M * m02 M + m11 M * m12 M - m21 M * m22 M)); [ring|].
    rewrite A, B, C, D, E, F. ring.
Qed.
(** the inverse up to a factor *)
Definition flip M := Mat (m00 M) (m10 M) (- m20 M) (m01 M) (m11 M) (- m21 M) (- m02 M) (- m12 M) (m22 M).
Lemma isom_flip lam M : isom lam M -> mat_mul (flip M) M = mat_diag lam lam lam.
Proof. intros [P [A [B [C [D [E F]]]]]]. apply mat_ext; cbn; flra. Qed.
Lemma det_diag (lam : K) : mat_det (mat_diag lam lam lam) = lam * lam * lam.
Proof. unfold mat_det. cbn. ring. Qed.
Lemma isom_det lam M : isom lam M -> mat_det M <> 0.
Proof.
  intros I. pose proof (isom_flip lam M I) as F. destruct I as [P _]. apply (f_equal mat_det) in F. rewrite det_mul, det_diag in F. intros Z. rewrite Z in F. apply (fpos_neq0 _ (fmul_pos _ _ (fmul_pos _ _ P P) P)). rewrite <- F. ring.
Qed.
Lemma isom_inverse lam M : isom lam M -> exists N, mat_inverse M = Ok N /\ mat_mul M N = one /\ mat_mul N M = one /\ isom (1 / lam) N /\ mat_inverse N = Ok M /\ mat_det M * mat_det N = 1 /\ m22 N = m22 M / lam.
Proof.
  intros I. destruct (inverse_ok M (isom_det lam M I)) as [N [E1 [E2 E3]]]. exists N. split; auto. split; auto. split; auto. pose proof I as [P _]. pose proof (fpos_neq0 _ P) as L0.
  assert (NE : N = mat_mul (mat_diag (1 / lam) (1 / lam) (1 / lam)) (flip M)).
  { rewrite <- (mul_1_r (mat_mul _ (flip M))), <- E2. rewrite mul_assoc. rewrite <- (mul_assoc _ (flip M) M), (isom_flip lam M I). rewrite <- (mul_1_l N) at 1. f_equal. apply mat_ext; cbn; field; exact L0. }
  assert (MF : mat_mul M (flip M) = mat_diag lam lam lam). { rewrite NE in E2. assert (Q : mat_mul (mat_diag lam lam lam) (mat_mul M (mat_mul (mat_diag (1 / lam) (1 / lam) (1 / lam)) (flip M))) = mat_diag lam lam lam) by (rewrite E2; apply mul_1_r). rewrite <- Q. apply mat_ext; cbn; field; exact L0. }
  split; [|split; [now apply inverse_unique|split]].
  - split; [apply fdiv_pos; auto; apply flt_0_1|]. rewrite NE.
    assert (R : forall u v, u = lam * v -> 1 / lam * (1 / lam) * u = 1 / lam * v) by (intros u v ->; field; exact L0).
    pose proof (f_equal m00 MF) as H00. pose proof (f_equal m11 MF) as H11. pose proof (f_equal m22 MF) as H22. pose proof (f_equal m01 MF) as H01. pose proof (f_equal m02 MF) as H02. pose proof (f_equal m12 MF) as H12. cbn in H00, H11, H22, H01, H02, H12. cbn.
    repeat split.
    + etransitivity; [|etransitivity; [exact (R _ 1 ltac:(etransitivity; [exact H00|ring]))|ring]]. ring.
    + etransitivity; [|etransitivity; [exact (R _ 1 ltac:(etransitivity; [exact H11|ring]))|ring]]. ring.
    + etransitivity; [|etransitivity; [exact (R (- (m20 M * - m20 M + m21 M * - m21 M + m22 M * m22 M)) (- (1)) ltac:(rewrite H22; ring))|ring]]. ring.
    + etransitivity; [|etransitivity; [exact (R _ 0 ltac:(etransitivity; [exact H01|ring]))|ring]]. ring.
    + etransitivity; [|etransitivity; [exact (R _ 0 ltac:(etransitivity; [exact H02|ring]))|ring]]. ring.
    + etransitivity; [|etransitivity; [exact (R _ 0 ltac:(etransitivity; [exact H12|ring]))|ring]]. ring.
  - rewrite <- det_mul, E2. apply det_one.
  - rewrite NE. cbn. unfold fdiv. ring.
Qed.

(** ** Points *)
Definition wx M p := m00 M * fst p + m01 M * snd p + m02 M.
Definition wy M p := m10 M * fst p + m11 M * snd p + m12 M.
Definition wz M p := m20 M * fst p + m21 M * snd p + m22 M.
Lemma polar lam M p q : isom lam M -> wx M p * wx M q + wy M p * wy M q - wz M p * wz M q = lam * (dot p q - 1).
Proof.
  intros [P [A [B [C [D [E F]]]]]]. unfold wx, wy, wz, dot. set (x := fst p). set (y := snd p). set (u := fst q). set (v := snd q). clearbody x y u v.
  transitivity (x * u * (m00 M * m00 M + m10 M * m10 M - m20 M * m20 M) + y * v * (m01 M * m01 M + m11 M * m11 M - m21 M * m21 M) + (m02 M * m02 M + m12 M * m12 M - m22 M * m22 M)
      + (x * v + y * u) * (m00 M * m01 M + m10 M * m11 M - m20 M * m21 M) + (x + u) * (m00 M * m02 M + m10 M * m12 M - m20 M * m22 M) + (y + v) * (m01 M * m02 M + m11 M * m12 M - m21 M * m22 M)); [ring|].
  rewrite A, B, C, D, E, F. ring.
Qed.
Lemma wz_sign lam M p : isom lam M -> in_disk p -> 0 < m22 M * wz M p.
Proof.
  intros I D. pose proof (polar lam M p p I) as Q. unfold dot in Q. unfold in_disk in D. pose proof I as [P [_ [_ [C [_ [E F]]]]]].
  assert (R : - m02 M * wx M p - m12 M * wy M p + m22 M * wz M p = lam). { unfold wx, wy, wz. assert (C' : lam = m22 M * m22 M - (m02 M * m02 M + m12 M * m12 M)) by flra. rewrite C'. transitivity (- (fst p * (m00 M * m02 M + m10 M * m12 M - m20 M * m22 M)) - snd p * (m01 M * m02 M + m11 M * m12 M - m21 M * m22 M) + (m22 M * m22 M - (m02 M * m02 M + m12 M * m12 M))); [ring|]. rewrite E, F. ring. }
  set (X := wx M p) in *. set (Y := wy M p) in *. set (Z := wz M p) in *. set (r := fst p * fst p + snd p * snd p) in *. clearbody X Y Z r.
  assert (XY : X * X + Y * Y <= Z * Z). { assert (0 <= lam * (1 - r)); [|flra]. destruct (proj1 (fle_lteq _ _) D) as [W|W]; [apply fle_lteq; left; apply fmul_pos; flra|rewrite W; flra]. }
  set (u := m02 M) in *. set (v := m12 M) in *. set (w := m22 M) in *. clearbody u v w. apply fnle_lt. intros W.
  set (k := u * X + v * Y). assert (K1 : k = w * Z - lam) by (unfold k; flra).
  assert (CS : k * k <= (u * u + v * v) * (X * X + Y * Y)) by (unfold k; pose proof (fsq_nonneg (u * Y - v * X)); flra).
  assert (B1 : (u * u + v * v) * (X * X + Y * Y) <= (u * u + v * v) * (Z * Z)). { pose proof (fsq_nonneg u). pose proof (fsq_nonneg v). assert (U : 0 <= u * u + v * v) by flra. assert (0 <= (u * u + v * v) * (Z * Z - (X * X + Y * Y))); [|flra]. destruct (proj1 (fle_lteq _ _) U) as [V|V]; [|rewrite <- V; flra]. destruct (proj1 (fle_lteq _ _) XY) as [V'|V']; [apply fle_lteq; left; apply fmul_pos; flra|rewrite V'; flra]. }
  assert (B2 : (u * u + v * v) * (Z * Z) = w * Z * (w * Z) - lam * (Z * Z)) by (replace (u * u + v * v) with (w * w - lam) by flra; ring).
  pose proof (fsq_nonneg Z). assert (0 <= lam * (Z * Z)). { destruct (proj1 (fle_lteq _ _) H) as [V|V]; [apply fle_lteq; left; now apply fmul_pos|rewrite <- V; flra]. }
  rewrite K1 in CS. assert (0 < lam * lam) by (now apply fmul_pos). assert (0 <= lam * - (w * Z)). { set (wz := w * Z) in *. clearbody wz. destruct (proj1 (fle_lteq _ _) W) as [V|V]; [apply fle_lteq; left; apply fmul_pos; flra|rewrite V; flra]. } flra.
Qed.
Lemma m22_neq lam M : isom lam M -> m22 M <> 0.
Proof. intros [P [_ [_ [C _]]]] Z. rewrite Z in C. pose proof (fsq_nonneg (m02 M)). pose proof (fsq_nonneg (m12 M)). flra. Qed.
Lemma wz_neq lam M p : isom lam M -> in_disk p -> wz M p <> 0.
Proof. intros I D Z. pose proof (wz_sign lam M p I D) as Q. rewrite Z in Q. flra. Qed.
Definition img M p : vec K := (wx M p / wz M p, wy M p / wz M p).
Lemma img_dot lam M p q : isom lam M -> in_disk p -> in_disk q -> 1 - dot (img M p) (img M q) = lam * (1 - dot p q) / (wz M p * wz M q).
Proof.
  intros I Dp Dq. pose proof (wz_neq lam M p I Dp) as Z1. pose proof (wz_neq lam M q I Dq) as Z2. pose proof (polar lam M p q I) as Q. unfold img. set (X := wx M p) in *. set (Y := wy M p) in *. set (Z := wz M p) in *. set (X' := wx M q) in *. set (Y' := wy M q) in *. set (Z' := wz M q) in *. clearbody X Y Z X' Y' Z'.
  assert (E : lam * (1 - dot p q) = Z * Z' - X * X' - Y * Y') by flra. rewrite E. unfold dot. cbn [fst snd]. field. auto.
Qed.
Lemma img_norm lam M p : isom lam M -> in_disk p -> (in_disk (img M p)) /\ (finite (img M p) <-> finite p) /\ (ideal (img M p) <-> ideal p).
Proof.
  intros I D. pose proof (img_dot lam M p p I D D) as E. pose proof (fsq_pos _ (wz_neq lam M p I D)) as Z. destruct I as [P _]. unfold in_disk, finite, ideal in *. unfold dot in E. set (r := fst p * fst p + snd p * snd p) in *. set (s := fst (img M p) * fst (img M p) + snd (img M p) * snd (img M p)) in *. set (n := wz M p * wz M p) in *. clearbody r s n.
  assert (F : (1 - s) * n = lam * (1 - r)) by (rewrite E; apply fdiv_mul; now apply fpos_neq0). clear E.
  assert (A : s < 1 <-> r < 1). { split; intros H; apply fnle_lt; intros C.
    - assert (0 < (1 - s) * n) by (apply fmul_pos; flra). assert (0 <= lam * (r - 1)); [|flra]. destruct (proj1 (fle_lteq _ _) C) as [V|V]; [apply fle_lteq; left; apply fmul_pos; flra|rewrite V; flra].
    - assert (0 < lam * (1 - r)) by (apply fmul_pos; flra). assert (0 <= (s - 1) * n); [|flra]. destruct (proj1 (fle_lteq _ _) C) as [V|V]; [apply fle_lteq; left; apply fmul_pos; flra|rewrite V; flra]. }
  assert (B : s = 1 <-> r = 1). { split; intros H; rewrite H in F.
    - assert (Q : lam * (1 - r) = 0) by flra. apply fmul_eq0 in Q. destruct Q as [Q|Q]; flra.
    - assert (Q : (1 - s) * n = 0) by flra. apply fmul_eq0 in Q. destruct Q as [Q|Q]; [|exfalso]; flra. }
  split; auto. apply fle_lteq. rewrite A, B. apply fle_lteq. exact D.
Qed.
Lemma point_apply_ok lam M p : isom lam M -> in_disk p -> point_apply M false p = Ok (img M p).
Proof.
  intros I D. unfold point_apply. cbn [bind]. fold (wx M p) (wy M p) (wz M p). destruct (wz M p =? 0) eqn:Z; bools; [now apply (wz_neq lam M p I D) in Z|]. fold (img M p). unfold point_klein. destruct (is_ultra_ideal (img M p)) eqn:U; auto.
  pose proof (proj1 (img_norm lam M p I D)) as Q. apply ultra_iff in Q. congruence.
Qed.
Lemma img_maps lam M p : isom lam M -> in_disk p -> maps M p (img M p).
Proof. intros I D. pose proof (wz_neq lam M p I D) as Z. exists (wz M p). split; auto. unfold img. cbn [fst snd]. fold (wx M p) (wy M p) (wz M p). repeat split; field; exact Z. Qed.
Lemma maps_img M p q : maps M p q -> q = img M p.
Proof. intros [w [W [A [B C]]]]. fold (wx M p) in A. fold (wy M p) in B. fold (wz M p) in C. unfold img. rewrite A, B, C. apply vec_eq; cbn; field; exact W. Qed.
Lemma img_inverse M N p : mat_mul N M = one -> wz M p <> 0 -> img N (img M p) = p.
Proof.
  intros E Z. unfold img at 1.
  assert (A : wx N (img M p) = fst p / wz M p). { transitivity ((m00 (mat_mul N M) * fst p + m01 (mat_mul N M) * snd p + m02 (mat_mul N M)) / wz M p); [|rewrite E; cbn; unfold fdiv; ring]. unfold wx at 1. unfold img. cbn [fst snd mat_mul m00 m01 m02]. unfold wx, wy in *. set (z := wz M p) in *. unfold wz in z. assert (EZ : m20 M * fst p + m21 M * snd p + m22 M = z) by reflexivity. clearbody z. rewrite <- (fdiv_mul (m02 N) z Z) at 1. unfold fdiv. rewrite <- EZ at 4. ring. }
  assert (B : wy N (img M p) = snd p / wz M p). { transitivity ((m10 (mat_mul N M) * fst p + m11 (mat_mul N M) * snd p + m12 (mat_mul N M)) / wz M p); [|rewrite E; cbn; unfold fdiv; ring]. unfold wy at 1. unfold img. cbn [fst snd mat_mul m10 m11 m12]. unfold wx, wy in *. set (z := wz M p) in *. unfold wz in z. assert (EZ : m20 M * fst p + m21 M * snd p + m22 M = z) by reflexivity. clearbody z. rewrite <- (fdiv_mul (m12 N) z Z) at 1. unfold fdiv. rewrite <- EZ at 4. ring. }
  assert (C : wz N (img M p) = 1 / wz M p). { transitivity ((m20 (mat_mul N M) * fst p + m21 (mat_mul N M) * snd p + m22 (mat_mul N M)) / wz M p); [|rewrite E; cbn; unfold fdiv; ring]. unfold wz at 1. unfold img. cbn [fst snd mat_mul m20 m21 m22]. unfold wx, wy in *. set (z := wz M p) in *. unfold wz in z. assert (EZ : m20 M * fst p + m21 M * snd p + m22 M = z) by reflexivity. clearbody z. rewrite <- (fdiv_mul (m22 N) z Z) at 1. unfold fdiv. rewrite <- EZ at 4. ring. }
  rewrite A, B, C. pose proof (fpos_neq0 _ (@flt_0_1 K)) as N1. apply vec_eq; cbn [fst snd]; field; auto.
Qed.
Lemma img_inj lam M p q : isom lam M -> in_disk p -> in_disk q -> img M p = img M q -> p = q.
Proof.
  intros I Dp Dq E. destruct (isom_inverse lam M I) as [N [_ [_ [E3 _]]]]. rewrite <- (img_inverse M N p E3 (wz_neq _ _ _ I Dp)), <- (img_inverse M N q E3 (wz_neq _ _ _ I Dq)). now rewrite E.
Qed.
Lemma img_distance lam M p q : isom lam M -> in_disk p -> in_disk q -> same_distance p q (img M p) (img M q).
Proof.
  intros I Dp Dq. unfold same_distance, cosh2. cbn [fst snd]. rewrite !(img_dot lam M) by auto. pose proof (wz_neq lam M p I Dp). pose proof (wz_neq lam M q I Dq). field. auto.
Qed.

(** ** Geodesics *)
(** the coefficients of the image for the inverse [N] *)
Definition gimg N g : geo K := Geo (g_b g * m02 N + g_c g * m12 N + g_a g * m22 N)
    (g_b g * m00 N + g_c g * m10 N + g_a g * m20 N) (g_b g * m01 N + g_c g * m11 N + g_a g * m21 N).
Lemma gimg_mul M N g : gimg M (gimg N g) = gimg (mat_mul N M) g.
Proof. apply geo_ext; cbn; ring. Qed.
Lemma gimg_one g : gimg one g = g.
Proof. apply geo_ext; cbn; ring. Qed.
Lemma gimg_eval M g p : geo_eval g (img M p) * wz M p = geo_eval (gimg M g) p \/ wz M p = 0.
Proof.
  destruct (feq_dec (wz M p) 0) as [Z|Z]; auto. left. unfold geo_eval, img. cbn [fst snd gimg g_a g_b g_c]. transitivity (g_a g * wz M p + g_b g * wx M p + g_c g * wy M p); [field; exact Z|]. unfold wx, wy, wz. ring.
Qed.
Lemma gimg_line M N g : mat_mul N M = one -> chord g -> (exists p, on (gimg N g) p) -> line (gimg N g).
Proof.
  intros E C [p O]. unfold line. destruct (feq_dec (g_b (gimg N g)) 0) as [B|B]; [|auto]. destruct (feq_dec (g_c (gimg N g)) 0) as [B'|B']; [|auto]. exfalso.
  unfold on in O. rewrite B, B' in O. assert (A : g_a (gimg N g) = 0) by flra. assert (G : gimg M (gimg N g) = g) by (rewrite gimg_mul, E; apply gimg_one). apply chord_line in C. destruct C as [C|C]; apply C; rewrite <- G; unfold gimg at 1; cbn [g_a g_b g_c]; rewrite A, B, B'; ring.
Qed.
Lemma gimg_on lam M N g p : isom lam M -> mat_mul N M = one -> in_disk p -> geo_eval (gimg N g) (img M p) * wz M p = geo_eval g p.
Proof.
  intros I E D. destruct (gimg_eval M (gimg N g) p) as [H|H]; [|now apply (wz_neq lam M p I D) in H]. rewrite H, gimg_mul, E, gimg_one. reflexivity.
Qed.
Lemma gimg_chord lam M N g : isom lam M -> mat_mul N M = one -> chord g -> chord (gimg N g).
Proof.
  intros I E C. pose proof C as [L [p [O F]]]. pose proof (finite_disk p F) as D.
  assert (O' : on (gimg N g) (img M p)). { pose proof (gimg_on lam M N g p I E D) as Q. change (geo_eval g p = 0) in O. rewrite O in Q. apply fmul_eq0 in Q. destruct Q as [Q|Q]; [exact Q|now apply (wz_neq lam M p I D) in Q]. }
  split; [apply (gimg_line M N); eauto|]. exists (img M p). split; auto. now apply (img_norm lam M p I D).
Qed.
Lemma geo_apply_ok lam M N g : isom lam M -> mat_inverse M = Ok N -> mat_mul N M = one -> chord g -> geo_apply M false g = Ok (gimg N g).
Proof. intros I E1 E2 C. unfold geo_apply. rewrite E1. cbn [bind]. unfold geodesic_klein. fold (gimg N g). apply check_ok. now apply (gimg_chord lam M). Qed.
Lemma gimg_on_iff lam M N g p : isom lam M -> mat_mul N M = one -> in_disk p -> on (gimg N g) (img M p) <-> on g p.
Proof.
  intros I E D. pose proof (gimg_on lam M N g p I E D) as Q. change (geo_eval (gimg N g) (img M p) = 0 <-> geo_eval g p = 0). rewrite <- Q. split; intros H; [rewrite H; ring|]. apply fmul_eq0 in H. destruct H as [H|H]; auto. now apply (wz_neq lam M p I D) in H.
Qed.
Lemma gimg_left lam M N g p : isom lam M -> mat_mul N M = one -> in_disk p -> 0 < m22 M -> left_of (gimg N g) (img M p) <-> left_of g p.
Proof.
  intros I E D S. pose proof (gimg_on lam M N g p I E D) as Q. change (0 <= geo_eval (gimg N g) (img M p) <-> 0 <= geo_eval g p). rewrite <- Q. pose proof (wz_sign lam M p I D) as W.
  assert (Z : 0 < wz M p). { apply fnle_lt. intros V. set (z := wz M p) in *. clearbody z. assert (0 <= m22 M * - z); [|flra]. destruct (proj1 (fle_lteq _ _) V) as [U|U]; [apply fle_lteq; left; apply fmul_pos; flra|rewrite U; flra]. }
  symmetry. now apply pos_mul_iff.
Qed.
Lemma gimg_right lam M N g p : isom lam M -> mat_mul N M = one -> in_disk p -> m22 M < 0 -> left_of (gimg N g) (img M p) <-> geo_eval g p <= 0.
Proof.
  intros I E D S. pose proof (gimg_on lam M N g p I E D) as Q. change (0 <= geo_eval (gimg N g) (img M p) <-> geo_eval g p <= 0). rewrite <- Q. pose proof (wz_sign lam M p I D) as W.
  assert (Z : 0 < - wz M p). { apply fnle_lt. intros V. set (z := wz M p) in *. clearbody z. assert (0 <= (- m22 M) * z); [|flra]. assert (0 <= z) by flra. destruct (proj1 (fle_lteq _ _) H) as [U|U]; [apply fle_lteq; left; apply fmul_pos; flra|rewrite <- U; flra]. }
  rewrite <- (pos_mul_iff (geo_eval (gimg N g) (img M p)) (- wz M p) Z). set (e := geo_eval _ _). clearbody e. set (z := wz M p). clearbody z. split; intros; flra.
Qed.

(** ** Orientation *)
Lemma cofactor M N g p t : mat_mul N M = one ->
  let q := vadd p (vscale t (g_c g, - g_b g)) in on g p ->
  wx M q * wz M p - wx M p * wz M q = mat_det M * t * g_c (gimg N g) /\ wy M q * wz M p - wy M p * wz M q = - (mat_det M * t * g_b (gimg N g)).
Proof.
  intros E q O. set (f := gimg N g). assert (G : gimg M f = g) by (unfold f; rewrite gimg_mul, E; apply gimg_one). clearbody f. unfold on in O. unfold q. clear q. destruct p as [x y]. rewrite <- G in *. unfold gimg in *. cbn [g_a g_b g_c fst snd] in *. unfold wx, wy, wz, vadd, vscale, mat_det. cbn [fst snd].
  destruct M as [m00 m01 m02 m10 m11 m12 m20 m21 m22]. cbn [MHyp.m00 MHyp.m01 MHyp.m02 MHyp.m10 MHyp.m11 MHyp.m12 MHyp.m20 MHyp.m21 MHyp.m22] in *. destruct f as [a b c]. cbn [g_a g_b g_c] in *. clear G N E.
  set (o := b * m02 + c * m12 + a * m22 + (b * m00 + c * m10 + a * m20) * x + (b * m01 + c * m11 + a * m21) * y) in *.
  split.
  - match goal with |- ?l = ?r => assert (Q : l - r = t * o * (m00 * m21 - m01 * m20)) by (unfold o; ring) end. rewrite O in Q. match goal with |- ?l = ?r => set (u := l) in *; set (v := r) in * end. clearbody u v. flra.
  - match goal with |- ?l = ?r => assert (Q : l - r = t * o * (m10 * m21 - m11 * m20)) by (unfold o; ring) end. rewrite O in Q. match goal with |- ?l = ?r => set (u := l) in *; set (v := r) in * end. clearbody u v. flra.
Qed.
End Hyp.
