(** From matrices of the Klein model back to matrices of the half plane model; the turn of two geodesics. *)
From Coq Require Import List Bool ZArith Lia Ring Field.
From Verif Require Import OField FMicromega PField MBase MEuclid PEuclid SEuclid MHyp SHyp PHyp PHyp2 PHyp3 PHyp4 PHyp5 PHyp6.
Import ListNotations.

Section Hyp.
Context {K : OField}.
Add Field KF : (of_ft K).
Local Open Scope res_scope. Local Open Scope F_scope.
Implicit Types p q : vec K.
Implicit Types f g h : geo K.
Implicit Types x y z : K.

Lemma cube_inj x y : x * x * x = y * y * y -> x = y.
Proof.
  intros E. assert (F : (x - y) * (x * x + x * y + y * y) = 0) by (transitivity (x * x * x - y * y * y); [ring|rewrite E; ring]). apply fmul_eq0 in F. destruct F as [F|F]; [flra|].
  assert (Q : (x + y) * (x + y) + (x * x + y * y) = 0) by (transitivity (2 * (x * x + x * y + y * y)); [ring|rewrite F; ring]). pose proof (fsq_nonneg (x + y)). pose proof (fsq_nonneg x). pose proof (fsq_nonneg y).
  assert (X : x * x = 0) by (apply fle_antisym; flra). assert (Y : y * y = 0) by (apply fle_antisym; flra). apply fsqr_eq0 in X. apply fsqr_eq0 in Y. congruence.
Qed.
Section Root.
Variable B : K -> Prop.
Variable sqrt cbrt : K -> option K.
Hypothesis HB : subfield B.
Hypothesis Hsqrt : sqrt_in B sqrt.
Hypothesis Hcbrt : cbrt_in B cbrt.
Lemma sub_half x : B x -> B (x / 2).
Proof. intros H. apply (Bdiv B HB); auto; [apply (B2 B HB)|apply f2_neq0]. Qed.
Ltac bs := repeat first [assumption | apply sub_half | apply (Bsub B HB) | apply (Badd B HB) | apply (Bmul B HB) | apply (Bopp B HB) | apply (B1 B HB)].
Lemma sim12_sound (M : mat K) (N : mat2 K) : over3 B M -> sim12_to_gl2 sqrt cbrt M = Ok N -> gl2_to_sim12 N = M.
Proof.
  intros [O1 [O2 [O3 [O4 [O5 [O6 [O7 [O8 O9]]]]]]]]. unfold sim12_to_gl2. destruct (cbrt (mat_det M)) as [r|]; [|discriminate]. cbv zeta. set (sl := if (sgn (mat_det M) =? sgn r)%Z then r else r * - (1)). clearbody sl.
  assert (SQ : forall x, B x -> match sqrt x with Some s => s * s = x | None => True end). { intros x H. specialize (Hsqrt x H). destruct (sqrt x); tauto. }
  pose proof (SQ ((m12 M + m22 M + m21 M + m11 M) / 2) ltac:(bs)) as Sa. pose proof (SQ ((m12 M + m22 M - m21 M - m11 M) / 2) ltac:(bs)) as Sb. pose proof (SQ ((m21 M + m22 M - m12 M - m11 M) / 2) ltac:(bs)) as Sc. pose proof (SQ ((m11 M + m22 M - m12 M - m21 M) / 2) ltac:(bs)) as Sd.
  destruct (sqrt _) as [pa|]; [|discriminate]. destruct (sqrt _) as [pb|]; [|discriminate]. destruct (sqrt _) as [pc|]; [|discriminate]. destruct (sqrt _) as [pd|]; [|discriminate].
  match goal with |- match find ?F ?l with _ => _ end = _ -> _ => destruct (find F l) as [N'|] eqn:FD; [|discriminate] end. intros E. injection E as ->. apply find_some in FD. destruct FD as [FI FE].
  assert (SQN : e00 N * e00 N = pa * pa /\ e01 N * e01 N = pb * pb /\ e10 N * e10 N = pc * pc /\ e11 N * e11 N = pd * pd).
  { apply in_flat_map in FI. destruct FI as [sa [Ia FI]]. apply in_flat_map in FI. destruct FI as [sb [Ib FI]]. apply in_flat_map in FI. destruct FI as [sc [Ic FI]]. apply in_map_iff in FI. destruct FI as [sd [<- Id]]. cbn [e00 e01 e10 e11].
    assert (ONE : forall s k : K, In s [1; - (1)] -> s * k * (s * k) = k * k). { intros s k [<-|[<-|[]]]; ring. } repeat split; now apply ONE. }
  destruct SQN as [Qa [Qb [Qc Qd]]]. rewrite Sa in Qa. rewrite Sb in Qb. rewrite Sc in Qc. rewrite Sd in Qd. repeat rewrite andb_true_iff in FE. destruct FE as [[[[[F1 F2] F3] F4] F5] F6]. apply feqb_eq in F1, F2, F3, F4, F5, F6.
  destruct N as [a b c d]. cbn [e00 e01 e10 e11] in *. pose proof (@f2_neq0 K) as N2. destruct M as [k00 k01 k02 k10 k11 k12 k20 k21 k22]. cbn [m00 m01 m02 m10 m11 m12 m20 m21 m22] in *. unfold gl2_to_sim12. apply mat_ext; cbn [m00 m01 m02 m10 m11 m12 m20 m21 m22]; rewrite ?F1, ?F2, ?F3, ?F4, ?F5, ?F6, ?Qa, ?Qb, ?Qc, ?Qd; field; exact N2.
Qed.
Lemma sqrt_square x : B x -> exists s, sqrt (x * x) = Some s /\ (s = x \/ s = - x).
Proof.
  intros H. specialize (Hsqrt (x * x) ltac:(bs)). destruct (sqrt (x * x)) as [s|]; [|now destruct (Hsqrt x H)]. destruct Hsqrt as [_ [_ E]]. exists s. split; auto. now apply sq_eq.
Qed.
Lemma proportional_sign (N N' : mat2 K) : gl2_to_sim12 N = gl2_to_sim12 N' -> det2 N = det2 N' -> N' = N \/ N' = neg2 N.
Proof.
  intros E D. destruct N as [a b c d], N' as [a' b' c' d']. unfold det2 in D. unfold gl2_to_sim12 in E. cbn [e00 e01 e10 e11] in *. injection E as E1 E2 E3 E4 E5 E6 E7 E8 E9.
  assert (H2 : forall u v : K, u / 2 = v / 2 -> u = v). { intros u v Q. rewrite <- (fdiv_mul u 2 f2_neq0), <- (fdiv_mul v 2 f2_neq0), Q. reflexivity. }
  apply H2 in E5, E6, E8, E9. clear H2. assert (AA : a * a = a' * a') by flra. assert (BB : b * b = b' * b') by flra. assert (CC : c * c = c' * c') by flra. assert (DD : d * d = d' * d') by flra. assert (AB : a * b = a' * b') by flra. assert (AC : a * c = a' * c') by flra. assert (AD : a * d = a' * d') by flra. assert (BC : b * c = b' * c') by flra. assert (BD : b * d = b' * d') by flra. assert (CD : c * d = c' * d') by flra.
  clear E1 E2 E3 E4 E5 E6 E7 E8 E9 D. unfold neg2. cbn [e00 e01 e10 e11].
  destruct (feq_dec a 0) as [A|A]. 
  - destruct (feq_dec b 0) as [Bz|Bz].
    + assert (a' = 0) by (apply fsqr_eq0; rewrite <- AA, A; ring). assert (b' = 0) by (apply fsqr_eq0; rewrite <- BB, Bz; ring). subst a b a' b'. destruct (feq_dec c 0) as [C|C].
      * assert (c' = 0) by (apply fsqr_eq0; rewrite <- CC, C; ring). subst. apply sq_eq in DD. destruct DD as [-> | ->]; [left; reflexivity|right; f_equal; ring].
      * apply sq_eq in CC. destruct CC as [-> | ->]; [left|right]; f_equal; try ring.
        -- symmetry. apply (fcancel _ _ c'); [intros Q; apply C; rewrite Q; ring|flra].
        -- apply (fcancel _ _ c'); [intros Q; apply C; rewrite Q; ring|flra].
    + assert (a' = 0) by (apply fsqr_eq0; rewrite <- AA, A; ring). subst a a'. apply sq_eq in BB. destruct BB as [-> | ->]; [left|right]; f_equal; try ring; apply (fcancel _ _ b'); try flra; intros Q; apply Bz; rewrite Q; ring.
  - apply sq_eq in AA. destruct AA as [-> | ->]; [left|right]; f_equal; try ring; apply (fcancel _ _ a'); try flra; intros Q; apply A; rewrite Q; ring.
Qed.
Lemma sim12_complete (N : mat2 K) : over2 B N -> det2 N <> 0 -> exists N', sim12_to_gl2 sqrt cbrt (gl2_to_sim12 N) = Ok N' /\ (N' = N \/ N' = neg2 N).
Proof.
  intros [Oa [Ob [Oc Od]]] D. set (M := gl2_to_sim12 N). pose proof (@f2_neq0 K) as N2.
  assert (OD : B (det2 N)) by (unfold det2; bs). unfold sim12_to_gl2. unfold M at 1. rewrite gl2_det.
  pose proof (Hcbrt (det2 N * det2 N * det2 N) ltac:(bs)) as HC. destruct (cbrt _) as [r|]; [|now destruct (HC _ OD)]. apply cube_inj in HC. subst r. cbv zeta.
  replace (if (sgn (mat_det M) =? sgn (det2 N))%Z then det2 N else det2 N * - (1)) with (det2 N).
  2:{ unfold M. rewrite gl2_det. replace (sgn (det2 N * det2 N * det2 N) =? sgn (det2 N))%Z with true; auto. symmetry. apply sgn_eqb. pose proof (fsq_pos _ D) as P. set (k := det2 N) in *. clearbody k.
      assert (P1 : forall u, 0 < u -> 0 < k * k * u) by (intros; now apply fmul_pos). split; split; intros H.
      - apply fneq_lt in D. destruct D as [D|D]; auto. exfalso. specialize (P1 (- k) ltac:(flra)). flra.
      - now apply P1.
      - apply fneq_lt in D. destruct D as [D|D]; auto. exfalso. specialize (P1 k D). flra.
      - specialize (P1 (- k) ltac:(flra)). flra. }
  assert (Ea : (m12 M + m22 M + m21 M + m11 M) / 2 = e00 N * e00 N) by (unfold M; destruct N; cbn; field; exact N2).
  assert (Eb : (m12 M + m22 M - m21 M - m11 M) / 2 = e01 N * e01 N) by (unfold M; destruct N; cbn; field; exact N2).
  assert (Ec : (m21 M + m22 M - m12 M - m11 M) / 2 = e10 N * e10 N) by (unfold M; destruct N; cbn; field; exact N2).
  assert (Ed : (m11 M + m22 M - m12 M - m21 M) / 2 = e11 N * e11 N) by (unfold M; destruct N; cbn; field; exact N2).
  assert (Eab : (m10 M + m20 M) / 2 = e00 N * e01 N) by (unfold M; destruct N; cbn; field; exact N2).
  assert (Eac : (m01 M + m02 M) / 2 = e00 N * e10 N) by (unfold M; destruct N; cbn; field; exact N2).
  assert (Ead : (m00 M + det2 N) / 2 = e00 N * e11 N) by (unfold M, det2; destruct N; cbn; field; exact N2).
  assert (Ebc : (m00 M - det2 N) / 2 = e01 N * e10 N) by (unfold M, det2; destruct N; cbn; field; exact N2).
  assert (Ebd : (m02 M - m01 M) / 2 = e01 N * e11 N) by (unfold M; destruct N; cbn; field; exact N2).
  assert (Ecd : (m20 M - m10 M) / 2 = e10 N * e11 N) by (unfold M; destruct N; cbn; field; exact N2).
  rewrite Ea, Eb, Ec, Ed, Eab, Eac, Ead, Ebc, Ebd, Ecd. clear Ea Eb Ec Ed Eab Eac Ead Ebc Ebd Ecd.
  destruct (sqrt_square _ Oa) as [pa [-> Pa]]. destruct (sqrt_square _ Ob) as [pb [-> Pb]]. destruct (sqrt_square _ Oc) as [pc [-> Pc]]. destruct (sqrt_square _ Od) as [pd [-> Pd]].
  assert (SG : forall s x, s = x \/ s = - x -> exists e : K, In e [1; - (1)] /\ e * s = x). { intros s x [-> | ->]; [exists 1|exists (- (1))]; cbn; (split; [tauto|ring]). }
  destruct (SG _ _ Pa) as [sa [Ia Ea]]. destruct (SG _ _ Pb) as [sb [Ib Eb]]. destruct (SG _ _ Pc) as [sc [Ic Ec]]. destruct (SG _ _ Pd) as [sd [Id Ed]].
  set (cand := flat_map _ _). assert (IN : In N cand). { unfold cand. apply in_flat_map. exists sa. split; auto. apply in_flat_map. exists sb. split; auto. apply in_flat_map. exists sc. split; auto. apply in_map_iff. exists sd. split; auto. destruct N. cbn in *. congruence. }
  assert (SQC : forall N', In N' cand -> e00 N' * e00 N' = e00 N * e00 N /\ e01 N' * e01 N' = e01 N * e01 N /\ e10 N' * e10 N' = e10 N * e10 N /\ e11 N' * e11 N' = e11 N * e11 N).
  { intros N' FI. unfold cand in FI. apply in_flat_map in FI. destruct FI as [ta [Ja FI]]. apply in_flat_map in FI. destruct FI as [tb [Jb FI]]. apply in_flat_map in FI. destruct FI as [tc [Jc FI]]. apply in_map_iff in FI. destruct FI as [td [<- Jd]]. cbn [e00 e01 e10 e11].
    assert (ONE : forall s k x : K, In s [1; - (1)] -> k = x \/ k = - x -> s * k * (s * k) = x * x). { intros s k x [<-|[<-|[]]] [-> | ->]; ring. } repeat split; now apply ONE. }
  match goal with |- context [find ?F cand] => destruct (find F cand) as [N'|] eqn:FD end.
  - eexists. split; [reflexivity|]. apply find_some in FD. destruct FD as [FI FE]. destruct (SQC _ FI) as [Q1 [Q2 [Q3 Q4]]]. repeat rewrite andb_true_iff in FE. destruct FE as [[[[[F1 F2] F3] F4] F5] F6]. apply feqb_eq in F1, F2, F3, F4, F5, F6.
    apply proportional_sign; [|unfold det2; rewrite F3, F4; reflexivity]. destruct N as [a b c d], N' as [a' b' c' d']. cbn [e00 e01 e10 e11] in *. unfold gl2_to_sim12. now rewrite F1, F2, F3, F4, F5, F6, Q1, Q2, Q3, Q4.
  - exfalso. pose proof (find_none _ _ FD N IN) as Q. cbv beta in Q. assert (R : forall x, (x =? x) = true) by (intros x; now apply feqb_eq). rewrite !R in Q. discriminate Q.
Qed.
End Root.

(** ** The turn from one geodesic to another one *)
Lemma ccw_sgn f g : sgn (ccw (tangent f) (tangent g)) = sgn (det f g).
Proof. f_equal. unfold ccw, tangent, det. cbn [fst snd]. ring. Qed.
Lemma configured_convex f g : line f -> line g -> configured Convex f g <-> 0 < det f g.
Proof.
  intros Lf Lg. split; [apply (configured_kind Convex f g Lf Lg)|]. intros D. destruct (configure_ok f g Lf Lg) as [c [_ H]]. pose proof (configured_kind c f g Lf Lg H) as Q. destruct c; auto; exfalso; [destruct Q as [p [_ [_ Q]]]|destruct Q as [p [_ [_ Q]]]|destruct Q as [_ Q]|destruct Q as [_ Q]|]; flra.
Qed.
Lemma configured_concave f g : line f -> line g -> configured Concave f g <-> det f g < 0.
Proof.
  intros Lf Lg. split; [apply (configured_kind Concave f g Lf Lg)|]. intros D. destruct (configure_ok f g Lf Lg) as [c [_ H]]. pose proof (configured_kind c f g Lf Lg H) as Q. destruct c; auto; exfalso; [destruct Q as [p [_ [_ Q]]]|destruct Q as [p [_ [_ Q]]]|destruct Q as [_ Q]|destruct Q as [_ Q]|]; flra.
Qed.
Lemma geo_ccw_ok f g : line f -> line g ->
  match geo_ccw true f g with
  | Ok z => (z = 1%Z <-> configured Convex f g) /\ (z = (-1)%Z <-> configured Concave f g) /\ (z = 0%Z <-> same_line f g) /\ (-1 <= z <= 1)%Z
  | Err e => e = ValueError /\ disjoint_lines f g
  end.
Proof.
  intros Lf Lg. pose proof (configured_convex f g Lf Lg) as CV. pose proof (configured_concave f g Lf Lg) as CC. unfold geo_ccw. destruct (intersection f g) as [i|] eqn:EI.
  - rewrite andb_false_r, andb_false_r. rewrite ccw_sgn. pose proof (intersection_some f g i EI) as [D [A [B U]]]. fold (det f g) in D.
    assert (NS : ~ same_line f g). { intros S. apply D. destruct (same_line_scale f g Lf Lg S) as [t [_ ->]]. unfold det. cbn. ring. }
    destruct (sgn_cases (det f g)) as [[P ->]|[[P ->]|[P ->]]]; [| tauto |]; (split; [|split; [|split; [|lia]]]); split; intros H; try discriminate; try tauto; try (apply CV; assumption); try (apply CC; assumption); exfalso; try (apply CV in H); try (apply CC in H); flra.
  - pose proof (intersection_none f g EI) as D. fold (det f g) in D. destruct (geo_eqb false f g) eqn:E.
    + apply (eqb_unoriented f g Lf Lg) in E. rewrite D in CV, CC. split; [split; [discriminate|intros H; apply CV in H; exfalso; flra]|]. split; [split; [discriminate|intros H; apply CC in H; exfalso; flra]|]. split; [tauto|lia].
    + split; auto. intros p [A B]. pose proof (parallel_meet f g p Lf Lg D A B) as S. apply (eqb_unoriented f g Lf Lg) in S. congruence.
Qed.
Lemma geo_ccw_hyp f g : line f -> line g ->
  match geo_ccw false f g with
  | Ok z => (z <> 0%Z -> geo_ccw true f g = Ok z /\ exists p, finite p /\ on f p /\ on g p) /\ (z = 0%Z -> same_line f g \/ exists p, ideal p /\ on f p /\ on g p)
  | Err e => e = ValueError /\ forall p, in_disk p -> ~ (on f p /\ on g p)
  end.
Proof.
  intros Lf Lg. unfold geo_ccw. destruct (intersection f g) as [i|] eqn:EI.
  - cbn [negb]. rewrite !andb_true_r, !andb_false_r. pose proof (intersection_some f g i EI) as [D [A [B U]]]. fold (det f g) in D. destruct (is_ideal i) eqn:I.
    + split; [congruence|]. intros _. right. exists i. split; auto. unfold is_ideal in I. now apply feqb_eq in I.
    + destruct (is_ultra_ideal i) eqn:UI. { split; auto. intros p Dp [Q1 Q2]. rewrite (U p Q1 Q2) in Dp. apply ultra_iff in Dp. congruence. }
      split; [intros _; split; auto; exists i; split; auto|].
      * apply ultra_iff in UI. destruct (disk_cases _ UI) as [W|W]; auto. unfold ideal in W. unfold is_ideal, norm2 in I. apply feqb_false' in I. tauto.
      * intros Z. rewrite ccw_sgn in Z. apply Z.eqb_eq in Z. rewrite sgn_zero in Z. apply feqb_eq in Z. tauto.
  - pose proof (intersection_none f g EI) as D. fold (det f g) in D. destruct (geo_eqb false f g) eqn:E.
    + split; [congruence|]. intros _. left. now apply (eqb_unoriented f g Lf Lg) in E.
    + split; auto. intros p _ [A B]. pose proof (parallel_meet f g p Lf Lg D A B) as S. apply (eqb_unoriented f g Lf Lg) in S. congruence.
Qed.
End Hyp.
