(** Proofs about the model of similarity.py *)
From Coq Require Import Bool List Ring Field.
From Verif Require Import OField FMicromega PField MBase MEuclid SEuclid PEuclid MSim SSim.

Section P.
Context {K : OField}.
Add Field KF : (of_ft K).
Local Open Scope F_scope.
Implicit Types f g h : sim K.
Implicit Types p q u v w : vec K.

Lemma sim_eq f g : sg_a f = sg_a g -> sg_b f = sg_b g -> sg_s f = sg_s g -> sg_t f = sg_t g ->
  sg_sign f = sg_sign g -> f = g.
Proof. destruct f, g; cbn; congruence. Qed.
Lemma mat_eq (m n : mat K) : m00 m = m00 n -> m01 m = m01 n -> m10 m = m10 n -> m11 m = m11 n -> m = n.
Proof. destruct m, n; cbn; congruence. Qed.
Lemma sim_eqb_eq f g : sim_eqb f g = true <-> f = g.
Proof.
  unfold sim_eqb. rewrite !andb_true_iff, !feqb_eq, eqb_true_iff. split.
  - intros [[[[A B] C] D] E]. now apply sim_eq.
  - intros ->. auto.
Qed.

Ltac simcases f := let s := fresh "s" in destruct f as [? ? ? ? s]; destruct s; unfold sgn in *; cbn in *.

Lemma sim_mul_apply f g p : sim_apply (sim_mul f g) p = sim_apply f (sim_apply g p).
Proof. simcases f; simcases g; apply vec_eq; cbn; ring. Qed.

Lemma sim_one_apply p : sim_apply sim_one p = p.
Proof. apply vec_eq; cbn; ring. Qed.

Lemma sim_mul_assoc f g h : sim_mul f (sim_mul g h) = sim_mul (sim_mul f g) h.
Proof. simcases f; simcases g; simcases h; apply sim_eq; cbn; auto; ring. Qed.
Lemma sim_mul_1_l f : sim_mul sim_one f = f.
Proof. simcases f; apply sim_eq; cbn; auto; ring. Qed.
Lemma sim_mul_1_r f : sim_mul f sim_one = f.
Proof. simcases f; apply sim_eq; cbn; auto; ring. Qed.

Lemma sim_ok_nz f : sim_ok f <-> sg_a f * sg_a f + sg_b f * sg_b f <> 0.
Proof.
  split.
  - intros H E. apply fsum_sq_eq0 in E. destruct H; tauto.
  - intros H. unfold sim_ok. destruct (feq_dec (sg_a f) 0) as [A|A]; auto.
    destruct (feq_dec (sg_b f) 0) as [B|B]; auto. exfalso. apply H. rewrite A, B. ring.
Qed.
Lemma sim_det_nz f : sim_ok f -> sim_det f <> 0.
Proof.
  rewrite sim_ok_nz. intros H E. apply H. unfold sim_det, sgn in E. destruct (sg_sign f); flra.
Qed.

Lemma sim_inv_l f : sim_ok f -> sim_mul (sim_inv f) f = sim_one.
Proof.
  intros H. rewrite sim_ok_nz in H. unfold sim_mul, sim_inv, sim_det.
  simcases f; apply sim_eq; cbn; auto; field; fside.
Qed.
Lemma sim_inv_r f : sim_ok f -> sim_mul f (sim_inv f) = sim_one.
Proof.
  intros H. rewrite sim_ok_nz in H. unfold sim_mul, sim_inv, sim_det.
  simcases f; apply sim_eq; cbn; auto; field; fside.
Qed.
Lemma sim_div_mul f g : sim_ok g -> sim_div f g = sim_mul f (sim_inv g).
Proof.
  intros H. rewrite sim_ok_nz in H. unfold sim_mul, sim_inv, sim_det, sim_div, sim_det.
  simcases f; simcases g; apply sim_eq; cbn; auto; field; fside.
Qed.

Lemma sim_det_mul f g : sim_det (sim_mul f g) = sim_det f * sim_det g.
Proof. unfold sim_det. simcases f; simcases g; ring. Qed.
Lemma sim_ok_det f : sim_det f <> 0 -> sim_ok f.
Proof.
  intros H. apply sim_ok_nz. intros E. apply H. unfold sim_det. rewrite E. ring.
Qed.
Lemma sim_ok_one : sim_ok (@sim_one K).
Proof. left. cbn. apply f1_neq_0. Qed.
Lemma sim_ok_mul f g : sim_ok f -> sim_ok g -> sim_ok (sim_mul f g).
Proof.
  intros Hf Hg. apply sim_ok_det. rewrite sim_det_mul. apply fmul_neq0; now apply sim_det_nz.
Qed.
Lemma sim_ok_inv f : sim_ok f -> sim_ok (sim_inv f).
Proof.
  intros Hf. apply sim_ok_det. intros E.
  assert (X : sim_det (sim_mul (sim_inv f) f) = 1) by (rewrite sim_inv_l; auto; unfold sim_det, sgn; cbn; ring).
  rewrite sim_det_mul, E in X. apply (f1_neq_0 K). rewrite <- X. ring.
Qed.

Lemma sim_inv_apply f p : sim_ok f -> sim_apply (sim_inv f) (sim_apply f p) = p.
Proof. intros H. rewrite <- sim_mul_apply, sim_inv_l by auto. apply sim_one_apply. Qed.
Lemma sim_apply_inv f p : sim_ok f -> sim_apply f (sim_apply (sim_inv f) p) = p.
Proof. intros H. rewrite <- sim_mul_apply, sim_inv_r by auto. apply sim_one_apply. Qed.

(** [fsolve]: a linear system over a field of characteristic zero *)
Lemma sim_faithful f g : sim_ok f -> (forall p, sim_apply f p = sim_apply g p) -> f = g.
Proof.
  intros H E. pose proof (E (0, 0)) as E0. pose proof (E (1, 0)) as E1. pose proof (E (0, 1)) as E2.
  unfold sim_ok in H. pose proof (@flt_0_1 K) as L.
  simcases f; simcases g; injection E0; injection E1; injection E2; intros;
    try (apply sim_eq; cbn; auto; flra); exfalso.
  - destruct H as [H|H]; apply H; flra.
  - destruct H as [H|H]; apply H; flra.
Qed.

Lemma sim_derivative_mul f g : sim_derivative (sim_mul f g) = mmul (sim_derivative f) (sim_derivative g).
Proof. simcases f; simcases g; apply mat_eq; cbn; ring. Qed.
Lemma sim_derivative_det f : mdet (sim_derivative f) = sim_det f.
Proof. unfold mdet, sim_det. simcases f; ring. Qed.
Lemma sim_derivative_spec f p q : vsub (sim_apply f p) (sim_apply f q) = mapply (sim_derivative f) (vsub p q).
Proof. simcases f; apply vec_eq; cbn; ring. Qed.

Lemma sim_is_translation_spec f : sim_ok f -> (sim_is_translation f = true <-> map_translation (sim_apply f)).
Proof.
  intros H. unfold sim_is_translation, map_translation. rewrite !andb_true_iff, !feqb_eq. split.
  - intros [[S A] B]. exists (sg_s f, sg_t f). intros p. simcases f; [|discriminate]. subst. apply vec_eq; cbn; ring.
  - intros [u Hu].
    assert (E : f = Sim 1 0 (fst u) (snd u) true).
    { apply sim_faithful; auto. intros p. rewrite Hu. apply vec_eq; cbn; ring. }
    rewrite E. cbn. auto.
Qed.
Lemma sim_is_half_translation_spec f : sim_ok f ->
  (sim_is_half_translation f = true <-> map_half_translation (sim_apply f)).
Proof.
  intros H. unfold sim_is_half_translation, map_half_translation.
  rewrite !andb_true_iff, orb_true_iff, !feqb_eq. split.
  - intros [[S A] B]. exists (sg_s f, sg_t f). simcases f; [|discriminate]. destruct A as [A|A].
    + left. intros p. subst. apply vec_eq; cbn; ring.
    + right. intros p. assert (sg_a = - (1)) by flra. subst. apply vec_eq; cbn; ring.
  - intros [u [Hu|Hu]].
    + assert (E : f = Sim 1 0 (fst u) (snd u) true).
      { apply sim_faithful; auto. intros p. rewrite Hu. apply vec_eq; cbn; ring. }
      rewrite E. cbn. auto.
    + assert (E : f = Sim (- (1)) 0 (fst u) (snd u) true).
      { apply sim_faithful; auto. intros p. rewrite Hu. apply vec_eq; cbn; ring. }
      rewrite E. cbn. repeat split. right. ring.
Qed.

Lemma sim_dist2 f p q : dist2 (sim_apply f p) (sim_apply f q) = (sg_a f * sg_a f + sg_b f * sg_b f) * dist2 p q.
Proof. unfold dist2, dot. simcases f; ring. Qed.
Lemma sim_orient f p q r : orient (sim_apply f p) (sim_apply f q) (sim_apply f r) = sim_det f * orient p q r.
Proof. unfold orient, ccw, sim_det. simcases f; ring. Qed.

Lemma sim_is_similarity f : sim_ok f -> map_similarity (sim_apply f) (sg_a f * sg_a f + sg_b f * sg_b f).
Proof.
  intros H. split.
  - apply sim_ok_nz in H. pose proof (fsq_nonneg (sg_a f)). pose proof (fsq_nonneg (sg_b f)).
    apply fneq_lt in H. destruct H; flra.
  - intros. apply sim_dist2.
Qed.

Lemma sim_is_isometry_spec f : sim_is_isometry f = true <-> map_isometry (sim_apply f).
Proof.
  unfold sim_is_isometry. rewrite orb_true_iff, !feqb_eq.
  transitivity (sg_a f * sg_a f + sg_b f * sg_b f = 1).
  - unfold sim_det. pose proof (fsq_nonneg (sg_a f)). pose proof (fsq_nonneg (sg_b f)). pose proof (@flt_0_1 K).
    unfold sgn. destruct (sg_sign f); split; intros; [destruct H2; flra | left; flra | destruct H2; flra | right; flra].
  - unfold map_isometry. split.
    + intros E p q. rewrite sim_dist2, E. ring.
    + intros H. specialize (H (1, 0) (0, 0)). rewrite sim_dist2 in H. unfold dist2, dot in H. cbn in H. flra.
Qed.
Lemma sim_is_orientable_spec f : sim_ok f -> (sim_is_orientable f = true <-> map_orientation_preserving (sim_apply f)).
Proof.
  intros H. destruct (sim_is_similarity f H) as [P _]. unfold map_orientation_preserving, sim_is_orientable. split.
  - intros S p q r Hp. rewrite sim_orient. unfold sim_det, sgn. rewrite S. fnra.
  - intros O. specialize (O (0, 0) (1, 0) (0, 1)).
    assert (E : orient (0, 0) (1, 0) ((0, 1) : vec K) = 1) by (unfold orient, ccw; cbn; ring).
    rewrite sim_orient, E in O. specialize (O flt_0_1). unfold sim_det, sgn in O.
    destruct (sg_sign f); auto. exfalso. flra.
Qed.

Lemma sim_is_rotation_spec f : sim_ok f -> (sim_is_rotation f = true <-> map_rotation (sim_apply f)).
Proof.
  intros H. unfold map_rotation. rewrite <- sim_is_isometry_spec, <- sim_is_orientable_spec by auto.
  unfold sim_is_rotation. rewrite orb_true_iff, andb_true_iff, negb_true_iff, sim_eqb_eq, feqb_eq.
  split.
  - intros [E|[D T]].
    + subst f. split; [|split]; [| reflexivity | exists vzero; apply sim_one_apply].
      unfold sim_is_isometry. apply orb_true_iff. left. apply feqb_eq. unfold sim_det, sgn; cbn; ring.
    + assert (S : sg_sign f = true).
      { unfold sim_det, sgn in D. destruct (sg_sign f); auto. exfalso.
        pose proof (fsq_nonneg (sg_a f)). pose proof (fsq_nonneg (sg_b f)). pose proof (@flt_0_1 K). flra. }
      split; [|split]; auto.
      { unfold sim_is_isometry. apply orb_true_iff. left. now apply feqb_eq. }
      unfold sim_is_translation in T. rewrite S in T. cbn in T. apply andb_false_iff in T.
      destruct f as [a b s t sg]. cbn in *. subst sg. unfold sim_det, sgn in D. cbn in D.
      (* solve (1 - a) x + b y = s, - b x + (1 - a) y = t *)
      set (e := (1 - a) * (1 - a) + b * b).
      assert (N : e <> 0).
      { intros X. apply fsum_sq_eq0 in X. destruct X as [X1 X2]. rewrite !feqb_false in T.
        destruct T as [T|T]; apply T; flra. }
      exists ((s * (1 - a) - b * t) / e, (t * (1 - a) + b * s) / e).
      unfold e in *. apply vec_eq; cbn; field; auto.
  - intros [I [S [p Hp]]]. unfold sim_is_orientable in S. unfold sim_is_isometry in I.
    rewrite orb_true_iff, !feqb_eq in I.
    assert (D : sim_det f = 1).
    { destruct I as [I|I]; auto. exfalso. unfold sim_det, sgn in I. rewrite S in I.
      pose proof (fsq_nonneg (sg_a f)). pose proof (fsq_nonneg (sg_b f)). pose proof (@flt_0_1 K). flra. }
    destruct (sim_is_translation f) eqn:T; [left|right; auto].
    unfold sim_is_translation in T. rewrite !andb_true_iff, !feqb_eq in T. destruct T as [[_ A] B].
    destruct f as [a b s t sg]. cbn in *. subst.
    apply sim_eq; cbn; auto; [|].
    + destruct p as [x y]. cbn in *. injection Hp as H1 H2. flra.
    + destruct p as [x y]. cbn in *. injection Hp as H1 H2. flra.
Qed.

(** similarity_from_vectors *)
Lemma similarity_from_vectors_spec u v : u <> vzero ->
  mapply (similarity_from_vectors u v) u = v /\
  m00 (similarity_from_vectors u v) = m11 (similarity_from_vectors u v) /\
  m01 (similarity_from_vectors u v) = - m10 (similarity_from_vectors u v).
Proof.
  intros N. unfold similarity_from_vectors. destruct (veqb u v) eqn:E.
  - apply veqb_eq in E. subst v. repeat split; [apply vec_eq; cbn; ring | cbn; ring].
  - apply vnz in N. apply fpos_neq0 in N. unfold dot in N. destruct u, v. cbn in *.
    repeat split; apply vec_eq; cbn; field; auto.
Qed.
Lemma rotation_matrix_unique (m n : mat K) u : u <> vzero ->
  m00 m = m11 m -> m01 m = - m10 m -> m00 n = m11 n -> m01 n = - m10 n ->
  mapply m u = mapply n u -> m = n.
Proof.
  intros N A B C D E. destruct m as [a b c d], n as [a' b' c' d'], u as [x y]. cbn in *. subst.
  apply vnz in N. apply fpos_neq0 in N. unfold dot in N. cbn in N. injection E as E1 E2.
  assert (X : d = d').
  { apply (fcancel _ _ (x * x + y * y)); auto.
    transitivity ((d * x + - c * y) * x + (c * x + d * y) * y); [ring|]. rewrite E1, E2. ring. }
  assert (Y : c = c').
  { apply (fcancel _ _ (x * x + y * y)); auto.
    transitivity ((c * x + d * y) * x - (d * x + - c * y) * y); [ring|]. rewrite E1, E2. ring. }
  subst. reflexivity.
Qed.

Lemma sim_of_matrix_spec (m : mat K) f : sim_of_matrix m = Ok f ->
  sim_ok f /\ sim_derivative f = m /\ sim_apply f vzero = vzero.
Proof.
  unfold sim_of_matrix, sim_make. destruct m as [a c b d]. cbn.
  destruct ((a =? d) && (b =? - c)) eqn:A.
  - destruct (a * a + b * b =? 0) eqn:Z; [discriminate|]. intros H; injection H as <-.
    apply andb_true_iff in A. rewrite !feqb_eq in A. destruct A as [-> ->]. apply feqb_false in Z.
    split; [|split].
    + apply sim_ok_nz. exact Z.
    + apply mat_eq; cbn; unfold sgn; cbn; ring.
    + apply vec_eq; cbn; ring.
  - destruct ((a =? - d) && (b =? c)) eqn:B; [|discriminate].
    destruct (a * a + b * b =? 0) eqn:Z; [discriminate|]. intros H; injection H as <-.
    apply andb_true_iff in B. rewrite !feqb_eq in B. destruct B as [-> ->]. apply feqb_false in Z.
    split; [|split].
    + apply sim_ok_nz. exact Z.
    + apply mat_eq; cbn; unfold sgn; cbn; ring.
    + apply vec_eq; cbn; ring.
Qed.
Lemma sim_of_matrix_complete f : sim_ok f -> exists g, sim_of_matrix (sim_derivative f) = Ok g /\
  sim_derivative g = sim_derivative f.
Proof.
  intros H. destruct f as [a b s t sg].
  assert (N : a * a + b * b <> 0) by (apply sim_ok_nz in H; exact H).
  unfold sim_of_matrix, sim_make, sim_derivative, sgn. cbn.
  destruct sg; cbn.
  - assert (A : (a =? 1 * a) && (b =? - (- (1) * b)) = true).
    { rewrite andb_true_iff, !feqb_eq. split; ring. }
    rewrite A. rewrite (proj2 (feqb_false _ _) N). eexists; split; [reflexivity|]. reflexivity.
  - destruct ((a =? - (1) * a) && (b =? - (- - (1) * b))) eqn:A.
    + exfalso. rewrite andb_true_iff, !feqb_eq in A. destruct A as [A B]. apply N.
      assert (a = 0) by flra. assert (b = 0) by flra. subst. ring.
    + assert (B : (a =? - (- (1) * a)) && (b =? - - (1) * b) = true).
      { rewrite andb_true_iff, !feqb_eq. split; ring. }
      rewrite B. rewrite (proj2 (feqb_false _ _) N). eexists; split; [reflexivity|]. reflexivity.
Qed.

Lemma sim_closure f g : sim_ok f -> sim_ok g ->
  (sim_is_translation f = true -> sim_is_translation g = true ->
     sim_is_translation (sim_mul f g) = true /\ sim_is_translation (sim_inv f) = true) /\
  (sim_is_half_translation f = true -> sim_is_half_translation g = true ->
     sim_is_half_translation (sim_mul f g) = true /\ sim_is_half_translation (sim_inv f) = true) /\
  (sim_is_isometry f = true -> sim_is_isometry g = true ->
     sim_is_isometry (sim_mul f g) = true /\ sim_is_isometry (sim_inv f) = true) /\
  (sim_is_orientable f = true -> sim_is_orientable g = true ->
     sim_is_orientable (sim_mul f g) = true /\ sim_is_orientable (sim_inv f) = true).
Proof.
  intros Hf Hg. pose proof (sim_ok_mul f g Hf Hg) as Hm. pose proof (sim_ok_inv f Hf) as Hi.
  rewrite !sim_is_translation_spec, !sim_is_half_translation_spec, !sim_is_isometry_spec by auto.
  repeat apply conj.
  - intros [u Hu] [w Hw]. split.
    + exists (vadd w u). intros p. rewrite sim_mul_apply, Hw, Hu. apply vec_eq; cbn; ring.
    + exists (vopp u). intros p. rewrite <- (sim_inv_apply f (vadd p (vopp u))) by auto. f_equal.
      rewrite Hu. apply vec_eq; cbn; ring.
  - intros [u Hu] [w Hw]. split.
    + destruct Hu as [Hu|Hu], Hw as [Hw|Hw].
      * exists (vadd w u). left. intros p. rewrite sim_mul_apply, Hw, Hu. apply vec_eq; cbn; ring.
      * exists (vadd w u). right. intros p. rewrite sim_mul_apply, Hw, Hu. apply vec_eq; cbn; ring.
      * exists (vsub u w). right. intros p. rewrite sim_mul_apply, Hw, Hu. apply vec_eq; cbn; ring.
      * exists (vsub u w). left. intros p. rewrite sim_mul_apply, Hw, Hu. apply vec_eq; cbn; ring.
    + destruct Hu as [Hu|Hu].
      * exists (vopp u). left. intros p. rewrite <- (sim_inv_apply f (vadd p (vopp u))) by auto. f_equal.
        rewrite Hu. apply vec_eq; cbn; ring.
      * exists u. right. intros p. rewrite <- (sim_inv_apply f (vsub u p)) by auto. f_equal.
        rewrite Hu. apply vec_eq; cbn; ring.
  - intros A B. split; intros p q.
    + now rewrite !sim_mul_apply, A, B.
    + rewrite <- A. now rewrite !sim_apply_inv by auto.
  - unfold sim_is_orientable. cbn. intros -> ->. auto.
Qed.
End P.
