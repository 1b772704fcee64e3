(** Proofs about similarity surfaces: kinds of gluings, linear images, covers. *)
From Coq Require Import List Bool ZArith Arith Lia Ring Field.
From Verif Require Import OField FMicromega PField MBase MDict PDict MEuclid SEuclid PEuclid MSim SSim PSim MPoly PPoly
  MMut MSurf SSurf PSurf.
Import ListNotations.

Section P.
Context {K : OField}.
Add Field KF : (of_ft K).
Local Open Scope F_scope.

(** ** the tests on matrices *)
Lemma translation_test_spec (f : sim K) : sim_ok f -> sg_sign f = true ->
  (translation_test true (sim_derivative f) = true <-> map_translation (sim_apply f)).
Proof.
  intros Kf Sf. rewrite <- sim_is_translation_spec by auto.
  unfold translation_test, mat_is_diagonal, sim_is_translation, sim_derivative, sgn. rewrite Sf. cbn.
  rewrite !andb_false_r, !orb_false_r, !andb_true_iff, !feqb_eq. split.
  - intros [[A B] [C E]]. auto.
  - intros [A B]. rewrite A, B. repeat split; ring.
Qed.
Lemma half_translation_test_spec (f : sim K) : sim_ok f -> sg_sign f = true ->
  (translation_test false (sim_derivative f) = true <-> map_half_translation (sim_apply f)).
Proof.
  intros Kf Sf. rewrite <- sim_is_half_translation_spec by auto.
  unfold translation_test, mat_is_diagonal, sim_is_half_translation, sim_derivative, sgn. rewrite Sf. cbn.
  rewrite !andb_true_r, !andb_true_iff, !orb_true_iff, !andb_true_iff, !feqb_eq. split.
  - intros [[A B] [[C E]|[C E]]]; split; auto. right. rewrite C. ring.
  - intros [[A|A] B].
    + rewrite A, B. split; [split; ring|]. left; split; ring.
    + assert (A' : sg_a f = - (1)) by (rewrite <- A; ring). rewrite A', B. split; [split; ring|]. right; split; ring.
Qed.

Lemma sim_apply_scale (f : sim K) p : sg_sign f = true -> sg_b f = 0 ->
  sim_apply f p = vadd (vscale (sg_a f) p) (sg_s f, sg_t f).
Proof. intros S B. unfold sim_apply. rewrite S, B. apply vec_eq; cbn; ring. Qed.
Lemma scale_sim_apply (f : sim K) c u : sg_sign f = true -> (forall p, sim_apply f p = vadd (vscale c p) u) ->
  sg_a f = c /\ sg_b f = 0.
Proof.
  intros S E. unfold sim_apply in E. rewrite S in E. pose proof (E (0, 0)) as E0. pose proof (E (1, 0)) as E1.
  injection E0 as A0 B0. injection E1 as A1 B1. cbn in *. split; flra.
Qed.

Lemma dilation_test_spec (f : sim K) : sim_ok f -> sg_sign f = true ->
  (dilation_test false (sim_derivative f) = true <-> map_dilation (sim_apply f)).
Proof.
  intros Kf Sf. unfold dilation_test, mat_is_diagonal, sim_derivative, sgn, map_dilation. cbn. rewrite Sf.
  rewrite !andb_true_r, !andb_true_iff, !feqb_eq. split.
  - intros [A B]. exists (sg_a f), (sg_s f, sg_t f). split.
    + intros Z. destruct Kf; tauto.
    + intros p. now apply sim_apply_scale.
  - intros [c [u [Nc E]]]. apply scale_sim_apply in E as [_ E]; auto. rewrite E. split; ring.
Qed.
Lemma positive_dilation_test_spec (f : sim K) : sim_ok f -> sg_sign f = true ->
  (dilation_test true (sim_derivative f) = true <-> map_positive_dilation (sim_apply f)).
Proof.
  intros Kf Sf. unfold dilation_test, mat_is_diagonal, sim_derivative, sgn, map_positive_dilation. cbn. rewrite Sf.
  rewrite !andb_true_iff, negb_true_iff, orb_false_iff, !feqb_eq. split.
  - intros [[A B] [C E]]. exists (sg_a f), (sg_s f, sg_t f). split.
    + destruct (fltb_total K (sg_a f) 0) as [Z|[Z|Z]]; [congruence| |exact Z]. destruct Kf; tauto.
    + intros p. now apply sim_apply_scale.
  - intros [c [u [Nc E]]]. apply scale_sim_apply in E as [A E]; auto. rewrite E, A.
    split; [split; ring|]. split; [change (0 <= c)|change (0 <= 1 * c)]; flra.
Qed.
Lemma cone_test_spec (f : sim K) : sg_sign f = true ->
  (cone_test (sim_derivative f) = true <-> map_isometry (sim_apply f)).
Proof.
  intros Sf. rewrite <- sim_is_isometry_spec. unfold cone_test, mat_eqb, sim_is_isometry, sim_det, sim_derivative, sgn.
  rewrite Sf. cbn. rewrite !andb_true_iff, orb_true_iff, !feqb_eq. split.
  - intros [[[A _] _] _]. left. transitivity (sg_a f * sg_a f + - (1) * sg_b f * (- (1) * sg_b f)); [ring|exact A].
  - intros [A|A].
    + assert (A' : sg_a f * sg_a f + sg_b f * sg_b f = 1) by (transitivity (1 * (sg_a f * sg_a f + sg_b f * sg_b f)); [ring|exact A]).
      repeat split; try ring; (transitivity (sg_a f * sg_a f + sg_b f * sg_b f); [ring|exact A']).
    + pose proof (fsq_nonneg (sg_a f)). pose proof (fsq_nonneg (sg_b f)). pose proof (@flt_0_1 K). exfalso.
      assert (A' : - (sg_a f * sg_a f + sg_b f * sg_b f) = 1)
        by (transitivity (- (1 * (sg_a f * sg_a f + sg_b f * sg_b f))); [ring|exact A]). flra.
Qed.

(** kinds of maps are closed under inverses *)
Definition inv_closed (kind : (vec K -> vec K) -> Prop) :=
  forall f, sim_ok f -> sg_sign f = true -> kind (sim_apply f) -> kind (sim_apply (sim_inv f)).
Lemma inv_translation : inv_closed map_translation.
Proof.
  intros f Kf Sf [u E]. exists (vopp u). intros p. pose proof (E (sim_apply (sim_inv f) p)) as X.
  rewrite sim_apply_inv in X by auto. rewrite X at 2. destruct (sim_apply (sim_inv f) p), u. apply vec_eq; cbn; ring.
Qed.
Lemma inv_half_translation : inv_closed map_half_translation.
Proof.
  intros f Kf Sf [u [E|E]].
  - destruct (inv_translation f Kf Sf) as [v V]; [now exists u|]. exists v. now left.
  - exists u. right. intros p. pose proof (E (sim_apply (sim_inv f) p)) as X.
    rewrite sim_apply_inv in X by auto. rewrite X at 2. destruct (sim_apply (sim_inv f) p), u. apply vec_eq; cbn; ring.
Qed.
Lemma inv_dil (f : sim K) (c : K) (u : vec K) : sim_ok f -> c <> 0 -> (forall p, sim_apply f p = vadd (vscale c p) u) ->
  forall p, sim_apply (sim_inv f) p = vadd (vscale (finv c) p) (vscale (- finv c) u).
Proof.
  intros Kf Nc E p. pose proof (E (sim_apply (sim_inv f) p)) as X. rewrite sim_apply_inv in X by auto. rewrite X at 2.
  destruct (sim_apply (sim_inv f) p), u. apply vec_eq; cbn; field; auto.
Qed.
Lemma inv_dilation : inv_closed map_dilation.
Proof.
  intros f Kf Sf [c [u [Nc E]]]. exists (finv c), (vscale (- finv c) u). split; [|now apply inv_dil].
  intros Z. apply (f1_neq_0 K). transitivity (finv c * c); [field; auto|rewrite Z; ring].
Qed.
Lemma inv_positive_dilation : inv_closed map_positive_dilation.
Proof.
  intros f Kf Sf [c [u [Nc E]]]. exists (finv c), (vscale (- finv c) u). split; [now apply finv_pos|].
  apply inv_dil; auto. now apply fpos_neq0.
Qed.
Lemma inv_isometry : inv_closed map_isometry.
Proof.
  intros f Kf Sf E p q. rewrite <- E. now rewrite !sim_apply_inv.
Qed.

Context {L : Type}.
Implicit Types (S : surface K L) (D : L -> Prop).

(** two maps that agree everywhere are of the same kind *)
Definition kind_ext (kind : (vec K -> vec K) -> Prop) := forall F G, (forall p, F p = G p) -> kind F -> kind G.
Lemma ext_translation : kind_ext map_translation.
Proof. intros F G E [u U]. exists u. intros p. now rewrite <- E. Qed.
Lemma ext_half_translation : kind_ext map_half_translation.
Proof. intros F G E [u U]. exists u. destruct U as [U|U]; [left|right]; intros p; now rewrite <- E. Qed.
Lemma ext_dilation : kind_ext map_dilation.
Proof. intros F G E [c [u [N U]]]. exists c, u. split; auto. intros p. now rewrite <- E. Qed.
Lemma ext_positive_dilation : kind_ext map_positive_dilation.
Proof. intros F G E [c [u [N U]]]. exists c, u. split; auto. intros p. now rewrite <- E. Qed.
Lemma ext_isometry : kind_ext map_isometry.
Proof. intros F G E U p q. rewrite <- !E. apply U. Qed.
Lemma ext_identity : kind_ext map_identity.
Proof. intros F G E U p. rewrite <- E. apply U. Qed.

(** [all_gluings] in terms of [edge_transformation] *)
Lemma all_gluings_iff D S kind : valid D S -> kind_ext kind ->
  (all_gluings D S kind <->
   forall l e P l' e' P' f, glued_at D S l e P l' e' P' -> edge_transformation S l e = Ok f -> kind (sim_apply f)).
Proof.
  intros V Ext. split.
  - intros A l e P l' e' P' f G Ef. apply (A l e P l' e' P'); auto.
    now apply (gluing_map_iff _ _ _ _ _ _ _ _ _ V G Ef).
  - intros A l e P l' e' P' F G GM.
    destruct (edge_transformation_ok _ _ _ _ _ _ _ _ V G) as [f [Ef _]].
    apply (Ext (sim_apply f)); [|eapply A; eauto].
    intros p. symmetry. now apply (gluing_map_iff _ _ _ _ _ _ _ _ _ V G Ef).
Qed.

Lemma scan_exact D S `{EqB L} ls test kind : valid D S -> (forall l, In l ls <-> D l) -> kind_ext kind ->
  inv_closed kind -> (forall f, sim_ok f -> sg_sign f = true -> (test (sim_derivative f) = true <-> kind (sim_apply f))) ->
  exists b, scan_labels S test ls nil = Ok b /\ (b = true <-> all_gluings D S kind).
Proof.
  intros V Ls Ext Inv T.
  destruct (scan_labels_spec D S test V) with (ls := ls) (checked := @nil (L * nat)) as [b [R B]].
  - intros f Kf Sf Tf. apply T; auto. { now apply sim_ok_inv. } apply Inv; auto. now apply T.
  - intros l I. now apply Ls.
  - intros ? ? [].
  - exists b. split; [exact R|]. rewrite B, all_gluings_iff by auto. split.
    + intros A l e P l' e' P' f G Ef.
      destruct (edge_transformation_ok _ _ _ _ _ _ _ _ V G) as [f' [Ef' [Kf [Sf _]]]].
      rewrite Ef in Ef'. injection Ef' as <-. apply T; auto. apply (A l e P l' e' P'); auto.
      apply Ls. now destruct G.
    + intros A l e P l' e' P' f _ G Ef.
      destruct (edge_transformation_ok _ _ _ _ _ _ _ _ V G) as [f' [Ef' [Kf [Sf _]]]].
      rewrite Ef in Ef'. injection Ef' as <-. apply T; auto. apply (A l e P l' e' P'); auto.
Qed.

Lemma all_gluings_impl D S (k1 k2 : (vec K -> vec K) -> Prop) : (forall F, k1 F -> k2 F) ->
  all_gluings D S k1 -> all_gluings D S k2.
Proof. intros I A l e P l' e' P' F G M. eapply I, A; eauto. Qed.
Lemma half_is_dilation (F : vec K -> vec K) : map_half_translation F -> map_dilation F.
Proof.
  intros [u [U|U]].
  - exists 1, u. split; [apply f1_neq_0|]. intros p. rewrite U. apply vec_eq; cbn; ring.
  - exists (- (1)), u. split.
    + pose proof (@flt_0_1 K). intros E. flra.
    + intros p. rewrite U. apply vec_eq; cbn; ring.
Qed.
Lemma translation_is_positive_dilation (F : vec K -> vec K) : map_translation F -> map_positive_dilation F.
Proof.
  intros [u U]. exists 1, u. split; [apply flt_0_1|]. intros p. rewrite U. apply vec_eq; cbn; ring.
Qed.
End P.
