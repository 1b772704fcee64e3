(** Proofs about similarity surfaces: minimal covers. *)
From Coq Require Import List Bool ZArith Arith Lia Ring Field.
From Verif Require Import OField FMicromega PField MBase MDict PDict MEuclid SEuclid PEuclid MSim SSim PSim MPoly PPoly
  MMut MSurf SSurf PSurf PSurf2 PSurf3.
Import ListNotations.

Section P.
Context {K : OField}.
Add Field KF : (of_ft K).
Local Open Scope F_scope.
Implicit Types (P Q : polygon K).

Lemma rot_mat_det (a b : K) : mdet (rot_mat a b) = a * a + b * b.
Proof. unfold mdet, rot_mat. cbn. ring. Qed.
Lemma rot_mat_pos (a b : K) : a <> 0 \/ b <> 0 -> 0 < mdet (rot_mat a b).
Proof.
  intros N. rewrite rot_mat_det. pose proof (fsq_nonneg a). pose proof (fsq_nonneg b).
  destruct N as [N|N]; apply fneq_lt in N; destruct N; [assert (0 < a * a) by fnra|assert (0 < a * a) by fnra
    |assert (0 < b * b) by fnra|assert (0 < b * b) by fnra]; flra.
Qed.
Lemma rot_poly (a b : K) P : a <> 0 \/ b <> 0 -> P <> nil -> poly_mul (rot_mat a b) P = Ok (map (mapply (rot_mat a b)) P).
Proof.
  intros N HP. pose proof (rot_mat_pos a b N) as X. rewrite poly_mul_eq; auto.
  - assert (Y : (mdet (rot_mat a b) <? 0) = false) by flra. now rewrite Y.
  - now apply fpos_neq0.
Qed.
Lemma map_edge (F : mat K) P e : P <> nil -> edge (map (mapply F) P) e = mapply F (edge P e).
Proof. intros HP. unfold edge. rewrite !vertex_map by auto. now rewrite mapply_sub. Qed.

Lemma sim_inv_pos (f : sim K) : sg_sign f = true -> sim_inv f =
  Sim (sg_a f / (sg_a f * sg_a f + sg_b f * sg_b f)) (- sg_b f / (sg_a f * sg_a f + sg_b f * sg_b f))
    (sg_s (sim_inv f)) (sg_t (sim_inv f)) true.
Proof.
  intros S. apply sim_eq; unfold sim_inv, sim_det, sgn; cbn; rewrite S; auto.
  - f_equal; ring.
  - f_equal; ring.
Qed.

Context {L : Type}.
Implicit Types (S : surface K L) (D : L -> Prop).

Definition cover_dom D : L * K * K -> Prop := fun '(l, a, b) => D l /\ (a <> 0 \/ b <> 0).

(** complex multiplication of pairs *)
Lemma cmul_nz (a b c d : K) : a <> 0 \/ b <> 0 -> c <> 0 \/ d <> 0 -> a * c - b * d <> 0 \/ b * c + a * d <> 0.
Proof.
  intros N N'. apply rot_mat_pos in N. apply rot_mat_pos in N'. rewrite rot_mat_det in N, N'.
  destruct (feq_dec (a * c - b * d) 0) as [E|E]; auto. right. intros E'.
  assert (Z : (a * a + b * b) * (c * c + d * d) = 0).
  { transitivity ((a * c - b * d) * (a * c - b * d) + (b * c + a * d) * (b * c + a * d)); [ring|]. rewrite E, E'. ring. }
  apply fmul_eq0 in Z. destruct Z as [Z|Z]; rewrite Z in *; flra.
Qed.

(** what crossing an edge of the translation cover does *)
Lemma tc_opp D S l e P l' e' P' f a b : valid D S -> glued_at D S l e P l' e' P' ->
  edge_transformation S l e = Ok f ->
  s_opp (translation_cover S) (l, a, b) e =
  let n := sg_a f * sg_a f + sg_b f * sg_b f in
  Ok (Some ((l', (a * sg_a f + b * sg_b f) / n, (b * sg_a f - a * sg_b f) / n), e')).
Proof.
  intros V G Ef. pose proof (edge_transformation_inverse _ _ _ _ _ _ _ _ _ V G Ef) as Ei.
  pose proof (edge_matrix_ok _ _ _ _ _ _ _ _ _ V (glued_sym _ _ _ _ _ _ _ _ V G) Ei) as Em.
  destruct (edge_transformation_ok _ _ _ _ _ _ _ _ V G) as [f' [Ef' [Kf [Sf _]]]].
  rewrite Ef in Ef'. injection Ef' as <-. apply sim_ok_nz in Kf.
  cbn. unfold opp_pair. rewrite (ga_opp _ _ _ _ _ _ _ _ G). cbn [bind fst snd]. rewrite Em. cbn [bind].
  rewrite sim_inv_pos by auto. unfold sim_derivative, sgn. cbn. do 3 f_equal. f_equal; [f_equal|]; field; auto.
Qed.

Lemma sim_inv_ab (f : sim K) : sg_sign f = true -> sg_a (sim_inv f) = sg_a f / (sg_a f * sg_a f + sg_b f * sg_b f) /\
  sg_b (sim_inv f) = - sg_b f / (sg_a f * sg_a f + sg_b f * sg_b f).
Proof. intros S. pose proof (sim_inv_pos f S) as E. rewrite E. auto. Qed.

Lemma cover_poly D S l a b : valid D S -> D l -> a <> 0 \/ b <> 0 ->
  exists P, s_poly S l = Ok P /\ (3 <= length P)%nat /\ P <> nil /\ (forall e, edge P e <> vzero) /\
    s_poly (translation_cover S) (l, a, b) = Ok (map (mapply (rot_mat a b)) P).
Proof.
  intros V Dl N. destruct (v_poly _ _ V l Dl) as [P [Pl [L3 Nz]]].
  assert (HP : P <> nil) by (intros ->; cbn in L3; lia).
  exists P. do 4 (split; [auto|]). cbn. rewrite Pl. cbn. now apply rot_poly.
Qed.

Lemma cover_edges (P : polygon K) a b e : a <> 0 \/ b <> 0 -> P <> nil -> edge P e <> vzero ->
  edge (map (mapply (rot_mat a b)) P) e <> vzero.
Proof.
  intros N HP E. rewrite map_edge by auto. apply mapply_nz; auto. apply fpos_neq0. now apply rot_mat_pos.
Qed.

(** crossing, in one statement *)
Lemma tc_cross D S l e P a b : valid D S -> closed D S -> D l -> a <> 0 \/ b <> 0 -> s_poly S l = Ok P ->
  (e < length P)%nat -> exists l' e' P' a' b', glued_at D S l e P l' e' P' /\ D l' /\ (e' < length P')%nat /\
    (a' <> 0 \/ b' <> 0) /\
    s_opp (translation_cover S) (l, a, b) e = Ok (Some ((l', a', b'), e')) /\
    s_opp (translation_cover S) (l', a', b') e' = Ok (Some ((l, a, b), e)) /\
    mapply (rot_mat a b) (edge P e) = vopp (mapply (rot_mat a' b') (edge P' e')).
Proof.
  intros V C Dl N Pl He.
  destruct (v_opp _ _ V l P e Dl Pl He) as [X|[l' [e' [P' [X [Dl' [Pl' [Lt' Back]]]]]]]].
  { destruct (C l P e Dl Pl He X). }
  assert (G : glued_at D S l e P l' e' P') by (constructor; auto).
  destruct (edge_transformation_ok _ _ _ _ _ _ _ _ V G) as [f [Ef [Kf [Sf [Fa Fb]]]]].
  pose proof (tc_opp _ _ _ _ _ _ _ _ _ a b V G Ef) as O.
  pose proof (edge_transformation_inverse _ _ _ _ _ _ _ _ _ V G Ef) as Ei.
  pose proof Kf as Kn. apply sim_ok_nz in Kn.
  destruct (sim_inv_ab f Sf) as [Ia Ib].
  set (n := sg_a f * sg_a f + sg_b f * sg_b f) in *.
  exists l', e', P', ((a * sg_a f + b * sg_b f) / n), ((b * sg_a f - a * sg_b f) / n).
  split; [exact G|]. split; [exact Dl'|]. split; [exact Lt'|].
  assert (N' : (a * sg_a f + b * sg_b f) / n <> 0 \/ (b * sg_a f - a * sg_b f) / n <> 0).
  { assert (KI : sg_a (sim_inv f) <> 0 \/ sg_b (sim_inv f) <> 0) by (apply (sim_ok_inv f Kf)).
    pose proof (cmul_nz a b _ _ N KI) as Z. rewrite Ia, Ib in Z. destruct Z as [Z|Z]; [left|right]; intros E; apply Z;
    rewrite <- E; unfold n; field; auto. }
  split; [exact N'|]. split; [exact O|]. split.
  - rewrite (tc_opp _ _ _ _ _ _ _ _ _ _ _ V (glued_sym _ _ _ _ _ _ _ _ V G) Ei). cbv zeta. rewrite Ia, Ib.
    do 3 f_equal. unfold n in *. f_equal; [f_equal|]; field; repeat split; auto;
    intros Z; apply Kn; rewrite <- Z; ring.
  - assert (E : edge P' e' = vopp (mapply (sim_derivative f) (edge P e))).
    { unfold edge at 2. rewrite <- sim_derivative_spec, Fa, Fb. unfold edge. apply vec_eq; cbn; ring. }
    rewrite E. unfold sim_derivative, sgn, rot_mat. rewrite Sf. destruct (edge P e) as [x y].
    apply vec_eq; cbn; unfold n in *; field; auto.
Qed.

Lemma translation_cover_ok D S : valid D S -> closed D S ->
  valid (cover_dom D) (translation_cover S) /\ closed (cover_dom D) (translation_cover S) /\
  all_gluings (cover_dom D) (translation_cover S) map_translation.
Proof.
  intros V C.
  assert (PQ : forall l a b Q, cover_dom D (l, a, b) -> s_poly (translation_cover S) (l, a, b) = Ok Q ->
    exists P, s_poly S l = Ok P /\ Q = map (mapply (rot_mat a b)) P /\ P <> nil /\ length Q = length P).
  { intros l a b Q [Dl N] H. destruct (cover_poly D S l a b V Dl N) as [P [Pl [L3 [HP [Nz Cp]]]]].
    exists P. rewrite Cp in H. injection H as <-. rewrite map_length. auto. }
  assert (VC : valid (cover_dom D) (translation_cover S)).
  { constructor.
    - intros [[l a] b] [Dl N]. destruct (cover_poly D S l a b V Dl N) as [P [Pl [L3 [HP [Nz Cp]]]]].
      eexists. split; [exact Cp|]. split; [now rewrite map_length|]. intros e. now apply cover_edges.
    - intros [[l a] b] Q e Dc HQ He. right. destruct (PQ l a b Q Dc HQ) as [P [Pl [-> [HP LQ]]]].
      destruct Dc as [Dl N]. rewrite map_length in He.
      destruct (tc_cross D S l e P a b V C Dl N Pl He) as [l' [e' [P' [a' [b' [G [Dl' [Lt' [N' [O [O' _]]]]]]]]]]].
      exists (l', a', b'), e', (map (mapply (rot_mat a' b')) P').
      split; [exact O|]. split; [split; auto|].
      destruct (cover_poly D S l' a' b' V Dl' N') as [P2 [Pl2 [_ [_ [_ Cp]]]]].
      assert (P2 = P') by (destruct G; congruence). subst P2.
      split; [exact Cp|]. split; [now rewrite map_length|]. exact O'. }
  split; [exact VC|]. split.
  - intros [[l a] b] Q e Dc HQ He. destruct (PQ l a b Q Dc HQ) as [P [Pl [-> [HP LQ]]]].
    destruct Dc as [Dl N]. rewrite map_length in He.
    destruct (tc_cross D S l e P a b V C Dl N Pl He) as [l' [e' [P' [a' [b' [G [Dl' [Lt' [N' [O [O' _]]]]]]]]]]].
    rewrite O. discriminate.
  - apply all_gluings_intro; auto. { apply ext_translation. }
    intros [[l a] b] e Q [[l' a'] b'] e' Q' G.
    destruct (PQ l a b Q (ga_dom _ _ _ _ _ _ _ _ G) (ga_poly _ _ _ _ _ _ _ _ G)) as [P [Pl [-> [HP LQ]]]].
    destruct (ga_dom _ _ _ _ _ _ _ _ G) as [Dl N]. pose proof (ga_edge _ _ _ _ _ _ _ _ G) as He. rewrite map_length in He.
    destruct (tc_cross D S l e P a b V C Dl N Pl He) as [l2 [e2 [P' [a2 [b2 [G' [Dl' [Lt' [N' [O [O' E]]]]]]]]]]].
    rewrite (ga_opp _ _ _ _ _ _ _ _ G) in O. injection O as <- <- <- <-.
    destruct (PQ l' a' b' Q' (conj Dl' N') (ga_poly' _ _ _ _ _ _ _ _ G)) as [P2 [Pl2 [-> [HP2 LQ2]]]].
    assert (P2 = P') by (destruct G'; congruence). subst P2.
    eexists. split; [apply gm_translation|].
    + rewrite !map_edge by auto. exact E.
    + eexists. intros p. reflexivity.
Qed.

(** ** the half-translation cover *)
Definition normalised (a b : K) := 0 < a \/ (a = 0 /\ 0 < b).
Definition half_dom D : L * K * K -> Prop := fun '(l, a, b) => D l /\ normalised a b.
Lemma normalised_nz a b : normalised a b -> a <> 0 \/ b <> 0.
Proof. intros [A|[A B]]; [left|right]; now apply fpos_neq0. Qed.
Lemma normalise a b : a <> 0 \/ b <> 0 ->
  if (0 <? a) || ((a =? 0) && (0 <? b)) then normalised a b else normalised (- a) (- b).
Proof.
  intros N. destruct (0 <? a) eqn:A; cbn; [left; exact A|].
  destruct (a =? 0) eqn:Z; cbn.
  - apply feqb_eq in Z. destruct (0 <? b) eqn:B; [right; auto|].
    right. split; [rewrite Z; ring|]. destruct N as [N|N]; [congruence|].
    apply fneq_lt in N. destruct N as [N|N]; [flra|]. unfold flt in N. congruence.
  - left. apply feqb_false in Z. apply fneq_lt in Z. destruct Z as [Z|Z]; [flra|]. unfold flt in Z. congruence.
Qed.
Lemma normalised_neg a b : normalised a b -> ~ normalised (- a) (- b).
Proof. intros [A|[A B]] [C|[C E]]; subst; flra. Qed.
Lemma normalised_test a b : normalised a b -> (0 <? a) || ((a =? 0) && (0 <? b)) = true.
Proof. intros [A|[A B]]; [unfold flt in A; now rewrite A|]. unfold flt in B. rewrite (proj2 (feqb_eq K a 0) A), B. now rewrite orb_true_r. Qed.
Lemma normalised_test_neg a b : normalised a b -> (0 <? - a) || ((- a =? 0) && (0 <? - b)) = false.
Proof.
  intros H. destruct ((0 <? - a) || _) eqn:E; auto. exfalso. apply (normalised_neg a b H).
  apply orb_true_iff in E. destruct E as [E|E]; [left; exact E|]. apply andb_true_iff in E as [E1 E2].
  right. split; [now apply feqb_eq|exact E2].
Qed.

(** what crossing an edge of the half-translation cover does *)
Lemma hc_opp D S l e P l' e' P' f a b : valid D S -> glued_at D S l e P l' e' P' ->
  edge_transformation S l e = Ok f ->
  s_opp (half_translation_cover S) (l, a, b) e =
  let aa := a * sg_a f + b * sg_b f in
  let bb := b * sg_a f - a * sg_b f in
  if (0 <? aa) || ((aa =? 0) && (0 <? bb)) then Ok (Some ((l', aa, bb), e')) else Ok (Some ((l', - aa, - bb), e')).
Proof.
  intros V G Ef. pose proof (edge_matrix_ok _ _ _ _ _ _ _ _ _ V G Ef) as Em.
  destruct (edge_transformation_ok _ _ _ _ _ _ _ _ V G) as [f' [Ef' [Kf [Sf _]]]].
  rewrite Ef in Ef'. injection Ef' as <-.
  cbn. unfold opp_pair. rewrite (ga_opp _ _ _ _ _ _ _ _ G). cbn [bind fst snd]. rewrite Em. reflexivity.
Qed.

(** crossing: the scale of the edges changes by the square of the factor of the gluing *)
Lemma hc_cross D S l e P a b : valid D S -> closed D S -> D l -> normalised a b -> s_poly S l = Ok P ->
  (e < length P)%nat -> exists l' e' P' a' b' f (eps : K), glued_at D S l e P l' e' P' /\ D l' /\ (e' < length P')%nat /\
    edge_transformation S l e = Ok f /\
    normalised a' b' /\ (eps = 1 \/ eps = - (1)) /\
    s_opp (half_translation_cover S) (l, a, b) e = Ok (Some ((l', a', b'), e')) /\
    s_opp (half_translation_cover S) (l', a', b') e' = Ok (Some ((l, a, b), e)) /\
    mapply (rot_mat a' b') (edge P' e') =
      vscale (eps * (sg_a f * sg_a f + sg_b f * sg_b f)) (mapply (rot_mat a b) (edge P e)).
Proof.
  intros V C Dl Nab Pl He. pose proof (normalised_nz a b Nab) as N.
  destruct (v_opp _ _ V l P e Dl Pl He) as [X|[l' [e' [P' [X [Dl' [Pl' [Lt' Back]]]]]]]].
  { destruct (C l P e Dl Pl He X). }
  assert (G : glued_at D S l e P l' e' P') by (constructor; auto).
  destruct (edge_transformation_ok _ _ _ _ _ _ _ _ V G) as [f [Ef [Kf [Sf [Fa Fb]]]]].
  pose proof (hc_opp _ _ _ _ _ _ _ _ _ a b V G Ef) as O. cbv zeta in O.
  pose proof (edge_transformation_inverse _ _ _ _ _ _ _ _ _ V G Ef) as Ei.
  pose proof Kf as Kn. apply sim_ok_nz in Kn.
  destruct (sim_inv_ab f Sf) as [Ia Ib].
  assert (E : edge P' e' = vopp (mapply (sim_derivative f) (edge P e))).
  { unfold edge at 2. rewrite <- sim_derivative_spec, Fa, Fb. unfold edge. apply vec_eq; cbn; ring. }
  set (aa := a * sg_a f + b * sg_b f) in *. set (bb := b * sg_a f - a * sg_b f) in *.
  assert (Nz : aa <> 0 \/ bb <> 0).
  { assert (Z : sg_a f <> 0 \/ - sg_b f <> 0). { destruct Kf as [Z|Z]; [auto|right]. intros Y. apply Z. flra. }
    pose proof (cmul_nz a b _ _ N Z) as W. destruct W as [W|W]; [left|right]; intros Y; apply W; rewrite <- Y; unfold aa, bb; ring. }
  assert (B1 : aa * sg_a (sim_inv f) + bb * sg_b (sim_inv f) = a).
  { rewrite Ia, Ib. unfold aa, bb. field. auto. }
  assert (B2 : bb * sg_a (sim_inv f) - aa * sg_b (sim_inv f) = b).
  { rewrite Ia, Ib. unfold aa, bb. field. auto. }
  pose proof (normalise aa bb Nz) as T. destruct ((0 <? aa) || _) eqn:TT.
  - exists l', e', P', aa, bb, f, (- (1)). do 5 (split; [auto|]). split; [auto|]. split; [exact O|]. split.
    + rewrite (hc_opp _ _ _ _ _ _ _ _ _ _ _ V (glued_sym _ _ _ _ _ _ _ _ V G) Ei). cbv zeta. rewrite B1, B2.
      now rewrite (normalised_test a b Nab).
    + rewrite E. unfold sim_derivative, sgn, rot_mat, aa, bb. rewrite Sf. destruct (edge P e) as [x y].
      apply vec_eq; cbn; ring.
  - exists l', e', P', (- aa), (- bb), f, 1. do 5 (split; [auto|]). split; [auto|]. split; [exact O|]. split.
    + rewrite (hc_opp _ _ _ _ _ _ _ _ _ _ _ V (glued_sym _ _ _ _ _ _ _ _ V G) Ei). cbv zeta.
      assert (B1' : - aa * sg_a (sim_inv f) + - bb * sg_b (sim_inv f) = - a) by (rewrite <- B1; ring).
      assert (B2' : - bb * sg_a (sim_inv f) - - aa * sg_b (sim_inv f) = - b) by (rewrite <- B2; ring).
      rewrite B1', B2', (normalised_test_neg a b Nab). do 3 f_equal. f_equal; [f_equal|]; ring.
    + rewrite E. unfold sim_derivative, sgn, rot_mat, aa, bb. rewrite Sf. destruct (edge P e) as [x y].
      apply vec_eq; cbn; ring.
Qed.

Lemma half_cover_valid D S : valid D S -> closed D S ->
  valid (half_dom D) (half_translation_cover S) /\ closed (half_dom D) (half_translation_cover S).
Proof.
  intros V C.
  assert (PQ : forall l a b Q, half_dom D (l, a, b) -> s_poly (half_translation_cover S) (l, a, b) = Ok Q ->
    exists P, s_poly S l = Ok P /\ Q = map (mapply (rot_mat a b)) P /\ P <> nil /\ length Q = length P).
  { intros l a b Q [Dl N] H. destruct (cover_poly D S l a b V Dl (normalised_nz a b N)) as [P [Pl [L3 [HP [Nz Cp]]]]].
    exists P. cbn in H, Cp. rewrite Cp in H. injection H as <-. rewrite map_length. auto. }
  split; [constructor|].
  - intros [[l a] b] [Dl N]. pose proof (normalised_nz a b N) as N0.
    destruct (cover_poly D S l a b V Dl N0) as [P [Pl [L3 [HP [Nz Cp]]]]].
    eexists. split; [exact Cp|]. split; [now rewrite map_length|]. intros e. now apply cover_edges.
  - intros [[l a] b] Q e Dc HQ He. right. destruct (PQ l a b Q Dc HQ) as [P [Pl [-> [HP LQ]]]].
    destruct Dc as [Dl N]. rewrite map_length in He.
    destruct (hc_cross D S l e P a b V C Dl N Pl He) as [l' [e' [P' [a' [b' [f [eps [G [Dl' [Lt' [Ef [N' [Ep [O [O' _]]]]]]]]]]]]]]].
    exists (l', a', b'), e', (map (mapply (rot_mat a' b')) P').
    split; [exact O|]. split; [split; auto|].
    destruct (cover_poly D S l' a' b' V Dl' (normalised_nz _ _ N')) as [P2 [Pl2 [_ [_ [_ Cp]]]]].
    assert (P2 = P') by (destruct G; congruence). subst P2.
    split; [exact Cp|]. split; [now rewrite map_length|]. exact O'.
  - intros [[l a] b] Q e Dc HQ He. destruct (PQ l a b Q Dc HQ) as [P [Pl [-> [HP LQ]]]].
    destruct Dc as [Dl N]. rewrite map_length in He.
    destruct (hc_cross D S l e P a b V C Dl N Pl He) as [l' [e' [P' [a' [b' [f [eps [G [Dl' [Lt' [Ef [N' [Ep [O [O' _]]]]]]]]]]]]]]].
    rewrite O. discriminate.
Qed.

(** the edges of two glued polygons of the cover *)
Lemma half_cover_glued D S l a b e Q l' a' b' e' Q' : valid D S -> closed D S ->
  glued_at (half_dom D) (half_translation_cover S) (l, a, b) e Q (l', a', b') e' Q' ->
  exists P P' f (eps : K), glued_at D S l e P l' e' P' /\ edge_transformation S l e = Ok f /\ (eps = 1 \/ eps = - (1)) /\
    Q = map (mapply (rot_mat a b)) P /\ Q' = map (mapply (rot_mat a' b')) P' /\
    edge Q' e' = vscale (eps * (sg_a f * sg_a f + sg_b f * sg_b f)) (edge Q e).
Proof.
  intros V C G. destruct (ga_dom _ _ _ _ _ _ _ _ G) as [Dl N].
  destruct (cover_poly D S l a b V Dl (normalised_nz a b N)) as [P [Pl [L3 [HP [Nz Cp]]]]].
  pose proof (ga_poly _ _ _ _ _ _ _ _ G) as HQ. cbn in HQ, Cp. rewrite Cp in HQ. injection HQ as <-.
  pose proof (ga_edge _ _ _ _ _ _ _ _ G) as He. rewrite map_length in He.
  destruct (hc_cross D S l e P a b V C Dl N Pl He) as [l2 [e2 [P' [a2 [b2 [f [eps [G' [Dl' [Lt' [Ef [N' [Ep [O [O' E]]]]]]]]]]]]]]].
  rewrite (ga_opp _ _ _ _ _ _ _ _ G) in O. injection O as <- <- <- <-.
  destruct (cover_poly D S l' a' b' V Dl' (normalised_nz _ _ N')) as [P2 [Pl2 [_ [HP2 [_ Cp2]]]]].
  assert (P2 = P') by (destruct G'; congruence). subst P2.
  pose proof (ga_poly' _ _ _ _ _ _ _ _ G) as HQ'. cbn in HQ', Cp2. rewrite Cp2 in HQ'. injection HQ' as <-.
  exists P, P', f, eps. do 5 (split; [auto|]). rewrite !map_edge by auto. exact E.
Qed.

Lemma half_cover_kind D S : valid D S -> closed D S -> all_gluings D S map_isometry ->
  all_gluings (half_dom D) (half_translation_cover S) map_half_translation.
Proof.
  intros V C A. destruct (half_cover_valid D S V C) as [VC _].
  apply all_gluings_intro; auto. { apply ext_half_translation. }
  intros [[l a] b] e Q [[l' a'] b'] e' Q' G.
  destruct (half_cover_glued _ _ _ _ _ _ _ _ _ _ _ _ V C G) as [P [P' [f [eps [G' [Ef [Ep [-> [-> E]]]]]]]]].
  destruct (edge_transformation_ok _ _ _ _ _ _ _ _ V G') as [f' [Ef' [Kf [Sf _]]]].
  rewrite Ef in Ef'. injection Ef' as <-.
  assert (I : sg_a f * sg_a f + sg_b f * sg_b f = 1).
  { rewrite all_gluings_iff in A by (auto using ext_isometry).
    specialize (A _ _ _ _ _ _ _ G' Ef). pose proof (A (0, 0) (1, 0)) as Z. rewrite sim_dist2 in Z.
    assert (Y : dist2 (0, 0) (1, 0) = (1 : K)) by (unfold dist2, dot; cbn; ring). rewrite Y in Z. flra. }
  rewrite I in E. destruct Ep as [-> | ->].
  - eexists. split; [apply gm_half|]; [|eexists; right; intros p; reflexivity].
    rewrite E. destruct (edge _ e). apply vec_eq; cbn; ring.
  - eexists. split; [apply gm_translation|]; [|eexists; left; intros p; reflexivity].
    rewrite E. destruct (edge _ e). apply vec_eq; cbn; ring.
Qed.

(** ** the planar cover *)
Definition planar_dom D : L * sim K -> Prop := fun '(l, m) => D l /\ sim_ok m /\ sg_sign m = true.

Lemma sim_polygon_edge (m : sim K) P e : P <> nil -> edge (sim_polygon m P) e = mapply (sim_derivative m) (edge P e).
Proof. intros HP. unfold edge, sim_polygon. rewrite !vertex_map by auto. apply sim_derivative_spec. Qed.

Lemma pc_cross D S l e P m : valid D S -> closed D S -> D l -> sim_ok m -> sg_sign m = true -> s_poly S l = Ok P ->
  (e < length P)%nat -> exists l' e' P' m', glued_at D S l e P l' e' P' /\ D l' /\ (e' < length P')%nat /\
    sim_ok m' /\ sg_sign m' = true /\
    s_opp (planar_cover S) (l, m) e = Ok (Some ((l', m'), e')) /\
    s_opp (planar_cover S) (l', m') e' = Ok (Some ((l, m), e)) /\
    sim_apply m (vertex P e) = sim_apply m' (vertex P' (Datatypes.S e')) /\
    sim_apply m (vertex P (Datatypes.S e)) = sim_apply m' (vertex P' e').
Proof.
  intros V C Dl Km Sm Pl He.
  destruct (v_opp _ _ V l P e Dl Pl He) as [X|[l' [e' [P' [X [Dl' [Pl' [Lt' Back]]]]]]]].
  { destruct (C l P e Dl Pl He X). }
  assert (G : glued_at D S l e P l' e' P') by (constructor; auto).
  destruct (edge_transformation_ok _ _ _ _ _ _ _ _ V G) as [f [Ef [Kf [Sf [Fa Fb]]]]].
  pose proof (edge_transformation_inverse _ _ _ _ _ _ _ _ _ V G Ef) as Ei.
  pose proof (sim_ok_inv f Kf) as Ki.
  exists l', e', P', (sim_mul m (sim_inv f)). do 3 (split; [auto|]).
  split; [now apply sim_ok_mul|]. split; [cbn; rewrite Sm, Sf; reflexivity|].
  split; [cbn; unfold opp_pair; rewrite X; cbn [bind fst snd]; now rewrite Ef|].
  split.
  - cbn. unfold opp_pair. rewrite Back. cbn [bind fst snd]. rewrite Ei. cbn [bind].
    do 4 f_equal. rewrite <- sim_mul_assoc, sim_inv_r by auto. apply sim_mul_1_r.
  - rewrite !sim_mul_apply, <- Fa, <- Fb, !sim_inv_apply by auto. auto.
Qed.

Lemma planar_cover_ok D S : valid D S -> closed D S ->
  valid (planar_dom D) (planar_cover S) /\ closed (planar_dom D) (planar_cover S) /\
  (forall l m e Q l' m' e' Q', glued_at (planar_dom D) (planar_cover S) (l, m) e Q (l', m') e' Q' ->
     vertex Q e = vertex Q' (Datatypes.S e') /\ vertex Q (Datatypes.S e) = vertex Q' e') /\
  all_gluings (planar_dom D) (planar_cover S) map_identity.
Proof.
  intros V C.
  assert (PQ : forall l m, planar_dom D (l, m) -> exists P, s_poly S l = Ok P /\ P <> nil /\ (3 <= length P)%nat /\
    s_poly (planar_cover S) (l, m) = Ok (sim_polygon m P) /\ (forall e, edge P e <> vzero)).
  { intros l m [Dl N]. destruct (v_poly _ _ V l Dl) as [P [Pl [L3 Nz]]]. exists P. split; [exact Pl|].
    split; [intros ->; cbn in L3; lia|]. split; [exact L3|]. split; [cbn; now rewrite Pl|exact Nz]. }
  assert (VC : valid (planar_dom D) (planar_cover S)).
  { constructor.
    - intros [l m] Dc. destruct (PQ l m Dc) as [P [Pl [HP [L3 [Cp Nz]]]]]. destruct Dc as [Dl [Km Sm]].
      eexists. split; [exact Cp|]. split; [unfold sim_polygon; now rewrite map_length|].
      intros e. rewrite sim_polygon_edge by auto. apply mapply_nz; auto. rewrite sim_derivative_det. now apply sim_det_nz.
    - intros [l m] Q e Dc HQ He. right. destruct (PQ l m Dc) as [P [Pl [HP [L3 [Cp Nz]]]]]. destruct Dc as [Dl [Km Sm]].
      rewrite Cp in HQ. injection HQ as <-. unfold sim_polygon in He. rewrite map_length in He.
      destruct (pc_cross D S l e P m V C Dl Km Sm Pl He) as [l' [e' [P' [m' [G [Dl' [Lt' [Km' [Sm' [O [O' _]]]]]]]]]]].
      exists (l', m'), e', (sim_polygon m' P'). split; [exact O|]. split; [split; auto|].
      split; [cbn; now rewrite (ga_poly' _ _ _ _ _ _ _ _ G)|]. split; [unfold sim_polygon; now rewrite map_length|]. exact O'. }
  assert (GL : forall l m e Q l' m' e' Q', glued_at (planar_dom D) (planar_cover S) (l, m) e Q (l', m') e' Q' ->
     vertex Q e = vertex Q' (Datatypes.S e') /\ vertex Q (Datatypes.S e) = vertex Q' e').
  { intros l m e Q l' m' e' Q' G. pose proof (ga_dom _ _ _ _ _ _ _ _ G) as Dc.
    destruct (PQ l m Dc) as [P [Pl [HP [L3 [Cp Nz]]]]]. destruct Dc as [Dl [Km Sm]].
    pose proof (ga_poly _ _ _ _ _ _ _ _ G) as HQ. rewrite Cp in HQ. injection HQ as <-.
    pose proof (ga_edge _ _ _ _ _ _ _ _ G) as He. unfold sim_polygon in He. rewrite map_length in He.
    destruct (pc_cross D S l e P m V C Dl Km Sm Pl He) as [l2 [e2 [P' [m2 [G' [Dl' [Lt' [Km' [Sm' [O [O' E]]]]]]]]]]].
    rewrite (ga_opp _ _ _ _ _ _ _ _ G) in O. injection O as <- <- <-.
    destruct (PQ l' m' (conj Dl' (conj Km' Sm'))) as [P2 [Pl2 [HP2 [L32 [Cp2 _]]]]].
    assert (P2 = P') by (destruct G'; congruence). subst P2.
    pose proof (ga_poly' _ _ _ _ _ _ _ _ G) as HQ'. rewrite Cp2 in HQ'. injection HQ' as <-.
    unfold sim_polygon. rewrite !vertex_map by auto. exact E. }
  split; [exact VC|]. split; [|split; [exact GL|]].
  - intros [l m] Q e Dc HQ He. destruct (PQ l m Dc) as [P [Pl [HP [L3 [Cp Nz]]]]]. destruct Dc as [Dl [Km Sm]].
    rewrite Cp in HQ. injection HQ as <-. unfold sim_polygon in He. rewrite map_length in He.
    destruct (pc_cross D S l e P m V C Dl Km Sm Pl He) as [l' [e' [P' [m' [G [Dl' [Lt' [Km' [Sm' [O [O' _]]]]]]]]]]].
    rewrite O. discriminate.
  - apply all_gluings_intro; auto. { apply ext_identity. }
    intros [l m] e Q [l' m'] e' Q' G. destruct (GL _ _ _ _ _ _ _ _ G) as [A B].
    exists (fun p => p). split; [|intros p; reflexivity].
    destruct (affine_similarity 1 vzero (fun p : vec K => p)) as [X Y].
    + apply f1_neq_0.
    + intros p. apply vec_eq; cbn; ring.
    + constructor; auto.
Qed.
End P.
