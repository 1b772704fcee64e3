(** Intersections, parametrisations and the end points of geodesics. *)
From Coq Require Import List Bool ZArith Lia Ring Field.
From Verif Require Import OField FMicromega PField MBase MEuclid PEuclid SEuclid MHyp SHyp PHyp.
Import ListNotations.

Ltac bools :=
  repeat match goal with
  | H : (?a =? ?b)%F = true |- _ => apply feqb_eq in H
  | H : (?a =? ?b)%F = false |- _ => apply feqb_false' in H
  | H : (?a <? ?b)%F = true |- _ => change (a < b)%F in H
  | H : (?a <? ?b)%F = false |- _ => change (b <= a)%F in H
  end.
(** generalise the coefficients of geodesics and the coordinates of points *)
Ltac gen_all :=
  repeat match goal with
  | g : geo _ |- _ => destruct g
  | p : vec _ |- _ => destruct p
  end; cbn [g_a g_b g_c fst snd] in *.

Section Hyp.
Context {K : OField}.
Add Field KF : (of_ft K).
Local Open Scope F_scope.
Implicit Types p q : vec K.
Implicit Types f g h : geo K.
Implicit Types x y : K.

(** ** Intersections *)
Lemma intersection_some f g p : intersection f g = Some p ->
  g_b f * g_c g - g_c f * g_b g <> 0 /\ on f p /\ on g p /\ forall q, on f q -> on g q -> q = p.
Proof.
  unfold intersection. destruct (_ =? _) eqn:E; [discriminate|]. bools. intros Q. injection Q as <-. split; auto. unfold on. cbn [fst snd]. split; [field; exact E|]. split; [field; exact E|].
  intros [x y] A B. cbn [fst snd] in *. apply vec_eq; cbn [fst snd]; apply (fcancel _ _ _ E); rewrite fdiv_mul by exact E; gen_all.
  - assert (X : g_a = - (g_b * x + g_c * y)) by flra. assert (Y : g_a0 = - (g_b0 * x + g_c0 * y)) by flra. rewrite X, Y. ring.
  - assert (X : g_a = - (g_b * x + g_c * y)) by flra. assert (Y : g_a0 = - (g_b0 * x + g_c0 * y)) by flra. rewrite X, Y. ring.
Qed.
Lemma intersection_none f g : intersection f g = None -> g_b f * g_c g - g_c f * g_b g = 0.
Proof. unfold intersection. destruct (_ =? _) eqn:E; [|discriminate]. now bools. Qed.
(** parallel lines with a common point are equal *)
Lemma parallel_meet f g p : line f -> line g -> g_b f * g_c g - g_c f * g_b g = 0 -> on f p -> on g p -> same_line f g.
Proof.
  intros Lf Lg D A B. destruct (normal_parallel f g Lf D) as [s [Eb Ec]]. assert (s <> 0). { intros Z. subst s. destruct Lg as [Q|Q]; apply Q; [rewrite Eb|rewrite Ec]; ring. }
  assert (E : g = scale_geo s f). { apply geo_ext; auto. cbn. unfold on in A, B. rewrite Eb, Ec in B. assert (X : g_a f = - (g_b f * fst p + g_c f * snd p)) by flra. rewrite X. flra. }
  rewrite E. now apply scale_same_line.
Qed.

(** ** Parametrisation *)
Lemma parametrize_ok g p : line g -> on g p -> exists t, parametrize g p = Ok t /\ p = vadd (foot g) (vscale t (tangent g)).
Proof.
  intros L O. destruct (on_point g p L O) as [t E]. exists t. split; auto. unfold parametrize. rewrite (an_element_ok g L). cbn [bind]. rewrite E. unfold vadd, vscale, tangent. cbn [fst snd].
  destruct (g_c g =? 0) eqn:C; cbn [negb]; bools.
  - assert (B : - g_b g <> 0). { destruct L as [L|L]; [|tauto]. intros Q. apply L. flra. } destruct (- g_b g =? 0) eqn:Z; bools; [tauto|]. f_equal. field. intros Q. apply B. rewrite Q. ring.
  - f_equal. field. exact C.
Qed.
Lemma unparametrize_ok g t : line g -> unparametrize g t = Ok (vadd (foot g) (vscale t (tangent g))).
Proof. intros L. unfold unparametrize. now rewrite (an_element_ok g L). Qed.
Lemma parametrize_point g t : line g -> parametrize g (vadd (foot g) (vscale t (tangent g))) = Ok t.
Proof.
  intros L. destruct (parametrize_ok g _ L (point_on g t L)) as [s [E Q]]. rewrite E. f_equal. symmetry. now apply (line_inj g (foot g)).
Qed.
Lemma after_iff g p q t s : line g -> p = vadd (foot g) (vscale t (tangent g)) -> q = vadd (foot g) (vscale s (tangent g)) -> after g p q <-> t < s.
Proof.
  intros L -> ->. unfold after. fold (tangent g). split.
  - intros [d [D E]]. assert (X : s = t + d); [|flra]. apply (line_inj g (foot g) _ _ L). rewrite E. unfold vadd, vscale. cbn. f_equal; ring.
  - intros T. exists (s - t). split; [flra|]. unfold vadd, vscale. cbn. f_equal; ring.
Qed.
Lemma after_on g p q : on g p -> after g p q -> on g q.
Proof. intros O [t [T ->]]. unfold on in *. unfold vadd, vscale. cbn. rewrite <- O. ring. Qed.
Lemma after_irrefl g p : line g -> ~ after g p p.
Proof. intros L [t [T E]]. assert (X : t = 0); [|flra]. apply (line_inj g p _ _ L). fold (tangent g) in E. rewrite <- E. unfold vadd, vscale. destruct p; cbn. f_equal; ring. Qed.
Lemma point_coordinate g t : line g -> dot (vadd (foot g) (vscale t (tangent g))) (tangent g) = t * (g_b g * g_b g + g_c g * g_c g).
Proof. intros L. apply line_pos, fpos_neq0 in L. unfold dot, vadd, vscale, tangent, foot. cbn [fst snd]. field. exact L. Qed.
Lemma ideal_param g t : line g -> ideal (vadd (foot g) (vscale t (tangent g))) <->
  t * t * ((g_b g * g_b g + g_c g * g_c g) * (g_b g * g_b g + g_c g * g_c g)) = g_b g * g_b g + g_c g * g_c g - g_a g * g_a g.
Proof.
  intros L. pose proof (line_pos g L) as P. apply fpos_neq0 in P. unfold ideal. fold (norm2 (vadd (foot g) (vscale t (tangent g)))). rewrite (point_norm g t L). set (n := g_b g * g_b g + g_c g * g_c g) in *. clearbody n. split; intros E.
  - apply (f_equal (fun u => u * n)) in E. rewrite fdiv_mul in E by auto. flra.
  - apply (fcancel _ _ n P). rewrite fdiv_mul by auto. flra.
Qed.
Lemma finite_param g t : line g -> finite (vadd (foot g) (vscale t (tangent g))) <->
  t * t * ((g_b g * g_b g + g_c g * g_c g) * (g_b g * g_b g + g_c g * g_c g)) < g_b g * g_b g + g_c g * g_c g - g_a g * g_a g.
Proof.
  intros L. pose proof (line_pos g L) as P. pose proof (fpos_neq0 _ P) as N. unfold finite. fold (norm2 (vadd (foot g) (vscale t (tangent g)))). rewrite (point_norm g t L). set (n := g_b g * g_b g + g_c g * g_c g) in *. clearbody n.
  set (u := g_a g * g_a g + t * t * (n * n)). assert (E : u / n * n = u) by (now apply fdiv_mul). set (r := u / n) in *. clearbody r. unfold u in E. split; intros H.
  - assert (0 < (1 - r) * n) by (apply fmul_pos; flra). flra.
  - apply fnle_lt. intros C. assert (0 <= (r - 1) * n); [|flra]. destruct (proj1 (fle_lteq _ _) C) as [C'|C']; [apply fle_lteq; left; apply fmul_pos; flra|subst r; flra].
Qed.
Lemma sq_lt x y : 0 <= y -> x * x < y * y -> x < y.
Proof. intros Y H. apply fnle_lt. intros C. assert (0 <= (x - y) * (x + y)); [|flra]. destruct (proj1 (fle_lteq _ _) C) as [C'|C']; [|subst; flra]. destruct (proj1 (fle_lteq _ _) Y) as [Y'|Y']; apply fle_lteq; left; apply fmul_pos; flra. Qed.
Lemma sq_eq x y : x * x = y * y -> x = y \/ x = - y.
Proof. intros H. assert (E : (x - y) * (x + y) = 0) by flra. apply fmul_eq0 in E. destruct E; [left|right]; flra. Qed.

(** ** The starting point of a geodesic *)
Lemma start_iff g p : line g -> start_of g p <-> on g p /\ ideal p /\ dot p (tangent g) < 0.
Proof.
  intros L. pose proof (line_pos g L) as P. split.
  - intros [q [A [B [C [D E]]]]]. split; auto. split; auto. destruct (on_point g p L A) as [t Et]. destruct (on_point g q L B) as [s Es].
    apply (after_iff g p q t s L Et Es) in E. rewrite Et in C. rewrite Es in D. apply ideal_param in C; auto. apply ideal_param in D; auto.
    rewrite Et, (point_coordinate g t L). set (n := g_b g * g_b g + g_c g * g_c g) in *. clearbody n.
    assert (Q : t * t = s * s). { apply (fcancel _ _ (n * n)); [apply fpos_neq0; now apply fmul_pos|]. congruence. } apply sq_eq in Q. destruct Q as [Q|Q]; [flra|].
    assert (0 < (- t) * n) by (apply fmul_pos; flra). flra.
  - intros [A [B C]]. destruct (on_point g p L A) as [t Et]. rewrite Et, (point_coordinate g t L) in C. rewrite Et in B. apply ideal_param in B; auto.
    exists (vadd (foot g) (vscale (- t) (tangent g))). split; auto. split; [now apply point_on|]. split; [rewrite Et; now apply ideal_param|]. split; [apply ideal_param; auto; rewrite <- B; ring|].
    apply (after_iff g _ _ t (- t) L Et eq_refl). set (n := g_b g * g_b g + g_c g * g_c g) in *. clearbody n.
    assert (t < 0); [|flra]. apply fnle_lt. intros D. assert (0 <= t * n); [|flra]. destruct (proj1 (fle_lteq _ _) D) as [D'|D']; [apply fle_lteq; left; now apply fmul_pos|subst t; flra].
Qed.
Lemma start_param g p t : line g -> p = vadd (foot g) (vscale t (tangent g)) -> ideal p -> start_of g p <-> t < 0.
Proof.
  intros L E I. rewrite (start_iff g p L). rewrite E at 3. rewrite (point_coordinate g t L). pose proof (line_pos g L) as P. set (n := g_b g * g_b g + g_c g * g_c g) in *. clearbody n. split.
  - intros [_ [_ C]]. apply fnle_lt. intros D. assert (0 <= t * n); [|flra]. destruct (proj1 (fle_lteq _ _) D) as [D'|D']; [apply fle_lteq; left; now apply fmul_pos|subst t; flra].
  - intros T. split; [rewrite E; now apply point_on|]. split; auto. assert (0 < (- t) * n) by (apply fmul_pos; flra). flra.
Qed.
Lemma start_unique g p q : line g -> start_of g p -> start_of g q -> p = q.
Proof.
  intros L A B. pose proof A as [_ [A1 [_ [A2 _]]]]. pose proof B as [_ [B1 [_ [B2 _]]]]. destruct (on_point g p L A1) as [t Et]. destruct (on_point g q L B1) as [s Es].
  apply (start_param g p t L Et A2) in A. apply (start_param g q s L Es B2) in B. rewrite Et in A2. rewrite Es in B2. apply ideal_param in A2; auto. apply ideal_param in B2; auto.
  pose proof (line_pos g L) as P. set (n := g_b g * g_b g + g_c g * g_c g) in *. assert (Q : t * t = s * s). { apply (fcancel _ _ (n * n)); [apply fpos_neq0; now apply fmul_pos|]. congruence. } apply sq_eq in Q. destruct Q as [Q|Q]; [|exfalso; flra]. congruence.
Qed.
Lemma start_same f g p : line f -> line g -> same_oriented f g -> start_of f p -> start_of g p.
Proof.
  intros Lf Lg S A. destruct (same_scale f g Lf Lg S) as [t [T E]]. pose proof (same_oriented_line f g Lf Lg S) as SL. rewrite start_iff in * by auto. destruct A as [A [B C]]. split; [now apply SL|]. split; auto.
  rewrite E. unfold dot, tangent in *. cbn [scale_geo g_a g_b g_c fst snd] in *. assert (0 < t * (- (fst p * g_c f + snd p * - g_b f))) by (apply fmul_pos; flra). flra.
Qed.
Lemma start_neg g p : line g -> start_of g p -> start_of (geo_neg g) p -> False.
Proof.
  intros L A B. rewrite start_iff in A by auto. rewrite start_iff in B by now apply line_neg. destruct A as [_ [_ A]]. destruct B as [_ [_ B]]. unfold dot, tangent in *. cbn in *. flra.
Qed.
Lemma start_on g p : start_of g p -> on g p. Proof. now intros [q [A _]]. Qed.
Lemma start_ideal g p : start_of g p -> ideal p. Proof. now intros [q [_ [_ [A _]]]]. Qed.
Lemma start_eqb_ok g p : chord g -> exists b, start_eqb_coord g p = Ok b /\ (b = true <-> start_of g p).
Proof.
  intros C. pose proof (chord_line g C) as L. unfold start_eqb_coord. destruct (is_ideal p) eqn:I; cbn [negb].
  - unfold is_ideal in I. bools. change (ideal p) in I. destruct (geo_eval g p =? 0) eqn:O; bools.
    + destruct (parametrize_ok g p L O) as [t [E Et]]. rewrite E. cbn [bind]. eexists. split; [reflexivity|]. change ((t <? 0) = true) with (t < 0). symmetry. now apply start_param.
    + exists false. split; auto. split; [discriminate|]. intros S. elim O. now apply start_on.
  - exists false. split; auto. split; [discriminate|]. intros S. unfold is_ideal in I. bools. elim I. now apply (start_ideal g).
Qed.

(** ** Comparison of points *)
Lemma bool_iff (b : bool) (P Q : Prop) : (b = true <-> P) -> (P <-> Q) -> (b = true <-> Q). Proof. tauto. Qed.
Lemma point_eqb_ok (o o' : point K) (s s' : vec K) : valid_point o -> valid_point o' -> denotes o s -> denotes o' s' ->
  exists b, point_eqb o o' = Ok b /\ (b = true <-> s = s').
Proof.
  assert (CS : forall p g s s', chord g -> s = p -> start_of g s' -> exists b, start_eqb_coord g p = Ok b /\ (b = true <-> s = s')).
  { intros p g t t' C -> D'. destruct (start_eqb_ok g p C) as [b [E H]]. exists b. split; auto. rewrite H. split; intros Q; [|now rewrite Q]. now apply (start_unique g _ _ (chord_line g C)). }
  destruct o as [p|f], o' as [q|g]; cbn [valid_point denotes point_eqb]; intros V V' D D'.
  - subst. eexists. split; [reflexivity|]. apply veqb_eq.
  - now apply CS.
  - destruct (CS q f s' s V D' D) as [b [E H]]. exists b. split; auto. rewrite H. split; congruence.
  - pose proof (chord_line f V) as Lf. pose proof (chord_line g V') as Lg. destruct (geo_eqb true f g) eqn:E1.
    + exists true. split; auto. split; auto. intros _. apply (eqb_oriented f g Lf Lg) in E1. apply (start_unique g _ _ Lg); auto. now apply (start_same f g).
    + destruct (geo_eqb true f (geo_neg g)) eqn:E2.
      * exists false. split; auto. split; [discriminate|]. intros <-. exfalso. apply (eqb_oriented f _ Lf (line_neg g Lg)) in E2. apply (start_neg g s Lg D'). now apply (start_same f _ s Lf (line_neg g Lg) E2).
      * destruct (intersection f g) as [p|] eqn:E3.
        -- destruct (start_eqb_ok f p V) as [b [Eb Hb]]. destruct (start_eqb_ok g p V') as [b' [Eb' Hb']]. rewrite Eb. cbn [bind]. exists (b && b').
           split; [destruct b; auto|]. rewrite andb_true_iff, Hb, Hb'. split.
           ++ intros [A B]. rewrite (start_unique f s p), (start_unique g s' p); auto.
           ++ intros <-. apply intersection_some in E3. destruct E3 as [_ [_ [_ U]]]. rewrite <- (U s); auto; now apply start_on.
        -- exists false. split; auto. split; [discriminate|]. intros <-. exfalso. apply intersection_none in E3. assert (S : same_line f g) by (apply (parallel_meet f g s); auto; now apply start_on).
           apply (eqb_unoriented f g Lf Lg) in S. apply eqb_unoriented_split in S; auto. destruct S; congruence.
Qed.
Lemma geo_contains_ok g (o : point K) (s : vec K) : chord g -> valid_point o -> denotes o s -> exists b, geo_contains g o = Ok b /\ (b = true <-> on g s).
Proof.
  destruct o as [p|f]; cbn [valid_point denotes geo_contains]; intros C V D.
  - subst. eexists. split; [reflexivity|]. apply feqb_eq.
  - pose proof (chord_line f V) as Lf. pose proof (chord_line g C) as Lg. destruct (geo_eqb false f g) eqn:E1.
    + exists true. split; auto. split; auto. intros _. apply (eqb_unoriented f g Lf Lg) in E1. apply E1. now apply start_on.
    + destruct (intersection g f) as [p|] eqn:E2.
      * apply intersection_some in E2. destruct E2 as [_ [A [B U]]]. destruct (is_ultra_ideal p) eqn:E3.
        -- exists false. split; auto. split; [discriminate|]. intros O. exfalso. assert (X : s = p) by (apply U; auto; now apply start_on). subst p. apply start_ideal in D. unfold is_ultra_ideal in E3. bools. unfold ideal in D. unfold norm2 in E3. flra.
        -- destruct (start_eqb_ok f p V) as [b [Eb Hb]]. exists b. split; auto. rewrite Hb. split; intros H; [rewrite (start_unique f s p); auto|]. rewrite <- (U s); auto. now apply start_on.
      * exists false. split; auto. split; [discriminate|]. intros O. exfalso. apply intersection_none in E2. assert (S : same_line g f) by (apply (parallel_meet g f s); auto; now apply start_on).
        assert (S' : same_line f g) by (intros q; symmetry; apply S). apply (eqb_unoriented f g Lf Lg) in S'. congruence.
Qed.
End Hyp.
