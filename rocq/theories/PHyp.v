(** Points, geodesics and half spaces of the hyperbolic plane. *)
From Coq Require Import List Bool ZArith Lia Ring Field.
From Verif Require Import OField FMicromega PField MBase MEuclid PEuclid SEuclid MHyp SHyp.
Import ListNotations.

Section Hyp.
Context {K : OField}.
Add Field KF : (of_ft K).
Local Open Scope F_scope.
Implicit Types p q : vec K.
Implicit Types f g h : geo K.
Implicit Types x y : K.

Lemma feqb_false' (a b : K) : feqb a b = false -> a <> b. Proof. apply feqb_false. Qed.
Ltac bools :=
  repeat match goal with
  | H : (?a =? ?b)%F = true |- _ => apply feqb_eq in H
  | H : (?a =? ?b)%F = false |- _ => apply feqb_false' in H
  | H : (?a <? ?b)%F = true |- _ => change (a < b)%F in H
  | H : (?a <? ?b)%F = false |- _ => change (b <= a)%F in H
  end.

(** ** Signs *)
Lemma sgn_pos x : (0 <? sgn x)%Z = (0 <? x).
Proof. unfold sgn. destruct (0 <? x) eqn:E; auto. destruct (x <? 0); auto. Qed.
Lemma sgn_neg x : (sgn x <? 0)%Z = (x <? 0).
Proof. unfold sgn. destruct (0 <? x) eqn:E; auto. - destruct (x <? 0) eqn:E'; auto. bools. exfalso. flra. - destruct (x <? 0); auto. Qed.
Lemma sgn_zero x : (sgn x =? 0)%Z = (x =? 0).
Proof.
  unfold sgn. destruct (x =? 0) eqn:E; bools.
  - subst. rewrite fltb_irrefl. reflexivity.
  - apply fneq_lt in E. destruct E as [E|E]; unfold flt in E; rewrite E; auto. destruct (0 <? x); auto.
Qed.
Lemma sgn_nonneg x : (0 <=? sgn x)%Z = negb (x <? 0).
Proof. rewrite <- sgn_neg. unfold sgn. destruct (0 <? x), (x <? 0); reflexivity. Qed.
Lemma sgn_nonpos x : (sgn x <=? 0)%Z = negb (0 <? x).
Proof. rewrite <- sgn_pos. unfold sgn. destruct (0 <? x), (x <? 0); reflexivity. Qed.
Lemma sgn_m1 x : (sgn x =? -1)%Z = (x <? 0).
Proof. rewrite <- sgn_neg. unfold sgn. destruct (0 <? x), (x <? 0); reflexivity. Qed.
Lemma sgn_cases x : (0 < x /\ sgn x = 1%Z) \/ (x = 0 /\ sgn x = 0%Z) \/ (x < 0 /\ sgn x = (-1)%Z).
Proof.
  unfold sgn. destruct (0 <? x) eqn:A; [auto|]. destruct (x <? 0) eqn:B; [auto|]. right; left. bools. split; auto. flra.
Qed.
Lemma sgn_eqb x y : (sgn x =? sgn y)%Z = true <-> (0 < x <-> 0 < y) /\ (x < 0 <-> y < 0).
Proof.
  rewrite Z.eqb_eq. destruct (sgn_cases x) as [[A ->]|[[A ->]|[A ->]]]; destruct (sgn_cases y) as [[B ->]|[[B ->]|[B ->]]];
    (split; [intros E; try discriminate E; split; split; intros; flra || auto|intros [[E1 E2] [E3 E4]]; auto; exfalso]);
    first [specialize (E1 A); flra | specialize (E2 B); flra | specialize (E3 A); flra | specialize (E4 B); flra].
Qed.

(** ** Lines *)
Lemma geo_ext g h : g_a g = g_a h -> g_b g = g_b h -> g_c g = g_c h -> g = h.
Proof. destruct g, h; cbn. congruence. Qed.
Lemma eval_on g p : geo_eval g p = 0 <-> on g p. Proof. reflexivity. Qed.
Lemma line_pos g : line g -> 0 < g_b g * g_b g + g_c g * g_c g. Proof. apply fsum_sq_pos. Qed.
Lemma line_of_pos g : 0 < g_b g * g_b g + g_c g * g_c g -> line g.
Proof. intros H. destruct (feq_dec (g_b g) 0) as [E|E]; [|now left]. destruct (feq_dec (g_c g) 0) as [E'|E']; [|now right]. rewrite E, E' in H. exfalso. flra. Qed.

(** the point of the line that is closest to the origin *)
Definition foot g : vec K :=
  (- g_a g * g_b g / (g_b g * g_b g + g_c g * g_c g), - g_a g * g_c g / (g_b g * g_b g + g_c g * g_c g)).
Definition scale_geo (t : K) g : geo K := Geo (t * g_a g) (t * g_b g) (t * g_c g).

Lemma foot_on g : line g -> on g (foot g).
Proof. intros L. apply line_pos, fpos_neq0 in L. unfold on, foot. cbn [fst snd]. field. exact L. Qed.
Lemma foot_norm g : line g -> norm2 (foot g) * (g_b g * g_b g + g_c g * g_c g) = g_a g * g_a g.
Proof. intros L. apply line_pos, fpos_neq0 in L. unfold norm2, foot. cbn [fst snd]. field. exact L. Qed.
Lemma an_element_ok g : line g -> an_element g = Ok (foot g).
Proof.
  intros L. pose proof (line_pos g L) as L'. pose proof (fpos_neq0 _ L') as N. unfold an_element, intersection. cbn [g_a g_b g_c].
  destruct (- g_c g * g_c g - g_b g * g_b g =? 0) eqn:E; bools; [exfalso; flra|].
  f_equal. apply vec_eq; cbn [fst snd foot]; field; split; auto.
Qed.
Lemma on_point g p : line g -> on g p -> exists t, p = vadd (foot g) (vscale t (tangent g)).
Proof.
  intros L O. apply line_pos, fpos_neq0 in L. exists ((g_c g * fst p - g_b g * snd p) / (g_b g * g_b g + g_c g * g_c g)).
  unfold on in O. assert (A : g_a g = - (g_b g * fst p + g_c g * snd p)) by flra.
  apply vec_eq; unfold vadd, vscale, tangent, foot; cbn [fst snd]; rewrite A; field; exact L.
Qed.
Lemma point_on g t : line g -> on g (vadd (foot g) (vscale t (tangent g))).
Proof.
  intros L. apply line_pos, fpos_neq0 in L. unfold on, vadd, vscale, tangent, foot. cbn [fst snd]. field. exact L.
Qed.
Lemma point_norm g t : line g -> norm2 (vadd (foot g) (vscale t (tangent g))) =
  (g_a g * g_a g + t * t * ((g_b g * g_b g + g_c g * g_c g) * (g_b g * g_b g + g_c g * g_c g))) / (g_b g * g_b g + g_c g * g_c g).
Proof.
  intros L. apply line_pos, fpos_neq0 in L. unfold norm2, vadd, vscale, tangent, foot. cbn [fst snd]. field. exact L.
Qed.
Lemma line_inj g p t s : line g -> vadd p (vscale t (tangent g)) = vadd p (vscale s (tangent g)) -> t = s.
Proof.
  intros L E. apply (f_equal (fun v => (fst v * g_c g - snd v * g_b g))) in E. unfold vadd, vscale, tangent in E. cbn [fst snd] in E.
  apply line_pos, fpos_neq0 in L. apply (fcancel _ _ _ L). flra.
Qed.
Lemma eval_scale t g p : geo_eval (scale_geo t g) p = t * geo_eval g p.
Proof. unfold geo_eval, scale_geo. cbn. ring. Qed.
Lemma eval_add g p t v : geo_eval g (vadd p (vscale t v)) = geo_eval g p + t * (g_b g * fst v + g_c g * snd v).
Proof. unfold geo_eval, vadd, vscale. cbn. ring. Qed.

(** ** The check *)
Lemma chord_iff g : chord g <-> g_a g * g_a g < g_b g * g_b g + g_c g * g_c g.
Proof.
  split.
  - intros [L [p [O F]]]. apply line_pos in L. unfold on in O. unfold finite in F. assert (A : g_a g = - (g_b g * fst p + g_c g * snd p)) by flra. rewrite A.
    set (b := g_b g) in *. set (c := g_c g) in *. set (x := fst p) in *. set (y := snd p) in *. clearbody b c x y.
    assert (E : (- (b * x + c * y)) * (- (b * x + c * y)) = (b * b + c * c) * (x * x + y * y) - (b * y - c * x) * (b * y - c * x)) by ring.
    rewrite E. pose proof (fsq_nonneg (b * y - c * x)). assert (0 < (b * b + c * c) * (1 - (x * x + y * y))) by (apply fmul_pos; flra). flra.
  - intros H. assert (L : line g) by (apply line_of_pos; pose proof (fsq_nonneg (g_a g)); flra). split; auto. exists (foot g). split; [now apply foot_on|].
    pose proof (foot_norm g L) as E. apply line_pos in L. unfold finite. change (norm2 (foot g) < 1). set (n := norm2 (foot g)) in *. set (m := g_b g * g_b g + g_c g * g_c g) in *. clearbody n m.
    apply fnle_lt. intros C. assert (0 <= (n - 1) * m). { destruct (proj1 (fle_lteq _ _) C) as [C'|C']; [|subst n; flra]. apply fle_lteq. left. apply fmul_pos; flra. } flra.
Qed.
Lemma chord_line g : chord g -> line g. Proof. now intros [L _]. Qed.
Lemma check_ok g : chord g -> geo_check g = Ok g.
Proof.
  intros C. apply chord_iff in C. unfold geo_check, geo_is_ultra_ideal, geo_is_ideal.
  destruct (_ <? _) eqn:E; bools; [exfalso; flra|]. destruct (_ =? _) eqn:E'; bools; [exfalso; flra|]. reflexivity.
Qed.
Lemma check_spec g : (geo_check g = Ok g /\ chord g) \/ (geo_check g = Err ValueError /\ ~ chord g).
Proof.
  unfold geo_check, geo_is_ultra_ideal, geo_is_ideal. destruct (_ <? _) eqn:E; bools.
  - right. split; auto. rewrite chord_iff. intros F. flra.
  - destruct (_ =? _) eqn:E'; bools; cbn [orb]; [right|left]; (split; [reflexivity|]); rewrite chord_iff; [intros F; flra|]. apply fneq_lt in E'. destruct E'; flra.
Qed.
Lemma chord_scale t g : t <> 0 -> chord g -> chord (scale_geo t g).
Proof.
  rewrite !chord_iff. unfold scale_geo. cbn [g_a g_b g_c]. intros T C. pose proof (fsq_pos t T) as Q.
  assert (0 < (t * t) * (g_b g * g_b g + g_c g * g_c g - g_a g * g_a g)) by (apply fmul_pos; flra). flra.
Qed.
Lemma line_neg g : line g -> line (geo_neg g).
Proof. intros [L|L]; [left|right]; cbn; intros E; apply L; flra. Qed.
Lemma neg_scale g : geo_neg g = scale_geo (- (1)) g.
Proof. apply geo_ext; cbn; ring. Qed.
Lemma chord_neg g : chord g -> chord (geo_neg g).
Proof. rewrite !chord_iff. cbn. intros C. flra. Qed.
Lemma neg_neg g : geo_neg (geo_neg g) = g.
Proof. apply geo_ext; cbn; ring. Qed.

(** ** Equality *)
Lemma scale_same t g : 0 < t -> same_oriented g (scale_geo t g).
Proof.
  intros T p. change (0 <= geo_eval g p <-> 0 <= geo_eval (scale_geo t g) p). rewrite eval_scale. set (e := geo_eval g p). clearbody e. split; intros H.
  - apply fle_lteq in H. destruct H as [H|H]; [apply fle_lteq; left; now apply fmul_pos|]. rewrite <- H. flra.
  - apply fnlt_le. intros C. assert (0 < t * (- e)) by (apply fmul_pos; flra). flra.
Qed.
Lemma normal_parallel f g : line f -> g_b f * g_c g - g_c f * g_b g = 0 -> exists s, g_b g = s * g_b f /\ g_c g = s * g_c f.
Proof.
  intros L E. pose proof (fpos_neq0 _ (line_pos f L)) as N. exists ((g_b f * g_b g + g_c f * g_c g) / (g_b f * g_b f + g_c f * g_c f)).
  split; apply (fcancel _ _ _ N).
  - replace ((g_b f * g_b g + g_c f * g_c g) / (g_b f * g_b f + g_c f * g_c f) * g_b f * (g_b f * g_b f + g_c f * g_c f)) with ((g_b f * g_b g + g_c f * g_c g) * g_b f) by (field; exact N).
    transitivity ((g_b f * g_b g + g_c f * g_c g) * g_b f - g_c f * (g_b f * g_c g - g_c f * g_b g)); [ring|rewrite E; ring].
  - replace ((g_b f * g_b g + g_c f * g_c g) / (g_b f * g_b f + g_c f * g_c f) * g_c f * (g_b f * g_b f + g_c f * g_c f)) with ((g_b f * g_b g + g_c f * g_c g) * g_c f) by (field; exact N).
    transitivity ((g_b f * g_b g + g_c f * g_c g) * g_c f + g_b f * (g_b f * g_c g - g_c f * g_b g)); [ring|rewrite E; ring].
Qed.
Lemma same_scale f g : line f -> line g -> same_oriented f g -> exists t, 0 < t /\ g = scale_geo t f.
Proof.
  intros Lf Lg S. pose proof (line_pos f Lf) as Pf.
  assert (D : g_b f * g_c g - g_c f * g_b g = 0).
  { destruct (feq_dec (g_b f * g_c g - g_c f * g_b g) 0) as [E|E]; auto. exfalso.
    set (k := geo_eval g (foot f)). set (d := g_b f * g_c g - g_c f * g_b g) in *.
    pose proof (proj1 (S (vadd (foot f) (vscale ((k + 1) / d) (tangent f))))) as Q. unfold left_of in Q at 1. fold (geo_eval f (vadd (foot f) (vscale ((k + 1) / d) (tangent f)))) in Q.
    rewrite eval_add in Q. pose proof (foot_on f Lf) as O. unfold on in O. fold (geo_eval f (foot f)) in O. rewrite O in Q.
    assert (Z : (0 : K) <= 0 + (k + 1) / d * (g_b f * fst (tangent f) + g_c f * snd (tangent f))). { cbn [tangent fst snd]. replace (0 + (k + 1) / d * (g_b f * g_c f + g_c f * - g_b f)) with (0 : K) by ring. flra. }
    specialize (Q Z). unfold left_of in Q. fold (geo_eval g (vadd (foot f) (vscale ((k + 1) / d) (tangent f)))) in Q. rewrite eval_add in Q. fold k in Q. cbn [tangent fst snd] in Q.
    replace (k + (k + 1) / d * (g_b g * g_c f + g_c g * - g_b f)) with (- (1) : K) in Q; [flra|]. replace (g_b g * g_c f + g_c g * - g_b f) with (- d) by (unfold d; ring). field. exact E. }
  destruct (normal_parallel f g Lf D) as [s [Eb Ec]]. set (k := geo_eval g (foot f)).
  assert (Kn : 0 <= k). { apply (proj1 (S (foot f))). unfold left_of. fold (geo_eval f (foot f)). rewrite (foot_on f Lf). flra. }
  assert (N : forall e, 0 < e -> k < e * (s * (g_b f * g_b f + g_c f * g_c f))).
  { intros e E0. apply fnle_lt. intros C. pose proof (proj2 (S (vadd (foot f) (vscale (- e) (g_b f, g_c f))))) as Q. unfold left_of in Q. fold (geo_eval f (vadd (foot f) (vscale (- e) (g_b f, g_c f)))) in Q. fold (geo_eval g (vadd (foot f) (vscale (- e) (g_b f, g_c f)))) in Q. rewrite !eval_add in Q. fold k in Q. rewrite (foot_on f Lf) in Q. cbn [fst snd] in Q. rewrite Eb, Ec in Q.
    assert (0 < e * (g_b f * g_b f + g_c f * g_c f)) by (now apply fmul_pos). assert (Z : 0 <= k + - e * (s * g_b f * g_b f + s * g_c f * g_c f)) by flra. specialize (Q Z). flra. }
  assert (S1 : 0 < s). { pose proof (N 1 flt_0_1) as N1. assert (Q : 0 < s * (g_b f * g_b f + g_c f * g_c f)) by flra. apply fnle_lt. intros C. assert (0 <= (- s) * (g_b f * g_b f + g_c f * g_c f)). { destruct (proj1 (fle_lteq _ _) C) as [C'|C']; [apply fle_lteq; left; apply fmul_pos; flra|subst s; flra]. } flra. }
  assert (K0 : k = 0). { destruct (proj1 (fle_lteq _ _) Kn) as [C|C]; [|auto]. exfalso. assert (M : 0 < s * (g_b f * g_b f + g_c f * g_c f)) by (now apply fmul_pos). pose proof (N (k / (s * (g_b f * g_b f + g_c f * g_c f))) (fdiv_pos _ _ M C)) as N1. rewrite fdiv_mul in N1 by (now apply fpos_neq0). flra. }
  exists s. split; auto. apply geo_ext; auto. cbn. pose proof (foot_on f Lf) as O. unfold on in O. unfold k, geo_eval in K0. rewrite Eb, Ec in K0. set (x := fst (foot f)) in *. set (y := snd (foot f)) in *. clearbody x y.
  assert (A : g_a f = - (g_b f * x + g_c f * y)) by flra. rewrite A. flra.
Qed.
Lemma eqb_scale t g : 0 < t -> line g -> geo_eqb true g (scale_geo t g) = true.
Proof.
  intros T L. unfold geo_eqb. rewrite sgn_zero. cbn [scale_geo g_a g_b g_c negb orb].
  assert (SG : forall x, (sgn x =? sgn (t * x))%Z = true). { intros x. apply sgn_eqb. split; split; intros H.
    - now apply fmul_pos. - apply fnle_lt. intros C. assert (0 <= t * (- x)); [|flra]. destruct (proj1 (fle_lteq _ _) C) as [C'|C']; [apply fle_lteq; left; apply fmul_pos; flra|subst x; flra].
    - assert (0 < t * (- x)) by (apply fmul_pos; flra). flra. - apply fnle_lt. intros C. assert (0 <= t * x); [|flra]. destruct (proj1 (fle_lteq _ _) C) as [C'|C']; [apply fle_lteq; left; now apply fmul_pos|subst x; flra]. }
  destruct (g_b g =? 0) eqn:E; cbn [negb]; rewrite SG; cbn [andb]; apply andb_true_iff; split; apply feqb_eq; ring.
Qed.
Lemma sign_ratio x y : x <> 0 -> (sgn x =? sgn y)%Z = true -> 0 < y / x.
Proof.
  intros N E. apply sgn_eqb in E. destruct E as [[E1 E2] [E3 E4]]. apply fneq_lt in N. destruct N as [N|N].
  - replace (y / x) with ((- y) / (- x)) by (field; split; apply fneg_neq0 in N; [auto|intros Q; apply N; flra]). pose proof (E3 N). apply fdiv_pos; flra.
  - apply fdiv_pos; auto.
Qed.
Lemma eqb_oriented f g : line f -> line g -> geo_eqb true f g = true <-> same_oriented f g.
Proof.
  intros Lf Lg. split.
  - unfold geo_eqb. rewrite sgn_zero. cbn [negb orb]. intros E.
    assert (R : exists t, 0 < t /\ g = scale_geo t f).
    { destruct (g_b f =? 0) eqn:B; cbn [negb] in E; apply andb_true_iff in E; destruct E as [E E3]; apply andb_true_iff in E; destruct E as [E1 E2]; bools.
      - assert (C : g_c f <> 0) by (destruct Lf; tauto). exists (g_c g / g_c f). split; [now apply sign_ratio|]. rewrite B in E3.
        apply geo_ext; cbn; apply (fcancel _ _ _ C); [rewrite <- E2| |]; try (field; exact C). rewrite B. replace (g_c g / g_c f * 0 * g_c f) with (0 : K) by ring. rewrite <- E3. ring.
      - exists (g_b g / g_b f). split; [now apply sign_ratio|]. apply geo_ext; cbn; apply (fcancel _ _ _ B); [rewrite <- E2| |rewrite <- E3]; field; exact B. }
    destruct R as [t [T ->]]. now apply scale_same.
  - intros S. destruct (same_scale f g Lf Lg S) as [t [T ->]]. now apply eqb_scale.
Qed.
Lemma eqb_unoriented_split f g : line f -> line g -> geo_eqb false f g = true <-> (geo_eqb true f g = true \/ geo_eqb true f (geo_neg g) = true).
Proof.
  intros Lf Lg. split.
  - unfold geo_eqb. rewrite !sgn_zero. cbn [geo_neg g_a g_b g_c negb orb]. destruct (g_b f =? 0) eqn:B; cbn [negb andb]; intros E; apply andb_true_iff in E; destruct E as [E1 E2]; bools.
    + assert (C : g_c f <> 0) by (destruct Lf; tauto). assert (B' : g_b g = 0). { rewrite B in E2. apply (fcancel _ _ _ C). flra. } assert (C' : g_c g <> 0) by (destruct Lg; tauto).
      rewrite (proj2 (feqb_eq _ _ _) E1), (proj2 (feqb_eq _ _ _) E2). rewrite (proj2 (feqb_eq K (g_a f * - g_c g) (- g_a g * g_c f))) by flra. rewrite (proj2 (feqb_eq K (g_b f * - g_c g) (- g_b g * g_c f))) by flra.
      rewrite !andb_true_r. destruct (sgn_cases (g_c f)) as [[H ->]|[[H ->]|[H ->]]]; try tauto; (destruct (sgn_cases (g_c g)) as [[H' ->]|[[H' ->]|[H' ->]]]; try tauto); (destruct (sgn_cases (- g_c g)) as [[H2 ->]|[[H2 ->]|[H2 ->]]]); auto; exfalso; flra.
    + assert (B' : g_b g <> 0). { intros Q. rewrite Q in E1, E2. assert (g_a g = 0) by (apply (fcancel _ _ _ B); flra). assert (g_c g = 0) by (apply (fcancel _ _ _ B); flra). destruct Lg; tauto. }
      rewrite (proj2 (feqb_eq _ _ _) E1), (proj2 (feqb_eq _ _ _) E2). rewrite (proj2 (feqb_eq K (g_a f * - g_b g) (- g_a g * g_b f))) by flra. rewrite (proj2 (feqb_eq K (g_c f * - g_b g) (- g_c g * g_b f))) by flra.
      rewrite !andb_true_r. destruct (sgn_cases (g_b f)) as [[H ->]|[[H ->]|[H ->]]]; try tauto; (destruct (sgn_cases (g_b g)) as [[H' ->]|[[H' ->]|[H' ->]]]; try tauto); (destruct (sgn_cases (- g_b g)) as [[H2 ->]|[[H2 ->]|[H2 ->]]]); auto; exfalso; flra.
  - unfold geo_eqb. rewrite !sgn_zero. cbn [geo_neg g_a g_b g_c negb orb]. destruct (g_b f =? 0) eqn:B; cbn [negb andb]; (intros [E|E]; apply andb_true_iff in E; destruct E as [E E3]; apply andb_true_iff in E; destruct E as [E1 E2]; apply andb_true_iff; split; auto; bools; apply feqb_eq; flra).
Qed.
Lemma same_line_scale f g : line f -> line g -> same_line f g -> exists t, t <> 0 /\ g = scale_geo t f.
Proof.
  intros Lf Lg S. pose proof (line_pos f Lf) as Pf.
  pose proof (proj1 (S _) (point_on f 0 Lf)) as O0. pose proof (proj1 (S _) (point_on f 1 Lf)) as O1.
  change (geo_eval g (vadd (foot f) (vscale 0 (tangent f))) = 0) in O0. change (geo_eval g (vadd (foot f) (vscale 1 (tangent f))) = 0) in O1.
  rewrite eval_add in O0, O1. cbn [tangent fst snd] in O0, O1. destruct (normal_parallel f g Lf) as [s [Eb Ec]]; [flra|].
  exists s. split. { intros Z. subst s. destruct Lg as [Q|Q]; apply Q; [rewrite Eb|rewrite Ec]; ring. }
  apply geo_ext; auto. cbn. pose proof (foot_on f Lf) as O. unfold on in O. unfold geo_eval in O0. set (x := fst (foot f)) in *. set (y := snd (foot f)) in *. clearbody x y. rewrite Eb, Ec in O0.
  assert (A : g_a f = - (g_b f * x + g_c f * y)) by flra. rewrite A. flra.
Qed.
Lemma scale_same_line t g : t <> 0 -> same_line g (scale_geo t g).
Proof.
  intros T p. change (geo_eval g p = 0 <-> geo_eval (scale_geo t g) p = 0). rewrite eval_scale. split; intros H; [rewrite H; ring|]. apply fmul_eq0 in H. tauto.
Qed.
Lemma same_oriented_line f g : line f -> line g -> same_oriented f g -> same_line f g.
Proof. intros Lf Lg S. destruct (same_scale f g Lf Lg S) as [t [T ->]]. apply scale_same_line. now apply fpos_neq0. Qed.
Lemma eqb_unoriented f g : line f -> line g -> geo_eqb false f g = true <-> same_line f g.
Proof.
  intros Lf Lg. rewrite eqb_unoriented_split, !eqb_oriented by (auto; now apply line_neg). split.
  - intros [S|S]; [now apply same_oriented_line|]. pose proof (same_oriented_line _ _ Lf (line_neg g Lg) S) as Q. intros p. rewrite (Q p). unfold on. cbn. split; intros; flra.
  - intros S. destruct (same_line_scale f g Lf Lg S) as [t [T ->]]. apply fneq_lt in T. destruct T as [T|T]; [right|left; now apply scale_same].
    replace (geo_neg (scale_geo t f)) with (scale_geo (- t) f) by (apply geo_ext; cbn; ring). apply scale_same. flra.
Qed.
End Hyp.
