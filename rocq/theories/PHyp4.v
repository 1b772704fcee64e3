(** Geodesics through two points, the relative position of geodesics, segments, and the half spaces of points and segments. *)
From Coq Require Import List Bool ZArith Lia Ring Field.
From Verif Require Import OField FMicromega PField MBase MEuclid PEuclid SEuclid MHyp SHyp PHyp PHyp2 PHyp3.
Import ListNotations.

Section Hyp.
Context {K : OField}.
Add Field KF : (of_ft K).
Local Open Scope res_scope. Local Open Scope F_scope.
Implicit Types p q : vec K.
Implicit Types f g h : geo K.
Implicit Types x y : K.

(** ** Geodesics through two points *)
Lemma midpoint_finite p q : in_disk p -> in_disk q -> p <> q -> finite (vscale (1 / 2) (vadd p q)).
Proof.
  intros A B N. unfold in_disk, finite in *. destruct p as [x y], q as [u v]. cbn [vscale vadd fst snd] in *.
  assert (P : 0 < (x - u) * (x - u) + (y - v) * (y - v)). { apply fsum_sq_pos. destruct (feq_dec x u) as [E|E]; [|left; intros Q; apply E; flra]. destruct (feq_dec y v) as [E'|E']; [elim N; congruence|]. right. intros Q. apply E'. flra. }
  assert (E : 1 / 2 * (x + u) * (1 / 2 * (x + u)) + 1 / 2 * (y + v) * (1 / 2 * (y + v)) = ((x + u) * (x + u) + (y + v) * (y + v)) / (2 * 2)) by (field; repeat split; try apply fmul_neq0; apply f2_neq0). rewrite E.
  assert (Q : 0 < (2 * 2 - ((x + u) * (x + u) + (y + v) * (y + v))) / (2 * 2)). { apply fdiv_pos; [|flra]. pose proof (@flt_0_1 K). flra. }
  replace ((2 * 2 - ((x + u) * (x + u) + (y + v) * (y + v))) / (2 * 2)) with (1 - ((x + u) * (x + u) + (y + v) * (y + v)) / (2 * 2)) in Q by (field; repeat split; try apply fmul_neq0; apply f2_neq0). flra.
Qed.
Lemma geodesic_points_ok p q : in_disk p -> in_disk q -> p <> q ->
  exists g, geodesic_points p q = Ok g /\ chord g /\ on g p /\ on g q /\ after g p q.
Proof.
  intros A B N. unfold geodesic_points. destruct (veqb p q) eqn:E; [apply (proj1 (veqb_eq _ _)) in E; tauto|]. unfold geodesic_klein.
  set (g := Geo _ _ _). exists g. assert (Op : on g p) by (unfold on, g; cbn; ring). assert (Oq : on g q) by (unfold on, g; cbn; ring).
  assert (L : line g). { unfold line, g. cbn. destruct (feq_dec (snd p - snd q) 0) as [Z|Z]; [right|left; auto]. intros Z'. apply N. apply vec_eq; flra. }
  assert (C : chord g). { split; auto. exists (vscale (1 / 2) (vadd p q)). split; [|now apply midpoint_finite]. unfold on in *. unfold vscale, vadd. cbn [fst snd]. clearbody g. 
    replace (g_a g + g_b g * (1 / 2 * (fst p + fst q)) + g_c g * (1 / 2 * (snd p + snd q))) with ((g_a g + g_b g * fst p + g_c g * snd p + (g_a g + g_b g * fst q + g_c g * snd q)) / 2) by (field; repeat split; try apply fmul_neq0; apply f2_neq0). rewrite Op, Oq. field. apply f2_neq0. }
  split; [now apply check_ok|]. split; auto. split; auto. split; auto. exists 1. split; [apply flt_0_1|]. apply vec_eq; unfold g; cbn; ring.
Qed.
Lemma two_points g h p q : line g -> line h -> on g p -> on h p -> after g p q -> after h p q -> same_oriented g h.
Proof.
  intros Lg Lh Og Oh [t [T E]] [s [S E']]. rewrite E in E'. assert (X : t * g_c g = s * g_c h). { apply (f_equal fst) in E'. cbn in E'. flra. } assert (Y : t * g_b g = s * g_b h). { apply (f_equal snd) in E'. cbn in E'. flra. }
  assert (R : 0 < t / s) by (now apply fdiv_pos). pose proof (fpos_neq0 _ S) as NS. assert (W : h = scale_geo (t / s) g).
  { assert (Bh : g_b h = t / s * g_b g) by (apply (fcancel _ _ s NS); transitivity (t * g_b g); [rewrite Y; ring|field; exact NS]). assert (Chh : g_c h = t / s * g_c g) by (apply (fcancel _ _ s NS); transitivity (t * g_c g); [rewrite X; ring|field; exact NS]).
    apply geo_ext; auto. unfold on in *. rewrite Bh, Chh in Oh. cbn. assert (A : g_a g = - (g_b g * fst p + g_c g * snd p)) by flra. rewrite A. clear - Oh. set (r := t / s) in *. clearbody r. flra. }
  rewrite W. now apply scale_same.
Qed.

(** ** Relative position *)
Definition det f g := g_b f * g_c g - g_c f * g_b g.
Lemma eval_after f g p t : geo_eval f (vadd p (vscale t (g_c g, - g_b g))) = geo_eval f p + t * det f g.
Proof. rewrite eval_add. cbn [fst snd]. unfold det. ring. Qed.
Lemma configure_ok f g : line f -> line g -> exists c, configure f g = Ok c /\ configured c f g.
Proof.
  intros Lf Lg. unfold configure. destruct (intersection f g) as [i|] eqn:EI.
  - apply intersection_some in EI. destruct EI as [D [Of [Og _]]]. fold (det f g) in D. replace (- g_c f * g_b g - - g_b f * g_c g) with (det f g) by (unfold det; ring). rewrite sgn_zero, sgn_pos.
    destruct (det f g =? 0) eqn:Z; bools; [tauto|]. assert (D' : det g f = - det f g) by (unfold det; ring).
    assert (EF : forall q, after g i q -> exists t, 0 < t /\ geo_eval f q = t * det f g). { intros q [t [T ->]]. exists t. split; auto. rewrite eval_after. rewrite (Of : geo_eval f i = 0). ring. }
    assert (EG : forall q, after f i q -> exists t, 0 < t /\ geo_eval g q = - (t * det f g)). { intros q [t [T ->]]. exists t. split; auto. rewrite eval_after. rewrite (Og : geo_eval g i = 0), D'. ring. }
    destruct (0 <? det f g) eqn:P; bools; eexists; (split; [reflexivity|]); exists i; (split; [auto|split; [auto|]]); split; intros q Q.
    + destruct (EF q Q) as [t [T E]]. assert (0 < t * det f g) by (now apply fmul_pos). unfold left_of, on. fold (geo_eval f q). rewrite E. split; [apply fle_lteq; now left|apply fpos_neq0; auto].
    + destruct (EG q Q) as [t [T E]]. assert (0 < t * det f g) by (now apply fmul_pos). unfold left_of. fold (geo_eval g q). rewrite E. intros W. flra.
    + destruct (EF q Q) as [t [T E]]. apply fneq_lt in Z. destruct Z as [Z|Z]; [|flra]. assert (0 < t * - det f g) by (apply fmul_pos; flra). unfold left_of. fold (geo_eval f q). rewrite E. intros W. flra.
    + destruct (EG q Q) as [t [T E]]. apply fneq_lt in Z. destruct Z as [Z|Z]; [|flra]. assert (0 < t * - det f g) by (apply fmul_pos; flra). unfold left_of, on. fold (geo_eval g q). rewrite E. split; [flra|]. intros W. flra.
  - pose proof (intersection_none _ _ EI) as D. destruct (normal_parallel f g Lf D) as [s [Eb Ec]]. pose proof (line_pos f Lf) as P. set (n := g_b f * g_b f + g_c f * g_c f) in *.
    assert (S0 : s <> 0). { intros Z. subst s. destruct Lg as [Q|Q]; apply Q; [rewrite Eb|rewrite Ec]; ring. }
    replace (g_b f * g_b g + g_c f * g_c g) with (s * n) by (rewrite Eb, Ec; unfold n; ring). rewrite sgn_zero, sgn_pos, sgn_neg. destruct (s * n =? 0) eqn:Z; bools; [exfalso; apply fmul_eq0 in Z; destruct Z; [tauto|]; now apply (fpos_neq0 _ P)|].
    assert (SP : 0 < s * n <-> 0 < s). { split; intros H; [|now apply fmul_pos]. apply fneq_lt in S0. destruct S0 as [S0|S0]; auto. assert (0 < (- s) * n) by (apply fmul_pos; flra). flra. }
    assert (SN : s * n < 0 <-> s < 0). { split; intros H. - apply fneq_lt in S0. destruct S0 as [S0|S0]; auto. assert (0 < s * n) by (now apply fmul_pos). flra. - assert (0 < (- s) * n) by (apply fmul_pos; flra). flra. }
    set (k := geo_eval g (foot f)). assert (EV : forall p, geo_eval g p = k + s * geo_eval f p).
    { intros p. unfold k, geo_eval. rewrite Eb, Ec. pose proof (foot_on f Lf) as O. unfold on in O. assert (A : g_a f = - (g_b f * fst (foot f) + g_c f * snd (foot f))) by flra. rewrite A. ring. }
    destruct (geo_eqb true f g) eqn:E1.
    { apply (eqb_oriented f g Lf Lg) in E1. destruct (same_scale f g Lf Lg E1) as [t [T Et]]. assert (s = t). { destruct Lf as [L|L]; apply (fcancel _ _ _ L); [rewrite <- Eb|rewrite <- Ec]; rewrite Et; reflexivity. } subst s. assert (H : 0 < t * n) by tauto. unfold flt in H. rewrite H. eexists. split; [reflexivity|]. exact E1. }
    destruct (geo_eqb true f (geo_neg g)) eqn:E2.
    { apply (eqb_oriented f _ Lf (line_neg g Lg)) in E2. destruct (same_scale f _ Lf (line_neg g Lg) E2) as [t [T Et]]. assert (Q : s = - t). { destruct Lf as [L|L]; apply (fcancel _ _ _ L); [rewrite <- Eb|rewrite <- Ec]; [assert (W : g_b (geo_neg g) = t * g_b f) by (now rewrite Et)|assert (W : g_c (geo_neg g) = t * g_c f) by (now rewrite Et)]; cbn in W; flra. }
      assert (H : s * n < 0) by (apply SN; flra). unfold flt in H. rewrite H. eexists. split; [reflexivity|]. intros p. rewrite (E2 p). unfold left_of. cbn. split; intros; flra. }
    assert (DJ : disjoint_lines f g). { intros p [A B]. pose proof (parallel_meet f g p Lf Lg D A B) as S. apply (eqb_unoriented f g Lf Lg) in S. apply eqb_unoriented_split in S; auto. destruct S; congruence. }
    assert (K0 : k <> 0). { intros Q. apply (DJ (foot f)). split; [now apply foot_on|exact Q]. } destruct (0 <? s * n) eqn:E3; bools; eexists; (split; [reflexivity|]); (split; [exact DJ|]); unfold left_of.
    + apply SP in E3. apply fneq_lt in K0. destruct K0 as [K0|K0]; [right|left]; intros p; fold (geo_eval f p); fold (geo_eval g p); rewrite EV; intros H; set (e := geo_eval f p) in *; clearbody e k.
      * apply fnlt_le. intros C. assert (0 < s * - e) by (apply fmul_pos; flra). flra.
      * destruct (proj1 (fle_lteq _ _) H) as [H'|H']; [assert (0 < s * e) by (now apply fmul_pos)|subst e]; flra.
    + assert (S1 : s < 0). { apply SN. apply fneq_lt in Z. destruct Z; flra. } apply fneq_lt in K0. destruct K0 as [K0|K0]; [left|right]; intros p; fold (geo_eval f p); fold (geo_eval g p); rewrite EV; set (e := geo_eval f p) in *; clearbody e k.
      * intros [A B]. destruct (proj1 (fle_lteq _ _) A) as [H'|H']; [assert (0 < (- s) * e) by (apply fmul_pos; flra)|subst e]; flra.
      * destruct (e <? 0) eqn:C; bools; [right|left; auto]. assert (0 < (- s) * (- e)) by (apply fmul_pos; flra). flra.
Qed.
(** the descriptions exclude each other *)
Lemma configured_kind c f g : line f -> line g -> configured c f g ->
  match c with
  | Equal | Negative => exists p, on f p /\ on g p /\ det f g = 0
  | Parallel | AntiParallel => disjoint_lines f g /\ det f g = 0
  | Convex => 0 < det f g
  | Concave => det f g < 0
  end.
Proof.
  intros Lf Lg.
  assert (DJ : disjoint_lines f g -> det f g = 0). { intros H. destruct (intersection f g) as [i|] eqn:E; [|now apply intersection_none in E]. apply intersection_some in E. destruct E as [_ [A [B _]]]. exfalso. now apply (H i). }
  destruct c; cbn [configured].
  - intros S. destruct (same_scale f g Lf Lg S) as [t [T ->]]. exists (foot f). split; [now apply foot_on|]. split; [apply scale_same_line; [now apply fpos_neq0|now apply foot_on]|]. unfold det. cbn. ring.
  - intros S. assert (S' : same_oriented f (geo_neg g)). { intros p. rewrite (S p). unfold left_of. cbn. split; intros; flra. } destruct (same_scale f _ Lf (line_neg g Lg) S') as [t [T E]]. exists (foot f). assert (Eg : g = scale_geo (- t) f). { rewrite <- (neg_neg g), E. apply geo_ext; cbn; ring. } rewrite Eg.
    split; [now apply foot_on|]. split; [apply scale_same_line; [intros Z; flra|now apply foot_on]|]. unfold det. cbn. ring.
  - intros [H _]. auto.
  - intros [H _]. auto.
  - intros [p [A [B [C D]]]]. pose proof (C (vadd p (vscale 1 (g_c g, - g_b g)))) as Q. destruct Q as [Q1 Q2]. { exists 1. split; [apply flt_0_1|reflexivity]. }
    unfold left_of, on in Q1, Q2. fold (geo_eval f (vadd p (vscale 1 (g_c g, - g_b g)))) in Q1, Q2. rewrite eval_after in Q1, Q2. rewrite (A : geo_eval f p = 0) in Q1, Q2. apply fnle_lt. intros W. apply Q2. flra.
  - intros [p [A [B [C D]]]]. pose proof (C (vadd p (vscale 1 (g_c g, - g_b g)))) as Q. unfold left_of in Q. fold (geo_eval f (vadd p (vscale 1 (g_c g, - g_b g)))) in Q. rewrite eval_after in Q. rewrite (A : geo_eval f p = 0) in Q. apply fnle_lt. intros W. apply Q; [|flra]. exists 1. split; [apply flt_0_1|reflexivity].
Qed.
Lemma far_point f t : line f -> geo_eval f (vadd (foot f) (vscale (t / (g_b f * g_b f + g_c f * g_c f)) (g_b f, g_c f))) = t.
Proof. intros L. rewrite eval_add. rewrite (foot_on f L : geo_eval f (foot f) = 0). cbn [fst snd]. field. apply fpos_neq0. now apply line_pos. Qed.
Lemma parallel_not_anti f g : line f -> line g -> configured Parallel f g -> configured AntiParallel f g -> False.
Proof.
  intros Lf Lg [DJ P] [_ A]. assert (D : det f g = 0) by (apply (configured_kind Parallel f g Lf Lg); split; auto). destruct (normal_parallel f g Lf D) as [s [Eb Ec]].
  assert (S0 : s <> 0). { intros Z. subst s. destruct Lg as [Q|Q]; apply Q; [rewrite Eb|rewrite Ec]; ring. }
  set (k := geo_eval g (foot f)). assert (EV : forall p, geo_eval g p = k + s * geo_eval f p).
  { intros p. unfold k, geo_eval. rewrite Eb, Ec. pose proof (foot_on f Lf) as O. unfold on in O. assert (Q : g_a f = - (g_b f * fst (foot f) + g_c f * snd (foot f))) by flra. rewrite Q. ring. }
  assert (FP : forall t, exists p, geo_eval f p = t /\ geo_eval g p = k + s * t). { intros t. eexists. rewrite EV, (far_point f t Lf). split; reflexivity. }
  (* a number with [0 < m], [- m < k < m] and [|k| < |s| m] *)
  assert (MM : exists m, 0 < m /\ (0 < s -> - (s * m) < k /\ k < s * m) /\ (s < 0 -> s * m < k /\ k < - (s * m))).
  { exists ((k * k + 1) / (s * s) + (s * s)). pose proof (fsq_pos s S0) as SS. assert (0 < (k * k + 1) / (s * s)). { apply fdiv_pos; auto. pose proof (fsq_nonneg k). pose proof (@flt_0_1 K). flra. }
    set (u := (k * k + 1) / (s * s)) in *. assert (U : u * (s * s) = k * k + 1) by (apply fdiv_mul; now apply fpos_neq0). clearbody u. split; [flra|].
    assert (R : k * k < (s * (u + s * s)) * (s * (u + s * s))). { replace ((s * (u + s * s)) * (s * (u + s * s))) with (u * (u * (s * s)) + 2 * (u * (s * s)) * (s * s) + (s * s) * (s * s) * (s * s)) by ring. rewrite U.
      assert (0 < (s * s) * (s * s) * (s * s)) by (apply fmul_pos; auto; now apply fmul_pos). pose proof (fsq_nonneg k) as KK. assert (P1 : 0 <= u * (k * k)) by (destruct (proj1 (fle_lteq _ _) KK) as [W|W]; [apply fle_lteq; left; now apply fmul_pos|rewrite <- W; flra]). assert (P2 : 0 <= (k * k) * (s * s)) by (destruct (proj1 (fle_lteq _ _) KK) as [W|W]; [apply fle_lteq; left; now apply fmul_pos|rewrite <- W; flra]).
      (* u (k² + 1) + 2 (k² + 1) s² + s⁶ > k² since u s² = k² + 1 and u + s² >= 1 is not needed *)
      assert (AM : k * k < (k * k + 1) * (u + 2 * (s * s))); [|flra].
      assert (G : 1 <= u + 2 * (s * s)). { destruct (u <? 1) eqn:W; bools; [|flra]. assert (1 < s * s); [|flra]. apply fnle_lt. intros X. assert (u * (s * s) < 1); [|pose proof (fsq_nonneg k); flra]. assert (0 < (1 - u) * (s * s)) by (apply fmul_pos; flra). flra. }
      assert (0 <= (k * k + 1) * (u + 2 * (s * s) - 1)); [|pose proof (@flt_0_1 K); flra]. assert (0 < k * k + 1) by (pose proof (@flt_0_1 K); flra). destruct (proj1 (fle_lteq _ _) G) as [W|W]; [apply fle_lteq; left; apply fmul_pos; flra|rewrite <- W; flra]. }
    split; intros S1.
    - assert (0 < s * (u + s * s)) by (apply fmul_pos; flra). split; [assert (- k < s * (u + s * s)); [|flra]|]; apply sq_lt; flra.
    - assert (0 < (- s) * (u + s * s)) by (apply fmul_pos; flra). split; [assert (- k < - (s * (u + s * s))); [|flra]|]; apply sq_lt; flra. }
  destruct MM as [m [M [MP MN]]]. apply fneq_lt in S0. destruct S0 as [S0|S0].
  - destruct (MN S0) as [M1 M2]. destruct P as [P|P].
    + destruct (FP m) as [p [E1 E2]]. pose proof (P p) as Q. unfold left_of in Q. fold (geo_eval f p) in Q. fold (geo_eval g p) in Q. rewrite E1, E2 in Q. assert (0 <= m) by flra. specialize (Q H). flra.
    + destruct (FP (- m)) as [p [E1 E2]]. pose proof (P p) as Q. unfold left_of in Q. fold (geo_eval f p) in Q. fold (geo_eval g p) in Q. rewrite E1, E2 in Q. assert (H : 0 <= k + s * - m) by flra. specialize (Q H). flra.
  - destruct (MP S0) as [M1 M2]. destruct A as [A|A].
    + destruct (FP m) as [p [E1 E2]]. apply (A p). unfold left_of. fold (geo_eval f p). fold (geo_eval g p). rewrite E1, E2. split; flra.
    + destruct (FP (- m)) as [p [E1 E2]]. pose proof (A p) as Q. unfold left_of in Q. fold (geo_eval f p) in Q. fold (geo_eval g p) in Q. rewrite E1, E2 in Q. destruct Q; flra.
Qed.
Lemma configured_unique c c' f g : line f -> line g -> configured c f g -> configured c' f g -> c = c'.
Proof.
  intros Lf Lg A B. pose proof (configured_kind c f g Lf Lg A) as A'. pose proof (configured_kind c' f g Lf Lg B) as B'.
  assert (EN : configured Equal f g -> configured Negative f g -> False).
  { cbn [configured]. intros S T. pose proof (far_point f 1 Lf) as F. set (p := vadd _ _) in F. assert (H : left_of f p) by (unfold left_of; fold (geo_eval f p); rewrite F; pose proof (@flt_0_1 K); flra).
    pose proof (proj1 (S p) H) as H1. pose proof (proj1 (T p) H) as H2. unfold left_of in H1. destruct (same_scale f g Lf Lg S) as [t [X E]]. assert (Z : geo_eval g p = 0) by (unfold geo_eval; flra). rewrite E, eval_scale, F in Z. flra. }
  destruct c, c'; auto; exfalso;
    repeat match goal with
    | H : exists p, _ |- _ => destruct H as [?p [? [? ?]]]
    | H : disjoint_lines _ _ /\ _ |- _ => destruct H
    end;
    try (match goal with HD : disjoint_lines f g, H1 : on f ?p1, H2 : on g ?p1 |- _ => apply (HD p1); split; assumption end);
    try flra; eauto using parallel_not_anti.
Qed.


(** ** Segments *)
Lemma disk_param g t : line g -> in_disk (vadd (foot g) (vscale t (tangent g))) <->
  t * t * ((g_b g * g_b g + g_c g * g_c g) * (g_b g * g_b g + g_c g * g_c g)) <= g_b g * g_b g + g_c g * g_c g - g_a g * g_a g.
Proof.
  intros L. pose proof (finite_param g t L) as F. pose proof (ideal_param g t L) as I. unfold in_disk, finite, ideal in *. rewrite !fle_lteq. tauto.
Qed.
Lemma not_before_param g s ts tp : line g -> s = vadd (foot g) (vscale ts (tangent g)) ->
  not_before g (Some s) (vadd (foot g) (vscale tp (tangent g))) <-> ts <= tp.
Proof.
  intros L E. unfold not_before. rewrite (after_iff g s _ ts tp L E eq_refl), fle_lteq. split; intros [H|H]; auto.
  - right. apply (line_inj g (foot g) _ _ L). congruence.
  - left. subst. auto.
Qed.
Lemma not_after_param g s ts tp : line g -> s = vadd (foot g) (vscale ts (tangent g)) ->
  not_after g (Some s) (vadd (foot g) (vscale tp (tangent g))) <-> tp <= ts.
Proof.
  intros L E. unfold not_after. rewrite (after_iff g _ s tp ts L eq_refl E), fle_lteq. split; intros [H|H]; auto.
  - right. apply (line_inj g (foot g) _ _ L). congruence.
  - left. subst. auto.
Qed.
(** what [in_segment] says about the parameter of the point *)
Definition before_opt (o : option K) (t : K) : Prop := match o with None => True | Some s => s <= t end.
Definition after_opt (o : option K) (t : K) : Prop := match o with None => True | Some s => t <= s end.
Definition at_param g (t : K) : vec K := vadd (foot g) (vscale t (tangent g)).
Lemma in_segment_param g (s e : option K) t : line g ->
  in_segment g (option_map (at_param g) s) (option_map (at_param g) e) (at_param g t) <->
  in_disk (at_param g t) /\ before_opt s t /\ after_opt e t.
Proof.
  intros L. unfold in_segment. pose proof (point_on g t L : on g (at_param g t)) as O.
  assert (A : not_before g (option_map (at_param g) s) (at_param g t) <-> before_opt s t) by (destruct s as [s|]; cbn [option_map before_opt]; [now apply not_before_param|cbn; tauto]).
  assert (B : not_after g (option_map (at_param g) e) (at_param g t) <-> after_opt e t) by (destruct e as [e|]; cbn [option_map after_opt]; [now apply not_after_param|cbn; tauto]).
  tauto.
Qed.
Lemma on_opt g o : line g -> all_on g o -> exists t, o = option_map (at_param g) t.
Proof. intros L. destruct o as [p|]; intros H; [|now exists None]. destruct (on_point g p L H) as [t E]. exists (Some t). now rewrite E. Qed.
(** the disk bounds the parameter *)
Lemma disk_bound g t s : line g -> 0 < s -> ~ finite (at_param g s) -> in_disk (at_param g t) -> - s <= t /\ t <= s /\ (t = s \/ t = - s -> ideal (at_param g s)).
Proof.
  intros L S F D. unfold at_param in *. rewrite (disk_param g t L) in D. rewrite (finite_param g s L) in F. rewrite (ideal_param g s L). pose proof (line_pos g L) as P. set (n := g_b g * g_b g + g_c g * g_c g) in *. set (N := n - g_a g * g_a g) in *. clearbody N n.
  apply fnlt_le in F. assert (NN : 0 < n * n) by (now apply fmul_pos).
  assert (Q : t * t <= s * s). { apply fnlt_le. intros C. assert (0 < (t * t - s * s) * (n * n)) by (apply fmul_pos; flra). flra. }
  assert (R : t <= s). { apply fnlt_le. intros C. assert (0 < (t - s) * (t + s)) by (apply fmul_pos; flra). flra. }
  assert (R' : - s <= t). { apply fnlt_le. intros C. assert (0 < (- s - t) * (s - t)) by (apply fmul_pos; flra). flra. }
  split; auto. split; auto. intros H. assert (t * t = s * s) by (destruct H; subst; ring). rewrite H0 in D. now apply fle_antisym.
Qed.
Lemma is_finite_iff p : is_finite p = true <-> finite p.
Proof. unfold is_finite, finite. cbn. reflexivity. Qed.
Lemma center_finite g : chord g -> finite (at_param g 0).
Proof. intros C. unfold at_param. rewrite (finite_param g 0 (chord_line g C)). rewrite chord_iff in C. set (n := g_b g * g_b g + g_c g * g_c g) in *. clearbody n. flra. Qed.
Lemma ultra_iff p : is_ultra_ideal p = false <-> in_disk p.
Proof. unfold is_ultra_ideal, in_disk, norm2. reflexivity. Qed.
Lemma finite_disk p : finite p -> in_disk p.
Proof. unfold finite, in_disk. intros. flra. Qed.
Lemma ideal_disk p : ideal p -> in_disk p.
Proof. unfold ideal, in_disk. intros. flra. Qed.
Lemma disk_cases p : in_disk p -> finite p \/ ideal p.
Proof. unfold finite, in_disk, ideal. apply fle_lteq. Qed.
Lemma finite_opp g t : line g -> finite (at_param g (- t)) -> finite (at_param g t).
Proof. intros L. unfold at_param. rewrite !(finite_param g _ L). set (n := g_b g * g_b g + g_c g * g_c g). clearbody n. intros. flra. Qed.
Lemma ideal_opp g t : line g -> ideal (at_param g (- t)) -> ideal (at_param g t).
Proof. intros L. unfold at_param. rewrite !(ideal_param g _ L). set (n := g_b g * g_b g + g_c g * g_c g). clearbody n. intros. flra. Qed.
Lemma segment_normalize_param g (s e : option K) : chord g ->
  let start := option_map (at_param g) s in let fin := option_map (at_param g) e in
  (exists r, segment_normalize g start fin = Ok r /\ normal_seg r /\ (match s, e with Some a, Some b => a <= b | _, _ => True end) /\ forall t, set_of r (at_param g t) <-> in_segment g start fin (at_param g t)) \/
  (segment_normalize g start fin = Err ValueError /\ match s, e with Some a, Some b => b < a | _, _ => False end).
Proof.
  intros C start fin. pose proof (chord_line g C) as L. unfold segment_normalize.
  destruct (geo_is_ultra_ideal g) eqn:U. { exfalso. apply chord_iff in C. unfold geo_is_ultra_ideal in U. bools. flra. }
  assert (CO : forall t, parametrize g (at_param g t) = Ok t) by (intros; now apply parametrize_point).
  assert (INJ : forall t u, at_param g t = at_param g u -> t = u) by (intros t u; apply line_inj; auto).
  pose proof (center_finite g C) as CF.
  assert (NF : forall t, ~ finite (at_param g t) -> t <> 0) by (intros t H ->; auto).
  assert (OC : exists b : bool, (b = true <-> match s, e with Some a, Some b => b < a | _, _ => False end) /\
     match start, fin with
     | Some p, Some q => l <- parametrize g p ;; m <- parametrize g q ;; if m <? l then Err ValueError else Ok tt
     | _, _ => Ok tt
     end = if b then Err ValueError else Ok tt).
  { destruct s as [a|], e as [b|]; cbn [start fin option_map]; try (exists false; split; [split; [discriminate|tauto]|reflexivity]). exists (b <? a). rewrite !CO. cbn [bind]. split; [reflexivity|]. destruct (b <? a); reflexivity. }
  destruct OC as [b [Hb ->]]. destruct b; cbn [bind]. { right. split; auto. tauto. }
  left. assert (LE : match s, e with Some a, Some b => a <= b | _, _ => True end). { destruct s as [a|], e as [c|]; auto. apply fnlt_le. intros H. apply Hb in H. discriminate. }
  (* the start *)
  assert (ST : exists r, match start with
         | Some p => if negb (is_finite p) then l <- parametrize g p ;; if (0 <? sgn l)%Z then Ok (inl (if is_ultra_ideal p then SegEmpty else SegPoint p)) else Ok (inr None) else Ok (inr (Some p))
         | None => Ok (inr None) end = Ok r /\
       match r with
       | inl r => normal_seg r /\ forall t, set_of r (at_param g t) <-> in_segment g start fin (at_param g t)
       | inr start' => exists s', start' = option_map (at_param g) s' /\ (forall t, s' = Some t -> finite (at_param g t) /\ s = Some t) /\ (s' = None -> forall t, in_disk (at_param g t) -> before_opt s t)
       end).
  { destruct s as [a|]; cbn [start option_map]; [|exists (inr None); split; [reflexivity|]; exists None; repeat split; congruence].
    destruct (is_finite (at_param g a)) eqn:F; cbn [negb].
    - eexists. split; [reflexivity|]. exists (Some a). split; auto. apply is_finite_iff in F. split; [intros t Q; injection Q as <-; auto|discriminate].
    - assert (F' : ~ finite (at_param g a)) by (rewrite <- is_finite_iff; congruence). rewrite CO. cbn [bind]. rewrite sgn_pos. destruct (0 <? a) eqn:A; bools.
      + eexists. split; [reflexivity|]. assert (RES : forall t, in_disk (at_param g t) -> before_opt (Some a) t -> t = a /\ ideal (at_param g a)). { intros t D B. cbn in B. destruct (disk_bound g t a L A F' D) as [_ [Q1 Q2]]. assert (t = a) by (now apply fle_antisym). auto. }
        destruct (is_ultra_ideal (at_param g a)) eqn:UU; cbn [set_of normal_seg].
        * split; auto. intros t. split; [tauto|]. intros H. apply (in_segment_param g (Some a) e t L) in H. destruct H as [D [B _]]. destruct (RES t D B) as [-> I]. apply ideal_disk in I. apply ultra_iff in I. congruence.
        * apply ultra_iff in UU. split; auto. intros t. etransitivity; [|symmetry; apply (in_segment_param g (Some a) e t L)]. split.
          -- intros Q. apply INJ in Q. subst t. split; auto. split; [cbn; flra|]. destruct e as [c|]; cbn; auto.
          -- intros [D [B _]]. now destruct (RES t D B) as [-> _].
      + eexists. split; [reflexivity|]. exists None. split; [reflexivity|]. split; [discriminate|]. intros _ t D. cbn. pose proof (NF a F') as A0. apply fneq_lt in A0. destruct A0 as [A0|A0]; [|flra].
        assert (F2 : ~ finite (at_param g (- a))). { intros H. apply F'. now apply finite_opp. }
        assert (A1 : 0 < - a) by flra. destruct (disk_bound g t (- a) L A1 F2 D) as [Q _]. flra. }
  destruct ST as [r [-> ST]]. cbn [bind]. destruct r as [r|start']; [destruct ST as [N ST]; exists r; auto|]. destruct ST as [s' [-> [ST1 ST2]]].
  assert (EN : exists r, match fin with
         | Some p => if negb (is_finite p) then l <- parametrize g p ;; if (sgn l <? 0)%Z then Ok (inl (if is_ultra_ideal p then SegEmpty else SegPoint p)) else Ok (inr None) else Ok (inr (Some p))
         | None => Ok (inr None) end = Ok r /\
       match r with
       | inl r => normal_seg r /\ forall t, set_of r (at_param g t) <-> in_segment g start fin (at_param g t)
       | inr fin' => exists e', fin' = option_map (at_param g) e' /\ (forall t, e' = Some t -> finite (at_param g t) /\ e = Some t) /\ (e' = None -> forall t, in_disk (at_param g t) -> after_opt e t)
       end).
  { destruct e as [a|]; cbn [fin option_map]; [|exists (inr None); split; [reflexivity|]; exists None; repeat split; congruence].
    destruct (is_finite (at_param g a)) eqn:F; cbn [negb].
    - eexists. split; [reflexivity|]. exists (Some a). split; auto. apply is_finite_iff in F. split; [intros t Q; injection Q as <-; auto|discriminate].
    - assert (F' : ~ finite (at_param g a)) by (rewrite <- is_finite_iff; congruence). rewrite CO. cbn [bind]. rewrite sgn_neg. destruct (a <? 0) eqn:A; bools.
      + assert (F2 : ~ finite (at_param g (- a))). { intros H. apply F'. now apply finite_opp. }
        assert (A1 : 0 < - a) by flra.
        assert (ID : ideal (at_param g (- a)) -> ideal (at_param g a)). { now apply ideal_opp. }
        eexists. split; [reflexivity|]. assert (RES : forall t, in_disk (at_param g t) -> after_opt (Some a) t -> t = a /\ ideal (at_param g a)). { intros t D B. cbn in B. destruct (disk_bound g t (- a) L A1 F2 D) as [Q1 [_ Q2]]. assert (t = a) by (apply fle_antisym; flra). split; auto. apply ID, Q2. right. subst. flra. }
        destruct (is_ultra_ideal (at_param g a)) eqn:UU; cbn [set_of normal_seg].
        * split; auto. intros t. split; [tauto|]. intros H. apply (in_segment_param g s (Some a) t L) in H. destruct H as [D [_ B]]. destruct (RES t D B) as [-> I]. apply ideal_disk in I. apply ultra_iff in I. congruence.
        * apply ultra_iff in UU. split; auto. intros t. etransitivity; [|symmetry; apply (in_segment_param g s (Some a) t L)]. split.
          -- intros Q. apply INJ in Q. subst t. split; auto. split; [|cbn; flra]. destruct s as [c|]; cbn; auto.
          -- intros [D [_ B]]. now destruct (RES t D B) as [-> _].
      + eexists. split; [reflexivity|]. exists None. split; [reflexivity|]. split; [discriminate|]. intros _ t D. cbn. pose proof (NF a F') as A0. apply fneq_lt in A0. destruct A0 as [A0|A0]; [flra|].
        destruct (disk_bound g t a L A0 F' D) as [_ [Q _]]. flra. }
  destruct EN as [r [-> EN]]. cbn [bind]. destruct r as [r|fin']; [destruct EN as [N EN]; exists r; auto|]. destruct EN as [e' [-> [EN1 EN2]]].
  (* both bounds may be replaced *)
  assert (EQ : forall t, in_segment g start fin (at_param g t) <-> in_segment g (option_map (at_param g) s') (option_map (at_param g) e') (at_param g t)).
  { intros t. unfold start, fin. rewrite !in_segment_param by auto.
    assert (in_disk (at_param g t) -> (before_opt s t <-> before_opt s' t)). { intros D. destruct s' as [u|]; [destruct (ST1 u eq_refl) as [_ ->]; tauto|]. split; intros _; [exact Logic.I|now apply ST2]. }
    assert (in_disk (at_param g t) -> (after_opt e t <-> after_opt e' t)). { intros D. destruct e' as [u|]; [destruct (EN1 u eq_refl) as [_ ->]; tauto|]. split; intros _; [exact Logic.I|now apply EN2]. }
    tauto. }
  pose proof (fun t => point_on g t L : on g (at_param g t)) as ON.
  destruct s' as [a|], e' as [c|]; cbn [option_map] in *.
  - destruct (ST1 a eq_refl) as [F1 ES]. destruct (EN1 c eq_refl) as [F2 EE]. destruct (veqb (at_param g a) (at_param g c)) eqn:V.
    + apply (proj1 (veqb_eq _ _)) in V. apply INJ in V. subst c. exists (SegPoint (at_param g a)). split; auto. cbn [normal_seg set_of]. split; [now apply finite_disk|]. split; auto. intros t. rewrite EQ. pose proof (in_segment_param g (Some a) (Some a) t L) as Q. cbn [option_map] in Q. rewrite Q. cbn. split.
      * intros W. apply INJ in W. subst. split; [now apply finite_disk|]. split; flra.
      * intros [_ [W1 W2]]. f_equal. now apply fle_antisym.
    + exists (SegSegment g (Some (at_param g a)) (Some (at_param g c))). split; auto. split; [|split; [auto|intros t; symmetry; apply EQ]]. cbn. split; auto. split; [left; discriminate|]. split; [intros p Q; injection Q as <-; auto|]. split; [intros p Q; injection Q as <-; auto|].
      intros p q Q1 Q2. injection Q1 as <-. injection Q2 as <-. apply (after_iff g _ _ a c L eq_refl eq_refl). rewrite ES, EE in LE. apply fle_lteq in LE. destruct LE as [LE|LE]; auto. subst. now rewrite (proj2 (veqb_eq _ _) eq_refl) in V.
  - destruct (ST1 a eq_refl) as [F1 ES]. eexists. split; [reflexivity|]. split; [|split; [auto|intros t; symmetry; apply EQ]]. cbn. split; auto. split; [left; discriminate|]. split; [intros p Q; injection Q as <-; auto|]. split; congruence.
  - destruct (EN1 c eq_refl) as [F1 ES]. eexists. split; [reflexivity|]. split; [|split; [auto|intros t; symmetry; apply EQ]]. cbn. split; auto. split; [right; discriminate|]. split; [congruence|]. split; [intros p Q; injection Q as <-; auto|]. congruence.
  - eexists. split; [reflexivity|]. split; [exact C|]. split; auto. intros t. rewrite EQ. pose proof (in_segment_param g None None t L) as Q. cbn [option_map] in Q. rewrite Q. cbn. specialize (ON t). tauto.
Qed.
Lemma set_of_on g start fin r p : segment_normalize g start fin = Ok r -> all_on g start -> all_on g fin -> set_of r p -> on g p.
Proof.
  unfold segment_normalize. destruct (geo_is_ultra_ideal g); [intros E; injection E as <-; cbn; tauto|]. intros E A B.
  destruct start as [s|], fin as [e|];
  repeat (match type of E with
   | bind ?x _ = _ => destruct x as [?v|] eqn:?; cbn [bind] in E; [|discriminate E]
   | match ?x with inl _ => _ | inr _ => _ end = _ => destruct x as [?r|?o] eqn:?
   | match ?x with Some _ => _ | None => _ end = _ => destruct x as [?q|] eqn:?
   | (if ?b then _ else _) = _ => destruct b eqn:?
   end);
  repeat match goal with
   | H : (if ?b then _ else _) = Ok _ |- _ => destruct b eqn:?
   | H : bind ?x _ = Ok _ |- _ => destruct x eqn:?; cbn [bind] in H
   | H : Ok _ = Ok _ |- _ => injection H as H; subst
   | H : Err _ = Ok _ |- _ => discriminate H
   | H : inl _ = inl _ |- _ => injection H as H; subst
   | H : inr _ = inr _ |- _ => injection H as H; subst
   | H : Some _ = Some _ |- _ => injection H as H; subst
   end; try discriminate; intros Q;
  repeat match type of Q with set_of (if ?b then _ else _) _ => destruct b end; cbn [set_of] in Q; unfold in_segment in Q;
  first [contradiction | (destruct Q as [_ [Q _]]; exact Q) | (destruct Q as [_ Q]; exact Q) | (rewrite Q; assumption)].
Qed.
Lemma segment_normalize_ok g start fin : chord g -> all_on g start -> all_on g fin ->
  (exists r, segment_normalize g start fin = Ok r /\ normal_seg r /\ (forall p q, start = Some p -> fin = Some q -> p = q \/ after g p q) /\ forall p, set_of r p <-> in_segment g start fin p) \/
  (segment_normalize g start fin = Err ValueError /\ exists p q, start = Some p /\ fin = Some q /\ after g q p).
Proof.
  intros C A B. pose proof (chord_line g C) as L. destruct (on_opt g start L A) as [s Es]. destruct (on_opt g fin L B) as [e Ee].
  destruct (segment_normalize_param g s e C) as [[r [E [N [O H]]]]|[E O]]; rewrite <- Es, <- Ee in *.
  - left. exists r. split; auto. split; auto. split.
    + intros p q -> ->. destruct s as [a|], e as [c|]; try discriminate. injection Es as ->. injection Ee as ->. apply fle_lteq in O. destruct O as [O| ->]; auto. right. now apply (after_iff g _ _ a c L eq_refl eq_refl).
    + intros p. split; intros Q.
      * pose proof (set_of_on g start fin r p E A B Q) as Op. destruct (on_point g p L Op) as [t ->]. now apply H.
      * assert (Op : on g p) by (now destruct Q as [_ [Q _]]). destruct (on_point g p L Op) as [t ->]. now apply H.
  - right. split; auto. destruct s as [a|], e as [c|]; try tauto. exists (at_param g a), (at_param g c). split; auto. split; auto. now apply (after_iff g _ _ c a L eq_refl eq_refl).
Qed.

(** ** The half spaces of points, geodesics and segments *)
Lemma point_half_spaces_ok p : in_disk p -> exists l, point_half_spaces p = Ok l /\ Forall chord l /\ forall q, in_disk q -> (forall h, In h l -> left_of h q) <-> q = p.
Proof.
  intros D. destruct p as [x y]. unfold point_half_spaces. destruct (is_finite (x, y)) eqn:F.
  - apply is_finite_iff in F. assert (CH : forall a b c, (b <> 0 \/ c <> 0) -> a + b * x + c * y = 0 -> chord (Geo a b c)). { intros a b c N O. split; [exact N|]. exists (x, y). split; auto. }
    assert (N1 : (1 : K) <> 0) by (apply fpos_neq0, flt_0_1). assert (N2 : - (1 : K) <> 0) by (intros Q; apply N1; flra).
    assert (C1 : chord (Geo (- x) 1 0)) by (apply CH; [auto|ring]). assert (C2 : chord (Geo (- y) 0 1)) by (apply CH; [auto|ring]). assert (C3 : chord (Geo (x + y) (- (1)) (- (1)))) by (apply CH; [auto|ring]).
    unfold geodesic_klein. rewrite (check_ok _ C1), (check_ok _ C2), (check_ok _ C3). cbn [bind]. eexists. split; [reflexivity|]. split; [auto|]. intros [u v] _. split.
    + intros H. pose proof (H _ (or_introl eq_refl)) as H1. pose proof (H _ (or_intror (or_introl eq_refl))) as H2. pose proof (H _ (or_intror (or_intror (or_introl eq_refl)))) as H3. unfold left_of in *. cbn in *. apply vec_eq; cbn; apply fle_antisym; flra.
    + intros E h [<-|[<-|[<-|[]]]]; injection E as -> ->; unfold left_of; cbn; flra.
  - assert (I : x * x + y * y = 1). { apply disk_cases in D. destruct D as [D|D]; [apply is_finite_iff in D; congruence|exact D]. }
    assert (C1 : chord (Geo 0 (- y) x)) by (apply chord_iff; cbn; pose proof (@flt_0_1 K); flra). assert (C2 : chord (Geo (- x * x - y * y) (y + x) (y - x))). { apply chord_iff. cbn. assert (A : - x * x - y * y = - (1)) by flra. rewrite A. pose proof (@flt_0_1 K). flra. }
    unfold geodesic_klein. rewrite (check_ok _ C1), (check_ok _ C2). cbn [bind]. eexists. split; [reflexivity|]. split; [auto|]. intros [u v] Q. unfold in_disk in Q. cbn [fst snd] in Q. split.
    + intros H. pose proof (H _ (or_introl eq_refl)) as H1. pose proof (H _ (or_intror (or_introl eq_refl))) as H2. unfold left_of in H1, H2. cbn in H1, H2.
      (* with d = x u + y v and e = x v - y u: e >= 0, d + e' >= 1 ... *)
      set (d := x * u + y * v). set (e := x * v - y * u). assert (E1 : 0 <= e) by (unfold e; flra). assert (E2 : 1 <= d - e) by (unfold d, e; flra). assert (E3 : d * d + e * e <= 1). { replace (d * d + e * e) with ((x * x + y * y) * (u * u + v * v)) by (unfold d, e; ring). rewrite I. flra. }
      assert (E4 : 1 <= d) by flra. assert (E5 : d * d <= 1) by (pose proof (fsq_nonneg e); flra). assert (Ed : d = 1). { apply fle_antisym; auto. apply fnlt_le. intros W. assert (0 < (d - 1) * (d + 1)) by (apply fmul_pos; pose proof (@flt_0_1 K); flra). flra. }
      assert (Ee : e = 0). { assert (Z : e * e <= 0) by (rewrite Ed in E3; flra). apply fsqr_eq0. pose proof (fsq_nonneg e). now apply fle_antisym. }
      assert (Hu : u = d * x - e * y). { transitivity ((x * x + y * y) * u); [rewrite I; ring|unfold d, e; ring]. } assert (Hv : v = d * y + e * x). { transitivity ((x * x + y * y) * v); [rewrite I; ring|unfold d, e; ring]. }
      clearbody d e. subst d e. apply vec_eq; cbn; [rewrite Hu|rewrite Hv]; ring.
    + intros E h [<-|[<-|[]]]; injection E as -> ->; unfold left_of; cbn; flra.
Qed.
Lemma all_app {A} (P : A -> Prop) (l m : list A) : (forall h : A, In h (l ++ m) -> P h) <-> (forall h : A, In h l -> P h) /\ (forall h : A, In h m -> P h).
Proof. split; [intros H; split; intros h I; apply H, in_or_app; auto|intros [H1 H2] h I; apply in_app_or in I; destruct I; auto]. Qed.
Lemma geodesic_half_spaces_ok g p : (forall h, In h (geodesic_half_spaces g) -> left_of h p) <-> on g p.
Proof.
  unfold left_of, on. split.
  - intros H. pose proof (H _ (or_introl eq_refl)) as H1. pose proof (H _ (or_intror (or_introl eq_refl))) as H2. cbn in H2. apply fle_antisym; flra.
  - intros E h [<-|[<-|[]]]; cbn; flra.
Qed.
Lemma segment_half_spaces_ok g start fin : chord g -> (forall p, start = Some p -> finite p /\ on g p) -> (forall p, fin = Some p -> finite p /\ on g p) ->
  Forall chord (segment_half_spaces g start fin) /\
  forall q, in_disk q -> (forall h, In h (segment_half_spaces g start fin) -> left_of h q) <-> in_segment g start fin q.
Proof.
  intros C Hs He. pose proof (chord_line g C) as L. assert (LT : line (Geo 0 (g_c g) (- g_b g))). { unfold line in *. cbn. destruct L as [L|L]; [right; intros Q; apply L; flra|left; auto]. }
  split.
  - unfold segment_half_spaces. apply Forall_app. split; [constructor; [auto|constructor; [now apply chord_neg|constructor]]|]. unfold endpoint_half_spaces. apply Forall_app. split.
    + destruct start as [p|]; constructor; auto. destruct (Hs p eq_refl) as [F _]. split; [exact LT|]. exists p. split; auto. unfold on. cbn. ring.
    + destruct fin as [p|]; constructor; auto. destruct (He p eq_refl) as [F _]. split; [|exists p; split; auto; unfold on; cbn; ring]. unfold line in *. cbn in *. destruct L as [L|L]; [right; auto|left; intros Q; apply L; flra].
  - intros q D. unfold segment_half_spaces. unfold in_segment.
    assert (A : (forall h, In h (geodesic_half_spaces g ++ endpoint_half_spaces g start fin) -> left_of h q) <-> on g q /\ (forall h, In h (endpoint_half_spaces g start fin) -> left_of h q)).
    { rewrite <- geodesic_half_spaces_ok. apply all_app. }
    rewrite A. assert (on g q -> ((forall h, In h (endpoint_half_spaces g start fin) -> left_of h q) <-> not_before g start q /\ not_after g fin q)); [|tauto]. intros O.
    destruct (on_point g q L O) as [t ->]. pose proof (line_pos g L) as P. fold (at_param g t) in *.
    assert (EV : forall s, (0 <= g_c g * (fst (at_param g t) - fst (at_param g s)) - g_b g * (snd (at_param g t) - snd (at_param g s)) <-> s <= t)).
    { intros s. assert (E : g_c g * (fst (at_param g t) - fst (at_param g s)) - g_b g * (snd (at_param g t) - snd (at_param g s)) = (t - s) * (g_b g * g_b g + g_c g * g_c g)) by (unfold at_param, tangent, vadd, vscale; cbn [fst snd]; ring). rewrite E. set (n := g_b g * g_b g + g_c g * g_c g) in *. clearbody n. split; intros H.
      - apply fnlt_le. intros W. assert (0 < (s - t) * n) by (apply fmul_pos; flra). flra.
      - destruct (proj1 (fle_lteq _ _) H) as [W|W]; [assert (0 < (t - s) * n) by (apply fmul_pos; flra)|subst s]; flra. }
    assert (SB : (match start with Some p => left_of (Geo (- g_c g * fst p + g_b g * snd p) (g_c g) (- g_b g)) (at_param g t) | None => True end) <-> not_before g start (at_param g t)).
    { destruct start as [p|]; [|cbn; tauto]. destruct (Hs p eq_refl) as [_ Op]. destruct (on_point g p L Op) as [s Ep]. etransitivity; [|symmetry; exact (not_before_param g p s t L Ep)]. rewrite <- EV. fold (at_param g s) in Ep. rewrite Ep. unfold left_of. cbn [g_a g_b g_c]. 
      set (X := fst (at_param g t)). set (Y := snd (at_param g t)). set (X' := fst (at_param g s)). set (Y' := snd (at_param g s)). clearbody X Y X' Y'. split; intros; flra. }
    assert (SA : (match fin with Some p => left_of (Geo (g_c g * fst p - g_b g * snd p) (- g_c g) (g_b g)) (at_param g t) | None => True end) <-> not_after g fin (at_param g t)).
    { destruct fin as [p|]; [|cbn; tauto]. destruct (He p eq_refl) as [_ Op]. destruct (on_point g p L Op) as [s Ep]. etransitivity; [|symmetry; exact (not_after_param g p s t L Ep)]. fold (at_param g s) in Ep. assert (EV' : (0 <= g_c g * (fst (at_param g s) - fst (at_param g t)) - g_b g * (snd (at_param g s) - snd (at_param g t)) <-> t <= s)).
      { assert (E : g_c g * (fst (at_param g s) - fst (at_param g t)) - g_b g * (snd (at_param g s) - snd (at_param g t)) = (s - t) * (g_b g * g_b g + g_c g * g_c g)) by (unfold at_param, tangent, vadd, vscale; cbn [fst snd]; ring). rewrite E. set (n := g_b g * g_b g + g_c g * g_c g) in *. clearbody n. split; intros H.
        - apply fnlt_le. intros W. assert (0 < (t - s) * n) by (apply fmul_pos; flra). flra.
        - destruct (proj1 (fle_lteq _ _) H) as [W|W]; [assert (0 < (s - t) * n) by (apply fmul_pos; flra)|subst s]; flra. }
      rewrite <- EV'. rewrite Ep. unfold left_of. cbn [g_a g_b g_c]. 
      set (X := fst (at_param g t)). set (Y := snd (at_param g t)). set (X' := fst (at_param g s)). set (Y' := snd (at_param g s)). clearbody X Y X' Y'. split; intros; flra. }
    rewrite <- SB, <- SA. unfold endpoint_half_spaces. rewrite all_app.
    assert (ONE : forall (o : option (vec K)) F, (forall h, In h (match o with Some p => [F p] | None => [] end) -> left_of h (at_param g t)) <-> match o with Some p => left_of (F p) (at_param g t) | None => True end).
    { intros [p|] F; cbn; [|firstorder]. split; [intros H; apply H; auto|intros H h [<-|[]]; auto]. }
    now rewrite (ONE start (fun p => Geo (- g_c g * fst p + g_b g * snd p) (g_c g) (- g_b g))), (ONE fin (fun p => Geo (g_c g * fst p - g_b g * snd p) (- g_c g) (g_b g))).
Qed.
End Hyp.
