(** Proofs about [MHypSet]: directions of half planes. *)
From Coq Require Import List Bool ZArith Lia Ring Field Sorted Permutation.
From Verif Require Import OField FMicromega PField MBase MEuclid PEuclid SEuclid PRotate MHyp SHyp PHyp PHyp2 PHyp3 PHyp4 PHyp7 MHypSet.
Import ListNotations.

Section Dir.
Context {K : OField}.
Add Field KF : (of_ft K).
Local Open Scope res_scope. Local Open Scope F_scope.
Implicit Types p q x y v : vec K.
Implicit Types f g h A B C : geo K.

Definition ev g p : K := geo_eval g p.
Definition dotn f g : K := g_b f * g_b g + g_c f * g_c g.
(** the normal vectors have the same direction *)
Definition same_dir f g := det f g = 0 /\ 0 < dotn f g.
Definition opp f g := exists s, 0 < s /\ g = scale_geo (- s) f.
(** the normal vectors are in counterclockwise order *)
Definition cyc f g h := (0 < det f g /\ 0 < det g h) \/ (0 < det g h /\ 0 < det h f) \/ (0 < det h f /\ 0 < det f g).
Lemma det_anti f g : det g f = - det f g.
Proof. unfold det. ring. Qed.
Lemma det_self f : det f f = 0.
Proof. unfold det. ring. Qed.
Lemma cyc_rot f g h : cyc f g h -> cyc g h f.
Proof. unfold cyc. tauto. Qed.
Lemma same_dir_sym f g : same_dir f g -> same_dir g f.
Proof. unfold same_dir, dotn. rewrite (det_anti f g). intros [A B]. split; flra. Qed.
Lemma same_dir_refl f : line f -> same_dir f f.
Proof. intros L. split; [apply det_self|]. now apply line_pos. Qed.
Lemma dot_det f g : line f -> line g -> det f g = 0 -> dotn f g <> 0.
Proof.
  intros Lf Lg D Z. apply line_pos in Lf, Lg. assert (E : dotn f g * dotn f g + det f g * det f g = (g_b f * g_b f + g_c f * g_c f) * (g_b g * g_b g + g_c g * g_c g)) by (unfold dotn, det; ring).
  rewrite D, Z in E. pose proof (fmul_pos _ _ Lf Lg). flra.
Qed.
(** the values of two functions with parallel normal vectors *)
Lemma par_eval f g x y : det f g = 0 -> dotn f f * (ev g x - ev g y) = dotn f g * (ev f x - ev f y).
Proof.
  intros D. unfold ev, geo_eval, dotn in *. set (u := fst x - fst y). set (v := snd x - snd y).
  transitivity ((g_b f * g_b f + g_c f * g_c f) * (g_b g * u + g_c g * v)); [unfold u, v; ring|]. transitivity ((g_b f * g_b g + g_c f * g_c g) * (g_b f * u + g_c f * v)); [|unfold u, v; ring].
  transitivity ((g_b f * g_b g + g_c f * g_c g) * (g_b f * u + g_c f * v) + det f g * (g_b f * v - g_c f * u)); [unfold det; ring|rewrite D; ring].
Qed.
(** linear combinations *)
Lemma comb A B C x p : on B p -> on C p -> det A C * ev B x = det B C * (ev A x - ev A p) + det A B * ev C x.
Proof.
  unfold on, ev, geo_eval, det. intros E1 E2. assert (X : g_a B = - (g_b B * fst p + g_c B * snd p)) by flra. assert (Y : g_a C = - (g_b C * fst p + g_c C * snd p)) by flra. rewrite X, Y. ring.
Qed.
(** two functions with independent normal vectors determine the point *)
Lemma independent f g x y : det f g <> 0 -> ev f x = ev f y -> ev g x = ev g y -> x = y.
Proof.
  unfold ev, geo_eval. intros D E1 E2. set (u := fst x - fst y). set (v := snd x - snd y). assert (E1' : g_b f * u + g_c f * v = 0) by (unfold u, v; flra). assert (E2' : g_b g * u + g_c g * v = 0) by (unfold u, v; flra).
  assert (U : det f g * u = 0). { transitivity (g_c g * (g_b f * u + g_c f * v) - g_c f * (g_b g * u + g_c g * v)); [unfold det; ring|rewrite E1', E2'; ring]. }
  assert (V : det f g * v = 0). { transitivity (g_b f * (g_b g * u + g_c g * v) - g_b g * (g_b f * u + g_c f * v)); [unfold det; ring|rewrite E1', E2'; ring]. }
  apply fmul_eq0 in U, V. destruct U as [U|U]; [tauto|]. destruct V as [V|V]; [tauto|]. apply vec_eq; unfold u, v in *; flra.
Qed.
Lemma crossing f g : det f g <> 0 -> exists p, intersection f g = Some p /\ on f p /\ on g p.
Proof.
  intros D. destruct (intersection f g) as [p|] eqn:E; [exists p; apply intersection_some in E; tauto|]. apply intersection_none in E. contradiction.
Qed.
Lemma cross_none f g : det f g = 0 -> intersection f g = None.
Proof. intros D. destruct (intersection f g) eqn:E; auto. apply intersection_some in E. destruct E as [E _]. contradiction. Qed.
Lemma neg_opp f g : line f -> line g -> same_oriented f (geo_neg g) -> opp f g.
Proof.
  intros Lf Lg S. destruct (same_scale f (geo_neg g) Lf (line_neg g Lg) S) as [s [S0 E]]. exists s. split; auto. rewrite <- (neg_neg g), E. apply geo_ext; cbn; ring.
Qed.
Lemma opp_neg f g : line f -> line g -> opp f g -> same_oriented f (geo_neg g).
Proof. intros Lf Lg [s [S ->]]. assert (E : geo_neg (scale_geo (- s) f) = scale_geo s f) by (apply geo_ext; cbn; ring). rewrite E. now apply scale_same. Qed.
(** the configuration, by the directions *)
Lemma configure_cases f g : line f -> line g ->
  match configure f g with
  | Ok Convex => 0 < det f g
  | Ok Concave => det f g < 0
  | Ok Equal | Ok Parallel => same_dir f g
  | Ok Negative => det f g = 0 /\ dotn f g < 0 /\ opp f g
  | Ok AntiParallel => det f g = 0 /\ dotn f g < 0 /\ ~ opp f g
  | Err _ => False
  end.
Proof.
  intros Lf Lg. unfold configure. destruct (intersection f g) as [p|] eqn:E.
  - apply intersection_some in E. destruct E as [E _]. change (det f g <> 0) in E. replace (- g_c f * g_b g - - g_b f * g_c g) with (det f g) by (unfold det; ring).
    rewrite sgn_zero, sgn_pos. destruct (det f g =? 0) eqn:Z; bools; [tauto|]. destruct (0 <? det f g) eqn:P; bools; auto. apply fneq_lt in E. destruct E; auto. flra.
  - apply intersection_none in E. change (det f g = 0) in E. change (g_b f * g_b g + g_c f * g_c g) with (dotn f g). pose proof (dot_det f g Lf Lg E) as N. rewrite sgn_zero, sgn_pos, sgn_neg. destruct (dotn f g =? 0) eqn:Z; bools; [tauto|].
    destruct (geo_eqb true f g) eqn:Q.
    + apply (eqb_oriented f g Lf Lg) in Q. destruct (same_scale f g Lf Lg Q) as [s [S ->]]. assert (D : 0 < dotn f (scale_geo s f)). { unfold dotn. cbn. apply line_pos in Lf. pose proof (fmul_pos _ _ S Lf). flra. } unfold flt in D. rewrite D. split; auto.
    + destruct (geo_eqb true f (geo_neg g)) eqn:Q'.
      * apply (eqb_oriented f _ Lf (line_neg g Lg)) in Q'. apply (neg_opp f g Lf Lg) in Q'. assert (D : dotn f g < 0). { destruct Q' as [s [S ->]]. unfold dotn. cbn. apply line_pos in Lf. pose proof (fmul_pos _ _ S Lf). flra. } unfold flt in D. rewrite D. split; auto.
      * destruct (0 <? dotn f g) eqn:P; bools; [split; auto|]. split; auto. split; [apply fneq_lt in N; destruct N; auto; flra|]. intros O. apply (opp_neg f g Lf Lg) in O. apply (eqb_oriented f _ Lf (line_neg g Lg)) in O. congruence.
Qed.
Lemma contains_iff h p : contains h p = true <-> 0 <= ev h p.
Proof. unfold contains. apply nonneg_dec. Qed.
Lemma ev_on g p : on g p <-> ev g p = 0.
Proof. reflexivity. Qed.
Lemma ev_left g p : left_of g p <-> 0 <= ev g p.
Proof. reflexivity. Qed.
Lemma ev_move f g p t : ev f (vadd p (vscale t (tangent g))) = ev f p + t * det f g.
Proof. apply eval_after. Qed.
(** the points of a line, from one of its points *)
Lemma on_from g p x : line g -> on g p -> on g x -> exists t, x = vadd p (vscale t (tangent g)).
Proof.
  intros L A B. destruct (on_point g p L A) as [s ->]. destruct (on_point g x L B) as [t ->]. exists (t - s). unfold vadd, vscale. cbn. apply vec_eq; cbn; ring.
Qed.
(** convex combinations *)
Definition mix (t : K) p q : vec K := vadd (vscale (1 - t) p) (vscale t q).
Lemma ev_mix g t p q : ev g (mix t p q) = (1 - t) * ev g p + t * ev g q.
Proof. unfold ev, geo_eval, mix, vadd, vscale. cbn. ring. Qed.
Lemma mix_left g t p q : 0 <= t -> t <= 1 -> 0 <= ev g p -> 0 <= ev g q -> 0 <= ev g (mix t p q).
Proof. intros A B P Q. rewrite ev_mix. pose proof (fmul_nonneg (1 - t) (ev g p)) as X. pose proof (fmul_nonneg t (ev g q) A Q). assert (0 <= (1 - t) * ev g p) by (apply X; flra). flra. Qed.
(** the point of a segment on a line between its end points *)
Lemma cross_mix g p q : 0 <= ev g p -> ev g q < 0 -> exists t, 0 <= t /\ t < 1 /\ on g (mix t p q).
Proof.
  intros P Q. exists (ev g p / (ev g p - ev g q)). assert (D : 0 < ev g p - ev g q) by flra. pose proof (fpos_neq0 _ D) as N. split; [apply fdiv_nonneg; auto|]. split.
  - apply fnle_lt. intros C. assert (X : (ev g p - ev g q) * (ev g p / (ev g p - ev g q)) = ev g p) by (field; auto). set (t := ev g p / (ev g p - ev g q)) in *. clearbody t. assert (0 <= (ev g p - ev g q) * (t - 1)) by (apply fmul_nonneg; flra). flra.
  - rewrite ev_on, ev_mix. field. auto.
Qed.
End Dir.
