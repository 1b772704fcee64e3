(** Saddle connections in the opposite direction; the search for saddle connections as a whole. *)
From Coq Require Import List Bool ZArith Arith Lia Ring Field.
From Verif Require Import OField FMicromega PField MBase MDict MMut SMut MEuclid SEuclid PEuclid MSim SSim PSim MPoly PPoly PTurn SPoint PPoint MSurf SSurf PSurf PSurf3 PDelaunay PPoint2 PPoint3 SCut PPos PPos2 TPos PLocal PLocal2 MTangent PExit STangent PInward PTangent PTangent2 PTangent3 MCircle SCircle PCircle SRotate MSaddle SSaddle PSaddle PSaddle2 PSaddle3 PSaddle4 PSaddle5.
Import ListNotations.

Section R.
Context {K : OField} {L : Type} (D : L -> Prop) (S : surface K L).
Add Field KF : (of_ft K).
Local Open Scope F_scope.
Context (V : valid D S) (PRS : forall l P, D l -> s_poly S l = Ok P -> proper P).
Implicit Types (P Q : polygon K) (p q x h w d : vec K).

Lemma reaches_sim l0 k0 h s l F : reaches D S l0 k0 h s l F -> exists f, sim_ok f /\ forall p, F p = sim_apply f p.
Proof.
  induction 1 as [P F Dl GP LK EF|s l F e P l' e' P' G t F' R [f [Kf IH]] GA GM ST IB X EF'].
  - exists (sim0 k0 P). split; [apply sim0_ok|]. intros p. now rewrite EF, sim0_apply.
  - destruct (gluing_exists D S _ _ _ _ _ _ V GA) as [g [Eg [Kg [Sg M]]]]. exists (sim_mul f (sim_inv g)). split; [apply sim_ok_mul; auto; now apply sim_ok_inv|].
    intros q. destruct (gluing_onto D S V _ _ _ _ _ _ _ GA GM q) as [p <-]. rewrite EF', IH, sim_mul_apply, (gluing_unique D S _ _ _ _ _ _ G (sim_apply g) V GA GM M), sim_inv_apply; auto.
Qed.
Lemma sim_ray (f : sim K) p q (x : K) : sim_apply f (vadd (vscale (1 - x) p) (vscale x q)) = vadd (vscale (1 - x) (sim_apply f p)) (vscale x (sim_apply f q)).
Proof. unfold sim_apply, sgn. destruct p, q, (sg_sign f); apply vec_eq; cbn; ring. Qed.

Lemma reverse_path (A : vec K -> vec K) h h' ly ky : (forall x : K, A (vscale x h) = vscale (1 - x) h') ->
  forall l0 k0 s l F, reaches D S l0 k0 h s l F -> forall P (t : K) F2, s_poly S l = Ok P -> s < t -> inside_between P F h s t ->
    reaches D S ly ky h' (1 - t) l F2 -> (forall p, F2 p = A (F p)) -> ray_saddle D S ly ky h' 1 (l0, k0) h.
Proof.
  intros EA l0 k0 s l F R.
  assert (TURN : forall P F F2 (a b : K), (forall p, F2 p = A (F p)) -> inside_between P F h a b -> inside_between P F2 h' (1 - b) (1 - a)).
  { intros P F1 F2 a b E2 IB u U1 U2. destruct (IB (1 - u)) as [p [Ip Fp]]; [flra|flra|]. exists p. split; auto. rewrite E2, Fp, EA. f_equal. ring. }
  induction R as [P1 F D1 GP1 LK1 EF|s l F e P1 l' e' P' G t1 F' R IH GA GM ST IB [p [Ep Fp]] EF']; intros P t F2 GP T IB2 R2 E2.
  - assert (P1 = P) by congruence. subst P1. exists (1 - t), F2, P. cbn [fst snd]. split; auto. split; [flra|]. split; auto. split; auto. split; [|split].
    + replace (f1 : K) with (f1 - f0 : K) at 2 by ring. now apply (TURN P F).
    + rewrite E2, EF. replace (vsub (vertex P k0) (vertex P k0)) with (vscale 0 h) by (destruct (vertex P k0), h; apply vec_eq; cbn; ring). rewrite EA. f_equal. ring.
    + rewrite E2, EF. replace (vsub (vadd (vertex P k0) h) (vertex P k0)) with (vscale 1 h) by (destruct (vertex P k0), h; apply vec_eq; cbn; ring). rewrite EA. destruct h'; apply vec_eq; cbn; ring.
  - assert (P' = P) by (pose proof (ga_poly' _ _ _ _ _ _ _ _ GA); congruence). subst P'. pose proof (glued_sym _ _ _ _ _ _ _ _ V GA) as GA'.
    destruct (gluing_exists D S _ _ _ _ _ _ V GA') as [g' [Eg' [Kg' [Sg' M']]]].
    apply (IH P1 t1 (fun q => A (F q))); auto; [apply GA|]. destruct (PTangent.crossing D S V _ _ _ _ _ _ GA) as [f [Dl' [Le' [Ef [Ei [M [PA _]]]]]]].
    assert (EG : forall q, G q = sim_apply f q) by (intros q; apply (gluing_map_iff D S _ _ _ _ _ _ f V GA Ef G); auto).
    apply (rs_cross D S ly ky h' (1 - t) l' F2 e' P l e P1 (sim_apply g')); auto; [flra|now apply (TURN P F')| |].
    + exists (G p). pose proof (ga_edge _ _ _ _ _ _ _ _ GA) as Le. pose proof (PRS _ _ (ga_dom _ _ _ _ _ _ _ _ GA) (ga_poly _ _ _ _ _ _ _ _ GA)) as PR. pose proof (PRS _ _ Dl' GP) as PR'.
      split; [destruct (edge_point P1 PR e p Le Ep) as [a [A0 [A1 Eq]]]; rewrite EG, Eq, PA; apply at_edge; auto; flra|]. now rewrite E2, EF', Fp, EA.
    + intros q. rewrite E2. f_equal. rewrite <- EF'. f_equal. apply (gluing_map_inverse D S _ _ _ _ _ _ (sim_apply g') G V GA' M' GM).
Qed.
Lemma saddle_sym (x : L * nat) h y h' : is_saddle D S x h y h' -> is_saddle D S y h' x h.
Proof.
  destruct x as [l0 k0], y as [l k]. rewrite !is_saddle_cases. intros [[P [P' [G [-> ->]]]]|[s [F [P [R [ST [GP [Lk [IB [FV FH]]]]]]]]]]; cbn [fst snd] in *.
  - left. exists P', P. split; auto. now apply glued_sym.
  - right. destruct (reaches_sim _ _ _ _ _ _ R) as [f [Kf EF]]. set (v := vertex P k) in *. pose proof (reaches_dom D S V _ _ _ _ _ _ R) as Dl.
    assert (Z1 : sim_apply (sim_inv f) vzero = vadd v h') by (rewrite <- FH, EF; now apply sim_inv_apply).
    assert (Z2 : sim_apply (sim_inv f) h = v) by (replace h with (vscale 1 h) by (destruct h; apply vec_eq; cbn; ring); rewrite <- FV, EF; now apply sim_inv_apply).
    apply (reverse_path (fun x => vsub (sim_apply (sim_inv f) x) v) h h' l k) with (l0 := l0) (k0 := k0) (s := s) (l := l) (F := F) (P := P) (t := 1) (F2 := fun p => vsub p v); auto.
    + intros x. replace (vscale x h) with (vadd (vscale (1 - x) vzero) (vscale x h)) by (destruct h; apply vec_eq; cbn; ring). rewrite sim_ray, Z1, Z2. destruct v, h'; apply vec_eq; cbn; ring.
    + replace (f1 - f1 : K) with (f0 : K) by ring. now apply (rs_start D S l k h' P).
    + intros p. rewrite EF, sim_inv_apply; auto.
Qed.
Lemma saddle_nonzero (x : L * nat) h y h' : is_saddle D S x h y h' -> h <> vzero.
Proof.
  destruct x as [l0 k0], y as [l k]. rewrite is_saddle_cases. intros [[P [P' [G [-> _]]]]|[s [F [P [R [ST [GP [Lk [IB _]]]]]]]]] Z; cbn [fst snd] in *.
  - revert Z. apply edge_nz. apply (PRS l0); apply G.
  - subst h. destruct (reaches_inside D S l0 k0 vzero s l F P 1 R GP ST IB) as [P0 [t0 [D0 [GP0 [L0 [T0 X]]]]]]. destruct (half t0 T0) as [u [U0 [U1 _]]]. specialize (X u U0 U1).
    replace (vadd (vertex P0 k0) (vscale u vzero)) with (vertex P0 k0) in X by (destruct (vertex P0 k0); apply vec_eq; cbn; ring). rewrite (at_vertex P0) in X; auto; [discriminate|]. now apply (PRS l0).
Qed.
Lemma saddle_start (x : L * nat) h y h' : is_saddle D S x h y h' -> exists P, s_poly S (fst x) = Ok P /\ (snd x < length P)%nat.
Proof.
  destruct x as [l0 k0]. rewrite is_saddle_cases. intros [[P [P' [G _]]]|[s [F [P [R [ST [GP [Lk [IB _]]]]]]]]]; [exists P; split; apply G|].
  destruct (reaches_inside D S l0 k0 h s (fst y) F P 1 R GP ST IB) as [P0 [t0 [D0 [GP0 [L0 _]]]]]. now exists P0.
Qed.
Lemma saddle_same l0 k0 h y h' y2 h2' : is_saddle D S (l0, k0) h y h' -> is_saddle D S (l0, k0) h y2 h2' -> y2 = y /\ h2' = h'.
Proof.
  intros A B. assert (E : vscale 1 h = h) by (destruct h; apply vec_eq; cbn; ring). rewrite <- E in B. apply (saddle_unique D S V PRS l0 k0 h y h' y2 h2' 1) in B; auto; [tauto|apply flt_0_1].
Qed.
Lemma direction_multiple (h h2 d : vec K) : direction_of h d -> direction_of h2 d -> exists t : K, 0 < t /\ h2 = vscale t h.
Proof.
  intros [_ [_ [a [A ->]]]] [_ [_ [b [B E]]]]. assert (b <> 0) by (intros X; flra). exists (a / b). split; [now apply fdiv_pos|]. destruct h as [x y], h2 as [x2 y2]. injection E as E1 E2.
  apply vec_eq; cbn; apply (fcancel _ _ b); auto; [replace (a / b * x * b) with (a * x) by (field; auto)|replace (a / b * y * b) with (a * y) by (field; auto)]; flra.
Qed.
Lemma direction_nz (h d : vec K) : direction_of h d -> d <> vzero.
Proof. intros [[_ U] _] ->. pose proof (@flt_0_1 K). destruct U as [U|[U|[U|U]]]; cbn in U; flra. Qed.
Lemma canonical_unit (h d : vec K) : direction_of h d -> canonical d = d.
Proof.
  intros X. pose proof (direction_nz h d X) as N. apply (direction_unique d); [now apply canonical_direction|]. split; [apply X|]. split; auto. exists 1. split; [apply flt_0_1|]. destruct d; apply vec_eq; cbn; ring.
Qed.
End R.

Section C.
Context {K : OField} {L : Type} `{EL : EqB L} (D : L -> Prop) (S : surface K L) (Cat : categories).
Add Field KF2 : (of_ft K).
Local Open Scope F_scope.
Context (V : valid D S) (C : closed D S) (PRS : forall l P, D l -> s_poly S l = Ok P -> proper P).
Implicit Types (P Q : polygon K) (p q x h w d : vec K) (b : beam K L).

(** *** the search only ends with an error if it does not end *)
Lemma search_more fuel : forall m bound st chain acc out, beam_search S Cat fuel bound st chain acc = Ok out -> (fuel <= m)%nat -> beam_search S Cat m bound st chain acc = Ok out.
Proof.
  induction fuel as [|fuel IH]; intros m bound st chain acc out E LE; [discriminate|]. destruct m as [|m]; [lia|]. cbn [beam_search] in *. destruct chain as [|b chain]; auto.
  destruct (bm_verts b) as [|v vs]; [apply IH; auto; lia|]. destruct (s_poly S (bm_label b)) as [P|]; [|discriminate]. cbn [bind] in *. destruct (beam_vertex S Cat bound st b P v) as [cs|]; [|discriminate]. cbn [bind] in *.
  destruct (beam_edge S bound b P v) as [o|]; [|discriminate]. cbn [bind] in *. apply IH; auto. lia.
Qed.
Section E.
Context (CV : forall l P, D l -> s_poly S l = Ok P -> is_convex false P = true) (l0 : L) (k0 : nat) (bound : K).
Definition chain_ok b := exists via P, inv D S l0 k0 via b P /\ verts_ok b P.
Lemma beam_edge_ok b P v : D (bm_label b) -> s_poly S (bm_label b) = Ok P -> (v < length P)%nat -> exists o, beam_edge S bound b P v = Ok o.
Proof.
  intros Dl GP Lv. unfold beam_edge. rewrite next_vertex. set (p := sim_apply (bm_sim b) (vertex P v)). set (q := sim_apply (bm_sim b) (vertex P (Datatypes.S v))).
  destruct (0 <? ccw p q) eqn:T1; [|cbn; eauto]. destruct (_ <? ccw (fst (bm_wedge b)) q); [|cbn; eauto]. destruct (_ <? ccw p (snd (bm_wedge b))); [|cbn; eauto]. cbn [andb].
  assert (NE : p <> q) by (intros E; rewrite E, ccw_self in T1; flra). destruct (segment_position (Circle vzero bound) p q NE) as [z [Ez _]]. rewrite Ez. cbn [bind]. destruct (z =? 1)%Z; [|eauto].
  destruct (glue_ex D S V C (bm_label b) P v Dl GP Lv) as [l' [e' [Q G]]]. unfold opp_pair. rewrite (ga_opp _ _ _ _ _ _ _ _ G). cbn [bind]. destruct (gluing_exists D S _ _ _ _ _ _ V G) as [g [Eg _]]. rewrite Eg. cbn [bind fst snd].
  rewrite (ga_poly' _ _ _ _ _ _ _ _ G). cbn [bind]. eauto.
Qed.
Lemma search_no_error fuel : forall chain acc, (forall b, In b chain -> chain_ok b) -> (exists out, beam_search S Cat fuel bound (l0, k0) chain acc = Ok out) \/ beam_search S Cat fuel bound (l0, k0) chain acc = Err Diverge.
Proof.
  induction fuel as [|fuel IH]; intros chain acc CK; [now right|]. cbn [beam_search]. destruct chain as [|b chain]; [left; eauto|].
  destruct (CK b) as [via [P [I [VL VN]]]]; [now left|]. destruct (bm_verts b) as [|v vs] eqn:EV; [apply IH; intros b' I'; apply CK; now right|].
  pose proof (iv_dom _ _ _ _ _ _ _ I) as Dl. pose proof (iv_poly _ _ _ _ _ _ _ I) as GP. rewrite GP. cbn [bind]. assert (Lv : (v < length P)%nat) by (apply VL; now left).
  assert (EC : exists cs, beam_vertex S Cat bound (l0, k0) b P v = Ok cs) by (destruct (beam_vertex_spec S Cat l0 k0 bound b P v) as [[_ [_ E]]|[_ E]]; eauto).
  destruct EC as [cs EC]. rewrite EC. cbn [bind]. destruct (beam_edge_ok b P v Dl GP Lv) as [o EO]. rewrite EO. cbn [bind]. apply IH.
  assert (CK1 : chain_ok (Beam (bm_sim b) (bm_label b) (bm_wedge b) vs)) by (exists via, P; split; [now apply inv_verts|]; split; cbn; [intros; apply VL; now right|now inversion VN]).
  destruct o as [b'|]; intros b2 I2; [destruct I2 as [<-|[<-|I2]]|destruct I2 as [<-|I2]]; auto; try (apply CK; now right).
  destruct (beam_edge_some D S V C bound b P v b' GP Lv Dl EO) as [l' [e' [Q [g [G [Eg [A [B [E Eb]]]]]]]]]. exists (Some e'), Q. rewrite Eb. split; [now apply (child_inv D S V PRS CV l0 k0 b P via)|now apply (child_verts D S V b P v)].
Qed.
Context (PD : c_positive Cat = true -> positive_dilations D S).
Lemma vertex_unfold fuel P : 0 < bound -> D l0 -> s_poly S l0 = Ok P -> (k0 < length P)%nat -> exists cs, saddle_connections_vertex S Cat fuel bound l0 k0 = beam_search S Cat fuel bound (l0, k0) [start_beam l0 k0 P] cs /\
  ((length2 (edge P k0) <= bound /\ exists l' e' P', glued_at D S l0 k0 P l' e' P' /\ cs = [Saddle (l0, k0) (canonical (edge P k0)) (l', e') (canonical (edge P' e')) (edge P k0) (edge P' e')]) \/ (~ length2 (edge P k0) <= bound /\ cs = nil)).
Proof.
  intros B0 Dl GP Lk. unfold saddle_connections_vertex. assert (NB : (bound <=? 0) = false) by (unfold fleb; rewrite B0; reflexivity). rewrite NB, GP. cbn [bind].
  destruct (glue_ex D S V C l0 P k0 Dl GP Lk) as [l' [e' [P' G]]].
  destruct (fst (edge P k0) * fst (edge P k0) + snd (edge P k0) * snd (edge P k0) <=? bound) eqn:T.
  - change (fst (edge P k0) * fst (edge P k0) + snd (edge P k0) * snd (edge P k0)) with (length2 (edge P k0)) in T. change 1000%nat with (Datatypes.S 999). rewrite (new_edge D S Cat V PRS _ _ _ _ _ _ 999 PD G). cbn [bind]. eexists. split; [reflexivity|]. left. split; [apply fleb_true; exact T|]. exists l', e', P'. auto.
  - change (fst (edge P k0) * fst (edge P k0) + snd (edge P k0) * snd (edge P k0)) with (length2 (edge P k0)) in T. cbn [bind]. eexists. split; [reflexivity|]. right. split; auto. intros X. apply fleb_true in X. congruence.
Qed.
End E.
End C.
