(** Saddle connections are determined by their start and their direction. *)
From Coq Require Import List Bool ZArith Arith Lia Ring Field.
From Verif Require Import OField FMicromega PField MBase MDict MMut SMut MEuclid SEuclid PEuclid MSim SSim PSim MPoly PPoly PTurn SPoint PPoint MSurf SSurf PSurf PSurf3 PDelaunay PPoint2 PPoint3 SCut PPos PPos2 TPos PLocal PLocal2 MTangent PExit STangent PInward PTangent PTangent2 PTangent3 MSaddle SSaddle PSaddle PSaddle2 PSaddle3 PSaddle4.
Import ListNotations.

Section D.
Context {K : OField} {L : Type} (D : L -> Prop) (S : surface K L).
Add Field KF : (of_ft K).
Local Open Scope F_scope.
Context (V : valid D S) (PRS : forall l P, D l -> s_poly S l = Ok P -> proper P) (l0 : L) (k0 : nat).
Implicit Types (P Q : polygon K) (p q x h w d : vec K).

Lemma glued_fun l e P l1 e1 P1 l2 e2 P2 : glued_at D S l e P l1 e1 P1 -> glued_at D S l e P l2 e2 P2 -> l1 = l2 /\ e1 = e2 /\ P1 = P2.
Proof.
  intros A B. pose proof (ga_opp _ _ _ _ _ _ _ _ A) as X. rewrite (ga_opp _ _ _ _ _ _ _ _ B) in X. injection X as <- <-.
  pose proof (ga_poly' _ _ _ _ _ _ _ _ A) as Y. rewrite (ga_poly' _ _ _ _ _ _ _ _ B) in Y. injection Y as <-. auto.
Qed.
Lemma gluing_onto l e P l' e' P' G : glued_at D S l e P l' e' P' -> gluing_map P e P' e' G -> forall q, exists p, G p = q.
Proof.
  intros GA GM q. destruct (gluing_exists D S _ _ _ _ _ _ V GA) as [g [Eg [Kg [Sg M]]]]. exists (sim_apply (sim_inv g) q).
  rewrite (gluing_unique D S _ _ _ _ _ _ G (sim_apply g) V GA GM M). now apply sim_apply_inv.
Qed.
Lemma reaches_dom h s l F : reaches D S l0 k0 h s l F -> D l.
Proof. induction 1 as [|s l F e P l' e' P' G t F' R IH GA]; auto. apply (glued_sym _ _ _ _ _ _ _ _ V GA). Qed.
Lemma reaches_inj h s l F : reaches D S l0 k0 h s l F -> forall p q, F p = F q -> p = q.
Proof.
  induction 1 as [P F Dl GP LK EF|s l F e P l' e' P' G t F' R IH GA GM ST IB X EF']; intros p q E.
  - rewrite !EF in E. destruct p, q, (vertex P k0). injection E as E1 E2. apply vec_eq; cbn; flra.
  - destruct (gluing_onto _ _ _ _ _ _ _ GA GM p) as [p' <-]. destruct (gluing_onto _ _ _ _ _ _ _ GA GM q) as [q' <-]. rewrite !EF' in E. f_equal. now apply IH.
Qed.
Lemma reaches_0 h s l F : reaches D S l0 k0 h s l F -> 0 <= s.
Proof. induction 1; flra. Qed.
Lemma reaches_scale h s l F c : 0 < c -> reaches D S l0 k0 (vscale c h) s l F -> reaches D S l0 k0 h (c * s) l F.
Proof.
  intros C0. assert (NC : c <> 0) by (intros X; flra). induction 1 as [P F Dl GP LK EF|s l F e P l' e' P' G t F' R IH GA GM ST IB [p [Ip Fp]] EF'].
  - replace (c * 0) with (f0 : K) by ring. now apply (rs_start D S l0 k0 h P).
  - assert (LT : forall a b, a < b -> c * a < c * b) by (intros a b AB; assert (0 < c * (b - a)) by (apply fmul_pos; flra); flra).
    apply (rs_cross D S l0 k0 h (c * s) l F e P l' e' P' G); auto.
    + intros u U1 U2. assert (EU : u = c * (u / c)) by (field; auto). destruct (IB (u / c)) as [q [Iq Fq]].
      * assert (X : 0 < u / c - s) by (apply (pos_of_mul c); auto; replace (c * (u / c - s)) with (u - c * s) by (field; auto); flra); flra.
      * assert (X : 0 < t - u / c) by (apply (pos_of_mul c); auto; replace (c * (t - u / c)) with (c * t - u) by (field; auto); flra); flra.
      * exists q. split; auto. rewrite Fq. destruct h; apply vec_eq; cbn; field; auto.
    + exists p. split; auto. rewrite Fp. destruct h; apply vec_eq; cbn; ring.
Qed.

(** in the copy [F] of [P] that is entered at the time [s] the ray stops being inside at the time [t] *)
Definition event P (F : vec K -> vec K) h (s t : K) p := s < t /\ inside_between P F h s t /\ get_point_position P p <> Interior /\ F p = vscale t h.
Lemma event_unique P F h s t t' p p' : (forall p q, F p = F q -> p = q) -> event P F h s t p -> event P F h s t' p' -> t = t' /\ p = p'.
Proof.
  intros I [A1 [A2 [A3 A4]]] [B1 [B2 [B3 B4]]].
  assert (E : t = t').
  { destruct (tri t t') as [T|[T|T]]; auto; exfalso.
    - destruct (B2 t A1 T) as [q [Iq Fq]]. rewrite <- A4 in Fq. apply I in Fq. now subst.
    - destruct (A2 t' B1 T) as [q [Iq Fq]]. rewrite <- B4 in Fq. apply I in Fq. now subst. }
  subst t'. split; auto. apply I. congruence.
Qed.
Definition crossing P F h (s t : K) := exists p e, event P F h s t p /\ get_point_position P p = EdgeInterior e.
Definition crosses_before l F h (s u : K) := exists P t, s_poly S l = Ok P /\ crossing P F h s t /\ t <= u.
Lemma event_ext P F F' h s t p : (forall q, F q = F' q) -> event P F h s t p -> event P F' h s t p.
Proof. intros E [A1 [A2 [A3 A4]]]. split; auto. split; [|split; auto; now rewrite <- E]. intros u U1 U2. destruct (A2 u U1 U2) as [q [Iq Fq]]. exists q. now rewrite <- E. Qed.

Lemma reaches_compare h s1 l1 F1 : reaches D S l0 k0 h s1 l1 F1 -> forall s2 l2 F2, reaches D S l0 k0 h s2 l2 F2 ->
  (s1 = s2 /\ l1 = l2 /\ forall p, F1 p = F2 p) \/ (s1 < s2 /\ crosses_before l1 F1 h s1 s2) \/ (s2 < s1 /\ crosses_before l2 F2 h s2 s1).
Proof.
  intros R1. induction R1 as [P1 F1 D1 GP1 LK1 EF1|s1 l1 F1 e1 P1 l1' e1' P1' G1 t1 F1' R1 IH1 GA1 GM1 ST1 IB1 [p1 [Ep1 Fp1]] EF1'].
  - intros s2 l2 F2 R2. induction R2 as [P2 F2 D2 GP2 LK2 EF2|s2 l2 F2 e2 P2 l2' e2' P2' G2 t2 F2' R2 IH2 GA2 GM2 ST2 IB2 [p2 [Ep2 Fp2]] EF2'].
    + left. split; auto. split; auto. intros p. assert (P1 = P2) by congruence. subst. now rewrite EF1, EF2.
    + pose proof (reaches_0 _ _ _ _ R2) as Z2. right. left. destruct IH2 as [[E [El EF]]|[[LT [Q [t [GQ [X T]]]]]|[LT _]]]; [| |flra].
      * split; [flra|]. subst s2 l2. exists P2, t2. split; [apply GA2|]. split; [|flra]. exists p2, e2. split; auto. apply (event_ext _ F2); auto. split; auto. split; auto. split; [congruence|auto].
      * split; [flra|]. exists Q, t. split; auto. split; auto. flra.
  - assert (EV1 : event P1 F1 h s1 t1 p1) by (split; auto; split; auto; split; [congruence|auto]). pose proof (reaches_inj _ _ _ _ R1) as INJ1.
    assert (R1' : reaches D S l0 k0 h t1 l1' F1') by (apply (rs_cross D S l0 k0 h s1 l1 F1 e1 P1 l1' e1' P1' G1); auto; exists p1; auto).
    intros s2 l2 F2 R2. induction R2 as [P2 F2 D2 GP2 LK2 EF2|s2 l2 F2 e2 P2 l2' e2' P2' G2 t2 F2' R2 IH2 GA2 GM2 ST2 IB2 [p2 [Ep2 Fp2]] EF2'].
    + pose proof (reaches_0 _ _ _ _ R1) as Z1. right. right. split; [flra|]. destruct (IH1 0 l0 F2 ltac:(now apply (rs_start D S l0 k0 h P2))) as [[E [El EF]]|[[LT _]|[LT [Q [t [GQ [X T]]]]]]]; [|flra|].
      * subst s1 l1. exists P1, t1. split; [apply GA1|]. split; [|flra]. exists p1, e1. split; auto. apply (event_ext _ F1); auto.
      * exists Q, t. split; auto. split; auto. flra.
    + assert (EV2 : event P2 F2 h s2 t2 p2) by (split; auto; split; auto; split; [congruence|auto]). pose proof (reaches_inj _ _ _ _ R2) as INJ2.
      assert (R2' : reaches D S l0 k0 h t2 l2' F2') by (apply (rs_cross D S l0 k0 h s2 l2 F2 e2 P2 l2' e2' P2' G2); auto; exists p2; auto).
      destruct (IH1 s2 l2 F2 R2) as [[E [El EF]]|[[LT [Q [t [GQ [[q [e [EV Eq]]] T]]]]]|[LT [Q [t [GQ [[q [e [EV Eq]]] T]]]]]]].
      * subst s2 l2. left. assert (P2 = P1) by (pose proof (ga_poly _ _ _ _ _ _ _ _ GA1); pose proof (ga_poly _ _ _ _ _ _ _ _ GA2); congruence). subst P2.
        destruct (event_unique P1 F2 h s1 t1 t2 p1 p2 INJ2 (event_ext _ _ _ _ _ _ _ EF EV1) EV2) as [-> ->]. assert (e2 = e1) by congruence. subst e2.
        destruct (glued_fun _ _ _ _ _ _ _ _ _ GA1 GA2) as [<- [<- <-]]. split; auto. split; auto. intros p. destruct (gluing_onto _ _ _ _ _ _ _ GA1 GM1 p) as [p' <-]. rewrite EF1'.
        rewrite (gluing_unique D S _ _ _ _ _ _ G1 G2 V GA1 GM1 GM2). now rewrite EF2'.
      * assert (Q = P1) by (pose proof (ga_poly _ _ _ _ _ _ _ _ GA1); congruence). subst Q. destruct (event_unique P1 F1 h s1 t t1 q p1 INJ1 EV EV1) as [-> ->].
        right. left. split; [flra|]. destruct IH2 as [[E [El EF]]|[[LT' [Q' [t' [GQ' [X' T']]]]]|[LT' _]]]; [| |flra].
        -- subst s2 l2. exists P2, t2. split; [apply GA2|]. split; [|flra]. exists p2, e2. split; auto. apply (event_ext _ F2); auto.
        -- exists Q', t'. split; auto. split; auto. flra.
      * assert (Q = P2) by (pose proof (ga_poly _ _ _ _ _ _ _ _ GA2); congruence). subst Q. destruct (event_unique P2 F2 h s2 t t2 q p2 INJ2 EV EV2) as [-> ->].
        right. right. split; [flra|]. destruct (IH1 t2 l2' F2' R2') as [[E [El EF]]|[[LT' _]|[LT' [Q' [t' [GQ' [X' T']]]]]]]; [|flra|].
        -- subst s1 l1. exists P1, t1. split; [apply GA1|]. split; [|flra]. exists p1, e1. split; auto. apply (event_ext _ F1); auto.
        -- exists Q', t'. split; auto. split; auto. flra.
Qed.

(** a ray does not start along the edge *)
Lemma reaches_inside h s l F P t : reaches D S l0 k0 h s l F -> s_poly S l = Ok P -> s < t -> inside_between P F h s t ->
  exists P0 t0, D l0 /\ s_poly S l0 = Ok P0 /\ (k0 < length P0)%nat /\ 0 < t0 /\ forall u, 0 < u -> u < t0 -> get_point_position P0 (vadd (vertex P0 k0) (vscale u h)) = Interior.
Proof.
  intros R. revert P t. induction R as [P1 F D1 GP1 LK1 EF|s l F e P1 l' e' P' G t1 F' R IH GA GM ST IB X EF']; intros P t GP T I.
  - assert (P1 = P) by congruence. subst P1. exists P, t. split; auto. split; auto. split; auto. split; auto. intros u U0 U1. destruct (I u U0 U1) as [p [Ip Ep]]. rewrite EF in Ep.
    replace (vadd (vertex P k0) (vscale u h)) with p; auto. rewrite <- Ep. destruct p, (vertex P k0); apply vec_eq; cbn; ring.
  - apply (IH P1 t1); auto. apply GA.
Qed.

(** a saddle connection that is not an edge *)
Definition ray_saddle h (t : K) (y : L * nat) h' := exists s F P, reaches D S l0 k0 h s (fst y) F /\ s < t /\ s_poly S (fst y) = Ok P /\ (snd y < length P)%nat /\
    inside_between P F h s t /\ F (vertex P (snd y)) = vscale t h /\ F (vadd (vertex P (snd y)) h') = vzero.
Lemma ray_unique h t y h' t2 y2 h2' : ray_saddle h t y h' -> ray_saddle h t2 y2 h2' -> t = t2 /\ y = y2 /\ h' = h2'.
Proof.
  intros [s [F [P [R [ST [GP [Lk [IB [FV FH]]]]]]]]] [s2 [F2 [P2 [R2 [ST2 [GP2 [Lk2 [IB2 [FV2 FH2]]]]]]]]]. destruct y as [l k], y2 as [l2 k2]. cbn [fst snd] in *.
  pose proof (reaches_inj _ _ _ _ R) as INJ. pose proof (reaches_inj _ _ _ _ R2) as INJ2.
  pose proof (at_vertex P (PRS _ _ (reaches_dom _ _ _ _ R) GP) k Lk) as AV. pose proof (at_vertex P2 (PRS _ _ (reaches_dom _ _ _ _ R2) GP2) k2 Lk2) as AV2.
  assert (EV : event P F h s t (vertex P k)) by (split; auto; split; auto; split; [congruence|auto]).
  assert (EV2 : event P2 F2 h s2 t2 (vertex P2 k2)) by (split; auto; split; auto; split; [congruence|auto]).
  destruct (reaches_compare h s l F R s2 l2 F2 R2) as [[<- [<- EF]]|[[LT [Q [u [GQ [[q [e [E1 E2]]] _]]]]]|[LT [Q [u [GQ [[q [e [E1 E2]]] _]]]]]]].
  - assert (P2 = P) by congruence. subst P2. destruct (event_unique P F2 h s t t2 _ _ INJ2 (event_ext _ _ _ _ _ _ _ EF EV) EV2) as [<- E]. rewrite E, AV2 in AV. injection AV as <-. split; auto. split; auto.
    rewrite <- FH2, <- EF in FH. apply INJ in FH. destruct h', h2', (vertex P k2). injection FH as X1 X2. apply vec_eq; cbn; flra.
  - assert (Q = P) by congruence. subst Q. destruct (event_unique P F h s t u _ _ INJ EV E1) as [_ E]. congruence.
  - assert (Q = P2) by congruence. subst Q. destruct (event_unique P2 F2 h s2 t2 u _ _ INJ2 EV2 E1) as [_ E]. congruence.
Qed.
Lemma ray_scale h c t y h' : 0 < c -> ray_saddle (vscale c h) t y h' -> ray_saddle h (c * t) y h'.
Proof.
  intros C0 [s [F [P [R [ST [GP [Lk [IB [FV FH]]]]]]]]]. assert (NC : c <> 0) by (intros X; flra). exists (c * s), F, P. split; [now apply reaches_scale|].
  split; [assert (0 < c * (t - s)) by (apply fmul_pos; flra); flra|]. split; auto. split; auto. split; [|split; auto].
  - intros u U1 U2. destruct (IB (u / c)) as [q [Iq Fq]].
    + assert (X : 0 < u / c - s) by (apply (pos_of_mul c); auto; replace (c * (u / c - s)) with (u - c * s) by (field; auto); flra); flra.
    + assert (X : 0 < t - u / c) by (apply (pos_of_mul c); auto; replace (c * (t - u / c)) with (c * t - u) by (field; auto); flra); flra.
    + exists q. split; auto. rewrite Fq. destruct h; apply vec_eq; cbn; field; auto.
  - rewrite FV. destruct h; apply vec_eq; cbn; ring.
Qed.
Lemma ray_not_edge h t y h' P0 c : s_poly S l0 = Ok P0 -> 0 < c -> edge P0 k0 = vscale c h -> ray_saddle h t y h' -> False.
Proof.
  intros GP0 C0 E [s [F [P [R [ST [GP [Lk [IB _]]]]]]]]. destruct (reaches_inside h s (fst y) F P t R GP ST IB) as [P1 [t0 [D0 [GP1 [L0 [T0 X]]]]]]. assert (P1 = P0) by congruence. subst P1.
  pose proof (PRS _ _ D0 GP0) as PR. assert (NC : c <> 0) by (intros Z; flra).
  assert (EX : exists u, 0 < u /\ u < t0 /\ u / c < 1).
  { destruct (half t0 T0) as [a [A0 [A1 _]]]. destruct (half c C0) as [b [B0 [B1 _]]]. assert (LT : forall u, 0 < u -> u < c -> u / c < 1).
    { intros u U0 U1. assert (Y : 0 < 1 - u / c) by (apply (pos_of_mul c); auto; replace (c * (1 - u / c)) with (c - u) by (field; auto); flra); flra. }
    destruct (tri a b) as [T|[T|T]]; [exists a|exists a|exists b]; (split; [auto|]; split; [flra|]; apply LT; auto; flra). }
  destruct EX as [u [U0 [U1 U2]]]. specialize (X u U0 U1). pose proof (at_edge P0 PR k0 (u / c) L0 (fdiv_pos u c C0 U0) U2) as Y.
  replace (go (vertex P0 k0) (u / c) (edge P0 k0)) with (vadd (vertex P0 k0) (vscale u h)) in Y; [congruence|]. rewrite E. unfold go. destruct h, (vertex P0 k0); apply vec_eq; cbn; field; auto.
Qed.
Lemma is_saddle_cases h y h' : is_saddle D S (l0, k0) h y h' <-> (exists P P', glued_at D S l0 k0 P (fst y) (snd y) P' /\ h = edge P k0 /\ h' = edge P' (snd y)) \/ ray_saddle h 1 y h'.
Proof.
  assert (E : vscale 1 h = h) by (destruct h; apply vec_eq; cbn; ring). unfold is_saddle, ray_saddle. rewrite E. reflexivity.
Qed.
Lemma saddle_unique h y h' y2 h2' c : 0 < c -> is_saddle D S (l0, k0) h y h' -> is_saddle D S (l0, k0) (vscale c h) y2 h2' -> vscale c h = h /\ y2 = y /\ h2' = h'.
Proof.
  intros C0. assert (NC : c <> 0) by (intros Z; flra). rewrite !is_saddle_cases. intros [[P [P' [G [E E']]]]|R] [[P2 [P2' [G2 [E2 E2']]]]|R2].
  - assert (P2 = P) by (pose proof (ga_poly _ _ _ _ _ _ _ _ G); pose proof (ga_poly _ _ _ _ _ _ _ _ G2); congruence). subst P2. destruct (glued_fun _ _ _ _ _ _ _ _ _ G G2) as [A [B <-]].
    split; [congruence|]. split; [destruct y, y2; cbn in *; congruence|]. rewrite E', E2'. congruence.
  - exfalso. apply (ray_not_edge (vscale c h) 1 y2 h2' P (1 / c)); auto; [apply G|apply fdiv_pos; auto; apply flt_0_1|]. rewrite <- E. destruct h; apply vec_eq; cbn; field; auto.
  - exfalso. apply (ray_not_edge h 1 y h' P2 c); auto. apply G2.
  - apply (ray_scale h c) in R2; auto. destruct (ray_unique _ _ _ _ _ _ _ R R2) as [E [<- <-]]. split; auto. assert (c = 1) by flra. subst. destruct h; apply vec_eq; cbn; ring.
Qed.
End D.
