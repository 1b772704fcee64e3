(** [flow_to_exit] finds the first point of the boundary. *)
From Coq Require Import List Bool ZArith Arith Lia Ring Field Permutation.
From Verif Require Import OField FMicromega PField MBase MDict MMut SMut MEuclid SEuclid PEuclid MSim SSim MPoly PPoly PTurn SPoint PPoint PSurf3 SCut PJordan PJordan2 PJordan3 PJordan4 PJordan5 PConvex PEar2 PEar5 PPos PPos2 TPos PLocal PLocal2 MTangent.
Import ListNotations.

Section M.
Context {K : OField} {A : Type}.
Add Field KF0 : (of_ft K).
Local Open Scope F_scope.
Lemma min_by_spec (key : A -> K * K) (tau : A -> K) (len : K) : 0 < len -> forall l m, (forall a, In a (m :: l) -> key a = (tau a, len)) ->
  In (min_by quotient_lt key m l) (m :: l) /\ forall a, In a (m :: l) -> tau (min_by quotient_lt key m l) <= tau a.
Proof.
  intros L. induction l as [|x l IH]; intros m H; cbn [min_by].
  - split; [now left|]. intros a [<-|[]]. flra.
  - assert (Hm := H m (or_introl eq_refl)). assert (Hx := H x (or_intror (or_introl eq_refl))).
    assert (E : quotient_lt (key x) (key m) = (tau x <? tau m)).
    { rewrite Hm, Hx. unfold quotient_lt. cbn [fst snd]. destruct (tau x <? tau m) eqn:X.
      - change (tau x < tau m) in X. change (tau x * len < tau m * len). fnra.
      - apply fltb_ge in X. apply fltb_ge. fnra. }
    rewrite E. destruct (tau x <? tau m) eqn:X.
    + change (tau x < tau m) in X. destruct (IH x) as [I1 I2]; [intros a I; apply H; now right|]. split; [now right|].
      intros a [<-|I]; [|now apply I2]. specialize (I2 x (or_introl eq_refl)). flra.
    + apply fltb_ge in X. destruct (IH m) as [I1 I2]; [intros a [<-|I]; apply H; [now left|right; now right]|]. split.
      * destruct I1 as [I1|I1]; [now left|right; now right].
      * intros a [<-|[<-|I]]; [apply I2; now left| |apply I2; now right]. specialize (I2 m (or_introl eq_refl)). flra.
Qed.
End M.

Section C.
Context {K : OField}.
Add Field KF : (of_ft K).
Local Open Scope F_scope.
Implicit Types (P : polygon K) (p x : vec K).

Lemma ray_overlap p d a b x y : d <> vzero -> a <> b -> ray_segment_intersection p d (a, b) = RSegment x y ->
  exists lo hi : K, lo < hi /\ 0 < hi /\ ((a = go p lo d /\ b = go p hi d) \/ (a = go p hi d /\ b = go p lo d)) /\ y = go p hi d /\
    ((lo < 0 /\ x = p) \/ (0 <= lo /\ x = go p lo d)).
Proof.
  intros N AB. unfold ray_segment_intersection. cbn [fst snd].
  destruct (line_intersection p (vadd p d) a b) as [i|] eqn:LI.
  { destruct (fst (time_on_ray p d i) <? 0); [discriminate|]. destruct (0 <? _); discriminate. }
  apply line_intersection_none in LI. rewrite vsub_add in LI.
  destruct (ccw d (vsub a p) =? 0) eqn:E; cbn [negb]; [|discriminate]. apply feqb_eq in E.
  assert (Nd : p <> vadd p d). { intros X. apply N. rewrite <- (vsub_add p d). rewrite <- X. destruct p; apply vec_eq; cbn; ring. }
  assert (La : on_line p (vadd p d) a) by (apply fdet_line; auto; rewrite det3_ccw, vsub_add; exact E).
  assert (Lb : on_line p (vadd p d) b).
  { apply fdet_line; auto. rewrite det3_ccw, vsub_add. transitivity (ccw d (vsub a p) + ccw d (vsub b a)); [unfold ccw; cbn; ring|]. rewrite E, LI. ring. }
  destruct La as [ta Ea], Lb as [tb Eb]. rewrite vsub_add in Ea, Eb.
  destruct (time_on_ray_spec p d ta N) as [l [Hl Ta]]. destruct (time_on_ray_spec p d tb N) as [l' [Hl' Tb]].
  assert (l' = l).
  { pose proof (time_on_ray_length p d (vadd p (vscale ta d)) (vadd p (vscale tb d))) as X. rewrite Ta, Tb in X. now cbn in X. }
  subst l'. rewrite <- Ea in Ta. rewrite <- Eb in Tb. rewrite Ta, Tb. assert (NL : l <> 0) by (intros X; rewrite X in Hl; flra).
  assert (NT : ta <> tb) by (intros X; apply AB; rewrite Ea, Eb, X; reflexivity).
  assert (G : forall lo hi, lo < hi -> ((a = go p lo d /\ b = go p hi d) \/ (a = go p hi d /\ b = go p lo d)) ->
    (if hi * l <? 0 then RNone else if hi * l =? 0 then RPoint p else
       if lo * l / l <? 0 then RSegment p (vadd p (vscale (hi * l / l) d)) else RSegment (vadd p (vscale (lo * l / l) d)) (vadd p (vscale (hi * l / l) d))) = RSegment x y ->
    exists lo hi : K, lo < hi /\ 0 < hi /\ ((a = go p lo d /\ b = go p hi d) \/ (a = go p hi d /\ b = go p lo d)) /\ y = go p hi d /\
    ((lo < 0 /\ x = p) \/ (0 <= lo /\ x = go p lo d))).
  { intros lo hi LH AA. assert (E1 : lo * l / l = lo) by (field; auto). assert (E2 : hi * l / l = hi) by (field; auto). rewrite E1, E2.
    destruct (hi * l <? 0) eqn:X1; [discriminate|]. destruct (hi * l =? 0) eqn:X2; [discriminate|]. apply fltb_ge in X1. apply feqb_false in X2.
    assert (H0 : 0 < hi). { destruct (flt_total hi) as [Y|[Y|Y]]; auto; [fnra|exfalso; apply X2; rewrite Y; ring]. }
    exists lo, hi. split; auto. split; auto. split; auto. destruct (lo <? 0) eqn:X3; injection H as <- <-; (split; [reflexivity|]).
    - left. split; auto.
    - right. apply fltb_ge in X3. split; auto. }
  destruct (tb * l <? ta * l) eqn:X.
  - change (tb * l < ta * l) in X. apply (G tb ta); [fnra|right; auto].
  - apply fltb_ge in X. apply (G ta tb); [apply fneq_lt in NT; destruct NT as [NT|NT]; [exact NT|fnra]|left; auto].
Qed.

Lemma go_inj p d (t s : K) : d <> vzero -> go p t d = go p s d -> t = s.
Proof. apply ray_inj. Qed.
Lemma go_0 p d : go p 0 d = p. Proof. unfold go. destruct p, d; apply vec_eq; cbn; ring. Qed.
Lemma go_pos p d (t : K) : d <> vzero -> 0 <= t -> go p t d <> p -> 0 < t.
Proof. intros N T X. destruct (flt_total t) as [H|[H|H]]; auto; [flra|]. exfalso. apply X. rewrite H. apply go_0. Qed.
Lemma on_go p d (t0 t1 t : K) : d <> vzero -> t0 <= t1 -> on_segment (go p t0 d, go p t1 d) (go p t d) <-> t0 <= t /\ t <= t1.
Proof. intros N L. unfold go. rewrite on_segment_ray by auto. split; [intros [H|H]; auto; destruct H; split; flra|auto]. Qed.

Context (P : polygon K) (PR : proper P).
Notation n := (length P).
Lemma side_next v : (vertex P v, vertex P ((v + 1) mod n)) = side P v.
Proof. unfold side. rewrite vertex_mod. f_equal. f_equal. lia. Qed.
Lemma side_neq v : vertex P v <> vertex P (S v).
Proof. destruct PR as [_ [E _]]. intros X. apply (E v). unfold edge. rewrite X. destruct (vertex P (S v)); apply vec_eq; cbn; ring. Qed.
Lemma n_pos : (0 < n)%nat. Proof. destruct PR. lia. Qed.

Lemma end_position v x : (v < n)%nat -> x = vertex P v \/ x = vertex P (S v) -> get_point_position P x = AtVertex (if veqb x (vertex P v) then v else ((v + 1) mod n)%nat).
Proof.
  intros V E. pose proof n_pos. destruct (veqb x (vertex P v)) eqn:X.
  - apply veqb_eq in X. apply C57_vertex; auto.
  - apply C57_vertex; auto. split; [apply Nat.mod_upper_bound; lia|]. rewrite vertex_mod. replace (v + 1)%nat with (S v) by lia.
    destruct E as [E|E]; auto. apply veqb_neq in X. contradiction.
Qed.

Section D.
Context (q d : vec K) (D : d <> vzero).

(** the side [v] runs along the ray at the start *)
Definition starts_along v : bool := match ray_segment_intersection q d (side P v) with RSegment p _ => veqb p q | _ => false end.

Lemma cand_in v x pos : (v < n)%nat -> In (x, pos) (exit_candidate P q d v) ->
  exists t, 0 < t /\ x = go q t d /\ on_segment (side P v) x /\ (pos = None \/ pos = Some (get_point_position P x)).
Proof.
  intros V. unfold exit_candidate. rewrite side_next. pose proof (ray_segment_intersection_spec q d (side P v) D) as RS.
  destruct (ray_segment_intersection q d (side P v)) as [|y|y z] eqn:E.
  - intros [].
  - destruct (veqb y q) eqn:X; [intros []|]. apply veqb_neq in X. intros [Y|[]]. injection Y as <- <-.
    destruct (proj1 (RS y) eq_refl) as [[t [T Ey]] O]. exists t. split; [|auto]. apply (go_pos q d); auto. intros Z. apply X. rewrite Ey. exact Z.
  - intros [Y|[]]. injection Y as <- <-. destruct (ray_overlap q d _ _ y z D (side_neq v) E) as [lo [hi [L [H [EE [EZ EX]]]]]].
    assert (O : forall w, w = y \/ w = z -> on_segment (side P v) w).
    { intros w W. apply RS. cbn. destruct W as [->| ->]; [apply on_seg_l|apply on_seg_r]. }
    destruct (veqb y q) eqn:X.
    + exists hi. split; auto. split; auto. split; [apply O; auto|]. right. rewrite (end_position v z V); auto. rewrite EZ. destruct EE as [[_ ->]|[-> _]]; auto.
    + apply veqb_neq in X. destruct EX as [[_ EX]|[L0 EX]]; [congruence|]. exists lo.
      split; [apply (go_pos q d); auto; congruence|]. split; auto. split; [apply O; auto|]. right. rewrite (end_position v y V); auto. rewrite EX. destruct EE as [[-> _]|[_ ->]]; auto.
Qed.

Lemma cand_cover v (s : K) : (v < n)%nat -> 0 < s -> on_segment (side P v) (go q s d) -> starts_along v = false ->
  exists t pos, In (go q t d, pos) (exit_candidate P q d v) /\ t <= s.
Proof.
  intros V S O. unfold starts_along, exit_candidate. rewrite side_next. pose proof (ray_segment_intersection_spec q d (side P v) D) as RS.
  assert (OR : ray_set (ray_segment_intersection q d (side P v)) (go q s d)) by (apply RS; split; auto; exists s; split; [flra|reflexivity]).
  destruct (ray_segment_intersection q d (side P v)) as [|y|y z] eqn:E; cbn in OR.
  - contradiction.
  - subst y. intros _. destruct (veqb (go q s d) q) eqn:X.
    + apply veqb_eq in X. rewrite <- (go_0 q d) in X at 2. apply go_inj in X; auto. rewrite X in S. flra.
    + exists s, None. split; [now left|flra].
  - intros X. rewrite X. destruct (ray_overlap q d _ _ y z D (side_neq v) E) as [lo [hi [L [H [EE [EZ EX]]]]]]. apply veqb_neq in X.
    destruct EX as [[_ EX]|[L0 EX]]; [congruence|]. rewrite EX, EZ in OR. apply on_go in OR; auto; [|flra]. exists lo. rewrite EX. eexists. split; [now left|]. apply OR.
Qed.

Lemma along_spec v : (v < n)%nat -> starts_along v = true -> exists lo hi : K, lo <= 0 /\ 0 < hi /\
  (forall s, lo < s -> s < hi -> on_open P v (go q s d)) /\ exists pos, exit_candidate P q d v = [(go q hi d, pos)] /\ (go q hi d = vertex P v \/ go q hi d = vertex P (S v)).
Proof.
  intros V. unfold starts_along, exit_candidate. rewrite side_next. destruct (ray_segment_intersection q d (side P v)) as [|y|y z] eqn:E; try discriminate.
  intros X. rewrite X. destruct (ray_overlap q d _ _ y z D (side_neq v) E) as [lo [hi [L [H [EE [EZ EX]]]]]]. apply veqb_eq in X.
  exists lo, hi. split.
  { destruct EX as [[X1 _]|[X1 X2]]; [flra|]. rewrite X in X2. rewrite <- (go_0 q d) in X2 at 1. apply go_inj in X2; auto. rewrite <- X2. flra. }
  split; auto. split.
  - intros s S0 S1. split; auto. assert (NN : hi - lo <> 0) by (intros Y; flra). destruct EE as [[E1 E2]|[E1 E2]].
    + exists ((s - lo) / (hi - lo)). split; [apply fdiv_pos; flra|]. split.
      { apply (fun h => proj1 (fltb_ge _ _) h) || idtac. assert (Y : (s - lo) / (hi - lo) = 1 - (hi - s) / (hi - lo)) by (field; auto). rewrite Y. assert (0 < (hi - s) / (hi - lo)) by (apply fdiv_pos; flra). flra. }
      unfold edge. rewrite E1, E2. unfold go. destruct q, d. apply vec_eq; cbn; field; auto.
    + exists ((hi - s) / (hi - lo)). split; [apply fdiv_pos; flra|]. split.
      { assert (Y : (hi - s) / (hi - lo) = 1 - (s - lo) / (hi - lo)) by (field; auto). rewrite Y. assert (0 < (s - lo) / (hi - lo)) by (apply fdiv_pos; flra). flra. }
      unfold edge. rewrite E1, E2. unfold go. destruct q, d. apply vec_eq; cbn; field; auto.
  - eexists. split; [rewrite <- EZ; reflexivity|]. destruct EE as [[_ E2]|[E1 _]]; auto.
Qed.

Notation cands := (flat_map (exit_candidate P q d) (seq 0 n)).
Lemma cands_in x pos : In (x, pos) cands <-> exists v, (v < n)%nat /\ In (x, pos) (exit_candidate P q d v).
Proof. rewrite in_flat_map. split; intros [v [V I]]; exists v; (split; [|auto]); [apply in_seq in V; lia|apply in_seq; lia]. Qed.

Lemma exit_min x pos : flow_to_exit P q d = Ok (x, pos) -> exists (t : K) (o : option position), 0 < t /\ x = go q t d /\ In (x, o) cands /\ pos = get_point_position P x /\
  forall s o', In (go q s d, o') cands -> t <= s.
Proof.
  unfold flow_to_exit. destruct (veqb d vzero) eqn:Z; [discriminate|]. destruct cands as [|c cs] eqn:EC; [discriminate|].
  set (m := min_by _ _ _ _). destruct m as [y o] eqn:EM. intros X. injection X as -> EP.
  assert (TI : forall t, exists l, 0 < l /\ time_on_ray q d (go q t d) = (t * l, l)) by (intros t; now apply time_on_ray_spec).
  set (len := snd (time_on_ray q d q)). assert (TS : forall t, time_on_ray q d (go q t d) = (t * len, len)).
  { intros t. destruct (TI t) as [l [L T]]. assert (l = len). { pose proof (time_on_ray_length q d (go q t d) q) as Q. rewrite T in Q. exact Q. } rewrite T. congruence. }
  assert (LP : 0 < len). { destruct (TI 1) as [l [L T]]. rewrite TS in T. injection T as _ T. now rewrite T. }
  destruct (min_by_spec (fun i => time_on_ray q d (fst i)) (fun i => fst (time_on_ray q d (fst i))) len LP cs c) as [M1 M2].
  { intros a I. rewrite (surjective_pairing (time_on_ray q d (fst a))). f_equal. unfold len. apply time_on_ray_length. }
  fold m in M1, M2. rewrite EM in M1, M2.
  pose proof M1 as I1. rewrite <- EC in I1. apply cands_in in I1. destruct I1 as [v [V I1]]. destruct (cand_in v x o V I1) as [t [T [Ex [O PO]]]].
  exists t, o. split; auto. split; auto. split; auto. split.
  - destruct PO as [->| ->]; auto.
  - intros s o' I. specialize (M2 _ I). cbn [fst] in M2. rewrite Ex, !TS in M2. cbn [fst] in M2. fnra.
Qed.

(** the first point of the boundary on the ray *)
Theorem exit_first x pos : flow_to_exit P q d = Ok (x, pos) -> exists t, 0 < t /\ x = go q t d /\ pos = get_point_position P x /\ bound P x /\
  ((forall s, 0 < s -> s < t -> ~ bound P (go q s d)) \/
   (exists e k, (e < n)%nat /\ pos = AtVertex k /\ forall s, 0 < s -> s < t -> get_point_position P (go q s d) = EdgeInterior e)).
Proof.
  intros E. destruct (exit_min x pos E) as [t [o [T [Ex [I [EP M]]]]]]. exists t. split; auto. split; auto. split; auto.
  pose proof I as I1. apply cands_in in I1. destruct I1 as [v [V I1]]. destruct (cand_in v x o V I1) as [t' [T' [Ex' [O _]]]].
  split; [now exists v|]. destruct (existsb starts_along (seq 0 n)) eqn:A.
  - right. apply existsb_exists in A. destruct A as [e [Ie Ae]]. apply in_seq in Ie. assert (Le : (e < n)%nat) by lia.
    destruct (along_spec e Le Ae) as [lo [hi [L0 [H0 [OP [po [EC EN]]]]]]]. assert (TH : t <= hi) by (apply (M hi po), cands_in; exists e; split; auto; rewrite EC; now left).
    assert (TE : t = hi).
    { destruct (flt_total (hi - t)) as [X|[X|X]]; [flra|flra|]. exfalso. assert (OO : on_open P e x) by (rewrite Ex; apply OP; flra).
      assert (v = e) by now apply (open_unique P e v x). subst v. rewrite EC in I1. destruct I1 as [I1|[]]. injection I1 as I1 _. rewrite Ex in I1. apply go_inj in I1; auto. rewrite I1 in X. flra. }
    exists e. eexists. split; auto. split.
    + rewrite EP. apply end_position with (v := e); auto. rewrite Ex, TE. exact EN.
    + intros s S0 S1. apply C57_edge; auto. destruct (OP s) as [_ Q]; [flra|flra|]. split; auto.
  - left. intros s S0 S1 [e [Le Oe]]. assert (Ae : starts_along e = false).
    { destruct (starts_along e) eqn:X; auto. assert (existsb starts_along (seq 0 n) = true); [|congruence]. apply existsb_exists. exists e. split; auto. apply in_seq. lia. }
    destruct (cand_cover e s Le S0 Oe Ae) as [t1 [o1 [I2 L]]]. assert (t <= t1) by (apply (M t1 o1), cands_in; now exists e). flra.
Qed.

Theorem exit_ok : (exists s, 0 < s /\ bound P (go q s d)) <-> exists r, flow_to_exit P q d = Ok r.
Proof.
  split.
  - intros [s [S [e [Le Oe]]]]. assert (NE : cands <> []).
    { destruct (starts_along e) eqn:A.
      - destruct (along_spec e Le A) as [lo [hi [_ [_ [_ [po [EC _]]]]]]]. intros X. assert (I : In (go q hi d, po) cands) by (apply cands_in; exists e; split; auto; rewrite EC; now left). rewrite X in I. destruct I.
      - destruct (cand_cover e s Le S Oe A) as [t1 [o1 [I2 L]]]. intros X. assert (I : In (go q t1 d, o1) cands) by (apply cands_in; now exists e). rewrite X in I. destruct I. }
    unfold flow_to_exit. assert (Z : veqb d vzero = false) by now apply veqb_neq. rewrite Z. destruct cands as [|c cs]; [contradiction|]. destruct (min_by _ _ _ _) as [y o]. eexists. reflexivity.
  - intros [[x pos] E]. destruct (exit_first x pos E) as [t [T [Ex [_ [B _]]]]]. exists t. rewrite <- Ex. auto.
Qed.
Theorem exit_err : ~ (exists s, 0 < s /\ bound P (go q s d)) -> flow_to_exit P q d = Err ValueError.
Proof.
  intros H. unfold flow_to_exit. destruct (veqb d vzero); auto. destruct cands as [|c cs] eqn:EC; auto. exfalso. apply H. destruct c as [y o].
  assert (I : In (y, o) cands) by (rewrite EC; now left). apply cands_in in I. destruct I as [v [V I]]. destruct (cand_in v y o V I) as [t [T [Ex [O _]]]].
  exists t. split; auto. rewrite <- Ex. now exists v.
Qed.

(** small steps in the direction [d] do not leave the polygon *)
Definition inward := exists r, 0 < r /\ forall t, 0 < t -> t <= r -> get_point_position P (go q t d) <> Outside.

Lemma far : exists T, 0 < T /\ forall s, T <= s -> get_point_position P (go q s d) = Outside.
Proof.
  assert (DD : 0 < dot d d) by now apply vnz.
  assert (B : exists M, 0 < M /\ forall i, (i < n)%nat -> dot d (vertex P i) - dot d q < M).
  { assert (B0 : forall m, exists M, 0 < M /\ forall i, (i < m)%nat -> dot d (vertex P i) - dot d q < M).
    { induction m as [|m [M [M0 IH]]]; [exists 1; split; [apply flt_0_1|lia]|].
      set (c := dot d (vertex P m) - dot d q). destruct (c <? M) eqn:X.
      - change (c < M) in X. exists M. split; auto. intros i I. destruct (Nat.eq_dec i m) as [->|]; [exact X|apply IH; lia].
      - apply fltb_ge in X. exists (c + 1). pose proof (@flt_0_1 K). split; [flra|]. intros i I. destruct (Nat.eq_dec i m) as [->|]; [fold c; flra|].
        specialize (IH i). assert (dot d (vertex P i) - dot d q < M) by (apply IH; lia). flra. }
    apply B0. }
  destruct B as [M [M0 B]]. assert (ND : dot d d <> 0) by (intros X; rewrite X in DD; flra). exists (M / dot d d). split; [apply fdiv_pos; auto|]. intros s S.
  apply (position_separated P _ (vopp d)); auto. intros i I. specialize (B i I).
  assert (E : dot (vopp d) (go q s d) = - dot d q - s * dot d d) by (unfold dot, go; destruct q, d; cbn; ring).
  assert (E' : dot (vopp d) (vertex P i) = - dot d (vertex P i)) by (unfold dot; destruct d, (vertex P i); cbn; ring). rewrite E, E'.
  assert (M <= s * dot d d); [|flra]. assert (EM : M = M / dot d d * dot d d) by (field; auto). rewrite EM. fnra.
Qed.

Lemma constant (a b : K) : a < b -> (forall s, a <= s -> s <= b -> ~ bound P (go q s d)) -> get_point_position P (go q a d) = get_point_position P (go q b d).
Proof.
  intros L H. pose proof (proj1 (proper_simpleL P) PR) as [S IX]. rewrite !pos_off by (auto; apply H; flra).
  rewrite (par_segment P (go q a d) (go q b d)); auto; [apply S|destruct S as [_ [X _]]; lia|intros X; apply go_inj in X; auto; flra|].
  intros g I x [X1 X2]. destruct X2 as [s [S0 [S1 X2]]]. cbn [fst snd] in X2. apply (H (a + s * (b - a))); [fnra|fnra|].
  apply bound_cyc. exists g. split; auto. replace (go q (a + s * (b - a)) d) with x; auto. rewrite X2. unfold go. destruct q, d; apply vec_eq; cbn; ring.
Qed.
Lemma bound_dec x : bound P x \/ ~ bound P x.
Proof.
  pose proof (proj1 (proper_simpleL P) PR) as [S _]. destruct (boundary_dec P x S) as [H|H]; [left; now apply bound_cyc|right]. intros X. apply bound_cyc in X. destruct X as [g [I O]]. now apply (H g).
Qed.

Theorem exit_inward : inward -> exists t pos, 0 < t /\ flow_to_exit P q d = Ok (go q t d, pos) /\ pos = get_point_position P (go q t d) /\
  bound P (go q t d) /\ ((forall s, 0 < s -> s < t -> get_point_position P (go q s d) = Interior) \/
   (exists e k, (e < n)%nat /\ pos = AtVertex k /\ forall s, 0 < s -> s < t -> get_point_position P (go q s d) = EdgeInterior e)).
Proof.
  intros [r [R IN]]. assert (OK : exists y, flow_to_exit P q d = Ok y).
  { destruct (flow_to_exit P q d) as [y|] eqn:E; [now exists y|]. exfalso.
    assert (NB : ~ exists s, 0 < s /\ bound P (go q s d)) by (intros X; apply exit_ok in X; destruct X; congruence).
    destruct far as [T [T0 F]]. set (b := T + r). assert (L : r < b) by (unfold b; flra).
    assert (C : get_point_position P (go q r d) = get_point_position P (go q b d)) by (apply constant; auto; intros s S0 S1 X; apply NB; exists s; split; auto; flra).
    apply (IN r); auto; [flra|]. rewrite C. apply F. unfold b. flra. }
  destruct OK as [[x pos] E]. destruct (exit_first x pos E) as [t [T [Ex [EP [B H]]]]]. exists t, pos. subst x. split; auto. split; auto. split; auto. split; auto.
  destruct H as [H|H]; [left|right; exact H]. intros s S0 S1.
  set (m := if r <? s then r else s). assert (Hm : 0 < m /\ m <= r /\ m <= s).
  { unfold m. destruct (r <? s) eqn:X; [change (r < s) in X|apply fltb_ge in X]; (split; [|split]); auto; flra. }
  destruct Hm as [M0 [M1 M2]]. clearbody m. assert (PM : get_point_position P (go q m d) = Interior).
  { assert (NB : ~ bound P (go q m d)) by (apply H; flra). pose proof (pos_off P (go q m d) PR NB) as Q. pose proof (IN m M0 M1) as Q'. rewrite Q in Q' |- *. destruct (par (go q m d) (cyc P)); congruence. }
  destruct (feq_dec m s) as [X|X]; [now rewrite <- X|]. rewrite <- PM. symmetry. apply constant; [apply fneq_lt in X; destruct X; flra|]. intros y Y0 Y1. apply H; flra.
Qed.
End D.
End C.
