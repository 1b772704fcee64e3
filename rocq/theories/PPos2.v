(** Positions of points in proper polygons. *)
From Coq Require Import List Bool ZArith Arith Lia Ring Field Permutation.
From Verif Require Import OField FMicromega PField MBase MDict MMut SMut MEuclid SEuclid PEuclid MSim SSim MPoly PPoly PTurn SPoint PPoint PSurf3 SCut MEar SEar PJordan PJordan2 PJordan3 PJordan4 PJordan5 PConvex PEar PEar2 PEar3 PEar4 PEar5 PPos.
Import ListNotations.

Section C.
Context {K : OField}.
Add Field KF : (of_ft K).
Local Open Scope F_scope.
Implicit Types (P : polygon K) (u v w p q x : vec K).

Lemma inv_r (y : K) : y <> 0 -> y * (1 / y) = 1.
Proof. intros N. field. auto. Qed.
Lemma two_nz : 1 + 1 <> 0 :> K.
Proof. pose proof (@flt_0_1 K). intros X. flra. Qed.
Lemma half_r : 1 / (1 + 1) + 1 / (1 + 1) = 1 :> K.
Proof. transitivity ((1 + 1) * (1 / (1 + 1)) : K); [ring|apply inv_r, two_nz]. Qed.
(** the parity of crossings *)
Definition meetb (f g : vec K * vec K) : bool := match is_segment_intersecting g f with Ok (S _) => true | _ => false end.
Lemma meetb_spec f g : fst g <> snd g -> fst f <> snd f -> meetb f g = true <-> exists x, on_segment g x /\ on_segment f x.
Proof.
  intros A B. unfold meetb. destruct (segment_spec g f A B) as [n [-> S]]. inversion S as [N E|[y [Y1 [Y2 Y3]]] E|M N E]; subst.
  - split; [discriminate|]. intros [x X]. exfalso. apply N. now exists x.
  - split; auto. intros _. exists y. split; now apply endpoint_on.
  - split; auto.
Qed.
Lemma filter_map {A B} (f : A -> B) (M : B -> bool) l : length (filter M (map f l)) = length (filter (fun a => M (f a)) l).
Proof. induction l as [|a l IH]; auto. cbn. destruct (M (f a)); cbn; auto. Qed.
Lemma par_parity P p q es : proper P -> p <> q -> ~ bound P p -> ~ bound P q -> (forall i, ~ on_segment (p, q) (vertex P i)) ->
  NoDup es -> (forall i, In i es <-> (i < length P)%nat /\ exists x, on_segment (side P i) x /\ on_segment (p, q) x) ->
  xorb (par p (cyc P)) (par q (cyc P)) = Nat.odd (length es).
Proof.
  intros PR N Bp Bq V ND ES. apply proper_simpleL in PR as [[NDP [LP _]] _].
  assert (NE : forall e, (e < length P)%nat -> fst (side P e) <> snd (side P e)).
  { intros e L. unfold side. cbn [fst snd]. apply (cyc_neq P); auto; [lia|]. rewrite cyc_side. apply (in_map (side P)), in_seq. lia. }
  rewrite (par_cross (meetb (p, q)) P p q); auto; [|lia|].
  - unfold hits. f_equal. rewrite cyc_side, filter_map. apply Permutation_length, NoDup_Permutation; auto.
    + apply NoDup_filter, seq_NoDup.
    + intros i. rewrite filter_In, in_seq, ES. split.
      * intros [I M]. apply meetb_spec in M; [|apply NE; lia|exact N]. split; [lia|auto].
      * intros [I M]. split; [lia|]. apply meetb_spec; [apply NE; lia|exact N|auto].
  - intros g G. rewrite cyc_side in G. apply in_map_iff in G as [e [<- G]]. apply in_seq in G.
    destruct (meetb (p, q) (side P e)) eqn:E.
    + apply meetb_spec in E; [|apply NE; lia|exact N]. split; auto. cbn [fst snd]. unfold bound in *.
      split; [intros H; apply Bp; exists e; split; [lia|auto]|]. split; [intros H; apply Bq; exists e; split; [lia|auto]|]. split; apply V.
    + intros x X. apply not_true_iff_false in E. apply E. apply meetb_spec; [apply NE; lia|exact N|]. now exists x.
Qed.
Theorem position_parity P p q es : proper P -> (forall i, ~ on_segment (side P i) p) -> (forall i, ~ on_segment (side P i) q) ->
  (forall i, ~ on_segment (p, q) (vertex P i)) ->
  NoDup es -> (forall i, In i es <-> (i < length P)%nat /\ exists x, on_segment (side P i) x /\ on_segment (p, q) x) ->
  get_point_position P p = get_point_position P q <-> Nat.even (length es) = true.
Proof.
  intros PR Bp Bq V ND ES.
  assert (Bp' : ~ bound P p) by (intros [e [_ H]]; now apply (Bp e)). assert (Bq' : ~ bound P q) by (intros [e [_ H]]; now apply (Bq e)).
  destruct (vec_dec p q) as [<-|N].
  - split; auto. intros _. destruct es as [|i es]; auto. exfalso. destruct (proj1 (ES i)) as [_ [x [X [t [_ [_ E]]]]]]; [now left|].
    apply (Bp i). replace p with x; auto. rewrite E. destruct p; apply vec_eq; cbn; ring.
  - rewrite !pos_off by auto. rewrite <- Nat.negb_odd, <- (par_parity P p q es) by auto. destruct (par p (cyc P)), (par q (cyc P)); cbn; split; congruence.
Qed.

(** a point of the polygon is not separated from the vertices *)
Lemma dot_bary (d a b c q : vec K) : orient a b c * dot d q = orient b c q * dot d a + orient c a q * dot d b + orient a b q * dot d c.
Proof. unfold orient, ccw, dot. destruct d, a, b, c, q; cbn; ring. Qed.
Lemma orient_bary (u v a b c q : vec K) : orient a b c * orient u v q = orient b c q * orient u v a + orient c a q * orient u v b + orient a b q * orient u v c.
Proof. unfold orient, ccw. destruct u, v, a, b, c, q; cbn; ring. Qed.
Lemma in_triangle P q : proper P -> get_point_position P q <> Outside ->
  exists a b c, (a < length P)%nat /\ (b < length P)%nat /\ (c < length P)%nat /\ 0 < orient (vertex P a) (vertex P b) (vertex P c) /\
    0 <= orient (vertex P a) (vertex P b) q /\ 0 <= orient (vertex P b) (vertex P c) q /\ 0 <= orient (vertex P c) (vertex P a) q.
Proof.
  intros PR N. destruct (triangulate_ok P PR) as [s [outer [_ [T _]]]]. destruct (proj2 (tr_cover _ _ _ T q) N) as [l [Q [G H]]].
  destruct (tr_triangles _ _ _ T l Q G) as (a & b & c & La & Lb & Lc & -> & O). exists a, b, c. repeat split; auto.
  - exact (H 0%nat ltac:(cbn; lia)).
  - exact (H 1%nat ltac:(cbn; lia)).
  - exact (H 2%nat ltac:(cbn; lia)).
Qed.
Theorem position_separated P q (d : vec K) : proper P -> (forall i, (i < length P)%nat -> dot d q < dot d (vertex P i)) -> get_point_position P q = Outside.
Proof.
  intros PR H. assert (X : get_point_position P q = Outside \/ get_point_position P q <> Outside) by (destruct (get_point_position P q); auto; right; discriminate).
  destruct X as [X|X]; auto. exfalso. destruct (in_triangle P q PR X) as (a & b & c & La & Lb & Lc & O & A & B & C).
  pose proof (dot_bary d (vertex P a) (vertex P b) (vertex P c) q) as E. pose proof (orient_sum (vertex P a) (vertex P b) (vertex P c) q) as S.
  apply H in La, Lb, Lc. 
  set (o := orient (vertex P a) (vertex P b) (vertex P c)) in *. set (x := orient (vertex P a) (vertex P b) q) in *.
  set (y := orient (vertex P b) (vertex P c) q) in *. set (z := orient (vertex P c) (vertex P a) q) in *.
  set (da := dot d (vertex P a)) in *. set (db := dot d (vertex P b)) in *. set (dc := dot d (vertex P c)) in *. set (e := dot d q) in *. clearbody o x y z da db dc e.
  assert (E' : y * (da - e) + z * (db - e) + x * (dc - e) = 0) by (transitivity ((y * da + z * db + x * dc) - (x + y + z) * e); [ring|rewrite <- E; assert (Q : x + y + z = o) by flra; rewrite Q; ring]).
  assert (0 <= y * (da - e)) by fnra. assert (0 <= z * (db - e)) by fnra. assert (0 <= x * (dc - e)) by fnra.
  assert (y * (da - e) = 0) by flra. assert (z * (db - e) = 0) by flra. assert (x * (dc - e) = 0) by flra.
  assert (y = 0) by fnra. assert (z = 0) by fnra. assert (x = 0) by fnra. flra.
Qed.

(** convex polygons *)
Lemma corner_cyc P i : (0 < length P)%nat -> In (vertex P i, vertex P (S i)) (cyc P).
Proof.
  intros L. rewrite cyc_side. apply in_map_iff. exists (i mod length P)%nat. split; [|apply in_seq; pose proof (Nat.mod_upper_bound i (length P)); lia].
  unfold side. rewrite vertex_mod. f_equal. rewrite <- (vertex_mod P (S i)), <- (vertex_mod P (S (i mod length P))). f_equal.
  rewrite <- Nat.add_1_r, <- (Nat.add_1_r i). rewrite Nat.add_mod_idemp_l; auto. lia.
Qed.
Lemma cyc_corners P u v w : NoDup P -> (2 <= length P)%nat -> In (u, v) (cyc P) -> In (v, w) (cyc P) ->
  exists i, (i < length P)%nat /\ u = vertex P i /\ v = vertex P (S i) /\ w = vertex P (S (S i)).
Proof.
  intros ND L U W. pose proof U as U'. rewrite cyc_side in U'. apply in_map_iff in U' as [i [E I]]. apply in_seq in I. injection E as <- <-.
  exists i. split; [lia|]. split; auto. split; auto. apply (cyc_succ P (vertex P (S i))); auto. apply corner_cyc. lia.
Qed.
Lemma corner_orient P i : ccw (edge P i) (edge P (S i)) = orient (vertex P i) (vertex P (S i)) (vertex P (S (S i))).
Proof. unfold edge, orient, ccw. destruct (vertex P i), (vertex P (S i)), (vertex P (S (S i))); cbn; ring. Qed.
Lemma convex_weak P : NoDup P -> (2 <= length P)%nat -> is_convex false P = true <-> no_right_turns P.
Proof.
  intros ND L. unfold is_convex. rewrite forallb_forall. split.
  - intros H u v w U W. destruct (cyc_corners P u v w ND L U W) as [i [I [-> [-> ->]]]]. specialize (H i ltac:(apply in_seq; lia)). cbn in H.
    apply negb_true_iff in H. rewrite corner_orient in H. exact H.
  - intros H i I. apply in_seq in I. cbn. apply negb_true_iff. rewrite corner_orient. apply H; apply corner_cyc; lia.
Qed.
Lemma convex_strict P : simpleL P -> is_convex true P = true <-> left_turns P.
Proof.
  intros SP. pose proof SP as [ND [L _]]. rewrite (left_turns_cyc P SP). unfold is_convex. rewrite forallb_forall. split.
  - intros H u v w U W. destruct (cyc_corners P u v w ND ltac:(lia) U W) as [i [I [-> [-> ->]]]]. specialize (H i ltac:(apply in_seq; lia)). cbn in H.
    apply negb_true_iff in H. rewrite corner_orient in H. now apply fleb_false in H.
  - intros H i I. apply in_seq in I. cbn. apply negb_true_iff. rewrite corner_orient. apply fleb_false. apply H; apply corner_cyc; lia.
Qed.
Lemma nth_vertex P w : In w P -> exists i, (i < length P)%nat /\ w = vertex P i.
Proof. intros I. apply (In_nth _ _ vzero) in I as [i [L <-]]. exists i. split; auto. now rewrite vertex_lt. Qed.
Lemma vertex_in P i : (0 < length P)%nat -> In (vertex P i) P.
Proof. intros L. unfold vertex. apply nth_In. apply Nat.mod_upper_bound. lia. Qed.

(** small steps do not reach a segment *)
Lemma lin_small (a k : K) : 0 < a -> exists r, 0 < r /\ forall t, 0 <= t -> t <= r -> 0 < a + t * k.
Proof.
  intros A. destruct (flt_total k) as [N|[Z|N]].
  - exists (a / ((1 + 1) * - k)). pose proof (@flt_0_1 K). assert (D : (1 + 1) * - k <> 0) by (intros X; flra). split; [apply fdiv_pos; flra|].
    intros t T0 T1. assert (E : (a / ((1 + 1) * - k)) * ((1 + 1) * - k) = a) by (clear - D; set (y := (1 + 1) * - k) in *; clearbody y; field; auto).
    set (r := a / ((1 + 1) * - k)) in *. clearbody r. assert (t * (- k) <= r * (- k)) by fnra. flra.
  - exists 1. split; [apply flt_0_1|]. intros t _ _. subst k. flra.
  - exists 1. split; [apply flt_0_1|]. intros t T _. fnra.
Qed.
Lemma seg_small (g : vec K * vec K) b d : ~ on_segment g b -> exists r, 0 < r /\ forall t, 0 <= t -> t <= r -> ~ on_segment g (vadd b (vscale t d)).
Proof.
  destruct g as [u v]. intros N. destruct (vec_dec u v) as [<-|Nuv].
  { assert (P : forall x, on_segment (u, u) x <-> x = u).
    { intros x. split; [intros [s [_ [_ ->]]]; cbn; destruct u; apply vec_eq; cbn; ring|intros ->; apply on_seg_l]. }
    rewrite P in N. destruct (feq_dec (fst b) (fst u)) as [E1|E1].
    - destruct (feq_dec (snd b) (snd u)) as [E2|E2]; [exfalso; apply N; destruct b, u; cbn in *; now subst|].
      apply fneq_lt in E2. destruct E2 as [E2|E2].
      + destruct (lin_small (snd u - snd b) (- snd d)) as [r [R H]]; [flra|]. exists r. split; auto. intros t T0 T1 O. apply P in O.
        specialize (H t T0 T1). rewrite <- O in H. cbn in H. assert (X : snd b + t * snd d - snd b + t * - snd d = 0) by ring. flra.
      + destruct (lin_small (snd b - snd u) (snd d)) as [r [R H]]; [flra|]. exists r. split; auto. intros t T0 T1 O. apply P in O.
        specialize (H t T0 T1). rewrite <- O in H. cbn in H. flra.
    - apply fneq_lt in E1. destruct E1 as [E2|E2].
      + destruct (lin_small (fst u - fst b) (- fst d)) as [r [R H]]; [flra|]. exists r. split; auto. intros t T0 T1 O. apply P in O.
        specialize (H t T0 T1). rewrite <- O in H. cbn in H. assert (X : fst b + t * fst d - fst b + t * - fst d = 0) by ring. flra.
      + destruct (lin_small (fst b - fst u) (fst d)) as [r [R H]]; [flra|]. exists r. split; auto. intros t T0 T1 O. apply P in O.
        specialize (H t T0 T1). rewrite <- O in H. cbn in H. flra. }
  set (w := vsub v u). assert (Dw : 0 < dot w w).
  { assert (W : w <> vzero) by now apply vsub_nz. clearbody w. destruct w as [w1 w2]. unfold dot. cbn.
    destruct (feq_dec w1 0) as [Z1|Z1]; [destruct (feq_dec w2 0) as [Z2|Z2]; [exfalso; apply W; now subst|]|].
    - apply fneq_lt in Z2. destruct Z2; fnra.
    - apply fneq_lt in Z1. destruct Z1; fnra. }
  assert (ON : forall x, on_segment (u, v) x -> orient u v x = 0 /\ 0 <= dot w (vsub x u) /\ dot w (vsub x u) <= dot w w).
  { intros x [s [S0 [S1 ->]]]. cbn [fst snd]. split; [rewrite orient_seg, orient_l, orient_r; ring|].
    assert (E : dot w (vsub (vadd u (vscale s (vsub v u))) u) = s * dot w w) by (unfold w, dot; destruct u, v; cbn; ring). rewrite E. split; fnra. }
  assert (EO : forall t, orient u v (vadd b (vscale t d)) = orient u v b + t * ccw w d) by (intros t; unfold orient, ccw, w; destruct u, v, b, d; cbn; ring).
  assert (ED : forall t, dot w (vsub (vadd b (vscale t d)) u) = dot w (vsub b u) + t * dot w d) by (intros t; unfold dot; destruct u, w, b, d; cbn; ring).
  destruct (flt_total (orient u v b)) as [O|[O|O]].
  - destruct (lin_small (- orient u v b) (- ccw w d)) as [r [R H]]; [flra|]. exists r. split; auto. intros t T0 T1 X. apply ON in X as [X _].
    rewrite EO in X. specialize (H t T0 T1). assert (t * - ccw w d = - (t * ccw w d)) by ring. flra.
  - destruct (flt_total (dot w (vsub b u))) as [D|D].
    + destruct (lin_small (- dot w (vsub b u)) (- dot w d)) as [r [R H]]; [flra|]. exists r. split; auto. intros t T0 T1 X. apply ON in X as [_ [X _]].
      rewrite ED in X. specialize (H t T0 T1). assert (t * - dot w d = - (t * dot w d)) by ring. flra.
    + assert (D' : dot w w < dot w (vsub b u)).
      { destruct (dot w w <? dot w (vsub b u)) eqn:E; [exact E|]. apply fltb_ge in E. exfalso. apply N. exists (dot w (vsub b u) / dot w w). cbn [fst snd].
        split; [apply fdiv_nonneg; destruct D; flra|]. split; [apply fdiv_le; flra|]. assert (NZ : dot w w <> 0) by (intros X; flra).
        clear - O NZ. unfold w, orient, ccw, dot in *. destruct u as [u1 u2], v as [v1 v2], b as [b1 b2]. cbn in *.
        set (p := v1 - u1) in *. set (q := v2 - u2) in *. set (x := b1 - u1) in *. set (y := b2 - u2) in *.
        apply vec_eq; cbn.
        - transitivity (u1 + x); [unfold x; ring|]. f_equal. fold p. apply (fcancel _ _ (p * p + q * q)); auto.
          transitivity ((p * x + q * y) * p + q * (q * x - p * y)); [ring|]. transitivity ((p * x + q * y) * p); [|field; auto].
          assert (Q : q * x - p * y = - (p * y - q * x)) by ring. rewrite Q, O. ring.
        - transitivity (u2 + y); [unfold y; ring|]. f_equal. fold q. apply (fcancel _ _ (p * p + q * q)); auto.
          transitivity ((p * x + q * y) * q + p * (p * y - q * x)); [ring|]. rewrite O. field; auto. }
      destruct (lin_small (dot w (vsub b u) - dot w w) (dot w d)) as [r [R H]]; [flra|]. exists r. split; auto. intros t T0 T1 X. apply ON in X as [_ [_ X]].
      rewrite ED in X. specialize (H t T0 T1). flra.
  - destruct (lin_small (orient u v b) (ccw w d)) as [r [R H]]; [flra|]. exists r. split; auto. intros t T0 T1 X. apply ON in X as [X _].
    rewrite EO in X. specialize (H t T0 T1). flra.
Qed.
Lemma segs_small (gs : list (vec K * vec K)) b d : (forall g, In g gs -> ~ on_segment g b) ->
  exists r, 0 < r /\ forall g t, In g gs -> 0 <= t -> t <= r -> ~ on_segment g (vadd b (vscale t d)).
Proof.
  induction gs as [|g gs IH]; intros H.
  - exists 1. split; [apply flt_0_1|]. intros g t [].
  - destruct IH as [r [R A]]; [intros h I; apply H; now right|]. destruct (seg_small g b d) as [r' [R' A']]; [apply H; now left|].
    destruct (r <? r') eqn:E.
    + change (r < r') in E. exists r. split; auto. intros h t [<-|I] T0 T1; [apply A'; flra|now apply A].
    + apply fltb_ge in E. exists r'. split; auto. intros h t [<-|I] T0 T1; [now apply A'|apply A; auto; flra].
Qed.
Lemma disjoint_small g b d (r : K) : 0 < r -> (forall t, 0 <= t -> t <= r -> ~ on_segment g (vadd b (vscale t d))) -> disjoint g (b, vadd b (vscale r d)).
Proof.
  intros R H x [X [t [T0 [T1 E]]]]. cbn [fst snd] in E. apply (H (t * r)); [fnra|fnra|]. replace (vadd b (vscale (t * r) d)) with x; auto.
  rewrite E. destruct b, d; apply vec_eq; cbn; ring.
Qed.

Section X.
Context (P : polygon K) (PR : proper P) (CV : is_convex false P = true).
Lemma cv_left i j : 0 <= orient (vertex P i) (vertex P (S i)) (vertex P j).
Proof.
  pose proof (proj1 (proper_simpleL P) PR) as [SP _]. pose proof SP as [ND [L _]]. apply convex_weak in CV; auto; [|lia].
  apply (weak_left P SP CV); [apply corner_cyc; lia|apply vertex_in; lia].
Qed.
Lemma cv_in q : get_point_position P q <> Outside -> left_or_on P q.
Proof.
  intros N e L. destruct (in_triangle P q PR N) as (a & b & c & La & Lb & Lc & O & A & B & C).
  pose proof (orient_bary (vertex P e) (vertex P (S e)) (vertex P a) (vertex P b) (vertex P c) q) as E.
  pose proof (cv_left e a) as Oa. pose proof (cv_left e b) as Ob. pose proof (cv_left e c) as Oc.
  set (o := orient (vertex P a) (vertex P b) (vertex P c)) in *. set (r := orient (vertex P e) (vertex P (S e)) q) in *. clearbody o r.
  assert (0 <= o * r) by (rewrite E; fnra). fnra.
Qed.
Lemma cv_middle : exists p, strictly_left P p /\ get_point_position P p <> Outside.
Proof.
  pose proof (proj1 (proper_simpleL P) PR) as [[_ [L3 _]] _].
  destruct (triangulate_ok P PR) as [s [outer [_ [T _]]]].
  assert (LB : is_label s 0%Z) by (apply (tr_labels _ _ _ T); lia). destruct LB as [Q G].
  destruct (tr_triangles _ _ _ T 0%Z Q G) as (a & b & c & La & Lb & Lc & EQ & O).
  set (third := (1 / (1 + 1 + 1) : K)). set (p := vscale third (vadd (vertex P a) (vadd (vertex P b) (vertex P c)))).
  assert (D3 : 1 + 1 + 1 <> 0 :> K) by (pose proof (@flt_0_1 K); intros X; flra).
  assert (TH : 0 < third) by (apply fdiv_pos; pose proof (@flt_0_1 K); flra).
  assert (OP : forall u v, orient u v p = third * (orient u v (vertex P a) + orient u v (vertex P b) + orient u v (vertex P c))).
  { intros u v. assert (E3 : (1 + 1 + 1) * third = 1) by (unfold third; apply inv_r, D3).
    transitivity (third * (orient u v (vertex P a) + orient u v (vertex P b) + orient u v (vertex P c)) + ((1 + 1 + 1) * third - 1) * ccw (vsub v u) u); [|rewrite E3; ring].
    unfold p. clearbody third. unfold orient, ccw. destruct u, v, (vertex P a), (vertex P b), (vertex P c); cbn; ring. }
  exists p. split.
  - intros e L. rewrite OP.
    pose proof (cv_left e a) as Oa. pose proof (cv_left e b) as Ob. pose proof (cv_left e c) as Oc.
    assert (X : 0 < orient (vertex P e) (vertex P (S e)) (vertex P a) + orient (vertex P e) (vertex P (S e)) (vertex P b) + orient (vertex P e) (vertex P (S e)) (vertex P c)).
    { set (f := orient (vertex P e) (vertex P (S e))) in *. destruct (feq_dec (f (vertex P a)) 0) as [Za|Za]; [|apply fneq_lt in Za; destruct Za; flra].
      destruct (feq_dec (f (vertex P b)) 0) as [Zb|Zb]; [|apply fneq_lt in Zb; destruct Zb; flra].
      destruct (feq_dec (f (vertex P c)) 0) as [Zc|Zc]; [|apply fneq_lt in Zc; destruct Zc; flra]. exfalso.
      assert (E : forall x, f x = 0).
      { intros x. pose proof (orient_bary (vertex P e) (vertex P (S e)) (vertex P a) (vertex P b) (vertex P c) x) as E. fold f in E.
        rewrite Za, Zb, Zc in E. apply (fcancel _ _ (orient (vertex P a) (vertex P b) (vertex P c))); [intros X; flra|].
        transitivity (orient (vertex P a) (vertex P b) (vertex P c) * f x); [ring|]. rewrite E. ring. }
      destruct PR as [_ [NE _]]. apply (NE e). unfold edge. unfold f, orient, ccw in E. clear - E.
      destruct (vertex P e) as [u1 u2], (vertex P (S e)) as [v1 v2]. pose proof (E (u1 + 1, u2)) as E1. pose proof (E (u1, u2 + 1)) as E2. cbn in E1, E2.
      apply vec_eq; cbn; [transitivity ((v1 - u1) * (u2 + 1 - u2) - (v2 - u2) * (u1 - u1)); [ring|exact E2]|].
      transitivity (- ((v1 - u1) * (u2 - u2) - (v2 - u2) * (u1 + 1 - u1))); [ring|rewrite E1; ring]. }
    fnra.
  - apply (tr_cover _ _ _ T). exists 0%Z, Q. split; auto. rewrite EQ. intros e L. cbn [length] in L.
    pose proof (orient_rot1 (vertex P a) (vertex P b) (vertex P c)) as R1. pose proof (orient_rot1 (vertex P b) (vertex P c) (vertex P a)) as R2.
    destruct e as [|[|[|e]]]; [| | |lia].
    + change (0 <= orient (vertex P a) (vertex P b) p). rewrite OP, orient_l, orient_r. fnra.
    + change (0 <= orient (vertex P b) (vertex P c) p). rewrite OP, orient_l, orient_r. fnra.
    + change (0 <= orient (vertex P c) (vertex P a) p). rewrite OP, orient_l, orient_r. fnra.
Qed.
Lemma cv_bound p : strictly_left P p -> ~ bound P p.
Proof. intros S [e [L [t [_ [_ ->]]]]]. specialize (S e L). unfold side in S. cbn [fst snd] in S. rewrite orient_seg, orient_l, orient_r in S. flra. Qed.
Lemma cv_out q : left_or_on P q -> get_point_position P q <> Outside.
Proof.
  intros LQ. destruct cv_middle as [p [SP NP]]. pose proof (proj1 (proper_simpleL P) PR) as [SL _]. pose proof SL as [ND [L3 _]].
  destruct (boundary_dec P q SL) as [B|B].
  { apply pos_bound; auto. now apply bound_cyc. }
  assert (Bq : ~ bound P q) by (rewrite bound_cyc; intros [g [G O]]; now apply (B g)).
  pose proof (cv_bound p SP) as Bp. destruct (vec_dec p q) as [<-|N]; auto.
  rewrite pos_off in NP |- * by auto. rewrite <- (par_segment P p q); auto; [lia|].
  intros g G x [X [t [T0 [T1 Ex]]]]. cbn [fst snd] in Ex. rewrite cyc_side in G. apply in_map_iff in G as [e [<- G]]. apply in_seq in G.
  destruct (feq_dec t 1) as [->|T].
  - apply Bq. exists e. split; [lia|]. replace q with x; auto. rewrite Ex. destruct p, q; apply vec_eq; cbn; ring.
  - specialize (SP e ltac:(lia)). specialize (LQ e ltac:(lia)). assert (t < 1) by (apply fneq_lt in T; destruct T; flra).
    assert (Z : orient (vertex P e) (vertex P (S e)) x = 0) by (destruct X as [s [_ [_ ->]]]; unfold side; cbn [fst snd]; rewrite orient_seg, orient_l, orient_r; ring).
    rewrite Ex, orient_seg in Z. fnra.
Qed.
Theorem position_convex q : (get_point_position P q <> Outside <-> left_or_on P q) /\ (get_point_position P q = Interior <-> strictly_left P q).
Proof.
  assert (A : get_point_position P q <> Outside <-> left_or_on P q) by (split; [apply cv_in|apply cv_out]). split; auto. split.
  - intros I. assert (LQ : left_or_on P q) by (apply A; rewrite I; discriminate). intros e L. specialize (LQ e L).
    destruct (feq_dec (orient (vertex P e) (vertex P (S e)) q) 0) as [Z|Z]; [|apply fneq_lt in Z; destruct Z; flra]. exfalso.
    destruct cv_middle as [p [SP NP]]. pose proof (proj1 (proper_simpleL P) PR) as [SL _]. pose proof SL as [ND [L3 _]].
    assert (Bq : forall g, In g (cyc P) -> ~ on_segment g q).
    { intros g G O. destruct (pos_bound P q PR) as [_ X]; [apply bound_cyc; eauto|auto]. }
    destruct (segs_small (cyc P) q (vsub q p) Bq) as [r [R H]].
    set (q' := vadd q (vscale r (vsub q p))).
    assert (OUT : get_point_position P q' = Outside).
    { destruct (get_point_position P q') eqn:E; auto; exfalso; assert (X : left_or_on P q') by (apply cv_in; congruence); specialize (X e L); specialize (SP e L);
      assert (Y : orient (vertex P e) (vertex P (S e)) q' = (1 + r) * orient (vertex P e) (vertex P (S e)) q - r * orient (vertex P e) (vertex P (S e)) p)
        by (unfold q', orient, ccw; destruct (vertex P e), (vertex P (S e)), p, q; cbn; ring); rewrite Y, Z in X; fnra. }
    assert (NQ : q <> q').
    { intros E. pose proof (f_equal (get_point_position P) E). congruence. }
    assert (PE : par q (cyc P) = par q' (cyc P)).
    { apply par_segment; auto; [lia|]. intros g G. apply disjoint_small; auto. }
    rewrite pos_off in OUT, I; auto.
    + rewrite PE in I. destruct (par q' (cyc P)); discriminate.
    + rewrite bound_cyc. intros [g [G O]]. now apply (Bq g).
    + rewrite bound_cyc. intros [g [G O]]. apply (H g r G); auto; flra.
  - intros S. pose proof (cv_bound q S) as B. assert (N : get_point_position P q <> Outside) by (apply A; intros e L; specialize (S e L); flra).
    rewrite pos_off in * by auto. now destruct (par q (cyc P)).
Qed.
End X.
(** only convex polygons have convex sets of points *)
Theorem convex_region P : proper P -> is_convex false P = true <->
  (forall p q x, get_point_position P p <> Outside -> get_point_position P q <> Outside -> on_segment (p, q) x -> get_point_position P x <> Outside).
Proof.
  intros PR. pose proof (proj1 (proper_simpleL P) PR) as [SL IX]. pose proof SL as [ND [L3 SI]]. split.
  - intros CV p q x Hp Hq [t [T0 [T1 ->]]]. cbn [fst snd]. apply (position_convex P PR CV) in Hp, Hq. apply (position_convex P PR CV).
    intros e L. specialize (Hp e L). specialize (Hq e L). rewrite orient_seg. fnra.
  - intros H. apply convex_weak; auto; [lia|]. intros a b c AB BC. destruct (orient a b c <? 0) eqn:E; [|exact E]. exfalso. change (orient a b c < 0) in E.
    destruct (cyc_in_l _ _ _ BC) as [Ib _]. apply rot_to in Ib as [l R]. pose proof (simpleL_rot _ _ R SL) as Sb.
    destruct (c_ab b l _ _ Sb eq_refl eq_refl) as [AB' [BC' [Nab [Ncb [Nac [NL [NI [Ia Ic]]]]]]]].
    assert (Ea : a = last l b). { apply (cyc_pred P a (last l b) b); auto; [lia|]. now apply (rot_cyc_in _ _ _ R). }
    assert (Ec : c = hd b l). { apply (cyc_succ P b c (hd b l)); auto; [lia|]. now apply (rot_cyc_in _ _ _ R). }
    pose proof (simpleL_rev _ _ Sb) as Sr. pose proof (index_rev _ _ Sb) as Ir. rewrite <- (index_rot _ _ R SL), IX in Ir. cbn in Ir.
    assert (NL' : rev l <> []) by (intros X; apply NL; rewrite <- (rev_involutive l), X; reflexivity).
    set (d := vadd (vsub a b) (vsub c b)).
    destruct (segs_small (segs l) b d) as [r0 [R0 HS]]; [intros g G; now apply (simple_off b l)|].
    set (r := if r0 <? 1 / (1 + 1) then r0 else 1 / (1 + 1)).
    assert (HALF : (0 : K) < 1 / (1 + 1)) by (apply fdiv_pos; pose proof (@flt_0_1 K); flra).
    assert (RR : 0 < r /\ r <= r0 /\ r <= 1 / (1 + 1)).
    { unfold r. destruct (r0 <? 1 / (1 + 1)) eqn:F; [change (r0 < 1 / (1 + 1)) in F|apply fltb_ge in F]; repeat split; flra. }
    clearbody r. destruct RR as [R1 [R2 R3]]. set (x := vadd b (vscale r d)).
    assert (DS : forall g, In g (segs l) -> disjoint g (b, x)) by (intros g G; apply disjoint_small; auto; intros t T0 T1; apply HS; auto; flra).
    assert (EC : ccw (vsub a b) (vsub c b) = - orient a b c) by (unfold orient, ccw; destruct a, b, c; cbn; ring).
    assert (EX : vsub x b = vscale r d) by (unfold x; destruct b, d; apply vec_eq; cbn; ring).
    assert (PX : par x (cyc P) = false).
    { rewrite (par_perm x _ _ (cyc_rot _ _ R)). transitivity (par x (cyc (b :: rev l))).
      - rewrite !cyc_path by auto. rewrite hd_rev, last_rev, segs_rev. cbn [par]. rewrite !par_app, par_rev. cbn [par].
        rewrite (crs_sym b (last l b)), (crs_sym (hd b l) b). destruct (crs (b, hd b l) x), (crs (last l b, b) x), (par x (segs l)); reflexivity.
      - rewrite par_inside; auto.
        + intros [u v] G. rewrite segs_rev in G. apply in_map_iff in G as [[v' u'] [[= <- <-] G]]. apply in_rev in G. apply disjoint_swap. now apply DS.
        + rewrite hd_rev, last_rev, <- Ea, <- Ec, EC. flra.
        + rewrite hd_rev, <- Ea, EX. assert (Y : ccw (vsub a b) (vscale r d) = r * ccw (vsub a b) (vsub c b)) by (unfold d, ccw; destruct a, b, c; cbn; ring).
          rewrite Y, EC. fnra.
        + rewrite last_rev, <- Ec, EX. assert (Y : ccw (vscale r d) (vsub c b) = r * ccw (vsub a b) (vsub c b)) by (unfold d, ccw; destruct a, b, c; cbn; ring).
          rewrite Y, EC. fnra. }
    assert (BX : ~ bound P x).
    { rewrite bound_cyc. intros [g [G O]]. apply (rot_cyc_in _ _ _ R) in G. rewrite cyc_path in G by auto. rewrite <- Ea, <- Ec in G.
      assert (OX : orient a b x = r * orient a b c) by (unfold x, d, orient, ccw; destruct a, b, c; cbn; ring).
      assert (OX' : orient b c x = r * orient a b c) by (unfold x, d, orient, ccw; destruct a, b, c; cbn; ring).
      destruct G as [<-|G].
      - destruct O as [t [_ [_ Q]]]. cbn [fst snd] in Q. rewrite Q, orient_seg, orient_l, orient_r in OX'. fnra.
      - apply in_app_or in G as [G|[<-|[]]]; [apply (DS g G x); split; auto; apply on_seg_r|].
        destruct O as [t [_ [_ Q]]]. cbn [fst snd] in Q. rewrite Q, orient_seg, orient_l, orient_r in OX. fnra. }
    assert (HX : get_point_position P x <> Outside).
    { set (s := (1 + 1) * r). assert (S1 : s <= 1) by (unfold s; pose proof half_r; flra).
      assert (S0 : 0 <= s) by (unfold s; flra).
      apply (H (vadd b (vscale s (vsub a b))) (vadd b (vscale s (vsub c b)))).
      - apply pos_bound; auto. apply bound_cyc. exists (a, b). split; auto. apply on_seg_sym. exists s. auto.
      - apply pos_bound; auto. apply bound_cyc. exists (b, c). split; auto. exists s. auto.
      - exists (1 / (1 + 1)). cbn [fst snd]. split; [flra|]. split; [pose proof half_r; flra|].
        pose proof (inv_r _ two_nz) as I2. set (h := (1 / (1 + 1) : K)) in *. clearbody h.
        assert (GE : forall b0 a0 c0 : K, b0 + r * (a0 - b0 + (c0 - b0)) = b0 + s * (a0 - b0) + h * (b0 + s * (c0 - b0) - (b0 + s * (a0 - b0)))).
        { intros b0 a0 c0. unfold s. transitivity (b0 + (1 + 1) * r * (a0 - b0) + ((1 + 1) * h) * r * (c0 - a0)); [rewrite I2; ring|ring]. }
        unfold x, d. destruct a, b, c; apply vec_eq; apply GE. }
    apply HX. rewrite pos_off, PX; auto.
Qed.
End C.
