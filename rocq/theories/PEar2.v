(** The triangles of ear clipping tile the polygon. *)
From Coq Require Import List Bool ZArith Arith Lia Ring Field Permutation.
From Verif Require Import OField FMicromega PField MBase MEuclid SEuclid PEuclid SSim MPoly SPoint PPoly SCut PSimple PPoint PFlip PJordan PJordan2 PJordan3 PJordan4 PJordan5 MEar PEar.
Import ListNotations.

Section E.
Context {K : OField}.
Add Field KFear2 : (of_ft K).
Local Open Scope F_scope.
Implicit Types (q : vec K).

Definition in_open (a b c q : vec K) := 0 < orient a b q /\ 0 < orient b c q /\ 0 < orient c a q.

Lemma triangle_simple (a b c : vec K) : 0 < orient a b c -> simpleL [b; c; a] /\ index [b; c; a] = true.
Proof.
  intros O. rewrite orient_rot1 in O. apply tri_ok in O. apply proper_simpleL.
  unfold Polygon_vertices in O. destruct (polygon_check [b; c; a]) as [[]|] eqn:E; [|discriminate].
  apply polygon_check_spec in E. destruct E as [[A B] [C D]]. repeat split; auto.
Qed.
Lemma center (a b c : vec K) : 0 < orient a b c -> exists q, in_open a b c q.
Proof.
  intros O. exists (vadd b (vscale (1 / 2) (vsub (vadd a (vscale (1 / 2) (vsub c a))) b))).
  unfold in_open. rewrite !orient_seg. rewrite !orient_l, !orient_r, (orient_rot1 c a b).
  pose proof (orient_rot1 a b c). assert (H2 : 0 < (1 / 2 : K)) by (apply fdiv_pos; [apply f2_pos|apply flt_0_1]).
  assert (H2' : 1 / 2 + 1 / 2 = (1 : K)) by (field; apply f2_neq0). set (h := 1 / 2) in *. clearbody h.
  rewrite <- H. set (D := orient a b c) in *. clearbody D.
  assert (D1 : 0 < h * D) by now apply fmul_pos. assert (D2 : 0 < h * (h * D)) by now apply fmul_pos.
  assert (E1 : h * D + h * D = D) by (transitivity ((h + h) * D); [ring|rewrite H2'; ring]).
  assert (E2 : h * (h * D) + h * (h * D) = h * D) by (transitivity ((h + h) * (h * D)); [ring|rewrite H2'; ring]).
  repeat split; flra.
Qed.
Lemma open_tri (a b c : vec K) q : in_open a b c q -> in_tri a b c q.
Proof. intros [A [B C]]. repeat split; flra. Qed.
Lemma open_off (a b c : vec K) q g : in_open a b c q -> In g [(a, b); (b, c); (c, a)] -> ~ on_segment g q.
Proof.
  intros [A [B C]] I [t [T0 [T1 ->]]]. cbn in I. destruct I as [<-|[<-|[<-|[]]]]; cbn [fst snd] in *.
  - rewrite orient_seg, orient_l, orient_r in A. fnra.
  - rewrite orient_seg, orient_l, orient_r in B. fnra.
  - rewrite orient_seg, orient_l, orient_r in C. fnra.
Qed.
Lemma triangle_par (a b c : vec K) q : 0 < orient a b c -> in_open a b c q -> xorb (crs (a, b) q) (xorb (crs (b, c) q) (crs (c, a) q)) = true.
Proof.
  intros O Q. destruct (triangle_simple a b c O) as [S I]. rewrite <- I, <- (par_inside b [c; a] q S).
  - cbn. destruct (crs (b, c) q), (crs (a, b) q), (crs (c, a) q); reflexivity.
  - intros g [<-|[]] x [X [t [T0 [T1 ->]]]]. cbn [fst snd] in *. destruct X as [u [U0 [U1 E]]]. cbn [fst snd] in E.
    assert (F : orient c a (vadd b (vscale t (vsub q b))) = 0) by (rewrite E, orient_seg, orient_l, orient_r; ring).
    rewrite orient_seg, (orient_rot1 c a b) in F. destruct Q as [_ [_ Q]]. pose proof (orient_rot1 a b c).
    assert (0 < orient a b c + t * (orient c a q - orient a b c)) by fnra. flra.
  - cbn. rewrite orient_rot1 in O. exact O.
  - cbn. apply Q.
  - cbn. destruct Q as [Q _]. rewrite ccw_anti. unfold orient in Q. 
    replace (- ccw (vsub a b) (vsub q b)) with (ccw (vsub b a) (vsub q a)); auto. unfold ccw. destruct a, b, q; cbn; ring.
Qed.

Section Corner.
Context (b : vec K) (l : list (vec K)) (a c : vec K).
Hypothesis Sb : simpleL (b :: l).
Hypothesis Ha : last l b = a.
Hypothesis Hc : hd b l = c.
Hypothesis Ob : 0 < orient a b c.
Hypothesis EM : empty_corner b l a c.
Hypothesis N : (3 <= length l)%nat.
Hypothesis IX : index (b :: l) = true.

Lemma corner_off q g : in_tri a b c q -> 0 < orient c a q -> In g (cyc l) -> ~ on_segment g q.
Proof.
  intros T D I O. rewrite (cyc_tail b l a c Sb Ha Hc) in I. apply in_app_or in I. destruct I as [I|[<-|[]]].
  - assert (orient c a q = 0) by (eapply ear_region; eauto). flra.
  - destruct O as [t [_ [_ ->]]]. cbn [fst snd] in D. rewrite orient_seg, orient_l, orient_r in D. flra.
Qed.
(** points of the ear that are not on the diagonal and on no other edge *)
Lemma corner_par q : 0 < orient a b q -> 0 < orient b c q -> 0 <= orient c a q -> (forall g, In g (segs l) -> ~ on_segment g q) ->
  par q (cyc (b :: l)) = true.
Proof.
  intros A B C OFF. rewrite <- IX. apply par_inside; auto.
  - intros g I x [X X']. destruct (vec_dec x q) as [->|NE]; [now apply (OFF g)|].
    assert (T : in_tri a b c x).
    { apply (tri_convex a b c b q); auto; [|repeat split; flra]. unfold in_tri. rewrite orient_l, orient_r, (orient_rot1 c a b). repeat split; flra. }
    assert (E : orient c a x = 0) by (eapply ear_region; eauto). destruct X' as [t [T0 [T1 ->]]]. cbn [fst snd] in *.
    rewrite orient_seg, (orient_rot1 c a b) in E. destruct (feq_dec t 1) as [->|Nt].
    + apply NE. destruct b, q; apply vec_eq; cbn; ring.
    + apply fneq_lt in Nt. assert (0 < orient a b c + t * (orient c a q - orient a b c)) by (destruct Nt; fnra). flra.
  - rewrite Ha, Hc. rewrite orient_rot1 in Ob. exact Ob.
  - rewrite Hc. exact B.
  - rewrite Ha. unfold orient in A. replace (ccw (vsub q b) (vsub a b)) with (ccw (vsub b a) (vsub q a)); auto. unfold ccw. destruct a, b, q; cbn; ring.
Qed.
Lemma corner_open q : in_open a b c q -> par q (cyc (b :: l)) = true /\ par q (cyc l) = false /\ forall g, In g (cyc (b :: l)) -> ~ on_segment g q.
Proof.
  intros Q. assert (OFF : forall g, In g (cyc l) -> ~ on_segment g q) by (intros g; apply corner_off; [now apply open_tri|apply Q]).
  assert (OFF' : forall g, In g (segs l) -> ~ on_segment g q) by (intros g I; apply OFF; rewrite (cyc_tail b l a c Sb Ha Hc); apply in_or_app; auto).
  assert (P : par q (cyc (b :: l)) = true) by (apply corner_par; auto; destruct Q as [? [? ?]]; auto; flra).
  split; auto. split.
  - rewrite (clip_par b l a c Sb Ha Hc) in P. rewrite triangle_par in P by auto. destruct (par q (cyc l)); auto.
  - intros g I. destruct (c_ab b l a c Sb Ha Hc) as [_ [_ [_ [_ [_ [NL _]]]]]]. rewrite cyc_path, Ha, Hc in I by auto.
    destruct I as [<-|I]; [apply (open_off a b c); cbn; auto|]. apply in_app_or in I. destruct I as [I|[<-|[]]]; auto. apply (open_off a b c); cbn; auto.
Qed.
(** the ear without its diagonal is outside of the rest *)
Lemma corner_out q : in_tri a b c q -> 0 < orient c a q -> par q (cyc l) = false.
Proof.
  intros T D. destruct (center a b c Ob) as [q0 Q0]. destruct (corner_open q0 Q0) as [_ [P0 _]].
  destruct (vec_dec q q0) as [->|NE]; auto. rewrite <- P0. apply par_segment; auto.
  - destruct Sb as [ND _]. now apply NoDup_cons_iff in ND.
  - lia.
  - intros g I x [X X']. assert (T' : in_tri a b c x) by (apply (tri_convex a b c q q0); auto; now apply open_tri).
    revert X. apply corner_off; auto. destruct X' as [t [T0 [T1 ->]]]. cbn [fst snd]. rewrite orient_seg. destruct Q0 as [_ [_ Q0]]. fnra.
Qed.
End Corner.

Variable v : nat -> vec K.
Definition closed_tri (t : triple) (q : vec K) := match t with (a, b, c) => in_tri (v a) (v b) (v c) q end.
Definition open_trip (t : triple) q := match t with (a, b, c) => in_open (v a) (v b) (v c) q end.
Definition tri_area (t : triple) : K := match t with (a, b, c) => orient (v a) (v b) (v c) / 2 end.

Lemma cyc_map {A B} (f : A -> B) l : cyc (map f l) = map (fun g => (f (fst g), f (snd g))) (cyc l).
Proof.
  assert (S : forall l, segs (map f l) = map (fun g => (f (fst g), f (snd g))) (segs l)).
  { clear l. induction l as [|a [|b l] IH]; [reflexivity|reflexivity|]. cbn [map] in *. rewrite !segs_cons. cbn [map fst snd]. now rewrite IH. }
  destruct l as [|a l]; [reflexivity|]. cbn [map cyc]. rewrite <- S, map_app. reflexivity.
Qed.
(** the situation of the induction steps below *)
Lemma clip_facts U U' b l : rot U (b :: l) -> rot U' l -> (3 <= length l)%nat -> 0 < orient (v (last l b)) (v b) (v (hd b l)) ->
  empty_corner (v b) (map v l) (v (last l b)) (v (hd b l)) -> simpleL (map v U) -> index (map v U) = true ->
  simpleL (v b :: map v l) /\ index (v b :: map v l) = true /\ simpleL (map v U') /\ index (map v U') = true /\
  (forall q, par q (cyc (map v U)) = par q (cyc (v b :: map v l))) /\ (forall q, par q (cyc (map v U')) = par q (cyc (map v l))) /\
  (forall g, In g (cyc (map v U)) <-> In g (cyc (v b :: map v l))) /\ (forall g, In g (cyc (map v U')) <-> In g (cyc (map v l))) /\
  area (map v U) = area (map v U') + orient (v (last l b)) (v b) (v (hd b l)) / 2.
Proof.
  intros R R' N O E SI IX. apply (rot_map v) in R, R'. cbn [map] in R.
  pose proof (simpleL_rot _ _ R SI) as S1. rewrite (index_rot _ _ R SI) in IX.
  pose proof (map_last v l b) as El. pose proof (map_hd v l b) as Eh. rewrite <- (map_length v) in N.
  assert (S2 : simpleL (map v l)) by (apply (clip_simple (v b) (map v l) (v (last l b)) (v (hd b l))); auto).
  assert (I2 : index (map v l) = true) by (rewrite <- IX; apply (clip_index (v b) (map v l) (v (last l b)) (v (hd b l))); auto).
  assert (S3 : simpleL (map v U')) by (apply (simpleL_rot (map v l)); auto using rot_sym).
  split; auto. split; auto. split; auto. split; [rewrite <- I2; apply index_rot; auto|].
  split; [intros q; apply par_perm, cyc_rot, R|]. split; [intros q; apply par_perm, cyc_rot, R'|].
  split; [intros g; apply rot_cyc_in, R|]. split; [intros g; apply rot_cyc_in, R'|].
  rewrite (area_rots _ _ R), (area_rots _ _ R'). apply area_clip; auto.
  - intros X. rewrite X in N. cbn in N. lia.
  - destruct (c_ab _ _ _ _ S1 El Eh) as [_ [_ [_ [_ [X _]]]]]. exact X.
Qed.
Lemma three_facts a b c : 0 < orient (v a) (v b) (v c) -> forall q, par q (cyc (map v [a; b; c])) =
  xorb (crs (v a, v b) q) (xorb (crs (v b, v c) q) (crs (v c, v a) q)).
Proof. intros O q. cbn. now rewrite xorb_false_r. Qed.

Lemma clips_pos U T : clips v U T -> forall a b c, In (a, b, c) T -> 0 < orient (v a) (v b) (v c).
Proof.
  induction 1 as [a b c O|U U' b l T R R' N O E C IH]; intros x y z I.
  - destruct I as [[= <- <- <-]|[]]. auto.
  - destruct I as [[= <- <- <-]|I]; auto.
Qed.
Lemma clips_area U T : clips v U T -> simpleL (map v U) -> index (map v U) = true -> area (map v U) = fold_right (fun t s => tri_area t + s) 0 T.
Proof.
  induction 1 as [a b c O|U U' b l T R R' N O E C IH]; intros SI IX.
  - cbn [fold_right map tri_area]. transitivity (ccw (vsub (v b) (v a)) (vsub (v c) (v a)) / 2); [apply area_triangle|]. unfold orient. ring.
  - destruct (clip_facts U U' b l) as [_ [_ [S' [I' [_ [_ [_ [_ ->]]]]]]]]; auto. cbn [fold_right tri_area]. rewrite IH by auto. ring.
Qed.
Lemma clips_open U T : clips v U T -> simpleL (map v U) -> index (map v U) = true -> forall t q, In t T -> open_trip t q ->
  par q (cyc (map v U)) = true /\ forall g, In g (cyc (map v U)) -> ~ on_segment g q.
Proof.
  induction 1 as [a b c O|U U' b l T R R' N O E C IH]; intros SI IX t q I Q.
  - destruct I as [<-|[]]. cbn [open_trip] in Q. rewrite three_facts by auto. split; [now apply triangle_par|].
    intros g G. apply (open_off _ _ _ _ g Q). exact G.
  - destruct (clip_facts U U' b l) as [S1 [I1 [S' [I' [P1 [P2 [C1 [C2 _]]]]]]]]; auto.
    pose proof (map_last v l b) as El. pose proof (map_hd v l b) as Eh. assert (N' := N). rewrite <- (map_length v) in N'.
    destruct I as [<-|I].
    + cbn [open_trip] in Q. destruct (corner_open (v b) (map v l) _ _ S1 El Eh O E I1 q Q) as [A [_ B]].
      rewrite P1. split; auto. intros g G. now apply B, C1.
    + destruct (IH S' I' t q I Q) as [A B]. rewrite P2 in A.
      assert (D : forall g, In g (cyc (map v l)) -> ~ on_segment g q) by (intros g G; now apply B, C2).
      assert (T0 : ~ in_tri (v (last l b)) (v b) (v (hd b l)) q).
      { intros X. destruct (feq_dec (orient (v (hd b l)) (v (last l b)) q) 0) as [Z|Z].
        - apply (D (v (last l b), v (hd b l))).
          + rewrite (cyc_tail (v b) (map v l) _ _ S1 El Eh). apply in_or_app. right. now left.
          + apply on_seg_sym. destruct X as [X1 [X2 X3]]. apply (tri_edge _ _ (v b)); auto. rewrite <- orient_rot1. rewrite <- orient_rot1. auto.
        - assert (par q (cyc (map v l)) = false).
          { apply (corner_out (v b) (map v l) _ _ S1 El Eh O E N' I1); auto. apply fneq_lt in Z. destruct X as [_ [_ X]]. destruct Z; flra. }
          congruence. }
      rewrite P1, (clip_par (v b) (map v l) _ _ S1 El Eh), tri_even by auto. split; [now rewrite A|].
      intros g G. apply C1 in G. rewrite cyc_path, El, Eh in G by (intros X; rewrite X in N'; cbn in N'; lia).
      assert (Z : forall g, g = (v b, v (hd b l)) \/ g = (v (last l b), v b) -> ~ on_segment g q).
      { intros g' G' OG. apply T0. pose proof (orient_rot1 (v (last l b)) (v b) (v (hd b l))) as H1. pose proof (orient_rot1 (v b) (v (hd b l)) (v (last l b))) as H2.
        destruct G' as [-> | ->]; destruct OG as [t' [T1 [T2 ->]]]; cbn [fst snd]; unfold in_tri; rewrite !orient_seg, ?orient_l, ?orient_r; repeat split; fnra. }
      destruct G as [<-|G]; [apply Z; auto|]. apply in_app_or in G. destruct G as [G|[<-|[]]]; [|apply Z; auto].
      apply D. rewrite (cyc_tail (v b) (map v l) _ _ S1 El Eh). apply in_or_app. auto.
Qed.
Lemma clips_disjoint U T : clips v U T -> simpleL (map v U) -> index (map v U) = true -> forall t t' q, In t T -> In t' T ->
  open_trip t q -> open_trip t' q -> t = t'.
Proof.
  induction 1 as [a b c O|U U' b l T R R' N O E C IH]; intros SI IX t t' q I I' Q Q'.
  - destruct I as [<-|[]], I' as [<-|[]]. reflexivity.
  - destruct (clip_facts U U' b l) as [S1 [I1 [S' [J' [P1 [P2 [C1 [C2 _]]]]]]]]; auto.
    pose proof (map_last v l b) as El. pose proof (map_hd v l b) as Eh.
    assert (X : forall t, In t T -> open_trip t q -> open_trip (last l b, b, hd b l) q -> False).
    { intros t0 J Z1 Z2. cbn [open_trip] in Z2. destruct (clips_open U' T C S' J' t0 q J Z1) as [A _].
      destruct (corner_open (v b) (map v l) _ _ S1 El Eh O E I1 q Z2) as [_ [B _]]. rewrite P2 in A. congruence. }
    destruct I as [<-|I], I' as [<-|I']; auto; [destruct (X t')|destruct (X t)|apply (IH S' J' t t' q)]; auto.
Qed.
(** the closed triangles cover the polygon with its boundary *)
Lemma clips_cover U T : clips v U T -> simpleL (map v U) -> index (map v U) = true -> forall q,
  par q (cyc (map v U)) = true -> exists t, In t T /\ closed_tri t q.
Proof.
  induction 1 as [a b c O|U U' b l T R R' N O E C IH]; intros SI IX q P.
  - exists (a, b, c). split; [now left|]. cbn [closed_tri]. apply in_trib_spec. destruct (in_trib (v a) (v b) (v c) q) eqn:X; auto.
    rewrite three_facts, tri_even in P; auto. intros Y. apply in_trib_spec in Y. congruence.
  - destruct (clip_facts U U' b l) as [S1 [I1 [S' [J' [P1 [P2 _]]]]]]; auto.
    pose proof (map_last v l b) as El. pose proof (map_hd v l b) as Eh.
    destruct (in_trib (v (last l b)) (v b) (v (hd b l)) q) eqn:X.
    + exists (last l b, b, hd b l). split; [now left|]. now apply in_trib_spec.
    + rewrite P1, (clip_par (v b) (map v l) _ _ S1 El Eh), tri_even, xorb_false_r, <- P2 in P; auto.
      * destruct (IH S' J' q P) as [t [A B]]. exists t. split; [now right|auto].
      * intros Y. apply in_trib_spec in Y. congruence.
Qed.
Lemma seg_tri a b c g q : 0 < orient (v a) (v b) (v c) -> In g [(v a, v b); (v b, v c); (v c, v a)] -> on_segment g q -> in_tri (v a) (v b) (v c) q.
Proof.
  intros O I G. pose proof (orient_rot1 (v a) (v b) (v c)) as H1. pose proof (orient_rot1 (v b) (v c) (v a)) as H2.
  cbn in I. destruct I as [<-|[<-|[<-|[]]]]; destruct G as [t' [T1 [T2 ->]]]; cbn [fst snd]; unfold in_tri; rewrite !orient_seg, ?orient_l, ?orient_r; repeat split; fnra.
Qed.
Lemma tri_cases a b c q : 0 < orient (v a) (v b) (v c) -> in_tri (v a) (v b) (v c) q ->
  on_segment (v a, v b) q \/ on_segment (v b, v c) q \/ (0 < orient (v a) (v b) q /\ 0 < orient (v b) (v c) q).
Proof.
  intros O [A [B C]]. destruct (feq_dec (orient (v a) (v b) q) 0) as [Z|Z]; [left; now apply (tri_edge _ _ (v c))|].
  destruct (feq_dec (orient (v b) (v c) q) 0) as [Z'|Z'].
  - right; left. apply (tri_edge _ _ (v a)); auto. now rewrite <- orient_rot1.
  - right; right. apply fneq_lt in Z, Z'. split; [destruct Z|destruct Z']; flra.
Qed.
Lemma boundary_dec (Q : polygon K) q : simpleL Q -> (exists g, In g (cyc Q) /\ on_segment g q) \/ (forall g, In g (cyc Q) -> ~ on_segment g q).
Proof.
  intros SI. apply simpleL_polygon in SI. destruct SI as [ND _]. rewrite cyc_side. pose proof (position_spec Q q ND) as X.
  assert (Y : forall e, (e < length Q)%nat -> on_segment (side Q e) q -> exists g, In g (map (side Q) (seq 0 (length Q))) /\ on_segment g q).
  { intros e L O. exists (side Q e). split; auto. apply in_map, in_seq. lia. }
  destruct (get_point_position Q q) as [| |e|i].
  - right. intros g G. apply in_map_iff in G. destruct G as [e [<- _]]. apply X.
  - right. intros g G. apply in_map_iff in G. destruct G as [e [<- _]]. apply X.
  - destruct X as [L [[t [T0 [T1 ->]]] _]]. left. apply (Y e L). now apply open_side.
  - destruct X as [L ->]. left. apply (Y i L). now apply vertex_on_side.
Qed.
Lemma clips_inside U T : clips v U T -> simpleL (map v U) -> index (map v U) = true -> forall t q, In t T -> closed_tri t q ->
  par q (cyc (map v U)) = true \/ exists g, In g (cyc (map v U)) /\ on_segment g q.
Proof.
  induction 1 as [a b c O|U U' b l T R R' N O E C IH]; intros SI IX t q I Q.
  - destruct I as [<-|[]]. cbn [closed_tri] in Q.
    destruct (boundary_dec (map v [a; b; c]) q SI) as [X|X]; auto. left. rewrite three_facts by auto. apply triangle_par; auto.
    destruct (tri_cases a b c q O Q) as [Z|[Z|[Z1 Z2]]].
    + destruct (X (v a, v b)); cbn; auto.
    + destruct (X (v b, v c)); cbn; auto.
    + repeat split; auto. destruct (feq_dec (orient (v c) (v a) q) 0) as [Z|Z].
      * destruct (X (v c, v a)); [cbn; auto|]. apply (tri_edge _ _ (v b)); auto; [|apply Q|apply Q]. rewrite (orient_rot1 (v c) (v a) (v b)). auto.
      * destruct Q as [_ [_ Q]]. apply fneq_lt in Z. destruct Z; flra.
  - destruct (boundary_dec (map v U) q SI) as [X|X]; auto. left.
    destruct (clip_facts U U' b l) as [S1 [I1 [S' [J' [P1 [P2 [C1 [C2 _]]]]]]]]; auto.
    pose proof (map_last v l b) as El. pose proof (map_hd v l b) as Eh. rewrite P1.
    destruct (c_ab _ _ _ _ S1 El Eh) as [A1 [A2 [_ [_ [_ [NL _]]]]]].
    assert (OFF : forall g, In g (segs (map v l)) -> ~ on_segment g q) by (intros g G; apply X, C1, segs_cyc; auto).
    assert (EARP : closed_tri (last l b, b, hd b l) q -> par q (cyc (v b :: map v l)) = true).
    { cbn [closed_tri]. intros Z. destruct (tri_cases _ _ _ q O Z) as [Z1|[Z1|[Z1 Z2]]].
      - destruct (X (v (last l b), v b)); auto. now apply C1.
      - destruct (X (v b, v (hd b l))); auto. now apply C1.
      - apply (corner_par (v b) (map v l) (v (last l b)) (v (hd b l))); auto. apply Z. }
    destruct I as [<-|I]; auto.
    destruct (in_trib (v (last l b)) (v b) (v (hd b l)) q) eqn:Z; [apply EARP; now apply in_trib_spec|].
    assert (Z' : ~ in_tri (v (last l b)) (v b) (v (hd b l)) q) by (intros Y; apply in_trib_spec in Y; congruence).
    rewrite (clip_par (v b) (map v l) _ _ S1 El Eh), tri_even, xorb_false_r, <- P2 by auto.
    destruct (IH S' J' t q I Q) as [Y|[g [G OG]]]; auto. exfalso. apply C2 in G.
    rewrite (cyc_tail (v b) (map v l) _ _ S1 El Eh) in G. apply in_app_or in G. destruct G as [G|[<-|[]]]; [now apply (OFF g)|].
    apply Z'. apply (seg_tri _ _ _ (v (hd b l), v (last l b))); cbn; auto. now apply on_seg_sym.
Qed.
Lemma clips_boundary U T : NoDup U -> clips v U T -> forall g q, In g (cyc (map v U)) -> on_segment g q -> exists t, In t T /\ closed_tri t q.
Proof.
  intros ND C g q G OG. rewrite cyc_map in G. apply in_map_iff in G. destruct G as [[u w] [<- G]]. cbn [fst snd] in OG.
  destruct (clips_edges v U T ND C) as [_ [H _]]. apply H in G. destruct G as [G _]. unfold dedges in G. apply in_flat_map in G.
  destruct G as [[[a b] c] [It G]]. exists (a, b, c). split; auto. cbn [closed_tri]. pose proof (clips_pos U T C a b c It) as O.
  apply (seg_tri a b c (v u, v w)); auto. cbn in G |- *. intuition congruence.
Qed.
End E.
