(** Simple polygons all of whose corners are left turns: every corner is an ear, all vertices are left of each edge. *)
From Coq Require Import List Bool ZArith Arith Lia Ring Field Permutation.
From Verif Require Import OField FMicromega PField MBase MEuclid SEuclid PEuclid MSim SSim MPoly PPoly PTurn PJordan PJordan2 PJordan3 PJordan4 PJordan5.
Import ListNotations.

Lemma rot_trans {A} (l r s : list A) : rot l r -> rot r s -> rot l s.
Proof.
  intros (l1 & l2 & -> & ->) (r1 & r2 & E & ->). apply app_eq_app in E. destruct E as (k & [(E1 & E2)|(E1 & E2)]); subst.
  - exists (l1 ++ r1), k. rewrite !app_assoc. auto.
  - exists k, (r2 ++ l2). rewrite !app_assoc. auto.
Qed.

Section C.
Context {K : OField}.
Add Field KF : (of_ft K).
Local Open Scope F_scope.
Implicit Types (p q u v w x z : vec K).

(** directions outside of a corner *)
Lemma ray_opp v w : v <> vzero -> w <> vzero -> ccw v w = 0 -> ~ same_ray v w -> posb w = negb (posb v).
Proof.
  intros NV NW C NR. destruct (posb v) eqn:V, (posb w) eqn:W; auto; exfalso; apply NR; apply same_half_ccw; auto; congruence.
Qed.
Lemma corner_outside w x z : w <> vzero -> x <> vzero -> z <> vzero -> 0 < ccw w z -> ~ same_ray w x -> ~ same_ray z x ->
  ~ (0 < ccw w x /\ 0 < ccw x z) -> xorb (above w x) (above z x) = negb (xorb (above z w) (posb w)).
Proof.
  intros NW NX NZ A RW RZ NI. pose proof (ccw_anti x z) as X1. pose proof (ccw_anti x w) as X2. pose proof (ccw_anti z w) as X3.
  assert (C0 : forall u (t : K), ccw u (vscale t u) = 0) by (intros u t; destruct u; unfold ccw; cbn; ring).
  assert (C1 : forall u v, 0 < ccw u v -> ~ same_ray u v /\ ~ same_ray v u).
  { intros u v H. split; intros [t [_ E]]; [rewrite E in H|rewrite ccw_anti, E in H]; rewrite C0 in H; flra. }
  assert (FW : xorb (above w x) (posb x) = xorb (above x w) (negb (posb w))) by (apply corner_forms; auto).
  assert (FZ : xorb (above z x) (posb x) = xorb (above x z) (negb (posb z))) by (apply corner_forms; auto).
  assert (WZ : xorb (above w z) (posb z) = xorb (above z w) (negb (posb w))) by (apply corner_forms; auto; exact (proj1 (C1 w z A))).
  destruct (flt_total (ccw w x)) as [H1|[H1|H1]], (flt_total (ccw z x)) as [H2|[H2|H2]].
  - pose proof (corner_inside x w z NX NW NZ) as Q. assert (xorb (above x w) (above z w) = xorb (above z x) (posb x)) by (apply Q; flra).
    destruct (above w x), (above z x), (above z w), (above x w), (posb w), (posb x); cbn in *; congruence.
  - assert (E := ray_opp z x NZ NX H2 RZ). unfold above. rewrite (proj2 (fltb_ge 0 (ccw z x))) by flra. rewrite H1. rewrite (proj2 (fltb_ge 0 (ccw w x))) by flra.
    replace (ccw z w <? 0) with true by (symmetry; flra). rewrite (proj2 (fltb_ge 0 (ccw z w))) by flra. rewrite E. rewrite (proj2 (fltb_ge (ccw z x) 0)) by flra.
    destruct (posb w) eqn:PW, (posb z) eqn:PZ; reflexivity.
  - assert (T1 : posb w = true -> posb z = true -> posb x = true -> False).
    { intros Pw Pz Px. assert (0 < ccw w x) by (apply (slope_tr1 w z x); auto; flra). flra. }
    assert (T2 : posb w = false -> posb z = false -> posb x = false -> False).
    { intros Pw Pz Px. assert (0 < ccw (vopp w) (vopp x)); [|unfold ccw in *; cbn in *; flra].
      apply (slope_tr1 _ (vopp z)); try (rewrite posb_opp; auto; now rewrite ?Pw, ?Pz, ?Px); unfold ccw in *; cbn in *; flra. }
    unfold above. rewrite (proj2 (fltb_ge 0 (ccw w x))) by flra. rewrite H1. rewrite (proj2 (fltb_ge (ccw z x) 0)) by flra. rewrite H2.
    replace (ccw z w <? 0) with true by (symmetry; flra). rewrite (proj2 (fltb_ge 0 (ccw z w))) by flra.
    destruct (posb w) eqn:PW, (posb z) eqn:PZ, (posb x) eqn:PX; cbn; try reflexivity; exfalso; auto.
  - assert (E := ray_opp w x NW NX H1 RW). exfalso.
    assert (E2 : ccw (vscale (ccw w z) x) x = 0) by (destruct x; unfold ccw; cbn; ring).
    (* w = - t x and z to its left, so z is right of x: ccw z x > 0 *)
    assert (F := slope_id w x z). rewrite H1 in F.
    destruct (posb w) eqn:PW.
    + assert (PX : posb (vopp x) = true) by (rewrite posb_opp, E; auto). destruct (ccw_col w (vopp x)) as [t [T Ex]]; auto; [unfold ccw in *; cbn in *; flra|].
      assert (ccw z x = t * ccw w z). { replace x with (vopp (vscale t w)) by (rewrite <- Ex; destruct x; apply vec_eq; cbn; ring). unfold ccw; cbn; ring. }
      assert (0 < t * ccw w z) by now apply fmul_pos. flra.
    + assert (PX : posb x = true) by now rewrite E. assert (PW' : posb (vopp w) = true) by (rewrite posb_opp, PW; auto).
      destruct (ccw_col (vopp w) x) as [t [T Ex]]; auto; [unfold ccw in *; cbn in *; flra|].
      assert (ccw z x = t * ccw w z) by (rewrite Ex; unfold ccw; cbn; ring). assert (0 < t * ccw w z) by now apply fmul_pos. flra.
  - exfalso. assert (F := slope_id w x z). rewrite H1 in F. assert (ccw x z = 0) by flra. rewrite H in F. apply NX.
    assert (N : ccw w z <> 0) by (intros Q; flra). destruct x as [x1 x2]. injection F as F1 F2. apply vec_eq; cbn in *.
    + apply (fcancel _ _ _ N). rewrite fmul_comm. transitivity (0 * fst z + 0 * fst w); [exact F1|ring].
    + apply (fcancel _ _ _ N). rewrite fmul_comm. transitivity (0 * snd z + 0 * snd w); [exact F2|ring].
  - assert (E := ray_opp w x NW NX H1 RW). unfold above. rewrite (proj2 (fltb_ge 0 (ccw w x))) by flra. rewrite (proj2 (fltb_ge (ccw w x) 0)) by flra.
    rewrite H2. rewrite (proj2 (fltb_ge (ccw z x) 0)) by flra. replace (ccw z w <? 0) with true by (symmetry; flra). rewrite (proj2 (fltb_ge 0 (ccw z w))) by flra. rewrite E.
    destruct (posb w) eqn:PW, (posb z) eqn:PZ; reflexivity.
  - exfalso. apply NI. split; flra.
  - assert (E := ray_opp z x NZ NX H2 RZ). exfalso. destruct (posb z) eqn:PZ.
    + assert (PX : posb (vopp x) = true) by (rewrite posb_opp, E; auto). destruct (ccw_col z (vopp x)) as [t [T Ex]]; auto; [unfold ccw in *; cbn in *; flra|].
      assert (ccw w x = - (t * ccw w z)). { replace x with (vopp (vscale t z)) by (rewrite <- Ex; destruct x; apply vec_eq; cbn; ring). unfold ccw; cbn; ring. }
      assert (0 < t * ccw w z) by now apply fmul_pos. flra.
    + assert (PX : posb x = true) by now rewrite E. assert (PW' : posb (vopp z) = true) by (rewrite posb_opp, PZ; auto).
      destruct (ccw_col (vopp z) x) as [t [T Ex]]; auto; [unfold ccw in *; cbn in *; flra|].
      assert (ccw w x = - (t * ccw w z)) by (rewrite Ex; unfold ccw; cbn; ring). assert (0 < t * ccw w z) by now apply fmul_pos. flra.
  - assert (Q : xorb (above w z) (above x z) = xorb (above x w) (posb w)) by (apply corner_inside; auto; flra).
    destruct (above w x), (above z x), (above z w), (above w z), (above x w), (above x z), (posb w), (posb x), (posb z); cbn in *; congruence.
Qed.
(** a point that is seen from a corner with a left turn, but not inside of it *)
Lemma par_outside p l q : simpleL (p :: l) -> (forall g, In g (segs l) -> disjoint g (p, q)) -> p <> q -> hd p l <> q -> last l p <> q ->
  0 < ccw (vsub (hd p l) p) (vsub (last l p) p) -> ~ same_ray (vsub (hd p l) p) (vsub q p) -> ~ same_ray (vsub (last l p) p) (vsub q p) ->
  ~ (0 < ccw (vsub (hd p l) p) (vsub q p) /\ 0 < ccw (vsub q p) (vsub (last l p) p)) ->
  par q (cyc (p :: l)) = negb (index (p :: l)).
Proof.
  intros S D Npq Nw Nz H1 R1 R2 NI. pose proof (simple_corner _ _ S) as [w [z [Ew [Ez [A [B [Nw' [Nz' [Nwz [NL [NIn _]]]]]]]]]]].
  rewrite par_corner; auto; [|apply S]. unfold index. rewrite Ew, Ez in *.
  rewrite corner_outside; auto using vsub_nz.
  now destruct (par p (segs l)), (above (vsub z p) (vsub w p)), (posb (vsub w p)).
Qed.

Section Far.
Context (b : vec K) (l : list (vec K)) (m a c : vec K).
Hypothesis Sb : simpleL (b :: l).
Hypothesis Ha : last l b = a.
Hypothesis Hc : hd b l = c.
Hypothesis Ob : 0 < orient a b c.
Hypothesis Im : In m l.
Hypothesis Nma : m <> a.
Hypothesis Nmc : m <> c.
Hypothesis Tm : in_tri a b c m.
Hypothesis Mm : forall x, In x l -> in_tri a b c x -> x <> a -> x <> c -> orient c a x <= orient c a m.
Lemma far_neq : m <> b.
Proof. intros ->. destruct Sb as [ND _]. apply NoDup_cons_iff in ND. now apply ND. Qed.
Lemma far_pos : 0 < orient a b m /\ 0 < orient b c m.
Proof.
  destruct (c_ab b l a c Sb Ha Hc) as [A [C _]]. destruct Tm as [T1 [T2 T3]]. pose proof far_neq as Mb.
  assert (I : In m (b :: l)) by now right.
  split.
  - destruct (feq_dec (orient a b m) 0) as [E|E]; [|apply fneq_lt in E; destruct E; flra]. exfalso.
    destruct (vertex_edge _ m (a, b) Sb I A) as [E'|E']; cbn in *; try congruence. now apply (tri_edge a b c).
  - destruct (feq_dec (orient b c m) 0) as [E|E]; [|apply fneq_lt in E; destruct E; flra]. exfalso.
    destruct (vertex_edge _ m (b, c) Sb I C) as [E'|E']; cbn in *; try congruence.
    apply (tri_edge b c a); auto. now rewrite <- orient_rot1.
Qed.
Lemma far_free g x : In g (segs l) -> on_segment g x -> on_segment (b, m) x -> x = m.
Proof.
  intros I G [t [T0 [T1 Ex]]]. cbn [fst snd] in Ex. destruct (feq_dec t 1) as [E|E].
  { rewrite Ex, E. destruct b, m; apply vec_eq; cbn; ring. }
  exfalso. assert (T : t < 1) by (apply fneq_lt in E; destruct E; flra).
  pose proof (c_D b a c) as [Db [Da Dc]]. pose proof (orient_sum a b c m) as Sm. pose proof far_pos as [P1 P2].
  assert (Dx : orient c a m < orient c a x). { rewrite Ex, orient_seg, Db. fnra. }
  destruct Tm as [Q1 [Q2 Q3]].
  assert (Tx : in_tri a b c x).
  { apply (tri_convex a b c b m); auto.
    - unfold in_tri; rewrite ?orient_l, ?orient_r, Db; repeat split; flra.
    - exists t. auto. }
  destruct (reach b l a c Sb Ha Hc Ob g x I G Tx) as [e [Ie [_ [Le Te]]]]; [flra|].
  specialize (Mm e Ie Te). assert (orient c a e <= orient c a m); [|flra]. apply Mm; intros ->; flra.
Qed.
Lemma far_next g e : In g (segs l) -> (g = (m, e) \/ g = (e, m)) -> orient c a e <= orient c a m.
Proof.
  intros I G. destruct (fltb_ge (orient c a m) (orient c a e)) as [F _]. destruct (orient c a m <? orient c a e) eqn:E; [|now apply F]. exfalso.
  change (orient c a m < orient c a e) in E. pose proof far_pos as [P1 P2]. destruct Tm as [T1 [T2 T3]]. pose proof (c_D b a c) as [Db [Da Dc]].
  assert (Ie : In e l) by (destruct g as [u v]; pose proof (in_segs_in _ _ _ I) as [Iu Iv]; destruct G as [G|G]; injection G as -> ->; auto).
  assert (Dec : in_tri a b c e \/ ~ in_tri a b c e).
  { unfold in_tri, fle. destruct (orient a b e <? 0), (orient b c e <? 0), (orient c a e <? 0); intuition congruence. }
  destruct Dec as [Y|Y].
  - assert (orient c a e <= orient c a m); [|flra]. apply Mm; auto; intros ->; flra.
  - destruct (exit a b c m e) as [y [Y1 [Y2 Y3]]]; auto; [flra|flra|]. apply (no_touch b l a c Sb Ha Hc g y I); auto.
    destruct G as [-> | ->]; auto. now apply on_seg_sym.
Qed.
End Far.

(** all corners are left turns *)
Definition left_turns (P : list (vec K)) := forall (b : vec K) (l : list (vec K)), rot P (b :: l) -> 0 < orient (last l b) b (hd b l).
Lemma mid_on u v : on_segment (u, v) (vadd u (vscale (1 / 2) (vsub v u))).
Proof. exists (1 / 2). pose proof (@f2_pos K) as F. split; [apply fdiv_nonneg; flra|]. split; [apply fdiv_le; flra|reflexivity]. Qed.
Lemma convex_corner P b l : simpleL P -> left_turns P -> rot P (b :: l) -> empty_corner b l (last l b) (hd b l).
Proof.
  intros SP LT R. pose proof (simpleL_rot _ _ R SP) as Sb. pose proof (LT b l R) as Ob. set (a := last l b) in *. set (c := hd b l) in *.
  set (ms := filter (fun x => in_trib a b c x && negb (veqb x a) && negb (veqb x c)) l).
  assert (MS : forall x, In x ms <-> In x l /\ in_tri a b c x /\ x <> a /\ x <> c).
  { intros x. unfold ms. rewrite filter_In, !andb_true_iff, !negb_true_iff, in_trib_spec, !veqb_neq. tauto. }
  intros x Ix Tx. destruct (vec_dec x a) as [E|Na]; auto. destruct (vec_dec x c) as [E|Nc]; auto. exfalso.
  destruct (max_exists (orient c a) ms) as [m [Mi Mm]]. { intros E. assert (I : In x ms) by (apply MS; auto). now rewrite E in I. }
  apply MS in Mi. destruct Mi as [Im [Tm [Nma Nmc]]].
  assert (MM : forall x, In x l -> in_tri a b c x -> x <> a -> x <> c -> orient c a x <= orient c a m) by (intros y Y1 Y2 Y3 Y4; apply Mm, MS; auto).
  clear Mm x Ix Tx Na Nc. pose proof (far_pos b l m a c Sb eq_refl eq_refl Ob Im Nma Nmc Tm MM) as [P1 P2].
  pose proof (far_neq b l m a c Sb Im Nma Nmc Tm MM) as Nmb. pose proof (far_free b l m a c Sb eq_refl eq_refl Ob Im Nma Nmc Tm MM) as FREE.
  pose proof (far_next b l m a c Sb eq_refl eq_refl Ob Im Nma Nmc Tm MM) as NEXT.
  destruct (c_ab b l a c Sb eq_refl eq_refl) as [AB [BC [Nab [Ncb [Nac [NL [NI [Ia Ic]]]]]]]].
  set (q := vadd b (vscale (1 / 2) (vsub m b))). pose proof (mid_on b m) as Qb. fold q in Qb.
  assert (F2 : (0 : K) < 1 / 2) by (apply fdiv_pos; [apply f2_pos|apply flt_0_1]).
  assert (H2 : (1 / 2 + 1 / 2 : K) = 1) by (field; apply f2_neq0).
  assert (Hq : vsub q m = vscale (1 / 2) (vsub b m)). { unfold q. destruct b as [b1 b2], m as [m1 m2]. apply vec_eq; cbn; field; apply f2_neq0. }
  assert (Nqm : q <> m). { intros E. apply Nmb. rewrite E in Hq. destruct b as [b1 b2], m as [m1 m2]. injection Hq as E1 E2. apply vec_eq; cbn; fnra. }
  (* seen from b *)
  assert (IN : par q (cyc (b :: l)) = index (b :: l)).
  { apply par_inside; auto.
    - intros g G y [Y1 Y2]. assert (y = m).
      { apply (FREE g y G Y1). destruct Qb as [t [T0 [T1 E]]]. destruct Y2 as [s [S0 [S1 E']]]. exists (s * (1 / 2)). cbn [fst snd] in *.
        split; [fnra|]. split; [fnra|]. rewrite E'. unfold q. destruct b, m; apply vec_eq; cbn; ring. }
      subst y. destruct Y2 as [s [S0 [S1 E']]]. cbn [fst snd] in E'. apply Nmb. unfold q in E'. destruct b as [b1 b2], m as [m1 m2]. injection E' as E1 E2.
      assert (HH : s * (1 / 2) <> 1) by (intros X; fnra).
      apply vec_eq; cbn in *; apply (fcancel _ _ (1 - s * (1 / 2))); try (intros X; apply HH; flra); flra.
    - fold a c. change (0 < orient b c a). now rewrite <- orient_rot1.
    - fold c. change (0 < orient b c q). unfold q. rewrite orient_seg, orient_l. fnra.
    - fold a. change (0 < orient b q a). rewrite <- orient_rot1. unfold q. rewrite orient_seg, orient_r. fnra. }
  (* seen from m *)
  apply in_split in Im as (l1 & l2 & El).
  assert (Rm : rot (b :: l) (m :: l2 ++ b :: l1)) by (exists (b :: l1), (m :: l2); rewrite El; auto).
  assert (N1 : l1 <> []). { intros ->. apply Nmc. unfold c. now rewrite El. }
  assert (N2 : l2 <> []). { intros ->. apply Nma. unfold a. rewrite El. now rewrite last_last. }
  assert (RPm : rot P (m :: l2 ++ b :: l1)) by (apply (rot_trans _ _ _ R Rm)).
  pose proof (simpleL_rot _ _ RPm SP) as Sm. pose proof (LT _ _ RPm) as Om.
  remember (hd m (l2 ++ b :: l1)) as w eqn:Hw. remember (last (l2 ++ b :: l1) m) as z eqn:Hz. symmetry in Hw, Hz.
  assert (Ew : exists r, l2 = w :: r) by (rewrite <- Hw; destruct l2 as [|w' r]; [contradiction|cbn; now exists r]).
  assert (Ez : exists r, l1 = r ++ [z]).
  { rewrite <- Hz. destruct (exists_last N1) as (r & z' & E). exists r. rewrite E. f_equal. f_equal. rewrite app_comm_cons, app_assoc, last_last. auto. }
  assert (Gw : In (m, w) (segs l)). { destruct Ew as [r ->]. apply in_segs. exists l1, r. auto. }
  assert (Gz : In (z, m) (segs l)). { destruct Ez as [r Er]. apply in_segs. exists r, l2. rewrite El, Er, <- app_assoc. auto. }
  assert (Fw : orient c a w <= orient c a m) by (apply (NEXT (m, w)); auto).
  assert (Fz : orient c a z <= orient c a m) by (apply (NEXT (z, m)); auto).
  assert (Fb : orient c a m < orient c a b). { pose proof (orient_sum a b c m) as SS. pose proof (c_D b a c) as [Db _]. rewrite Db. flra. }
  destruct (simple_corner _ _ Sm) as [w' [z' [Ew' [Ez' [_ [_ [Nw [Nz [Nwz _]]]]]]]]]. rewrite Hw in Ew'. rewrite Hz in Ez'. subst w' z'.
  assert (ONS : forall e (t : K), 0 < t -> vsub q m = vscale t (vsub e m) -> (on_segment (m, e) q \/ (on_segment (b, m) e))).
  { intros e t T E. destruct (t <=? 1) eqn:T1.
    - left. exists t. apply fleb_true in T1. split; [flra|]. split; [auto|]. cbn [fst snd]. rewrite <- E. destruct q, m; apply vec_eq; cbn; ring.
    - right. apply fleb_false in T1. apply on_seg_sym. exists (1 / t * (1 / 2)). assert (Nt : t <> 0) by (intros X; flra).
      assert (I1 : 0 < 1 / t) by (apply fdiv_pos; [auto|apply flt_0_1]). assert (I2 : t * (1 / t) = 1) by (field; auto). assert (I3 : 1 / t <= 1) by fnra.
      split; [fnra|]. split; [fnra|]. cbn [fst snd]. rewrite Hq in E. destruct b as [b1 b2], m as [m1 m2], e as [e1 e2]. injection E as E1 E2. apply vec_eq; cbn in *.
      + transitivity (m1 + 1 / t * (1 / 2 * (b1 - m1))); [|ring]. replace (1 / 2 * (b1 - m1)) with (t * (e1 - m1)) by flra. field; auto.
      + transitivity (m2 + 1 / t * (1 / 2 * (b2 - m2))); [|ring]. replace (1 / 2 * (b2 - m2)) with (t * (e2 - m2)) by flra. field; auto. }
  assert (OUT : par q (cyc (m :: l2 ++ b :: l1)) = negb (index (m :: l2 ++ b :: l1))).
  { apply par_outside; rewrite ?Hw, ?Hz; auto.
    - intros g G y [Y1 Y2].
      assert (OFF : ~ on_segment g m) by (apply (simple_off _ _ g Sm G)).
      assert (GC : In g (cyc (b :: l))). { apply (rot_cyc_in _ _ _ Rm). apply segs_cyc; auto. intros X. now apply app_eq_nil in X. }
      assert (Yb : on_segment (b, m) y). { apply on_seg_sym. destruct Y2 as [s [S0 [S1 E]]]. cbn [fst snd] in E. exists (s * (1 / 2)). split; [fnra|]. split; [fnra|]. cbn [fst snd].
        rewrite E, Hq. destruct b, m; apply vec_eq; cbn; ring. }
      assert (Py : 0 < orient a b y /\ 0 < orient b c y).
      { destruct Y2 as [s [S0 [S1 E]]]. cbn [fst snd] in E. rewrite E, !orient_seg. unfold q. rewrite !orient_seg, orient_l, orient_r. split; fnra. }
      rewrite cyc_path in GC by auto. fold a c in GC. destruct GC as [<-|GC].
      + destruct Y1 as [s [_ [_ E]]]. cbn [fst snd] in E. rewrite E, !orient_seg, !orient_l, !orient_r in Py. destruct Py as [_ Py]. flra.
      + apply in_app_or in GC. destruct GC as [GC|[<-|[]]].
        * rewrite (FREE g y GC Y1 Yb) in Y1. auto.
        * destruct Y1 as [s [_ [_ E]]]. cbn [fst snd] in E. rewrite E, !orient_seg, !orient_l, !orient_r in Py. destruct Py as [Py _]. flra.
    - intros E. assert (q = m); [|auto]. apply (FREE (m, w) q Gw); auto. rewrite <- E. apply on_seg_r.
    - intros E. assert (q = m); [|auto]. apply (FREE (z, m) q Gz); auto. rewrite <- E. apply on_seg_l.
    - change (0 < orient m w z). rewrite orient_rot1, orient_rot1 in Om. rewrite orient_rot1, orient_rot1, orient_rot1. rewrite orient_rot1. exact Om.
    - intros [t [T E]]. destruct (ONS w t T E) as [O|O].
      + apply Nqm. now apply (FREE (m, w) q Gw).
      + apply Nw. apply (FREE (m, w) w Gw); auto. apply on_seg_r.
    - intros [t [T E]]. destruct (ONS z t T E) as [O|O].
      + apply Nqm. apply (FREE (z, m) q Gz); auto. now apply on_seg_sym.
      + apply Nz. apply (FREE (z, m) z Gz); auto. apply on_seg_l.
    - rewrite Hq. intros [C1 C2].
      assert (ID : ccw (vsub w m) (vsub z m) * (orient c a b - orient c a m) =
        ccw (vsub w m) (vsub b m) * (orient c a z - orient c a m) + ccw (vsub b m) (vsub z m) * (orient c a w - orient c a m)).
      { unfold orient, ccw. destruct w, m, z, b, c, a; cbn; ring. }
      assert (D1 : 0 < ccw (vsub w m) (vsub b m)). { assert (X : ccw (vsub w m) (vscale (1 / 2) (vsub b m)) = 1 / 2 * ccw (vsub w m) (vsub b m)) by (unfold ccw; cbn; ring). rewrite X in C1. fnra. }
      assert (D2 : 0 < ccw (vsub b m) (vsub z m)). { assert (X : ccw (vscale (1 / 2) (vsub b m)) (vsub z m) = 1 / 2 * ccw (vsub b m) (vsub z m)) by (unfold ccw; cbn; ring). rewrite X in C2. fnra. }
      assert (D3 : 0 < ccw (vsub w m) (vsub z m)). { change (0 < orient m w z). rewrite <- orient_rot1. exact Om. }
      assert (0 < ccw (vsub w m) (vsub z m) * (orient c a b - orient c a m)) by (apply fmul_pos; auto; flra). fnra. }
  rewrite <- (par_perm q _ _ (cyc_rot _ _ Rm)), IN, (index_rot _ _ Rm Sb) in OUT. now destruct (index (m :: l2 ++ b :: l1)).
Qed.
Lemma left_turns_cyc P : simpleL P -> left_turns P <-> forall u v w, In (u, v) (cyc P) -> In (v, w) (cyc P) -> 0 < orient u v w.
Proof.
  intros SP. pose proof SP as [ND [N _]]. split.
  - intros LT u v w U W. destruct (cyc_in_l _ _ _ W) as [Iv _]. apply rot_to in Iv as [l R]. specialize (LT v l R).
    pose proof (simpleL_rot _ _ R SP) as Sv. destruct (simple_corner _ _ Sv) as [x [y [Ex [Ey [A [B _]]]]]]. rewrite Ex, Ey in LT.
    apply (rot_cyc_in _ _ _ R) in A, B. rewrite (cyc_succ P v w x), (cyc_pred P u y v); auto; lia.
  - intros H b l R. pose proof (simpleL_rot _ _ R SP) as Sv. destruct (simple_corner _ _ Sv) as [x [y [Ex [Ey [A [B _]]]]]]. rewrite Ex, Ey.
    apply (rot_cyc_in _ _ _ R) in A, B. auto.
Qed.
Lemma left_turns_rot P Q : rot P Q -> left_turns P -> left_turns Q.
Proof. intros R LT b l R'. apply LT. now apply (rot_trans P Q). Qed.
(** clipping a corner *)
Lemma convex_clip b l : simpleL (b :: l) -> left_turns (b :: l) -> (3 <= length l)%nat -> simpleL l /\ left_turns l.
Proof.
  intros Sb LT N. pose proof (LT b l (rot_refl _)) as Ob. pose proof (convex_corner _ b l Sb LT (rot_refl _)) as EM. set (a := last l b) in *. set (c := hd b l) in *.
  pose proof (clip_simple b l a c Sb eq_refl eq_refl Ob EM N) as Sl. split; auto.
  destruct (c_ab b l a c Sb eq_refl eq_refl) as [AB [BC [Nab [Ncb [Nac [NL [NI [Ia Ic]]]]]]]].
  apply (left_turns_cyc _ Sl). pose proof (proj1 (left_turns_cyc _ Sb) LT) as LT'.
  assert (CT : cyc l = segs l ++ [(a, c)]) by now apply (cyc_tail b l a c Sb).
  assert (CL : forall g, In g (segs l) -> In g (cyc (b :: l))) by (intros g G; now apply segs_cyc).
  pose proof Sb as [ND [_ S]]. pose proof Sl as [NDl _].
  intros u v w U W. rewrite CT in U, W. apply in_app_or in U, W.
  assert (O2 : 0 < orient b c a) by now rewrite <- orient_rot1.
  destruct U as [U|[E|[]]], W as [W|[F|[]]].
  - apply LT'; auto.
  - injection F as <- <-.
    assert (Nuc : u <> c).
    { intros ->. assert (E : In (a, c) (cyc l)) by (rewrite CT; apply in_or_app; right; now left). assert (E' : In (c, a) (cyc l)) by (rewrite CT; apply in_or_app; now left).
      destruct (in_cyc l a c) as [X _]; [lia|]. destruct (X E) as [r R]. apply (rot_cyc_in _ _ _ R) in E'.
      pose proof (rot_length _ _ R) as RL. destruct r as [|d r]; [cbn in RL; lia|].
      assert (J : In (c, d) (cyc (a :: c :: d :: r))) by (rewrite cyc_cons; right; left; auto).
      pose proof (rot_nodup _ _ R NDl) as ND'. assert (a = d) by (apply (cyc_succ (a :: c :: d :: r) c); auto; cbn; lia).
      subst d. apply NoDup_cons_iff in ND'. apply (proj1 ND'). right. now left. }
    assert (Iu : In u l) by (now apply in_segs_in in U).
    assert (Nua : u <> a) by (apply (cyc_neq l u a NDl); [lia|rewrite CT; apply in_or_app; auto]).
    pose proof (LT' u a b (CL _ U) AB) as Oa.
    destruct (0 <? orient u a c) eqn:E; [exact E|]. exfalso. apply fltb_ge in E.
    assert (X1 : 0 <= orient c a u). { rewrite orient_rot1, orient_swap. pose proof (orient_swap a u c) as SW. assert (orient a u c = - orient u a c) by (rewrite orient_swap; auto). flra. }
    assert (X2 : 0 < orient a b u) by now rewrite <- orient_rot1.
    assert (X3 : orient b c u < 0).
    { destruct (orient b c u <? 0) eqn:E3; [exact E3|]. exfalso. destruct (EM u Iu) as [|]; auto. split; [flra|]. split; auto. }
    set (t := orient b c a / (orient b c a - orient b c u)). assert (DN : 0 < orient b c a - orient b c u) by flra.
    assert (DZ : orient b c a - orient b c u <> 0) by (intros X; flra).
    assert (T0 : 0 <= t) by (apply fdiv_nonneg; flra). assert (T1 : t <= 1) by (apply fdiv_le; flra).
    assert (TE : t * (orient b c a - orient b c u) = orient b c a) by (unfold t; field; auto). clearbody t.
    set (y := vadd a (vscale t (vsub u a))).
    assert (Y1 : on_segment (u, a) y) by (apply on_seg_sym; exists t; auto).
    assert (Y2 : on_segment (b, c) y).
    { apply (tri_edge b c a); auto; unfold y; rewrite orient_seg; rewrite ?orient_l, ?orient_r; [flra|fnra|fnra]. }
    destruct (S (u, a) (b, c) y) as [[Z1 Z2]|[Z1 Z2]]; auto; cbn in *; try congruence.
  - injection E as <- <-.
    assert (Iw : In w l) by (now apply in_segs_in in W).
    assert (Nwa : w <> a).
    { intros ->. assert (E : In (a, c) (cyc l)) by (rewrite CT; apply in_or_app; right; now left). assert (E' : In (c, a) (cyc l)) by (rewrite CT; apply in_or_app; now left).
      destruct (in_cyc l a c) as [X _]; [lia|]. destruct (X E) as [r R]. apply (rot_cyc_in _ _ _ R) in E'.
      pose proof (rot_length _ _ R) as RL. destruct r as [|d r]; [cbn in RL; lia|].
      assert (J : In (c, d) (cyc (a :: c :: d :: r))) by (rewrite cyc_cons; right; left; auto).
      pose proof (rot_nodup _ _ R NDl) as ND'. assert (a = d) by (apply (cyc_succ (a :: c :: d :: r) c); auto; cbn; lia).
      subst d. apply NoDup_cons_iff in ND'. apply (proj1 ND'). right. now left. }
    assert (Nwc : c <> w) by (apply (cyc_neq l c w NDl); [lia|rewrite CT; apply in_or_app; auto]).
    pose proof (LT' b c w BC (CL _ W)) as Oc.
    destruct (0 <? orient a c w) eqn:E; [exact E|]. exfalso. apply fltb_ge in E.
    assert (X1 : 0 <= orient c a w) by (rewrite orient_swap; flra).
    assert (X3 : orient a b w < 0).
    { destruct (orient a b w <? 0) eqn:E3; [exact E3|]. exfalso. destruct (EM w Iw) as [|]; auto. split; [exact E3|]. split; [flra|auto]. }
    set (t := orient a b c / (orient a b c - orient a b w)). assert (DN : 0 < orient a b c - orient a b w) by flra.
    assert (DZ : orient a b c - orient a b w <> 0) by (intros X; flra).
    assert (T0 : 0 <= t) by (apply fdiv_nonneg; flra). assert (T1 : t <= 1) by (apply fdiv_le; flra).
    assert (TE : t * (orient a b c - orient a b w) = orient a b c) by (unfold t; field; auto). clearbody t.
    set (y := vadd c (vscale t (vsub w c))).
    assert (Y1 : on_segment (c, w) y) by (exists t; auto).
    assert (Y2 : on_segment (a, b) y).
    { apply (tri_edge a b c); auto; unfold y; rewrite orient_seg; rewrite ?orient_l, ?orient_r; [flra|fnra|fnra]. }
    destruct (S (c, w) (a, b) y) as [[Z1 Z2]|[Z1 Z2]]; auto; cbn in *; try congruence.
  - injection E as <- <-. injection F as F _. congruence.
Qed.
Lemma fourth P u v w : NoDup P -> (4 <= length P)%nat -> exists b, In b P /\ b <> u /\ b <> v /\ b <> w.
Proof.
  intros ND N. destruct (existsb (fun b => negb (veqb b u) && negb (veqb b v) && negb (veqb b w)) P) eqn:E.
  - apply existsb_exists in E as (b & I & H). rewrite !andb_true_iff, !negb_true_iff, !veqb_neq in H. exists b. tauto.
  - exfalso. assert (INC : incl P [u; v; w]).
    { intros b I. destruct (vec_dec b u) as [->|N1]; [now left|]. destruct (vec_dec b v) as [->|N2]; [right; now left|]. destruct (vec_dec b w) as [->|N3]; [right; right; now left|].
      exfalso. rewrite <- not_true_iff_false in E. apply E. apply existsb_exists. exists b. split; auto. rewrite !andb_true_iff, !negb_true_iff, !veqb_neq. auto. }
    apply NoDup_incl_length in INC; auto. cbn in INC. lia.
Qed.
(** all other vertices are to the left of each edge *)
Theorem convex_left P u v w : simpleL P -> left_turns P -> In (u, v) (cyc P) -> In w P -> w <> u -> w <> v -> 0 < orient u v w.
Proof.
  remember (length P) as n eqn:En. revert P En. induction n as [n IH] using lt_wf_ind. intros P En SP LT UV W Nu Nv.
  pose proof SP as [ND [N _]]. destruct (Nat.eq_dec n 3) as [E3|N3].
  - apply in_cyc in UV; [|lia]. destruct UV as [r R]. pose proof (rot_length _ _ R) as RL. destruct r as [|x [|? r]]; cbn in RL; try lia.
    apply (rot_in _ _ _ R) in W. destruct W as [W|[W|[W|[]]]]; try congruence. subst x.
    apply (proj1 (left_turns_cyc _ SP) LT u v w); apply (rot_cyc_in _ _ _ R); cbn; auto.
  - destruct (fourth P u v w ND) as (b & Ib & B1 & B2 & B3); [lia|]. apply rot_to in Ib as [l R]. pose proof (rot_length _ _ R) as RL. cbn in RL.
    destruct (convex_clip b l) as [Sl Ll]; [now apply (simpleL_rot P)|now apply (left_turns_rot P)|lia|].
    apply (IH (length l)) with (P := l); auto; [lia| |].
    + apply (rot_cyc_in _ _ _ R) in UV. rewrite cyc_path in UV by (intros ->; cbn in RL; lia). destruct UV as [UV|UV]; [congruence|].
      apply in_app_or in UV. destruct UV as [UV|[UV|[]]]; [|congruence].
      assert (CT : cyc l = segs l ++ [(last l b, hd b l)]) by (apply (cyc_tail b l); auto; now apply (simpleL_rot P)).
      rewrite CT. apply in_or_app. now left.
    + apply (rot_in _ _ _ R) in W. destruct W as [W|W]; [congruence|auto].
Qed.
End C.
