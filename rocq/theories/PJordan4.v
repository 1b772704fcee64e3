(** Every simple polygon of index one has an ear away from a given edge. *)
From Coq Require Import List Bool ZArith Arith Lia Ring Field Permutation.
From Verif Require Import OField FMicromega PField MBase MEuclid SEuclid PEuclid MSim SSim MPoly PTurn PJordan PJordan2 PJordan3.
Import ListNotations.

Section L.
Context {A : Type}.
Implicit Types (l r : list A).
Lemma split_unique l1 l2 r1 r2 (t : A) : NoDup (l1 ++ t :: l2) -> l1 ++ t :: l2 = r1 ++ t :: r2 -> l1 = r1 /\ l2 = r2.
Proof.
  revert r1. induction l1 as [|a l1 IH]; intros [|b r1] ND E; cbn in *.
  - now injection E.
  - injection E as <- E. exfalso. apply NoDup_cons_iff in ND. apply (proj1 ND). rewrite E. apply in_or_app. right. now left.
  - injection E as -> E. exfalso. apply NoDup_cons_iff in ND. apply (proj1 ND). apply in_or_app. right. now left.
  - injection E as <- E. apply NoDup_cons_iff in ND. destruct (IH r1) as [-> ->]; tauto.
Qed.
Lemma rot_unique l1 l2 k (t : A) : NoDup (l1 ++ t :: l2) -> rot (l1 ++ t :: l2) (t :: k) -> k = l2 ++ l1.
Proof.
  intros ND [r1 [r2 [E1 E2]]]. destruct r2 as [|t' r2].
  - rewrite app_nil_r in E1. cbn in E2. rewrite <- E2 in E1. destruct (split_unique l1 l2 [] k t ND E1) as [-> ->]. now rewrite app_nil_r.
  - injection E2 as <- E2. destruct (split_unique _ _ _ _ _ ND E1) as [-> ->]. exact E2.
Qed.
Lemma segs_chain {B} (f : A -> B) l : (forall u v, In (u, v) (segs l) -> f u = f v) -> forall x y, In x l -> In y l -> f x = f y.
Proof.
  destruct l as [|a l]; [intros _ x y []|]. intros H. assert (G : forall x, In x (a :: l) -> f x = f a).
  { revert a H. induction l as [|b l IH]; intros a H x [<-|I]; auto.
    transitivity (f b); [|symmetry; apply H; now left]. apply IH; auto. intros u v J. apply H. now right. }
  intros x y X Y. now rewrite (G x), (G y).
Qed.
End L.

Section E.
Context {K : OField}.
Add Field KFje : (of_ft K).
Local Open Scope F_scope.
Implicit Types (a b c d p q u v w x y z t : vec K) (l P Q : list (vec K)).

Definition ear P t := exists l, rot P (t :: l) /\ 0 < orient (last l t) t (hd t l) /\ empty_corner t l (last l t) (hd t l).

Lemma low_exists P : P <> [] -> exists b, In b P /\ forall x, In x P -> x = b \/ ltb b x = true.
Proof.
  induction P as [|a P IH]; [contradiction|]. intros _. destruct P as [|a' P].
  - exists a. split; [now left|]. intros x [<-|[]]. now left.
  - destruct IH as [b [I M]]; [discriminate|]. destruct (ltb a b) eqn:E.
    + exists a. split; [now left|]. intros x [<-|J]; auto. right. destruct (M x J) as [->|L]; auto. now apply (ltb_trans _ b).
    + exists b. split; [now right|]. intros x [<-|J]; auto. destruct (ltb_total a b) as [->|[L|L]]; auto. congruence.
Qed.
Lemma max_exists (f : vec K -> K) l : l <> [] -> exists m, In m l /\ forall x, In x l -> f x <= f m.
Proof.
  induction l as [|a l IH]; [contradiction|]. intros _. destruct l as [|a' l].
  - exists a. split; [now left|]. intros x [<-|[]]. flra.
  - destruct IH as [m [I M]]; [discriminate|]. destruct (f m <? f a) eqn:E.
    + change (f m < f a) in E. exists a. split; [now left|]. intros x [<-|J]; [flra|]. specialize (M x J). flra.
    + apply fltb_ge in E. exists m. split; [now right|]. intros x [<-|J]; auto.
Qed.
Definition in_trib a b c x : bool := negb (orient a b x <? 0) && negb (orient b c x <? 0) && negb (orient c a x <? 0).
Lemma in_trib_spec a b c x : in_trib a b c x = true <-> in_tri a b c x.
Proof. unfold in_trib, in_tri, fle. rewrite !andb_true_iff, !negb_true_iff. tauto. Qed.

(** points of even parity are not in an ear *)
Lemma no_other Q t k x : simpleL Q -> index Q = true -> rot Q (t :: k) -> 0 < orient (last k t) t (hd t k) ->
  empty_corner t k (last k t) (hd t k) -> par x (cyc Q) = false -> (forall g, In g (cyc Q) -> ~ on_segment g x) ->
  ~ in_tri (last k t) t (hd t k) x.
Proof.
  intros S IX R O EM PX OFF T. pose proof (simpleL_rot _ _ R S) as S'.
  assert (OFF' : forall g, In g (cyc (t :: k)) -> ~ on_segment g x) by (intros g G; apply OFF; now apply (rot_cyc_in _ _ _ R)).
  destruct (c_ab t k _ _ S' eq_refl eq_refl) as [A [C [Nab [Ncb [Nac [NL [NI [Ia Ic]]]]]]]].
  pose proof (c_D t (last k t) (hd t k)) as [Db [Da Dc]].
  set (a := last k t) in *. set (c := hd t k) in *. destruct T as [T1 [T2 T3]].
  assert (H1 : 0 < orient a t x).
  { destruct (feq_dec (orient a t x) 0) as [E|E]; [|apply fneq_lt in E; destruct E; flra].
    exfalso. apply (OFF' (a, t)); auto. now apply (tri_edge a t c). }
  assert (H2 : 0 < orient t c x).
  { destruct (feq_dec (orient t c x) 0) as [E|E]; [|apply fneq_lt in E; destruct E; flra].
    exfalso. apply (OFF' (t, c)); auto. apply (tri_edge t c a); auto. now rewrite <- orient_rot1. }
  assert (X : par x (cyc (t :: k)) = index (t :: k)).
  { apply par_inside; auto.
    - intros g G y [Y1 Y2].
      assert (Ty : in_tri a t c y).
      { apply (tri_convex a t c t x); auto; unfold in_tri; rewrite ?orient_l, ?orient_r; repeat split; flra. }
      assert (Z := ear_region t k a c S' eq_refl eq_refl O EM g y G Y1 Ty).
      destruct Y2 as [s [S0 [S1 Ey]]]. cbn [fst snd] in Ey. rewrite Ey, orient_seg in Z.
      assert (s = 1) by (rewrite Db in Z; fnra). subst s.
      assert (Exy : y = x) by (rewrite Ey; destruct t, x; apply vec_eq; cbn; ring). subst y.
      rewrite Exy in Y1. apply (OFF' g); auto. now apply segs_cyc.
    - fold a c. change (0 < orient t c a). now rewrite <- orient_rot1.
    - fold a c. change (0 < orient t x a). now rewrite <- orient_rot1. }
  rewrite <- (index_rot _ _ R S), IX in X. rewrite <- (par_perm x _ _ (cyc_rot _ _ R)) in X. congruence.
Qed.

(** the chord from the lowest vertex *)
Section Chord.
Context (b : vec K) (l1 l2 : list (vec K)) (m a c : vec K).
Let l := l1 ++ m :: l2.
Hypothesis Sb : simpleL (b :: l).
Hypothesis Low : forall x, In x l -> ltb b x = true.
Hypothesis N1 : l1 <> [].
Hypothesis N2 : l2 <> [].
Hypothesis Ha : last l b = a.
Hypothesis Hc : hd b l = c.
Hypothesis Ob : 0 < orient a b c.
Hypothesis Tm : in_tri a b c m.
Hypothesis Mm : forall x, In x l -> in_tri a b c x -> x <> a -> x <> c -> orient c a x <= orient c a m.

Lemma ch_a : last l2 m = a.
Proof.
  rewrite <- Ha. unfold l. destruct (exists_last N2) as [r [z E]]. rewrite E, last_last.
  replace (l1 ++ m :: r ++ [z]) with ((l1 ++ m :: r) ++ [z]) by now rewrite <- app_assoc. now rewrite last_last.
Qed.
Lemma ch_c : hd m l1 = c.
Proof. rewrite <- Hc. unfold l. destruct l1; [contradiction|reflexivity]. Qed.
Lemma ch_nodup : NoDup (b :: l1 ++ m :: l2).
Proof. apply Sb. Qed.
Lemma ch_ina : In a l2.
Proof. rewrite <- ch_a. destruct (exists_last N2) as [r [z E]]. rewrite E, last_last. apply in_or_app. right. now left. Qed.
Lemma ch_inc : In c l1.
Proof. rewrite <- ch_c. destruct l1; [contradiction|now left]. Qed.
Lemma ch_m : ~ In m l1 /\ ~ In m l2 /\ (forall x, In x l1 -> In x l2 -> False) /\ ~ In b l1 /\ ~ In b l2 /\ m <> b.
Proof.
  pose proof ch_nodup as ND. apply NoDup_cons_iff in ND. destruct ND as [NB ND]. pose proof (NoDup_remove_2 _ _ _ ND) as X.
  repeat split.
  - intros I. apply X. apply in_or_app. now left.
  - intros I. apply X. apply in_or_app. now right.
  - intros x I J. apply NoDup_remove_1 in ND. apply in_split in I. destruct I as [r1 [r2 E]]. rewrite E, <- app_assoc in ND. cbn in ND.
    apply NoDup_remove_2 in ND. apply ND. apply in_or_app. right. apply in_or_app. now right.
  - intros I. apply NB. apply in_or_app. now left.
  - intros I. apply NB. apply in_or_app. right. now right.
  - intros ->. apply NB. apply in_or_app. right. now left.
Qed.
Lemma ch_in x : In x l <-> In x l1 \/ x = m \/ In x l2.
Proof. unfold l. rewrite in_app_iff. cbn. intuition congruence. Qed.
Lemma ch_segs g : In g (segs (l1 ++ [m])) \/ In g (segs (m :: l2)) -> In g (segs l).
Proof. unfold l. rewrite (segs_app l1 m l2). intros H. apply in_or_app. exact H. Qed.
Lemma ch_cyc g : In g (cyc (b :: l)) <-> In g (segs (b :: l1 ++ [m])) \/ In g (segs (m :: l2)) \/ g = (a, b).
Proof.
  rewrite cyc_path. 2:{ unfold l. now destruct l1. }
  rewrite Ha. rewrite Hc. cbn [In]. rewrite in_app_iff. unfold l at 1. rewrite (segs_app l1 m l2), in_app_iff. cbn [In].
  replace (segs (b :: l1 ++ [m])) with ((b, c) :: segs (l1 ++ [m])).
  2:{ rewrite <- ch_c. destruct l1; [contradiction|]. reflexivity. }
  cbn [In]. intuition auto.
Qed.
Lemma ch_mpos : 0 < orient a b m /\ 0 < orient b c m.
Proof.
  destruct (c_ab b l a c Sb Ha Hc) as [A [C _]]. destruct Tm as [T1 [T2 T3]]. pose proof ch_m as [M1 [M2 [_ [_ [_ Mb]]]]].
  assert (Im : In m (b :: l)) by (right; apply ch_in; auto). pose proof ch_ina as Ia. pose proof ch_inc as Ic.
  split.
  - destruct (feq_dec (orient a b m) 0) as [E|E]; [|apply fneq_lt in E; destruct E; flra]. exfalso.
    destruct (vertex_edge _ m (a, b) Sb Im A) as [E'|E']; cbn in *; try congruence. now apply (tri_edge a b c).
  - destruct (feq_dec (orient b c m) 0) as [E|E]; [|apply fneq_lt in E; destruct E; flra]. exfalso.
    destruct (vertex_edge _ m (b, c) Sb Im C) as [E'|E']; cbn in *; try congruence.
    apply (tri_edge b c a); auto. now rewrite <- orient_rot1.
Qed.
Lemma ch_free g x : In g (segs l) -> on_segment g x -> on_segment (b, m) x -> x = m.
Proof.
  intros I G [t [T0 [T1 Ex]]]. cbn [fst snd] in Ex. destruct (feq_dec t 1) as [E|E].
  { rewrite Ex, E. destruct b, m; apply vec_eq; cbn; ring. }
  exfalso. assert (T : t < 1) by (apply fneq_lt in E; destruct E; flra).
  pose proof (c_D b a c) as [Db [Da Dc]]. pose proof (orient_sum a b c m) as Sm. pose proof ch_mpos as [P1 P2].
  assert (Dx : orient c a m < orient c a x). { rewrite Ex, orient_seg, Db. fnra. }
  destruct Tm as [Q1 [Q2 Q3]].
  assert (Tx : in_tri a b c x).
  { apply (tri_convex a b c b m); auto.
    - unfold in_tri; rewrite ?orient_l, ?orient_r, Db; repeat split; flra.
    - exists t. auto. }
  destruct (reach b l a c Sb Ha Hc Ob g x I G Tx) as [e [Ie [_ [Le Te]]]]; [flra|].
  specialize (Mm e Ie Te). assert (orient c a e <= orient c a m); [|flra]. apply Mm; intros ->; flra.
Qed.

Lemma ch_P1 : simpleL (b :: l1 ++ [m]) /\ index (b :: l1 ++ [m]) = true.
Proof.
  pose proof ch_m as [M1 [M2 [M3 [B1 [B2 Mb]]]]]. pose proof Sb as [ND [_ S]]. pose proof ch_mpos as [P1 P2].
  assert (SS : simpleL (b :: l1 ++ [m])).
  { split.
    { replace (b :: l) with ((b :: l1 ++ [m]) ++ l2) in ND by (unfold l; cbn; now rewrite <- app_assoc).
      clear -ND. induction l2 as [|x r IH] using rev_ind; [now rewrite app_nil_r in ND|]. apply IH. rewrite app_assoc in ND.
      apply NoDup_remove_1 in ND. now rewrite app_nil_r in ND. }
    split. { cbn. rewrite app_length. cbn. destruct l1; [contradiction|cbn; lia]. }
    assert (CY : forall g, In g (cyc (b :: l1 ++ [m])) <-> In g (segs (b :: l1 ++ [m])) \/ g = (m, b)).
    { intros g. assert (E : cyc (b :: l1 ++ [m]) = segs (b :: l1 ++ [m]) ++ [(m, b)]).
      { cbn [cyc]. rewrite <- app_comm_cons, <- app_assoc. apply (segs_snoc (b :: l1)). }
      rewrite E, in_app_iff. cbn. intuition auto. }
    assert (W : forall e x, In e (segs (b :: l1 ++ [m])) -> on_segment e x -> on_segment (m, b) x ->
      (x = fst e /\ x = b) \/ (x = snd e /\ x = m)).
    { intros [u v] x E Xe Xf. assert (EC : In (u, v) (cyc (b :: l))) by (apply ch_cyc; auto). apply on_seg_sym in Xf. cbn [fst snd].
      replace (segs (b :: l1 ++ [m])) with ((b, c) :: segs (l1 ++ [m])) in E.
      2:{ rewrite <- ch_c. destruct l1; [contradiction|]. reflexivity. }
      destruct E as [[= <- <-]|E].
      - left. assert (x = b); auto. destruct Xe as [s [S0 [S1 E]]]. cbn [fst snd] in E. destruct Xf as [s' [S0' [S1' E']]]. cbn [fst snd] in E'.
        assert (Z : orient b c x = 0) by (rewrite E, orient_seg, orient_l, orient_r; ring).
        assert (s' = 0). { rewrite E', orient_seg, orient_l in Z. assert (X : s' * orient b c m = 0) by flra. apply fmul_eq0 in X. destruct X; auto. flra. }
        subst s'. rewrite E'. destruct b, m; apply vec_eq; cbn; ring.
      - right. assert (x = m) by (apply (ch_free (u, v)); auto; apply ch_segs; auto). subst x. split; auto.
        assert (Nu : u <> m).
        { intros ->. apply in_segs in E. destruct E as [r1 [r2 E]]. apply M1.
          destruct r2 as [|z r2] using rev_ind.
          - assert (l1 = r1 ++ [m] /\ m = v) as [-> _]; [|apply in_or_app; right; now left]. apply app_inj_tail. rewrite <- app_assoc. exact E.
          - assert (l1 = r1 ++ m :: v :: r2 /\ m = z) as [-> _]; [|apply in_or_app; right; now left]. apply app_inj_tail. rewrite <- app_assoc. exact E. }
        destruct (vertex_edge (b :: l) m (u, v) Sb) as [Y|Y]; auto; [right; apply ch_in; auto|]. cbn in Y. congruence. }
    intros e f x E F NE Xe Xf. apply CY in E, F. destruct E as [E| ->], F as [F| ->].
    - apply S; auto; apply ch_cyc; auto.
    - destruct (W e x) as [[Y1 Y2]|[Y1 Y2]]; auto.
    - destruct (W f x) as [[Y1 Y2]|[Y1 Y2]]; auto.
    - contradiction. }
  split; auto. rewrite index_low; auto.
  - rewrite last_last. replace (hd b (l1 ++ [m])) with c by (rewrite <- ch_c; destruct l1; [contradiction|reflexivity]).
    change (0 < orient m b c). now rewrite orient_rot1.
  - intros x I. apply Low. apply ch_in. apply in_app_or in I. destruct I as [I|[<-|[]]]; auto.
Qed.
Lemma ch_P2 : simpleL (b :: m :: l2) /\ index (b :: m :: l2) = true.
Proof.
  pose proof ch_m as [M1 [M2 [M3 [B1 [B2 Mb]]]]]. pose proof Sb as [ND [_ S]]. pose proof ch_mpos as [P1 P2].
  assert (SS : simpleL (b :: m :: l2)).
  { split.
    { apply NoDup_cons_iff in ND. destruct ND as [_ ND]. unfold l in ND. constructor; [intros [E|E]; auto|].
      clear -ND. induction l1 as [|x r IH]; [exact ND|]. apply IH. cbn in ND. now apply NoDup_cons_iff in ND. }
    split. { cbn. destruct l2; [contradiction|cbn; lia]. }
    assert (CY : forall g, In g (cyc (b :: m :: l2)) <-> g = (b, m) \/ In g (segs (m :: l2)) \/ g = (a, b)).
    { intros g. rewrite cyc_path by discriminate. rewrite last_cons, ch_a. cbn [hd In]. rewrite in_app_iff. cbn [In]. intuition auto. }
    assert (W : forall e x, In e (segs (m :: l2)) \/ e = (a, b) -> on_segment e x -> on_segment (b, m) x ->
      (x = fst e /\ x = m) \/ (x = snd e /\ x = b)).
    { intros [u v] x E Xe Xf. assert (EC : In (u, v) (cyc (b :: l))) by (apply ch_cyc; tauto). cbn [fst snd].
      destruct E as [E|[= -> ->]].
      - left. assert (x = m) by (apply (ch_free (u, v)); auto; apply ch_segs; auto). subst x. split; auto.
        assert (Nv : v <> m).
        { intros ->. apply in_segs in E. destruct E as [r1 [r2 E]]. apply M2. destruct r1 as [|z r1]; injection E as E1 E2.
          - rewrite E2. now left.
          - rewrite E2. apply in_or_app. right. right. now left. }
        destruct (vertex_edge (b :: l) m (u, v) Sb) as [Y|Y]; auto; [right; apply ch_in; auto|]. cbn in Y. congruence.
      - right. assert (x = b); auto. destruct Xe as [s [S0 [S1 E]]]. cbn [fst snd] in E. destruct Xf as [s' [S0' [S1' E']]]. cbn [fst snd] in E'.
        assert (Z : orient a b x = 0) by (rewrite E, orient_seg, orient_l, orient_r; ring).
        assert (s' = 0). { rewrite E', orient_seg, orient_r in Z. assert (X : s' * orient a b m = 0) by flra. apply fmul_eq0 in X. destruct X; auto. flra. }
        subst s'. rewrite E'. destruct b, m; apply vec_eq; cbn; ring. }
    intros e f x E F NE Xe Xf. apply CY in E, F. destruct E as [-> |E], F as [-> |F].
    - contradiction.
    - destruct (W f x) as [[Y1 Y2]|[Y1 Y2]]; auto.
    - destruct (W e x) as [[Y1 Y2]|[Y1 Y2]]; auto.
    - apply S; auto; apply ch_cyc; tauto. }
  split; auto. rewrite index_low; auto.
  - rewrite last_cons, ch_a. cbn [hd]. exact P1.
  - intros x I. apply Low. apply ch_in. destruct I as [<-|I]; auto.
Qed.

(** the vertices on the other side of the chord *)
Lemma ch_off1 x g : In x l2 -> In g (cyc (b :: l1 ++ [m])) -> ~ on_segment g x.
Proof.
  intros I G O. pose proof ch_m as [M1 [M2 [M3 [B1 [B2 Mb]]]]].
  assert (E : cyc (b :: l1 ++ [m]) = segs (b :: l1 ++ [m]) ++ [(m, b)]).
  { cbn [cyc]. rewrite <- app_comm_cons, <- app_assoc. apply (segs_snoc (b :: l1)). }
  assert (Il : In x l) by (apply ch_in; auto).
  rewrite E in G. apply in_app_or in G. destruct G as [G|[<-|[]]].
  - destruct g as [u v]. pose proof (in_segs_in _ _ _ G) as [Gu Gv].
    assert (forall y, In y (b :: l1 ++ [m]) -> x <> y).
    { intros y [<-|Y] ->; auto. apply in_app_or in Y. destruct Y as [Y|[<-|[]]]; auto. apply (M3 y); auto. }
    destruct (vertex_edge (b :: l) x (u, v) Sb) as [Y|Y]; auto; [now right|apply ch_cyc; auto| |]; apply H in Y; auto.
  - apply on_seg_sym in O. destruct (in_split _ _ I) as [r1 [r2 E2]].
    assert (exists g, In g (segs l) /\ on_segment g x) as [g [Ig Og]].
    { destruct r1 as [|z r1] using rev_ind.
      - exists (m, x). split; [|apply on_seg_r]. apply ch_segs. right. rewrite E2. now left.
      - exists (z, x). split; [|apply on_seg_r]. apply ch_segs. right. rewrite E2. apply in_segs. exists (m :: r1), r2. cbn. now rewrite <- app_assoc. }
    apply M2. rewrite <- (ch_free g x Ig Og O). exact I.
Qed.
Lemma ch_off2 x g : In x l1 -> In g (cyc (b :: m :: l2)) -> ~ on_segment g x.
Proof.
  intros I G O. pose proof ch_m as [M1 [M2 [M3 [B1 [B2 Mb]]]]].
  assert (Il : In x l) by (apply ch_in; auto).
  rewrite cyc_path in G by discriminate. rewrite last_cons, ch_a in G. cbn [hd In] in G. rewrite in_app_iff in G. cbn [In] in G.
  destruct G as [<- |G].
  - destruct (in_split _ _ I) as [r1 [r2 E2]].
    assert (exists g, In g (segs l) /\ on_segment g x) as [g [Ig Og]].
    { destruct r2 as [|z r2].
      - exists (x, m). split; [|apply on_seg_l]. apply ch_segs. left. rewrite E2. apply in_segs. exists r1, []. now rewrite <- app_assoc.
      - exists (x, z). split; [|apply on_seg_l]. apply ch_segs. left. rewrite E2. apply in_segs. exists r1, (r2 ++ [m]). now rewrite <- app_assoc. }
    apply M1. rewrite <- (ch_free g x Ig Og O). exact I.
  - assert (GC : In g (cyc (b :: l))) by (apply ch_cyc; intuition auto).
    destruct g as [u v].
    assert (U : In u (m :: l2) /\ (In v (m :: l2) \/ v = b)).
    { destruct G as [G|[[= <- <-]|[]]]; [apply in_segs_in in G; tauto|]. split; [right; apply ch_ina|auto]. }
    assert (H : forall y, In y (m :: l2) -> x <> y) by (intros y [<-|Y] ->; [auto|apply (M3 y); auto]).
    destruct (vertex_edge (b :: l) x (u, v) Sb) as [Y|Y]; auto; [now right| |]; cbn in Y; subst.
    + apply (H u); tauto.
    + destruct U as [_ [U| ->]]; [apply (H v); auto|auto].
Qed.
Lemma ch_pars : ltb b a = true /\ ltb b c = true /\ ltb b m = true.
Proof. repeat split; apply Low, ch_in; [right; right; apply ch_ina|left; apply ch_inc|auto]. Qed.
Lemma ch_even1 x : In x l2 -> par x (cyc (b :: l1 ++ [m])) = false.
Proof.
  intros I. pose proof ch_m as [M1 [M2 [M3 [B1 [B2 Mb]]]]]. destruct ch_P1 as [SS _]. pose proof ch_mpos as [P1 P2].
  pose proof ch_pars as [La [Lc Lm]]. pose proof Sb as [ND [_ S]]. pose proof ch_ina as Ia. pose proof ch_inc as Ic.
  assert (H : par a (cyc (b :: l1 ++ [m])) = false).
  { assert (Ehd : hd b (l1 ++ [m]) = c) by (rewrite <- ch_c; destruct l1; [contradiction|reflexivity]).
    assert (NR : forall y, 0 < orient a b y -> ~ same_ray (vsub y b) (vsub a b)).
    { intros y Y [t [_ E]]. assert (Z : orient a b y = t * 0).
      { rewrite orient_rot1. transitivity (ccw (vsub y b) (vsub a b)); [reflexivity|]. rewrite E. unfold ccw. cbn. ring. }
      flra. }
    rewrite par_corner.
    - rewrite last_last, Ehd. rewrite par_low.
      2:{ intros u v J. apply in_segs_in in J. destruct J as [Ju Jv]. split; apply ltb_asym, Low, ch_in; [apply in_app_or in Ju; destruct Ju as [|[|[]]]; auto|apply in_app_or in Jv; destruct Jv as [|[|[]]]; auto]. }
      unfold above. unfold ltb in *. rewrite La, Lc, Lm. cbn [eqb andb].
      change (ccw (vsub c b) (vsub a b)) with (orient b c a). change (ccw (vsub m b) (vsub a b)) with (orient b m a).
      rewrite <- (orient_rot1 a b c), <- (orient_rot1 a b m). rewrite Ob, P1. reflexivity.
    - destruct l1; discriminate.
    - apply SS.
    - intros E. rewrite E, ltb_irrefl in La. discriminate.
    - intros [u v] G y [Y1 Y2]. assert (GL : In (u, v) (segs l)) by (apply ch_segs; auto).
      destruct (c_ab b l a c Sb Ha Hc) as [A _].
      assert (GC : In (u, v) (cyc (b :: l))) by (apply segs_cyc; [unfold l; now destruct l1|auto]).
      pose proof (in_segs_in _ _ _ G) as [Gu Gv].
      assert (Hn : forall z, In z (l1 ++ [m]) -> z <> a /\ z <> b).
      { intros z Z. apply in_app_or in Z. destruct Z as [Z|[<-|[]]]; split; intros ->; auto. apply (M3 a); auto. }
      destruct (S (a, b) (u, v) y) as [[E E']|[E E']]; auto.
      + intros [= -> ->]. apply Hn in Gu. tauto.
      + now apply on_seg_sym.
      + cbn in E, E'. subst. apply Hn in Gv. tauto.
      + cbn in E, E'. subst. apply Hn in Gu. tauto.
    - rewrite Ehd. intros ->. apply (M3 a); auto.
    - rewrite last_last. intros ->. auto.
    - rewrite Ehd. now apply NR.
    - rewrite last_last. now apply NR. }
  transitivity (par a (cyc (b :: l1 ++ [m]))); [|exact H].
  apply (segs_chain (fun x => par x (cyc (b :: l1 ++ [m]))) l2); auto.
  intros u v J. assert (JM : In (u, v) (segs (m :: l2))) by (destruct l2; [contradiction|now right]).
  pose proof (in_segs_in _ _ _ J) as [Ju Jv].
  apply par_segment; [apply SS|destruct SS as [_ [SS _]]; lia| |].
  - apply (cyc_neq (b :: l)); auto; [|apply ch_cyc; auto]. destruct Sb as [_ [X _]]. lia.
  - intros g G y [Y1 Y2]. assert (E : cyc (b :: l1 ++ [m]) = segs (b :: l1 ++ [m]) ++ [(m, b)]).
    { cbn [cyc]. rewrite <- app_comm_cons, <- app_assoc. apply (segs_snoc (b :: l1)). }
    pose proof G as G0. rewrite E in G. apply in_app_or in G. destruct G as [G|[<-|[]]].
    + destruct (S g (u, v) y) as [[E1 E2]|[E1 E2]]; auto; try (apply ch_cyc; auto).
      * intros ->. pose proof (in_segs_in _ _ _ G) as [Gu _]. destruct Gu as [Gu|Gu]; [subst; auto|].
        apply in_app_or in Gu. destruct Gu as [Gu|[Gu|[]]]; [apply (M3 u); auto|subst; auto].
      * cbn in E2. rewrite E2 in Y1. apply (ch_off1 v g); auto.
      * cbn in E2. rewrite E2 in Y1. apply (ch_off1 u g); auto.
    + assert (y = m) by (apply (ch_free (u, v)); auto; [apply ch_segs; auto|now apply on_seg_sym]). subst y.
      destruct (vertex_edge (b :: l) m (u, v) Sb) as [Y|Y]; auto; [right; apply ch_in; auto|apply ch_cyc; auto| |]; cbn in Y; subst; auto.
Qed.
Lemma ch_even2 x : In x l1 -> par x (cyc (b :: m :: l2)) = false.
Proof.
  intros I. pose proof ch_m as [M1 [M2 [M3 [B1 [B2 Mb]]]]]. destruct ch_P2 as [SS _]. pose proof ch_mpos as [P1 P2].
  pose proof ch_pars as [La [Lc Lm]]. pose proof Sb as [ND [_ S]]. pose proof ch_ina as Ia. pose proof ch_inc as Ic.
  assert (CYP : forall g, In g (cyc (b :: m :: l2)) -> g = (b, m) \/ In g (segs (m :: l2)) \/ g = (a, b)).
  { intros g G. rewrite cyc_path in G by discriminate. rewrite last_cons, ch_a in G. cbn [hd In] in G. rewrite in_app_iff in G. cbn [In] in G. intuition auto. }
  assert (H : par c (cyc (b :: m :: l2)) = false).
  { assert (NR : forall y, 0 < orient b c y -> ~ same_ray (vsub y b) (vsub c b)).
    { intros y Y [t [_ E]]. assert (Z : orient b c y = t * 0).
      { transitivity (ccw (vsub c b) (vsub y b)); [reflexivity|]. rewrite E. unfold ccw. cbn. ring. }
      flra. }
    rewrite par_corner.
    - rewrite last_cons, ch_a. cbn [hd]. rewrite par_low.
      2:{ intros u v J. apply in_segs_in in J. destruct J as [Ju Jv]. split; apply ltb_asym, Low, ch_in; [destruct Ju; auto|destruct Jv; auto]. }
      unfold above. unfold ltb in *. rewrite La, Lc, Lm. cbn [eqb andb].
      assert (Z1 : ccw (vsub m b) (vsub c b) < 0).
      { rewrite ccw_anti. change (- orient b c m < 0). flra. }
      assert (Z2 : ccw (vsub a b) (vsub c b) < 0).
      { rewrite ccw_anti. change (- orient b c a < 0). rewrite <- orient_rot1. flra. }
      rewrite (fltb_neg _ Z1), (fltb_neg _ Z2). reflexivity.
    - discriminate.
    - apply SS.
    - intros E. rewrite <- E, ltb_irrefl in Lc. discriminate.
    - intros [u v] G y [Y1 Y2]. assert (GL : In (u, v) (segs l)) by (apply ch_segs; auto).
      destruct (c_ab b l a c Sb Ha Hc) as [_ [C _]].
      assert (GC : In (u, v) (cyc (b :: l))) by (apply segs_cyc; [unfold l; now destruct l1|auto]).
      pose proof (in_segs_in _ _ _ G) as [Gu Gv].
      assert (Hn : forall z, In z (m :: l2) -> z <> c /\ z <> b).
      { intros z [<-|Z]; split; intros ->; auto. apply (M3 c); auto. }
      destruct (S (b, c) (u, v) y) as [[E E']|[E E']]; auto.
      + intros [= -> ->]. apply Hn in Gu. tauto.
      + cbn in E, E'. subst. apply Hn in Gv. tauto.
      + cbn in E, E'. subst. apply Hn in Gu. tauto.
    - cbn [hd]. intros ->. auto.
    - rewrite last_cons, ch_a. intros ->. apply (M3 c); auto.
    - cbn [hd]. now apply NR.
    - rewrite last_cons, ch_a. apply NR. now rewrite <- orient_rot1. }
  transitivity (par c (cyc (b :: m :: l2))); [|exact H].
  apply (segs_chain (fun x => par x (cyc (b :: m :: l2))) l1); auto.
  intros u v J. assert (JM : In (u, v) (segs (l1 ++ [m]))).
  { apply in_segs in J. destruct J as [r1 [r2 E]]. apply in_segs. exists r1, (r2 ++ [m]). rewrite E, <- app_assoc. reflexivity. }
  pose proof (in_segs_in _ _ _ J) as [Ju Jv].
  assert (JC : In (u, v) (cyc (b :: l))) by (apply segs_cyc; [unfold l; now destruct l1|]; apply ch_segs; auto).
  apply par_segment; [apply SS|destruct SS as [_ [SS _]]; lia| |].
  - apply (cyc_neq (b :: l)); auto. destruct Sb as [_ [X _]]. lia.
  - intros g G y [Y1 Y2]. pose proof G as G0. apply CYP in G. destruct G as [-> |G].
    + assert (y = m) by (apply (ch_free (u, v)); auto; apply ch_segs; auto). subst y.
      destruct (vertex_edge (b :: l) m (u, v) Sb) as [Y|Y]; auto; [right; apply ch_in; auto| |]; cbn in Y; subst; auto.
    + destruct (S g (u, v) y) as [[E1 E2]|[E1 E2]]; auto; try (apply ch_cyc; tauto).
      * intros ->. destruct G as [G|[= -> ->]].
        -- pose proof (in_segs_in _ _ _ G) as [[Gu|Gu] _]; [subst; auto|apply (M3 u); auto].
        -- apply (M3 a); auto.
      * cbn in E2. rewrite E2 in Y1. apply (ch_off2 v g); auto.
      * cbn in E2. rewrite E2 in Y1. apply (ch_off2 u g); auto.
Qed.

(** ears of the pieces are ears *)
Lemma ch_ear2 t : ear (b :: m :: l2) t -> t <> b -> t <> m -> ear (b :: l) t /\ In t l2.
Proof.
  intros [k [R [O EM]]] Nb Nm. destruct ch_P2 as [SS IX].
  assert (It : In t l2). { assert (J : In t (b :: m :: l2)) by (apply (rot_in _ _ _ R); now left). destruct J as [<-|[<-|J]]; congruence || auto. }
  split; auto. destruct (in_split _ _ It) as [k1 [k2 E]].
  assert (Ek : k = k2 ++ b :: m :: k1).
  { apply (rot_unique (b :: m :: k1) k2 k t); cbn; rewrite <- E; auto. apply SS. }
  exists (k2 ++ b :: l1 ++ m :: k1).
  assert (Eh : hd t (k2 ++ b :: l1 ++ m :: k1) = hd t k) by (rewrite Ek; destruct k2; reflexivity).
  assert (El : last (k2 ++ b :: l1 ++ m :: k1) t = last k t).
  { rewrite Ek. destruct (exists_last (l := m :: k1)) as [r [z Ez]]; [discriminate|].
    replace (k2 ++ b :: l1 ++ m :: k1) with ((k2 ++ b :: l1 ++ r) ++ [z]) by (rewrite Ez; cbn; rewrite <- ?app_assoc; cbn; now rewrite <- ?app_assoc).
    replace (k2 ++ b :: m :: k1) with ((k2 ++ b :: r) ++ [z]) by (rewrite Ez; now rewrite <- app_assoc). now rewrite !last_last. }
  split; [|split].
  - exists (b :: l1 ++ m :: k1), (t :: k2). split; auto. unfold l. rewrite E. cbn. now rewrite <- app_assoc.
  - now rewrite Eh, El.
  - rewrite Eh, El. intros x X T.
    assert (D : In x l1 \/ In x k).
    { rewrite Ek. apply in_app_or in X. destruct X as [X|[X|X]]; [right; apply in_or_app; auto|right; apply in_or_app; cbn; auto|].
      apply in_app_or in X. destruct X as [X|X]; auto. right. apply in_or_app. right. now right. }
    destruct D as [D|D]; [exfalso|now apply EM].
    apply (no_other (b :: m :: l2) t k x); auto; [now apply ch_even2|]. intros g G. now apply ch_off2.
Qed.
Lemma ch_ear1 t : ear (b :: l1 ++ [m]) t -> t <> b -> t <> m -> ear (b :: l) t /\ In t l1.
Proof.
  intros [k [R [O EM]]] Nb Nm. destruct ch_P1 as [SS IX].
  assert (It : In t l1).
  { assert (J : In t (b :: l1 ++ [m])) by (apply (rot_in _ _ _ R); now left). destruct J as [<-|J]; [congruence|]. apply in_app_or in J. destruct J as [J|[<-|[]]]; congruence || auto. }
  split; auto. destruct (in_split _ _ It) as [k1 [k2 E]].
  assert (E' : b :: l1 ++ [m] = (b :: k1) ++ t :: k2 ++ [m]) by (rewrite E; cbn; now rewrite <- app_assoc).
  assert (Ek : k = (k2 ++ [m]) ++ b :: k1).
  { apply (rot_unique (b :: k1) (k2 ++ [m]) k t); rewrite <- E'; auto. apply SS. }
  exists (k2 ++ m :: l2 ++ b :: k1).
  assert (Eh : hd t (k2 ++ m :: l2 ++ b :: k1) = hd t k) by (rewrite Ek; destruct k2; reflexivity).
  assert (El : last (k2 ++ m :: l2 ++ b :: k1) t = last k t).
  { rewrite Ek. destruct (exists_last (l := b :: k1)) as [r [z Ez]]; [discriminate|].
    replace (k2 ++ m :: l2 ++ b :: k1) with ((k2 ++ m :: l2 ++ r) ++ [z]) by (rewrite Ez; cbn; rewrite <- ?app_assoc; cbn; now rewrite <- ?app_assoc).
    replace ((k2 ++ [m]) ++ b :: k1) with (((k2 ++ [m]) ++ r) ++ [z]) by (rewrite Ez; now rewrite <- app_assoc). now rewrite !last_last. }
  split; [|split].
  - exists (b :: k1), (t :: k2 ++ m :: l2). split; [unfold l; rewrite E; cbn; now rewrite <- app_assoc|]. cbn. now rewrite <- app_assoc.
  - now rewrite Eh, El.
  - rewrite Eh, El. intros x X T.
    assert (D : In x l2 \/ In x k).
    { rewrite Ek, !in_app_iff. apply in_app_or in X. destruct X as [X|[X|X]]; [auto|subst; cbn; auto|].
      apply in_app_or in X. destruct X as [X|X]; auto. }
    destruct D as [D|D]; [exfalso|now apply EM].
    apply (no_other (b :: l1 ++ [m]) t k x); auto; [now apply ch_even1|]. intros g G. now apply ch_off1.
Qed.
End Chord.

Lemma ear_rot P Q t : rot P Q -> NoDup P -> ear Q t -> ear P t.
Proof.
  intros R ND [k [R' H]]. exists k. split; auto.
  assert (I : In t P) by (apply (rot_in _ _ _ R), (rot_in _ _ _ R'); now left).
  destruct (in_split _ _ I) as [l1 [l2 E]]. assert (R0 : rot P (t :: l2 ++ l1)) by (exists l1, (t :: l2); auto).
  enough (k = l2 ++ l1) by now subst k.
  clear H. destruct R as [r1 [r2 [E1 E2]]]. subst Q.
  assert (exists k1 k2, r2 ++ r1 = k1 ++ t :: k2 /\ l2 ++ l1 = k2 ++ k1) as [k1 [k2 [E3 E4]]].
  { rewrite E in E1. assert (J : In t (r1 ++ r2)) by (rewrite <- E1; apply in_or_app; right; now left).
    rewrite E in ND. rewrite E1 in ND.
    apply in_app_or in J. destruct J as [J|J]; apply in_split in J; destruct J as [s1 [s2 Es]]; subst.
    - exists (r2 ++ s1), s2. rewrite <- app_assoc in E1, ND. cbn in E1, ND. destruct (split_unique s1 (s2 ++ r2) l1 l2 t ND) as [-> <-]; auto.
      rewrite <- !app_assoc. auto.
    - exists s1, (s2 ++ r1). rewrite app_assoc in E1, ND. destruct (split_unique (r1 ++ s1) s2 l1 l2 t ND) as [<- <-]; auto.
      rewrite <- !app_assoc. auto. }
  rewrite E4. apply (rot_unique k1 k2 k t).
  - rewrite <- E3. subst P. eapply Permutation_NoDup; [|exact ND]. apply Permutation_app_comm.
  - now rewrite <- E3.
Qed.

Lemma ear_lift b l a c t : simpleL (b :: l) -> (forall x, In x l -> ltb b x = true) -> last l b = a -> hd b l = c ->
  ear l t -> t <> a -> t <> c -> ear (b :: l) t.
Proof.
  intros [ND _] Low Ea Ec [k [Rk [Ok Ek]]] Nta Ntc.
  assert (It : In t l) by (apply (rot_in _ _ _ Rk); now left).
  destruct (in_split _ _ It) as [l1 [l2 E]].
  assert (Ek' : k = l2 ++ l1) by (apply (rot_unique l1 l2 k t); rewrite <- E; auto; apply NoDup_cons_iff in ND; apply ND).
  assert (N1 : l1 <> []) by (intros ->; apply Ntc; rewrite <- Ec, E; reflexivity).
  assert (N2 : l2 <> []) by (intros ->; apply Nta; rewrite <- Ea, E, last_last; reflexivity).
  assert (Eh : hd t (l2 ++ b :: l1) = hd t k) by (rewrite Ek'; destruct l2; [contradiction|reflexivity]).
  assert (Elast : last (l2 ++ b :: l1) t = last k t).
  { rewrite Ek'. destruct (exists_last N1) as [r [z ->]]. rewrite app_assoc, last_last.
    replace (l2 ++ b :: r ++ [z]) with ((l2 ++ b :: r) ++ [z]) by (now rewrite <- app_assoc). now rewrite last_last. }
  exists (l2 ++ b :: l1). split; [exists (b :: l1), (t :: l2); split; [rewrite E; reflexivity|reflexivity]|].
  rewrite Eh, Elast. split; [exact Ok|].
  intros x X T. apply in_app_or in X. destruct X as [X|[<-|X]]; [apply Ek; auto; rewrite Ek'; apply in_or_app; auto| |apply Ek; auto; rewrite Ek'; apply in_or_app; auto].
  exfalso. apply (low_outside _ _ _ b Ok T); apply Low; rewrite E.
  - assert (NK : k <> []) by (rewrite Ek'; destruct l2; [contradiction|discriminate]).
    assert (J : In (last k t) k) by (destruct (exists_last NK) as [r [z ->]]; rewrite last_last; apply in_or_app; right; now left).
    rewrite Ek' in J at 2. apply in_app_or in J. apply in_or_app. destruct J; [right; now right|now left].
  - apply in_or_app. right. now left.
  - rewrite Ek'. destruct l2; [contradiction|]. apply in_or_app. right. right. now left.
Qed.
Lemma ear_three a b c : 0 < orient a b c -> ear [b; c; a] a /\ ear [b; c; a] c.
Proof.
  intros O. split.
  - exists [b; c]. split; [exists [b; c], [a]; auto|]. cbn. split; [now rewrite orient_rot1|]. intros x [<-|[<-|[]]]; auto.
  - exists [a; b]. split; [exists [b], [c; a]; auto|]. cbn. split; [now rewrite <- orient_rot1|]. intros x [<-|[<-|[]]]; auto.
Qed.

Theorem ear_exists P : simpleL P -> index P = true -> forall u v, In (u, v) (cyc P) -> exists t, ear P t /\ t <> u /\ t <> v.
Proof.
  remember (length P) as n eqn:En. revert P En. induction n as [n IH] using lt_wf_ind. intros P En S IX u v UV.
  destruct (low_exists P) as [b [Ib Lb]]. { destruct S as [_ [S _]]. destruct P; [cbn in S; lia|discriminate]. }
  destruct (rot_to P b Ib) as [l R]. pose proof (simpleL_rot _ _ R S) as Sb.
  assert (Low : forall x, In x l -> ltb b x = true).
  { intros x I. destruct (Lb x) as [->|L]; auto; [apply (rot_in _ _ _ R); now right|]. destruct Sb as [ND _]. apply NoDup_cons_iff in ND. tauto. }
  assert (IXb : index (b :: l) = true) by (now rewrite <- (index_rot _ _ R S)).
  assert (Len : length P = Datatypes.S (length l)) by (apply (rot_length _ _ R)).
  apply (rot_cyc_in _ _ _ R) in UV.
  enough (exists t, ear (b :: l) t /\ t <> u /\ t <> v) as [t [Et H]].
  { exists t. split; auto. apply (ear_rot _ _ _ R); auto. apply S. }
  assert (Ob : 0 < orient (last l b) b (hd b l)) by (rewrite index_low in IXb; auto).
  remember (last l b) as a eqn:Ea. remember (hd b l) as c eqn:Ec. symmetry in Ea, Ec.
  destruct (c_ab b l a c Sb Ea Ec) as [A [C [Nab [Ncb [Nac [NL [NI [Ia Ic]]]]]]]]. pose proof Sb as [ND [N3 _]]. cbn in N3.
  set (F := filter (fun x => in_trib a b c x && negb (veqb x a) && negb (veqb x c)) l).
  assert (HF : forall x, In x F <-> In x l /\ in_tri a b c x /\ x <> a /\ x <> c).
  { intros x. unfold F. rewrite filter_In, !andb_true_iff, !negb_true_iff, in_trib_spec, !veqb_neq. tauto. }
  destruct F as [|f0 F'] eqn:EF.
  - assert (EM : empty_corner b l a c).
    { intros x I T. destruct (vec_dec x a) as [|X1]; auto. destruct (vec_dec x c) as [|X2]; auto. destruct (proj2 (HF x)); auto. }
    assert (Eb : ear (b :: l) b). { exists l. split; [apply rot_refl|]. rewrite Ea, Ec. auto. }
    assert (G : (u = b /\ v = c) \/ (u = a /\ v = b) -> exists t, ear (b :: l) t /\ t <> u /\ t <> v).
    { intros ACV. destruct (le_lt_dec 3 (length l)) as [L3|L3].
      - destruct (IH (length l)) with (P := l) (u := a) (v := c) as [t [Et [Nta Ntc]]]; auto; [lia|now apply (clip_simple b l a c)|rewrite (clip_index b l a c); auto|rewrite (cyc_tail b l a c); auto; apply in_or_app; right; now left|].
        exists t. split; [now apply (ear_lift b l a c)|]. assert (It : In t l) by (destruct Et as [k [Rk _]]; apply (rot_in _ _ _ Rk); now left).
        destruct ACV as [[-> ->]|[-> ->]]; split; auto; intros ->; auto.
      - destruct l as [|c' [|a' [|e l']]]; cbn in N3, L3; try lia. cbn in Ea, Ec. rewrite Ea, Ec in *. destruct (ear_three a b c Ob) as [Y1 Y2].
        destruct ACV as [[-> ->]|[-> ->]]; [exists a|exists c]; auto. }
    destruct (vec_dec b u) as [Bu|Bu]; [|destruct (vec_dec b v) as [Bv|Bv]; [|exists b; auto]].
    + apply G. subst u. left. split; auto. apply (cyc_succ (b :: l) b); auto. cbn. lia.
    + apply G. subst v. right. split; auto. apply (cyc_pred (b :: l) u a b); auto. cbn. lia.
  - destruct (max_exists (orient c a) (f0 :: F')) as [m [Im Mm]]; [discriminate|]. rewrite <- EF in *. apply HF in Im. destruct Im as [Im [Tm [Nma Nmc]]].
    destruct (in_split _ _ Im) as [l1 [l2 E]].
    assert (N1 : l1 <> []) by (intros ->; apply Nmc; rewrite <- Ec, E; reflexivity).
    assert (N2 : l2 <> []) by (intros ->; apply Nma; rewrite <- Ea, E, last_last; reflexivity).
    assert (Mm' : forall x, In x l -> in_tri a b c x -> x <> a -> x <> c -> orient c a x <= orient c a m) by (intros x X1 X2 X3 X4; apply Mm, HF; auto).
    rewrite E in *. clear F EF HF Mm.
    destruct (ch_P1 b l1 l2 m a c) as [S1 I1]; auto. destruct (ch_P2 b l1 l2 m a c) as [S2 I2]; auto.
    destruct (ch_m b l1 l2 m a c Sb Low Ea Ec Tm Mm') as [M1 [M2 [M3 [B1 [B2 Mb]]]]].
    pose proof (ch_ina b l1 l2 m a N2 Ea) as Ia'. rewrite app_length in Len. cbn in Len.
    apply (ch_cyc b l1 l2 m a c) in UV; auto. destruct UV as [UV|UV].
    + destruct (IH (length (b :: m :: l2))) with (P := b :: m :: l2) (u := b) (v := m) as [t [Et [T1 T2]]]; auto.
      * cbn. destruct l1; [contradiction|cbn in Len; lia].
      * now left.
      * destruct (ch_ear2 b l1 l2 m a c) with (t := t) as [Et' It]; auto. exists t. split; auto.
        apply in_segs_in in UV. assert (H : forall y, In y (b :: l1 ++ [m]) -> t <> y).
        { intros y [<-|Y] ->; auto. apply in_app_or in Y. destruct Y as [Y|[<-|[]]]; auto. apply (M3 y); auto. }
        split; apply H; tauto.
    + destruct (IH (length (b :: l1 ++ [m]))) with (P := b :: l1 ++ [m]) (u := m) (v := b) as [t [Et [T1 T2]]]; auto.
      * cbn. rewrite app_length. cbn. destruct l2; [contradiction|cbn in Len; lia].
      * rewrite cyc_path by (destruct l1; discriminate). right. apply in_or_app. right. left. now rewrite last_last.
      * destruct (ch_ear1 b l1 l2 m a c) with (t := t) as [Et' It]; auto. exists t. split; auto.
        assert (H : forall y, y = b \/ In y (m :: l2) -> t <> y).
        { intros y [->|[<-|Y]] ->; auto. apply (M3 y); auto. }
        destruct UV as [UV|[= -> ->]]; [apply in_segs_in in UV; split; apply H; tauto|].
        split; apply H; auto. right. now right.
Qed.
End E.
