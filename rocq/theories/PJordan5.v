(** The index of a simple polygon is the sign of its area; the connection with the polygons of the model. *)
From Coq Require Import List Bool ZArith Arith Lia Ring Field Permutation.
From Verif Require Import OField FMicromega PField MBase MEuclid SEuclid PEuclid MSim SSim MPoly PPoly MSurf SSurf PSurf PSurf3 SPoint PPoint PTurn
  PJordan PJordan2 PJordan3 PJordan4 SCut.
Import ListNotations.

Section L.
Context {A : Type}.
Implicit Types (l r : list A).
Lemma segs_nth l (d : A) : segs l = map (fun i => (nth i l d, nth (S i) l d)) (seq 0 (length l - 1)).
Proof.
  induction l as [|a [|b l] IH]; [reflexivity|reflexivity|]. rewrite segs_cons, IH. cbn [length]. rewrite !Nat.sub_succ, !Nat.sub_0_r.
  cbn [seq map]. f_equal. rewrite <- seq_shift, map_map. apply map_ext. reflexivity.
Qed.
Lemma segs_rev l : segs (rev l) = map (fun g => (snd g, fst g)) (rev (segs l)).
Proof.
  induction l as [|a [|b l] IH]; [reflexivity|reflexivity|]. rewrite segs_cons. cbn [rev] in *. rewrite <- app_assoc. cbn [app].
  rewrite segs_snoc, IH, map_app. reflexivity.
Qed.
Lemma hd_rev l (d : A) : hd d (rev l) = last l d.
Proof. destruct l as [|a l] using rev_ind; [reflexivity|]. now rewrite rev_app_distr, last_last. Qed.
Lemma last_rev l (d : A) : last (rev l) d = hd d l.
Proof. destruct l as [|a l]; [reflexivity|]. cbn. now rewrite last_last. Qed.
End L.

Section A.
Context {K : OField}.
Add Field KFja : (of_ft K).
Local Open Scope F_scope.
Implicit Types (a b c d p q u v w x y z t : vec K) (l P Q : list (vec K)).

(** reversed polygons; the first vertex is kept *)
Lemma cyc_rev p l g : l <> [] -> In g (cyc (p :: rev l)) <-> In (snd g, fst g) (cyc (p :: l)).
Proof.
  intros N. assert (N' : rev l <> []) by (intros E; apply N; rewrite <- (rev_involutive l), E; reflexivity).
  rewrite !cyc_path by auto. rewrite hd_rev, last_rev. cbn [In]. rewrite !in_app_iff. cbn [In]. rewrite segs_rev, in_map_iff.
  destruct g as [u v]. cbn [fst snd].
  split.
  - intros [[= <- <-]|[[[u' v'] [[= -> ->] H]]|[[= <- <-]|[]]]]; auto. apply in_rev in H. auto.
  - intros [[= <- <-]|[H|[[= <- <-]|[]]]]; auto. right. left. exists (v, u). split; auto. now apply -> in_rev.
Qed.
Lemma simpleL_rev p l : simpleL (p :: l) -> simpleL (p :: rev l).
Proof.
  intros Sp. destruct (simple_corner _ _ Sp) as [w [z [_ [_ [_ [_ [_ [_ [_ [NL _]]]]]]]]]]. destruct Sp as [ND [N S]]. split.
  - apply NoDup_cons_iff in ND. destruct ND as [NI ND]. constructor; [now rewrite <- in_rev|now apply NoDup_rev].
  - split; [cbn in *; now rewrite rev_length|]. intros [u v] [u' v'] x E F NE Xe Xf. apply cyc_rev in E, F; auto. cbn [fst snd] in *.
    destruct (S (v, u) (v', u') x) as [[X Y]|[X Y]]; auto; try (now apply on_seg_sym). intros [= -> ->]. now apply NE.
Qed.
Lemma par_rev q es : par q (map (fun g => (snd g, fst g)) (rev es)) = par q es.
Proof.
  rewrite map_rev. transitivity (par q (map (fun g : vec K * vec K => (snd g, fst g)) es)).
  - apply par_perm. symmetry. apply Permutation_rev.
  - induction es as [|[u v] es IH]; [reflexivity|]. cbn. now rewrite IH, (crs_sym v u).
Qed.
Lemma index_rev p l : simpleL (p :: l) -> index (p :: rev l) = negb (index (p :: l)).
Proof.
  intros S. pose proof (simple_corner _ _ S) as [w [z [Ew [Ez [_ [_ [Nw [Nz [Nwz [NL _]]]]]]]]]]. pose proof (simple_ray _ _ S) as R.
  unfold index. rewrite hd_rev, last_rev, segs_rev, par_rev. rewrite Ew, Ez in *.
  assert (NW : vsub w p <> vzero) by (apply vsub_nz; auto). assert (NZ : vsub z p <> vzero) by (apply vsub_nz; auto).
  pose proof (corner_forms (vsub z p) (vsub w p) NZ NW R) as C.
  destruct (par p (segs l)), (above (vsub z p) (vsub w p)), (above (vsub w p) (vsub z p)), (posb (vsub w p)), (posb (vsub z p)); cbn in *; congruence.
Qed.

Lemma area_rots P Q : rot P Q -> area P = area Q.
Proof. intros [l1 [l2 [-> ->]]]. apply area_rot. Qed.
Lemma area_clip b l a c : l <> [] -> last l b = a -> hd b l = c -> a <> c -> area (b :: l) = area l + orient a b c / 2.
Proof.
  intros N Ea Ec Nac. destruct l as [|c' l]; [contradiction|]. cbn in Ec. subst c'. rewrite last_cons in Ea.
  destruct l as [|a' l] using rev_ind; [cbn in Ea; congruence|clear IHl]. rewrite last_last in Ea. subst a'.
  rewrite (area_rots (b :: c :: l ++ [a]) (c :: l ++ [a; b])).
  2:{ exists [b], (c :: l ++ [a]). split; auto. cbn. now rewrite <- app_assoc. }
  pose proof (area_cut [] c l a [b]) as X. cbn [app] in X. etransitivity; [exact X|]. f_equal. rewrite area_triangle. reflexivity.
Qed.
Lemma ear_neq P t : simpleL P -> ear P t -> exists l a c, rot P (t :: l) /\ simpleL (t :: l) /\ last l t = a /\ hd t l = c /\ 0 < orient a t c /\
  empty_corner t l a c /\ l <> [] /\ a <> c.
Proof.
  intros S [l [R [O EM]]]. exists l, (last l t), (hd t l). pose proof (simpleL_rot _ _ R S) as S'.
  destruct (c_ab t l _ _ S' eq_refl eq_refl) as [_ [_ [_ [_ [Nac [NL _]]]]]]. auto 10.
Qed.
Lemma index_three a b c : simpleL [a; b; c] -> index [a; b; c] = true -> 0 < orient a b c.
Proof.
  intros S I. destruct (ear_exists _ S I a b) as [t [[l [R [O _]]] [N1 N2]]]; [now left|].
  assert (t = c).
  { assert (J : In t [a; b; c]) by (apply (rot_in _ _ _ R); now left). destruct J as [<-|[<-|[<-|[]]]]; tauto. }
  subst t. assert (l = [] ++ [a; b]).
  { apply (rot_unique [a; b] [] l c); auto. apply S. }
  subst l. cbn in O. now rewrite <- orient_rot1 in O.
Qed.
Lemma area_pos P : simpleL P -> index P = true -> 0 < area P.
Proof.
  remember (length P) as n eqn:En. revert P En. induction n as [n IH] using lt_wf_ind. intros P En S IX.
  destruct P as [|p [|w P]]; try (destruct S as [_ [S _]]; cbn in S; lia).
  destruct (ear_exists _ S IX p w) as [t [E [_ _]]]; [now left|].
  destruct (ear_neq _ _ S E) as [l [a [c [R [S' [Ea [Ec [O [EM [NL Nac]]]]]]]]]].
  rewrite (area_rots _ _ R), (area_clip t l a c) by auto. pose proof (rot_length _ _ R) as Len.
  assert (H : 0 < orient a t c / 2) by (apply fdiv_pos; [apply f2_pos|auto]).
  destruct (le_lt_dec 3 (length l)) as [L3|L3].
  - assert (0 < area l); [|flra]. apply (IH (length l)); auto; [cbn in En, Len; lia|now apply (clip_simple t l a c)|].
    rewrite (clip_index t l a c); auto. now rewrite <- (index_rot _ _ R S).
  - assert (Z : area l = 0); [|flra].
    destruct l as [|x [|y [|z l]]]; cbn in L3; try lia; [contradiction| |];
      rewrite area_csum; cbn; unfold ccw; field; apply f2_neq0.
Qed.
Lemma area_neg P : simpleL P -> index P = false -> area P < 0.
Proof.
  intros S IX. destruct P as [|p l]; [destruct S as [_ [S _]]; cbn in S; lia|].
  assert (H : 0 < area (p :: rev l)) by (apply area_pos; [now apply simpleL_rev|now rewrite index_rev, IX by auto]).
  assert (E : area (p :: rev l) = - area (p :: l)); [|flra].
  rewrite <- area_rev. cbn [rev]. apply (area_rot [p] (rev l)).
Qed.
Theorem index_area P : simpleL P -> (index P = true <-> 0 < area P).
Proof.
  intros S. split; [now apply area_pos|]. intros A. destruct (index P) eqn:E; auto. apply area_neg in E; auto. flra.
Qed.

(** the edges of a polygon *)
Lemma cyc_side (P : polygon K) : cyc P = map (side P) (seq 0 (length P)).
Proof.
  destruct P as [|p P]; [reflexivity|]. cbn [cyc]. rewrite (segs_nth _ vzero). rewrite app_length, Nat.add_sub. apply map_ext_in. intros i Hi.
  apply in_seq in Hi. unfold side. set (Q := p :: P) in *.
  assert (E1 : nth i (Q ++ [p]) vzero = vertex Q i) by (rewrite vertex_lt by lia; now rewrite app_nth1 by lia).
  assert (E2 : nth (S i) (Q ++ [p]) vzero = vertex Q (S i)).
  { destruct (Nat.eq_dec (S i) (length Q)) as [E|N].
    - rewrite E, vertex_n by discriminate. rewrite app_nth2 by lia. now rewrite Nat.sub_diag.
    - rewrite vertex_lt by lia. now rewrite app_nth1 by lia. }
  now rewrite E1, E2.
Qed.
Lemma nodup_vertex (P : polygon K) : NoDup P <-> forall i j, (i < length P)%nat -> (j < length P)%nat -> vertex P i = vertex P j -> i = j.
Proof.
  rewrite (NoDup_nth P vzero). split; intros H i j Hi Hj E; apply H; auto.
  - rewrite !vertex_lt in E by auto. exact E.
  - rewrite !vertex_lt by auto. exact E.
Qed.
Theorem simpleL_polygon (P : polygon K) : simpleL P <-> nondeg P /\ simple_polygon P.
Proof.
  split.
  - intros [ND [N SI]]. rewrite nodup_vertex in ND.
    assert (I : forall i, (i < length P)%nat -> In (side P i) (cyc P)) by (intros i Hi; rewrite cyc_side; apply in_map, in_seq; lia).
    assert (B : forall i, (i mod length P < length P)%nat) by (intros i; apply Nat.mod_upper_bound; lia).
    assert (NE : forall e, vertex P (S e) <> vertex P e).
    { intros e E. rewrite <- (vertex_mod P e), <- (vertex_mod P (S e)) in E . apply ND in E; auto.
      assert (n2 : (length P <> 0 /\ 2 <= length P)%nat) by lia. clear -E n2. set (n := length P) in *. clearbody n.
      pose proof (Nat.div_mod e n (proj1 n2)). pose proof (Nat.div_mod (S e) n (proj1 n2)).
      assert (S e / n = e / n \/ S e / n = S (e / n))%nat by nia. nia. }
    split.
    + split; auto. intros e E. apply (NE e). unfold edge in E. destruct (vertex P (S e)), (vertex P e). injection E as E1 E2. apply vec_eq; cbn; flra.
    + intros i j p Hi Hj Nij Xi Xj. destruct (SI (side P i) (side P j) p) as [[E1 E2]|[E1 E2]]; auto.
      * intros E. apply Nij. apply ND; auto. now injection E.
      * right. cbn [fst snd side] in E1, E2. rewrite Nat.add_1_r. split; auto. apply ND; auto. rewrite vertex_mod. congruence.
      * left. cbn [fst snd side] in E1, E2. rewrite Nat.add_1_r. split; auto. apply ND; auto. rewrite vertex_mod. congruence.
  - intros [ND SI]. split; [apply nodup_vertex; intros i j; now apply vertex_inj|]. split; [apply ND|].
    intros e f x E F NE Xe Xf. rewrite cyc_side in E, F. apply in_map_iff in E, F. destruct E as [i [<- Hi]], F as [j [<- Hj]]. apply in_seq in Hi, Hj.
    assert (Nij : i <> j) by (intros ->; now apply NE).
    destruct (SI i j x) as [[E1 E2]|[E1 E2]]; auto; try lia; unfold side; cbn [fst snd]; rewrite Nat.add_1_r in E1, E2.
    + right. split; auto. rewrite E1, vertex_mod; auto.
    + left. split; auto. rewrite E1, vertex_mod; auto.
Qed.
Theorem proper_simpleL (P : polygon K) : proper P <-> simpleL P /\ index P = true.
Proof.
  unfold proper. split.
  - intros [A [B [C D]]]. assert (S : simpleL P) by (apply simpleL_polygon; split; auto; split; auto). split; auto. now apply index_area.
  - intros [S I]. pose proof (proj1 (simpleL_polygon P) S) as [[A B] C]. repeat split; auto. now apply index_area.
Qed.

(** the parity is what the winding number algorithm computes *)
Lemma ltb_lo p q : snd p < snd q -> ltb p q = true.
Proof. intros H. apply posb_spec. left. cbn. flra. Qed.
Lemma ltb_hi p q : snd q < snd p -> ltb p q = false.
Proof. intros H. apply ltb_asym. now apply ltb_lo. Qed.
Lemma ltb_eq p q : snd p = snd q -> ltb p q = (fst p <? fst q).
Proof.
  intros H. apply eq_true_iff_eq. unfold ltb. rewrite posb_spec. cbn. split; [intros [X|[_ X]]; flra|]. intros X. right. split; flra.
Qed.
Definition crossing_odd p v w : bool :=
  ((snd v <? snd p) && (snd p <=? snd w) && (0 <? ccw (vsub w v) (vsub p v))) ||
  ((snd p <=? snd v) && (snd w <? snd p) && (ccw (vsub w v) (vsub p v) <? 0)).
Lemma crossing_odd_spec p v w : Z.odd (crossing p v w) = crossing_odd p v w.
Proof.
  unfold crossing, crossing_odd, fleb.
  destruct (snd v <? snd p) eqn:E1, (snd w <? snd p) eqn:E2; cbn [negb andb orb]; try reflexivity;
    try (destruct (0 <? ccw (vsub w v) (vsub p v)); reflexivity); destruct (ccw (vsub w v) (vsub p v) <? 0); reflexivity.
Qed.
Lemma crossing_crs p v w : ~ on_segment (v, w) p -> crossing_odd p v w = crs (v, w) p.
Proof.
  intros OFF. change (ccw (vsub w v) (vsub p v)) with (orient v w p).
  assert (O : orient v w p = (fst w - fst v) * (snd p - snd v) - (snd w - snd v) * (fst p - fst v)) by (unfold orient, ccw; cbn; ring).
  assert (T : forall a b : K, a < b \/ a = b \/ b < a).
  { intros a b. destruct (flt_total (a - b)) as [H|[H|H]]; [left|right; left|right; right]; flra. }
  assert (Nv : p <> v) by (intros ->; apply OFF, on_seg_l). assert (Nw : p <> w) by (intros ->; apply OFF, on_seg_r).
  assert (Nv' : snd v = snd p -> fst v <> fst p) by (intros A B; apply Nv; symmetry; now apply vec_eq).
  assert (Nw' : snd w = snd p -> fst w <> fst p) by (intros A B; apply Nw; symmetry; now apply vec_eq).
  unfold crossing_odd, crs, fleb. cbn [fst snd]. change (ccw (vsub w v) (vsub p v)) with (orient v w p).
  assert (FT : forall a b : K, a < b -> (a <? b) = true) by auto.
  assert (FF : forall a b : K, b < a -> (a <? b) = false) by (intros; flra).
  assert (FE : forall a : K, (a <? a) = false) by (intros; flra).
  assert (OS : orient w v p = - orient v w p) by apply orient_swap.
  destruct (T (snd v) (snd p)) as [V|[V|V]], (T (snd w) (snd p)) as [W|[W|W]].
  - rewrite (ltb_lo v p), (ltb_lo w p), (FT _ _ V), (FT _ _ W) by auto. reflexivity.
  - rewrite (ltb_lo v p), (ltb_eq w p), (FT _ _ V), W, FE, (ltb_lo v w) by (auto; flra). cbn [negb andb orb].
    rewrite orb_false_r. destruct (T (fst w) (fst p)) as [X|[X|X]]; [rewrite (FT _ _ X)|now apply Nw' in X|rewrite (FF _ _ X)]; [|reflexivity].
    cbn [xorb andb]. apply FF. rewrite O, W. assert (0 < (fst p - fst w) * (snd p - snd v)) by (apply fmul_pos; flra). flra.
  - rewrite (ltb_lo v p), (ltb_hi w p), (FT _ _ V), (FF _ _ W), (ltb_lo v w) by (auto; flra). cbn [negb andb orb xorb]. now rewrite orb_false_r.
  - rewrite (ltb_eq v p), (ltb_lo w p), V, FE, (FT _ _ W), (ltb_hi v w) by (auto; flra). cbn [negb andb orb].
    destruct (T (fst v) (fst p)) as [X|[X|X]]; [rewrite (FT _ _ X)|now apply Nv' in X|rewrite (FF _ _ X)]; cbn [xorb andb].
    + apply fltb_ge. rewrite O, V. assert (0 < (fst p - fst v) * (snd p - snd w)) by (apply fmul_pos; flra). flra.
    + rewrite OS. apply eq_true_iff_eq. split; intros; flra.
  - rewrite (ltb_eq v p), (ltb_eq w p), V, W, FE by auto. cbn [negb andb orb].
    destruct (T (fst v) (fst p)) as [X|[X|X]], (T (fst w) (fst p)) as [Y|[Y|Y]]; try (now apply Nv' in X); try (now apply Nw' in Y);
      rewrite ?(FT _ _ X), ?(FF _ _ X), ?(FT _ _ Y), ?(FF _ _ Y); cbn [xorb andb]; try reflexivity; exfalso; apply OFF.
    + apply seg_between; [rewrite ltb_eq; auto|rewrite ltb_eq; auto|]. rewrite O, V, W. ring.
    + apply on_seg_sym, seg_between; [rewrite ltb_eq; auto|rewrite ltb_eq; auto|]. rewrite OS, O, V, W. ring.
  - rewrite (ltb_eq v p), (ltb_hi w p), V, FE, (FF _ _ W), (ltb_lo v w) by (auto; flra). cbn [negb andb orb].
    destruct (T (fst v) (fst p)) as [X|[X|X]]; [rewrite (FT _ _ X)|now apply Nv' in X|rewrite (FF _ _ X)]; cbn [xorb andb]; [|reflexivity].
    symmetry. apply FF. rewrite O, V. assert (0 < (fst p - fst v) * (snd w - snd p)) by (apply fmul_pos; flra). flra.
  - rewrite (ltb_hi v p), (ltb_lo w p), (FF _ _ V), (FT _ _ W), (ltb_hi v w) by (auto; flra). cbn [negb andb orb xorb].
    rewrite OS. apply eq_true_iff_eq. split; intros; flra.
  - rewrite (ltb_hi v p), (ltb_eq w p), (FF _ _ V), W, FE, (ltb_hi v w) by (auto; flra). cbn [negb andb orb].
    destruct (T (fst w) (fst p)) as [X|[X|X]]; [rewrite (FT _ _ X)|now apply Nw' in X|rewrite (FF _ _ X)]; cbn [xorb andb]; [|reflexivity].
    symmetry. apply FF. rewrite OS, O, W. assert (0 < (fst p - fst w) * (snd v - snd p)) by (apply fmul_pos; flra). flra.
  - rewrite (ltb_hi v p), (ltb_hi w p), (FF _ _ V), (FF _ _ W) by auto. reflexivity.
Qed.
Lemma winding_par (P : polygon K) p : (forall g, In g (cyc P) -> ~ on_segment g p) -> Z.odd (winding_number P p) = par p (cyc P).
Proof.
  intros H. unfold winding_number.
  assert (E : combine P (skipn 1 P ++ firstn 1 P) = cyc P).
  { assert (X : forall Q a z, combine (a :: Q) (Q ++ [z]) = segs (a :: Q ++ [z])).
    { induction Q as [|b Q IH]; intros a z; [reflexivity|]. cbn [app combine]. rewrite segs_cons. f_equal. apply IH. }
    destruct P as [|a P]; [reflexivity|]. apply X. }
  rewrite E. clear E. revert H. generalize (cyc P). intros es H.
  assert (G : forall z : Z, Z.odd (fold_left (fun acc vw => (acc + crossing p (fst vw) (snd vw))%Z) es z) = xorb (Z.odd z) (par p es)).
  { induction es as [|[v w] es IH]; intros z; cbn [fold_left par]; [now rewrite xorb_false_r|].
    rewrite IH by (intros g G; apply H; now right). cbn [fst snd]. rewrite Z.odd_add, crossing_odd_spec, crossing_crs by (apply H; now left).
    now rewrite xorb_assoc. }
  etransitivity; [apply G|]. now destruct (par p es).
Qed.
End A.
