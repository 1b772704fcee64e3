(** Proofs about the checks of the constructor of polygons. *)
From Coq Require Import List Bool ZArith Arith Lia Ring Field.
From Verif Require Import OField FMicromega PField MBase MEuclid SEuclid PEuclid MSim MPoly PPoly
  MSurf SSurf PSurf PSurf3 SPoint PPoint PPoint2 PPoint5 PTurn.
Import ListNotations.

Section Simple.
Context {K : OField}.
Add Field KFsi : (of_ft K).
Local Open Scope F_scope.
Implicit Types P : polygon K.

Definition apart P i j := ~ exists p, on_segment (side P i) p /\ on_segment (side P j) p.
Definition far P i j := let d := ((Z.of_nat i - Z.of_nat j) mod Z.of_nat (length P))%Z in d <> 0%Z /\ d <> 1%Z.

Lemma simple_inner_spec P i js : nondeg P -> exists b, simple_inner P i js = Ok b /\
  (b = true <-> forall j, In j js -> far P i j -> apart P i j).
Proof.
  intros N. induction js as [|j js [b [E IH]]]; [exists true; split; [reflexivity|]; split; [contradiction|reflexivity]|].
  cbn [simple_inner]. set (d := ((Z.of_nat i - Z.of_nat j) mod Z.of_nat (length P))%Z).
  assert (Dp : (0 <= d)%Z). { apply Z.mod_pos_bound. destruct N. lia. }
  destruct (Z.eqb_spec d (-1)) as [Dm|Dm]; [lia|]. destruct (Z.eqb_spec d 0) as [D0|D0]; cbn [orb].
  { exists b. split; auto. rewrite IH. split; intros H k; [intros [<-|I] F; [destruct F; contradiction|auto]|intros I; apply H; now right]. }
  destruct (Z.eqb_spec d 1) as [D1|D1].
  { exists b. split; auto. rewrite IH. split; intros H k; [intros [<-|I] F; [destruct F; contradiction|auto]|intros I; apply H; now right]. }
  destruct (segment_spec (side P i) (side P j)) as [n [EN SN]]; [apply edge_neq, N|apply edge_neq, N|].
  change (vertex P i, vertex P (S i)) with (side P i). change (vertex P j, vertex P (S j)) with (side P j). rewrite EN.
  destruct SN as [A|[p [A1 [A2 A3]]]|A1 A2].
  - exists b. split; auto. rewrite IH. split; intros H k; [intros [<-|I] F; [exact A|auto]|intros I; apply H; now right].
  - exists false. split; auto. split; [discriminate|]. intros H. exfalso. apply (H j (or_introl eq_refl)); [split; auto|].
    assert (X : forall s : vec K * vec K, is_endpoint s p -> on_segment s p).
    { intros s [-> | ->]; unfold on_segment; [exists 0|exists 1]; (split; [pose proof (@flt_0_1 K); flra|]; split; [pose proof (@flt_0_1 K); flra|]);
        apply vec_eq; cbn; ring. }
    exists p. split; auto.
  - exists false. split; auto. split; [discriminate|]. intros H. exfalso. apply (H j (or_introl eq_refl)); [split; auto|exact A1].
Qed.
Lemma simple_outer_spec P is : nondeg P -> exists b, simple_outer P is = Ok b /\
  (b = true <-> forall i j, In i is -> (i + 2 <= j <= length P)%nat -> far P i j -> apart P i j).
Proof.
  intros N. induction is as [|i is [b [E IH]]]; [exists true; split; [reflexivity|]; split; [contradiction|reflexivity]|].
  cbn [simple_outer]. destruct (simple_inner_spec P i (seq (i + 2) (length P + 1 - (i + 2))) N) as [c [Ec Hc]]. rewrite Ec.
  assert (J : forall j, In j (seq (i + 2) (length P + 1 - (i + 2))) <-> (i + 2 <= j <= length P)%nat).
  { intros j. rewrite in_seq. lia. }
  destruct c.
  - exists b. split; auto. rewrite IH. pose proof (proj1 Hc eq_refl) as H0. split; intros H i' j.
    + intros [<-|I] R; [apply H0; now apply J|now apply H].
    + intros I. apply H. now right.
  - exists false. split; auto. split; [discriminate|]. intros H. apply Hc. intros j I. apply H; [now left|]. now apply J.
Qed.
Lemma adjacent_spec P i p : nondeg P -> ~ neg_multiple (edge P i) (edge P (S i)) ->
  on_segment (side P i) p -> on_segment (side P (S i)) p -> p = vertex P (S i).
Proof.
  intros [_ N] NA A B. apply side_segment in A, B. destruct A as [t [T0 [T1 ->]]], B as [s [S0 [S1 E]]].
  destruct (feq_dec s 0) as [->|Ns]. { rewrite E. apply vec_eq; cbn; ring. }
  exfalso. assert (Sp : 0 < s) by (apply fneq_lt in Ns; destruct Ns; flra).
  assert (W : edge P (S i) = vscale ((t - 1) / s) (edge P i)).
  { pose proof (f_equal fst E) as E1. pose proof (f_equal snd E) as E2. unfold edge in *. cbn in E1, E2 |- *.
    apply vec_eq; cbn; (apply (fcancel _ _ s); [auto|]); (match goal with |- _ = (?a / s) * ?c * s => replace ((a / s) * c * s) with (a * c) by (field; auto) end); flra. }
  destruct (feq_dec t 1) as [->|Nt].
  - apply (N (S i)). rewrite W. apply vec_eq; cbn; field; auto.
  - apply NA. split; [apply N|]. exists ((t - 1) / s). split; [|exact W].
    replace ((t - 1) / s) with (- ((1 - t) / s)) by (field; auto). assert (0 < (1 - t) / s); [|flra]. apply fdiv_pos; auto. apply fneq_lt in Nt; destruct Nt; flra.
Qed.
Lemma side_mod P i : side P (i mod length P) = side P i.
Proof. unfold side. now rewrite vertex_mod, vertex_S_mod. Qed.

Lemma far_val P i j : (i < j)%nat -> (j - i < length P)%nat -> ((Z.of_nat i - Z.of_nat j) mod Z.of_nat (length P))%Z = Z.of_nat (length P - (j - i)).
Proof.
  intros L1 L2. replace (Z.of_nat i - Z.of_nat j)%Z with (Z.of_nat (length P - (j - i)) + (-1) * Z.of_nat (length P))%Z by lia.
  rewrite Z.mod_add by lia. rewrite Z.mod_small by lia. reflexivity.
Qed.
Lemma far_zero P j : j = length P -> (1 <= length P)%nat -> ((Z.of_nat 0 - Z.of_nat j) mod Z.of_nat (length P))%Z = 0%Z.
Proof. intros -> L. replace (Z.of_nat 0 - Z.of_nat (length P))%Z with (0 + (-1) * Z.of_nat (length P))%Z by lia. rewrite Z.mod_add by lia. apply Z.mod_0_l. lia. Qed.

(** the two tests together say that the polygon is simple *)
Lemma simple_checks P : nondeg P -> exists b, is_simple P = Ok b /\
  (simple_polygon P <-> b = true /\ forall i, (i < length P)%nat -> ~ neg_multiple (edge P i) (edge P (S i))).
Proof.
  intros N. destruct (simple_outer_spec P (seq 0 (length P)) N) as [b [E H]]. exists b. split; [exact E|]. rewrite H. clear E H b.
  pose proof N as [L3 NZ]. split.
  - intros SP. split.
    + intros i j I R F [p [A B]]. apply in_seq in I. destruct (Nat.eq_dec j (length P)) as [Ej|Nj].
      * destruct (Nat.eq_dec i 0) as [Z0|Z0]. { subst i. destruct F as [F _]. apply F. apply far_zero; lia. }
        destruct F as [F0 F1]. rewrite far_val in F0, F1 by lia.
        assert (B' : on_segment (side P 0) p). { rewrite <- side_mod in B. rewrite Ej, Nat.mod_same in B by lia. exact B. }
        destruct (SP i 0%nat p) as [[X _]|[X _]]; auto; try lia.
        -- destruct (mod_succ i (length P)) as [[? Y]|[? Y]]; lia.
        -- rewrite Nat.mod_small in X by lia. lia.
      * destruct F as [F0 F1]. rewrite far_val in F0, F1 by lia.
        destruct (SP i j p) as [[X _]|[X _]]; auto; try lia.
        -- destruct (mod_succ i (length P)) as [[? Y]|[? Y]]; lia.
        -- destruct (mod_succ j (length P)) as [[? Y]|[? Y]]; lia.
    + intros i Li [_ [a [A W]]]. assert (L' : ((i + 1) mod length P < length P)%nat) by (apply Nat.mod_upper_bound; lia).
      apply (simple_no_spike P _ N SP L'). split; [apply NZ|]. rewrite prev_succ by auto. rewrite edge_mod.
      exists (- (1) / a). assert (a <> 0) by now apply fneg_neq0. split.
      * replace (- (1) / a) with (1 / - a) by (field; split; [|auto]; flra). apply fdiv_pos; [flra|]. apply flt_0_1.
      * rewrite Nat.add_1_r, W. apply vec_eq; cbn; field; auto.
  - intros [H NA].
    assert (G : forall i j p, (i < j)%nat -> (j < length P)%nat -> on_segment (side P i) p -> on_segment (side P j) p ->
      (j = Nat.modulo (i + 1) (length P) /\ p = vertex P (i + 1)) \/ (i = Nat.modulo (j + 1) (length P) /\ p = vertex P (j + 1))).
    { intros i j p Lij Lj A B. destruct (Nat.eq_dec j (i + 1)) as [Ej|Nj].
      - left. split; [rewrite Nat.mod_small; lia|]. rewrite Nat.add_1_r. apply adjacent_spec; auto; [apply NA; lia|]. now replace (S i) with j by lia.
      - destruct (Nat.eq_dec (j + 1) (length P + i)) as [Ej|Nj2].
        + right. assert (i = 0%nat) by lia. subst i. split. { replace (j + 1)%nat with (length P) by lia. rewrite Nat.mod_same; lia. }
          rewrite Nat.add_1_r. apply adjacent_spec; auto. rewrite <- side_mod. replace (S j) with (length P) by lia. rewrite Nat.mod_same by lia. exact A.
        + exfalso. apply (H i j); [apply in_seq; lia|lia| |exists p; split; auto]. split; rewrite far_val by lia; lia. }
    intros i j p Li Lj Nij A B. destruct (Nat.lt_ge_cases i j) as [C|C]; [now apply G|].
    destruct (G j i p) as [X|X]; auto; lia.
Qed.

Lemma existsb_false {A} (f : A -> bool) l : existsb f l = false <-> forall x, In x l -> f x = false.
Proof.
  split.
  - intros E x I. destruct (f x) eqn:F; auto. rewrite <- E. symmetry. apply existsb_exists. eauto.
  - intros H. destruct (existsb f l) eqn:E; auto. apply existsb_exists in E. destruct E as [x [I F]]. rewrite H in F; auto.
Qed.

Lemma polygon_check_spec P : polygon_check P = Ok tt <-> nondeg P /\ simple_polygon P /\ 0 < area P.
Proof.
  unfold polygon_check. destruct (Nat.ltb_spec (length P) 3) as [L|L].
  { split; [discriminate|]. intros [[X _] _]. lia. }
  destruct (area P <? 0) eqn:A1. { split; [discriminate|]. intros [_ [_ X]]. change (area P < 0) in A1. flra. }
  destruct (area P =? 0) eqn:A2. { split; [discriminate|]. intros [_ [_ X]]. apply feqb_eq in A2. flra. }
  assert (AP : 0 < area P). { apply feqb_false in A2. apply fneq_lt in A2; destruct A2; flra. }
  destruct (existsb (fun e => veqb e vzero) (edges P)) eqn:Z.
  { split; [discriminate|]. intros [[_ X] _]. apply existsb_exists in Z. destruct Z as [e [I V]]. apply veqb_eq in V. subst e.
    unfold edges in I. apply in_map_iff in I. destruct I as [k [I _]]. now destruct (X k). }
  assert (N : nondeg P).
  { split; [lia|]. apply edges_nz; [lia|]. intros e Le Q. pose proof (proj1 (existsb_false _ _) Z (edge P e)) as Y.
    enough (veqb (edge P e) vzero = true) by (rewrite Y in *; [discriminate|unfold edges; apply in_map, in_seq; lia]). now apply veqb_eq. }
  destruct (existsb (fun i => is_anti_parallel (edge P i) (edge P (S i))) (seq 0 (length P))) eqn:Q.
  { split; [discriminate|]. intros [_ [SP _]]. destruct (simple_checks P N) as [b [_ H]]. apply H in SP. destruct SP as [_ NA].
    apply existsb_exists in Q. destruct Q as [i [I X]]. apply is_anti_parallel_spec in X. apply in_seq in I. now destruct (NA i); [lia|]. }
  destruct (simple_checks P N) as [b [-> H]].
  assert (NA : forall i, (i < length P)%nat -> ~ neg_multiple (edge P i) (edge P (S i))).
  { intros i Li X. apply is_anti_parallel_spec in X. rewrite (proj1 (existsb_false _ _) Q i) in X; [discriminate|]. apply in_seq; lia. }
  destruct b.
  - split; auto. intros _. split; auto. split; auto. now apply H.
  - split; [discriminate|]. intros [_ [SP _]]. apply H in SP. now destruct SP.
Qed.

(** *** polygons given by their edges *)
Lemma partial_sums_length (s : vec K) es : length (partial_sums s es) = S (length es).
Proof. revert s; induction es as [|e es IH]; intros s; cbn; auto. Qed.
Lemma partial_sums_step es : forall (s : vec K) i, (i < length es)%nat ->
  nth (S i) (partial_sums s es) vzero = vadd (nth i (partial_sums s es) vzero) (nth i es vzero).
Proof.
  induction es as [|e es IH]; intros s i Li; [cbn in Li; lia|]. destruct i as [|i].
  - cbn [partial_sums nth]. destruct es; reflexivity.
  - cbn [partial_sums]. change (nth (S (S i)) (s :: partial_sums (vadd s e) es) vzero) with (nth (S i) (partial_sums (vadd s e) es) vzero).
    rewrite IH by (cbn in Li; lia). reflexivity.
Qed.
Lemma nth_last {A} (l : list A) d : last l d = nth (length l - 1) l d.
Proof. induction l as [|a l IH]; [reflexivity|]. destruct l as [|b l]; [reflexivity|]. rewrite <- IH || idtac. cbn [last]. cbn in IH |- *. rewrite IH. now rewrite Nat.sub_0_r. Qed.
Lemma nth_removelast {A} (l : list A) i d : (S i < length l)%nat -> nth i (removelast l) d = nth i l d.
Proof.
  revert i. induction l as [|a l IH]; intros i Li; [cbn in Li; lia|]. destruct l as [|b l]; [cbn in Li; lia|].
  change (removelast (a :: b :: l)) with (a :: removelast (b :: l)). destruct i as [|i]; [reflexivity|].
  cbn [nth]. apply IH. cbn in Li |- *. lia.
Qed.
Lemma vertices_of_edges_spec (es : list (vec K)) P : vertices_of_edges es = Ok P -> (1 <= length es)%nat ->
  edges P = es /\ length P = length es /\ vertex P 0 = vzero.
Proof.
  unfold vertices_of_edges. intros E L1. destruct (veqb (last (partial_sums vzero es) vzero) vzero) eqn:V; [|discriminate]. cbn in E. injection E as <-.
  apply veqb_eq in V. rewrite nth_last, partial_sums_length in V. replace (S (length es) - 1)%nat with (length es) in V by lia.
  assert (LP : length (removelast (partial_sums vzero es)) = length es). { rewrite removelast_firstn_len, firstn_length, partial_sums_length. lia. }
  assert (VT : forall i, (i <= length es)%nat -> vertex (removelast (partial_sums vzero es)) i = nth i (partial_sums vzero es) vzero).
  { intros i Li. unfold vertex. rewrite LP. destruct (Nat.eq_dec i (length es)) as [->|Ni].
    - rewrite Nat.mod_same by lia. rewrite V. rewrite nth_removelast by (rewrite partial_sums_length; lia). destruct es; reflexivity.
    - rewrite Nat.mod_small by lia. apply nth_removelast. rewrite partial_sums_length. lia. }
  split; [|split; auto].
  - apply (nth_ext _ _ vzero vzero). { unfold edges. now rewrite map_length, seq_length. }
    intros i Li. unfold edges in Li. rewrite map_length, seq_length in Li. rewrite nth_edges by auto.
    unfold edge. rewrite !VT by lia. rewrite partial_sums_step by lia. apply vec_eq; cbn; ring.
  - rewrite VT by lia. destruct es; reflexivity.
Qed.
Lemma vertices_of_edges_ok P : (1 <= length P)%nat -> vertex P 0 = vzero -> vertices_of_edges (edges P) = Ok P.
Proof.
  intros L1 V0. assert (LE : length (edges P) = length P) by (unfold edges; now rewrite map_length, seq_length).
  assert (VT : forall i, (i <= length P)%nat -> nth i (partial_sums vzero (edges P)) vzero = vertex P i).
  { induction i as [|i IH]; intros Li.
    - rewrite V0. destruct (edges P); reflexivity.
    - rewrite partial_sums_step by lia. rewrite IH by lia. rewrite nth_edges by lia. unfold edge. apply vec_eq; cbn; ring. }
  unfold vertices_of_edges. rewrite nth_last, partial_sums_length, LE. replace (S (length P) - 1)%nat with (length P) by lia.
  rewrite VT by lia. rewrite vertex_n by (destruct P; [cbn in L1; lia|discriminate]).
  replace (hd vzero P) with (vertex P 0) by (destruct P; [cbn in L1; lia|unfold vertex; cbn [length]; rewrite Nat.mod_0_l by lia; reflexivity]).
  rewrite V0. rewrite (proj2 (veqb_eq vzero vzero) eq_refl). cbn. f_equal.
  apply (nth_ext _ _ vzero vzero). { rewrite removelast_firstn_len, firstn_length, partial_sums_length. lia. }
  intros i Li. rewrite removelast_firstn_len, firstn_length, partial_sums_length in Li.
  rewrite nth_removelast by (rewrite partial_sums_length; lia). rewrite VT by lia. apply vertex_lt. lia.
Qed.

(** *** slopes *)
Definition turn_by (a : vec K) (t : K) : vec K := vadd a (vscale t (perp a)).
Definition slope_sign (v : vec K) (s : Z) := (s = 1%Z /\ 0 < fst v * snd v) \/ (s = (-1)%Z /\ fst v * snd v < 0) \/ (s = 0%Z /\ fst v * snd v = 0).
Lemma near_sign (x y : K) : 0 < x * y -> exists e, 0 < e /\ forall t, - e < t -> t < e -> 0 < (x - t * y) * (y + t * x).
Proof.
  intros H. pose proof (@flt_0_1 K) as O. set (q := x * x + y * y). assert (Q : 0 < q). { unfold q. pose proof (fsq_nonneg (x - y)). pose proof (fsq_nonneg (x + y)). flra. }
  assert (Q2 : x * y + x * y <= q). { unfold q. pose proof (fsq_nonneg (x - y)). flra. }
  set (e := x * y / (q + q)). assert (E : e * (q + q) = x * y) by (unfold e; field; intros X; flra).
  assert (E0 : 0 < e) by (apply fdiv_pos; auto; flra). exists e. split; auto. intros t T1 T2.
  replace ((x - t * y) * (y + t * x)) with (x * y + t * (x * x - y * y) - t * t * (x * y)) by ring.
  assert (E1 : e + e <= 1). { destruct (fltb 1 (e + e)) eqn:Y; [|exact Y]. change (1 < e + e) in Y. exfalso. assert (0 < (e + e - 1) * (q + q)) by (apply fmul_pos; flra). flra. }
  assert (A : 0 <= e * q + t * (x * x - y * y)).
  { unfold q. replace (e * (x * x + y * y) + t * (x * x - y * y)) with ((e + t) * (x * x) + (e - t) * (y * y)) by ring.
    pose proof (fsq_nonneg x). pose proof (fsq_nonneg y). set (a := x * x) in *. set (b := y * y) in *. fnra. }
  assert (B : t * t + t * t < 1) by fnra. assert (C : 0 < (1 - (t * t + t * t)) * (x * y)) by (apply fmul_pos; flra). flra.
Qed.
Lemma near_sign_neg (x y : K) : x * y < 0 -> exists e, 0 < e /\ forall t, - e < t -> t < e -> (x - t * y) * (y + t * x) < 0.
Proof.
  intros H. destruct (near_sign (- x) y) as [e [E F]]; [flra|]. exists e. split; auto. intros t T1 T2. specialize (F (- t)).
  assert (0 < (- x - - t * y) * (y + - t * - x)) by (apply F; flra). flra.
Qed.
Lemma slope_spec (a : vec K) (r : Z) : a <> vzero -> (r = 0 \/ r = 1 \/ r = -1)%Z ->
  exists s e, slope a r = Ok s /\ 0 < e /\ forall t, 0 < t -> t < e ->
    slope_sign (turn_by a (if (r =? 0)%Z then 0 else if (0 <? r)%Z then t else - t)) s.
Proof.
  intros Na Hr. destruct a as [x y]. unfold slope. cbn [fst snd]. pose proof (@flt_0_1 K) as O.
  assert (PM : forall e : K, 0 < e -> forall t, 0 < t -> t < e -> let u := if (r =? 0)%Z then 0 else if (0 <? r)%Z then t else - t in - e < u /\ u < e).
  { intros e E t T1 T2. destruct Hr as [->|[->| ->]]; cbn; split; flra. }
  assert (Z0 : forall z : K, z < 0 -> (0 <? z) = false /\ (z <? 0) = true /\ (z =? 0) = false).
  { intros z Hz. split; [|split; [exact Hz|apply feqb_false; intros ->; flra]]. destruct (0 <? z) eqn:E; auto. change (0 < z) in E. flra. }
  assert (Z1 : forall z : K, 0 < z -> (0 <? z) = true /\ (z <? 0) = false /\ (z =? 0) = false).
  { intros z Hz. split; [exact Hz|split; [|apply feqb_false; intros ->; flra]]. destruct (z <? 0) eqn:E; auto. change (z < 0) in E. flra. }
  assert (Z2 : forall z : K, z = 0 -> (0 <? z) = false /\ (z <? 0) = false /\ (z =? 0) = true).
  { intros z ->. pose proof (fle_refl (0 : K)) as R. split; [exact R|]. split; [exact R|]. now apply feqb_eq. }
  destruct (flt_total x) as [X|[X|X]], (flt_total y) as [Y|[Y|Y]].
  all: try (exfalso; apply Na; apply vec_eq; auto; fail).
  all: first [destruct (Z0 _ X) as [-> [-> ->]] | destruct (Z2 _ X) as [-> [-> ->]] | destruct (Z1 _ X) as [-> [-> ->]]].
  all: first [destruct (Z0 _ Y) as [-> [-> ->]] | destruct (Z2 _ Y) as [-> [-> ->]] | destruct (Z1 _ Y) as [-> [-> ->]]].
  all: cbn [andb orb negb].
  1,8: destruct (near_sign x y) as [e [E F]]; [fnra|]; exists 1%Z, e; do 2 (split; [auto|]); intros t T1 T2; left; split; auto;
    destruct (PM e E t T1 T2) as [U1 U2]; specialize (F _ U1 U2); set (u := if (r =? 0)%Z then _ else _) in *; clearbody u; unfold turn_by, perp; cbn; flra.
  2,5: destruct (near_sign_neg x y) as [e [E F]]; [fnra|]; exists (-1)%Z, e; do 2 (split; [auto|]); intros t T1 T2; right; left; split; auto;
    destruct (PM e E t T1 T2) as [U1 U2]; specialize (F _ U1 U2); set (u := if (r =? 0)%Z then _ else _) in *; clearbody u; unfold turn_by, perp; cbn; flra.
  all: destruct Hr as [-> | [-> | ->]]; cbn [Z.eqb Pos.eqb Z.ltb Z.compare].
  all: eexists; exists 1; split; [reflexivity|]; split; [auto|]; intros t T1 T2; unfold slope_sign, turn_by, perp; cbn; subst.
  all: try (right; right; split; [reflexivity|ring]; fail).
  all: try (assert (TX : 0 < t * (x * x)) by (apply fmul_pos; [auto|apply fsq_pos; solve [now apply fneg_neq0 | now apply fpos_neq0]])).
  all: try (assert (TY : 0 < t * (y * y)) by (apply fmul_pos; [auto|apply fsq_pos; solve [now apply fneg_neq0 | now apply fpos_neq0]])).
  all: try (left; split; [reflexivity|]; flra; fail).
  all: right; left; split; [reflexivity|]; flra.
Qed.
End Simple.
