(** Proofs about doubles of polygons. *)
From Coq Require Import List Bool ZArith Arith Lia Ring Field.
From Verif Require Import OField FMicromega PField MBase MDict PDict MEuclid SEuclid PEuclid MSim SSim PSim MPoly PPoly MMut SMut PMut PMut2 PMut3 PGlue PBuild PCover
  MSurf SSurf PSurf PSurf3 SPoint PPoint PSimple PFam2 TMut TPoly2 MDouble.
Import ListNotations.

Section P.
Context {K : OField}.
Add Field KF : (of_ft K).
Local Open Scope F_scope.
Notation nv := (@length (vec K) : polygon K -> nat).

(** reversing the order of the vertices *)
Lemma simple_reverse (B : vec K -> vec K) (P Q : polygon K) : length Q = length P -> (1 <= length P)%nat ->
  (forall a b p, on_segment (a, b) p -> on_segment (B b, B a) (B p)) -> (forall p q, B p = B q -> p = q) ->
  (forall k, (k <= length P)%nat -> B (vertex Q k) = vertex P (length P - k)) -> simple_polygon P -> simple_polygon Q.
Proof.
  intros L L1 SG IN HV SP i j p Hi Hj N Hp Hp'. rewrite L in *. set (n := length P) in *.
  assert (X : forall k, (k < n)%nat -> on_segment (side Q k) p -> on_segment (side P (n - 1 - k)) (B p)).
  { intros k Hk H. unfold side in H. apply SG in H. rewrite !HV in H by lia. unfold side.
    replace (S (n - 1 - k)) with (n - k)%nat by lia. replace (n - 1 - k)%nat with (n - S k)%nat by lia. exact H. }
  assert (W : forall k l, (k < n)%nat -> (l < n)%nat -> (n - 1 - l)%nat = Nat.modulo (n - 1 - k + 1) n -> k = Nat.modulo (l + 1) n).
  { intros k l Hk Hl E. destruct (Nat.eq_dec k 0) as [->|Nk].
    - replace (n - 1 - 0 + 1)%nat with (1 * n)%nat in E by lia. rewrite Nat.mod_mul in E by lia. replace (l + 1)%nat with (1 * n)%nat by lia. now rewrite Nat.mod_mul by lia.
    - rewrite Nat.mod_small in E by lia. rewrite Nat.mod_small; lia. }
  assert (V : forall k, (k < n)%nat -> B p = vertex P (n - 1 - k + 1) -> p = vertex Q k).
  { intros k Hk E. apply IN. rewrite HV by lia. rewrite E. f_equal. lia. }
  assert (VW : forall k l, k = Nat.modulo (l + 1) n -> vertex Q k = vertex Q (l + 1)).
  { intros k l ->. rewrite <- L. apply vertex_mod. }
  destruct (SP (n - 1 - i)%nat (n - 1 - j)%nat (B p)) as [[E1 E2]|[E1 E2]]; auto; try lia.
  - right. assert (E := W i j Hi Hj E1). split; auto. rewrite <- (VW i j E). now apply V.
  - left. assert (E := W j i Hj Hi E1). split; auto. rewrite <- (VW j i E). now apply V.
Qed.

Lemma edges_length' (P : polygon K) : length (edges P) = length P.
Proof. unfold edges. now rewrite map_length, seq_length. Qed.
(** the reflection *)
Definition reflect (o p : vec K) : vec K := (fst p - fst o, snd o - snd p).
Definition unreflect (o p : vec K) : vec K := (fst p + fst o, snd o - snd p).
Lemma unreflect_reflect o p : unreflect o (reflect o p) = p.
Proof. apply vec_eq; cbn; ring. Qed.
Lemma reflect_unreflect o p : reflect o (unreflect o p) = p.
Proof. apply vec_eq; cbn; ring. Qed.
Definition mirrored (P : polygon K) : polygon K := map (fun k => reflect (vertex P 0) (vertex P (length P - k))) (seq 0 (length P)).
Lemma mirrored_length P : length (mirrored P) = length P.
Proof. unfold mirrored. now rewrite map_length, seq_length. Qed.
Lemma mirrored_vertex P k : (k <= length P)%nat -> (1 <= length P)%nat -> vertex (mirrored P) k = reflect (vertex P 0) (vertex P (length P - k)).
Proof.
  intros Hk L. unfold vertex at 1. rewrite mirrored_length. unfold mirrored. set (n := length P) in *.
  assert (M : (k mod n < n)%nat) by (apply Nat.mod_upper_bound; lia).
  rewrite (nth_indep _ vzero (reflect (vertex P 0) (vertex P (n - 0)))) by (rewrite map_length, seq_length; auto).
  rewrite (map_nth (fun k => reflect (vertex P 0) (vertex P (n - k)))). rewrite seq_nth by auto. cbn [Nat.add].
  destruct (Nat.eq_dec k n) as [->|N].
  - rewrite Nat.mod_same by lia. rewrite Nat.sub_diag, Nat.sub_0_r. f_equal. rewrite <- (vertex_mod P n). fold n. now rewrite Nat.mod_same by lia.
  - rewrite Nat.mod_small by lia. reflexivity.
Qed.
Lemma mirrored_edge P k : (k < length P)%nat -> edge (mirrored P) k = (- fst (edge P (length P - 1 - k)), snd (edge P (length P - 1 - k))).
Proof.
  intros Hk. unfold edge at 1. rewrite !mirrored_vertex by lia. unfold edge. replace (S (length P - 1 - k)) with (length P - k)%nat by lia.
  replace (length P - S k)%nat with (length P - 1 - k)%nat by lia. unfold reflect, vsub. cbn [fst snd]. apply vec_eq; cbn [fst snd]; ring.
Qed.
Lemma mirrored_reverse P : mirrored P = map (reflect (vertex P 0)) (reverse0 P).
Proof.
  destruct P as [|p l]; [reflexivity|]. unfold mirrored. rewrite <- (map_map (fun k => vertex (p :: l) (length (p :: l) - k)) (reflect (vertex (p :: l) 0))). f_equal.
  cbn [length seq map reverse0]. f_equal.
  - unfold vertex. cbn [length]. now rewrite Nat.sub_0_r, Nat.mod_same by lia.
  - apply (nth_ext _ _ vzero vzero).
    + now rewrite map_length, seq_length, rev_length.
    + rewrite map_length, seq_length. intros i Hi. rewrite rev_nth by auto.
      rewrite (nth_indep _ vzero (vertex (p :: l) (S (length l) - 0))) by (now rewrite map_length, seq_length).
      rewrite (map_nth (fun k => vertex (p :: l) (S (length l) - k))). rewrite seq_nth by auto.
      rewrite vertex_lt by (cbn; lia). replace (S (length l) - (1 + i))%nat with (S (length l - S i)) by lia. reflexivity.
Qed.
Lemma reflect_area o R : area (map (reflect o) R) = - area R.
Proof.
  transitivity (area (translate (map (mapply (Mat 1 0 0 (- (1)))) R) (- fst o, snd o))).
  - f_equal. unfold translate. rewrite map_map. apply map_ext. intros p. apply vec_eq; cbn; ring.
  - rewrite area_translate, area_map_mat. unfold mdet. cbn. ring.
Qed.
Lemma mirrored_area P : area (mirrored P) = area P.
Proof. rewrite mirrored_reverse, reflect_area, area_reverse0. ring. Qed.
Lemma mirrored_simple P : (1 <= length P)%nat -> simple_polygon P -> simple_polygon (mirrored P).
Proof.
  intros L. apply (simple_reverse (unreflect (vertex P 0))); auto; [apply mirrored_length| | |].
  - intros a b p [t [T0 [T1 E]]]. cbn [fst snd] in E. exists (1 - t). split; [flra|]. split; [flra|]. subst p. apply vec_eq; cbn; ring.
  - intros p q E. rewrite <- (reflect_unreflect (vertex P 0) p), <- (reflect_unreflect (vertex P 0) q). now rewrite E.
  - intros k Hk. rewrite mirrored_vertex by auto. apply unreflect_reflect.
Qed.
Lemma mirror_ok P : nondeg P -> simple_polygon P -> 0 < area P -> mirror P = Ok (mirrored P) /\ nondeg (mirrored P) /\ simple_polygon (mirrored P) /\ 0 < area (mirrored P).
Proof.
  intros [L ND] SP AP.
  assert (NM : forall e, edge (mirrored P) e <> vzero).
  { apply edges_nz; [rewrite mirrored_length; lia|]. rewrite mirrored_length. intros e He. rewrite mirrored_edge by auto.
    intros E. apply (ND (length P - 1 - e)%nat). pose proof (f_equal fst E) as E1. pose proof (f_equal snd E) as E2. cbn in E1, E2.
    apply vec_eq; [|exact E2]. cbn. flra. }
  assert (X : nondeg (mirrored P) /\ simple_polygon (mirrored P) /\ 0 < area (mirrored P)).
  { split; [split; [now rewrite mirrored_length|auto]|]. split; [apply mirrored_simple; auto; lia|]. now rewrite mirrored_area. }
  split; auto. apply C51_edges. destruct X as [[X1 X2] [X3 X4]].
  split. { apply (nth_ext _ _ vzero vzero).
    - rewrite edges_length', map_length, rev_length, !edges_length'. apply mirrored_length.
    - rewrite edges_length', mirrored_length. intros i Hi. rewrite nth_edges by (now rewrite mirrored_length). rewrite mirrored_edge by auto.
      rewrite (nth_indep _ vzero (- fst (@vzero K), snd (@vzero K))) by (now rewrite map_length, rev_length, edges_length').
      rewrite (map_nth (fun v : vec K => (- fst v, snd v))). rewrite rev_nth by (now rewrite edges_length'). rewrite edges_length'.
      rewrite nth_edges by lia. replace (length P - S i)%nat with (length P - 1 - i)%nat by lia. reflexivity. }
  split. { rewrite mirrored_vertex by lia. rewrite Nat.sub_0_r. rewrite <- (vertex_mod P (length P)), Nat.mod_same by lia. apply vec_eq; cbn; ring. }
  split. { rewrite map_length, rev_length, edges_length'. auto. }
  auto.
Qed.

(** ** the surface *)
Definition rigid_motion (F : vec K -> vec K) := map_isometry F /\ map_orientation_preserving F.
Lemma equal_edges_rigid (P Q : polygon K) e e' F : dist2 (vertex P e) (vertex P (S e)) = dist2 (vertex Q (S e')) (vertex Q e') ->
  edge P e <> vzero -> gluing_map P e Q e' F -> rigid_motion F.
Proof.
  intros E N [[c [C H]] O A B]. split; auto. intros p q. rewrite H.
  assert (D : 0 < dist2 (vertex P e) (vertex P (S e))).
  { apply dist2_nz. intros X. apply N. unfold edge. rewrite <- X. apply vec_eq; cbn; ring. }
  specialize (H (vertex P e) (vertex P (S e))). rewrite A, B, <- E in H.
  assert (X : c = 1); [|rewrite X; ring]. set (z := dist2 (vertex P e) (vertex P (S e))) in *. clearbody z.
  apply (fcancel c 1 z); [now apply fpos_neq0|]. transitivity z; [now symmetry|ring].
Qed.

Definition double_pairs (n : nat) : list (hedge * hedge) := map (fun i => ((0%Z, Z.of_nat i), (1%Z, (Z.of_nat n - Z.of_nat i - 1)%Z))) (seq 0 n).
Lemma In_double_pairs n x y : In (x, y) (double_pairs n) <-> exists i, (i < n)%nat /\ x = (0%Z, Z.of_nat i) /\ y = (1%Z, Z.of_nat (n - 1 - i)).
Proof.
  unfold double_pairs. rewrite in_map_iff. split.
  - intros [i [[= <- <-] Hi]]. apply in_seq in Hi. exists i. split; [lia|]. split; auto. f_equal. lia.
  - intros [i [Hi [-> ->]]]. exists i. split; [|apply in_seq; lia]. replace (Z.of_nat (n - 1 - i)) with (Z.of_nat n - Z.of_nat i - 1)%Z by lia. reflexivity.
Qed.
(** the surface consists of [P] and [Q], and the edges are glued in opposite order *)
Record doubled (P Q : polygon K) (c : @surf (polygon K)) : Prop := {
  db_intact : intact nv c;
  db_immutable : mutable c = false;
  db_first : get_polygon c 0%Z = Ok P;
  db_second : get_polygon c 1%Z = Ok Q;
  db_labels : forall l, is_label c l <-> l = 0%Z \/ l = 1%Z;
  db_glued : forall i, (i < length P)%nat -> glued nv c (0%Z, Z.of_nat i) (1%Z, Z.of_nat (length P - 1 - i)) /\ glued nv c (1%Z, Z.of_nat (length P - 1 - i)) (0%Z, Z.of_nat i) }.
Lemma double_glue (P Q : polygon K) (s1 : @surf (polygon K)) : length Q = length P -> reachable nv s1 -> mutable s1 = true -> roots_ s1 = nil ->
  polys s1 = [(0%Z, P); (1%Z, Q)] -> (forall z, gz (gluings s1) z = None) ->
  exists c, mbind (mfor (double_pairs (length P)) (fun xy => glue nv (fst xy) (snd xy))) (fun _ => set_immutable nv) s1 = (c, Ok tt) /\ doubled P Q c.
Proof.
  intros L RE Mu RO PO NG. pose proof (intact_good nv s1 (reachable_intact nv s1 RE Mu)) as G. pose proof (g_inv nv s1 G) as Iv.
  assert (GP0 : get_polygon s1 0%Z = Ok P) by (unfold get_polygon; rewrite PO; reflexivity).
  assert (GP1 : get_polygon s1 1%Z = Ok Q) by (unfold get_polygon; rewrite PO; reflexivity).
  destruct (glue_pairs nv (double_pairs (length P)) s1 Iv Mu (g_sep nv s1 G)) as [s2 [E2 [I2 [F2 [S2 [_ [R2 G2]]]]]]]; auto.
  { now left. }
  { intros x y y' [H|H] [H'|H']; apply In_double_pairs in H, H'; destruct H as (i & Hi & E1 & E2), H' as (i' & Hi' & E1' & E2'); subst;
      match goal with H : (_, _) = (_, _) |- _ => injection H; intros; try discriminate end.
    - f_equal. f_equal. lia.
    - f_equal. f_equal. lia. }
  { intros x y H. apply In_double_pairs in H. destruct H as (i & Hi & -> & ->).
    split; apply edge_inrange with (nv := nv); auto; try exact (i_tot nv s1 Iv Mu); [exists P|exists Q]; (split; [assumption|cbn [snd]; lia]). }
  rewrite (mbind_ok _ _ _ _ _ E2).
  assert (M2 : mutable s2 = true) by (rewrite (f_mut _ _ F2); auto).
  assert (R2' : reachable nv s2).
  { change s2 with (fst (s2, @Ok unit tt)). rewrite <- E2. apply pres_for; auto. intros [u v] H. apply In_double_pairs in H.
    destruct H as (i & Hi & -> & ->). apply pres_glue; cbn; lia. }
  pose proof (reachable_intact nv s2 R2' M2) as IN2. pose proof (intact_good nv s2 IN2) as GG2.
  destruct (set_immutable_spec nv s2 GG2) as (c & rs & b & E3 & _ & Ec & GC). exists c. split; auto.
  assert (GP : forall l, get_polygon c l = get_polygon s1 l) by (intros l; subst c; unfold get_polygon; cbn; now rewrite (f_polys _ _ F2)).
  constructor.
  - change c with (fst (c, @Ok unit tt)). rewrite <- E3. apply (intact_op nv s2 OpSetImmutable); [exact IN2|exact I|intros []].
  - subst c. reflexivity.
  - now rewrite GP.
  - now rewrite GP.
  - intros l. rewrite is_label_keys. subst c. cbn. rewrite (f_polys _ _ F2), PO. cbn. intuition.
  - intros i Hi. split; apply (glued_gz nv c _ _ (g_inv nv c GC)); subst c; cbn [gluings]; apply G2; [left|right]; apply In_double_pairs; exists i; auto.
Qed.
Lemma double_ok P : nondeg P -> simple_polygon P -> 0 < area P -> exists c, polygon_double P empty = (c, Ok tt) /\ doubled P (mirrored P) c.
Proof.
  intros ND SP AP. destruct (mirror_ok P ND SP AP) as [E _]. unfold polygon_double.
  rewrite (mbind_ok _ _ empty empty (mirrored P)) by (unfold mlift; now rewrite E).
  set (s1 := fst (add_polygon nv P (Some 0%Z) empty)). rewrite (mbind_ok _ _ empty s1 0%Z) by reflexivity.
  set (s2 := fst (add_polygon nv (mirrored P) (Some 1%Z) s1)). rewrite (mbind_ok _ _ s1 s2 1%Z) by reflexivity.
  destruct (double_glue P (mirrored P) s2) as (c & Ec & Dc); auto; [apply mirrored_length| | |].
  - exists [OpAdd P (Some 0%Z); OpAdd (mirrored P) (Some 1%Z)]. split; [repeat constructor|reflexivity].
  - intros [l e]. unfold gz. cbn [fst snd]. cbn [s2 s1]. unfold s2, s1. cbn.
    destruct (Z.eqb_spec l 0) as [->|]; [|destruct (Z.eqb_spec l 1) as [->|]; auto];
      destruct (0 <=? e)%Z; auto; destruct (nth_error (repeat None _) _) as [z|] eqn:N; auto; apply nth_error_In, repeat_spec in N; auto.
  - exists c. split; auto. rewrite <- Ec. unfold double_pairs, mbind. now rewrite mfor_map.
Qed.
Lemma billiard_ok P : nondeg P -> simple_polygon P -> 0 < area P -> exists c, billiard_convex P empty = (c, Ok tt) /\ doubled P (mirrored P) c.
Proof.
  intros ND SP AP. destruct (mirror_ok P ND SP AP) as [E _]. unfold billiard_convex.
  set (s1 := fst (add_polygon nv P None empty)). rewrite (mbind_ok _ _ empty s1 0%Z) by reflexivity.
  rewrite (mbind_ok _ _ s1 s1 (mirrored P)) by (unfold mlift; now rewrite E).
  set (s2 := fst (add_polygon nv (mirrored P) None s1)). rewrite (mbind_ok _ _ s1 s2 1%Z) by reflexivity.
  destruct (double_glue P (mirrored P) s2) as (c & Ec & Dc); auto; [apply mirrored_length| | |].
  - exists [OpAdd P None; OpAdd (mirrored P) None]. split; [repeat constructor|reflexivity].
  - intros [l e]. unfold gz. cbn [fst snd]. cbn [s2 s1]. unfold s2, s1. cbn.
    destruct (Z.eqb_spec l 0) as [->|]; [|destruct (Z.eqb_spec l 1) as [->|]; auto];
      destruct (0 <=? e)%Z; auto; destruct (nth_error (repeat None _) _) as [z|] eqn:N; auto; apply nth_error_In, repeat_spec in N; auto.
  - exists c. split; auto. rewrite <- Ec. unfold double_pairs, mbind. now rewrite mfor_map.
Qed.
Lemma mirrored_dist P i : (i < length P)%nat -> dist2 (vertex P i) (vertex P (S i)) =
  dist2 (vertex (mirrored P) (S (length P - 1 - i))) (vertex (mirrored P) (length P - 1 - i)).
Proof.
  intros Hi. rewrite !mirrored_vertex by lia. replace (length P - (length P - 1 - i))%nat with (S i) by lia. replace (length P - S (length P - 1 - i))%nat with i by lia.
  unfold reflect, dist2, dot, vsub. cbn [fst snd]. ring.
Qed.
Lemma doubled_good P c : nondeg P -> simple_polygon P -> 0 < area P -> doubled P (mirrored P) c ->
  good_surface (is_label c) (mut_surface c) rigid_motion.
Proof.
  intros ND SP AP [IN IM P0 P1 LB GL]. destruct (mirror_ok P ND SP AP) as (_ & ND' & SP' & AP').
  set (Q := mirrored P) in *. assert (L : length Q = length P) by apply mirrored_length.
  assert (POL : forall l R, get_polygon c l = Ok R -> (l = 0%Z /\ R = P) \/ (l = 1%Z /\ R = Q)).
  { intros l R H. destruct (proj1 (LB l)) as [->| ->]; [now exists R| |].
    - left. split; auto. rewrite P0 in H. congruence.
    - right. split; auto. rewrite P1 in H. congruence. }
  assert (OP0 : forall i, (i < length P)%nat -> s_opp (mut_surface c) 0%Z i = Ok (Some (1%Z, (length P - 1 - i)%nat))).
  { intros i Hi. destruct (GL i Hi) as [[_ H] _]. cbn [fst snd] in H. unfold mut_surface; cbn [s_opp]. destruct (opposite_edge c 0%Z (Z.of_nat i)); [|discriminate].
    injection H as ->. now rewrite Nat2Z.id. }
  assert (OP1 : forall i, (i < length P)%nat -> s_opp (mut_surface c) 1%Z i = Ok (Some (0%Z, (length P - 1 - i)%nat))).
  { intros i Hi. destruct (GL (length P - 1 - i)%nat) as [_ [_ H]]; [lia|]. replace (length P - 1 - (length P - 1 - i))%nat with i in H by lia.
    cbn [fst snd] in H. unfold mut_surface; cbn [s_opp]. destruct (opposite_edge c 1%Z (Z.of_nat i)); [|discriminate]. injection H as ->. now rewrite Nat2Z.id. }
  assert (NN : forall i, (i < length P)%nat -> (length P - 1 - (length P - 1 - i))%nat = i) by (intros; lia).
  assert (VA : valid (is_label c) (mut_surface c)).
  { constructor.
    - intros l [R HR]. exists R. split; auto. destruct (POL l R HR) as [[-> ->]|[-> ->]]; [exact ND|exact ND'].
    - intros l R e _ HR He. right. destruct (POL l R HR) as [[-> ->]|[-> ->]].
      + exists 1%Z, (length P - 1 - e)%nat, Q. split; [auto|]. split; [now exists Q|]. split; auto. split; [lia|].
        etransitivity; [apply OP1; lia|]. now rewrite NN.
      + exists 0%Z, (length P - 1 - e)%nat, P. rewrite L in He. split; [auto|]. split; [now exists P|]. split; auto. split; [lia|].
        etransitivity; [apply OP0; lia|]. now rewrite NN. }
  constructor; auto.
  - intros l R e _ HR He. destruct (POL l R HR) as [[-> ->]|[-> ->]]; intros X; [pose proof (eq_trans (eq_sym (OP0 e He)) X)|rewrite L in He; pose proof (eq_trans (eq_sym (OP1 e He)) X)]; discriminate.
  - intros l R _ HR. destruct (POL l R HR) as [[-> ->]|[-> ->]]; auto.
  - intros l R _ HR. destruct (POL l R HR) as [[-> ->]|[-> ->]]; auto.
  - intros l e R l' e' R' F [_ HR He HO HR'] GM. destruct (POL l R HR) as [[-> ->]|[-> ->]].
    + pose proof (eq_trans (eq_sym (OP0 e He)) HO) as HO'. injection HO' as <- <-. destruct (POL 1%Z R' HR') as [[X _]|[_ ->]]; [discriminate|].
      apply (equal_edges_rigid P Q e (length P - 1 - e) F); auto; [now apply mirrored_dist|apply ND].
    + rewrite L in He. pose proof (eq_trans (eq_sym (OP1 e He)) HO) as HO'. injection HO' as <- <-. destruct (POL 0%Z R' HR') as [[_ ->]|[X _]]; [|discriminate].
      apply (equal_edges_rigid Q P e (length P - 1 - e) F); auto; [|apply ND'].
      pose proof (mirrored_dist P (length P - 1 - e) ltac:(lia)) as D. fold Q in D. rewrite NN in D by auto.
      transitivity (dist2 (vertex Q (S e)) (vertex Q e)); [unfold dist2, dot, vsub; cbn [fst snd]; ring|]. rewrite <- D.
      unfold dist2, dot, vsub; cbn [fst snd]; ring.
Qed.
End P.
