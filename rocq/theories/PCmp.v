(** Comparison of polygons. *)
From Coq Require Import List Bool ZArith Arith Lia Ring Field.
From Verif Require Import OField FMicromega PField MBase MEuclid SEuclid PEuclid MSim SSim PSim MPoly PPoly MSurf SSurf PSurf PSurf2 PSurf3 MDict PDict MCmp SCmp.
Import ListNotations.

(** ** rotating lists *)
Section R.
Context {A : Type}.
Implicit Types l : list A.
Lemma rotl_length l : length (rotl l) = length l.
Proof. destruct l; auto. cbn. rewrite app_length. cbn. lia. Qed.
Lemma rotl_nth l k d : k < length l -> nth k (rotl l) d = nth ((k + 1) mod length l) l d.
Proof.
  destruct l as [|x l]; cbn [length]; [lia|]. intros H. cbn [rotl]. destruct (Nat.eq_dec k (length l)) as [->|N].
  - rewrite app_nth2, Nat.sub_diag by lia. replace (length l + 1) with (Datatypes.S (length l)) by lia. rewrite Nat.mod_same by lia. reflexivity.
  - rewrite app_nth1 by lia. rewrite Nat.mod_small by lia. replace (k + 1) with (Datatypes.S k) by lia. reflexivity.
Qed.
Fixpoint rots i l := match i with O => l | Datatypes.S j => rotl (rots j l) end.
Lemma rots_length i l : length (rots i l) = length l.
Proof. induction i; cbn; auto. rewrite rotl_length. auto. Qed.
Lemma rots_nth i l k d : k < length l -> nth k (rots i l) d = nth ((k + i) mod length l) l d.
Proof.
  revert k. induction i as [|i IH]; intros k H; cbn.
  - rewrite Nat.add_0_r, Nat.mod_small by lia. reflexivity.
  - rewrite rotl_nth by (now rewrite rots_length). rewrite rots_length, IH by (apply Nat.mod_upper_bound; lia).
    rewrite Nat.add_mod_idemp_l by lia. f_equal. f_equal. lia.
Qed.
Lemma rots_S i l : rots i (rotl l) = rots (Datatypes.S i) l.
Proof. induction i; cbn in *; congruence. Qed.
Lemma nth_ext_iff l l' d : length l = length l' -> (l = l' <-> forall k, k < length l -> nth k l d = nth k l' d).
Proof. intros E. split; [intros ->; auto|]. intros H. now apply (nth_ext _ _ d d). Qed.
Lemma list_eqb_eq (eq : A -> A -> bool) l l' : (forall x y, eq x y = true <-> x = y) -> list_eqb eq l l' = true <-> l = l'.
Proof.
  intros E. revert l'. induction l as [|x l IH]; intros [|y l']; cbn; split; auto; try discriminate.
  - intros H. apply andb_true_iff in H. destruct H as [H1 H2]. apply E in H1. apply IH in H2. now subst.
  - injection 1 as -> ->. apply andb_true_iff. split; [now apply E|now apply IH].
Qed.
End R.

Section P.
Context {K : OField}.
Add Field KF : (of_ft K).
Local Open Scope F_scope.
Implicit Types (P Q : polygon K).

Lemma nth_edges P k : (k < length P)%nat -> nth k (edges P) vzero = edge P k.
Proof. intros H. unfold edges. rewrite (nth_indep _ vzero (edge P 0)) by (rewrite map_length, seq_length; auto). rewrite map_nth, seq_nth; auto. Qed.
Lemma edges_length P : length (edges P) = length P.
Proof. unfold edges. now rewrite map_length, seq_length. Qed.
Lemma edge_mod P k : edge P (k mod length P) = edge P k.
Proof.
  unfold edge. destruct P as [|p P]; [destruct k; reflexivity|]. set (n := length (p :: P)) in *. assert (N : n <> 0%nat) by (cbn in n; unfold n; cbn; lia).
  assert (V1 : vertex (p :: P) (k mod n) = vertex (p :: P) k) by (unfold vertex; fold n; rewrite Nat.mod_mod; auto).
  assert (V2 : vertex (p :: P) (Datatypes.S (k mod n)) = vertex (p :: P) (Datatypes.S k)).
  { unfold vertex. fold n. f_equal. replace (Datatypes.S (k mod n)) with (k mod n + 1)%nat by lia. replace (Datatypes.S k) with (k + 1)%nat by lia. now rewrite Nat.add_mod_idemp_l. }
  now rewrite V1, V2.
Qed.
Lemma nth_rots_edges Q i k : (k < length Q)%nat -> nth k (rots i (edges Q)) vzero = edge Q (k + i).
Proof. intros H. rewrite rots_nth by (now rewrite edges_length). rewrite edges_length, nth_edges by (apply Nat.mod_upper_bound; lia). apply edge_mod. Qed.
(** the edges agree after a shift and a linear map *)
Definition shifted (m : mat K) P Q i := forall k, edge Q (k + i) = mapply m (edge P k).
Lemma shifted_iff m P Q i : (0 < length P)%nat -> length Q = length P -> (rots i (edges Q) = map (mapply m) (edges P) <-> shifted m P Q i).
Proof.
  intros N E. rewrite (nth_ext_iff _ _ vzero) by (rewrite rots_length, map_length, !edges_length; auto). rewrite rots_length, edges_length, E.
  assert (X : forall k, (k < length P)%nat -> nth k (map (mapply m) (edges P)) vzero = mapply m (edge P k)).
  { intros k H. rewrite (nth_indep _ vzero (mapply m vzero)) by (rewrite map_length, edges_length; auto). rewrite map_nth, nth_edges; auto. }
  split.
  - intros H k. rewrite <- (edge_mod P k), <- X by (apply Nat.mod_upper_bound; lia).
    rewrite <- H by (apply Nat.mod_upper_bound; lia). rewrite nth_rots_edges by (rewrite E; apply Nat.mod_upper_bound; lia).
    rewrite <- (edge_mod Q (k + i)), <- (edge_mod Q (_ + i)), E. f_equal. rewrite Nat.add_mod_idemp_l by lia. reflexivity.
  - intros H k L. rewrite X, nth_rots_edges by (rewrite ?E; auto). apply H.
Qed.
Lemma shifted_mod m P Q i : (0 < length P)%nat -> length Q = length P -> shifted m P Q i -> shifted m P Q (i mod length P).
Proof.
  intros N E H k. rewrite <- (H k). rewrite <- (edge_mod Q (k + i)), <- (edge_mod Q (k + _)), E. rewrite Nat.add_mod_idemp_r by lia. reflexivity.
Qed.
Lemma mapply_one v : mapply (@mone K) v = v.
Proof. destruct v. unfold mapply, mone. cbn. f_equal; ring. Qed.
Lemma mapply_mopp v : mapply (mopp (@mone K)) v = vopp v.
Proof. destruct v. unfold mapply, mone, mopp, vopp. cbn. f_equal; ring. Qed.
Lemma vopp_vopp (v : vec K) : vopp (vopp v) = v.
Proof. destruct v. unfold vopp. cbn. f_equal; ring. Qed.
Lemma mat_eqb_eq (m n : mat K) : mat_eqb m n = true <-> m = n.
Proof.
  destruct m as [a b c d], n as [a' b' c' d']. unfold mat_eqb. rewrite !andb_true_iff. cbn. split.
  - intros [[[A B] C] D]. apply feqb_eq in A. apply feqb_eq in B. apply feqb_eq in C. apply feqb_eq in D. now subst.
  - injection 1 as -> -> -> ->. repeat split; now apply feqb_eq.
Qed.
Lemma map_one l : map (mapply (@mone K)) l = l.
Proof. induction l; cbn; rewrite ?mapply_one; congruence. Qed.
Lemma rots_map {A B} (f : A -> B) i l : rots i (map f l) = map f (rots i l).
Proof. induction i; cbn; auto. rewrite IHi. destruct (rots i l); cbn; auto. now rewrite map_app. Qed.
Lemma veqb_spec (u v : vec K) : veqb u v = true <-> u = v.
Proof. apply veqb_eq. Qed.
Lemma shift_loop_spec fuel : forall i (s o : list (vec K)), match shift_loop fuel i s o with
  | Some j => exists t, (t < fuel)%nat /\ j = (i + t)%nat /\ s = rots t o
  | None => forall t, (t < fuel)%nat -> s <> rots t o end.
Proof.
  induction fuel as [|n IH]; intros i s o; cbn [shift_loop]; [intros; lia|]. destruct (list_eqb veqb s o) eqn:E.
  - apply (list_eqb_eq veqb _ _ veqb_spec) in E. exists 0%nat. cbn. repeat split; auto; lia.
  - specialize (IH (Datatypes.S i) s (rotl o)). destruct (shift_loop n (Datatypes.S i) s (rotl o)) as [j|].
    + destruct IH as (t & L & -> & ->). exists (Datatypes.S t). rewrite rots_S. repeat split; auto; lia.
    + intros [|t] L; [|rewrite <- rots_S; apply IH; lia]. intros X. apply (list_eqb_eq veqb _ _ veqb_spec) in X. cbn in X. congruence.
Qed.
(** what the loop finds *)
Lemma shift_edges (m : mat K) P Q : (0 < length P)%nat -> length Q = length P -> (forall v, mapply m (mapply m v) = v) ->
  match shift_loop (length P) 0 (edges P) (map (mapply m) (edges Q)) with
  | Some i => (i < length P)%nat /\ shifted m P Q i
  | None => forall i, ~ shifted m P Q i end.
Proof.
  intros N E I. pose proof (shift_loop_spec (length P) 0 (edges P) (map (mapply m) (edges Q))) as X.
  assert (Mm : forall l, map (mapply m) (map (mapply m) l) = l) by (intros l; rewrite map_map, (map_ext _ (fun v => v)) by auto; apply map_id).
  destruct (shift_loop (length P) 0 (edges P) (map (mapply m) (edges Q))) as [j|].
  - destruct X as (t & L & -> & X). cbn. split; auto. apply shifted_iff; auto. rewrite X, rots_map, Mm. reflexivity.
  - intros i H. apply (shifted_mod m P Q i N E) in H. apply (X (i mod length P)%nat); [apply Nat.mod_upper_bound; lia|].
    rewrite rots_map. apply (shifted_iff m P Q _ N E) in H. rewrite H, Mm. reflexivity.
Qed.
(** ** from edges to vertices *)
Lemma shifted_vertices (m : mat K) P Q i : shifted m P Q i -> forall k, vertex Q (k + i) = vadd (mapply m (vertex P k)) (vsub (vertex Q i) (mapply m (vertex P 0))).
Proof.
  intros H. induction k as [|k IH].
  - cbn. apply vec_eq; cbn; ring.
  - specialize (H k). unfold edge in H. cbn [Nat.add]. 
    transitivity (vadd (vsub (vertex Q (Datatypes.S (k + i))) (vertex Q (k + i))) (vertex Q (k + i))); [apply vec_eq; cbn; ring|].
    rewrite H, IH. apply vec_eq; cbn; ring.
Qed.
Lemma translate_iff P Q i : shifted mone P Q i <-> exists F, map_translation F /\ carries F P Q i.
Proof.
  split.
  - intros H. exists (fun p => vadd p (vsub (vertex Q i) (vertex P 0))). split; [eexists; reflexivity|].
    intros k. rewrite (shifted_vertices mone P Q i H), !mapply_one. reflexivity.
  - intros (F & [u U] & C) k. unfold edge. rewrite mapply_one. replace (Datatypes.S (k + i)) with (Datatypes.S k + i)%nat by lia. rewrite <- !C, !U. apply vec_eq; cbn; ring.
Qed.
Lemma half_iff P Q i : shifted (mopp mone) P Q i <-> exists F u, (forall p, F p = vsub u p) /\ carries F P Q i.
Proof.
  split.
  - intros H. exists (fun p => vsub (vadd (vertex Q i) (vertex P 0)) p). eexists. split; [intros; reflexivity|].
    intros k. rewrite (shifted_vertices _ P Q i H), !mapply_mopp. apply vec_eq; cbn; ring.
  - intros (F & u & U & C) k. unfold edge. rewrite mapply_mopp. replace (Datatypes.S (k + i)) with (Datatypes.S k + i)%nat by lia. rewrite <- !C, !U. apply vec_eq; cbn; ring.
Qed.
Definition rotation (m : mat K) := m00 m = m11 m /\ m01 m = - m10 m /\ m00 m * m00 m + m10 m * m10 m = 1.
Lemma rotation_iff (m : mat K) : rotation m <-> mdet m = 1 /\ mmul m (mtrans m) = mone.
Proof.
  destruct m as [a b c d]. unfold rotation, mdet, mmul, mtrans, mone. cbn. split.
  - intros (-> & -> & E). split; [rewrite <- E; ring|]. apply mat_eq; cbn; try (rewrite <- E); ring.
  - intros (D & E). injection E as E1 E2 E3 E4.
    assert (A : a = d). { transitivity (a * (c * c + d * d) - c * (a * c + b * d) - d * (a * d - b * c) + d); [rewrite E4, E2, D; ring|].
      transitivity (d + (a * (c * c + d * d) - c * (a * c + b * d) - d * (a * d - b * c))); [ring|].
      transitivity (d + 0); [f_equal; ring|ring]. }
    assert (B : b = - c). { transitivity (b * (c * c + d * d) - d * (a * c + b * d) + c * (a * d - b * c) - c); [rewrite E4, E2, D; ring|]. ring. }
    split; auto. split; auto. rewrite <- E4. rewrite A. ring.
Qed.
Lemma iso_iff P Q i : edge P 0 <> vzero ->
  (exists m, rotation m /\ shifted m P Q i) <-> exists F, map_isometry F /\ map_orientation_preserving F /\ carries F P Q i.
Proof.
  intros NZ. split.
  - intros ([c b s d] & (R1 & R2 & R3) & H). cbn in R1, R2, R3. subst c b.
    set (t := vsub (vertex Q i) (mapply (Mat d (- s) s d) (vertex P 0))). set (f := Sim d s (fst t) (snd t) true : sim K).
    assert (Fa : forall p, sim_apply f p = vadd (mapply (Mat d (- s) s d) p) t) by (intros p; unfold f, sim_apply; cbn; apply vec_eq; cbn; ring).
    assert (Ok' : sim_ok f). { apply sim_ok_nz. cbn. rewrite R3. apply f1_neq_0. }
    exists (sim_apply f). split; [|split].
    + intros p q. rewrite sim_dist2. cbn. rewrite R3. ring.
    + apply sim_is_orientable_spec; auto.
    + intros k. rewrite Fa. symmetry. apply (shifted_vertices _ P Q i H).
  - intros (F & Is & Or & C). set (u := edge P 0) in *. set (v := edge Q i).
    assert (U : dot u u <> 0). { intros Z. apply NZ. destruct u as [x y]. unfold dot in Z. cbn in Z. apply fsum_sq_eq0 in Z. destruct Z as [-> ->]. reflexivity. }
    assert (V : dot v v = dot u u).
    { pose proof (Is (vertex P 1) (vertex P 0)) as D. rewrite !C in D. exact D. }
    set (c := dot u v / dot u u). set (s := ccw u v / dot u u).
    assert (R3 : c * c + s * s = 1).
    { unfold c, s. assert (X : dot u v * dot u v + ccw u v * ccw u v = dot u u * dot v v) by (destruct u, v; unfold dot, ccw; cbn; ring). rewrite V in X.
      transitivity ((dot u v * dot u v + ccw u v * ccw u v) / (dot u u * dot u u)); [field; auto|rewrite X; field; auto]. }
    assert (Ruv : mapply (Mat c (- s) s c) u = v).
    { unfold c, s. destruct u as [x y], v as [x' y']. unfold mapply, dot, ccw in *. cbn in *. f_equal; field; auto. }
    set (t := vsub (vertex Q i) (mapply (Mat c (- s) s c) (vertex P 0))). set (f := Sim c s (fst t) (snd t) true : sim K).
    assert (Fa : forall p, sim_apply f p = vadd (mapply (Mat c (- s) s c) p) t) by (intros p; unfold f, sim_apply; cbn; apply vec_eq; cbn; ring).
    assert (Ok' : sim_ok f). { apply sim_ok_nz. cbn. rewrite R3. apply f1_neq_0. }
    assert (Rg : forall p, F p = sim_apply f p).
    { apply (rigid F 1 f (vertex P 0) (vertex P 1)); auto.
      - split; [apply flt_0_1|]. intros p q. rewrite Is. ring.
      - apply edge_neq. exact NZ.
      - rewrite Fa, (C 0%nat). unfold t. apply vec_eq; cbn; ring.
      - rewrite Fa, (C 1%nat). unfold t. cbn [Nat.add].
        transitivity (vadd v (vertex Q i)); [|unfold v, edge; apply vec_eq; cbn; ring]. rewrite <- Ruv. unfold u, edge. apply vec_eq; cbn; ring. }
    exists (Mat c (- s) s c). split; [repeat split; auto|]. intros k. unfold edge.
    replace (Datatypes.S (k + i)) with (Datatypes.S k + i)%nat by lia. rewrite <- !C, !Rg, !Fa. apply vec_eq; cbn; ring.
Qed.
(** ** the loop of is_isometric *)
Definition rot_of (u v : vec K) : mat K := mmul (Mat (fst v) (- snd v) (snd v) (fst v)) (minv (Mat (fst u) (- snd u) (snd u) (fst u))).
Lemma rot_of_spec u v : u <> vzero -> dot v v = dot u u -> rotation (rot_of u v) /\ mapply (rot_of u v) u = v.
Proof.
  intros NZ E. assert (U : dot u u <> 0). { intros Z. apply NZ. destruct u as [x y]. unfold dot in Z. cbn in Z. apply fsum_sq_eq0 in Z. destruct Z as [-> ->]. reflexivity. }
  destruct u as [x y], v as [x' y']. unfold rot_of, rotation, minv, mmul, mdet, dot, mapply in *. cbn in *.
  assert (D : x * x - - y * y <> 0) by (intros Z; apply U; rewrite <- Z; ring). repeat split.
  - field; auto.
  - field; auto.
  - transitivity ((x' * x' + y' * y') * (x * x + y * y) / ((x * x - - y * y) * (x * x - - y * y))); [field; auto|]. rewrite E. field; auto.
  - f_equal; field; auto.
Qed.
Lemma rotation_length m u : rotation m -> dot (mapply m u) (mapply m u) = dot u u.
Proof.
  destruct m as [a b c d], u as [x y]. intros (E1 & E2 & E3). cbn in *. subst. unfold dot, mapply. cbn.
  transitivity ((d * d + c * c) * (x * x + y * y)); [ring|rewrite E3; ring].
Qed.
Lemma rotation_unique m n u : u <> vzero -> rotation m -> rotation n -> mapply m u = mapply n u -> m = n.
Proof.
  intros NZ (M1 & M2 & _) (N1 & N2 & _) E. destruct m as [a b c d], n as [a' b' c' d'], u as [x y]. cbn in *. subst. unfold mapply in E. cbn in E.
  injection E as E1 E2.
  assert (U : x * x + y * y <> 0). { intros Z. apply NZ. apply fsum_sq_eq0 in Z. destruct Z as [-> ->]. reflexivity. }
  assert (A : d = d'). { apply (fcancel _ _ (x * x + y * y) U). transitivity (x * (d * x + - c * y) + y * (c * x + d * y)); [ring|]. rewrite E1, E2. ring. }
  assert (B : c = c'). { apply (fcancel _ _ (x * x + y * y) U). transitivity (x * (c * x + d * y) - y * (d * x + - c * y)); [ring|]. rewrite E1, E2. ring. }
  now subst.
Qed.
Lemma lengths_rot m es : rotation m -> lengths2 (map (mapply m) es) = lengths2 es.
Proof. intros R. induction es as [|e es IH]; auto. unfold lengths2 in *. cbn [map]. rewrite IH. f_equal. exact (rotation_length m e R). Qed.
Lemma iso_loop_spec fuel : forall i (s o : list (vec K)), s <> nil -> hd vzero s <> vzero -> exists r, iso_loop fuel i s o = Ok r /\ match r with
  | Some (j, m) => exists t, (t < fuel)%nat /\ j = (i + t)%nat /\ rotation m /\ rots t o = map (mapply m) s
  | None => forall t m, (t < fuel)%nat -> rotation m -> rots t o <> map (mapply m) s end.
Proof.
  induction fuel as [|n IH]; intros i s o Ns H0; cbn [iso_loop]; [exists None; split; auto; intros; lia|].
  destruct (IH (Datatypes.S i) s (rotl o) Ns H0) as (r & Er & Sr).
  assert (Next : (forall m, rotation m -> o <> map (mapply m) s) -> exists r, iso_loop n (Datatypes.S i) s (rotl o) = Ok r /\ match r with
    | Some (j, m) => exists t, (t < Datatypes.S n)%nat /\ j = (i + t)%nat /\ rotation m /\ rots t o = map (mapply m) s
    | None => forall t m, (t < Datatypes.S n)%nat -> rotation m -> rots t o <> map (mapply m) s end).
  { intros Z. exists r. split; auto. destruct r as [[j m]|].
    - destruct Sr as (t & L & -> & R & Q). exists (Datatypes.S t). rewrite <- rots_S. repeat split; auto; try lia; apply R.
    - intros [|t] m L R; [cbn; auto|]. rewrite <- rots_S. apply Sr; auto. lia. }
  destruct (list_eqb feqb (lengths2 s) (lengths2 o)) eqn:E.
  - apply (list_eqb_eq feqb _ _ (feqb_eq K)) in E. destruct s as [|u s]; [congruence|]. destruct o as [|v o]; [discriminate|]. cbn [hd tl] in *.
    cbn in E. injection E as E0 E1. destruct (rot_of_spec u v H0) as [R Ru]; [symmetry; exact E0|].
    fold (rot_of u v). assert (A1 : (mdet (rot_of u v) =? 1) && mat_eqb (mmul (rot_of u v) (mtrans (rot_of u v))) mone = true).
    { apply rotation_iff in R. destruct R as [R1 R2]. rewrite R1, R2. rewrite (proj2 (feqb_eq K _ _) eq_refl). unfold mat_eqb. now rewrite !(proj2 (feqb_eq K _ _) eq_refl). }
    rewrite A1. cbn [passert bind]. rewrite Ru, (proj2 (veqb_spec v v) eq_refl). cbn [passert bind].
    destruct (list_eqb veqb o (map (mapply (rot_of u v)) s)) eqn:T.
    + apply (list_eqb_eq veqb _ _ veqb_spec) in T. eexists. split; [reflexivity|]. cbn. exists 0%nat. split; [lia|]. split; [lia|]. split; auto. cbn. rewrite Ru. now f_equal.
    + apply Next. intros m Rm X. cbn in X. injection X as X1 X2. assert (m = rot_of u v) as -> by (apply (rotation_unique _ _ u); auto; congruence).
      apply (list_eqb_eq veqb _ _ veqb_spec) in X2. congruence.
  - apply Next. intros m Rm ->. rewrite (lengths_rot m s Rm) in E. rewrite (proj2 (list_eqb_eq feqb _ _ (feqb_eq K)) eq_refl) in E. discriminate.
Qed.
Lemma iso_edges P Q : (0 < length P)%nat -> length Q = length P -> edge P 0 <> vzero -> exists r, iso_loop (length P) 0 (edges P) (edges Q) = Ok r /\ match r with
  | Some (i, m) => (i < length P)%nat /\ rotation m /\ shifted m P Q i
  | None => forall i m, rotation m -> ~ shifted m P Q i end.
Proof.
  intros N E NZ. assert (Ne : edges P <> nil) by (intros Z; apply (f_equal (@length _)) in Z; rewrite edges_length in Z; cbn in Z; lia).
  assert (H0 : hd vzero (edges P) <> vzero).
  { pose proof (nth_edges P 0 N) as X. destruct (edges P) as [|e es]; [congruence|]. cbn in *. now subst. }
  destruct (iso_loop_spec (length P) 0 (edges P) (edges Q) Ne H0) as (r & Er & Sr). exists r. split; auto. destruct r as [[j m]|].
  - destruct Sr as (t & L & -> & R & X). cbn. split; auto. split; auto. now apply shifted_iff.
  - intros i m R H. apply (shifted_mod m P Q i N E) in H. apply (Sr (i mod length P)%nat m); auto; [apply Nat.mod_upper_bound; lia|]. now apply shifted_iff.
Qed.
End P.
