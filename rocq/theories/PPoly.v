(** Polygons: cyclic sums, area, linear maps, joins, centroid. *)
From Coq Require Import Bool List Ring Field Arith Lia ZArith.
From Verif Require Import OField FMicromega PField MBase MEuclid SEuclid PEuclid MSim SSim PSim MPoly.
Import ListNotations.

Section P.
Context {K : OField}.
Add Field KF : (of_ft K).
Local Open Scope F_scope.
Implicit Types p q r v w : vec K.
Implicit Types P Q l : list (vec K).

(** ** sums along paths and closed paths *)
Fixpoint psum (f : vec K -> vec K -> K) (p : vec K) (l : list (vec K)) : K :=
  match l with
  | nil => 0
  | q :: l => f p q + psum f q l
  end.
Definition csum (f : vec K -> vec K -> K) (P : list (vec K)) : K :=
  match P with
  | nil => 0
  | p :: l => psum f p (l ++ [p])
  end.

Lemma psum_app f p l q l' : psum f p (l ++ q :: l') = psum f p (l ++ [q]) + psum f q l'.
Proof.
  revert p. induction l as [|r l IH]; intros p; cbn.
  - ring.
  - rewrite IH. ring.
Qed.

Lemma psum_ext f g p l : (forall a b, f a b = g a b) -> psum f p l = psum g p l.
Proof. intros H. revert p. induction l; intros; cbn; rewrite ?H, ?IHl; auto. Qed.
Lemma csum_ext f g P : (forall a b, f a b = g a b) -> csum f P = csum g P.
Proof. intros H. destruct P; cbn; auto. now apply psum_ext. Qed.

Lemma psum_add f g p l : psum (fun a b => f a b + g a b) p l = psum f p l + psum g p l.
Proof. revert p. induction l; intros; cbn; rewrite ?IHl; ring. Qed.
Lemma csum_add f g P : csum (fun a b => f a b + g a b) P = csum f P + csum g P.
Proof. destruct P; cbn; [ring | apply psum_add]. Qed.
Lemma psum_scale c f p l : psum (fun a b => c * f a b) p l = c * psum f p l.
Proof. revert p. induction l; intros; cbn; rewrite ?IHl; ring. Qed.
Lemma csum_scale c f P : csum (fun a b => c * f a b) P = c * csum f P.
Proof. destruct P; cbn; [ring | apply psum_scale]. Qed.

(** differences telescope *)
Lemma psum_tele (g : vec K -> K) p l q : psum (fun a b => g b - g a) p (l ++ [q]) = g q - g p.
Proof. revert p. induction l; intros; cbn; [ring|]. rewrite IHl. ring. Qed.
Lemma csum_tele (g : vec K -> K) P : csum (fun a b => g b - g a) P = 0.
Proof. destruct P; cbn; auto. rewrite psum_tele. ring. Qed.

Lemma csum_rot1 f p l : csum f (l ++ [p]) = csum f (p :: l).
Proof.
  destruct l as [|q l]; cbn; auto.
  rewrite <- app_assoc. cbn. rewrite psum_app. cbn. ring.
Qed.
Lemma csum_rot f P Q : csum f (P ++ Q) = csum f (Q ++ P).
Proof.
  revert Q. induction P as [|p P IH]; intros Q; cbn [app].
  - now rewrite app_nil_r.
  - rewrite <- csum_rot1, <- app_assoc, IH. now rewrite <- app_assoc.
Qed.

Lemma psum_map f g p l : psum f (g p) (map g l) = psum (fun a b => f (g a) (g b)) p l.
Proof. revert p. induction l; intros; cbn; rewrite ?IHl; auto. Qed.
Lemma csum_map f g P : csum f (map g P) = csum (fun a b => f (g a) (g b)) P.
Proof. destruct P; cbn; auto. rewrite <- (psum_map f g), map_app. reflexivity. Qed.

Lemma psum_rev f p l q : psum f p (l ++ [q]) = psum (fun a b => f b a) q (rev l ++ [p]).
Proof.
  revert p q. induction l as [|r l IH]; intros p q; cbn; [ring|].
  rewrite IH. rewrite <- app_assoc. cbn. rewrite (psum_app _ q (rev l) r [p]). cbn. ring.
Qed.
Lemma csum_rev f P : csum f (rev P) = csum (fun a b => f b a) P.
Proof.
  destruct P as [|p l]; cbn; auto. rewrite csum_rot1. cbn. now rewrite psum_rev, rev_involutive.
Qed.

(** cutting along a diagonal *)
Lemma csum_cut f A p B q C : f p q + f q p = 0 ->
  csum f (A ++ p :: B ++ q :: C) = csum f (p :: B ++ [q]) + csum f (q :: C ++ A ++ [p]).
Proof.
  intros H. rewrite csum_rot. cbn. rewrite <- !app_assoc. cbn.
  rewrite (psum_app f p B q). rewrite (psum_app f p B q [p]). cbn.
  rewrite !app_assoc. rewrite (psum_app f q (C ++ A) p [q]). cbn.
  assert (X : f q p = - f p q) by (rewrite <- (fadd_0_l K (- f p q)), <- H; ring).
  rewrite X. ring.
Qed.

(** ** the sums of the code *)
Lemma vertex_lt P i : (i < length P)%nat -> vertex P i = nth i P vzero.
Proof. intros H. unfold vertex. rewrite Nat.mod_small; auto. Qed.
Lemma vertex_n P : P <> nil -> vertex P (length P) = hd vzero P.
Proof. intros H. unfold vertex. rewrite Nat.mod_same by (destruct P; cbn; congruence). destruct P; auto. Qed.
Lemma vertex_add_n P i : vertex P (i + length P) = vertex P i.
Proof.
  unfold vertex. destruct P as [|p P]; [destruct (_ mod _), (_ mod _); reflexivity|].
  f_equal. rewrite <- (Nat.mul_1_l (length (p :: P))) at 1. rewrite Nat.mod_add; cbn; auto.
Qed.

Lemma fold_left_add (f : nat -> K) (l : list nat) a : fold_left (fun t i => t + f i) l a = a + fold_left (fun t i => t + f i) l 0.
Proof.
  revert a. induction l as [|i l IH]; intros a; cbn; [ring|].
  rewrite IH, (IH (0 + f i)). ring.
Qed.

Lemma fold_left_ext_in (f g : nat -> K) (l : list nat) a : (forall i, In i l -> f i = g i) ->
  fold_left (fun t i => t + f i) l a = fold_left (fun t i => t + g i) l a.
Proof.
  revert a. induction l as [|i l IH]; intros a H; cbn; auto.
  rewrite (H i) by (left; auto). apply IH. intros. apply H. now right.
Qed.

Lemma fold_psum f (d : vec K) p l k :
  fold_left (fun t i => t + f (nth (i - k) (p :: l) d) (nth (S i - k) (p :: l) d)) (seq k (length l)) 0 = psum f p l.
Proof.
  revert p k. induction l as [|q l IH]; intros p k; cbn [length seq fold_left psum]; auto.
  rewrite fold_left_add. rewrite <- (IH q (S k)).
  replace (k - k)%nat with 0%nat by lia. replace (S k - k)%nat with 1%nat by lia. cbn [nth].
  f_equal; [ring|]. apply fold_left_ext_in. intros i Hi. apply in_seq in Hi.
  f_equal.
  - destruct (i - k)%nat as [|m] eqn:E; [lia|]. replace (i - S k)%nat with m by lia. reflexivity.
  - destruct (S i - k)%nat as [|m] eqn:E; [lia|]. replace (S i - S k)%nat with m by lia. reflexivity.
Qed.

Lemma fold_csum f P :
  fold_left (fun t i => t + f (vertex P i) (vertex P (S i))) (seq 0 (length P)) 0 = csum f P.
Proof.
  destruct P as [|p l]; auto. cbn [csum].
  rewrite <- (fold_psum f vzero p (l ++ [p]) 0).
  rewrite app_length, Nat.add_1_r. apply fold_left_ext_in. intros i Hi. apply in_seq in Hi. cbn [length] in Hi.
  rewrite !Nat.sub_0_r. f_equal.
  - rewrite vertex_lt by (cbn; lia). destruct i; cbn [nth]; auto. rewrite app_nth1; auto. lia.
  - destruct (Nat.eq_dec i (length l)) as [->|E].
    + change (S (length l)) with (length (p :: l)). rewrite vertex_n by discriminate.
      cbn [length nth hd]. rewrite app_nth2, Nat.sub_diag; auto.
    + rewrite vertex_lt by (cbn; lia). cbn [nth]. rewrite app_nth1; auto. lia.
Qed.

Lemma area_csum P : area P = csum ccw P / 2.
Proof.
  unfold area. f_equal. rewrite <- fold_csum.
  transitivity (csum (fun p q => (fst p + fst q) * (snd q - snd p)) P).
  - rewrite <- fold_csum. reflexivity.
  - rewrite fold_csum.
    transitivity (csum (fun p q => ccw p q + (fst q * snd q - fst p * snd p)) P).
    + apply csum_ext. intros a b. unfold ccw. ring.
    + rewrite (csum_add ccw (fun p q => fst q * snd q - fst p * snd p)).
      rewrite (csum_tele (fun p => fst p * snd p)). ring.
Qed.

Lemma ccw_antisym p q : ccw p q + ccw q p = 0.
Proof. unfold ccw. ring. Qed.

Lemma area_rot P Q : area (P ++ Q) = area (Q ++ P).
Proof. now rewrite !area_csum, csum_rot. Qed.

Lemma fdiv2_add (x y z : K) : x = y + z -> x / 2 = y / 2 + z / 2.
Proof. intros ->. field. fside. Qed.

Lemma area_cut A p B q C : area (A ++ p :: B ++ q :: C) = area (p :: B ++ [q]) + area (q :: C ++ A ++ [p]).
Proof. rewrite !area_csum. apply fdiv2_add. apply csum_cut. apply ccw_antisym. Qed.

Lemma area_rev P : area (rev P) = - area P.
Proof.
  rewrite !area_csum, csum_rev.
  replace (csum (fun a b => ccw b a) P) with (- (1) * csum ccw P).
  - field. fside.
  - rewrite <- csum_scale. apply csum_ext. intros. unfold ccw. ring.
Qed.

Lemma area_translate P u : area (translate P u) = area P.
Proof.
  rewrite !area_csum. f_equal. unfold translate. rewrite csum_map.
  transitivity (csum (fun p q => ccw p q + ((ccw u q) - ccw u p)) P).
  - apply csum_ext. intros. unfold ccw. cbn. ring.
  - rewrite (csum_add ccw (fun p q => ccw u q - ccw u p)), (csum_tele (fun p => ccw u p)). ring.
Qed.

Lemma area_map_mat g P : area (map (mapply g) P) = mdet g * area P.
Proof.
  rewrite !area_csum, csum_map.
  rewrite (csum_ext _ (fun a b => mdet g * ccw a b)).
  - rewrite csum_scale. unfold fdiv. ring.
  - intros. unfold ccw, mdet; cbn; ring.
Qed.

Lemma area_sim f P : area (sim_polygon f P) = sim_det f * area P.
Proof.
  unfold sim_polygon. rewrite <- sim_derivative_det, <- area_map_mat.
  rewrite <- (area_translate (map (mapply (sim_derivative f)) P) (sg_s f, sg_t f)).
  f_equal. unfold translate. rewrite map_map. apply map_ext. intros p.
  unfold sim_apply, sim_derivative, sgn. destruct (sg_sign f); apply vec_eq; cbn; ring.
Qed.

(** ** linear maps *)
Lemma map_seq_nth l (d : vec K) k : map (fun i => nth (i - k) l d) (seq k (length l)) = l.
Proof.
  revert k. induction l as [|p l IH]; intros k; cbn [length seq map]; auto.
  f_equal.
  - now rewrite Nat.sub_diag.
  - rewrite <- (IH (S k)) at 2. apply map_ext_in. intros i Hi. apply in_seq in Hi.
    destruct (i - k)%nat as [|m] eqn:E; [lia|]. replace (i - S k)%nat with m by lia. reflexivity.
Qed.
Lemma map_vertex_tail (F : vec K -> vec K) p l :
  map (fun i => F (vertex (p :: l) i)) (seq 1 (length l)) = map F l.
Proof.
  rewrite <- (map_seq_nth l vzero 1) at 2. rewrite map_map.
  apply map_ext_in. intros i Hi. apply in_seq in Hi. f_equal.
  rewrite vertex_lt by (cbn; lia). destruct i; [lia|]. cbn. now rewrite Nat.sub_0_r.
Qed.

Definition reverse0 (P : list (vec K)) : list (vec K) :=
  match P with nil => nil | p :: l => p :: rev l end.

Lemma poly_mul_eq g P : P <> nil -> mdet g <> 0 ->
  poly_mul g P = Ok (if mdet g <? 0 then map (mapply g) (reverse0 P) else map (mapply g) P).
Proof.
  intros HP Hd. unfold poly_mul. rewrite (proj2 (feqb_false _ _) Hd).
  destruct (mdet g <? 0); auto. f_equal. destruct P as [|p l]; [congruence|]. cbn [reverse0 map].
  f_equal; [unfold vertex; rewrite Nat.mod_0_l by discriminate; reflexivity|].
  cbn [length]. rewrite Nat.sub_succ, Nat.sub_0_r, map_rev.
  rewrite (map_vertex_tail (mapply g)). now rewrite map_rev.
Qed.

Lemma area_reverse0 P : area (reverse0 P) = - area P.
Proof.
  destruct P as [|p l]; cbn [reverse0].
  - rewrite area_csum. cbn. field. fside.
  - rewrite <- area_rev. cbn [rev]. rewrite !area_csum. now rewrite csum_rot1.
Qed.

Definition fabs (x : K) : K := if x <? 0 then - x else x.

Lemma area_mul g P Q : P <> nil -> poly_mul g P = Ok Q -> area Q = fabs (mdet g) * area P.
Proof.
  intros HP H. destruct (feq_dec (mdet g) 0) as [E|E].
  - unfold poly_mul in H. rewrite (proj2 (feqb_eq _ _ _) E) in H. discriminate.
  - rewrite poly_mul_eq in H by auto. injection H as <-. unfold fabs.
    destruct (mdet g <? 0); rewrite area_map_mat, ?area_reverse0; ring.
Qed.

(** *** composition *)
Lemma mapply_mmul g h p : mapply (mmul g h) p = mapply g (mapply h p).
Proof. apply vec_eq; cbn; ring. Qed.
Lemma mdet_mmul (g h : mat K) : mdet (mmul g h) = mdet g * mdet h.
Proof. unfold mdet; cbn; ring. Qed.
Lemma map_reverse0 (F : vec K -> vec K) P : map F (reverse0 P) = reverse0 (map F P).
Proof. destruct P; cbn; auto. now rewrite map_rev. Qed.
Lemma reverse0_reverse0 P : reverse0 (reverse0 P) = P.
Proof. destruct P; cbn; auto. now rewrite rev_involutive. Qed.

Lemma poly_mul_mul g h P : P <> nil -> mdet g <> 0 -> mdet h <> 0 ->
  exists Q, poly_mul h P = Ok Q /\ poly_mul g Q = poly_mul (mmul g h) P /\ Q <> nil.
Proof.
  intros HP Hg Hh. rewrite poly_mul_eq by auto. eexists; split; [reflexivity|].
  assert (N : (if mdet h <? 0 then map (mapply h) (reverse0 P) else map (mapply h) P) <> nil).
  { destruct P; [congruence|]. destruct (_ <? _); discriminate. }
  split; auto.
  rewrite poly_mul_eq by auto.
  assert (D : mdet (mmul g h) <> 0) by (rewrite mdet_mmul; now apply fmul_neq0).
  rewrite (poly_mul_eq (mmul g h)) by auto. rewrite mdet_mmul.
  assert (M : forall l, map (mapply (mmul g h)) l = map (mapply g) (map (mapply h) l)).
  { intros l. rewrite map_map. apply map_ext. intros. apply mapply_mmul. }
  rewrite !M. f_equal.
  destruct (mdet g <? 0) eqn:G, (mdet h <? 0) eqn:H.
  - assert (X : (mdet g * mdet h <? 0) = false) by fnra. rewrite X.
    rewrite map_reverse0, !map_reverse0, reverse0_reverse0. reflexivity.
  - assert (0 < mdet h) by (apply fneq_lt in Hh; destruct Hh; auto; congruence).
    assert (X : (mdet g * mdet h <? 0) = true) by fnra. rewrite X. now rewrite !map_reverse0.
  - assert (0 < mdet g) by (apply fneq_lt in Hg; destruct Hg; auto; congruence).
    assert (X : (mdet g * mdet h <? 0) = true) by fnra. rewrite X. now rewrite !map_reverse0.
  - assert (X : (mdet g * mdet h <? 0) = false) by fnra. rewrite X. reflexivity.
Qed.

Lemma poly_mul_one P : poly_mul mone P = Ok P.
Proof.
  unfold poly_mul. assert (D : mdet (@mone K) = 1) by (unfold mdet; cbn; ring). rewrite D.
  pose proof (@flt_0_1 K) as L.
  assert (A : (1 =? (0:K)) = false) by flra. assert (B : ((1:K) <? 0) = false) by flra.
  rewrite A, B. f_equal. rewrite <- (map_id P) at 2. apply map_ext. intros p. apply vec_eq; cbn; ring.
Qed.

(** edges of the image *)
Lemma vertex_map (F : vec K -> vec K) P i : P <> nil -> vertex (map F P) i = F (vertex P i).
Proof.
  intros H. unfold vertex. rewrite map_length. 
  rewrite (nth_indep _ vzero (F vzero)). apply map_nth.
  rewrite map_length. apply Nat.mod_upper_bound. destruct P; cbn; congruence.
Qed.
Lemma vertex_reverse0 P i : (i <= length P)%nat -> vertex (reverse0 P) i = vertex P (length P - i).
Proof.
  intros H. destruct P as [|p l]; [destruct i; reflexivity|]. cbn [reverse0].
  destruct i as [|i].
  - rewrite Nat.sub_0_r, vertex_n by discriminate. unfold vertex. now rewrite Nat.mod_0_l by discriminate.
  - cbn [length] in *. destruct (Nat.eq_dec i (length l)) as [->|E].
    + rewrite Nat.sub_diag. unfold vertex. cbn [length]. rewrite rev_length.
      rewrite Nat.mod_same, Nat.mod_0_l by lia. reflexivity.
    + unfold vertex. cbn [length]. rewrite rev_length. rewrite !Nat.mod_small by lia.
      cbn [nth]. rewrite rev_nth by lia.
      destruct (S (length l) - S i)%nat eqn:F; [lia|]. replace (length l - S i)%nat with n by lia. reflexivity.
Qed.

Lemma mapply_sub g p q : mapply g (vsub p q) = vsub (mapply g p) (mapply g q).
Proof. apply vec_eq; cbn; ring. Qed.

Lemma edge_mul_pos g P Q i : P <> nil -> 0 < mdet g -> poly_mul g P = Ok Q -> edge Q i = mapply g (edge P i).
Proof.
  intros HP Hd H. rewrite poly_mul_eq in H by (auto; now apply fpos_neq0).
  assert (X : (mdet g <? 0) = false) by flra. rewrite X in H. injection H as <-.
  unfold edge. rewrite !vertex_map by auto. now rewrite mapply_sub.
Qed.
Lemma edge_mul_neg g P Q i : P <> nil -> mdet g < 0 -> (i < length P)%nat -> poly_mul g P = Ok Q ->
  edge Q i = vopp (mapply g (edge P (length P - 1 - i))).
Proof.
  intros HP Hd Hi H. rewrite poly_mul_eq in H by (auto; now apply fneg_neq0).
  unfold flt in Hd. rewrite Hd in H. injection H as <-.
  assert (N : reverse0 P <> nil) by (destruct P; discriminate || congruence).
  unfold edge. rewrite !vertex_map by auto. rewrite !vertex_reverse0 by lia.
  replace (S (length P - 1 - i)) with (length P - i)%nat by lia.
  replace (length P - 1 - i)%nat with (length P - S i)%nat by lia.
  rewrite mapply_sub. apply vec_eq; cbn; ring.
Qed.

Lemma poly_mul_length g P Q : P <> nil -> poly_mul g P = Ok Q -> length Q = length P.
Proof.
  intros HP H. destruct (feq_dec (mdet g) 0) as [E|E].
  - unfold poly_mul in H. rewrite (proj2 (feqb_eq _ _ _) E) in H. discriminate.
  - rewrite poly_mul_eq in H by auto. injection H as <-. destruct (mdet g <? 0); rewrite map_length; auto.
    destruct P; cbn; auto. now rewrite rev_length.
Qed.

(** ** joining two polygons along an edge *)
Lemma split_vertex P e : (e < length P)%nat -> P = firstn e P ++ nth e P vzero :: skipn (S e) P.
Proof.
  intros H. rewrite <- (firstn_skipn e P) at 1. f_equal.
  revert e H. induction P as [|p P IH]; intros e H; cbn in *; [lia|].
  destruct e; auto. cbn [skipn]. rewrite (IH e) by lia. reflexivity.
Qed.

Lemma rotate_head P e : (2 <= length P)%nat -> (e < length P)%nat ->
  exists l, skipn (S e) P ++ firstn e P = vertex P (S e) :: l.
Proof.
  intros L He.
  assert (M : skipn (S e) P ++ firstn e P <> nil).
  { intros X. apply (f_equal (@length _)) in X. rewrite app_length, skipn_length, firstn_length in X. cbn in X. lia. }
  destruct (skipn (S e) P ++ firstn e P) as [|x l] eqn:X; [congruence|]. exists l. f_equal.
  destruct (Nat.eq_dec (S e) (length P)) as [L'|L'].
  - rewrite L', vertex_n by (destruct P; cbn in *; [lia|discriminate]).
    rewrite skipn_all2 in X by lia. cbn in X. destruct e; [lia|]. destruct P; [discriminate|]. cbn in X. now injection X.
  - rewrite vertex_lt by lia. clear M.
    assert (Y : skipn (S e) P = nth (S e) P vzero :: skipn (S (S e)) P).
    { assert (Z := split_vertex P (S e) ltac:(lia)). apply (f_equal (skipn (S e))) in Z.
      rewrite skipn_app in Z. rewrite (skipn_all2 (firstn (S e) P)) in Z by (rewrite firstn_length; lia).
      rewrite firstn_length in Z. replace (S e - Nat.min (S e) (length P))%nat with 0%nat in Z by lia. exact Z. }
    rewrite Y in X. cbn [app] in X. now injection X.
Qed.

Lemma csum_rotate_at f P e : (e < length P)%nat ->
  csum f P = csum f ((skipn (S e) P ++ firstn e P) ++ [vertex P e]).
Proof.
  intros H. rewrite (split_vertex P e) at 1 by auto. rewrite vertex_lt by auto.
  change (firstn e P ++ nth e P vzero :: skipn (S e) P) with (firstn e P ++ [nth e P vzero] ++ skipn (S e) P).
  now rewrite app_assoc, csum_rot, app_assoc.
Qed.

Lemma csum_join g P Q e f R : (forall a b, g a b + g b a = 0) ->
  (2 <= length P)%nat -> (2 <= length Q)%nat -> (e < length P)%nat -> (f < length Q)%nat ->
  poly_join P Q e f = Ok R -> csum g R = csum g P + csum g Q.
Proof.
  intros Hg LP LQ He Hf. unfold poly_join.
  destruct (negb (veqb (vertex P e) (vertex Q (S f))) || negb (veqb (vertex P (S e)) (vertex Q f))) eqn:E; [discriminate|].
  intros H.
  assert (ER : R = firstn e P ++ skipn (S f) Q ++ firstn f Q ++ skipn (S e) P).
  { unfold Polygon_vertices in H. destruct (polygon_check _); congruence. }
  clear H. subst R.
  apply orb_false_iff in E. rewrite !negb_false_iff, !veqb_eq in E. destruct E as [E1 E2].
  destruct (rotate_head P e LP He) as [U HU]. destruct (rotate_head Q f LQ Hf) as [W HW].
  assert (HR : csum g (firstn e P ++ skipn (S f) Q ++ firstn f Q ++ skipn (S e) P) =
              csum g ((skipn (S e) P ++ firstn e P) ++ (skipn (S f) Q ++ firstn f Q))).
  { replace (firstn e P ++ skipn (S f) Q ++ firstn f Q ++ skipn (S e) P)
      with ((firstn e P ++ skipn (S f) Q ++ firstn f Q) ++ skipn (S e) P) by (now rewrite <- !app_assoc).
    rewrite csum_rot. now rewrite <- !app_assoc. }
  rewrite HR. rewrite (csum_rotate_at g P e), (csum_rotate_at g Q f) by auto.
  rewrite HU, HW. rewrite <- E1, <- E2.
  exact (csum_cut g nil (vertex P (S e)) U (vertex P e) W (Hg _ _)).
Qed.

Lemma area_join P Q e f R : (2 <= length P)%nat -> (2 <= length Q)%nat -> (e < length P)%nat -> (f < length Q)%nat ->
  poly_join P Q e f = Ok R -> area R = area P + area Q.
Proof.
  intros LP LQ He Hf H. rewrite !area_csum. apply fdiv2_add.
  eapply csum_join; eauto. apply ccw_antisym.
Qed.

(** ** centroid *)
Definition cen_x (p q : vec K) : K := (fst p + fst q) * ccw p q.
Definition cen_y (p q : vec K) : K := (snd p + snd q) * ccw p q.

Lemma fold_prev_csum f P :
  fold_left (fun t i => t + f (vertex P (i + length P - 1)) (vertex P i)) (seq 0 (length P)) 0 = csum f P.
Proof.
  destruct P as [|p l]; auto.
  rewrite <- csum_rot1. cbn [app]. 
  assert (X : csum f (l ++ [p]) = f (vertex (p :: l) (length l)) p + psum f p l).
  { rewrite csum_rot1. rewrite vertex_lt by (cbn; lia). clear. cbn [csum]. induction l as [|q l _] using rev_ind.
    - cbn. ring.
    - rewrite <- app_assoc. cbn [app]. rewrite (psum_app f p l q [p]).
      rewrite app_length. cbn [length psum]. rewrite Nat.add_1_r. cbn [nth]. rewrite app_nth2, Nat.sub_diag by lia. cbn [nth]. ring. }
  rewrite X. cbn [length seq fold_left].
  replace (0 + S (length l) - 1)%nat with (length l) by lia.
  rewrite fold_left_add. f_equal.
  - rewrite (vertex_lt (p :: l) 0) by (cbn; lia). cbn [nth]. ring.
  - rewrite <- (fold_psum f vzero p l 1). apply fold_left_ext_in. intros i Hi. apply in_seq in Hi. f_equal.
    + replace (i + S (length l) - 1)%nat with ((i - 1) + length (p :: l))%nat by (cbn; lia).
      rewrite vertex_add_n, vertex_lt by (cbn; lia). reflexivity.
    + rewrite vertex_lt by (cbn; lia). f_equal. lia.
Qed.

Lemma centroid_csum P : centroid P =
  (finv ((2 * (2 + 1)) * area P) * csum cen_x P, finv ((2 * (2 + 1)) * area P) * csum cen_y P).
Proof.
  unfold centroid. rewrite <- !fold_prev_csum. f_equal; f_equal; apply fold_left_ext_in; intros;
    unfold cen_x, cen_y, ccw; ring.
Qed.

Lemma area_triangle p q r : area [p; q; r] = ccw (vsub q p) (vsub r p) / 2.
Proof. rewrite area_csum. f_equal. unfold ccw, vsub. cbn. unfold ccw. ring. Qed.

Lemma poly_mul_singular g P : P <> nil -> (poly_mul g P = Err ValueError <-> mdet g = 0).
Proof.
  intros HP. split.
  - intros H. destruct (feq_dec (mdet g) 0) as [E|E]; auto. rewrite poly_mul_eq in H by auto. discriminate.
  - intros E. unfold poly_mul. now rewrite (proj2 (feqb_eq _ _ _) E).
Qed.

Lemma poly_mul_area_pos g P Q : P <> nil -> poly_mul g P = Ok Q -> 0 < area P -> 0 < area Q.
Proof.
  intros HP H A. rewrite (area_mul g P Q HP H). apply fmul_pos; auto. unfold fabs.
  destruct (feq_dec (mdet g) 0) as [E|E].
  - apply (poly_mul_singular g P HP) in E. congruence.
  - apply fneq_lt in E. destruct (mdet g <? 0) eqn:L; destruct E; flra.
Qed.

Lemma ccw_mapply g u v : ccw (mapply g u) (mapply g v) = mdet g * ccw u v.
Proof. unfold ccw, mdet. cbn. ring. Qed.

Lemma edge_add_n P i : edge P (i + length P) = edge P i.
Proof. unfold edge. rewrite <- Nat.add_succ_l. now rewrite !vertex_add_n. Qed.

Lemma poly_mul_convex g P Q : P <> nil -> poly_mul g P = Ok Q ->
  forall strict, is_convex strict P = true -> is_convex strict Q = true.
Proof.
  intros HP H strict C. pose proof (poly_mul_length g P Q HP H) as L. unfold is_convex in *.
  rewrite forallb_forall in C |- *. rewrite L. intros i Hi. apply in_seq in Hi.
  assert (HN : (0 < length P)%nat) by (destruct P; cbn; [congruence|lia]).
  destruct (feq_dec (mdet g) 0) as [E|E].
  { apply (poly_mul_singular g P HP) in E. congruence. }
  apply fneq_lt in E. destruct E as [E|E].
  - (* negative *)
    set (n := length P) in *.
    (* corner between edges i and i+1 of Q is the corner between n-1-i and n-2-i of P *)
    assert (X : exists k, In k (seq 0 n) /\ edge Q i = vopp (mapply g (edge P (S k))) /\ edge Q (S i) = vopp (mapply g (edge P k))).
    { destruct (Nat.eq_dec i (n - 1)) as [I|I].
      - exists (n - 1)%nat. split; [apply in_seq; lia|]. split.
        + rewrite (edge_mul_neg g P Q i) by (auto; fold n; lia). fold n. do 2 f_equal.
          replace (S (n - 1)) with (0 + length P)%nat by (fold n; lia). rewrite edge_add_n. f_equal. lia.
        + replace (S i) with (0 + length Q)%nat by (fold n in L; lia). rewrite edge_add_n.
          rewrite (edge_mul_neg g P Q 0) by (auto; fold n; lia). fold n. do 3 f_equal. lia.
      - exists (n - 2 - i)%nat. split; [apply in_seq; lia|].
        rewrite !(edge_mul_neg g P Q) by (auto; fold n; lia). fold n. split; do 3 f_equal; lia. }
    destruct X as [k [Hk [X Y]]]. specialize (C k Hk). rewrite X, Y.
    assert (Z : ccw (vopp (mapply g (edge P (S k)))) (vopp (mapply g (edge P k))) = - (mdet g) * ccw (edge P k) (edge P (S k))).
    { unfold ccw, mdet. cbn. ring. }
    rewrite Z. revert C. generalize (ccw (edge P k) (edge P (S k))) as c. intros c.
    destruct strict; rewrite !negb_true_iff; intros C.
    + assert (0 < c) by flra. assert (0 < - mdet g * c) by (apply fmul_pos; flra). flra.
    + destruct (- mdet g * c <? 0) eqn:F; auto. exfalso. fnra.
  - rewrite !(edge_mul_pos g P Q) by auto. specialize (C i ltac:(apply in_seq; lia)). rewrite ccw_mapply.
    revert C. generalize (ccw (edge P i) (edge P (S i))) as c. intros c.
    destruct strict; rewrite !negb_true_iff; intros C.
    + assert (0 < c) by flra. assert (0 < mdet g * c) by (apply fmul_pos; flra). flra.
    + destruct (mdet g * c <? 0) eqn:F; auto. exfalso. fnra.
Qed.
End P.
