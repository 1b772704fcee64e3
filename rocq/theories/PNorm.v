(** Proofs about normalized coordinates: the matrix, the polygons and the field. *)
From Coq Require Import List Bool ZArith Arith Lia Ring Field.
From Verif Require Import OField FMicromega PField MBase MDict PDict MEuclid SEuclid PEuclid MSim SSim PSim MPoly PPoly MMut SMut
  SPoint PPoint PSimple SHyp SCut TPoly2 MSubdiv PSubdiv PCut6 MNorm SNorm.
Import ListNotations.

Section P.
Context {K : OField}.
Add Field KF : (of_ft K).
Local Open Scope F_scope.
Notation nv := (@length (vec K) : polygon K -> nat).

(** ** linear maps *)
Lemma mapply_inv (M : mat K) p : mdet M <> 0 -> mapply M (mapply (minv M) p) = p.
Proof. intros D. unfold mdet in D. destruct p, M. cbn in D. apply vec_eq; unfold mapply, minv, mdet; cbn; field; exact D. Qed.
Lemma mapply_inv' (M : mat K) p : mdet M <> 0 -> mapply (minv M) (mapply M p) = p.
Proof. intros D. unfold mdet in D. destruct p, M. cbn in D. apply vec_eq; unfold mapply, minv, mdet; cbn; field; exact D. Qed.
Lemma mapply_sub (M : mat K) p q : mapply M (vsub p q) = vsub (mapply M p) (mapply M q).
Proof. destruct p, q, M. apply vec_eq; cbn; ring. Qed.
Lemma mapply_comb (M : mat K) x y a b : mapply M (vadd (vscale x a) (vscale y b)) = vadd (vscale x (mapply M a)) (vscale y (mapply M b)).
Proof. destruct a, b, M. apply vec_eq; cbn; ring. Qed.
Lemma mapply_ccw (M : mat K) a b : ccw (mapply M a) (mapply M b) = mdet M * ccw a b.
Proof. destruct a, b, M. unfold ccw, mdet. cbn. ring. Qed.
Lemma on_segment_mapply (M : mat K) a b p : on_segment (a, b) p -> on_segment (mapply M a, mapply M b) (mapply M p).
Proof.
  intros (t & T0 & T1 & E). exists t. split; [exact T0|]. split; [exact T1|]. rewrite E. destruct a, b, M. apply vec_eq; cbn; ring.
Qed.
Lemma simple_mapply (M : mat K) (P : polygon K) : mdet M <> 0 -> P <> nil -> simple_polygon P -> simple_polygon (map (mapply M) P).
Proof.
  intros D N SP i j p Hi Hj IJ A B. rewrite map_length in *.
  assert (X : forall k, on_segment (side (map (mapply M) P) k) p -> on_segment (side P k) (mapply (minv M) p)).
  { intros k H. unfold side in *. rewrite !vertex_map in H by auto. apply (on_segment_mapply (minv M)) in H. now rewrite !mapply_inv' in H by auto. }
  apply X in A. apply X in B.
  destruct (SP i j _ Hi Hj IJ A B) as [[Y Z]|[Y Z]]; [left|right]; (split; [exact Y|]); rewrite vertex_map by auto; rewrite <- Z; symmetry; now apply mapply_inv.
Qed.
Lemma edge_mapply (M : mat K) (P : polygon K) e : P <> nil -> edge (map (mapply M) P) e = mapply M (edge P e).
Proof. intros N. unfold edge. rewrite !vertex_map by auto. now rewrite mapply_sub. Qed.
Lemma edges_mapply (M : mat K) (P : polygon K) : P <> nil -> edges (map (mapply M) P) = norm_edges M P.
Proof. intros N. unfold norm_edges, edges. rewrite map_length, map_map. apply map_ext. intros i. now apply edge_mapply. Qed.
Lemma mapply_zero (M : mat K) w : mdet M <> 0 -> mapply M w = vzero -> w = vzero.
Proof. intros D E. rewrite <- (mapply_inv' M w D), E. destruct M. apply vec_eq; cbn; ring. Qed.
Lemma proper_mapply (M : mat K) (P : polygon K) : 0 < mdet M -> proper P -> proper (map (mapply M) P).
Proof.
  intros D (L & N & SP & A). assert (D' := fpos_neq0 _ D). assert (P <> nil) by (destruct P; [cbn in L; lia|discriminate]).
  split; [now rewrite map_length|]. split; [|split; [now apply simple_mapply|rewrite area_map_mat; now apply fmul_pos]].
  intros e. rewrite edge_mapply by auto. intros X. apply (N e). eapply mapply_zero; eauto.
Qed.
(** the polygon that is built *)
Definition norm_polygon (M : mat K) (P : polygon K) : polygon K := map (fun v => mapply M (vsub v (vertex P 0))) P.
Lemma norm_polygon_ok (M : mat K) (P : polygon K) : 0 < mdet M -> proper P -> Polygon_edges (norm_edges M P) = Ok (norm_polygon M P) /\ proper (norm_polygon M P).
Proof.
  intros D PP. pose proof (proper_mapply M P D PP) as Q. assert (N : P <> nil) by (destruct PP as [L _]; destruct P; [cbn in L; lia|discriminate]).
  assert (E : norm_polygon M P = translate (map (mapply M) P) (vopp (vertex (map (mapply M) P) 0))).
  { unfold norm_polygon, translate. rewrite map_map. apply map_ext. intros v. rewrite vertex_map by auto. rewrite mapply_sub. destruct (mapply M v), (mapply M (vertex P 0)). apply vec_eq; cbn; ring. }
  assert (N' : map (mapply M) P <> nil) by (destruct P; [congruence|discriminate]).
  pose proof (proper_translate _ (vopp (vertex (map (mapply M) P) 0)) Q) as T. rewrite <- E in T. split; auto.
  destruct T as (A & B & C & F). apply C51_edges. rewrite <- edges_mapply by auto.
  split. { rewrite E. unfold edges. rewrite translate_length. apply map_ext. intros i. now apply edge_translate. }
  split. { unfold norm_polygon. rewrite vertex_map by auto. destruct (vertex P 0), M. apply vec_eq; cbn; ring. }
  split; auto. rewrite length_edges, map_length. unfold norm_polygon in A. now rewrite map_length in A.
Qed.

(** ** the first corner *)
Lemma ccw_turn (P : polygon K) i : ccw (edge P i) (vopp (edge P (i - 1))) = ccw (edge P (i - 1)) (edge P i).
Proof. destruct (edge P i), (edge P (i - 1)). unfold ccw. cbn. ring. Qed.
Lemma first_turn_ok (P : polygon K) j : first_corner P j -> forall fuel i, (1 <= i <= j)%nat -> (j <= fuel + i)%nat ->
  first_turn P fuel i = Ok (edge P j, vopp (edge P (j - 1))).
Proof.
  intros (J & NJ & ST). induction fuel as [|fuel IH]; intros i Hi Hf; cbn [first_turn].
  - assert (i = j) by lia. subst i. rewrite (proj2 (feqb_false _ _)); auto. rewrite ccw_turn. exact NJ.
  - destruct (Nat.eq_dec i j) as [->|N].
    + rewrite (proj2 (feqb_false _ _)); auto. rewrite ccw_turn. exact NJ.
    + rewrite (proj2 (feqb_eq K _ _)); [|rewrite ccw_turn; apply ST; lia]. apply IH; lia.
Qed.
Lemma parallel_trans (a b c : vec K) : b <> vzero -> ccw a b = 0 -> ccw b c = 0 -> ccw a c = 0.
Proof.
  intros N A B. destruct a as [a1 a2], b as [b1 b2], c as [c1 c2]. unfold ccw in *. cbn in *.
  destruct (feq_dec b1 0) as [E|E].
  - subst b1. assert (B2 : b2 <> 0) by (intros ->; now apply N). assert (a1 = 0). { apply (fcancel _ _ b2); auto. flra. } assert (c1 = 0). { apply (fcancel _ _ b2); auto. flra. } subst. ring.
  - apply (fcancel _ _ b1); auto. transitivity (a1 * (b1 * c2) - b1 * a2 * c1); [ring|]. replace (b1 * a2) with (a1 * b2) by flra. replace (b1 * c2) with (b2 * c1) by flra. ring.
Qed.
Lemma straight_area (P : polygon K) n : (forall e, edge P e <> vzero) -> (forall i, (1 <= i <= n)%nat -> straight P i) -> (length P <= S n)%nat -> area P = 0.
Proof.
  intros N ST L. destruct P as [|q P0] eqn:EP; [unfold area; cbn; field; apply f2_neq0|]. rewrite <- EP in *. assert (NP : P <> nil) by (rewrite EP; discriminate). clear EP.
  assert (A : forall i, (i <= n)%nat -> ccw (edge P 0) (edge P i) = 0).
  { induction i as [|i IH]; intros Hi; [unfold ccw; ring|]. apply (parallel_trans _ (edge P i)); auto; [apply IH; lia|]. specialize (ST (S i) ltac:(lia)). unfold straight in ST. now replace (S i - 1)%nat with i in ST by lia. }
  assert (B : forall i, (i <= S n)%nat -> ccw (edge P 0) (vsub (vertex P i) (vertex P 0)) = 0).
  { induction i as [|i IH]; intros Hi; [unfold ccw; cbn; ring|]. specialize (IH ltac:(lia)). specialize (A i ltac:(lia)). unfold edge at 2 in A.
    transitivity (ccw (edge P 0) (vsub (vertex P i) (vertex P 0)) + ccw (edge P 0) (vsub (vertex P (S i)) (vertex P i))); [unfold ccw; cbn; ring|]. rewrite IH, A. ring. }
  rewrite <- (area_translate P (vopp (vertex P 0))), area_csum, <- fold_csum. rewrite translate_length.
  rewrite (fold_left_ext_in _ (fun _ => 0)).
  - assert (Z : forall l, fold_left (fun (t : K) (_ : nat) => t + 0) l 0 = 0). { induction l as [|x l IH]; cbn; auto. replace (0 + 0) with (0 : K) by ring. exact IH. } rewrite Z. field. apply f2_neq0.
  - intros i Hi. apply in_seq in Hi. rewrite !vertex_translate by auto. apply (parallel_trans _ (edge P 0)); auto.
    + specialize (B i ltac:(lia)). unfold ccw in *. destruct (vertex P i), (vertex P 0), (edge P 0). cbn in *. flra.
    + specialize (B (S i) ltac:(lia)). unfold ccw in *. destruct (vertex P (S i)), (vertex P 0), (edge P 0). cbn in *. flra.
Qed.
Lemma corner_exists (P : polygon K) : proper P -> exists j, first_corner P j /\ (j < length P)%nat.
Proof.
  intros (L & N & _ & A).
  assert (X : forall n, (exists j, first_corner P j /\ (j <= n)%nat) \/ forall i, (1 <= i <= n)%nat -> straight P i).
  { induction n as [|n [(j & J1 & J2)|IH]]; [right; lia|left; exists j; split; auto|].
    destruct (feq_dec (ccw (edge P (S n - 1)) (edge P (S n))) 0) as [E|E].
    - right. intros i Hi. destruct (Nat.eq_dec i (S n)) as [->|]; [exact E|apply IH; lia].
    - left. exists (S n). split; auto. split; [lia|]. split; [exact E|]. intros i Hi. apply IH. lia. }
  destruct (X (length P - 1)%nat) as [(j & J1 & J2)|S].
  - exists j. split; auto. lia.
  - exfalso. rewrite (straight_area P (length P - 1)) in A; auto; [|lia]. now apply flt_irrefl in A.
Qed.
(** the matrix maps the edges at the first corner to the standard basis *)
Lemma norm_matrix_ok (P : polygon K) j : first_corner P j -> (j <= length P)%nat ->
  (0 < ccw (edge P (j - 1)) (edge P j) -> exists M, norm_matrix P = Ok M /\ 0 < mdet M /\ mapply M (edge P j) = (1, 0) /\ mapply M (edge P (j - 1)) = (0, - (1))) /\
  (ccw (edge P (j - 1)) (edge P j) < 0 -> norm_matrix P = Err AssertionError).
Proof.
  intros FC J. unfold norm_matrix. rewrite (first_turn_ok P j FC) by (destruct FC; lia).
  set (u := edge P j). set (e := edge P (j - 1)). set (c := ccw e u).
  set (M0 := Mat (fst u) (fst (vopp e)) (snd u) (snd (vopp e))).
  assert (D0 : mdet M0 = c) by (unfold M0, mdet, c, ccw; cbn; ring).
  assert (NC : c <> 0) by (destruct FC as (_ & X & _); exact X).
  assert (D1 : mdet (minv M0) = finv c). { transitivity (finv (mdet M0)); [|now rewrite D0]. rewrite <- D0 in NC. unfold mdet in *. unfold minv, mdet. cbn in *. field. exact NC. }
  split; intros C.
  - exists (minv M0). assert (X : 0 < mdet (minv M0)) by (rewrite D1; now apply finv_pos). rewrite X. split; auto. split; auto.
    rewrite <- D0 in NC. split.
    + replace u with (mapply M0 (1, 0)) by (destruct u, e; apply vec_eq; cbn; ring). now apply mapply_inv'.
    + replace e with (mapply M0 (0, - (1))) by (destruct u, e; apply vec_eq; cbn; ring). now apply mapply_inv'.
  - assert (X : (0 <? mdet (minv M0)) = false); [|now rewrite X]. rewrite D1. apply not_true_is_false. intros H. change (0 < finv c) in H.
    assert (Y : c * finv c = 1) by (transitivity (finv c * c); [ring|now apply (finv_l K)]). assert (Z : 0 < (- c) * finv c) by (apply fmul_pos; auto; flra). assert (W : (- c) * finv c = - (1)) by (transitivity (- (c * finv c)); [ring|now rewrite Y]). rewrite W in Z. flra.
Qed.

(** ** the field *)
Lemma subfield_0 (F : K -> Prop) : subfield F -> F 0.
Proof. intros (A & B & C & D & E). replace 0 with (1 + - (1) : K) by ring. apply B; auto. Qed.
Lemma subfield_sub (F : K -> Prop) x y : subfield F -> F x -> F y -> F (x - y).
Proof. intros (A & B & C & D & E) X Y. replace (x - y) with (x + - y) by ring. apply B; auto. Qed.
Lemma subfield_div (F : K -> Prop) x y : subfield F -> F x -> F y -> y <> 0 -> F (x / y).
Proof. intros (A & B & C & D & E) X Y N. unfold fdiv. apply C; auto. Qed.
Lemma generated_subfield (hs : list K) : subfield (generated hs).
Proof.
  split; [|split; [|split; [|split]]].
  - intros F SF _. apply SF.
  - intros x y X Y F SF H. apply SF; [now apply X|now apply Y].
  - intros x y X Y F SF H. apply SF; [now apply X|now apply Y].
  - intros x X F SF H. apply SF. now apply X.
  - intros x X N F SF H. apply SF; auto. now apply X.
Qed.
Lemma generated_in (hs : list K) h : In h hs -> generated hs h.
Proof. intros H F _ X. now apply X. Qed.
(** coordinates with respect to a basis of vectors in the lattice *)
Lemma coords_in (F : K -> Prop) (M : mat K) (a b u v w : vec K) : subfield F -> ccw a b <> 0 ->
  (forall z, z = u \/ z = v \/ z = w -> exists x y, F x /\ F y /\ z = vadd (vscale x a) (vscale y b)) ->
  mdet M <> 0 -> mapply M u = (1, 0) -> mapply M v = (0, - (1)) -> F (fst (mapply M w)) /\ F (snd (mapply M w)).
Proof.
  intros SF AB H D U V. destruct (H u) as (u1 & u2 & U1 & U2 & EU); auto. destruct (H v) as (v1 & v2 & V1 & V2 & EV); auto. destruct (H w) as (w1 & w2 & W1 & W2 & EW); auto.
  pose proof SF as (A & B & C & N & I). rewrite EU in U. rewrite EV in V. rewrite EW. rewrite mapply_comb in *. set (p := mapply M a) in *. set (q := mapply M b) in *. clearbody p q.
  assert (E : u1 * v2 - u2 * v1 <> 0).
  { intros E. assert (X : ccw (1, 0) (0, - (1)) = (u1 * v2 - u2 * v1) * ccw p q) by (rewrite <- U, <- V; unfold ccw; cbn; ring). rewrite E in X. unfold ccw in X. cbn in X. pose proof (@flt_0_1 K). flra. }
  injection U as Ua Ub. injection V as Va Vb.
  assert (Fd : F (u1 * v2 - u2 * v1)) by (apply subfield_sub; auto).
  assert (X1 : fst p = v2 / (u1 * v2 - u2 * v1)).
  { apply (fcancel _ _ (u1 * v2 - u2 * v1)); auto. transitivity (v2 * (u1 * fst p + u2 * fst q) - u2 * (v1 * fst p + v2 * fst q)); [ring|]. rewrite Ua, Va. field. auto. }
  assert (X2 : fst q = - v1 / (u1 * v2 - u2 * v1)).
  { apply (fcancel _ _ (u1 * v2 - u2 * v1)); auto. transitivity (u1 * (v1 * fst p + v2 * fst q) - v1 * (u1 * fst p + u2 * fst q)); [ring|]. rewrite Ua, Va. field. auto. }
  assert (X3 : snd p = u2 / (u1 * v2 - u2 * v1)).
  { apply (fcancel _ _ (u1 * v2 - u2 * v1)); auto. transitivity (v2 * (u1 * snd p + u2 * snd q) - u2 * (v1 * snd p + v2 * snd q)); [ring|]. rewrite Ub, Vb. field. auto. }
  assert (X4 : snd q = - u1 / (u1 * v2 - u2 * v1)).
  { apply (fcancel _ _ (u1 * v2 - u2 * v1)); auto. transitivity (u1 * (v1 * snd p + v2 * snd q) - v1 * (u1 * snd p + u2 * snd q)); [ring|]. rewrite Ub, Vb. field. auto. }
  cbn [fst snd vadd vscale]. rewrite X1, X2, X3, X4. split; apply B; apply C; auto; apply subfield_div; auto.
Qed.
End P.
