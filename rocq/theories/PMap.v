(** Linear images of polygons have the expected sides, points and positions. *)
From Coq Require Import List Bool ZArith Arith Lia Ring Field.
From Verif Require Import OField FMicromega PField MBase MDict MEuclid SEuclid PEuclid MSim SSim PSim MPoly PPoly PTurn SPoint PPoint MSurf SSurf PSurf PSurf3 SCut PJordan4 PPos PPos2 TPos PNorm STangent MMap.
Import ListNotations.

Section C.
Context {K : OField}.
Add Field KF : (of_ft K).
Local Open Scope F_scope.
Implicit Types (P Q : polygon K) (p q x v : vec K) (M : mat K).

Lemma seg_flip (a b : vec K) p : on_segment (a, b) p -> on_segment (b, a) p.
Proof. intros [t [T0 [T1 ->]]]. exists (1 - t). split; [flra|]. split; [flra|]. destruct a, b. apply vec_eq; cbn; ring. Qed.
Lemma seg_im M (a b : vec K) p : mdet M <> 0 -> on_segment (mapply M a, mapply M b) (mapply M p) <-> on_segment (a, b) p.
Proof.
  intros Hd. split; intros [t [T0 [T1 E]]]; exists t; (split; [exact T0|split; [exact T1|]]); cbn [fst snd] in *.
  - rewrite <- (mapply_inv' M p), E by auto. transitivity (mapply (minv M) (mapply M (vadd a (vscale t (vsub b a))))); [|now apply mapply_inv'].
    f_equal. destruct a, b. apply vec_eq; cbn; ring.
  - rewrite E. destruct a, b. apply vec_eq; cbn; ring.
Qed.

Section Image.
Variables (M : mat K) (P Q : polygon K).
Hypothesis Hd : mdet M <> 0.
Hypothesis N3 : (3 <= length P)%nat.
Hypothesis HQ : poly_mul M P = Ok Q.
Notation n := (length P).
Notation r := (ridx M n).

Lemma im_ne : P <> nil. Proof. intros E. rewrite E in N3. cbn in N3. lia. Qed.
Lemma im_len : length Q = n. Proof. apply (poly_mul_length M); auto. apply im_ne. Qed.
Lemma im_side e p : (e < n)%nat -> on_segment (side Q e) (mapply M p) <-> on_segment (side P (r e)) p.
Proof.
  intros Le. pose proof (poly_mul_vertex M P Q e HQ Le) as W. cbv zeta in W. unfold side. rewrite <- (seg_im M (vertex P (r e)) (vertex P (Datatypes.S (r e))) p Hd).
  destruct (mdet M <? 0); destruct W as [-> ->]; [|reflexivity]. split; apply seg_flip.
Qed.
Lemma im_side' e p : (e < n)%nat -> on_segment (side Q (r e)) (mapply M p) <-> on_segment (side P e) p.
Proof. intros Le. rewrite im_side by now apply ridx_lt. now rewrite ridx_ridx. Qed.
Lemma im_bound p : bound Q (mapply M p) <-> bound P p.
Proof.
  split; intros [e [Le O]].
  - rewrite im_len in Le. exists (r e). split; [now apply ridx_lt|]. now apply im_side.
  - exists (r e). rewrite im_len. split; [now apply ridx_lt|]. now apply im_side'.
Qed.
Lemma im_vertex k : exists j, (j < n)%nat /\ vertex Q k = mapply M (vertex P j).
Proof.
  assert (Lk : (k mod n < n)%nat) by (apply Nat.mod_upper_bound; lia). rewrite <- (vertex_mod Q k), im_len.
  pose proof (poly_mul_vertex M P Q _ HQ Lk) as W. cbv zeta in W. destruct (mdet M <? 0); destruct W as [W _]; rewrite W.
  - exists (Datatypes.S (r (k mod n)) mod n)%nat. split; [apply Nat.mod_upper_bound; lia|]. now rewrite vertex_mod.
  - exists (r (k mod n)). split; [now apply ridx_lt|reflexivity].
Qed.
Lemma im_vertex' k : exists j, (j < n)%nat /\ mapply M (vertex P k) = vertex Q j.
Proof.
  assert (Lk : (k mod n < n)%nat) by (apply Nat.mod_upper_bound; lia). rewrite <- (vertex_mod P k).
  pose proof (poly_mul_vertex M P Q (r (k mod n)) HQ (ridx_lt M _ _ Lk)) as W. cbv zeta in W. rewrite ridx_ridx in W by auto. destruct (mdet M <? 0); destruct W as [W1 W2].
  - exists (Datatypes.S (r (k mod n)) mod n)%nat. split; [apply Nat.mod_upper_bound; lia|]. rewrite <- im_len, vertex_mod, im_len. now rewrite W2.
  - exists (r (k mod n)). split; [now apply ridx_lt|]. now rewrite W1.
Qed.
Lemma im_succ e : (e < n)%nat -> (mapply M (vertex P (r e + 1)) = if mdet M <? 0 then vertex Q e else vertex Q (e + 1)).
Proof.
  intros Le. pose proof (poly_mul_vertex M P Q e HQ Le) as W. cbv zeta in W. rewrite !Nat.add_1_r. destruct (mdet M <? 0); destruct W as [W1 W2]; congruence.
Qed.
Lemma im_next i j : (i < n)%nat -> (j < n)%nat -> r j = ((r i + 1) mod n)%nat -> if mdet M <? 0 then i = ((j + 1) mod n)%nat else j = ((i + 1) mod n)%nat.
Proof.
  intros Li Lj. unfold ridx. destruct (mdet M <? 0); auto. intros E.
  destruct (Nat.eq_dec (n - 1 - i + 1) n) as [X|X].
  - rewrite X, Nat.mod_same in E by lia. replace (j + 1)%nat with n by lia. rewrite Nat.mod_same by lia. lia.
  - rewrite Nat.mod_small in E by lia. rewrite Nat.mod_small by lia. lia.
Qed.
Lemma im_simple : simple_polygon P -> simple_polygon Q.
Proof.
  intros SP i j p Li Lj N A B. rewrite im_len in *. rewrite <- (mapply_inv M p) in A, B by auto. apply im_side in A; auto. apply im_side in B; auto.
  assert (Nr : r i <> r j) by (intros E; apply N; rewrite <- (ridx_ridx M n i), E by auto; now apply ridx_ridx).
  destruct (SP (r i) (r j) _ (ridx_lt M _ _ Li) (ridx_lt M _ _ Lj) Nr A B) as [[E F]|[E F]];
    apply (f_equal (mapply M)) in F; rewrite mapply_inv, im_succ in F by auto; apply im_next in E; auto.
  - pose proof E as E'. destruct (mdet M <? 0); [right|left]; split; auto. rewrite F. rewrite E' at 1. rewrite <- (vertex_mod Q (j + 1)). now rewrite im_len.
  - pose proof E as E'. destruct (mdet M <? 0); [left|right]; split; auto. rewrite F. rewrite E' at 1. rewrite <- (vertex_mod Q (i + 1)). now rewrite im_len.
Qed.
Lemma im_proper : proper P -> proper Q.
Proof.
  intros [_ [E [SP A]]]. split; [rewrite im_len; exact N3|]. split; [apply (poly_mul_edges_nz M P); auto; lia|]. split; [now apply im_simple|].
  apply (poly_mul_area_pos M P); auto. apply im_ne.
Qed.

(** a point far to the right that sees [q] without vertices in between *)
Lemma far_point q : ~ bound P q -> exists x, (forall i, ~ on_segment (q, x) (vertex P i)) /\ forall i, (i < n)%nat -> fst (vertex P i) < fst x.
Proof.
  intros NB. destruct (max_exists (@fst K K) (q :: P)) as [m [_ Hm]]; [discriminate|]. set (x0 := fst m + 1).
  destruct (max_exists (fun v => snd q + (snd v - snd q) * (x0 - fst q) / (fst v - fst q)) P im_ne) as [w [_ Hw]].
  set (y0 := snd q + (snd w - snd q) * (x0 - fst q) / (fst w - fst q) + 1). pose proof (@flt_0_1 K) as P1.
  assert (X0 : forall v, In v (q :: P) -> fst v < x0) by (intros v I; specialize (Hm v I); unfold x0; flra).
  assert (IV : forall i, In (vertex P i) P) by (intros i; unfold vertex; apply nth_In; apply Nat.mod_upper_bound; lia).
  exists (x0, y0). split; [|intros i _; cbn; apply X0; right; apply IV].
  intros i [t [T0 [T1 E]]]. cbn [fst snd] in E. specialize (Hw _ (IV i)). cbn beta in Hw. assert (Q0 := X0 q (or_introl eq_refl)).
  assert (T : t <> 0).
  { intros ->. apply NB. exists (i mod n)%nat. split; [apply Nat.mod_upper_bound; lia|]. exists 0. split; [flra|]. split; [flra|]. unfold side. cbn [fst snd]. rewrite vertex_mod, E.
    destruct q. apply vec_eq; cbn; ring. }
  rewrite E in Hw. cbn [fst snd vadd vscale vsub] in Hw.
  assert (Y : snd q + (snd q + t * (y0 - snd q) - snd q) * (x0 - fst q) / (fst q + t * (x0 - fst q) - fst q) = y0).
  { assert (x0 - fst q <> 0) by (intros Z; flra). field. intros Z. assert (Z' : t * (x0 - fst q) = 0) by flra. apply fmul_eq0 in Z'. tauto. }
  change (snd q + (snd q + t * (y0 - snd q) - snd q) * (x0 - fst q) / (fst q + t * (x0 - fst q) - fst q) <= snd q + (snd w - snd q) * (x0 - fst q) / (fst w - fst q)) in Hw.
  rewrite Y in Hw. unfold y0 in Hw. flra.
Qed.
Lemma off_all R p : (3 <= length R)%nat -> ~ bound R p -> forall i, ~ on_segment (side R i) p.
Proof.
  intros L NB i O. apply NB. exists (i mod length R)%nat. split; [apply Nat.mod_upper_bound; lia|]. unfold side in *. rewrite vertex_mod.
  replace (vertex R (Datatypes.S (i mod length R))) with (vertex R (Datatypes.S i)); auto.
  rewrite <- (vertex_mod R (Datatypes.S i)), <- (vertex_mod R (Datatypes.S (i mod length R))). f_equal. rewrite <- (Nat.add_1_r i), <- (Nat.add_1_r (i mod length R)). now rewrite Nat.add_mod_idemp_l by lia.
Qed.
Lemma bound_dec R p : proper R -> bound R p \/ ~ bound R p.
Proof.
  intros PR. destruct (get_point_position R p) as [| |e|k] eqn:E.
  - right. intros B. destruct (pos_bound R p PR B); contradiction.
  - right. intros B. destruct (pos_bound R p PR B); contradiction.
  - left. apply (C57_edge K R p e PR) in E as [Le [t [T0 [T1 E]]]]. exists e. split; auto. exists t. split; [flra|]. split; [flra|]. exact E.
  - left. apply (C57_vertex K R p k PR) in E as [Lk ->]. exists k. split; auto. exists 0. pose proof (@flt_0_1 K). split; [flra|]. split; [flra|]. unfold side. cbn [fst snd].
    destruct (vertex R k). apply vec_eq; cbn; ring.
Qed.
Definition met R p x : list nat := filter (fun i => meetb (p, x) (side R i)) (seq 0 (length R)).
Lemma met_spec R p x : proper R -> p <> x -> forall i, In i (met R p x) <-> (i < length R)%nat /\ exists y, on_segment (side R i) y /\ on_segment (p, x) y.
Proof.
  intros [_ [E _]] N i. unfold met. rewrite filter_In, in_seq. rewrite meetb_spec; [|intros X; apply (E i); unfold edge; unfold side in X; cbn [fst snd] in X; rewrite <- X; destruct (vertex R i); apply vec_eq; cbn; ring|exact N].
  split; intros [A B]; (split; [lia|exact B]).
Qed.
Lemma im_met p x : proper P -> p <> x -> NoDup (map r (met P p x)) /\ forall i, In i (map r (met P p x)) <-> (i < length Q)%nat /\ exists y, on_segment (side Q i) y /\ on_segment (mapply M p, mapply M x) y.
Proof.
  intros PR N. pose proof (met_spec P p x PR N) as MS. split.
  - assert (ND : NoDup (met P p x)) by (apply NoDup_filter, seq_NoDup). assert (B : forall i, In i (met P p x) -> (i < n)%nat) by (intros i I; now apply MS in I).
    revert ND B. generalize (met P p x). induction l as [|a l IH]; intros ND B; [constructor|]. inversion ND as [|? ? NI ND']; subst. cbn. constructor; [|apply IH; auto; intros; apply B; now right].
    intros I. apply in_map_iff in I as [b [Eb I]]. apply NI. rewrite <- (ridx_ridx M n a), <- Eb, ridx_ridx; auto; apply B; [now right|now left].
  - intros i. rewrite in_map_iff, im_len. split.
    + intros [j [<- I]]. apply MS in I as [Lj [y [Y1 Y2]]]. split; [now apply ridx_lt|]. exists (mapply M y). split; [now apply im_side'|now apply seg_im].
    + intros [Li [y [Y1 Y2]]]. exists (r i). split; [now apply ridx_ridx|]. apply MS. split; [now apply ridx_lt|]. exists (mapply (minv M) y). rewrite <- (mapply_inv M y) in Y1, Y2 by auto.
      split; [now apply im_side|now apply (seg_im M)].
Qed.
Lemma im_in p : proper P -> in_polygon Q (mapply M p) <-> in_polygon P p.
Proof.
  intros PR. pose proof (im_proper PR) as PRQ. unfold in_polygon. destruct (bound_dec P p PR) as [B|B].
  { pose proof (proj2 (im_bound p) B) as B'. split; intros _; [now apply pos_bound|now apply pos_bound]. }
  assert (B' : ~ bound Q (mapply M p)) by now rewrite im_bound.
  destruct (far_point p B) as [x [FV FX]]. assert (OX : get_point_position P x = Outside).
  { apply (position_separated P x (- (1), 0) PR). intros i Li. specialize (FX i Li). unfold dot. cbn. flra. }
  assert (NBx : ~ bound P x) by (intros Z; destruct (pos_bound P x PR Z); contradiction). assert (NBx' : ~ bound Q (mapply M x)) by now rewrite im_bound.
  assert (OX' : get_point_position Q (mapply M x) = Outside).
  { apply (position_separated Q _ (mapply (mtrans (minv M)) (- (1), 0)) PRQ). intros i Li. destruct (im_vertex i) as [j [Lj ->]]. specialize (FX j Lj).
    assert (DD : forall y, dot (mapply (mtrans (minv M)) (- (1), 0)) (mapply M y) = - fst y).
    { intros [a b]. unfold dot, mapply, mtrans, minv. cbn. unfold mdet in *. field. exact Hd. }
    rewrite !DD. flra. }
  assert (L3 : (3 <= length Q)%nat) by (rewrite im_len; exact N3).
  destruct (veqb p x) eqn:EV; [apply veqb_eq in EV; subst x; rewrite OX, OX'; tauto|]. assert (N : p <> x) by now apply veqb_neq.
  destruct (im_met p x PR N) as [ND ES].
  assert (A1 := C57_parity K P p x (met P p x) PR (off_all P p N3 B) (off_all P x N3 NBx) FV (NoDup_filter _ (seq_NoDup _ _)) (met_spec P p x PR N)).
  assert (FV' : forall i, ~ on_segment (mapply M p, mapply M x) (vertex Q i)).
  { intros i. destruct (im_vertex i) as [j [Lj ->]]. rewrite seg_im by auto. apply FV. }
  assert (A2 := C57_parity K Q (mapply M p) (mapply M x) _ PRQ (off_all Q _ L3 B') (off_all Q _ L3 NBx') FV' ND ES).
  rewrite map_length in A2. rewrite OX in A1. rewrite OX' in A2. rewrite A1, A2. reflexivity.
Qed.
Lemma im_moved p (t : K) v : mapply M (moved p t v) = moved (mapply M p) t (mapply M v).
Proof. unfold moved. destruct p, v. apply vec_eq; cbn; ring. Qed.
Lemma im_into p v : proper P -> points_into Q (mapply M p) (mapply M v) <-> points_into P p v.
Proof.
  intros PR. split; intros [h [H0 H]]; exists h; (split; [exact H0|]); intros t T0 T1; specialize (H t T0 T1).
  - rewrite <- im_moved in H. now apply im_in in H.
  - rewrite <- im_moved. now apply im_in.
Qed.
Lemma im_along e p v : (e < n)%nat -> along Q (r e) (mapply M p) (mapply M v) <-> along P e p v.
Proof.
  intros Le. unfold along. rewrite im_side' by auto. split; intros [A [h [H0 H]]]; (split; [exact A|]); exists h; (split; [exact H0|]).
  - rewrite <- im_moved in H. now apply im_side' in H.
  - rewrite <- im_moved. now apply im_side'.
Qed.
End Image.
End C.
