(** Proofs about the subdivision of the edges of a polygon. *)
From Coq Require Import List Bool ZArith Arith Lia Ring Field.
From Verif Require Import OField FMicromega PField MBase MDict PDict MEuclid SEuclid PEuclid MSim SSim PSim MPoly PPoly SSurf PSurf3 SPoint PPoint
  PSimple TPoly2 MMut PFam3 MSubdiv SJinv PJinv.
Import ListNotations.

Section P.
Context {K : OField}.
Add Field KF : (of_ft K).
Local Open Scope F_scope.
Implicit Types P Q : polygon K.

Lemma fnat_S n : fnat (S n) = 1 + fnat n :> K.
Proof. reflexivity. Qed.
Lemma fnat_add m n : fnat (m + n) = fnat m + fnat n :> K.
Proof. induction m as [|m IH]; cbn [Nat.add fnat]; [ring|]. rewrite IH. ring. Qed.
Lemma fnat_nonneg n : (0 : K) <= fnat n.
Proof. induction n as [|n IH]; cbn [fnat]; [apply fle_refl|]. pose proof (@flt_0_1 K). flra. Qed.
Lemma fnat_pos n : (1 <= n)%nat -> (0 : K) < fnat n.
Proof. intros H. destruct n as [|n]; [lia|]. rewrite fnat_S. pose proof (@flt_0_1 K). pose proof (fnat_nonneg n). flra. Qed.
Lemma fnat_neq0 n : (1 <= n)%nat -> fnat n <> 0 :> K.
Proof. intros H. apply fpos_neq0. now apply fnat_pos. Qed.
Lemma fnat_le m n : (m <= n)%nat -> (fnat m : K) <= fnat n.
Proof. intros H. replace n with (m + (n - m))%nat by lia. rewrite fnat_add. pose proof (fnat_nonneg (n - m)). flra. Qed.
Lemma fnat_lt m n : (m < n)%nat -> (fnat m : K) + 1 <= fnat n.
Proof. intros H. pose proof (fnat_le (S m) n H) as X. rewrite fnat_S in X. flra. Qed.

(** ** translations *)
Lemma on_segment_translate (u p : vec K) (a b : vec K) : on_segment (vadd u a, vadd u b) (vadd u p) <-> on_segment (a, b) p.
Proof.
  unfold on_segment. split; intros (t & T0 & T1 & E); exists t; (split; [exact T0|split; [exact T1|]]).
  - pose proof (f_equal fst E) as E1. pose proof (f_equal snd E) as E2. destruct u, a, b, p. cbn in *. apply vec_eq; cbn; flra.
  - rewrite E. destruct u, a, b. apply vec_eq; cbn; ring.
Qed.
Lemma vertex_translate P u i : P <> nil -> vertex (translate P u) i = vadd u (vertex P i).
Proof. intros H. unfold translate. now rewrite vertex_map. Qed.
Lemma edge_translate P u i : P <> nil -> edge (translate P u) i = edge P i.
Proof. intros H. unfold edge. rewrite !vertex_translate by auto. destruct u, (vertex P i), (vertex P (S i)). apply vec_eq; cbn; ring. Qed.
Lemma translate_length P u : length (translate P u) = length P.
Proof. apply map_length. Qed.
Lemma simple_translate P u : P <> nil -> simple_polygon P -> simple_polygon (translate P u).
Proof.
  intros N SP i j p Hi Hj D A B. rewrite translate_length in *.
  assert (Ep : p = vadd u (vsub p u)) by (destruct p, u; apply vec_eq; cbn; ring). rewrite Ep in A, B.
  unfold side in A, B. rewrite !vertex_translate in A, B by auto. apply (proj1 (on_segment_translate u _ _ _)) in A. apply (proj1 (on_segment_translate u _ _ _)) in B.
  destruct (SP i j (vsub p u) Hi Hj D A B) as [[X Y]|[X Y]]; [left|right]; (split; [exact X|]); rewrite vertex_translate by auto; rewrite <- Y; exact Ep.
Qed.

(** ** the subdivided polygon *)
Section S.
Variables (P : polygon K) (k : nat).
Hypothesis ND : nondeg P.
Hypothesis Hk : (1 <= k)%nat.
Notation n := (length P).
Let c : K := finv (fnat k).
Lemma ck : c * fnat k = 1.
Proof. unfold c. apply (finv_l K). now apply fnat_neq0. Qed.
Lemma c_pos : 0 < c.
Proof. unfold c. apply finv_pos. now apply fnat_pos. Qed.

(** the point number [p] on the edge [e] *)
Definition sub_pt (e p : nat) : vec K := vadd (vertex P e) (vscale (c * fnat p) (edge P e)).
Definition sub_poly : polygon K := map (fun i => sub_pt (i / k) (i mod k)) (seq 0 (n * k)).

Lemma sub_length : length sub_poly = (n * k)%nat.
Proof. unfold sub_poly. now rewrite map_length, seq_length. Qed.
Lemma sub_pt_end e : sub_pt e k = vertex P (S e).
Proof.
  unfold sub_pt. rewrite ck. unfold edge. destruct (vertex P e), (vertex P (S e)). apply vec_eq; cbn; ring.
Qed.
Lemma sub_pt_start e : sub_pt e 0 = vertex P e.
Proof. unfold sub_pt. destruct (vertex P e), (edge P e). apply vec_eq; cbn; ring. Qed.
Lemma n_pos : (3 <= n)%nat.
Proof. apply ND. Qed.
Lemma vertex_mod_n e : vertex P (e mod n) = vertex P e.
Proof. apply vertex_mod. Qed.
Lemma sub_vertex e p : (e < n)%nat -> (p <= k)%nat -> vertex sub_poly (e * k + p) = sub_pt e p.
Proof.
  intros He Hp. assert (B : forall e p, (e < n)%nat -> (p < k)%nat -> vertex sub_poly (e * k + p) = sub_pt e p).
  { clear e p He Hp. intros e p He Hp. assert (e * k + p < n * k)%nat by nia.
    rewrite vertex_lt by (rewrite sub_length; auto). unfold sub_poly.
    rewrite (nth_indep _ vzero (sub_pt (0 / k) (0 mod k))) by (rewrite map_length, seq_length; auto).
    rewrite (map_nth (fun i => sub_pt (i / k) (i mod k))), seq_nth by auto. cbn [Nat.add].
    f_equal.
    - symmetry. apply (Nat.div_unique _ _ _ p); lia.
    - symmetry. apply (Nat.mod_unique _ _ e); lia. }
  destruct (Nat.eq_dec p k) as [->|D]; [|apply B; auto; lia].
  rewrite sub_pt_end. replace (e * k + k)%nat with (S e * k)%nat by lia. destruct (Nat.eq_dec (S e) n) as [E|D].
  - rewrite E. rewrite <- sub_length at 1. rewrite <- (vertex_mod sub_poly), Nat.mod_same by (rewrite sub_length; nia).
    rewrite <- (vertex_mod P n), Nat.mod_same by lia. rewrite <- (sub_pt_start 0). apply (B 0%nat 0%nat); lia.
  - rewrite <- sub_pt_start. rewrite <- (Nat.add_0_r (S e * k)). apply B; lia.
Qed.
Lemma sub_edge e p : (e < n)%nat -> (p < k)%nat -> edge sub_poly (e * k + p) = vscale c (edge P e).
Proof.
  intros He Hp. unfold edge at 1. replace (S (e * k + p)) with (e * k + S p)%nat by lia. rewrite !sub_vertex by lia.
  unfold sub_pt. rewrite fnat_S. destruct (vertex P e), (edge P e). apply vec_eq; cbn; ring.
Qed.
Lemma sub_split i : (i < n * k)%nat -> exists e p, i = (e * k + p)%nat /\ (e < n)%nat /\ (p < k)%nat.
Proof.
  intros H. exists (i / k)%nat, (i mod k)%nat. rewrite (Nat.mul_comm (i / k)), <- Nat.div_mod by lia. split; [reflexivity|].
  split; [apply Nat.div_lt_upper_bound; lia|apply Nat.mod_upper_bound; lia].
Qed.
Lemma sub_nondeg : nondeg sub_poly.
Proof.
  destruct ND as [L N]. split; [rewrite sub_length; nia|]. intros i. rewrite <- edge_mod.
  assert (B : (i mod length sub_poly < n * k)%nat) by (rewrite sub_length; apply Nat.mod_upper_bound; nia).
  destruct (sub_split _ B) as (e & p & -> & He & Hp). rewrite sub_edge by auto.
  intros E. apply (N e). pose proof (f_equal fst E) as E1. pose proof (f_equal snd E) as E2. cbn in E1, E2.
  pose proof (fpos_neq0 _ c_pos) as C. apply fmul_eq0 in E1. apply fmul_eq0 in E2. apply vec_eq; cbn; tauto.
Qed.
(** a point on a part is a point on the edge *)
Lemma sub_side e p q : (e < n)%nat -> (p < k)%nat -> on_segment (side sub_poly (e * k + p)) q ->
  exists t, 0 <= t /\ t <= 1 /\ q = vadd (vertex P e) (vscale (c * (fnat p + t)) (edge P e)).
Proof.
  intros He Hp H. apply side_segment in H. destruct H as (t & T0 & T1 & ->). exists t. split; auto. split; auto.
  change (vadd (vertex sub_poly (e * k + p)) (vscale t (edge sub_poly (e * k + p))) = vadd (vertex P e) (vscale (c * (fnat p + t)) (edge P e))).
  rewrite sub_edge, sub_vertex by (auto; lia). unfold sub_pt. destruct (vertex P e), (edge P e). apply vec_eq; cbn; ring.
Qed.
Lemma sub_param p t : (p < k)%nat -> 0 <= t -> t <= 1 -> 0 <= c * (fnat p + t) /\ c * (fnat p + t) <= 1.
Proof.
  intros Hp T0 T1. pose proof c_pos as C. pose proof (fnat_nonneg p) as F. pose proof (fnat_lt p k Hp) as L. pose proof ck as CK. split.
  - assert (0 <= c * (fnat p + t)) by (apply (fmul_nonneg c); flra). auto.
  - rewrite <- CK. assert (0 <= c * (fnat k - (fnat p + t))) by (apply (fmul_nonneg c); flra). flra.
Qed.
Lemma param_unique e a b : vadd (vertex P e) (vscale a (edge P e)) = vadd (vertex P e) (vscale b (edge P e)) -> a = b.
Proof.
  intros E. destruct (feq_dec a b) as [X|X]; auto. exfalso. destruct ND as [_ N]. apply (N e).
  pose proof (f_equal fst E) as E1. pose proof (f_equal snd E) as E2. destruct (vertex P e) as [x y], (edge P e) as [u v]. cbn in E1, E2.
  assert (D : a - b <> 0) by (intros Z; apply X; flra).
  assert (F1 : (a - b) * u = 0) by flra. assert (F2 : (a - b) * v = 0) by flra. apply fmul_eq0 in F1. apply fmul_eq0 in F2.
  apply vec_eq; cbn; tauto.
Qed.
Lemma c_cancel a b : c * a = c * b -> a = b.
Proof. intros E. apply (fcancel a b c); [apply fpos_neq0, c_pos|]. transitivity (c * a); [ring|]. rewrite E. ring. Qed.
Lemma param_end p t : (p < k)%nat -> 0 <= t -> t <= 1 -> c * (fnat p + t) = 1 -> p = (k - 1)%nat /\ t = 1.
Proof.
  intros Hp T0 T1 E. rewrite <- ck in E. apply c_cancel in E. destruct (Nat.eq_dec p (k - 1)) as [->|D].
  - split; auto. replace k with (S (k - 1)) in E at 2 by lia. rewrite fnat_S in E. flra.
  - exfalso. pose proof (fnat_lt (S p) k ltac:(lia)) as L. rewrite fnat_S in L. pose proof (@flt_0_1 K). flra.
Qed.
Lemma param_start p t : 0 <= t -> c * (fnat p + t) = 0 -> p = 0%nat /\ t = 0.
Proof.
  intros T0 E. assert (E' : c * (fnat p + t) = c * 0) by (rewrite E; ring). apply c_cancel in E'. destruct p as [|p].
  - split; auto. cbn [fnat] in E'. flra.
  - exfalso. rewrite fnat_S in E'. pose proof (fnat_nonneg p). pose proof (@flt_0_1 K). flra.
Qed.
Lemma sub_next e p : (e < n)%nat -> (p < k)%nat -> ((e * k + p + 1) mod (n * k) = if (p =? k - 1)%nat then ((e + 1) mod n) * k else e * k + p + 1)%nat.
Proof.
  intros He Hp. destruct (Nat.eqb_spec p (k - 1)) as [->|D].
  - replace (e * k + (k - 1) + 1)%nat with ((e + 1) * k)%nat by lia. apply Nat.mul_mod_distr_r; lia.
  - apply Nat.mod_small. nia.
Qed.
Lemma sub_simple : simple_polygon P -> simple_polygon sub_poly.
Proof.
  intros SP i j q Hi Hj D A B. rewrite sub_length in *.
  destruct (sub_split i Hi) as (e & p & -> & He & Hp). destruct (sub_split j Hj) as (e' & p' & -> & He' & Hp').
  destruct (sub_side e p q He Hp A) as (t & T0 & T1 & E). destruct (sub_side e' p' q He' Hp' B) as (t' & T0' & T1' & E').
  destruct (sub_param p t Hp T0 T1) as [Q0 Q1]. destruct (sub_param p' t' Hp' T0' T1') as [Q0' Q1'].
  assert (OnA : on_segment (side P e) q) by (apply side_segment; eauto).
  assert (OnB : on_segment (side P e') q) by (apply side_segment; eauto).
  assert (Ends : forall e p t e' p' t', (e < n)%nat -> (p < k)%nat -> (e' < n)%nat -> (p' < k)%nat -> 0 <= t -> t <= 1 -> 0 <= t' ->
    q = vadd (vertex P e) (vscale (c * (fnat p + t)) (edge P e)) -> q = vadd (vertex P e') (vscale (c * (fnat p' + t')) (edge P e')) ->
    e' = (e + 1) mod n -> q = vertex P (e + 1) ->
    (e' * k + p' = (e * k + p + 1) mod (n * k) /\ q = vertex sub_poly (e * k + p + 1))%nat).
  { clear - ND Hk. intros e p t e' p' t' He Hp He' Hp' T0 T1 T0' E E' Ee Ev.
    assert (X : c * (fnat p + t) = 1).
    { apply (param_unique e). rewrite <- E, Ev. rewrite Nat.add_1_r. unfold edge. destruct (vertex P e), (vertex P (S e)). apply vec_eq; cbn; ring. }
    assert (Y : c * (fnat p' + t') = 0).
    { apply (param_unique e'). rewrite <- E', Ev. rewrite Ee at 1. rewrite vertex_mod_n. rewrite Ee, <- vertex_mod_n.
      destruct (vertex P ((e + 1) mod n)), (edge P ((e + 1) mod n)). apply vec_eq; cbn; ring. }
    destruct (param_end p t Hp T0 T1 X) as [-> _]. destruct (param_start p' t' T0' Y) as [-> _].
    rewrite sub_next by (auto; lia). rewrite Nat.eqb_refl, Ee. split; [lia|].
    rewrite Ev. replace (e * k + (k - 1) + 1)%nat with (e * k + k)%nat by lia. rewrite sub_vertex by lia. rewrite sub_pt_end. f_equal; lia. }
  destruct (Nat.eq_dec e e') as [<-|N].
  - rewrite E in E'. apply param_unique in E'. apply c_cancel in E'.
    assert (Adj : forall p t p' t', (p < p')%nat -> (p' < k)%nat -> 0 <= t -> t <= 1 -> 0 <= t' ->
      fnat p + t = fnat p' + t' :> K -> p' = S p /\ t = 1).
    { clear. intros p t p' t' L _ T0 T1 T0' E. destruct (Nat.eq_dec p' (S p)) as [->|D].
      - split; auto. rewrite fnat_S in E. flra.
      - exfalso. pose proof (fnat_lt (S p) p' ltac:(lia)) as X. rewrite fnat_S in X. pose proof (@flt_0_1 K). flra. }
    assert (Pt : forall p t, (p < k)%nat -> t = 1 -> vadd (vertex P e) (vscale (c * (fnat p + t)) (edge P e)) = vertex sub_poly (e * k + p + 1)).
    { intros a t0 Ha ->. replace (e * k + a + 1)%nat with (e * k + S a)%nat by lia. rewrite sub_vertex by lia. unfold sub_pt.
      rewrite fnat_S. f_equal. f_equal. ring. }
    destruct (Nat.lt_trichotomy p p') as [L|[->|L]]; [| congruence |].
    + destruct (Adj p t p' t' L Hp' T0 T1 T0' E') as [-> Et]. left. rewrite sub_next by auto.
      destruct (Nat.eqb_spec p (k - 1)); [lia|]. split; [lia|]. rewrite E. now apply Pt.
    + symmetry in E'. destruct (Adj p' t' p t L Hp T0' T1' T0 E') as [-> Et]. right. rewrite sub_next by auto.
      destruct (Nat.eqb_spec p' (k - 1)); [lia|]. split; [lia|]. rewrite E. rewrite <- (Pt p' t') by auto. f_equal. f_equal. f_equal. now symmetry.
  - destruct (SP e e' q He He' N OnA OnB) as [[X Y]|[X Y]]; [left; exact (Ends e p t e' p' t' He Hp He' Hp' T0 T1 T0' E E' X Y)|right; exact (Ends e' p' t' e p t He' Hp' He Hp T0' T1' T0 E' E X Y)].
Qed.
Lemma sum_to_add (f : nat -> K) a b : sum_to (a + b) f = sum_to a f + sum_to b (fun i => f (a + i)%nat).
Proof.
  induction b as [|b IH]; [rewrite Nat.add_0_r; unfold sum_to at 3; cbn; ring|].
  rewrite Nat.add_succ_r, !sum_to_S, IH. ring.
Qed.
Lemma sum_to_blocks (f : nat -> K) m : sum_to (m * k) f = sum_to m (fun e => sum_to k (fun p => f (e * k + p)%nat)).
Proof.
  induction m as [|m IH]; [reflexivity|]. rewrite sum_to_S, <- IH. replace (S m * k)%nat with (m * k + k)%nat by lia. apply sum_to_add.
Qed.
Lemma sum_to_const m (x : K) : sum_to m (fun _ => x) = fnat m * x.
Proof. induction m as [|m IH]; [unfold sum_to; cbn; ring|]. rewrite sum_to_S, IH, fnat_S. ring. Qed.
Lemma sub_area : area sub_poly = area P.
Proof.
  rewrite !area_csum. f_equal. rewrite <- !fold_csum, sub_length.
  change (sum_to (n * k) (fun i => ccw (vertex sub_poly i) (vertex sub_poly (S i))) = sum_to n (fun i => ccw (vertex P i) (vertex P (S i)))).
  rewrite sum_to_blocks. apply sum_to_ext. intros e He.
  rewrite (sum_to_ext k _ (fun _ => c * ccw (vertex P e) (vertex P (S e)))).
  - rewrite sum_to_const. pose proof ck as CK. transitivity (c * fnat k * ccw (vertex P e) (vertex P (S e))); [ring|]. rewrite CK. ring.
  - intros p Hp. replace (S (e * k + p)) with (e * k + S p)%nat by lia. rewrite !sub_vertex by lia. unfold sub_pt. rewrite fnat_S.
    unfold edge, ccw, vadd, vscale, vsub. cbn [fst snd]. ring.
Qed.
Lemma flat_map_edges : flat_map (fun e => repeat (vscale c e) k) (edges P) = edges sub_poly.
Proof.
  unfold edges at 2. rewrite sub_length. unfold edges.
  assert (X : forall m, (m <= n)%nat -> flat_map (fun e => repeat (vscale c e) k) (map (edge P) (seq 0 m)) = map (edge sub_poly) (seq 0 (m * k))).
  { induction m as [|m IH]; intros Hm; [reflexivity|]. rewrite seq_S, map_app, flat_map_app, IH by lia. cbn [map flat_map Nat.add].
    rewrite app_nil_r. replace (S m * k)%nat with (m * k + k)%nat by lia. rewrite seq_app, map_app. f_equal. cbn [Nat.add].
    rewrite <- (seq_length k (m * k)) at 1. rewrite (repeat_map (vscale c (edge P m)) (seq (m * k) k)). apply map_ext_in. intros i Hi. apply in_seq in Hi.
    replace i with (m * k + (i - m * k))%nat by lia. rewrite sub_edge; auto; lia. }
  apply X. lia.
Qed.
Definition sub_result : polygon K := translate sub_poly (vopp (vertex P 0)).
Lemma sub_nonnil : sub_poly <> nil.
Proof. intros E. pose proof sub_length as L. rewrite E in L. cbn in L. pose proof n_pos. nia. Qed.
Lemma subdivide_edges_ok : simple_polygon P -> 0 < area P -> poly_subdivide_edges k P = Ok sub_result.
Proof.
  intros SP AP. unfold poly_subdivide_edges. destruct (Nat.ltb_spec k 1) as [X|_]; [lia|]. fold c. rewrite flat_map_edges.
  pose proof sub_nonnil as NN. pose proof sub_nondeg as [L N]. apply C51_edges. unfold sub_result. split; [|split; [|split; [|split; [|split]]]].
  - unfold edges. rewrite translate_length. apply map_ext. intros i. now apply edge_translate.
  - rewrite vertex_translate by auto. pose proof (sub_vertex 0 0 ltac:(pose proof n_pos; lia) ltac:(lia)) as V0. cbn [Nat.mul Nat.add] in V0. rewrite V0, sub_pt_start.
    destruct (vertex P 0). apply vec_eq; cbn; ring.
  - unfold edges. now rewrite map_length, seq_length.
  - intros e. rewrite edge_translate by auto. apply N.
  - apply simple_translate; auto. now apply sub_simple.
  - rewrite area_translate, sub_area. exact AP.
Qed.
End S.
End P.
