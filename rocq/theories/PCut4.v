(** Proofs about joining polygons. *)
From Coq Require Import List Bool ZArith Arith Lia Relations.
From Coq Require Import Ring Field.
From Verif Require Import OField FMicromega PField MBase MDict PDict MEuclid SEuclid PEuclid MSim SSim PSim MPoly PPoly MMut SMut PMut PMut2 PMut3 PBuild TMut
  MSurf SSurf PSurf PSurf3 SPoint MPoint PPoint PSimple TPoly2 PSubdiv PSubdiv2 PSubdiv3 MCut SCut PCut PCut2 PCut3.
Import ListNotations.

Lemma map_seq_shift {A} (f g : nat -> A) n : forall a b, (forall j, (j < n)%nat -> f (a + j)%nat = g (b + j)%nat) -> map f (seq a n) = map g (seq b n).
Proof.
  induction n as [|n IH]; intros a b H; cbn [seq map]; auto. f_equal.
  - specialize (H 0%nat ltac:(lia)). now rewrite !Nat.add_0_r in H.
  - apply IH. intros j Hj. specialize (H (S j) ltac:(lia)). now rewrite <- !plus_n_Sm in H.
Qed.

Section K.
Context {K : OField}.
Add Field KF : (of_ft K).
Local Open Scope F_scope.
Notation nv := (@length (vec K) : polygon K -> nat).
Notation surf := (@surf (polygon K)).

Section Pieces.
Variables (P1 P2 : polygon K) (e1 e2 : nat) (t : sim K) (T : vec K -> vec K).
Notation n1 := (length P1).
Notation n2 := (length P2).
Hypotheses (H1 : (e1 < n1)%nat) (H2 : (e2 < n2)%nat) (L1 : (3 <= n1)%nat) (L2 : (3 <= n2)%nat).
Hypotheses (Kt : sim_ok t) (St : sg_sign t = true) (Tt : forall p, T p = sim_apply t p).
Hypotheses (T1 : T (vertex P2 e2) = vertex P1 (S e1)) (T2 : T (vertex P2 (S e2)) = vertex P1 e1).
Definition total_edges : nat := (n1 + n2 - 2)%nat.
Definition joined_edge (i : nat) : vec K :=
  if (i <? e1)%nat then edge P1 i else if (i <? e1 + n2 - 1)%nat then mapply (sim_derivative t) (edge P2 ((e2 + (i - e1 + 1)) mod n2)) else edge P1 (i - (n2 - 2)).
Lemma joined_split {A} (f : nat -> A) : map f (seq 0 total_edges) = map f (seq 0 e1) ++ map f (seq e1 (n2 - 1)) ++ map f (seq (e1 + n2 - 1) (n1 - (e1 + 1))).
Proof.
  unfold total_edges. replace (n1 + n2 - 2)%nat with (e1 + (n2 - 1 + (n1 - (e1 + 1))))%nat by lia. rewrite !seq_app, !map_app. do 4 f_equal. cbn. lia.
Qed.
Lemma join_edges_eq : join_edges P1 P2 e1 e2 (sim_derivative t) = map joined_edge (seq 0 total_edges).
Proof.
  rewrite joined_split. unfold join_edges. f_equal; [|f_equal]; apply map_seq_shift; intros j Hj; unfold joined_edge.
  - destruct (Nat.ltb_spec (0 + j) e1); [reflexivity|lia].
  - destruct (Nat.ltb_spec (e1 + j) e1); [lia|]. destruct (Nat.ltb_spec (e1 + j) (e1 + n2 - 1)); [|lia]. do 3 f_equal. lia.
  - destruct (Nat.ltb_spec (e1 + n2 - 1 + j) e1); [lia|]. destruct (Nat.ltb_spec (e1 + n2 - 1 + j) (e1 + n2 - 1)); [lia|]. f_equal. lia.
Qed.
Definition joined_vertex (j : nat) : vec K :=
  vsub (if (j <=? e1)%nat then vertex P1 j else if (j <=? e1 + n2 - 1)%nat then T (vertex P2 (e2 + 1 + (j - e1))) else vertex P1 (j - (n2 - 2))) (vertex P1 0).
Lemma joined_vertex_1 j : (j <= e1)%nat -> joined_vertex j = vsub (vertex P1 j) (vertex P1 0).
Proof. intros H. unfold joined_vertex. destruct (Nat.leb_spec j e1); [reflexivity|lia]. Qed.
Lemma joined_vertex_2 j : (e1 <= j <= e1 + n2 - 1)%nat -> joined_vertex j = vsub (T (vertex P2 (e2 + 1 + (j - e1)))) (vertex P1 0).
Proof.
  intros H. unfold joined_vertex. destruct (Nat.leb_spec j e1).
  - assert (j = e1) by lia. subst j. rewrite Nat.sub_diag, Nat.add_0_r, Nat.add_1_r, T2. reflexivity.
  - destruct (Nat.leb_spec j (e1 + n2 - 1)); [reflexivity|lia].
Qed.
Lemma joined_vertex_3 j : (e1 + n2 - 1 <= j)%nat -> joined_vertex j = vsub (vertex P1 (j - (n2 - 2))) (vertex P1 0).
Proof.
  intros H. unfold joined_vertex. destruct (Nat.leb_spec j e1); [lia|]. destruct (Nat.leb_spec j (e1 + n2 - 1)); [|reflexivity].
  assert (j = (e1 + n2 - 1)%nat) by lia. subst j. replace (e2 + 1 + (e1 + n2 - 1 - e1))%nat with (e2 + n2)%nat by lia. rewrite vertex_plus, T1. do 2 f_equal. lia.
Qed.
Lemma joined_steps i : (i < total_edges)%nat -> joined_edge i = vsub (joined_vertex (S i)) (joined_vertex i).
Proof.
  intros H. unfold total_edges in H. unfold joined_edge. destruct (Nat.ltb_spec i e1); [|destruct (Nat.ltb_spec i (e1 + n2 - 1))].
  - rewrite !joined_vertex_1 by lia. unfold edge. destruct (vertex P1 (S i)), (vertex P1 i), (vertex P1 0). apply vec_eq; cbn; ring.
  - rewrite !joined_vertex_2 by lia. rewrite edge_mod. unfold edge. rewrite <- sim_derivative_spec, <- !Tt.
    replace (e2 + 1 + (S i - e1))%nat with (S (e2 + (i - e1 + 1)))%nat by lia. replace (e2 + 1 + (i - e1))%nat with (e2 + (i - e1 + 1))%nat by lia.
    destruct (T (vertex P2 (S (e2 + (i - e1 + 1))))), (T (vertex P2 (e2 + (i - e1 + 1)))), (vertex P1 0). apply vec_eq; cbn; ring.
  - rewrite !joined_vertex_3 by lia. unfold edge. replace (S i - (n2 - 2))%nat with (S (i - (n2 - 2))) by lia.
    destruct (vertex P1 (S (i - (n2 - 2)))), (vertex P1 (i - (n2 - 2))), (vertex P1 0). apply vec_eq; cbn; ring.
Qed.
Variable Q : polygon K.
Hypothesis EQ : Polygon_edges (join_edges P1 P2 e1 e2 (sim_derivative t)) = Ok Q.
Lemma joined_length : length Q = total_edges.
Proof. apply C51_edges in EQ. destruct EQ as (E & _). rewrite <- length_edges, E, join_edges_eq. now rewrite map_length, seq_length. Qed.
Lemma joined_vertices j : (j <= total_edges)%nat -> vertex Q j = joined_vertex j.
Proof.
  intros Hj. apply (vertex_steps Q joined_vertex total_edges); auto.
  - apply C51_edges in EQ. destruct EQ as (_ & E & _). rewrite E, joined_vertex_1 by lia. destruct (vertex P1 0); apply vec_eq; cbn; ring.
  - intros i Hi. rewrite <- joined_steps by auto. apply C51_edges in EQ. destruct EQ as (E & _).
    rewrite (edge_of_edges Q _ i (joined_edge 0) E); rewrite join_edges_eq; [|now rewrite map_length, seq_length].
    rewrite (map_nth joined_edge). now rewrite seq_nth by auto.
Qed.
Lemma joined_area : area Q = area P1 + sim_det t * area P2.
Proof.
  rewrite <- (window_any Q (e1 + n2 - 1)). rewrite joined_length. unfold total_edges. replace (n1 + n2 - 2)%nat with ((n1 - 1) + (n2 - 1))%nat by lia.
  rewrite seq_app, map_app, area_rot.
  set (u := vertex P1 0).
  assert (A1 : map (vertex Q) (seq (e1 + n2 - 1) (n1 - 1)) = map (fun i => vsub (vertex P1 i) u) (seq (e1 + 1) (n1 - 1))).
  { apply map_seq_shift. intros j Hj. destruct (Nat.le_gt_cases (e1 + n2 - 1 + j) total_edges) as [L|L].
    - rewrite joined_vertices, joined_vertex_3 by lia. unfold u. do 2 f_equal. lia.
    - unfold total_edges in L. replace (e1 + n2 - 1 + j)%nat with ((e1 + 1 + j - n1) + length Q)%nat by (rewrite joined_length; unfold total_edges; lia).
      rewrite vertex_plus, joined_vertices, joined_vertex_1 by (unfold total_edges; lia). unfold u. f_equal.
      rewrite <- (vertex_plus P1 (e1 + 1 + j - n1)). f_equal. lia. }
  assert (A2 : map (vertex Q) (seq (e1 + n2 - 1 + (n1 - 1)) (n2 - 1)) = map (fun i => vsub (T (vertex P2 i)) u) (seq (e2 + 1) (n2 - 1))).
  { apply map_seq_shift. intros j Hj. replace (e1 + n2 - 1 + (n1 - 1) + j)%nat with ((e1 + j) + length Q)%nat by (rewrite joined_length; unfold total_edges; lia).
    rewrite vertex_plus, joined_vertices, joined_vertex_2 by (unfold total_edges; lia). unfold u. do 3 f_equal. lia. }
  rewrite A1, A2. clear A1 A2.
  transitivity (area (map (fun i => T (vertex P2 i)) (seq (e2 + 1) (n2 - 1)) ++ map (vertex P1) (seq (e1 + 1) (n1 - 1)))).
  { symmetry. etransitivity; [symmetry; apply (area_translate _ (vopp u))|]. unfold translate. rewrite map_app, !map_map. f_equal. f_equal; apply map_ext; intros i.
    - destruct (T (vertex P2 i)), u. apply vec_eq; cbn; ring.
    - destruct (vertex P1 i), u. apply vec_eq; cbn; ring. }
  replace (n2 - 1)%nat with (S (n2 - 2)) by lia. replace (n1 - 1)%nat with (S (n1 - 2)) by lia. cbn [seq map].
  etransitivity; [apply (area_cut nil)|]. cbn [app].
  transitivity (area (map (fun i => T (vertex P2 i)) (seq (e2 + 1) n2)) + area (map (vertex P1) (seq (e1 + 1) n1))).
  - f_equal.
    + f_equal. replace n2 with (1 + (n2 - 2 + 1))%nat at 2 by lia. rewrite !seq_app, !map_app. cbn [seq map app]. do 2 f_equal; [do 2 f_equal; lia|]. f_equal.
      replace (e2 + 1 + 1 + (n2 - 2))%nat with (e2 + n2)%nat by lia. rewrite vertex_plus, T1. f_equal. lia.
    + f_equal. replace n1 with (1 + (n1 - 2 + 1))%nat at 2 by lia. rewrite !seq_app, !map_app. cbn [seq map app]. do 2 f_equal; [do 2 f_equal; lia|]. f_equal.
      replace (e1 + 1 + 1 + (n1 - 2))%nat with (e1 + n1)%nat by lia. rewrite vertex_plus. rewrite Nat.add_1_r, T2. reflexivity.
  - rewrite window_any. rewrite <- (window_any P2 (e2 + 1)).
    rewrite <- area_sim. unfold sim_polygon. rewrite map_map. rewrite (map_ext (fun i => T (vertex P2 i)) (fun i => sim_apply t (vertex P2 i))) by (intros; apply Tt). ring.
Qed.
End Pieces.
End K.
