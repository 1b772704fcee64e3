(** Proofs about cutting and joining polygons: the pieces that are accepted, and joining after cutting. *)
From Coq Require Import List Bool ZArith Arith Lia Relations.
From Coq Require Import Ring Field.
From Verif Require Import OField FMicromega PField MBase MDict PDict MEuclid SEuclid PEuclid MSim SSim PSim MPoly PPoly MMut SMut PMut PMut2 PMut3 PBuild TMut
  MSurf SSurf PSurf PSurf3 SPoint MPoint PPoint PSimple TPoly2 PSubdiv PSubdiv2 PSubdiv3 MCut SCut PCut PCut2 PCut3 PCut4 PCut5.
Import ListNotations.

Section K.
Context {K : OField}.
Add Field KF : (of_ft K).
Local Open Scope F_scope.
Notation nv := (@length (vec K) : polygon K -> nat).
Notation surf := (@surf (polygon K)).

(** ** polygons up to translations and renumbering *)
Lemma proper_nondeg (P : polygon K) : proper P -> nondeg P.
Proof. intros (A & B & _). now split. Qed.
Lemma proper_nil (P : polygon K) : proper P -> P <> nil.
Proof. intros (A & _). destruct P; [cbn in A; lia|discriminate]. Qed.
Lemma proper_translate (P : polygon K) u : proper P -> proper (translate P u).
Proof.
  intros H. pose proof (proper_nil _ H) as N. destruct H as (A & B & C & D). split; [now rewrite translate_length|]. split; [intros e; rewrite edge_translate; auto|].
  split; [now apply simple_translate|]. now rewrite area_translate.
Qed.
Lemma same_edges_translate (P Q : polygon K) : edges P = edges Q -> P <> nil -> Q = translate P (vsub (vertex Q 0) (vertex P 0)).
Proof.
  intros E N. assert (L : length P = length Q) by (rewrite <- (length_edges P), <- (length_edges Q), E; reflexivity).
  assert (V : forall j, (j <= length Q)%nat -> vertex Q j = vadd (vsub (vertex Q 0) (vertex P 0)) (vertex P j)).
  { apply (vertex_steps Q (fun j => vadd (vsub (vertex Q 0) (vertex P 0)) (vertex P j)) (length Q)).
    - destruct (vertex Q 0), (vertex P 0); apply vec_eq; cbn; ring.
    - intros j Hj. rewrite (edge_of_edges Q (edges P) j vzero) by (auto; rewrite length_edges; lia).
      rewrite <- (edge_of_edges P (edges P) j vzero) by (auto; rewrite length_edges; lia). unfold edge. destruct (vertex P (S j)), (vertex P j), (vsub (vertex Q 0) (vertex P 0)). apply vec_eq; cbn; ring. }
  rewrite (list_vertices Q) at 1. unfold translate. transitivity (map (fun v => vadd (vsub (vertex Q 0) (vertex P 0)) v) (map (vertex P) (seq 0 (length P)))); [|f_equal; symmetry; apply list_vertices].
  rewrite map_map, L. apply map_ext_in. intros j Hj. apply in_seq in Hj. apply V. lia.
Qed.
(** the edges of [W] are accepted exactly if [W] is proper *)
Lemma accepted (W : polygon K) : W <> nil -> proper W <-> exists Q, Polygon_edges (edges W) = Ok Q.
Proof.
  intros N. split.
  - intros H. exists (translate W (vopp (vertex W 0))). apply C51_edges. pose proof (proper_translate W (vopp (vertex W 0)) H) as (A & B & C & D).
    split. { unfold edges. rewrite translate_length. apply map_ext. intros i. now apply edge_translate. }
    split. { rewrite vertex_translate by auto. destruct (vertex W 0); apply vec_eq; cbn; ring. }
    split; [rewrite length_edges; rewrite translate_length in A; auto|]. auto.
  - intros [Q E]. apply C51_edges in E. destruct E as (E & _ & L & B & C & D).
    assert (L' : length Q = length W) by (rewrite <- (length_edges Q), E, length_edges; reflexivity). rewrite length_edges in L.
    rewrite (same_edges_translate Q W E) by (destruct Q; [cbn in L'; lia|discriminate]). apply proper_translate. split; [rewrite L'; auto|auto].
Qed.
(** a polygon given by a periodic function *)
Lemma vertex_periodic (f : nat -> vec K) n j : f n = f 0%nat -> (j <= n)%nat -> (1 <= n)%nat -> vertex (map f (seq 0 n)) j = f j.
Proof.
  intros E Hj Hn. destruct (Nat.eq_dec j n) as [->|N].
  - rewrite <- (Nat.add_0_l n) at 2. assert (L : length (map f (seq 0 n)) = n) by now rewrite map_length, seq_length. rewrite <- L at 2. rewrite vertex_plus.
    rewrite E. unfold vertex. rewrite L, Nat.mod_0_l by lia. destruct n; [lia|]. reflexivity.
  - unfold vertex. rewrite map_length, seq_length, Nat.mod_small by lia. etransitivity; [apply (nth_indep _ vzero (f 0%nat)); rewrite map_length, seq_length; lia|].
    rewrite (map_nth f), seq_nth by lia. reflexivity.
Qed.
Lemma edges_periodic (f : nat -> vec K) n : f n = f 0%nat -> edges (map f (seq 0 n)) = map (fun j => vsub (f (S j)) (f j)) (seq 0 n).
Proof.
  intros E. unfold edges. rewrite map_length, seq_length. apply map_ext_in. intros j Hj. apply in_seq in Hj. unfold edge. rewrite !vertex_periodic by (auto; lia). reflexivity.
Qed.
Lemma proper_window (P : polygon K) v : proper P -> proper (map (fun j => vertex P (v + j)) (seq 0 (length P))).
Proof.
  intros (A & B & C & D). set (f := fun j => vertex P (v + j)). set (n := length P) in *.
  assert (Fn : f n = f 0%nat) by (unfold f, n; rewrite Nat.add_0_r; apply vertex_plus).
  assert (L : length (map f (seq 0 n)) = n) by now rewrite map_length, seq_length.
  assert (V : forall j, vertex (map f (seq 0 n)) j = vertex P (v + j)).
  { intros j. rewrite <- vertex_mod, L. pose proof (Nat.mod_upper_bound j n ltac:(lia)). rewrite vertex_periodic by (auto; lia). unfold f. rewrite <- vertex_mod. fold n.
    rewrite Nat.add_mod_idemp_r by lia. unfold n. apply vertex_mod. }
  assert (Ed : forall j, edge (map f (seq 0 n)) j = edge P (v + j)) by (intros j; unfold edge; rewrite !V; do 2 f_equal; lia).
  split; [rewrite L; auto|]. split; [intros e; rewrite Ed; auto|]. split.
  - intros i j p. rewrite L. unfold side. rewrite !V. intros Hi Hj NE SI SJ.
    assert (M : forall i, (vertex P (v + i), vertex P (v + S i)) = side P ((v + i) mod n)).
    { intros k. unfold side. f_equal; [symmetry; apply vertex_mod|]. rewrite <- vertex_mod, <- (vertex_mod P (S ((v + k) mod n))). fold n. f_equal.
      rewrite <- (Nat.add_1_r ((v + k) mod n)), Nat.add_mod_idemp_l by lia. f_equal. lia. }
    rewrite M in SI, SJ.
    assert (IJ : forall i j : nat, ((v + j) mod n = ((v + i) mod n + 1) mod n)%nat -> (i < n)%nat -> (j < n)%nat -> j = ((i + 1) mod n)%nat).
    { intros i' j' E Hi' Hj'. rewrite Nat.add_mod_idemp_l in E by lia. clear - E Hi' Hj' A.
      assert (G : forall a, ((a + (n - v mod n)) mod n = ((a mod n) + (n - v mod n)) mod n)%nat) by (intros; rewrite Nat.add_mod_idemp_l by lia; reflexivity).
      pose proof (Nat.mod_upper_bound v n ltac:(lia)) as Hv. pose proof (Nat.div_mod_eq v n) as DV.
      assert (X : ((v + j' + (n - v mod n)) mod n = j')%nat).
      { replace (v + j' + (n - v mod n))%nat with (j' + (v / n + 1) * n)%nat by nia. rewrite Nat.mod_add by lia. now apply Nat.mod_small. }
      assert (Y : ((v + i' + 1 + (n - v mod n)) mod n = (i' + 1) mod n)%nat).
      { replace (v + i' + 1 + (n - v mod n))%nat with (i' + 1 + (v / n + 1) * n)%nat by nia. now rewrite Nat.mod_add by lia. }
      rewrite <- X, <- Y, G, (G (v + i' + 1)%nat), E. reflexivity. }
    destruct (C ((v + i) mod n) ((v + j) mod n) p)%nat as [[X Y]|[X Y]]; auto; try (apply Nat.mod_upper_bound; lia).
    + intros E. apply NE. assert (Z : off (v mod n) n ((v mod n + i) mod n) = off (v mod n) n ((v mod n + j) mod n)) by (rewrite !Nat.add_mod_idemp_l by lia; now rewrite E).
      pose proof (Nat.mod_upper_bound v n ltac:(lia)). rewrite !off_mod in Z by lia. lia.
    + left. apply IJ in X; auto. split; auto. rewrite Y, <- vertex_mod. fold n. rewrite Nat.add_mod_idemp_l by lia. unfold n. rewrite vertex_mod. f_equal. lia.
    + right. apply IJ in X; auto. split; auto. rewrite Y, <- vertex_mod. fold n. rewrite Nat.add_mod_idemp_l by lia. unfold n. rewrite vertex_mod. f_equal. lia.
  - replace (map f (seq 0 n)) with (map (vertex P) (seq v n)); [unfold n; now rewrite window_any|]. symmetry. apply map_seq_shift. intros j Hj. unfold f. f_equal; lia.
Qed.

(** ** the pieces *)
Section Pieces.
Variables (P : polygon K) (v1 v2 : nat).
Notation ne := (length P).
Hypotheses (H1 : (v1 < ne)%nat) (H2 : (v2 < ne)%nat).
Notation w := (off v1 ne v2).
Hypothesis Hw : (2 <= w <= ne - 2)%nat.
Lemma off_back : off v2 ne v1 = (ne - w)%nat.
Proof.
  pose proof (off_add v1 ne v2 ltac:(lia) H2) as A. destruct (Nat.lt_ge_cases (v1 + w) ne) as [L|L].
  - rewrite Nat.mod_small in A by lia. pose proof (off_mod v2 ne (v1 + ne) ltac:(lia) ltac:(lia)) as B. rewrite <- (Nat.mul_1_l ne) in B at 2. rewrite Nat.mod_add, Nat.mod_small in B by lia. lia.
  - assert (X : (v1 + w - ne)%nat = v2). { refine (eq_trans _ A). apply (Nat.mod_unique _ ne 1); lia. } pose proof (off_mod v2 ne v1 ltac:(lia) ltac:(lia)) as B. rewrite Nat.mod_small in B by lia. lia.
Qed.
Lemma v2_vertex i : vertex P (v1 + w + i) = vertex P (v2 + i).
Proof.
  pose proof (off_add v1 ne v2 ltac:(lia) H2) as A. rewrite <- vertex_mod, <- Nat.add_mod_idemp_l, A by lia. apply vertex_mod.
Qed.
Lemma v2_vertex0 : vertex P (v1 + w) = vertex P v2.
Proof. pose proof (v2_vertex 0) as A. now rewrite !Nat.add_0_r in A. Qed.
Lemma right_edges : edges (right_piece P v1 v2) = edges2 P v1 w.
Proof.
  set (f := fun j => match j with O => vertex P v2 | S j => vertex P (v1 + j) end).
  assert (E : right_piece P v1 v2 = map f (seq 0 (S w))).
  { unfold right_piece. cbn [seq map]. f_equal. rewrite <- seq_shift, map_map. apply map_seq_shift. intros j Hj. reflexivity. }
  rewrite E, edges_periodic by (cbn; apply v2_vertex0). unfold edges2. cbn [seq map]. f_equal; [cbn; now rewrite Nat.add_0_r, v2_vertex0|].
  rewrite <- seq_shift, map_map. symmetry. apply map_seq_shift. intros j Hj. cbn. unfold edge. do 2 f_equal. lia.
Qed.
Lemma left_edges : edges (left_piece P v1 v2) = edges1 P v1 w.
Proof.
  set (f := fun j => match j with O => vertex P v1 | S j => vertex P (v1 + w + j) end).
  assert (E : left_piece P v1 v2 = map f (seq 0 (S (ne - w)))).
  { unfold left_piece. rewrite off_back. cbn [seq map]. f_equal. rewrite <- seq_shift, map_map. apply map_seq_shift. intros j Hj. cbn. symmetry. apply v2_vertex. }
  rewrite E, edges_periodic. 2:{ cbn. replace (v1 + w + (ne - w))%nat with (v1 + ne)%nat by lia. apply vertex_plus. }
  unfold edges1. cbn [seq map]. f_equal; [cbn; now rewrite Nat.add_0_r|].
  rewrite <- seq_shift, map_map. symmetry. apply map_seq_shift. intros j Hj. cbn. unfold edge. do 2 f_equal. lia.
Qed.
Lemma right_accepted : proper (right_piece P v1 v2) <-> exists Q, Polygon_edges (edges2 P v1 w) = Ok Q.
Proof. rewrite <- right_edges. apply accepted. discriminate. Qed.
Lemma left_accepted : proper (left_piece P v1 v2) <-> exists Q, Polygon_edges (edges1 P v1 w) = Ok Q.
Proof. rewrite <- left_edges. apply accepted. discriminate. Qed.
End Pieces.
Section Union.
Variables (P1 P2 : polygon K) (e1 e2 : nat) (t : sim K) (T : vec K -> vec K).
Notation n1 := (length P1).
Notation n2 := (length P2).
Hypotheses (H1 : (e1 < n1)%nat) (H2 : (e2 < n2)%nat) (L1 : (3 <= n1)%nat) (L2 : (3 <= n2)%nat).
Hypotheses (Kt : sim_ok t) (St : sg_sign t = true) (Tt : forall p, T p = sim_apply t p).
Hypotheses (T1 : T (vertex P2 e2) = vertex P1 (S e1)) (T2 : T (vertex P2 (S e2)) = vertex P1 e1).
Lemma union_edges : edges (union P1 e1 P2 e2 T) = join_edges P1 P2 e1 e2 (sim_derivative t).
Proof.
  set (f := fun j => vadd (joined_vertex P1 P2 e1 e2 T j) (vertex P1 0)).
  assert (VV : forall a b : vec K, vadd (vsub a b) b = a) by (intros [] []; apply vec_eq; cbn; ring).
  assert (E : union P1 e1 P2 e2 T = map f (seq 0 (total_edges P1 P2))).
  { unfold total_edges. replace (n1 + n2 - 2)%nat with (S e1 + ((n2 - 2) + (n1 - S e1)))%nat by lia. rewrite !seq_app, !map_app. unfold union. f_equal; [|f_equal]; apply map_seq_shift; intros j Hj; unfold f.
    - rewrite joined_vertex_1 by lia. now rewrite VV.
    - rewrite (joined_vertex_2 P1 P2 e1 e2 T) by (auto; lia). rewrite VV. do 2 f_equal. lia.
    - rewrite (joined_vertex_3 P1 P2 e1 e2 T) by (auto; lia). rewrite VV. f_equal. lia. }
  rewrite E, edges_periodic.
  - rewrite (join_edges_eq P1 P2 e1 e2 t) by auto. apply map_ext_in. intros j Hj. apply in_seq in Hj. unfold f. rewrite (joined_steps P1 P2 e1 e2 t T) by (auto; lia).
    destruct (joined_vertex P1 P2 e1 e2 T (S j)), (joined_vertex P1 P2 e1 e2 T j), (vertex P1 0). apply vec_eq; cbn; ring.
  - unfold f. f_equal. unfold total_edges. rewrite (joined_vertex_3 P1 P2 e1 e2 T), (joined_vertex_1 P1 P2 e1 e2 T) by (auto; lia). f_equal.
    rewrite <- (vertex_plus P1 0). f_equal. lia.
Qed.
Lemma union_accepted : proper (union P1 e1 P2 e2 T) <-> exists Q, Polygon_edges (join_edges P1 P2 e1 e2 (sim_derivative t)) = Ok Q.
Proof. rewrite <- union_edges. apply accepted. unfold union. discriminate. Qed.
End Union.
End K.
