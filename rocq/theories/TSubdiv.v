(** Theorems C43: the subdivision of edges. *)
From Coq Require Import List Bool ZArith Arith Lia Ring Field QArith.
From Verif Require Import OField FMicromega PField MBase MDict PDict MEuclid SEuclid PEuclid MSim SSim MPoly PPoly MMut SMut PMut PMut2 PMut3 MSurf SSurf SPoint MPoint PPoint PSimple
  TEuclid TMut TPoly2 PBuild MSubdiv SSubdiv PSubdiv PSubdiv3.
Import ListNotations.
Open Scope nat_scope.
Notation plen K := (@length (vec K) : polygon K -> nat).

(** the constructor of polygons accepts all polygons of [s] *)
Definition proper_polygons {K : OField} (s : @surf (polygon K)) := forall l P, get_polygon s l = Ok P ->
  3 <= length P /\ (forall e, edge P e <> vzero) /\ simple_polygon P /\ flt f0 (area P).

(** If subdivide_edges returns a surface then it is the subdivided surface; otherwise there is an AssertionError (see
    [C43_roots_refuted]). *)
Theorem C43_subdivide_edges (K : OField) (s : @surf (polygon K)) (k : nat) : intact (plen K) s -> proper_polygons s -> 1 <= k ->
  exists t r, subdivide_edges k s empty = (t, r) /\ (r = Ok tt \/ r = Err AssertionError) /\
    (r = Ok tt -> intact (plen K) t /\ mutable t = false /\ edges_divided k s t).
Proof.
  intros I PP Hk. destruct (subdivide_main s k (intact_good _ s I)) as (t & r & A & B & _ & _ & C); auto.
  - intros l P E. destruct (PP l P E) as (X & Y & Z & W). split; auto. now split.
  - exists t, r. auto.
Qed.
Print Assumptions C43_subdivide_edges.
(** For connected surfaces there is never an error. *)
Theorem C43_connected (K : OField) (s : @surf (polygon K)) (k : nat) : intact (plen K) s -> proper_polygons s -> 1 <= k ->
  (forall l l', is_label s l -> is_label s l' -> linked (plen K) s l l') ->
  exists t, subdivide_edges k s empty = (t, Ok tt) /\ intact (plen K) t /\ mutable t = false /\ edges_divided k s t.
Proof.
  intros I PP Hk CO. pose proof (intact_good _ s I) as GD. destruct (subdivide_main s k GD) as (t & r & A & B & C & C0 & D); auto.
  - intros l P E. destruct (PP l P E) as (X & Y & Z & W). split; auto. now split.
  - cut (r = Ok tt). { intros ->. exists t. split; auto. }
    destruct (get_roots_spec _ s GD) as [d [ER [[T1 T2 T3 T4] _]]]. destruct (roots_ s ++ d) as [|a [|b l]]; [auto|eauto|].
    exfalso. inversion T2 as [|? ? N _]. apply N. left. symmetry. apply T3; cbn; auto.
    apply (linked_conn _ s _ _ (g_inv _ s GD)). apply CO; apply is_label_keys; apply T1; cbn; auto.
Qed.
Print Assumptions C43_connected.
(** An edge is the sum of its parts: the image of an edge (see SubdivideEdgesMorphism._image_homology_edge) consists of [k]
    consecutive edges, each is a [k]-th of the edge, and each edge of the new polygon is in exactly one image. *)
Section E.
Context {K : OField}.
Add Field KF : (of_ft K).
Local Open Scope F_scope.
Lemma image_edge k (P Q : polygon K) e p : (1 <= k)%nat -> divided k P Q -> (e < length P)%nat -> (p < k)%nat ->
  vscale (fnat k) (edge Q (e * k + p)) = edge P e.
Proof.
  intros Hk [A B _ _] He Hp. unfold edge at 1. replace (S (e * k + p)) with (e * k + S p)%nat by lia. rewrite !B by (auto; lia).
  pose proof (fnat_neq0 k Hk : fnat k <> (0 : K)) as N. rewrite fnat_S. unfold edge. destruct (vertex P e), (vertex P (S e)), (vertex P 0). apply vec_eq; cbn; field; auto.
Qed.
Lemma image_total k (P Q : polygon K) e : (1 <= k)%nat -> divided k P Q -> (e < length P)%nat -> vsub (vertex Q (e * k + k)) (vertex Q (e * k + 0)) = edge P e.
Proof.
  intros Hk [A B _ _] He. rewrite !B by (auto; lia). pose proof (fnat_neq0 k Hk : fnat k <> (0 : K)) as N. cbn [fnat].
  destruct (vertex P e), (edge P e), (vertex P 0). apply vec_eq; cbn; field; auto.
Qed.
Lemma vsub_self (a : vec K) : vzero = vsub a a.
Proof. destruct a. apply vec_eq; cbn; ring. Qed.
Lemma vadd_vsub (a b c : vec K) : vadd (vsub b a) (vsub c b) = vsub c a.
Proof. destruct a, b, c. apply vec_eq; cbn; ring. Qed.
End E.
Theorem C43_edge_image (K : OField) k (P Q : polygon K) : 1 <= k -> divided k P Q -> forall l,
  (forall e, e < length P -> length (subdivide_edge_image k (l, e)) = k /\
     (forall y, In y (subdivide_edge_image k (l, e)) -> fst y = l /\ vscale (fnat k) (edge Q (snd y)) = edge P e) /\
     fold_right vadd vzero (map (fun y => edge Q (snd y)) (subdivide_edge_image k (l, e))) = edge P e) /\
  (forall i, i < length Q -> exists e, e < length P /\ In (l, i) (subdivide_edge_image k (l, e)) /\
     forall e', In (l, i) (subdivide_edge_image k (l, e')) -> e' = e).
Proof.
  intros Hk D l. unfold subdivide_edge_image. cbn [fst snd]. split.
  - intros e He. split; [now rewrite map_length, seq_length|].
    split. { intros y Hy. apply in_map_iff in Hy. destruct Hy as [p [<- Hp]]. apply in_seq in Hp. cbn [fst snd]. split; auto. apply (image_edge k P Q); auto; lia. }
    rewrite map_map. cbn [snd].
    assert (X : forall m, m <= k -> fold_right vadd vzero (map (fun p => edge Q (e * k + p)) (seq (k - m) m)) = vsub (vertex Q (e * k + k)) (vertex Q (e * k + (k - m)))).
    { induction m as [|m IH]; intros Hm.
      - cbn [seq map fold_right]. replace (k - 0) with k by lia. apply vsub_self.
      - cbn [seq map fold_right]. replace (S (k - S m)) with (k - m) by lia. rewrite IH by lia. unfold edge. replace (S (e * k + (k - S m))) with (e * k + (k - m)) by lia.
        apply vadd_vsub. }
    specialize (X k (le_n k)). rewrite Nat.sub_diag in X. rewrite X. now apply image_total.
  - intros i Hi. rewrite (dv_length _ _ _ D) in Hi. exists (i / k). split; [apply Nat.div_lt_upper_bound; lia|]. split.
    + apply in_map_iff. exists (i mod k). split; [f_equal; rewrite (Nat.div_mod_eq i k) at 3; lia|]. apply in_seq. pose proof (Nat.mod_upper_bound i k). lia.
    + intros e' H. apply in_map_iff in H. destruct H as [p [[= <-] Hp]]. apply in_seq in Hp. rewrite Nat.div_add_l by lia. rewrite Nat.div_small; lia.
Qed.
Print Assumptions C43_edge_image.
(** For k = 0 there is a ValueError. *)
Theorem C43_zero (K : OField) (s : @surf (polygon K)) : intact (plen K) s -> (exists l, is_label s l) -> subdivide_edges 0 s empty = (empty, Err ValueError).
Proof.
  intros I [l Hl]. destruct (iter_labels_spec (plen K) s (intact_good _ s I)) as [ls [EL [_ HL]]]. unfold subdivide_edges.
  rewrite (mbind_ok _ _ empty empty ls) by (unfold mlift; now rewrite EL).
  destruct (rmap_total (get_polygon s) ls) as [ps E]. { intros x Hx. apply HL, is_label_keys in Hx. exact Hx. }
  rewrite (mbind_ok _ _ empty empty ps) by (unfold mlift; now rewrite E).
  apply mbind_err. unfold mlift. destruct ps as [|p ps]; [|reflexivity].
  apply is_label_keys, HL in Hl. destruct ls as [|x ls]; [destruct Hl|]. cbn in E. destruct (get_polygon s x); [|discriminate]. destruct (rmap (get_polygon s) ls); discriminate.
Qed.
Print Assumptions C43_zero.

(** ** Examples *)
Definition ex_sq : polygon cqF := [qv 0 0; qv 1 0; qv 1 1; qv 0 1].
(** a torus made of two squares, the second is its root *)
Definition ex_two : @surf (polygon cqF) := run (plen cqF) [OpAdd ex_sq None; OpAdd [qv 1 0; qv 2 0; qv 2 1; qv 1 1] None;
  OpGlue (0, 0)%Z (0, 2)%Z; OpGlue (1, 0)%Z (1, 2)%Z; OpGlue (0, 1)%Z (1, 3)%Z; OpGlue (1, 1)%Z (0, 3)%Z; OpSetRoot 1%Z] empty.
Lemma ex_two_intact : intact (plen cqF) ex_two.
Proof. apply reachable_intact; [eexists; split; [|reflexivity]; repeat constructor; cbn; lia|vm_compute; reflexivity]. Qed.
Lemma ex_proper (s : @surf (polygon cqF)) : forallb (fun lp => match polygon_check (snd lp) with Ok _ => true | Err _ => false end) (polys s) = true -> proper_polygons s.
Proof.
  intros H l P E. apply get_polygon_Ok in E. apply dget_In in E. rewrite forallb_forall in H. specialize (H _ E). cbn [snd] in H.
  destruct (polygon_check P) as [[]|] eqn:C; [|discriminate]. apply polygon_check_spec in C. destruct C as [[A B] [D F]]. auto.
Qed.
Lemma ex_two_proper : proper_polygons ex_two.
Proof. apply ex_proper. vm_compute. reflexivity. Qed.
Lemma ex_two_labels l : is_label ex_two l -> l = 0%Z \/ l = 1%Z.
Proof. intros H. apply is_label_keys in H. vm_compute in H. intuition. Qed.
Lemma ex_two_adjacent : adjacent (plen cqF) ex_two 0%Z 1%Z /\ adjacent (plen cqF) ex_two 1%Z 0%Z.
Proof.
  split; [exists 1%Z, 3%Z|exists 3%Z, 1%Z]; (split; [|vm_compute; reflexivity]).
  - exists ex_sq. split; [vm_compute; reflexivity|cbn; lia].
  - exists [qv 1 0; qv 2 0; qv 2 1; qv 1 1]. split; [vm_compute; reflexivity|cbn; lia].
Qed.
Lemma ex_two_connected l l' : is_label ex_two l -> is_label ex_two l' -> linked (plen cqF) ex_two l l'.
Proof.
  intros H H'. apply ex_two_labels in H, H'. destruct ex_two_adjacent as [A B].
  destruct H as [-> | ->], H' as [-> | ->]; try apply Relation_Operators.rt_refl; now apply Relation_Operators.rt_step.
Qed.
Example C43_ex : exists t, subdivide_edges 3 ex_two empty = (t, Ok tt) /\ edges_divided 3 ex_two t.
Proof.
  destruct (C43_connected cqF ex_two 3 ex_two_intact ex_two_proper ltac:(lia) ex_two_connected) as (t & A & _ & _ & B). eauto.
Qed.
Example C43_ex_gluing : match opposite_edge (fst (subdivide_edges 3 ex_two empty)) 0%Z 5%Z with Ok (Some y) => y | _ => (9, 9)%Z end = (1, 9)%Z.
Proof. vm_compute. reflexivity. Qed.

(** ** Findings *)
(** The roots are set before the polygons are glued: the root of a connected surface is not the root of its subdivision. *)
Theorem C43_root_refuted : exists (s t : @surf (polygon cqF)), intact (plen cqF) s /\ proper_polygons s /\ (forall l l', is_label s l -> is_label s l' -> linked (plen cqF) s l l') /\
  subdivide_edges 2 s empty = (t, Ok tt) /\ get_roots (plen cqF) s = Ok [1%Z] /\ get_roots (plen cqF) t = Ok [0%Z].
Proof.
  exists ex_two, (fst (subdivide_edges 2 ex_two empty)). split; [exact ex_two_intact|]. split; [exact ex_two_proper|]. split; [exact ex_two_connected|].
  split; [vm_compute; reflexivity|]. split; vm_compute; reflexivity.
Qed.
Print Assumptions C43_root_refuted.
(** For the same reason there is an AssertionError for a surface with two components. *)
Definition ex_four : @surf (polygon cqF) := run (plen cqF) [OpAdd ex_sq None; OpAdd ex_sq None; OpAdd ex_sq None; OpAdd ex_sq None;
  OpGlue (0, 0)%Z (0, 2)%Z; OpGlue (1, 0)%Z (1, 2)%Z; OpGlue (2, 0)%Z (2, 2)%Z; OpGlue (3, 0)%Z (3, 2)%Z;
  OpGlue (0, 1)%Z (1, 3)%Z; OpGlue (1, 1)%Z (2, 3)%Z; OpGlue (2, 1)%Z (0, 3)%Z; OpGlue (3, 1)%Z (3, 3)%Z] empty.
Theorem C43_roots_refuted : exists s : @surf (polygon cqF), intact (plen cqF) s /\ proper_polygons s /\
  (forall x, is_edge (plen cqF) s x -> exists y, glued (plen cqF) s x y) /\ snd (subdivide_edges 2 s empty) = Err AssertionError.
Proof.
  exists ex_four. assert (I : intact (plen cqF) ex_four) by (apply reachable_intact; [eexists; split; [|reflexivity]; repeat constructor; cbn; lia|vm_compute; reflexivity]).
  split; [exact I|]. split; [apply ex_proper; vm_compute; reflexivity|]. split; [|vm_compute; reflexivity].
  intros x Hx. destruct (C01_well_defined _ ex_four I x Hx) as [[_ F]|G]; auto. exfalso.
  destruct x as [l e], Hx as [P [E H]]. cbn [fst snd] in *.
  assert (L : is_label ex_four l) by (now exists P). apply is_label_keys in L. vm_compute in L.
  assert (PP : length P = 4). { destruct L as [<-|[<-|[<-|[<-|[]]]]]; vm_compute in E; injection E as <-; reflexivity. }
  assert (EE : e = 0%Z \/ e = 1%Z \/ e = 2%Z \/ e = 3%Z) by lia.
  destruct L as [<-|[<-|[<-|[<-|[]]]]]; destruct EE as [->|[->|[->| ->]]]; vm_compute in F; discriminate.
Qed.
Print Assumptions C43_roots_refuted.
(** The image of a point has the coordinates of the point though the polygon has been moved: here a point in the interior
    of the polygon 1 is mapped to coordinates outside of the polygon. *)
Theorem C43_point_refuted : exists (s t : @surf (polygon cqF)) P p, intact (plen cqF) s /\ proper_polygons s /\ subdivide_edges 2 s empty = (t, Ok tt) /\
  get_polygon s 1%Z = Ok P /\ get_point_position P p = Interior /\ subdivide_image_point 100 t 1%Z p = Err NotImplementedError.
Proof.
  exists ex_two, (fst (subdivide_edges 2 ex_two empty)), [qv 1 0; qv 2 0; qv 2 1; qv 1 1], (qv (3#2) (1#2)). split; [exact ex_two_intact|]. split; [exact ex_two_proper|].
  split; [vm_compute; reflexivity|]. split; [vm_compute; reflexivity|]. split; vm_compute; reflexivity.
Qed.
Print Assumptions C43_point_refuted.
