(** Theorems C41: cutting polygons along diagonals and joining adjacent polygons. *)
From Coq Require Import List Bool ZArith Arith Lia Ring Field QArith.
From Verif Require Import OField FMicromega PField MBase MDict PDict MEuclid SEuclid PEuclid MSim SSim MPoly PPoly MMut SMut PMut PMut2 PMut3 MSurf SSurf PSurf SPoint MPoint PPoint PSimple
  TEuclid TMut TPoly2 PBuild MCut SCut PCut PCut2 PCut3 PCut4 PCut5 PCut6 PCut7 TSubdiv.
Import ListNotations.
Open Scope nat_scope.

(** [p] has no boundary edges *)
Definition all_glued {K : OField} (s : @surf (polygon K)) (p : label) := forall x, is_edge (plen K) s x -> fst x = p -> exists y, glued (plen K) s x y.
(** [v1] and [v2] are vertices of [P] that are not adjacent *)
Definition diagonal {K : OField} (P : polygon K) (v1 v2 : nat) := v1 < length P /\ v2 < length P /\ v1 <> v2 /\ S v1 mod length P <> v2 /\ S v2 mod length P <> v1.
Lemma diagonal_off {K : OField} (P : polygon K) v1 v2 : 3 <= length P -> (diagonal P v1 v2 <-> v1 < length P /\ v2 < length P /\ 2 <= off v1 (length P) v2 <= length P - 2).
Proof.
  intros L. set (n := length P) in *. assert (M : forall v, v < n -> S v mod n = if S v =? n then 0 else S v).
  { intros v Hv. destruct (Nat.eqb_spec (S v) n) as [->|]; [apply Nat.mod_same; lia|apply Nat.mod_small; lia]. }
  unfold diagonal. split.
  - intros (A & B & C & D & E). fold n in A, B. split; auto. split; auto. fold n in D, E. rewrite M in D, E by auto.
    pose proof (off_lt v1 n v2 ltac:(lia)) as O. pose proof (off_add v1 n v2 ltac:(lia) B) as X.
    destruct (off v1 n v2) as [|[|d]] eqn:W; [exfalso|exfalso|].
    + rewrite Nat.add_0_r, Nat.mod_small in X by auto. auto.
    + rewrite Nat.add_1_r, M in X by auto. congruence.
    + split; [lia|]. destruct (Nat.eq_dec (S (S d)) (n - 1)) as [Y|Y]; [|lia]. exfalso. rewrite Y in X.
      destruct (Nat.eq_dec v1 0) as [->|Z].
      * cbn [Nat.add] in X. rewrite Nat.mod_small in X by lia. subst v2. destruct (Nat.eqb_spec (S (n - 1)) n); [|lia]. congruence.
      * replace (v1 + (n - 1)) with (v1 - 1 + 1 * n) in X by lia. rewrite Nat.mod_add, Nat.mod_small in X by lia. subst v2. destruct (Nat.eqb_spec (S (v1 - 1)) n); lia.
  - intros (A & B & C). split; auto. split; auto. fold n. rewrite !M by auto. unfold off in C.
    split; [intros ->; replace (v2 + n - v2) with n in C by lia; rewrite Nat.mod_same in C; lia|]. split.
    + destruct (Nat.eqb_spec (S v1) n); intros <-.
      * replace (0 + n - v1) with 1 in C by lia. rewrite Nat.mod_small in C by lia. lia.
      * replace (S v1 + n - v1) with (1 + 1 * n) in C by lia. rewrite Nat.mod_add, Nat.mod_small in C by lia. lia.
    + destruct (Nat.eqb_spec (S v2) n); intros <-.
      * replace (v2 + n - 0) with (n - 1 + 1 * n) in C by lia. rewrite Nat.mod_add, Nat.mod_small in C by lia. lia.
      * replace (v2 + n - S v2) with (n - 1) in C by lia. rewrite Nat.mod_small in C by lia. lia.
Qed.
Lemma proper_nd {K : OField} (s : @surf (polygon K)) : proper_polygons s -> forall l P, get_polygon s l = Ok P -> nondeg P.
Proof. intros PP l P E. destruct (PP l P E) as (A & B & _). now split. Qed.

(** subdivide_polygon cuts the polygon in place: if the diagonal cuts the polygon into two polygons, the surface is the one
    with the polygon cut. The only error is the AssertionError of [C41_subdivide_roots_refuted], it is not possible if
    no other polygon has been chosen as a root. *)
Theorem C41_subdivide (K : OField) (s : @surf (polygon K)) p P v1 v2 lab : intact (plen K) s -> mutable s = true -> proper_polygons s ->
  get_polygon s p = Ok P -> diagonal P v1 v2 -> all_glued s p -> proper (left_piece P v1 v2) -> proper (right_piece P v1 v2) ->
  (forall l, lab = Some l -> ~ is_label s l) ->
  exists t r k, subdivide_polygon p v1 v2 lab s = (t, r) /\ (r = Ok tt \/ r = Err AssertionError) /\ ((forall x, In x (roots_ s) -> x = p) -> r = Ok tt) /\
    (r = Ok tt -> intact (plen K) t /\ mutable t = true /\ (forall l, lab = Some l -> k = l) /\ polygon_cut s t p k P v1 v2).
Proof.
  intros I Mu PP EP DI GL PL PR HL. apply diagonal_off in DI; [|apply (PP _ _ EP)]. destruct DI as (H1 & H2 & Hw).
  destruct (cut_intact s p P v1 v2 lab I Mu (proper_nd s PP) EP H1 H2 Hw GL PL PR HL) as (t & r & k & A & B & C & D). exists t, r, k. split; auto. split; auto. split; auto. intros R. now apply C.
Qed.
Print Assumptions C41_subdivide.
(** join_polygons joins the polygons in place if the union is a polygon. *)
Theorem C41_join (K : OField) (s : @surf (polygon K)) p1 P1 e1 p2 P2 e2 T : intact (plen K) s -> mutable s = true -> proper_polygons s ->
  get_polygon s p1 = Ok P1 -> get_polygon s p2 = Ok P2 -> p1 <> p2 -> glued (plen K) s (p1, Z.of_nat e1) (p2, Z.of_nat e2) -> gluing_map P2 e2 P1 e1 T ->
  all_glued s p1 -> all_glued s p2 -> proper (union P1 e1 P2 e2 T) ->
  exists t r, join_polygons p1 e1 true s = (t, r) /\ (r = Ok tt \/ r = Err AssertionError) /\
    ((forall l l', is_label s l -> is_label s l' -> linked (plen K) s l l') -> roots_ s = nil -> r = Ok tt) /\
    (r = Ok tt -> intact (plen K) t /\ mutable t = true /\ polygons_joined s t p1 P1 e1 p2 P2 e2 T).
Proof.
  intros I Mu PP EP1 EP2 NE G GM GL1 GL2 PU.
  destruct (join_intact s p1 P1 e1 p2 P2 e2 T I Mu (proper_nd s PP) EP1 EP2 NE G GM) as (t & r & A & B & C & D); auto.
  - intros x Hx [F|F]; [now apply GL1|now apply GL2].
  - exists t, r. split; auto. split; auto. split; auto. intros CO R. apply C. now apply join_roots.
Qed.
Print Assumptions C41_join.
(** Joining along the diagonal after cutting along it: the same surface, except that the vertices of the polygon are
    numbered from the start of the diagonal, which is moved to the origin. *)
Theorem C41_roundtrip (K : OField) (s : @surf (polygon K)) p P v1 v2 lab : intact (plen K) s -> mutable s = true -> proper_polygons s ->
  get_polygon s p = Ok P -> diagonal P v1 v2 -> all_glued s p -> proper (left_piece P v1 v2) -> proper (right_piece P v1 v2) ->
  (forall l, lab = Some l -> ~ is_label s l) ->
  (forall l l', is_label s l -> is_label s l' -> linked (plen K) s l l') -> (forall x, In x (roots_ s) -> x = p) ->
  exists t k u, subdivide_polygon p v1 v2 lab s = (t, Ok tt) /\ polygon_cut s t p k P v1 v2 /\
    join_polygons p 0 true t = (u, Ok tt) /\ intact (plen K) u /\ renumbered s u p P v1.
Proof.
  intros I Mu PP EP DI GL PL PR HL CO RO. apply diagonal_off in DI; [|apply (PP _ _ EP)]. destruct DI as (H1 & H2 & Hw).
  apply (round_trip s p P v1 v2 lab); auto.
Qed.
Print Assumptions C41_roundtrip.

(** ** Rejected calls leave the surface as it is *)
Lemma diagonal_test {K : OField} (P : polygon K) v1 v2 : 3 <= length P ->
  (diagonal P v1 v2 <-> ((length P <=? v1) || (length P <=? v2))%bool = false /\
    ((Nat.max v1 v2 - Nat.min v1 v2 <=? 1) || (length P - 1 <=? Nat.max v1 v2 - Nat.min v1 v2))%bool = false).
Proof.
  intros L. set (n := length P) in *. assert (M : forall v, v < n -> S v mod n = if S v =? n then 0 else S v).
  { intros v Hv. destruct (Nat.eqb_spec (S v) n) as [->|]; [apply Nat.mod_same; lia|apply Nat.mod_small; lia]. }
  rewrite !orb_false_iff, !Nat.leb_gt. unfold diagonal. fold n. split.
  - intros (A & B & C & D & E). rewrite M in D, E by auto. destruct (Nat.eqb_spec (S v1) n), (Nat.eqb_spec (S v2) n); lia.
  - intros ((A & B) & C & D). rewrite !M by auto. destruct (Nat.eqb_spec (S v1) n), (Nat.eqb_spec (S v2) n); lia.
Qed.
Lemma pieces_run {K : OField} (P : polygon K) v1 v2 : 3 <= length P -> diagonal P v1 v2 ->
  (if v2 <? v1 then v2 + length P else v2) = v1 + off v1 (length P) v2.
Proof.
  intros L D. apply diagonal_off in D; auto. destruct D as (A & B & C). now apply wide_eq.
Qed.
Theorem C41_subdivide_rejects (K : OField) (s : @surf (polygon K)) p P v1 v2 lab : proper_polygons s -> get_polygon s p = Ok P ->
  ~ (diagonal P v1 v2 /\ proper (left_piece P v1 v2) /\ proper (right_piece P v1 v2)) ->
  exists e, subdivide_polygon p v1 v2 lab s = (s, Err e) /\ (~ diagonal P v1 v2 -> e = ValueError).
Proof.
  intros PP EP N. destruct (PP _ _ EP) as (L & _). unfold subdivide_polygon. rewrite (mbind_ok _ _ s s P) by (unfold mread; now rewrite EP).
  pose proof (diagonal_test P v1 v2 L) as DT. change (plen K P) with (length P).
  destruct ((length P <=? v1) || (length P <=? v2))%bool eqn:T1.
  { exists ValueError. split; [reflexivity|auto]. }
  rewrite (mbind_ok _ _ s s tt) by reflexivity.
  destruct ((Nat.max v1 v2 - Nat.min v1 v2 <=? 1) || (length P - 1 <=? Nat.max v1 v2 - Nat.min v1 v2))%bool eqn:T2.
  { exists ValueError. split; [reflexivity|auto]. }
  rewrite (mbind_ok _ _ s s tt) by reflexivity. assert (D : diagonal P v1 v2) by (apply DT; auto).
  cbv zeta. rewrite (pieces_run P v1 v2 L D). apply (proj1 (diagonal_off P v1 v2 L)) in D as D'. destruct D' as (H1 & H2 & Hw).
  pose proof (left_accepted P v1 v2 H1 H2 Hw) as AL. pose proof (right_accepted P v1 v2 H1 H2 Hw) as AR.
  unfold edges1, edges2 in *. replace (v1 + length P - (v1 + off v1 (length P) v2)) with (length P - off v1 (length P) v2) by lia. replace (v1 + off v1 (length P) v2 - v1) with (off v1 (length P) v2) by lia.
  match type of AL with _ <-> exists Q, ?x = _ => destruct x as [Q1|e1] eqn:E1 end.
  2:{ exists e1. split; [reflexivity|contradiction]. }
  rewrite (mbind_ok _ _ s s Q1) by reflexivity.
  match type of AR with _ <-> exists Q, ?x = _ => destruct x as [Q2|e2] eqn:E2 end.
  2:{ exists e2. split; [reflexivity|contradiction]. }
  exfalso. apply N. split; auto. split; [apply AL; eauto|apply AR; eauto].
Qed.
Print Assumptions C41_subdivide_rejects.
Theorem C41_join_rejects (K : OField) (s : @surf (polygon K)) p1 P1 e1 p2 P2 e2 T : intact (plen K) s -> proper_polygons s ->
  get_polygon s p1 = Ok P1 -> get_polygon s p2 = Ok P2 -> glued (plen K) s (p1, Z.of_nat e1) (p2, Z.of_nat e2) -> gluing_map P2 e2 P1 e1 T ->
  p1 = p2 \/ ~ proper (union P1 e1 P2 e2 T) ->
  exists e, join_polygons p1 e1 true s = (s, Err e) /\ (p1 = p2 -> e = ValueError).
Proof.
  intros I PP EP1 EP2 G GM N. pose proof (intact_good _ s I) as GD. assert (G0 := proj1 (glued_gz _ s _ _ (g_inv _ s GD)) G).
  destruct (jbounds s p1 p2 P1 P2 e1 e2 GD (proper_nd s PP) EP1 EP2 G0) as (B1 & B2 & B3 & B4).
  unfold join_polygons. cbn [negb]. rewrite (mbind_ok _ _ s s P1) by (unfold mread; now rewrite EP1).
  rewrite (mbind_ok _ _ s s (p2, e2)).
  2:{ unfold mread, opp_pair. cbn [s_opp mut_surface]. destruct G as [_ O]. cbn [fst snd] in O. rewrite O. cbn [bind]. now rewrite Nat2Z.id. }
  cbn [fst snd]. rewrite (mbind_ok _ _ s s P2) by (unfold mread; now rewrite EP2).
  destruct (Z.eqb_spec p1 p2) as [E|NE]. { exists ValueError. split; auto. }
  rewrite (mbind_ok _ _ s s tt) by reflexivity. destruct N as [|N]; [contradiction|].
  destruct (edge_transformation_raw (mut_surface s) p2 e2 P2 p1 e1 P1) as [t0 [Et0 _]]; auto.
  { cbn [s_opp mut_surface]. assert (O : opposite_edge s p2 (Z.of_nat e2) = Ok (Some (p1, Z.of_nat e1))).
    { apply opposite_edge_Ok; [lia|]. apply (i_inv _ s (g_inv _ s GD)) in G0. split; auto. eapply gz_range; eauto. }
    rewrite O. now rewrite Nat2Z.id. }
  { apply (PP _ _ EP2). } { apply (PP _ _ EP1). }
  rewrite (mbind_ok _ _ s s t0) by (unfold mread; now rewrite Et0).
  destruct (transformation s p1 p2 P1 P2 e1 e2 T GD (proper_nd s PP) EP1 EP2 G0 GM t0 Et0) as (Kt & St & Tt).
  pose proof (union_accepted P1 P2 e1 e2 t0 T B1 B2 B3 B4 Tt (gm_start _ _ _ _ _ GM) (gm_end _ _ _ _ _ GM)) as UA.
  destruct (Polygon_edges (join_edges P1 P2 e1 e2 (sim_derivative t0))) as [Q|e] eqn:EQ; [exfalso; apply N, UA; eauto|].
  exists e. split; [reflexivity|contradiction].
Qed.
Print Assumptions C41_join_rejects.

(** ** Examples *)
(** a torus made of a hexagon *)
Definition ex_hexagon : polygon cqF := [qv 0 0; qv 2 0; qv 3 1; qv 2 2; qv 0 2; qv (-1) 1].
Definition ex_torus : @surf (polygon cqF) := run (plen cqF) [OpAdd ex_hexagon None; OpGlue (0, 0)%Z (0, 3)%Z; OpGlue (0, 1)%Z (0, 4)%Z; OpGlue (0, 2)%Z (0, 5)%Z; OpSetRoot 0%Z] empty.
Lemma ex_torus_intact : intact (plen cqF) ex_torus.
Proof. apply reachable_intact; [eexists; split; [|reflexivity]; repeat constructor; cbn; lia|vm_compute; reflexivity]. Qed.
Lemma ex_torus_proper : proper_polygons ex_torus.
Proof. apply ex_proper. vm_compute. reflexivity. Qed.
Lemma ex_closed (s : @surf (polygon cqF)) p : intact (plen cqF) s ->
  (exists n, forallb (fun e => match opposite_edge s p (Z.of_nat e) with Ok (Some _) => true | _ => false end) (seq 0 n) = true /\ forall P, get_polygon s p = Ok P -> length P = n) -> all_glued s p.
Proof.
  intros I (n & F & N) [l e] Hx <-. destruct (C01_well_defined _ s I _ Hx) as [[_ A]|G]; auto. exfalso. cbn [fst snd] in *.
  destruct Hx as [P [EP H]]. cbn [fst snd] in *. rewrite forallb_forall in F. specialize (F (Z.to_nat e)). rewrite Z2Nat.id, A in F by lia.
  rewrite (N P EP) in H. rewrite in_seq in F. discriminate F. lia.
Qed.
Lemma ex_torus_closed : all_glued ex_torus 0%Z.
Proof.
  apply ex_closed; [exact ex_torus_intact|]. exists 6. split; [vm_compute; reflexivity|].
  intros P E. change (get_polygon ex_torus 0%Z) with (Ok ex_hexagon) in E. injection E as <-. reflexivity.
Qed.
Lemma ex_check (P : polygon cqF) : match polygon_check P with Ok _ => true | Err _ => false end = true -> proper P.
Proof.
  destruct (polygon_check P) as [[]|] eqn:C; [|discriminate]. intros _. apply polygon_check_spec in C. destruct C as [[A B] [D F]]. split; auto.
Qed.
Lemma ex_torus_label l : is_label ex_torus l -> l = 0%Z.
Proof. intros H. apply is_label_keys in H. vm_compute in H. intuition. Qed.
Example C41_ex : exists t k u, subdivide_polygon 0%Z 4 1 None ex_torus = (t, Ok tt) /\ polygon_cut ex_torus t 0%Z k ex_hexagon 4 1 /\
  join_polygons 0%Z 0 true t = (u, Ok tt) /\ intact (plen cqF) u /\ renumbered ex_torus u 0%Z ex_hexagon 4.
Proof.
  apply C41_roundtrip.
  - exact ex_torus_intact. - vm_compute; reflexivity. - exact ex_torus_proper. - vm_compute; reflexivity.
  - unfold diagonal. cbn. lia.
  - exact ex_torus_closed.
  - apply ex_check. vm_compute. reflexivity. - apply ex_check. vm_compute. reflexivity.
  - discriminate.
  - intros l l' H H'. apply ex_torus_label in H, H'. subst. apply Relation_Operators.rt_refl.
  - intros x Hx. vm_compute in Hx. intuition.
Qed.
(** the pieces are quadrangles, the edge 1 of the new polygon is glued to the edge 1 of the other one *)
Example C41_ex_gluing : let t := fst (subdivide_polygon 0%Z 4 1 None ex_torus) in
  match opposite_edge t 1%Z 1%Z with Ok (Some y) => y | _ => (9, 9)%Z end = (0, 1)%Z /\
  match opposite_edge t 1%Z 3%Z with Ok (Some y) => y | _ => (9, 9)%Z end = (0, 3)%Z /\
  map (fun lp => length (snd lp)) (polys t) = [4; 4].
Proof. vm_compute. auto. Qed.
(** the diagonal from 0 to 2 passes outside of the polygon, the one from 1 to 3 does not, but the polygon has boundary edges *)
Definition ex_arrow : polygon cqF := [qv 0 0; qv 2 1; qv 0 2; qv 1 1].
Example C41_ex_rejects : subdivide_polygon 0%Z 0 2 None (run (plen cqF) [OpAdd ex_arrow None] empty) = (run (plen cqF) [OpAdd ex_arrow None] empty, Err ValueError) /\
  snd (subdivide_polygon 0%Z 1 3 None (run (plen cqF) [OpAdd ex_arrow None] empty)) = Err TypeError.
Proof. split; vm_compute; reflexivity. Qed.

(** ** Findings *)
(** The polygons cannot be joined in a copy. *)
Theorem C41_join_copy_refuted : forall (K : OField) (s : @surf (polygon K)) p e, join_polygons p e false s = (s, Err AttributeError).
Proof. reflexivity. Qed.
Print Assumptions C41_join_copy_refuted.
(** The root of a connected surface is forgotten when it is cut, and when it is joined. *)
Theorem C41_root_refuted : exists (s t u : @surf (polygon cqF)), intact (plen cqF) s /\ proper_polygons s /\ (forall l l', is_label s l -> is_label s l' -> linked (plen cqF) s l l') /\
  subdivide_polygon 1%Z 0 2 None s = (t, Ok tt) /\ join_polygons 1%Z 1 true s = (u, Ok tt) /\ get_roots (plen cqF) s = Ok [1%Z] /\ get_roots (plen cqF) t = Ok [0%Z] /\ roots_ u = nil.
Proof.
  exists ex_two, (fst (subdivide_polygon 1%Z 0 2 None ex_two)), (fst (join_polygons 1%Z 1 true ex_two)). split; [exact ex_two_intact|]. split; [exact ex_two_proper|]. split; [exact ex_two_connected|].
  split; [vm_compute; reflexivity|]. split; [vm_compute; reflexivity|]. split; [vm_compute; reflexivity|]. split; vm_compute; reflexivity.
Qed.
Print Assumptions C41_root_refuted.
(** There is an AssertionError if the root is another polygon and the pieces are first glued to polygons that are not
    connected to the root: the polygon 1 is glued to 2 and 3 and to the root 0. *)
Definition ex_fan : @surf (polygon cqF) := run (plen cqF) [OpAdd ex_sq None; OpAdd ex_hexagon None; OpAdd [qv 0 0; qv 1 1; qv 0 1] None; OpAdd [qv 0 0; qv (-1) 1; qv (-1) 0] None;
  OpGlue (1, 1)%Z (2, 0)%Z; OpGlue (1, 2)%Z (3, 0)%Z; OpGlue (2, 1)%Z (2, 2)%Z; OpGlue (3, 1)%Z (3, 2)%Z; OpGlue (1, 0)%Z (0, 0)%Z; OpGlue (1, 3)%Z (0, 1)%Z; OpGlue (1, 4)%Z (0, 2)%Z; OpGlue (1, 5)%Z (0, 3)%Z;
  OpSetRoot 0%Z] empty.
Theorem C41_subdivide_roots_refuted : exists s : @surf (polygon cqF), intact (plen cqF) s /\ proper_polygons s /\ mutable s = true /\ all_glued s 1%Z /\ get_roots (plen cqF) s = Ok [0%Z] /\
  snd (subdivide_polygon 1%Z 3 1 None s) = Err AssertionError.
Proof.
  exists ex_fan. assert (I : intact (plen cqF) ex_fan) by (apply reachable_intact; [eexists; split; [|reflexivity]; repeat constructor; cbn; lia|vm_compute; reflexivity]).
  split; [exact I|]. split; [apply ex_proper; vm_compute; reflexivity|]. split; [vm_compute; reflexivity|]. split; [|split; vm_compute; reflexivity].
  apply ex_closed; auto. exists 6. split; [vm_compute; reflexivity|]. intros P E. change (get_polygon ex_fan 1%Z) with (Ok ex_hexagon) in E. injection E as <-. reflexivity.
Qed.
Print Assumptions C41_subdivide_roots_refuted.
(** There is a TypeError if the polygon has a boundary edge, the polygon has been replaced by its pieces at that point, but
    some of its edges have not been glued again: here the edge between the polygons 0 and 1. *)
Definition ex_strip : @surf (polygon cqF) := run (plen cqF) [OpAdd ex_sq None; OpAdd ex_sq None; OpGlue (0, 1)%Z (1, 3)%Z] empty.
Theorem C41_subdivide_boundary_refuted : exists s : @surf (polygon cqF), intact (plen cqF) s /\ proper_polygons s /\ mutable s = true /\ glued (plen cqF) s (1, 3)%Z (0, 1)%Z /\
  let r := subdivide_polygon 1%Z 0 2 None s in snd r = Err TypeError /\ length (polys (fst r)) = 3 /\ opposite_edge (fst r) 0%Z 1%Z = Ok None.
Proof.
  exists ex_strip. split; [apply reachable_intact; [eexists; split; [|reflexivity]; repeat constructor; cbn; lia|vm_compute; reflexivity]|].
  split; [apply ex_proper; vm_compute; reflexivity|]. split; [vm_compute; reflexivity|]. split.
  { split; [|vm_compute; reflexivity]. exists ex_sq. split; [vm_compute; reflexivity|cbn; lia]. }
  cbv zeta. split; [vm_compute; reflexivity|]. split; vm_compute; reflexivity.
Qed.
Print Assumptions C41_subdivide_boundary_refuted.
