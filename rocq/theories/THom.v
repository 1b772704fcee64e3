(** C25, C26, C27, C54: chains, homology and the intersection form. *)
From Coq Require Import List Bool ZArith Arith Lia Ring Ring_theory Permutation.
From Verif Require Import MBase MDict PDict MComb SComb PClos PComb PParity MHom SHom PHom PHom2.
Import ListNotations.

Section T.
Context {L : Type} `{EL : EqB L} {R : Type} `{ER : EqB R}.
Variables (rO rI : R) (radd rmul : R -> R -> R) (ropp : R -> R).
Hypothesis Rth : coeff_ring rO rI radd rmul ropp.
Variable S : csurf L.
Hypothesis CV : cvalid S.
Hypothesis CC : cclosed S.
Notation coef := (coef rO).
Notation boundary1 := (boundary1 rO radd ropp S).
Notation boundary2 := (boundary2 rO radd ropp S).
Notation along := (along rO radd ropp S).
Notation cycle := (cycle rO radd ropp S).
Notation faces := (faces rO S).
Notation inter := (algebraic_intersection rO radd rmul ropp S).
Notation edges := (chain_ok rO (fun d => In d (simplices1 S))).

(** the simplices of dimension one contain exactly one edge of each glued pair *)
Theorem C25_simplices : NoDup (simplices1 S) /\
  (forall d, In d (simplices1 S) -> is_dart S d) /\
  (forall d c, is_dart S d -> c_opp S d = Some c -> (In d (simplices1 S) \/ In c (simplices1 S)) /\
    (c <> d -> In d (simplices1 S) -> ~ In c (simplices1 S))).
Proof.
  destruct (simplices_spec S CV CC) as (S1 & S2 & S3 & S4). split; auto. split.
  - intros d J. apply In_darts. auto.
  - intros d c D O. apply In_darts in D. specialize (S3 d D). specialize (S4 d D). unfold opp in S3, S4. rewrite O in S3, S4. auto.
Qed.
(** the simplices of dimension zero are the vertices *)
Theorem C25_vertices : has_classes (is_dart S) (same_vertex S) (length (vertices S)) /\
  (forall d, is_dart S d -> In (point S d) (vertices S) /\ same_vertex S (point S d) d).
Proof.
  assert (P : forall d, is_dart S d -> In (point S d) (vertices S) /\ same_vertex S (point S d) d).
  { intros d D. apply In_darts in D. destruct (point_spec S CV CC d D) as [P J]. split; auto.
    apply (ccw_vertex S CV CC); auto. now apply vertex_dart. }
  split; auto. exists (vertices S). destruct (vertices_spec S CV CC) as (V1 & V2 & V3 & V4).
  split; auto. split; auto. split; [|split].
  - intros x J. apply In_darts. auto.
  - intros x D. exists (point S x). destruct (P x D). split; auto. now apply Relations.Relation_Operators.rst_sym.
  - intros x y X Y J. apply (ccw_vertex S CV CC) in J; auto. apply (V4 x y y); auto. apply ccw_start; auto.
Qed.
(** the boundary of a chain of edges: what arrives at the vertex minus what leaves; nothing at the relative points *)
Theorem C25_edges rel a v es : edges a -> In v (vertices S) ->
  NoDup es -> (forall d, In d es <-> is_dart S d /\ same_vertex S v d) ->
  coef (boundary1 rel a) v = if mem v rel then rO else ropp (fold_right radd rO (map (along a) es)).
Proof.
  intros A V N E. rewrite (boundary1_vertex _ _ _ _ _ Rth S CV CC rel a v A V). destruct (mem v rel); auto. f_equal.
  rewrite (rsum_fold rO radd). pose proof (vertex_dart S CV CC v V) as Dv. apply (rsum_perm _ _ _ _ _ Rth).
  apply NoDup_Permutation; auto; [now apply ccw_nodup|]. intros d. rewrite E. split.
  - intros J. pose proof (ccw_incl S CV CC v Dv d J) as D. split; [now apply In_darts|]. now apply (ccw_vertex S CV CC).
  - intros [D J]. apply In_darts in D. now apply (ccw_vertex S CV CC).
Qed.
(** the boundary of a chain of polygons: what is on the left of the edge minus what is on the right *)
Theorem C25_faces c : faces c -> edges (boundary2 c) /\
  forall d d', is_dart S d -> c_opp S d = Some d' ->
    along (boundary2 c) d = radd (coef c (fst d)) (ropp (coef c (fst d'))).
Proof.
  intros F. split.
  - apply (boundary2_spec _ _ _ _ _ Rth S CV CC). intros x r I. now apply (proj2 F x r).
  - intros d d' D O. apply In_darts in D. rewrite (boundary2_along _ _ _ _ _ Rth S CV CC c d F D). unfold opp. now rewrite O.
Qed.
(** the boundary of a boundary is zero *)
Theorem C25_boundary rel c : faces c -> boundary1 rel (boundary2 c) = nil.
Proof. apply (boundary_boundary _ _ _ _ _ Rth S CV CC). Qed.

(** the intersection is defined exactly for cycles *)
Theorem C26_defined a b : edges a -> edges b -> ((exists i, inter a b = Ok i) <-> cycle a /\ cycle b).
Proof.
  intros A B. split.
  - intros [i E]. apply (around_ok _ _ _ _ _ Rth S CV CC) in E. destruct E as [Za Zb].
    split; split; auto; apply (cycle_balanced_iff _ _ _ _ _ Rth S CV CC); auto.
  - intros [Ca Cb]. eexists. apply (around_spec _ _ _ _ _ Rth S CV CC); apply (cycle_balanced _ _ _ _ _ Rth S CV CC); auto.
Qed.
(** it is antisymmetric *)
Theorem C26_antisymmetric a b i : cycle a -> cycle b -> inter a b = Ok i -> inter b a = Ok (ropp i).
Proof.
  intros A B. apply (cycle_balanced _ _ _ _ _ Rth S CV CC) in A. apply (cycle_balanced _ _ _ _ _ Rth S CV CC) in B.
  rewrite !(around_spec _ _ _ _ _ Rth S CV CC) by auto. intros E. injection E as <-. f_equal.
  apply (add_opp_unique _ _ _ _ _ Rth). apply (form_antisym _ _ _ _ _ Rth S CV CC); auto.
Qed.
(** it is linear in both arguments *)
Theorem C26_bilinear a a' b r i i' : cycle a -> cycle a' -> cycle b ->
  (inter a b = Ok i -> inter a' b = Ok i' ->
    inter (cadd rO radd a a') b = Ok (radd i i') /\ inter (cscale rO radd rmul r a) b = Ok (rmul r i)) /\
  (inter b a = Ok i -> inter b a' = Ok i' ->
    inter b (cadd rO radd a a') = Ok (radd i i') /\ inter b (cscale rO radd rmul r a) = Ok (rmul r i)).
Proof.
  intros A A' B.
  pose proof (cycle_add _ _ _ _ _ Rth S CV CC a a' A A') as Q1. pose proof (cycle_scale _ _ _ _ _ Rth S CV CC r a A) as Q2.
  destruct (cadd_spec _ _ _ _ _ Rth _ a a' (proj1 A) (proj1 A')) as [_ E1].
  destruct (cscale_spec _ _ _ _ _ Rth _ r a (proj1 A)) as [_ E2].
  apply (cycle_balanced _ _ _ _ _ Rth S CV CC) in A, A', B, Q1, Q2.
  rewrite !(around_spec _ _ _ _ _ Rth S CV CC) by auto.
  split; intros H H'; injection H as <-; injection H' as <-; split; f_equal.
  - rewrite <- (form_add_l _ _ _ _ _ Rth). eapply form_ext; eauto.
  - rewrite <- (form_scale_l _ _ _ _ _ Rth). eapply form_ext; eauto.
  - rewrite <- (form_add_r _ _ _ _ _ Rth). eapply form_ext; eauto.
  - rewrite <- (form_scale_r _ _ _ _ _ Rth). eapply form_ext; eauto.
Qed.
(** it depends only on the homology classes *)
Theorem C26_homology a a' b i : cycle a -> cycle a' -> cycle b -> homologous rO radd ropp S a a' ->
  inter a b = Ok i -> inter a' b = Ok i /\ inter b a' = inter b a.
Proof.
  intros A A' B [c [F E]]. apply (cycle_balanced _ _ _ _ _ Rth S CV CC) in A, A', B.
  pose proof (cycle_balanced _ _ _ _ _ Rth S CV CC _ (cycle_boundary _ _ _ _ _ Rth S CV CC c F)) as D.
  rewrite !(around_spec _ _ _ _ _ Rth S CV CC) by auto. intros H. injection H as <-.
  pose proof (form_boundary _ _ _ _ _ Rth S CV CC _ c B F) as Z.
  assert (Z' : form rO radd rmul ropp S (coef (boundary2 c)) (coef b) = rO).
  { pose proof (form_antisym _ _ _ _ _ Rth S CV CC _ _ D B) as Y. rewrite Z in Y. now rewrite (add_0_r _ _ _ _ _ Rth) in Y. }
  split; f_equal.
  - transitivity (form rO radd rmul ropp S (fun x => radd (coef a' x) (coef (boundary2 c) x)) (coef b)).
    + rewrite (form_add_l _ _ _ _ _ Rth), Z'. now rewrite (add_0_r _ _ _ _ _ Rth).
    + eapply form_ext; eauto.
  - transitivity (form rO radd rmul ropp S (coef b) (fun x => radd (coef a' x) (coef (boundary2 c) x))).
    + rewrite (form_add_r _ _ _ _ _ Rth), Z. now rewrite (add_0_r _ _ _ _ _ Rth).
    + eapply form_ext; eauto.
Qed.

(** the truth value is that of the chain: [False] implies that the class is zero; the converse is C27_bool_refuted *)
Theorem C27_bool_partial a : edges a -> (cbool a = false <-> forall d, coef a d = rO) /\ (cbool a = false -> homologous rO radd ropp S a nil).
Proof.
  intros A. assert (X : cbool a = false <-> forall d, coef a d = rO).
  { split; [destruct a; [reflexivity|discriminate]|]. intros Z. rewrite (ok_zero rO _ a A); auto. }
  split; auto. intros Z. rewrite X in Z. exists nil. split; [split; [constructor|intros x r []]|].
  intros d. rewrite Z. unfold MHom.coef. cbn. now rewrite (add_0_r _ _ _ _ _ Rth).
Qed.
(** what the comparison of groups guarantees; the degree is missing: C27_groups_refuted *)
Theorem C27_groups_partial {T C P I Ca : Type} `{EqB T} `{EqB C} `{EqB P} `{EqB I} `{EqB Ca} (x y : hgroup T C P I Ca) :
  hgroup_eqb x y = true <-> h_surface x = h_surface y /\ h_coefficients x = h_coefficients y /\ h_relative x = h_relative y /\
    h_implementation x = h_implementation y /\ h_category x = h_category y.
Proof.
  unfold hgroup_eqb. rewrite !andb_true_iff, !(eqb_ok _ _). tauto.
Qed.

(** an edge and its opposite edge are negatives of each other, in homology even as chains, and a chain is the sum of its
    edges; missing: edges glued to themselves, C54_refuted *)
Theorem C54_opposite_partial d c : is_dart S d -> c_opp S d = Some c -> c <> d ->
  edges (of_edge rO rI radd rmul ropp S d) /\
  forall x, coef (of_edge rO rI radd rmul ropp S d) x = ropp (coef (of_edge rO rI radd rmul ropp S c) x).
Proof.
  intros D O N. apply In_darts in D. assert (Q : opp S d = c) by (unfold opp; now rewrite O). rewrite <- Q.
  apply (of_edge_opp _ _ _ _ _ Rth S CV CC); auto. now rewrite Q.
Qed.
Theorem C54_sum d : is_dart S d ->
  forall x, is_dart S x -> along (of_edge rO rI radd rmul ropp S d) x =
    radd (if eqb d x then rI else rO) (ropp (if eqb d (opp S x) then rI else rO)).
Proof. intros D x X. apply In_darts in D, X. now apply (of_edge_along _ _ _ _ _ Rth S CV CC). Qed.
End T.
Print Assumptions C25_simplices.
Print Assumptions C25_vertices.
Print Assumptions C25_edges.
Print Assumptions C25_faces.
Print Assumptions C25_boundary.
Print Assumptions C26_defined.
Print Assumptions C26_antisymmetric.
Print Assumptions C26_bilinear.
Print Assumptions C26_homology.
Print Assumptions C27_bool_partial.
Print Assumptions C27_groups_partial.
Print Assumptions C54_opposite_partial.
Print Assumptions C54_sum.

(** ** Integer coefficients *)
Lemma Z_coeff : coeff_ring 0%Z 1%Z Z.add Z.mul Z.opp.
Proof. unfold coeff_ring. constructor; intros; ring. Qed.
Definition hex_pairs (gs : list ((nat * nat) * (nat * nat))) (d : nat * nat) : option (nat * nat) :=
  match List.find (fun g => eqb (fst g) d || eqb (snd g) d) gs with
  | Some g => Some (if eqb (fst g) d then snd g else fst g)
  | None => None
  end.
(** a torus made of two triangles: one square, cut along a diagonal *)
Definition two_triangles : csurf nat :=
  CSurf [0; 1] (fun _ => 3) (hex_pairs [((0,0),(1,0)); ((0,1),(1,1)); ((0,2),(1,2))]).
(** a sphere: one square, each edge glued to itself *)
Definition pillow : csurf nat := CSurf [0] (fun _ => 4) (fun d => Some d).
Lemma valid_check (P : csurf nat) : NoDup (c_labels P) ->
  (forallb (fun d => match c_opp P d with Some c => mem c (darts P) &&
     match c_opp P c with Some d' => eqb d d' | None => false end | None => false end) (darts P) = true) -> cvalid P /\ cclosed P.
Proof.
  intros ND F. rewrite forallb_forall in F. split; [constructor; auto|].
  - intros d c D O. apply In_darts in D. specialize (F d D).
    rewrite O in F. apply andb_true_iff in F. destruct F as [F1 F2]. split; [now apply In_darts, mem_In|].
    destruct (c_opp P c) as [d'|]; [|discriminate]. apply (eqb_ok d d') in F2. now subst.
  - intros d D O. apply In_darts in D. specialize (F d D). rewrite O in F. discriminate.
Qed.
Lemma two_triangles_ok : cvalid two_triangles /\ cclosed two_triangles.
Proof. apply valid_check; [repeat constructor; cbn; intuition discriminate|reflexivity]. Qed.
Lemma pillow_ok : cvalid pillow /\ cclosed pillow.
Proof. apply valid_check; [repeat constructor; cbn; intuition discriminate|reflexivity]. Qed.
Notation cycleZ := (cycle 0%Z Z.add Z.opp).
Notation facesZ := (faces 0%Z).
Notation interZ := (algebraic_intersection 0%Z Z.add Z.mul Z.opp).
Notation homologousZ := (homologous 0%Z Z.add Z.opp).
Notation edgeZ := (of_edge 0%Z 1%Z Z.add Z.mul Z.opp).
Notation boundary2Z := (boundary2 0%Z Z.add Z.opp).
Ltac chain_tac := split; [repeat constructor; cbn; intuition discriminate|
  let x := fresh in let r := fresh in let I := fresh in
  intros x r I; cbn in I; repeat (destruct I as [I|I]; [injection I as <- <-; split; [vm_compute; auto 12|discriminate]|]); destruct I].

Example ex_torus_simplices : simplices1 two_triangles = [(0,0); (0,1); (0,2)] /\ length (vertices two_triangles) = 1.
Proof. vm_compute. auto. Qed.
Example ex_torus_cycles : cycleZ two_triangles [((0,0), 1%Z)] /\ cycleZ two_triangles [((0,1), 1%Z)] /\ cycleZ two_triangles [((0,0), 2%Z); ((0,2), (-3)%Z)].
Proof. split; [|split]; (split; [chain_tac|reflexivity]). Qed.
Example ex_torus_faces : facesZ two_triangles [(0, 1%Z)] /\ boundary2Z two_triangles [(0, 1%Z)] = [((0,0), 1%Z); ((0,1), 1%Z); ((0,2), 1%Z)].
Proof. split; [chain_tac|reflexivity]. Qed.
Example ex_torus_form : interZ two_triangles [((0,0), 1%Z)] [((0,1), 1%Z)] = Ok 1%Z /\ interZ two_triangles [((0,1), 1%Z)] [((0,0), 1%Z)] = Ok (-1)%Z /\
  interZ two_triangles [((0,0), 1%Z)] [((0,0), 1%Z)] = Ok 0%Z /\ interZ two_triangles [((0,0), 2%Z); ((0,2), (-3)%Z)] [((0,1), 1%Z)] = Ok 5%Z.
Proof. vm_compute. auto. Qed.
(** adding the boundary of a triangle does not change the intersection *)
Example ex_torus_homology : cadd 0%Z Z.add [((0,0), 1%Z)] (boundary2Z two_triangles [(0, 1%Z)]) = [((0,0), 2%Z); ((0,1), 1%Z); ((0,2), 1%Z)] /\
  interZ two_triangles [((0,0), 2%Z); ((0,1), 1%Z); ((0,2), 1%Z)] [((0,1), 1%Z)] = Ok 1%Z.
Proof. vm_compute. auto. Qed.
(** a chain that is not closed: one edge of a square whose opposite edges are glued crosswise *)
Definition crossed : csurf nat := CSurf [0] (fun _ => 4) (hex_pairs [((0,0),(0,1)); ((0,2),(0,3))]).
Example ex_not_closed : interZ crossed [((0,0), 1%Z)] [((0,0), 1%Z)] = Err TypeError /\ interZ crossed nil [((0,0), 1%Z)] = Err ValueError.
Proof. vm_compute. auto. Qed.

(** the boundary of a triangle is zero in homology, but its truth value is [True] *)
Theorem C27_bool_refuted : exists a, cycleZ two_triangles a /\ homologousZ two_triangles a nil /\ cbool a = true.
Proof.
  exists (boundary2Z two_triangles [(0, 1%Z)]). destruct two_triangles_ok as [V C]. split; [|split].
  - apply (cycle_boundary _ _ _ _ _ Z_coeff _ V C). chain_tac.
  - exists [(0, 1%Z)]. split; [chain_tac|]. intros d. reflexivity.
  - reflexivity.
Qed.
(** the homology groups of different degrees of the same surface compare equal *)
Theorem C27_groups_refuted : exists x y : hgroup nat nat nat nat nat, hgroup_eqb x y = true /\ h_k x <> h_k y /\ x <> y.
Proof. exists (HGroup 0 0%Z 0 0 0 0), (HGroup 0 1%Z 0 0 0 0). split; [reflexivity|]. split; discriminate. Qed.
(** an edge that is glued to itself is not the negative of itself, no multiple of it is zero, and the sphere has
    non-trivial homology *)
Theorem C54_refuted : cvalid pillow /\ cclosed pillow /\ c_opp pillow (0, 0) = Some (0, 0) /\
  cycleZ pillow (edgeZ pillow (0, 0)) /\
  forall m, m <> 0%Z -> ~ homologousZ pillow (cscale 0%Z Z.add Z.mul m (edgeZ pillow (0, 0))) nil.
Proof.
  destruct pillow_ok as [V C]. do 3 (split; auto). split.
  - change (edgeZ pillow (0, 0)) with [((0, 0), 1%Z)]. split; [chain_tac|reflexivity].
  - intros m M [c [F E]]. assert (B : forall d, In d (darts pillow) -> coef 0%Z (boundary2Z pillow c) d = coef 0%Z c 0).
    { intros d D. rewrite (boundary2_coef _ _ _ _ _ Z_coeff _ V C c d F D). cbn in D.
      repeat (destruct D as [<-|D]; [vm_compute (mem _ _); vm_compute (eqb _ _); cbn [fst]; ring|]). destruct D. }
    pose proof (E (0, 0)) as E0. pose proof (E (0, 1)) as E1. rewrite B in E0, E1 by (cbn; auto).
    unfold cscale in E0, E1. change (edgeZ pillow (0, 0)) with [((0, 0), 1%Z)] in E0, E1. cbn [fold_left fst snd] in E0, E1.
    unfold acc in E0, E1. cbn [coef dget] in E0, E1. change (coef 0%Z nil (0, 0)) with 0%Z in E0, E1.
    rewrite Z.mul_1_r, Z.add_0_l in E0, E1. apply eqb_neq in M. rewrite M in E0, E1.
    apply eqb_neq in M. cbn in E0, E1. lia.
Qed.
Print Assumptions C27_bool_refuted.
Print Assumptions C27_groups_refuted.
Print Assumptions C54_refuted.
