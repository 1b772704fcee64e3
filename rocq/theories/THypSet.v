(** Theorems C69-C70: ordered sets of half spaces, and intersections of convex sets of the hyperbolic plane. *)
From Coq Require Import List Bool ZArith QArith Lia Ring Field Sorted Permutation.
From Verif Require Import OField FMicromega PField MBase MEuclid PEuclid SEuclid PRotate MHyp SHyp PHyp PHyp2 PHyp3 PHyp4 PHyp7 MHypSet SHypSet PHypSet PHypSet2 PHypSet3 PHypSet4 PHypSet5 PHypSet6 PHypSet7 PHypSet8 PHypSet9 TEuclid ExTab THyp.
Import ListNotations.

(** ** C69 *)
(** any order: sets are sorted without repetitions and contain the entries up to elements that are incomparable *)
Theorem C69_generic {A : Type} (lt : A -> A -> bool) (D : A -> Prop) :
  (forall x, D x -> lt x x = false) -> (forall x y z, D x -> D y -> D z -> lt x y = true -> lt y z = true -> lt x z = true) ->
  (forall x y z, D x -> D y -> D z -> lt x y = false -> lt y x = false -> lt y z = false -> lt z y = false -> lt x z = false /\ lt z x = false) ->
  forall l, Forall D l -> StronglySorted (fun x y => lt x y = true) (ordered_set lt l) /\ incl (ordered_set lt l) l /\
    (forall x, In x l -> exists y, In y (ordered_set lt l) /\ lt x y = false /\ lt y x = false).
Proof.
  intros I T E l F. destruct (ordered_set_ok lt D T) with (l := l) as [A1 [A2 A3]]; auto. unfold eqv. intros x y z X Y Z [H1 H2] [H3 H4]. now apply (E x y z).
Qed.
Section C69.
Context {K : OField}.
Add Field KF : (of_ft K).
Local Open Scope res_scope. Local Open Scope F_scope.
Implicit Types p q x y z : vec K.
Implicit Types f g h u v w : geo K.
Implicit Types l m : list (geo K).

(** the order of half spaces; incomparable half spaces are equal *)
Theorem C69_order : (forall u, line u -> hs_lt u u = false) /\ (forall u v w, line u -> line v -> line w -> hs_lt u v = true -> hs_lt v w = true -> hs_lt u w = true) /\
  (forall u v, line u -> line v -> (hs_lt u v = false /\ hs_lt v u = false <-> same_oriented u v)).
Proof. split; [exact hs_irrefl|]. split; [exact hs_trans|]. intros u v L M. now apply (eqv_same u v). Qed.
Lemma nested_base u v : line u -> line v -> (forall p, left_of u p -> left_of v p) -> same_dir u v /\ exists p, ev u p = 0 /\ 0 <= ev v p.
Proof.
  intros L M H.
  assert (NN : 0 < g_b u * g_b u + g_c u * g_c u) by (apply fsum_sq_pos; unfold line in L; tauto).
  (* the base point of u, moved along u *)
  set (p := (- g_a u * g_b u / (g_b u * g_b u + g_c u * g_c u), - g_a u * g_c u / (g_b u * g_b u + g_c u * g_c u)) : vec K).
  assert (O : ev u p = 0) by (unfold ev, geo_eval, p; cbn; field; apply fpos_neq0; exact NN).
  assert (LE : forall t s, 0 <= s -> 0 <= ev v p + t * (g_b v * g_c u - g_c v * g_b u) + s * (g_b v * g_b u + g_c v * g_c u)).
  { intros t s S. assert (Z : left_of v (vadd p (vadd (vscale t (g_c u, - g_b u)) (vscale s (g_b u, g_c u))))).
    { apply H. change (0 <= ev u (vadd p (vadd (vscale t (g_c u, - g_b u)) (vscale s (g_b u, g_c u))))). assert (EQ : ev u (vadd p (vadd (vscale t (g_c u, - g_b u)) (vscale s (g_b u, g_c u)))) = ev u p + s * (g_b u * g_b u + g_c u * g_c u)) by (unfold ev, geo_eval, vadd, vscale; cbn; ring). rewrite EQ, O. assert (0 <= s * (g_b u * g_b u + g_c u * g_c u)) by (apply fmul_nonneg; flra). flra. }
    change (0 <= ev v (vadd p (vadd (vscale t (g_c u, - g_b u)) (vscale s (g_b u, g_c u))))) in Z. assert (EQ : ev v (vadd p (vadd (vscale t (g_c u, - g_b u)) (vscale s (g_b u, g_c u)))) = ev v p + t * (g_b v * g_c u - g_c v * g_b u) + s * (g_b v * g_b u + g_c v * g_c u)) by (unfold ev, geo_eval, vadd, vscale; cbn; ring). now rewrite EQ in Z. }
  assert (D0 : g_b v * g_c u - g_c v * g_b u = 0).
  { destruct (feq_dec (g_b v * g_c u - g_c v * g_b u) 0) as [Z|Z]; auto. exfalso. specialize (LE (- (ev v p + 1) / (g_b v * g_c u - g_c v * g_b u)) 0). rewrite fdiv_mul in LE by auto. assert (Q : (0 : K) <= 0) by flra. specialize (LE Q). flra. }
  assert (P0 : 0 <= ev v p) by (assert (Q : (0 : K) <= 0) by flra; specialize (LE 0 0 Q); flra).
  assert (DN : 0 < dotn u v).
  { unfold dotn. destruct (0 <? g_b u * g_b v + g_c u * g_c v) eqn:Q; bools; auto. exfalso. assert (Q' : g_b u * g_b v + g_c u * g_c v < 0 \/ g_b u * g_b v + g_c u * g_c v = 0) by (apply fle_lteq; exact Q). destruct Q' as [Q'|Q'].
    - set (d := - (g_b u * g_b v + g_c u * g_c v)). assert (Dp : 0 < d) by (unfold d; flra). assert (S : 0 <= (ev v p + 1) / d) by (assert (0 < (ev v p + 1) / d) by (apply fdiv_pos; auto; flra); flra). specialize (LE 0 ((ev v p + 1) / d) S). assert (EQ : (ev v p + 1) / d * (g_b v * g_b u + g_c v * g_c u) = - ((ev v p + 1) / d * d)) by (unfold d; ring). rewrite EQ, fdiv_mul in LE by (apply fpos_neq0; auto). flra.
    - assert (Zb : (g_b u * g_b u + g_c u * g_c u) * g_b v = 0) by (transitivity (g_b u * (g_b u * g_b v + g_c u * g_c v) + g_c u * (g_b v * g_c u - g_c v * g_b u)); [ring|rewrite Q', D0; ring]).
      assert (Zc : (g_b u * g_b u + g_c u * g_c u) * g_c v = 0) by (transitivity (g_c u * (g_b u * g_b v + g_c u * g_c v) - g_b u * (g_b v * g_c u - g_c v * g_b u)); [ring|rewrite Q', D0; ring]).
      apply fmul_eq0 in Zb. apply fmul_eq0 in Zc. assert (g_b u * g_b u + g_c u * g_c u <> 0) by (apply fpos_neq0; auto). destruct M as [M|M]; tauto. }
  split; [split; auto; apply det_zero_sym; unfold det; exact D0|]. exists p. split; auto.
Qed.
Lemma nested_dir u v : line u -> line v -> (forall p, left_of u p -> left_of v p) -> same_dir u v.
Proof. intros L M H. now apply nested_base. Qed.
(** half spaces that are contained in other half spaces are smaller *)
Theorem C69_nested u v : line u -> line v -> (forall p, left_of u p -> left_of v p) -> ~ same_oriented u v -> hs_lt u v = true.
Proof.
  intros L M H N. destruct (hs_lt u v) eqn:E1; auto. exfalso. destruct (hs_lt v u) eqn:E2; [|apply N; apply eqv_same; auto; split; auto].
  destruct (nested_base u v L M H) as [[D0 DN] [p [O P0]]]. assert (SD : same_dir v u) by (split; [now apply det_zero_sym|unfold dotn in *; flra]). assert (DV := proj1 SD).
  apply (hs_lt_iff v u M L) in E2. rewrite DV in E2. destruct E2 as [[E2 E3]|[_ [E2|[_ E2]]]]; [exact (left_right v u M L E2 E3 SD)|flra|].
  destruct (scale_normal v u M SD) as [s [S [B [C E]]]]. apply (smaller_scale v u s M E) in E2. assert (EQ : s * ev v p = s * g_a v - g_a u) by (transitivity (s * ev v p - ev u p); [rewrite O; ring|unfold ev, geo_eval; rewrite B, C; ring]). assert (0 <= s * ev v p) by (apply fmul_nonneg; flra). flra.
Qed.
(** the set of half spaces of a list *)
Theorem C69_set l : Forall line l -> increasing hs_lt (half_spaces_set l) /\ incl (half_spaces_set l) l /\ represented l (half_spaces_set l) /\ (forall p, common (half_spaces_set l) p <-> common l p).
Proof.
  intros F. destruct (half_spaces_set_ok l F) as [A [I C]]. split; auto. split; auto. assert (F' : Forall line (half_spaces_set l)) by (rewrite Forall_forall in *; auto). apply covered_represented in C; auto. split; auto.
  intros p. split; intros [D H]; split; auto; intros h Hh; auto. destruct (C h Hh) as [g [G E]]. apply E. auto.
Qed.
(** the union of sets of half spaces *)
Theorem C69_merge l m : Forall line l -> Forall line m -> increasing hs_lt l -> increasing hs_lt m ->
  increasing hs_lt (merge2 hs_lt l m) /\ incl (merge2 hs_lt l m) (l ++ m) /\ represented (l ++ m) (merge2 hs_lt l m).
Proof.
  intros L M Il Im. destruct (merge2_half_spaces l m L M Il Im) as [A [I C]]. split; auto. split; auto. assert (F : Forall line (l ++ m)) by (apply Forall_app; auto). apply covered_represented; auto. rewrite Forall_forall in *. auto.
Qed.
(** two sets with the same half spaces are equal *)
Theorem C69_equal l m : Forall line l -> Forall line m -> increasing hs_lt l -> increasing hs_lt m -> (half_spaces_eqb l m = true <-> represented l m /\ represented m l).
Proof.
  intros L M Il Im. rewrite (eqb_list l m L M). split; [|intros [A B]; now apply sorted_unique]. intros F. clear - F. induction F as [|g h l m E F [IH1 IH2]]; [split; intros k []|]. split; intros k [<-|Hk].
  - exists h. split; [now left|auto].
  - destruct (IH1 k Hk) as [k' [I E']]. exists k'. split; auto. now right.
  - exists g. split; [now left|intros p; symmetry; apply E].
  - destruct (IH2 k Hk) as [k' [I E']]. exists k'. split; auto. now right.
Qed.
(** lists that are sorted up to a rotation *)
Theorem C69_rotated l m : Forall line (l ++ m) -> increasing hs_lt (m ++ l) -> rotated_set hs_lt (l ++ m) = m ++ l.
Proof. apply rotated_ok. Qed.
(** parallel half spaces are dropped unless they are the smallest one *)
Theorem C69_trivial l : Forall line l -> increasing hs_lt l -> let r := drop_trivial [] l in
  increasing hs_lt r /\ incl r l /\ (forall p, common r p <-> common l p) /\ (forall g h, In g r -> In h r -> g <> h -> ~ forall p, left_of g p -> left_of h p).
Proof.
  intros F S r. destruct (drop_trivial_ok l [] F S) as [A [I [D E]]]; [constructor|]. fold r in A, I, D, E. cbn [rev app] in *.
  split; auto. split; auto. assert (IFF : forall t p, common t p <-> in_disk p /\ inter t p) by (intros; unfold common, inter; reflexivity). split; [intros p; rewrite !IFF, E; tauto|].
  intros g h G H N Q. assert (LG : forall x : geo K, In x r -> line x) by (rewrite Forall_forall in F; auto).
  assert (SD : same_dir g h) by (now apply nested_dir; auto).
  clear - D G H N SD. induction D as [|x t FA D IH]; [destruct G|]. rewrite Forall_forall in FA. destruct G as [G0|G], H as [H0|H]; auto; [congruence|subst x; exact (FA h H SD)|subst x; apply (FA g G)]. destruct SD as [S1 S2]. split; [now apply det_zero_sym|unfold dotn in *; flra].
Qed.
End C69.

Section C70.
Context {K : OField}.
Add Field KF2 : (of_ft K).
Local Open Scope res_scope. Local Open Scope F_scope.
Implicit Types p q x y z : vec K.
Implicit Types f g h : geo K.
Implicit Types l m : list (geo K).
(** the base ring, and the choices *)
Variable B : K -> Prop.
Variable sqrt : K -> option K.
Hypothesis SB : subfield B.
Hypothesis SQ : sqrt_in B sqrt.
Variable shuffle : list (geo K) -> list (geo K).
Hypothesis SH : forall l, Permutation l (shuffle l).
Variable pick : option K -> option K -> K.
Hypothesis PI : chooses pick.

(** ** C70 *)
(** polygons are the intersection of their half spaces, without redundant half spaces; the only exception are rays *)
Theorem C70_polygon l : l <> [] -> Forall chord l -> Forall (geo_over B) l ->
  match polygon sqrt shuffle pick l with
  | Ok o => proper_set hs_lt o /\ forall x, denotes o x <-> common l x
  | Err e => e = ValueError /\ irrational_ray B (common l)
  end.
Proof. intros N C O. exact (polygon_ok B sqrt SB SQ shuffle SH pick (proj1 (chooses_picks pick) PI) l N C O). Qed.
(** the intersection of sets *)
Theorem C70_intersection (sets : list (hyp_set K)) : (2 <= length sets)%nat -> Forall (proper_set hs_lt) sets -> Forall (set_over B) sets ->
  match intersection_of sqrt shuffle pick sets with
  | Ok o => proper_set hs_lt o /\ forall x, denotes o x <-> forall o', In o' sets -> denotes o' x
  | Err e => e = ValueError /\ irrational_ray B (fun x => forall o', In o' sets -> denotes o' x)
  end.
Proof. intros N P O. exact (intersection_of_ok B sqrt SB SQ shuffle SH pick (proj1 (chooses_picks pick) PI) sets N P O). Qed.
(** equal polygons are those with the same points *)
Theorem C70_equal l m : proper_set hs_lt (HPolygon l) -> proper_set hs_lt (HPolygon m) -> (half_spaces_eqb l m = true <-> forall x, common l x <-> common m x).
Proof.
  intros P Q. assert (LL : forall l : list (geo K), Forall chord l -> Forall line l) by (intros l0 H; eapply Forall_impl; [|exact H]; intros; now apply chord_line).
  apply shape in P, Q. destruct P as [S1 [C1 [I1 [E1 _]]]], Q as [S2 [C2 [I2 [E2 _]]]]. rewrite eqb_list by auto. split; [apply Forall2_body|].
  intros H. apply solid_lists; auto; intros x; rewrite <- !common_body; apply H.
Qed.
(** sets with the same points are of the same kind *)
Theorem C70_kinds (o o' : hyp_set K) : proper_set hs_lt o -> proper_set hs_lt o' -> (forall x, denotes o x <-> denotes o' x) ->
  match o, o' with
  | HEmpty, HEmpty | HPoint _, HPoint _ | HSegment _, HSegment _ | HHalfSpace _, HHalfSpace _ | HPolygon _, HPolygon _ => True
  | _, _ => False
  end.
Proof. intros P Q E. pose proof (same_kind o o' P Q E) as H. destruct o, o'; try discriminate H; exact Logic.I. Qed.
(** the random choices do not matter *)
Theorem C70_deterministic shuffle' pick' l : (forall l, Permutation l (shuffle' l)) -> chooses pick' -> l <> [] -> Forall chord l -> Forall (geo_over B) l ->
  forall o o', polygon sqrt shuffle pick l = Ok o -> polygon sqrt shuffle' pick' l = Ok o' ->
  match o, o' with
  | HEmpty, HEmpty => True
  | HPoint p, HPoint q => p = q
  | HSegment _, HSegment _ => forall x, denotes o x <-> denotes o' x
  | HHalfSpace g, HHalfSpace h => geo_eqb true g h = true
  | HPolygon m, HPolygon m' => half_spaces_eqb m m' = true
  | _, _ => False
  end.
Proof.
  intros SH' PI' N C O o o' E E'. pose proof (polygon_ok B sqrt SB SQ shuffle SH pick (proj1 (chooses_picks pick) PI) l N C O) as P. pose proof (polygon_ok B sqrt SB SQ shuffle' SH' pick' (proj1 (chooses_picks pick') PI') l N C O) as P'.
  rewrite E in P. rewrite E' in P'. destruct P as [P D], P' as [P' D']. assert (DD : forall x, denotes o x <-> denotes o' x) by (intros x; rewrite D, D'; tauto).
  pose proof (C70_kinds o o' P P' DD) as KI. destruct o as [|p|r|g|m], o' as [|p'|r'|g'|m']; try contradiction; auto.
  - apply (DD p). reflexivity.
  - apply shape in P, P'. destruct P as [S1 [C1 [I1 [E1 D1]]]], P' as [S2 [C2 [I2 [E2 D2]]]]. assert (F : Forall2 same_oriented [g] [g']) by (apply solid_lists; auto; intros x; rewrite <- D1, <- D2; apply DD). inversion F; subst. inversion C1; inversion C2; subst. apply eqb_oriented; auto; now apply chord_line.
  - now apply C70_equal.
Qed.
End C70.

(** ** Examples *)
Definition pick0 {K : OField} (lo hi : option K) : K := match lo, hi with Some x, _ => x | None, Some y => y | None, None => @f0 K end.
Lemma pick0_ok {K : OField} : chooses (@pick0 K).
Proof.
  intros lo hi x [H1 H2]. destruct lo as [a|], hi as [b|]; split; cbn; auto; try apply fle_refl. flra.
Qed.
Definition same (l : list (geo cqF)) := l.
Lemma same_ok l : Permutation l (same l). Proof. apply Permutation_refl. Qed.
Definition hv (o : hyp_set cqF) : nat * (nat * list cq * option (cq * cq) * option (cq * cq)) * option (cq * cq) * list (list cq) :=
  match o with HEmpty => (0%nat, sv SegEmpty, None, []) | HPoint p => (1%nat, sv SegEmpty, Some p, []) | HSegment r => (2%nat, sv r, None, []) | HHalfSpace h => (3%nat, sv SegEmpty, None, [gv h]) | HPolygon l => (4%nat, sv SegEmpty, None, map gv l) end.
Local Open Scope res_scope.
Definition poly (l : list (geo cqF)) := rmap hv (polygon qsqrt same pick0 l).
Definition meet (l : list (hyp_set cqF)) := rmap hv (intersection_of qsqrt same pick0 l).
(** sets of half spaces: the order is by the direction of the normal vector; 2x >= 0 and x >= 0 are the same *)
Example C69_ex : map gv (half_spaces_set [g_ 0 1 0; g_ 0 0 1; g_ 0 2 0; g_ 1 (-1) (-1); g_ 1 4 0; g_ 0 (-1) 0]) = map gv [g_ 0 (-1) 0; g_ 1 (-1) (-1); g_ 0 2 0; g_ 1 4 0; g_ 0 0 1] /\
  map gv (rotated_set hs_lt [g_ 0 2 0; g_ 0 0 1; g_ 0 (-1) 0; g_ 1 (-1) (-1)]) = map gv [g_ 0 (-1) 0; g_ 1 (-1) (-1); g_ 0 2 0; g_ 0 0 1] /\
  map gv (merge2 hs_lt [g_ 0 (-1) 0; g_ 0 2 0] [g_ 1 (-1) (-1); g_ 0 1 0; g_ 0 0 1]) = map gv [g_ 0 (-1) 0; g_ 1 (-1) (-1); g_ 0 1 0; g_ 0 0 1] /\
  map gv (drop_trivial [] [g_ 0 (-1) 0; g_ 0 2 0; g_ 1 4 0; g_ 0 0 1]) = map gv [g_ 0 (-1) 0; g_ 0 2 0; g_ 0 0 1] /\
  half_spaces_eqb [g_ 0 (-1) 0; g_ 0 2 0] [g_ 0 (-3) 0; g_ 0 1 0] = true /\ hs_lt (g_ 0 1 0) (g_ 1 4 0) = true /\
  ordered_set Nat.ltb [3; 1; 2; 3; 1; 5]%nat = [1; 2; 3; 5]%nat.
Proof. repeat match goal with |- _ /\ _ => split end; vm_compute; reflexivity. Qed.
(** the ideal triangle with vertices 0, 1 and infinity; a ray from infinity to i; a point; a half space; the empty set *)
Example C70_ex : poly [g_ 0 1 0; g_ 1 (-1) (-1); g_ 1 (-1) 1; g_ 1 2 0] = Ok (hv (HPolygon [g_ 1 (-1) 1; g_ 1 (-1) (-1); g_ 0 1 0])) /\
  poly [g_ 0 1 0; g_ 0 (-1) 0; g_ 0 0 1] = Ok (hv (HSegment (SegSegment (g_ 0 1 0) None (Some (qv 0 0))))) /\
  poly [g_ 0 1 0; g_ 0 (-1) 0; g_ 0 0 1; g_ 0 0 (-1)] = Ok (hv (HPoint (qv 0 0))) /\
  poly [g_ 0 1 0; g_ 0 2 0; g_ 1 4 0] = Ok (hv (HHalfSpace (g_ 0 2 0))) /\
  poly [g_ 0 1 0; g_ (-1) (-2) 0] = Ok (hv HEmpty) /\ poly [g_ 0 1 0; g_ 1 (-1) (-1); g_ (-1) (-1) 1] = Ok (hv (HPoint (qv 0 1))) /\
  meet [HPolygon [g_ 1 (-1) 1; g_ 1 (-1) (-1); g_ 0 1 0]; HSegment (SegGeodesic (g_ 0 1 0))] = Ok (hv (HSegment (SegGeodesic (g_ 0 1 0)))) /\
  meet [HSegment (SegGeodesic (g_ 0 1 0)); HSegment (SegGeodesic (g_ 0 0 1))] = Ok (hv (HPoint (qv 0 0))) /\
  meet [HPoint (qv 0 0); HHalfSpace (g_ 0 0 1); HPolygon [g_ 1 (-1) 1; g_ 1 (-1) (-1); g_ 0 1 0]] = Ok (hv (HPoint (qv 0 0))) /\
  meet [HPoint (qv 0 0); HPoint (qv 0 (1 # 2))] = Ok (hv HEmpty).
Proof. repeat match goal with |- _ /\ _ => split end; vm_compute; reflexivity. Qed.
(** the hypotheses are satisfied *)
Lemma hyp_choices : @subfield cqF (fun _ => True) /\ @sqrt_in cqF (fun _ => True) qsqrt /\ (forall l : list (geo cqF), Permutation l (same l)) /\ chooses (@pick0 cqF).
Proof. exact (Logic.conj subfield_all (Logic.conj qsqrt_ok (Logic.conj same_ok pick0_ok))). Qed.
(** Finding: a ray is not computed when the coordinates of its ideal end point are not in the base ring although both half spaces of the geodesic, and the half space that bounds it are; the geodesic itself, and the ray, can be created. *)
Theorem C70_ray_refuted : exists (l : list (geo cqF)) p, Forall chord l /\ finite p /\ common l p /\ (exists g q, normal_seg (SegSegment g None (Some q)) /\ forall x, common l x <-> in_segment g None (Some q) x) /\ polygon qsqrt same pick0 l = Err ValueError.
Proof.
  set (l := [g_ (-1) 0 3; g_ 1 0 (-3); g_ 0 (-1) 0]). exists l, (qv (-1 # 3) (1 # 3)). assert (C : Forall chord l) by (repeat (constructor; [apply chord_check; vm_compute; reflexivity|]); constructor).
  assert (E : polygon qsqrt same pick0 l = Err ValueError). { assert (Q : rmap hv (polygon qsqrt same pick0 l) = Err ValueError) by (vm_compute; reflexivity). destruct (polygon qsqrt same pick0 l); [discriminate Q|cbn in Q; congruence]. }
  destruct hyp_choices as [H1 [H2 [H3 H4]]].
  split; auto. split; [vm_compute; reflexivity|]. split; [split; [vm_compute; reflexivity|]; intros h [<-|[<-|[<-|[]]]]; vm_compute; reflexivity|]. split; auto.
  pose proof (C70_polygon (fun _ => True) qsqrt H1 H2 same H3 pick0 H4 l) as P. rewrite E in P. destruct P as [_ [g [q [CG [F [O [D _]]]]]]]; auto; [discriminate|apply Forall_forall; intros; repeat split|].
  exists g, q. split; auto. cbn. split; auto. split; [right; discriminate|]. split; [discriminate|]. split; [intros p' [= <-]; auto|discriminate].
Qed.
Print Assumptions C69_generic.
Print Assumptions C69_order.
Print Assumptions C69_nested.
Print Assumptions C69_set.
Print Assumptions C69_merge.
Print Assumptions C69_equal.
Print Assumptions C69_rotated.
Print Assumptions C69_trivial.
Print Assumptions C70_polygon.
Print Assumptions C70_intersection.
Print Assumptions C70_equal.
Print Assumptions C70_kinds.
Print Assumptions C70_deterministic.
Print Assumptions C70_ray_refuted.
