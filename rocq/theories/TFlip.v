(** Theorems C20: flips of triangles. *)
From Coq Require Import List Bool ZArith Arith Lia QArith.
From Verif Require Import OField FMicromega PField MBase MDict PDict MEuclid SEuclid PEuclid MSim SSim PSim MPoly PPoly
  MMut SMut PMut PMut2 PMut3 TMut MSurf SSurf PSurf PSurf3 SPoint PPoint PSimple MFlip SFlip PFlip PFlip2 PFlip3 PFlip4 PFlip5 TEuclid.
Import ListNotations.
Open Scope nat_scope.
Notation pnv K := (@length (vec K)).

(** ** C20 *)
(** Two different triangles that form a strictly convex quadrilateral [x b y a] when the second is moved to the other side
    of the edge [x y] of the first: the flip succeeds; then the triangles are [b a x] and [a b y] (up to translation, with a
    vertex at the origin), they are positively oriented and have the same total area, they are glued along the edges with
    the old numbers, all gluings of other edges are transported, and all other polygons are unchanged. *)
Theorem C20_flip (K : OField) s l e l' e' (P P' : polygon K) F :
  intact (pnv K) s -> mutable s = true -> rooted s -> two_triangles s l e l' e' P P' F -> l <> l' -> inner_sides s l e l' e' ->
  let x := vertex P e in let y := vertex P (e + 1) in let a := vertex P (e + 2) in let b := F (vertex P' (e' + 2)) in
  strictly_convex4 x b y a ->
  exists s' Q Q', triangle_flip l e s = (s', Ok tt) /\
    intact (pnv K) s' /\ mutable s' = true /\ rooted s' /\
    get_polygon s' l = Ok Q /\ get_polygon s' l' = Ok Q' /\
    (forall m, m <> l -> m <> l' -> get_polygon s' m = get_polygon s m) /\
    length Q = 3%nat /\ length Q' = 3%nat /\ vertex Q 0 = vzero /\ vertex Q' 0 = vzero /\
    (exists u, vertex Q e = vadd b u /\ vertex Q (e + 1) = vadd a u /\ vertex Q (e + 2) = vadd x u) /\
    (exists u, vertex Q' e' = vadd a u /\ vertex Q' (e' + 1) = vadd b u /\ vertex Q' (e' + 2) = vadd y u) /\
    flt f0 (area Q) /\ flt f0 (area Q') /\ fadd (area Q) (area Q') = fadd (area P) (area (map F P')) /\
    glued (pnv K) s' (l, Z.of_nat e) (l', Z.of_nat e') /\
    regluing (moved l e l' e') s s'.
Proof.
  intros In Mu Ro T D IS x y a b C.
  destruct (flip_main s l e l' e' P P' F In Mu Ro T D IS C) as (s' & Q & Q' & E & I' & M' & R' & _ & G & G' & O & L & L' & V & V' & (u & U0 & U1 & U2) & (u' & W0 & W1 & W2) & RG).
  pose proof T as [A A' LP LP' He He' GL [_ _ M1 M2]]. destruct (moved_all l e l' e' D He He') as (m0 & m1 & m2 & m0' & m1' & m2').
  exists s', Q, Q'. split; auto. repeat match goal with |- _ /\ _ => split; [solve [eauto]|] end.
  assert (AQ : area Q = (orient b a x / 2)%F) by (rewrite (area_tri Q e) by auto; rewrite U0, U1, U2; now rewrite orient_move).
  assert (AQ' : area Q' = (orient a b y / 2)%F) by (rewrite (area_tri Q' e') by auto; rewrite W0, W1, W2; now rewrite orient_move).
  assert (LF : length (map F P') = 3) by now rewrite map_length.
  rewrite (area_tri P e), (area_tri (map F P') e') by auto.
  assert (VF : forall k, vertex (map F P') k = F (vertex P' k)) by (intros k; apply vertex_map; intros ->; discriminate).
  rewrite !VF. replace (S e) with (e + 1) in M1 by lia. replace (S e') with (e' + 1) in M2 by lia.
  rewrite M1, M2, AQ, AQ'. fold x y a b. destruct C as [C1 [C2 [C3 C4]]].
  split; [apply half_pos; now rewrite (orient_rot x b a), (orient_rot a x b)|].
  split; [apply half_pos; now rewrite (orient_rot y a b), (orient_rot b y a)|].
  split; [apply quad_areas|]. split; [|exact RG].
  rewrite <- (tri_edge_0 l e He), <- (tri_edge_0 l' e' He').
  rewrite <- m0, <- m0' at 1.
  apply RG. split; [apply (run_edge s l e l' e' P P' F T 0)|]. rewrite !tri_edge_0 by assumption. exact GL.
Qed.
Print Assumptions C20_flip.

(** flipping twice: the two triangles are the original ones (up to translation and with [F] applied to the second one),
    with exchanged labels, and all gluings are the original ones *)
Theorem C20_twice (K : OField) s l e l' e' (P P' : polygon K) F :
  intact (pnv K) s -> mutable s = true -> rooted s -> two_triangles s l e l' e' P P' F -> l <> l' -> inner_sides s l e l' e' ->
  strictly_convex4 (vertex P e) (F (vertex P' (e' + 2))) (vertex P (e + 1)) (vertex P (e + 2)) ->
  exists s' s'' R R', triangle_flip l e s = (s', Ok tt) /\ triangle_flip l e s' = (s'', Ok tt) /\
    get_polygon s'' l = Ok R /\ get_polygon s'' l' = Ok R' /\
    (forall m, m <> l -> m <> l' -> get_polygon s'' m = get_polygon s m) /\
    length R = 3%nat /\ length R' = 3%nat /\
    (exists u, forall k, (k < 3)%nat -> vertex R (e + k) = vadd (F (vertex P' (e' + k))) u) /\
    (exists u, forall k, (k < 3)%nat -> vertex R' (e' + k) = vadd (vertex P (e + k)) u) /\
    regluing (exchanged l e l' e') s s''.
Proof.
  intros In Mu Ro T D IS C.
  destruct (flip_main s l e l' e' P P' F In Mu Ro T D IS C) as (s' & Q & Q' & E & I' & M' & R' & _ & G & G' & O & L & L' & V & V' & (u & U0 & U1 & U2) & (u' & W0 & W1 & W2) & RG).
  pose proof T as [A A' LP LP' He He' GL [_ _ M1 M2]]. destruct (moved_all l e l' e' D He He') as (m0 & m1 & m2 & m0' & m1' & m2').
  replace (S e) with (e + 1) in M1 by lia. replace (S e') with (e' + 1) in M2 by lia.
  set (F2 := fun p : vec K => vadd p (vsub u u')).
  assert (GD : glued (pnv K) s' (tri_edge l e 0) (tri_edge l' e' 0)).
  { rewrite <- m0, <- m0' at 1.
    apply RG. split; [apply (run_edge s l e l' e' P P' F T 0)|]. rewrite !tri_edge_0 by assumption. exact GL. }
  assert (T2 : two_triangles s' l e l' e' Q Q' F2).
  { constructor; auto.
    - destruct GD as [_ GD]. rewrite !tri_edge_0 in GD by assumption. exact GD.
    - destruct (translation_similarity F2 (vsub u u') (fun p => eq_refl)) as [S1 S2]. constructor; auto; unfold F2.
      + replace (S e) with (e + 1) by lia. rewrite W0, U1. apply shift_back.
      + replace (S e') with (e' + 1) by lia. rewrite W1, U0. apply shift_back. }
  assert (NF : forall z, is_edge (pnv K) s z -> ~ free (pnv K) s z -> ~ free (pnv K) s' (moved l e l' e' z)).
  { intros z Ez N [_ Fz]. destruct (C01_well_defined _ s In z Ez) as [X|[w X]]; [contradiction|].
    apply RG in X. destruct X as [_ X]. congruence. }
  pose proof (run_edge s l e l' e' P P' F T) as RE.
  assert (IS2 : inner_sides s' l e l' e').
  { intros k [->| ->]; destruct (IS 1 (or_introl eq_refl)) as [N1 N1'], (IS 2 (or_intror eq_refl)) as [N2 N2']; split.
    - rewrite <- m2. apply NF; auto. apply RE.
    - rewrite <- m2'. apply NF; auto. apply RE.
    - rewrite <- m1'. apply NF; auto. apply RE.
    - rewrite <- m1. apply NF; auto. apply RE. }
  assert (C2 : strictly_convex4 (vertex Q e) (F2 (vertex Q' (e' + 2))) (vertex Q (e + 1)) (vertex Q (e + 2))).
  { unfold F2. rewrite U0, U1, U2, W2, shift_back. apply convex_move, convex_rot, C. }
  destruct (flip_main s' l e l' e' Q Q' F2 I' M' R' T2 D IS2 C2) as (s'' & R & R2 & E2 & I2 & Mu2 & Ro2 & _ & H & H' & O2 & L2 & L2' & X & X' & (v & Y0 & Y1 & Y2) & (v' & Z0 & Z1 & Z2) & RG2).
  exists s', s'', R, R2. split; [exact E|]. split; [exact E2|]. split; [exact H|]. split; [exact H'|].
  split; [intros m A1 A2; rewrite O2 by auto; auto|]. split; [exact L2|]. split; [exact L2'|].
  unfold F2 in *. rewrite U0, U1, U2, W2, shift_back in *.
  split; [|split].
  - exists (vadd u v). intros k Hk. apply lt3 in Hk. destruct Hk as [->|[->| ->]].
    + rewrite !Nat.add_0_r, M1, Y0. apply vadd_assoc.
    + rewrite M2, Y1. apply vadd_assoc.
    + rewrite Y2. apply vadd_assoc.
  - exists (vadd u v'). intros k Hk. apply lt3 in Hk. destruct Hk as [->|[->| ->]].
    + rewrite !Nat.add_0_r, Z0. apply vadd_assoc.
    + rewrite Z1. apply vadd_assoc.
    + rewrite Z2. apply vadd_assoc.
  - pose proof (intact_good _ s In) as G0. pose proof (g_inv _ s G0) as I0.
    assert (RF : forall z, is_edge (pnv K) s z -> fine l l' e e' z).
    { intros z Ez. apply (run_fine s l e l' e' P P' F I0 T). apply (edge_inrange (pnv K)); auto. apply (g_tot _ s G0). }
    assert (GZ : glued (pnv K) s (tri_edge l e 0) (tri_edge l' e' 0)).
    { split; [apply RE|]. rewrite !tri_edge_0 by assumption. exact GL. }
    assert (EX : exchanged l e l' e' (tri_edge l e 0) = tri_edge l' e' 0) by (unfold exchanged; now rewrite eqb_refl).
    assert (EX' : exchanged l e l' e' (tri_edge l' e' 0) = tri_edge l e 0).
    { unfold exchanged. rewrite !t't_neq by auto. now rewrite eqb_refl. }
    assert (INV : forall st z w, intact (pnv K) st -> glued (pnv K) st z w -> glued (pnv K) st w z).
    { intros st z w It Gz. pose proof (g_inv _ st (intact_good _ st It)) as J. apply glued_gz in Gz; auto. apply glued_gz; auto. now apply (i_inv _ _ J). }
    assert (GD2 : glued (pnv K) s'' (tri_edge l e 0) (tri_edge l' e' 0)).
    { rewrite <- m0, <- m0' at 1. now apply RG2. }
    split.
    + intros z w Gz. pose proof (INV _ _ _ In Gz) as Gw.
      destruct (eqb z (tri_edge l e 0)) eqn:Ez; [apply (eqb_ok z) in Ez; subst z|apply eqb_neq in Ez].
      { assert (w = tri_edge l' e' 0) as -> by (destruct GZ as [_ GZ], Gz as [_ Gz]; congruence). rewrite EX, EX'. now apply INV. }
      destruct (eqb z (tri_edge l' e' 0)) eqn:Ez'; [apply (eqb_ok z) in Ez'; subst z|apply eqb_neq in Ez'].
      { assert (w = tri_edge l e 0) as -> by (apply INV in GZ; auto; destruct GZ as [_ GZ], Gz as [_ Gz]; congruence). rewrite EX, EX'. assumption. }
      assert (w <> tri_edge l e 0) by (intros ->; destruct GZ as [_ GZ], Gw as [_ Gw]; congruence).
      assert (w <> tri_edge l' e' 0) by (intros ->; apply INV in GZ; auto; destruct GZ as [_ GZ], Gw as [_ Gw]; congruence).
      rewrite <- !moved_twice; auto; [|apply RF, Gw|apply RF, Gz]. apply RG2, RG, Gz.
    + intros z Fz. assert (z <> tri_edge l e 0) by (intros ->; destruct GZ as [_ GZ], Fz as [_ Fz]; congruence).
      assert (z <> tri_edge l' e' 0) by (intros ->; apply INV in GZ; auto; destruct GZ as [_ GZ], Fz as [_ Fz]; congruence).
      rewrite <- moved_twice; auto; [|apply RF, Fz]. apply RG2, RG, Fz.
Qed.
Print Assumptions C20_twice.

(** triangles that are glued by a translation: the total area and the vectors of all edges are kept, only the diagonal is
    replaced by the other diagonal *)
Theorem C20_translation (K : OField) s l e l' e' (P P' : polygon K) F w :
  intact (pnv K) s -> mutable s = true -> rooted s -> two_triangles s l e l' e' P P' F -> l <> l' -> inner_sides s l e l' e' ->
  (forall p, F p = vadd p w) ->
  strictly_convex4 (vertex P e) (F (vertex P' (e' + 2))) (vertex P (e + 1)) (vertex P (e + 2)) ->
  exists s' Q Q', triangle_flip l e s = (s', Ok tt) /\ get_polygon s' l = Ok Q /\ get_polygon s' l' = Ok Q' /\
    fadd (area Q) (area Q') = fadd (area P) (area P') /\
    edge_vector s' (l, Z.of_nat e) = Ok (vsub (vertex P (e + 2)) (F (vertex P' (e' + 2)))) /\
    edge_vector s' (l', Z.of_nat e') = Ok (vopp (vsub (vertex P (e + 2)) (F (vertex P' (e' + 2))))) /\
    forall x, is_edge (pnv K) s x -> x <> (l, Z.of_nat e) -> x <> (l', Z.of_nat e') ->
      edge_vector s' (moved l e l' e' x) = edge_vector s x.
Proof.
  intros In Mu Ro T D IS HF C. pose proof T as [A A' LP LP' He He' GL [_ _ M1 M2]]. destruct (moved_all l e l' e' D He He') as (m0 & m1 & m2 & m0' & m1' & m2').
  destruct (C20_flip K s l e l' e' P P' F In Mu Ro T D IS C) as (s' & Q & Q' & E & _ & _ & _ & G & G' & O & L & L' & _ & _ & (u & U0 & U1 & U2) & (u' & W0 & W1 & W2) & _ & _ & AR & _ & _).
  exists s', Q, Q'. split; [exact E|]. split; [exact G|]. split; [exact G'|]. split; [rewrite AR; f_equal; eapply map_area; eauto|].
  replace (S e) with (e + 1) in M1 by lia. replace (S e') with (e' + 1) in M2 by lia.
  rewrite <- (tri_edge_0 l e He), <- (tri_edge_0 l' e' He').
  pose proof (fun k => edge_vector_tri s' l Q e k G L) as V. pose proof (fun k => edge_vector_tri s' l' Q' e' k G' L') as V'.
  pose proof (fun k => edge_vector_tri s l P e k A LP) as VP. pose proof (fun k => edge_vector_tri s l' P' e' k A' LP') as VP'.
  assert (X1 : forall d, d + 1 + 1 = d + 2) by (intros; lia). assert (X2 : forall d, d + 2 + 1 = d + 3) by (intros; lia).
  split; [rewrite V, Nat.add_0_r, U0, U1; now rewrite vsub_shift|].
  split; [rewrite V', Nat.add_0_r, W0, W1; rewrite vsub_shift; now rewrite vsub_opp|].
  intros x Ex N N'. pose proof (intact_good _ s In) as G0. pose proof (g_inv _ s G0) as I0.
  assert (RF : fine l l' e e' x).
  { apply (run_fine s l e l' e' P P' F I0 T). apply (edge_inrange (pnv K)); auto. apply (g_tot _ s G0). }
  destruct (fine_cases l l' e e' x RF) as [[B1 B2]|[->|[->|[->|[->|[->| ->]]]]]]; try tauto.
  - rewrite (moved_other l l' e e' x B1 B2). unfold edge_vector. now rewrite (O (fst x) B1 B2).
  - rewrite m1, V', VP, X1, X2, (vertex_3 Q') by exact L'. rewrite W0, W2. now rewrite vsub_shift.
  - rewrite m2, V, VP, X1, X2, (vertex_3 P) by exact LP. rewrite U1, U2. now rewrite vsub_shift.
  - rewrite m1', V, VP', X1, X2, (vertex_3 Q) by exact L. rewrite U0, U2, vsub_shift. rewrite <- M2, !HF. now rewrite vsub_shift.
  - rewrite m2', V', VP', X1, X2, (vertex_3 P') by exact LP'. rewrite W1, W2, vsub_shift. rewrite <- M1, !HF. now rewrite vsub_shift.
Qed.
Print Assumptions C20_translation.

(** when the flip is not possible, an exception is raised and nothing is changed *)
Theorem C20_not_convex (K : OField) s l e l' e' (P P' : polygon K) F : intact (pnv K) s -> two_triangles s l e l' e' P P' F -> edge P e <> vzero ->
  ~ strictly_convex4 (vertex P e) (F (vertex P' (e' + 2))) (vertex P (e + 1)) (vertex P (e + 2)) ->
  exists x, triangle_flip l e s = (s, Err x).
Proof. apply flip_not_convex. Qed.
Print Assumptions C20_not_convex.
Theorem C20_not_triangles (K : OField) s l e l' z (P P' : polygon K) : get_polygon s l = Ok P -> get_polygon s l' = Ok P' ->
  opposite_edge s l (Z.of_nat e) = Ok (Some (l', z)) -> length P <> 3%nat \/ length P' <> 3%nat ->
  triangle_flip l e s = (s, Err ValueError).
Proof. apply flip_not_triangles. Qed.
Print Assumptions C20_not_triangles.
Theorem C20_boundary (K : OField) (s : @surf (polygon K)) l e : opposite_edge s l (Z.of_nat e) = Ok None -> triangle_flip l e s = (s, Err TypeError).
Proof. apply flip_boundary. Qed.
Print Assumptions C20_boundary.

(** *** examples *)
Definition tri1 : polygon cqF := [qv 0 0; qv 1 0; qv 1 1].
Definition tri2 : polygon cqF := [qv 5 5; qv 6 6; qv 5 6].
Definition ex_two : list (@op (polygon cqF)) :=
  [OpAdd tri1 None; OpAdd tri2 None; OpGlue (0, 0)%Z (1, 1)%Z; OpGlue (0, 1)%Z (1, 2)%Z; OpGlue (0, 2)%Z (1, 0)%Z].
Definition ex_torus2 : @surf (polygon cqF) := run (pnv cqF) ex_two empty.
Definition ex_move (p : vec cqF) : vec cqF := vadd p (qv (-5) (-5)).
Example ex_flip_hyps : intact (pnv cqF) ex_torus2 /\ mutable ex_torus2 = true /\ rooted ex_torus2 /\
  two_triangles ex_torus2 0%Z 2 1%Z 0 tri1 tri2 ex_move /\ inner_sides ex_torus2 0%Z 2 1%Z 0 /\
  strictly_convex4 (vertex tri1 2) (ex_move (vertex tri2 2)) (vertex tri1 3) (vertex tri1 4).
Proof.
  split; [apply reachable_intact; [exists ex_two; split; [repeat constructor; cbn; lia|reflexivity]|vm_compute; reflexivity]|].
  split; [vm_compute; reflexivity|]. split; [left; vm_compute; reflexivity|]. split.
  - split; [| | | | | | |split; [exact (proj1 (translation_similarity ex_move _ (fun p => eq_refl)))|
      exact (proj2 (translation_similarity ex_move _ (fun p => eq_refl)))| |]]; try (vm_compute; reflexivity); cbn; lia.
  - split.
    + intros k [->| ->]; split; intros [_ E]; vm_compute in E; discriminate.
    + repeat split; vm_compute; reflexivity.
Qed.
Example ex_flip_value : exists s', triangle_flip 0%Z 2 ex_torus2 = (s', Ok tt) /\
  get_polygon s' 0%Z = Ok [qv 0 0; qv 0 1; qv (-1) 1] /\ get_polygon s' 1%Z = Ok [qv 0 0; qv (-1) 1; qv (-1) 0] /\
  opposite_edge s' 0%Z 1%Z = Ok (Some (1, 2)%Z) /\ opposite_edge s' 0%Z 0%Z = Ok (Some (1, 1)%Z) /\ opposite_edge s' 0%Z 2%Z = Ok (Some (1, 0)%Z).
Proof. eexists. split; [vm_compute; reflexivity|]. repeat split; vm_compute; reflexivity. Qed.

(** *** findings *)
(** a flip next to the boundary of the surface: the two triangles have been replaced and two of the gluings have been
    destroyed when the exception is raised *)
Theorem C20_boundary_refuted : exists (ops : list (@op (polygon cqF))) l e l' e' P P' F, let s := run (pnv cqF) ops empty in
  intact (pnv cqF) s /\ mutable s = true /\ rooted s /\ two_triangles s l e l' e' P P' F /\ l <> l' /\
  strictly_convex4 (vertex P e) (F (vertex P' (e' + 2))) (vertex P (e + 1)) (vertex P (e + 2)) /\
  exists s', triangle_flip l e s = (s', Err TypeError) /\ get_polygon s' l <> get_polygon s l /\
    (exists x y, glued (pnv cqF) s x y /\ ~ glued (pnv cqF) s' (moved l e l' e' x) (moved l e l' e' y)).
Proof.
  exists [OpAdd tri1 None; OpAdd tri2 None; OpGlue (0, 0)%Z (1, 1)%Z; OpGlue (0, 2)%Z (1, 0)%Z], 0%Z, 2, 1%Z, 0, tri1, tri2, ex_move.
  cbv zeta. split; [apply reachable_intact; [eexists; split; [|reflexivity]; repeat constructor; cbn; lia|vm_compute; reflexivity]|].
  split; [vm_compute; reflexivity|]. split; [left; vm_compute; reflexivity|].
  split; [split; [| | | | | | |split; [exact (proj1 (translation_similarity ex_move _ (fun p => eq_refl)))|
      exact (proj2 (translation_similarity ex_move _ (fun p => eq_refl)))| |]]; try (vm_compute; reflexivity); cbn; lia|].
  split; [discriminate|]. split; [repeat split; vm_compute; reflexivity|].
  eexists. split; [vm_compute; reflexivity|]. split; [vm_compute; discriminate|].
  exists (0, 0)%Z, (1, 1)%Z. split.
  - split; [|vm_compute; reflexivity]. exists tri1. split; [vm_compute; reflexivity|]. cbn. lia.
  - intros [_ E]. vm_compute in E. discriminate.
Qed.
Print Assumptions C20_boundary_refuted.
(** the flip of an edge between a triangle and itself: the quadrilateral (two copies of the triangle) is strictly convex,
    but the function fails, after it has replaced the triangle *)
Theorem C20_self_refuted : exists (ops : list (@op (polygon cqF))) e e' P F, let s := run (pnv cqF) ops empty in
  intact (pnv cqF) s /\ mutable s = true /\ rooted s /\ two_triangles s 0%Z e 0%Z e' P P F /\ inner_sides s 0%Z e 0%Z e' /\
  strictly_convex4 (vertex P e) (F (vertex P (e' + 2))) (vertex P (e + 1)) (vertex P (e + 2)) /\
  exists s', triangle_flip 0%Z e s = (s', Err AssertionError) /\ get_polygon s' 0%Z <> get_polygon s 0%Z.
Proof.
  pose (h := Q2cq (1#2) : car cqF).
  pose (R := fun p : vec cqF => vadd (h * fst p - h * snd p, h * fst p + h * snd p)%F (qv (1#2) (-1#2))).
  assert (RS : (exists r, map_similarity R r) /\ map_orientation_preserving R).
  { apply (spiral_similarity R h h (qv (1#2) (-1#2))); [left; vm_compute; discriminate|]. intros p. reflexivity. }
  exists [OpAdd [qv 0 0; qv 1 0; qv 0 1] None; OpGlue (0, 0)%Z (0, 1)%Z; OpGlue (0, 2)%Z (0, 2)%Z], 0, 1, [qv 0 0; qv 1 0; qv 0 1], R.
  cbv zeta. split; [apply reachable_intact; [eexists; split; [|reflexivity]; repeat constructor; cbn; lia|vm_compute; reflexivity]|].
  split; [vm_compute; reflexivity|]. split; [left; vm_compute; reflexivity|].
  split; [split; [| | | | | | |split; [exact (proj1 RS)|exact (proj2 RS)| |]]; try (vm_compute; reflexivity); cbn; lia|].
  split; [intros k [->| ->]; split; intros [_ E]; vm_compute in E; discriminate|].
  split; [repeat split; vm_compute; reflexivity|].
  eexists. split; [vm_compute; reflexivity|]. vm_compute; discriminate.
Qed.
Print Assumptions C20_self_refuted.
