(** Theorems C34 and C56: triangulations of surfaces and the triangulation morphism. *)
From Coq Require Import List Bool ZArith Arith Lia QArith.
From Verif Require Import OField MBase MDict MEuclid PEuclid SEuclid MSim SSim MPoly MMut SMut SPoint SCut PSimple PEar5 TEuclid MSurf SSurf ExTab MEar SEar MLazy SLazy PLazy PLazy2 PLazy3 PLazy4 PLazy5.
Import ListNotations.
Open Scope nat_scope.

Section General.
Variables (K : OField) (S : surface K Z) (D : Z -> bool) (ls : option (list Z)).
(** the polygons of the surface are simple and have positive area *)
Hypothesis DP : forall l, D l = true -> exists P, s_poly S l = Ok P /\ proper P.

(** The triangulation of a closed surface is a closed surface which is tiled by the triangles and which is glued like the
    surface; polygons that are not to be triangulated are kept. *)
Theorem C56_triangulation : valid (fun l => D l = true) S -> closed (fun l => D l = true) S ->
  triangulation_over (fun l => triangulated ls l = true) (fun l => D l = true) S (fun t => lazy_label S D ls t = Ok true) (lazy_surface S D ls).
Proof. exact (lazy_over S D ls DP). Qed.

(** The image of an edge is the same edge, of a triangle of the same polygon; different edges have different images. *)
Theorem C34_edge l P re : D l = true -> s_poly S l = Ok P -> re < length P ->
  exists t Q e, image_edge S ls l re = Ok (t, e) /\ over t = l /\ lazy_polygon S D ls t = Ok Q /\ e < length Q /\ same_edge Q e P re /\
    forall re', image_edge S ls l re' = Ok (t, e) -> re' = re.
Proof.
  intros DL E L. destruct (image_edge_ok S D ls DP l P re DL E L) as (t & Q & e & A & B & C & F). exists t, Q, e.
  split; [exact A|]. split; [exact (part_over S ls l t Q B)|]. split; [exact (lazy_polygon_part S D ls l t Q DL B)|]. split; [exact C|]. split; [exact F|].
  intros re' A'. exact (image_edge_once S D ls DP l re' re (t, e) DL A' A).
Qed.

(** The image of a point of a triangulated polygon, if there is one, has the same coordinates, in a triangle of the
    polygon that contains it. There is an image if and only if the point is in a triangle that has an edge in common with
    the polygon; otherwise an assertion fails. Missing: there should always be an image, see C34_image_refuted. *)
Theorem C34_image_partial l P q : D l = true -> triangulated ls l = true -> s_poly S l = Ok P ->
  (forall t c, image_point S D ls l q = Ok (t, c) -> c = q /\ over t = l /\ exists Q, lazy_polygon S D ls t = Ok Q /\ left_or_on Q q) /\
  ((exists re t e Q, re < length P /\ image_edge S ls l re = Ok (t, e) /\ lazy_polygon S D ls t = Ok Q /\ left_or_on Q q) ->
    exists x, image_point S D ls l q = Ok x) /\
  (~ (exists re t e Q, re < length P /\ image_edge S ls l re = Ok (t, e) /\ lazy_polygon S D ls t = Ok Q /\ left_or_on Q q) ->
    image_point S D ls l q = Err AssertionError).
Proof.
  intros DL TL E. unfold image_point. rewrite E. cbn [bind].
  destruct (image_loop S D ls DP l P q (seq 0 (length P)) DL TL E) as (A & B & C); [intros e I; apply in_seq in I; lia|].
  assert (NR : near S D ls l P q (seq 0 (length P)) <-> (exists re t e Q, re < length P /\ image_edge S ls l re = Ok (t, e) /\ lazy_polygon S D ls t = Ok Q /\ left_or_on Q q)).
  { split; intros (re & t & e & Q & I & R); exists re, t, e, Q; (split; [|exact R]); rewrite in_seq in *; lia. }
  split; [|split].
  - intros t c H. pose proof (C _ H) as N. destruct (A N) as (t' & Q & re & e & H' & _ & _ & PT & LO). rewrite H in H'. injection H' as -> ->.
    split; [reflexivity|]. split; [exact (part_over S ls l t' Q PT)|]. exists Q. split; [exact (lazy_polygon_part S D ls l t' Q DL PT)|exact LO].
  - intros H. apply NR in H. destruct (A H) as (t' & Q & re & e & H' & _). exists (t', q). exact H'.
  - intros H. apply B. intros N. apply H. apply NR. exact N.
Qed.
(** There is an image for all points of triangles, quadrangles and pentagons. *)
Theorem C34_small_partial l P q : D l = true -> triangulated ls l = true -> s_poly S l = Ok P -> length P <= 5 -> get_point_position P q <> Outside ->
  exists t Q, image_point S D ls l q = Ok (t, q) /\ over t = l /\ lazy_polygon S D ls t = Ok Q /\ left_or_on Q q.
Proof.
  intros DL TL E L5 NO. pose proof (near_small S D ls DP l P q DL TL E L5 NO) as N. unfold image_point. rewrite E. cbn [bind].
  destruct (image_loop S D ls DP l P q (seq 0 (length P)) DL TL E) as (A & _ & _); [intros e I; apply in_seq in I; lia|].
  destruct (A N) as (t & Q & re & e & H & _ & _ & PT & LO). exists t, Q. split; [exact H|]. split; [exact (part_over S ls l t Q PT)|].
  split; [exact (lazy_polygon_part S D ls l t Q DL PT)|exact LO].
Qed.
(** The points of polygons that are not triangulated are kept, if the polygon is convex. *)
Theorem C34_kept l P q : D l = true -> triangulated ls l = false -> s_poly S l = Ok P -> get_point_position P q <> Outside ->
  image_point S D ls l q = if is_convex false P then Ok (Ref l, q) else Err AttributeError.
Proof.
  intros DL TL E NO. destruct (DP l DL) as (P' & E' & PR). rewrite E in E'. injection E' as <-. assert (L3 : 3 <= length P) by apply PR.
  unfold image_point. rewrite E. cbn [bind]. destruct (length P) as [|n] eqn:LP; [lia|]. cbn [seq image_point_loop].
  destruct (image_edge_ok S D ls DP l P 0 DL E) as (t & Q & e & A & B & C & F); [lia|]. rewrite A. cbn [bind fst snd].
  pose proof (lazy_polygon_part S D ls l t Q DL B) as LQ. rewrite LQ. cbn [bind]. rewrite (proj1 F), vadd_sub.
  destruct B as [(TL' & _)|(_ & -> & EQ)]; [congruence|]. rewrite E in EQ. injection EQ as <-. unfold contains_point.
  destruct (is_convex false P); cbn [bind]; [|reflexivity]. now destruct (get_point_position P q).
Qed.

(** A preimage of a point of a triangle exists if and only if the triangle has an edge in common with the polygon and the
    polygon is convex; it has the same coordinates. Missing: see C34_section_refuted. *)
Theorem C34_section_partial labels t Q P c : (forall l, In l labels -> D l = true) -> In (over t) labels -> triangulated ls (over t) = true ->
  lazy_polygon S D ls t = Ok Q -> s_poly S (over t) = Ok P -> left_or_on Q c ->
  ((exists re e, image_edge S ls (over t) re = Ok (t, e)) ->
    section_point S D ls labels t c = if is_convex false P then Ok (over t, c) else Err AttributeError) /\
  (~ (exists re e, image_edge S ls (over t) re = Ok (t, e)) -> section_point S D ls labels t c = Err AssertionError).
Proof.
  intros DL I TL LQ E LO. apply (lazy_polygon_inv S D ls DP) in LQ. destruct LQ as (l & DLL & PT). pose proof (part_over S ls l t Q PT) as O. rewrite O in *.
  destruct (section_point_spec S D ls DP labels l t Q P c DL I PT E TL LO) as (A & B). split; [exact B|exact A].
Qed.
End General.
Print Assumptions C56_triangulation.
Print Assumptions C34_edge.
Print Assumptions C34_image_partial.
Print Assumptions C34_small_partial.
Print Assumptions C34_kept.
Print Assumptions C34_section_partial.

(** surfaces given by tables, labelled by integers *)
Section Z.
Context {K : OField}.
Definition ztab (T : table K) : surface K Z :=
  Surface (fun l => if (l <? 0)%Z then Err KeyError else s_poly (tab_surface T) (Z.to_nat l))
          (fun l e => match s_opp (tab_surface T) (Z.to_nat l) e with
                      | Ok (Some y) => Ok (Some (Z.of_nat (fst y), snd y)) | Ok None => Ok None | Err e => Err e end).
Definition zdom (T : table K) (l : Z) : bool := (0 <=? l)%Z && (Z.to_nat l <? length (fst T)).
Lemma zdom_iff T l : zdom T l = true <-> (0 <= l)%Z /\ tab_dom T (Z.to_nat l).
Proof. unfold zdom. rewrite andb_true_iff, Z.leb_le, Nat.ltb_lt, tab_dom_iff. reflexivity. Qed.
Lemma zpoly T l : (0 <= l)%Z -> s_poly (ztab T) l = s_poly (tab_surface T) (Z.to_nat l).
Proof. intros H. cbn [ztab s_poly]. destruct (Z.ltb_spec l 0); [lia|reflexivity]. Qed.
Lemma ztab_valid T : tab_ok T = true -> valid (fun l => zdom T l = true) (ztab T).
Proof.
  intros H. pose proof (tab_valid T H) as V. constructor.
  - intros l Dl. apply zdom_iff in Dl as (A & B). rewrite (zpoly T l A). exact (v_poly _ _ V _ B).
  - intros l P e Dl HP He. apply zdom_iff in Dl as (A & B). rewrite (zpoly T l A) in HP. destruct (v_opp _ _ V _ P e B HP He) as [N|(l' & e' & P' & R1 & R2 & R3 & R4 & R5)].
    + left. cbn [ztab s_opp]. rewrite N. reflexivity.
    + right. exists (Z.of_nat l'), e', P'. split; [cbn [ztab s_opp]; rewrite R1; reflexivity|].
      split; [apply zdom_iff; rewrite Nat2Z.id; split; [lia|exact R2]|]. rewrite zpoly by lia. rewrite Nat2Z.id. split; [exact R3|]. split; [exact R4|].
      cbn [ztab s_opp]. rewrite Nat2Z.id, R5. cbn [fst snd]. rewrite Z2Nat.id by exact A. reflexivity.
Qed.
Lemma ztab_closed T : tab_closed T = true -> closed (fun l => zdom T l = true) (ztab T).
Proof.
  intros H l P e Dl HP He. pose proof (tab_is_closed T H) as C. apply zdom_iff in Dl as (A & B). rewrite (zpoly T l A) in HP. specialize (C _ P e B HP He).
  cbn [ztab s_opp]. destruct (s_opp (tab_surface T) (Z.to_nat l) e) as [[y|]|]; [discriminate|congruence|discriminate].
Qed.
Lemma ztab_proper T : forallb (fun P => match polygon_check P with Ok _ => true | Err _ => false end) (fst T) = true ->
  forall l, zdom T l = true -> exists P, s_poly (ztab T) l = Ok P /\ proper P.
Proof.
  intros H l Dl. apply zdom_iff in Dl as (A & B). rewrite (zpoly T l A). apply tab_dom_iff in B. cbn [tab_surface s_poly].
  destruct (nth_error (fst T) (Z.to_nat l)) as [P|] eqn:E; [|apply nth_error_None in E; lia]. exists P. split; [reflexivity|].
  rewrite forallb_forall in H. specialize (H P (nth_error_In _ _ E)). destruct (polygon_check P) as [[]|] eqn:C; [|discriminate].
  apply (proj1 (polygon_check_spec P)) in C. destruct C as ((X & Y) & Z' & W). exact (conj X (conj Y (conj Z' W))).
Qed.
End Z.

(** two copies of a polygon, one of them rotated by half a turn; parallel edges are glued *)
Definition twice {K : OField} (P : polygon K) : table K :=
  ([P; map (fun v => (fopp (fst v), fopp (snd v))) P], map (fun e => ((0, e), (1, e))) (seq 0 (length P))).
(** a hexagon whose triangulation has a triangle that has no edge in common with the hexagon *)
Definition hexagon : polygon cqF := [qv 0 0; qv 2 (-1); qv 4 0; qv 7 (-1); qv 2 4; qv (-1) 3].
Definition hex := twice hexagon.
Lemma hex_valid : valid (fun l => zdom hex l = true) (ztab hex).
Proof. apply ztab_valid. vm_compute. reflexivity. Qed.
Lemma hex_closed : closed (fun l => zdom hex l = true) (ztab hex).
Proof. apply ztab_closed. vm_compute. reflexivity. Qed.
Lemma hex_proper : forall l, zdom hex l = true -> exists P, s_poly (ztab hex) l = Ok P /\ proper P.
Proof. apply ztab_proper. vm_compute. reflexivity. Qed.
Definition hexS := lazy_surface (ztab hex) (zdom hex) None.
Definition lazy_error {A} (x : res A) : option exn := match x with Ok _ => None | Err e => Some e end.
Lemma lazy_error_eq {A} (x : res A) e : lazy_error x = Some e -> x = Err e.
Proof. destruct x; [discriminate|]. cbn. now injection 1 as ->. Qed.
Fixpoint same_polygon {K : OField} (P Q : polygon K) : bool :=
  match P, Q with nil, nil => true | v :: P, w :: Q => veqb v w && same_polygon P Q | _, _ => false end.
Lemma same_polygon_eq {K : OField} (x : res (polygon K)) (Q : polygon K) : match x with Ok P => same_polygon P Q | Err _ => false end = true -> x = Ok Q.
Proof.
  destruct x as [P|]; [|discriminate]. revert Q. induction P as [|v P IH]; intros [|w Q] H; try discriminate H; [reflexivity|].
  cbn in H. apply andb_true_iff in H as (A & B). apply veqb_eq in A. apply IH in B. injection B as ->. now subst.
Qed.
Example C56_ex : triangulation_over (fun _ => true = true) (fun l => zdom hex l = true) (ztab hex) (fun t => lazy_label (ztab hex) (zdom hex) None t = Ok true) hexS /\
  map (fun t => match s_poly hexS t with Ok Q => map (fun v : vec cqF => (cqv (fst v), cqv (snd v))) Q | Err _ => [] end) [Part 0 0; Part 0 1; Part 0 2; Part 0 3; Part 1 2]%Z =
    [[(0, 0); (2, -(1)); (4, 0)]; [(4, 0); (7, -(1)); (2, 4)]; [(0, 0); (4, 0); (2, 4)]; [(0, 0); (2, 4); (-(1), 3)]; [(0, 0); (-(4), 0); (-(2), -(4))]]%Q /\
  s_opp hexS (Part 0 2) 0 = Ok (Some (Part 0 0, 2)) /\ s_opp hexS (Part 0 3) 1 = Ok (Some (Part 1 3, 1)).
Proof. split; [exact (C56_triangulation cqF (ztab hex) (zdom hex) None hex_proper hex_valid hex_closed)|]. split; [|split]; vm_compute; reflexivity. Qed.

(** A point in a triangle that has no edge in common with the polygon has no image. *)
Theorem C34_image_refuted : exists (S : surface cqF Z) (D : Z -> bool) P q,
  valid (fun l => D l = true) S /\ closed (fun l => D l = true) S /\ (forall l, D l = true -> exists P, s_poly S l = Ok P /\ proper P) /\
  D 0%Z = true /\ s_poly S 0%Z = Ok P /\ get_point_position P q = Interior /\ image_point S D None 0 q = Err AssertionError.
Proof.
  exists (ztab hex), (zdom hex), hexagon, (qv 2 (4 # 3)).
  split; [exact hex_valid|]. split; [exact hex_closed|]. split; [exact hex_proper|]. split; [vm_compute; reflexivity|]. split; [reflexivity|].
  split; [vm_compute; reflexivity|]. apply lazy_error_eq. vm_compute. reflexivity.
Qed.
Print Assumptions C34_image_refuted.
(** Neither has it a preimage; and no point of a polygon that is not convex has. *)
Theorem C34_section_refuted : exists (S : surface cqF Z) (D : Z -> bool) labels Q Q' q,
  valid (fun l => D l = true) S /\ closed (fun l => D l = true) S /\ (forall l, D l = true -> exists P, s_poly S l = Ok P /\ proper P) /\
  (forall l, In l labels <-> D l = true) /\
  lazy_polygon S D None (Part 0 2) = Ok Q /\ strictly_left Q q /\ section_point S D None labels (Part 0 2) q = Err AssertionError /\
  lazy_polygon S D None (Part 0 0) = Ok Q' /\ (forall c, left_or_on Q' c -> section_point S D None labels (Part 0 0) c = Err AttributeError).
Proof.
  exists (ztab hex), (zdom hex), [0; 1]%Z, [qv 0 0; qv 4 0; qv 2 4], [qv 0 0; qv 2 (-1); qv 4 0], (qv 2 (4 # 3)).
  split; [exact hex_valid|]. split; [exact hex_closed|]. split; [exact hex_proper|].
  assert (DL : forall l, In l [0; 1]%Z -> zdom hex l = true) by (intros l [<-|[<-|[]]]; vm_compute; reflexivity).
  split; [intros l; split; [exact (DL l)|]; intros H; apply zdom_iff in H; destruct H as (A & B); apply tab_dom_iff in B; cbn [hex twice fst length] in B; cbn [In]; lia|].
  assert (P0 : forall t (Q : polygon cqF), s_poly hexS t = Ok Q -> lazy_polygon (ztab hex) (zdom hex) None t = Ok Q) by (intros t Q E; exact E).
  split; [apply same_polygon_eq; vm_compute; reflexivity|].
  split; [intros [|[|[|e]]] He; [vm_compute; reflexivity..|cbn in He; lia]|]. split; [apply lazy_error_eq; vm_compute; reflexivity|].
  split; [apply same_polygon_eq; vm_compute; reflexivity|].
  intros c LO.
  destruct (C34_section_partial cqF (ztab hex) (zdom hex) None hex_proper [0; 1]%Z (Part 0 0) [qv 0 0; qv 2 (-1); qv 4 0] hexagon c DL (or_introl eq_refl) eq_refl) as (A & _).
  - apply same_polygon_eq. vm_compute. reflexivity.
  - reflexivity.
  - exact LO.
  - assert (X : exists re e, image_edge (ztab hex) None (over (Part 0 0)) re = Ok (Part 0 0, e)) by (exists 0, 0; vm_compute; reflexivity).
    rewrite (A X). assert (C : is_convex false hexagon = false) by (vm_compute; reflexivity). rewrite C. reflexivity.
Qed.
Print Assumptions C34_section_refuted.

(** A surface with boundary cannot be triangulated: the edge of the triangulation at the boundary raises a TypeError. *)
Theorem C56_boundary_refuted (K : OField) (S : surface K Z) (D : Z -> bool) (ls : option (list Z)) l P re :
  (forall l, D l = true -> exists P, s_poly S l = Ok P /\ proper P) ->
  D l = true -> s_poly S l = Ok P -> re < length P -> s_opp S l re = Ok None ->
  exists t Q e, s_poly (lazy_surface S D ls) t = Ok Q /\ e < length Q /\ same_edge Q e P re /\ s_opp (lazy_surface S D ls) t e = Err TypeError.
Proof.
  intros DP DL E L B. destruct (image_total S D ls DP l DL) as (P' & im & E' & PR & EI). rewrite E in E'. injection E' as <-.
  destruct (outer_edge S D ls DP l P im re DL E EI L) as (t & Q & e & A1 & A2 & A3 & A4 & A5). exists t, Q, e.
  split; [exact (lazy_polygon_part S D ls l t Q DL A3)|]. split; [assumption|]. split; [assumption|].
  cbn [lazy_surface s_opp]. rewrite (lazy_outer S D ls l t Q e im re DL A3 EI A2). unfold opp_pair. rewrite B. reflexivity.
Qed.
Print Assumptions C56_boundary_refuted.
(** The root of a polygon that is not triangulated is 0, even if there is no such label. *)
Theorem C56_roots_refuted : exists (S : surface cqF Z) (D : Z -> bool) ls roots t,
  valid (fun l => D l = true) S /\ closed (fun l => D l = true) S /\ (forall l, D l = true -> exists P, s_poly S l = Ok P /\ proper P) /\
  (forall r, In r roots -> D r = true) /\
  lazy_roots S ls roots = Ok [t] /\ lazy_label S D ls t = Ok false.
Proof.
  exists (ztab hex), (zdom hex), (Some [0%Z]), [1%Z], (Ref 0).
  split; [exact hex_valid|]. split; [exact hex_closed|]. split; [exact hex_proper|].
  split; [intros r [<-|[]]; vm_compute; reflexivity|]. split; vm_compute; reflexivity.
Qed.
Print Assumptions C56_roots_refuted.

(** points of the first triangle are mapped and mapped back; a polygon that is not triangulated is kept *)
Definition point_report {A} (x : res (A * vec cqF)) : option (A * (Q * Q)) :=
  match x with Ok (t, c) => Some (t, (cqv (fst c), cqv (snd c))) | Err _ => None end.
Definition pent : polygon cqF := [qv 0 0; qv 2 (-1); qv 4 0; qv 2 4; qv (-1) 3].
Lemma pent_proper : forall l, zdom (twice pent) l = true -> exists P, s_poly (ztab (twice pent)) l = Ok P /\ proper P.
Proof. apply ztab_proper. vm_compute. reflexivity. Qed.
Example C34_ex : let S := ztab (twice pent) in let D := zdom (twice pent) in
  (exists t Q, image_point S D None 1 (qv (-2) (-2)) = Ok (t, qv (-2) (-2)) /\ over t = 1%Z /\ lazy_polygon S D None t = Ok Q /\ left_or_on Q (qv (-2) (-2))) /\
  point_report (image_point S D None 1 (qv (-2) (-2))) = Some (Part 1 1, (-(2), -(2)))%Q /\
  point_report (section_point S D None [0; 1]%Z (Part 1 1) (qv (-2) (-2))) = Some (1%Z, (-(2), -(2)))%Q /\
  point_report (image_point S D (Some [0%Z]) 1 (qv (-2) (-2))) = Some (Ref 1, (-(2), -(2)))%Q.
Proof.
  cbv zeta. split; [|split; [|split]; vm_compute; reflexivity].
  refine (C34_small_partial cqF (ztab (twice pent)) (zdom (twice pent)) None pent_proper 1%Z (nth 1 (fst (twice pent)) []) (qv (-2) (-2)) _ _ _ _ _).
  - vm_compute; reflexivity. - reflexivity. - reflexivity. - vm_compute; lia.
  - assert (X : get_point_position (nth 1 (fst (twice pent)) []) (qv (-2) (-2)) = Interior) by (vm_compute; reflexivity). rewrite X. discriminate.
Qed.
