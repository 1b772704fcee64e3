(** Theorems C12, C13, C19, C29, C30, C31: similarity surfaces, type tests, linear images and covers. *)
From Coq Require Import List Bool ZArith Arith Lia QArith Ring Field.
From Verif Require Import OField FMicromega PField MBase MDict PDict MEuclid SEuclid PEuclid MSim SSim PSim MPoly PPoly
  MMut SMut PMut PMut2 PMut3 TMut MSurf SSurf PSurf PSurf2 PSurf3 PSurf4 TEuclid.
Import ListNotations.
Open Scope nat_scope.

(** ** surfaces that exist *)
(** the surfaces that are built with the mutable interface of MMut from polygons without degenerate edges
    are valid in the sense of SSurf *)
Theorem C12_mutable_valid (K : OField) (s : @surf (polygon K)) :
  intact (@length (vec K)) s ->
  (forall l P, get_polygon s l = Ok P -> 3 <= length P /\ forall e, edge P e <> vzero) ->
  valid (is_label s) (mut_surface s).
Proof.
  intros I H. pose proof (C01_well_defined (@length (vec K)) s I) as W.
  pose proof (g_inv _ s (intact_good _ s I)) as Iv.
  constructor.
  - intros l [P HP]. exists P. split; [exact HP|]. now apply (H l).
  - intros l P e Dl HP He. cbn in HP.
    assert (E : is_edge (@length (vec K)) s (l, Z.of_nat e)) by (exists P; split; [exact HP|cbn [fst snd]; lia]).
    destruct (W _ E) as [[_ F]|[y [_ G]]].
    + left. cbn in F |- *. change (list (vec K)) with (polygon K) in F. now rewrite F.
    + right. destruct y as [l' z].
      assert (B : glued (@length (vec K)) s (l', z) (l, Z.of_nat e)).
      { apply glued_gz; auto. assert (X : glued (@length (vec K)) s (l, Z.of_nat e) (l', z)) by (split; auto).
        apply glued_gz in X; auto. now apply (i_inv _ s Iv). }
      destruct B as [[P' [HP' Hz]] B]. cbn [fst snd] in *.
      exists l', (Z.to_nat z), P'. cbn [s_opp s_poly mut_surface]. change (list (vec K)) with (polygon K) in *. rewrite G. split; [reflexivity|].
      split; [now exists P'|]. split; [exact HP'|]. split; [lia|].
      rewrite Z2Nat.id by lia. rewrite B. now rewrite Nat2Z.id.
Qed.
Print Assumptions C12_mutable_valid.

(** ** C12 *)
(** [edge_transformation] is an orientation preserving similarity that maps the end points of the edge to the end
    points of the partner in opposite order, and moves the polygon to the other side of the partner; it is the only
    gluing map; the transformation of the partner is its inverse; [edge_matrix] is its derivative *)
Theorem C12_edge_transformation (K : OField) (L : Type) (D : L -> Prop) (S : surface K L) l e P l' e' P' :
  valid D S -> glued_at D S l e P l' e' P' ->
  exists f, edge_transformation S l e = Ok f /\
    gluing_map P e P' e' (sim_apply f) /\
    (forall F, gluing_map P e P' e' F -> forall p, F p = sim_apply f p) /\
    (forall p, left_of P e p <-> right_of P' e' (sim_apply f p)) /\
    edge_matrix S l e = Ok (sim_derivative f) /\
    exists g, edge_transformation S l' e' = Ok g /\ edge_matrix S l' e' = Ok (sim_derivative g) /\
      forall p, sim_apply g (sim_apply f p) = p /\ sim_apply f (sim_apply g p) = p.
Proof.
  intros V G. destruct (edge_transformation_ok _ _ _ _ _ _ _ _ V G) as [f [Ef [Kf [Sf [Fa Fb]]]]].
  exists f. split; [exact Ef|].
  pose proof (gluing_map_iff _ _ _ _ _ _ _ _ _ V G Ef) as I. split; [now apply I|]. split; [intros F; apply I|].
  pose proof (edge_transformation_inverse _ _ _ _ _ _ _ _ _ V G Ef) as Ei. split.
  - intros p. unfold left_of, right_of. rewrite <- Fa, <- Fb, sim_orient, (orient_swap (vertex P e) (vertex P (Datatypes.S e))).
    unfold sim_det, sgn. rewrite Sf. destruct (sim_is_similarity f Kf) as [C _].
    set (c := fadd (fmul (sg_a f) (sg_a f)) (fmul (sg_b f) (sg_b f))) in *.
    set (o := orient (vertex P e) (vertex P (Datatypes.S e)) p). split; intros X.
    + fnra.
    + destruct (fltb_total K o f0) as [Z|[Z|Z]]; auto; exfalso.
      * change (flt o f0) in Z. assert (flt f0 (fmul (fmul f1 c) (fopp o))) by fnra. flra.
      * rewrite Z in X. flra.
  - split; [now apply (edge_matrix_ok _ _ _ _ _ _ _ _ _ V G)|]. exists (sim_inv f). split; [exact Ei|].
    split; [now apply (edge_matrix_ok _ _ _ _ _ _ _ _ _ V (glued_sym _ _ _ _ _ _ _ _ V G))|].
    intros p. split; [now apply sim_inv_apply | now apply sim_apply_inv].
Qed.
Print Assumptions C12_edge_transformation.

(** ** C13 *)
(** the tests never raise an exception, and they answer [True] iff all gluings are of the respective kind; [labels]
    enumerates the labels in any order, possibly with repetitions *)
Theorem C13_is_translation_surface (K : OField) (L : Type) `{EqB L} (D : L -> Prop) (S : surface K L) labels :
  valid D S -> (forall l, In l labels <-> D l) ->
  (exists b, is_translation_surface S labels true = Ok b /\ (b = true <-> all_gluings D S map_translation)) /\
  (exists b, is_translation_surface S labels false = Ok b /\ (b = true <-> all_gluings D S map_half_translation)).
Proof.
  intros V Ls. split.
  - apply scan_exact; auto using ext_translation, inv_translation. exact translation_test_spec.
  - apply scan_exact; auto using ext_half_translation, inv_half_translation. exact half_translation_test_spec.
Qed.
Print Assumptions C13_is_translation_surface.

Theorem C13_is_dilation_surface (K : OField) (L : Type) `{EqB L} (D : L -> Prop) (S : surface K L) labels :
  valid D S -> (forall l, In l labels <-> D l) ->
  (exists b, is_dilation_surface S labels false = Ok b /\ (b = true <-> all_gluings D S map_dilation)) /\
  (exists b, is_dilation_surface S labels true = Ok b /\ (b = true <-> all_gluings D S map_positive_dilation)).
Proof.
  intros V Ls. destruct (C13_is_translation_surface K L D S labels V Ls) as [[b1 [R1 B1]] [b2 [R2 B2]]].
  split; unfold is_dilation_surface.
  - rewrite R2. cbn [bind]. destruct b2.
    + exists true. split; auto. split; auto. intros _. apply (all_gluings_impl D S map_half_translation); [apply half_is_dilation|].
      now apply B2.
    + apply scan_exact; auto using ext_dilation, inv_dilation. exact dilation_test_spec.
  - rewrite R1. cbn [bind]. destruct b1.
    + exists true. split; auto. split; auto. intros _.
      apply (all_gluings_impl D S map_translation); [apply translation_is_positive_dilation|]. now apply B1.
    + apply scan_exact; auto using ext_positive_dilation, inv_positive_dilation. exact positive_dilation_test_spec.
Qed.
Print Assumptions C13_is_dilation_surface.

Theorem C13_is_cone_surface (K : OField) (L : Type) `{EqB L} (D : L -> Prop) (S : surface K L) labels :
  valid D S -> (forall l, In l labels <-> D l) ->
  exists b, is_cone_surface S labels = Ok b /\ (b = true <-> all_gluings D S map_isometry).
Proof.
  intros V Ls. apply scan_exact; auto using ext_isometry, inv_isometry. intros f _. exact (cone_test_spec f).
Qed.
Print Assumptions C13_is_cone_surface.

(** ** C19 *)
Theorem C19_valid (K : OField) (L : Type) (D : L -> Prop) (S : surface K L) (M : mat K) :
  valid D S -> closed D S -> mdet M <> f0 -> valid D (gl2r S M) /\ closed D (gl2r S M).
Proof. apply gl2r_valid. Qed.
Print Assumptions C19_valid.

Theorem C19_kind (K : OField) (L : Type) (D : L -> Prop) (S : surface K L) (M : mat K) :
  valid D S -> closed D S -> mdet M <> f0 ->
  (all_gluings D S map_translation -> all_gluings D (gl2r S M) map_translation) /\
  (all_gluings D S map_half_translation -> all_gluings D (gl2r S M) map_half_translation) /\
  (all_gluings D S map_dilation -> all_gluings D (gl2r S M) map_dilation) /\
  (all_gluings D S map_positive_dilation -> all_gluings D (gl2r S M) map_positive_dilation).
Proof. apply gl2r_kinds. Qed.
Print Assumptions C19_kind.

(** the same labels are adjacent, so that the components are the same *)
Theorem C19_adjacent (K : OField) (L : Type) (D : L -> Prop) (S : surface K L) (M : mat K) l l' :
  valid D S -> closed D S -> mdet M <> f0 -> (next_to D (gl2r S M) l l' <-> next_to D S l l').
Proof. apply gl2r_next. Qed.
Print Assumptions C19_adjacent.

(** ** C29 *)
Theorem C29_translation_cover (K : OField) (L : Type) (D : L -> Prop) (S : surface K L) :
  valid D S -> closed D S ->
  valid (cover_dom D) (translation_cover S) /\ closed (cover_dom D) (translation_cover S) /\
  all_gluings (cover_dom D) (translation_cover S) map_translation /\
  (forall l P, D l -> s_poly S l = Ok P -> cover_dom D (l, @f1 K, @f0 K) /\ s_poly (translation_cover S) (l, f1, f0) = Ok P).
Proof.
  intros V C. destruct (translation_cover_ok D S V C) as [A [B E]]. do 3 (split; [auto|]).
  intros l P Dl Pl. split; [split; [exact Dl|left; apply f1_neq_0]|]. cbn. rewrite Pl. cbn.
  replace (rot_mat f1 f0) with (@mone K); [apply poly_mul_one|]. unfold rot_mat, mone. f_equal. flra.
Qed.
Print Assumptions C29_translation_cover.

(** polygons of the cover are rotated and scaled polygons of the base; crossing an edge covers crossing the edge *)
Theorem C29_projection (K : OField) (L : Type) (D : L -> Prop) (S : surface K L) l a b e Q l' a' b' e' Q' :
  valid D S -> closed D S ->
  glued_at (cover_dom D) (translation_cover S) (l, a, b) e Q (l', a', b') e' Q' ->
  exists P P', glued_at D S l e P l' e' P' /\
    Q = map (mapply (rot_mat a b)) P /\ Q' = map (mapply (rot_mat a' b')) P' /\ flt f0 (mdet (rot_mat a b)).
Proof.
  intros V C G. destruct (ga_dom _ _ _ _ _ _ _ _ G) as [Dl N].
  destruct (cover_poly D S l a b V Dl N) as [P [Pl [L3 [HP [Nz Cp]]]]].
  pose proof (ga_poly _ _ _ _ _ _ _ _ G) as HQ. rewrite Cp in HQ. injection HQ as <-.
  pose proof (ga_edge _ _ _ _ _ _ _ _ G) as He. rewrite map_length in He.
  destruct (tc_cross D S l e P a b V C Dl N Pl He) as [l2 [e2 [P' [a2 [b2 [G' [Dl' [Lt' [N' [O [O' E]]]]]]]]]]].
  rewrite (ga_opp _ _ _ _ _ _ _ _ G) in O. injection O as <- <- <- <-.
  destruct (cover_poly D S l' a' b' V Dl' N') as [P2 [Pl2 [_ [_ [_ Cp2]]]]].
  assert (P2 = P') by (destruct G'; congruence). subst P2.
  pose proof (ga_poly' _ _ _ _ _ _ _ _ G) as HQ'. rewrite Cp2 in HQ'. injection HQ' as <-.
  exists P, P'. do 3 (split; [auto|]). now apply rot_mat_pos.
Qed.
Print Assumptions C29_projection.

(** ** C30 *)
(** the gluings of the half-translation cover are involutive for every surface, but they are half-translations only
    if the gluings of the base are isometries (cone surfaces); missing: all similarity surfaces, see below *)
Theorem C30_half_translation_cover_partial (K : OField) (L : Type) (D : L -> Prop) (S : surface K L) :
  valid D S -> closed D S ->
  valid (half_dom D) (half_translation_cover S) /\ closed (half_dom D) (half_translation_cover S) /\
  (all_gluings D S map_isometry -> all_gluings (half_dom D) (half_translation_cover S) map_half_translation) /\
  (forall l P, D l -> s_poly S l = Ok P -> half_dom D (l, @f1 K, @f0 K) /\ s_poly (half_translation_cover S) (l, f1, f0) = Ok P).
Proof.
  intros V C. destruct (half_cover_valid D S V C) as [A B]. do 2 (split; [auto|]). split; [now apply half_cover_kind|].
  intros l P Dl Pl. split; [split; [exact Dl|left; apply flt_0_1]|]. cbn. rewrite Pl. cbn.
  replace (rot_mat f1 f0) with (@mone K); [apply poly_mul_one|]. unfold rot_mat, mone. f_equal. flra.
Qed.
Print Assumptions C30_half_translation_cover_partial.

(** ** C31 *)
Theorem C31_planar_cover (K : OField) (L : Type) (D : L -> Prop) (S : surface K L) :
  valid D S -> closed D S ->
  valid (planar_dom D) (planar_cover S) /\ closed (planar_dom D) (planar_cover S) /\
  (forall l m e Q l' m' e' Q', glued_at (planar_dom D) (planar_cover S) (l, m) e Q (l', m') e' Q' ->
     vertex Q e = vertex Q' (Datatypes.S e') /\ vertex Q (Datatypes.S e) = vertex Q' e') /\
  all_gluings (planar_dom D) (planar_cover S) map_identity /\
  (forall l P, D l -> s_poly S l = Ok P -> planar_dom D (l, @sim_one K) /\ s_poly (planar_cover S) (l, sim_one) = Ok P).
Proof.
  intros V C. destruct (planar_cover_ok D S V C) as [A [B [E F]]]. do 4 (split; [auto|]).
  intros l P Dl Pl. split; [split; [exact Dl|split; [apply sim_ok_one|reflexivity]]|]. cbn. rewrite Pl. cbn. f_equal.
  unfold sim_polygon. rewrite <- (map_id P) at 2. apply map_ext. intros p. apply sim_one_apply.
Qed.
Print Assumptions C31_planar_cover.

(** ** examples: surfaces with one polygon *)
Definition one_polygon (P : polygon cqF) (g : nat -> option nat) : surface cqF unit :=
  Surface (fun _ => Ok P) (fun _ e => Ok (option_map (fun e' => (tt, e')) (g e))).
Definition one_ok (P : polygon cqF) (g : nat -> option nat) : bool :=
  (3 <=? length P)%nat &&
  forallb (fun e => negb (veqb (edge P e) vzero) &&
                    match g e with
                    | None => true
                    | Some e' => (e' <? length P)%nat && match g e' with Some e'' => (e'' =? e)%nat | None => false end
                    end) (seq 0 (length P)).
Definition one_closed (P : polygon cqF) (g : nat -> option nat) : bool :=
  forallb (fun e => match g e with Some _ => true | None => false end) (seq 0 (length P)).
Lemma one_valid P g : one_ok P g = true -> valid (fun _ => True) (one_polygon P g).
Proof.
  unfold one_ok. rewrite andb_true_iff, forallb_forall. intros [L3 H]. apply Nat.leb_le in L3. constructor.
  - intros [] _. exists P. split; [reflexivity|]. split; [exact L3|]. apply edges_nz; [lia|]. intros e He.
    assert (I : In e (seq 0 (length P))) by (apply in_seq; lia). apply H in I. apply andb_true_iff in I as [I _].
    apply veqb_neq. now apply negb_true_iff.
  - intros [] Q e _ HQ He. injection HQ as <-. cbn [s_opp one_polygon].
    assert (I : In e (seq 0 (length P))) by (apply in_seq; lia). apply H in I. apply andb_true_iff in I as [_ I].
    destruct (g e) as [e'|] eqn:E; [|now left]. right. apply andb_true_iff in I as [I1 I2]. apply Nat.ltb_lt in I1.
    destruct (g e') as [e''|] eqn:E'; [|discriminate]. apply Nat.eqb_eq in I2. subst e''.
    exists tt, e', P. cbn. rewrite E'. auto 10.
Qed.
Lemma one_is_closed P g : one_closed P g = true -> closed (fun _ => True) (one_polygon P g).
Proof.
  unfold one_closed. rewrite forallb_forall. intros H [] Q e _ HQ He. injection HQ as <-. cbn.
  assert (I : In e (seq 0 (length P))) by (apply in_seq; lia). apply H in I. destruct (g e); [discriminate|discriminate].
Qed.

Definition pairs (ps : list (nat * nat)) (e : nat) : option nat :=
  match find (fun p => (fst p =? e)%nat || (snd p =? e)%nat) ps with
  | Some (a, b) => Some (if (a =? e)%nat then b else a)
  | None => None
  end.
Definition unit_square : polygon cqF := [qv 0 0; qv 1 0; qv 1 1; qv 0 1].
Definition trapezoid : polygon cqF := [qv 0 0; qv 2 0; qv 1 1; qv 0 1].
(** a torus; a pillow whose edges are glued to themselves; a cone surface; a surface with dilations and rotations *)
Definition ex_torus1 := one_polygon unit_square (pairs [(0, 2); (1, 3)]).
Definition ex_pillow := one_polygon unit_square (pairs [(0, 0); (1, 1); (2, 2); (3, 3)]).
Definition ex_cone := one_polygon unit_square (pairs [(0, 1); (2, 3)]).
Definition ex_similarity := one_polygon trapezoid (pairs [(0, 2); (1, 3)]).
Definition ex_boundary := one_polygon trapezoid (pairs [(0, 2)]).

Example C12_ex : valid (fun _ => True) ex_torus1 /\ closed (fun _ => True) ex_torus1 /\
  valid (fun _ => True) ex_pillow /\ closed (fun _ => True) ex_pillow /\ valid (fun _ => True) ex_cone /\
  closed (fun _ => True) ex_cone /\ valid (fun _ => True) ex_similarity /\ closed (fun _ => True) ex_similarity /\
  valid (fun _ => True) ex_boundary.
Proof.
  repeat split; first [apply one_valid | apply one_is_closed | idtac]; try (vm_compute; reflexivity).
Qed.
Example C13_ex :
  is_translation_surface ex_torus1 [tt] true = Ok true /\ is_translation_surface ex_pillow [tt] true = Ok false /\
  is_translation_surface ex_pillow [tt] false = Ok true /\ is_cone_surface ex_cone [tt] = Ok true /\
  is_dilation_surface ex_cone [tt] false = Ok false /\ is_dilation_surface ex_similarity [tt] false = Ok false /\
  is_cone_surface ex_similarity [tt] = Ok false /\ is_dilation_surface ex_boundary [tt] true = Ok true /\
  is_cone_surface ex_boundary [tt] = Ok false.
Proof. vm_compute. repeat split; reflexivity. Qed.
Definition flip_matrix : mat cqF := Mat (Q2cq 1) (Q2cq 1) (Q2cq 0) (Q2cq (-1)).
Example C19_ex : mdet flip_matrix = Q2cq (-1) /\ s_opp (gl2r ex_torus1 flip_matrix) tt 0 = Ok (Some (tt, 2)) /\
  s_opp (gl2r ex_cone flip_matrix) tt 0 = Ok (Some (tt, 1)) /\
  s_opp (gl2r (one_polygon unit_square (pairs [(0, 1); (2, 2); (3, 3)])) flip_matrix) tt 2 = Ok (Some (tt, 3)) /\
  is_translation_surface (gl2r ex_torus1 flip_matrix) [tt] true = Ok true.
Proof. vm_compute. repeat split; reflexivity. Qed.
Example C29_ex : s_opp (translation_cover ex_similarity) (tt, Q2cq 1, Q2cq 0) 0 = Ok (Some ((tt, Q2cq 2, Q2cq 0), 2)) /\
  s_opp (translation_cover ex_cone) (tt, Q2cq 1, Q2cq 0) 0 = Ok (Some ((tt, Q2cq 0, Q2cq 1), 1)) /\
  s_opp (half_translation_cover ex_cone) (tt, Q2cq 1, Q2cq 0) 1 = Ok (Some ((tt, Q2cq 0, Q2cq 1), 0)).
Proof. vm_compute. repeat split; reflexivity. Qed.

(** ** refutations *)
(** the linear image of a cone surface need not be a cone surface, although GL2RImageSurface copies the category of
    the reference (lazy.py 683), so that [is_cone_surface()] of the image answers True (cone_surfaces.py 107-129) *)
Theorem C19_cone_refuted : ~ forall (S : surface cqF unit) (M : mat cqF), valid (fun _ => True) S ->
  closed (fun _ => True) S -> mdet M <> f0 -> all_gluings (fun _ => True) S map_isometry ->
  all_gluings (fun _ => True) (gl2r S M) map_isometry.
Proof.
  intros H. destruct C12_ex as [_ [_ [_ [_ [V [C _]]]]]].
  assert (N : mdet flip_matrix <> f0) by (intros E; vm_compute in E; discriminate).
  assert (Ls : forall l, In l [tt] <-> True) by (intros []; cbn; tauto).
  destruct (C13_is_cone_surface cqF unit (fun _ => True) ex_cone [tt] V Ls) as [b [R B]].
  replace b with true in B by (vm_compute in R; congruence).
  specialize (H ex_cone flip_matrix V C N (proj1 B eq_refl)).
  destruct (gl2r_valid _ _ flip_matrix V C N) as [V' _].
  destruct (C13_is_cone_surface cqF unit (fun _ => True) (gl2r ex_cone flip_matrix) [tt] V' Ls) as [b' [R' B']].
  apply B' in H. subst b'. vm_compute in R'. discriminate.
Qed.
Print Assumptions C19_cone_refuted.

(** GL2RImageSurface.opposite_edge raises a TypeError on the boundary (lazy.py 747) *)
Theorem C19_boundary_refuted : ~ forall (S : surface cqF unit) (M : mat cqF), valid (fun _ => True) S ->
  mdet M <> f0 -> valid (fun _ => True) (gl2r S M).
Proof.
  intros H. destruct C12_ex as [_ [_ [_ [_ [_ [_ [_ [_ V]]]]]]]].
  assert (N : mdet (@mone cqF) <> f0) by (intros E; vm_compute in E; discriminate).
  specialize (H ex_boundary mone V N).
  destruct (v_opp _ _ H tt trapezoid 1 I) as [X|[l' [e' [P' [X _]]]]].
  - vm_compute. reflexivity.
  - cbn. lia.
  - vm_compute in X. discriminate.
  - vm_compute in X. discriminate.
Qed.
Print Assumptions C19_boundary_refuted.

(** minimal_cover.py 509-513 multiplies by the transpose instead of the inverse of the edge matrix *)
Theorem C30_half_translation_cover_refuted : ~ forall S : surface cqF unit, valid (fun _ => True) S ->
  closed (fun _ => True) S -> all_gluings (half_dom (fun _ => True)) (half_translation_cover S) map_half_translation.
Proof.
  intros H. destruct C12_ex as [_ [_ [_ [_ [_ [_ [V [C _]]]]]]]]. specialize (H ex_similarity V C).
  destruct (half_cover_valid _ _ V C) as [V' _].
  assert (R : exists Q', glued_at (half_dom (fun _ => True)) (half_translation_cover ex_similarity)
     (tt, Q2cq 1, Q2cq 0) 0 trapezoid (tt, Q2cq (1#2), Q2cq 0) 2 Q' /\
     veqb (edge Q' 2) (qv (-1#2) 0) = true).
  { exists (map (mapply (@rot_mat cqF (Q2cq (1#2)) (Q2cq 0))) trapezoid). split; [|vm_compute; reflexivity]. constructor.
    - split; [exact I|]. left. vm_compute. reflexivity.
    - vm_compute. reflexivity.
    - cbn. lia.
    - vm_compute. reflexivity.
    - vm_compute. reflexivity. }
  destruct R as [Q' [G E]]. apply veqb_eq in E.
  destruct (all_gluings_elim _ _ _ _ _ _ _ _ _ V' H G) as [F [GM HF]].
  destruct (half_edges _ _ _ _ F GM HF) as [X|X];
    rewrite E in X; vm_compute in X; discriminate.
Qed.
Print Assumptions C30_half_translation_cover_refuted.
