(** Theorems C75: normalized coordinates and the holonomy field. *)
From Coq Require Import List Bool ZArith Arith Lia Ring Field QArith.
From Verif Require Import OField FMicromega PField MBase MDict PDict MEuclid SEuclid PEuclid MSim SSim PSim MPoly PPoly MMut SMut PMut PMut2 PMut3 PGlue PBuild PCover
  SPoint PPoint PSimple SHyp SCut TEuclid TMut TPoly2 TSubdiv MSubdiv PSubdiv PSubdiv3 PCut6 PTV4 PSurf3 MNorm SNorm PNorm PNorm2.
Import ListNotations.
Open Scope nat_scope.

Section T.
Context {K : OField}.
Add Field KF : (of_ft K).
Local Open Scope F_scope.
Notation nv := (@length (vec K) : polygon K -> nat).
Notation surf := (@surf (polygon K)).

Lemma ftri (x y : K) : x < y \/ x = y \/ y < x.
Proof. destruct (feq_dec x y) as [E|E]; auto. destruct (x <? y) eqn:L; [now left|]. right; right. apply fle_lteq in L. destruct L as [L|L]; congruence. Qed.
Lemma edge_in_edges (P : polygon K) e : P <> nil -> In (edge P e) (edges P).
Proof.
  intros N. unfold edges. apply in_map_iff. exists (e mod length P)%nat. assert (length P <> 0%nat) by (destruct P; [congruence|cbn; lia]).
  split; [|apply in_seq; split; [lia|apply Nat.mod_upper_bound; auto]]. unfold edge. rewrite vertex_mod. f_equal. rewrite <- (vertex_mod P (S (e mod length P))), <- (vertex_mod P (S e)). f_equal.
  change (S (e mod length P)) with (1 + e mod length P)%nat. rewrite Nat.add_mod_idemp_r by auto. reflexivity.
Qed.
Lemma hols_In (es : list (vec K)) h : In h (norm_hols es) <-> exists w, In w es /\ (h = fst w \/ h = snd w).
Proof.
  unfold norm_hols. rewrite in_flat_map. split.
  - intros [w [W [<-|[<-|[]]]]]; exists w; auto.
  - intros [w [W [->| ->]]]; exists w; split; cbn; auto.
Qed.

(** Every polygon of a surface turns somewhere. *)
Theorem C75_corner (P : polygon K) : proper P -> exists j, first_corner P j /\ (j < length P)%nat.
Proof. apply corner_exists. Qed.

Section Main.
Variables (s : surf) (l0 : label) (ls : list label) (P : polygon K) (j : nat).
Hypothesis I : intact nv s.
Hypothesis PP : proper_polygons s.
Hypothesis EL : iter_labels nv s = Ok (l0 :: ls).
Hypothesis EP : get_polygon s l0 = Ok P.
Hypothesis FC : first_corner P j.

Lemma corner_lt : (j < length P)%nat.
Proof.
  destruct (corner_exists P (PP l0 P EP)) as (i & (I1 & I2 & I3) & Hi). destruct FC as (J1 & J2 & J3).
  destruct (Nat.lt_trichotomy i j) as [H|[H|H]]; [exfalso; apply I2, J3; lia|lia|lia].
Qed.
(** If the first corner of the first polygon is convex then [normalized_coordinates] returns the image of the surface under
    the linear map of positive determinant for which the two edges at this corner are the standard basis. The holonomy field is
    the smallest field [F] such that all edges of the surface are in an [F]-vector space of dimension two, and all coordinates
    of the new surface are in this field. *)
Theorem C75_normalized : 0 < ccw (edge P (j - 1)) (edge P j) ->
  exists t M hs, normalized_coordinates BaseField s empty = (t, Ok (M, hs)) /\ holonomy_field BaseField s = Ok hs /\
    intact nv t /\ linear_image M s t /\
    0 < mdet M /\ mapply M (edge P j) = (1, 0) /\ mapply M (edge P (j - 1)) = (0, - (1)) /\
    (forall F, subfield F -> (planar_over F s <-> forall x, generated hs x -> F x)) /\
    (forall l Q i, get_polygon t l = Ok Q -> generated hs (fst (vertex Q i)) /\ generated hs (snd (vertex Q i))).
Proof.
  intros C. pose proof corner_lt as JL. destruct (norm_matrix_ok P j FC ltac:(lia)) as [X _]. destruct (X C) as (M & EM & D & MU & MV).
  destruct (norm_run s I PP (l0 :: ls) EL M l0 D eq_refl) as (t & E & IT & MT & LI). { unfold pol. now rewrite EP. }
  set (hs := norm_hols _) in E. exists t, M, hs. split; [exact E|]. split; [unfold holonomy_field; now rewrite E|]. do 2 (split; [assumption|]). do 3 (split; [assumption|]).
  assert (D' := fpos_neq0 _ D).
  assert (LS : forall l, In l (l0 :: ls) <-> is_label s l) by (intros l; now apply ls_labels).
  assert (HH : forall w, holonomy s w -> In (fst (mapply M w)) hs /\ In (snd (mapply M w)) hs).
  { intros w (l & Q & e & EQ & ->). assert (Y : In (mapply M (edge Q e)) (flat_map (norm_edges M) (map (pol s) (l0 :: ls)))).
    { apply in_flat_map. exists Q. split.
      - apply in_map_iff. exists l. split; [unfold pol; now rewrite EQ|]. apply LS. now exists Q.
      - unfold norm_edges. apply in_map. apply edge_in_edges. destruct (PP l Q EQ) as [L3 _]. destruct Q; [cbn in L3; lia|discriminate]. }
    split; apply hols_In; eauto. }
  assert (HI : forall h, In h hs -> exists w, holonomy s w /\ (h = fst (mapply M w) \/ h = snd (mapply M w))).
  { intros h H. apply hols_In in H. destruct H as [w [W Hw]]. apply in_flat_map in W. destruct W as [Q [HQ W]]. apply in_map_iff in HQ. destruct HQ as [l [<- Hl]].
    apply LS in Hl. unfold norm_edges, edges in W. apply in_map_iff in W. destruct W as [v [<- W]]. apply in_map_iff in W. destruct W as [e [<- He]].
    exists (edge (pol s l) e). split; auto. exists l, (pol s l), e. split; auto. now apply pol_ok. }
  split.
  - intros F SF. split.
    + intros (a & b & AB & H). intros x G. apply G; auto. intros h Hh. destruct (HI h Hh) as (w & W & Hw).
      destruct (coords_in F M a b (edge P j) (edge P (j - 1)) w SF AB) as [A B]; auto.
      { intros z [->|[->| ->]]; apply H; auto; eexists _, _, _; eauto. }
      destruct Hw as [->| ->]; auto.
    + intros H. exists (mapply (minv M) (1, 0)), (mapply (minv M) (0, 1)). split.
      { rewrite mapply_ccw. assert (Y : mdet (minv M) * mdet M = 1). { unfold mdet in *. unfold minv, mdet. cbn. field. exact D'. }
        intros Z. unfold ccw in Z. cbn in Z. assert (mdet (minv M) = 0) by flra. rewrite H0 in Y. pose proof (@flt_0_1 K). flra. }
      intros w W. destruct (HH w W) as [A B]. exists (fst (mapply M w)), (snd (mapply M w)). split; [now apply H, generated_in|]. split; [now apply H, generated_in|].
      rewrite <- mapply_comb. rewrite <- (mapply_inv' M w D') at 1. f_equal. destruct (mapply M w). apply vec_eq; cbn; ring.
  - intros l Q i EQ. destruct LI as (f & _ & L1 & L2 & _). destruct (proj1 (L1 l)) as (l' & [R ER] & ->); [now exists Q|].
    destruct (L2 l' R ER) as (Q' & EQ' & _ & V). rewrite EQ in EQ'. injection EQ' as <-. rewrite V.
    assert (G : subfield (generated hs)) by apply generated_subfield.
    induction i as [|i [A B]].
    + replace (mapply M (vsub (vertex R 0) (vertex R 0))) with (0 : K, 0 : K) by (apply vec_eq; cbn; ring). split; now apply subfield_0.
    + destruct (HH (edge R i)) as [A' B']; [now exists l', R, i|]. apply generated_in in A'. apply generated_in in B'.
      replace (mapply M (vsub (vertex R (S i)) (vertex R 0))) with (vadd (mapply M (vsub (vertex R i) (vertex R 0))) (mapply M (edge R i))).
      2:{ unfold edge. destruct (vertex R (S i)), (vertex R i), (vertex R 0). apply vec_eq; cbn; ring. }
      destruct G as (_ & GA & _). split; cbn [fst snd vadd]; apply GA; auto.
Qed.
(** If the first corner of the first polygon is a reflex angle, there is an AssertionError. *)
Theorem C75_reflex : ccw (edge P (j - 1)) (edge P j) < 0 ->
  snd (normalized_coordinates BaseField s empty) = Err AssertionError /\ holonomy_field BaseField s = Err AssertionError.
Proof.
  intros C. pose proof corner_lt as JL. destruct (norm_matrix_ok P j FC ltac:(lia)) as [_ X]. specialize (X C).
  assert (E : snd (normalized_coordinates BaseField s empty) = Err AssertionError).
  { unfold normalized_coordinates. rewrite (mbind_ok _ _ empty empty (l0 :: ls)) by (unfold mlift; now rewrite EL). rewrite (mbind_ok _ _ empty empty l0) by reflexivity.
    rewrite (mbind_ok _ _ empty empty P) by (unfold mlift; now rewrite EP). rewrite (mbind_err _ _ empty empty AssertionError) by (unfold mlift; now rewrite X). reflexivity. }
  split; auto. unfold holonomy_field. now rewrite E.
Qed.
End Main.

(** In particular there is always a result if the first polygon has no reflex angle. *)
Theorem C75_convex (s : surf) l0 ls P : intact nv s -> proper_polygons s -> iter_labels nv s = Ok (l0 :: ls) -> get_polygon s l0 = Ok P ->
  (forall i, 0 <= ccw (edge P i) (edge P (S i))) -> exists t M hs, normalized_coordinates BaseField s empty = (t, Ok (M, hs)).
Proof.
  intros I PP EL EP CV. destruct (corner_exists P (PP l0 P EP)) as (j & FC & _). pose proof FC as (J1 & J2 & _).
  destruct (C75_normalized s l0 ls P j I PP EL EP FC) as (t & M & hs & E & _); [|eauto].
  specialize (CV (j - 1)%nat). replace (S (j - 1)) with j in CV by lia. unfold straight in J2. destruct (ftri 0 (ccw (edge P (j - 1)) (edge P j))) as [H|[H|H]]; auto; exfalso; [now symmetry in H|flra].
Qed.
(** The holonomy field does not depend on the labels, the way in which the surface is cut into polygons with these edges, or on a
    linear change of coordinates. *)
Theorem C75_invariant (s s' : surf) (g : mat K) t M hs t' M' hs' : intact nv s -> proper_polygons s -> intact nv s' -> proper_polygons s' -> mdet g <> 0 ->
  (forall w, holonomy s' w <-> exists v, holonomy s v /\ w = mapply g v) ->
  normalized_coordinates BaseField s empty = (t, Ok (M, hs)) -> normalized_coordinates BaseField s' empty = (t', Ok (M', hs')) ->
  forall x, generated hs x <-> generated hs' x.
Proof.
  assert (A : forall s t M hs, intact nv s -> proper_polygons s -> normalized_coordinates BaseField s empty = (t, Ok (M, hs)) ->
    forall F, subfield F -> (planar_over F s <-> forall x, generated hs x -> F x)).
  { clear. intros s t M hs I PP E. destruct (iter_labels_spec nv s (intact_good nv s I)) as [ls [EL [_ HL]]]. destruct ls as [|l0 ls].
    { unfold normalized_coordinates in E. rewrite (mbind_ok _ _ empty empty []) in E by (unfold mlift; now rewrite EL). discriminate E. }
    assert (L0 : is_label s l0) by (apply is_label_keys, HL; now left). destruct L0 as [P EP]. destruct (corner_exists P (PP l0 P EP)) as (j & FC & _). pose proof FC as (_ & NS & _). unfold straight in NS.
    destruct (ftri 0 (ccw (edge P (j - 1)) (edge P j))) as [H|[H|H]].
    - destruct (C75_normalized s l0 ls P j I PP EL EP FC H) as (t' & M' & hs' & E' & _ & _ & _ & _ & _ & _ & X & _). rewrite E in E'. injection E' as <- <- <-. exact X.
    - exfalso. now symmetry in H.
    - destruct (C75_reflex s l0 ls P j PP EL EP FC H) as [X _]. rewrite E in X. discriminate X. }
  intros I PP I' PP' D H E E'. pose proof (A _ _ _ _ I PP E) as B. pose proof (A _ _ _ _ I' PP' E') as B'.
  assert (Q : forall F, planar_over F s <-> planar_over F s').
  { intros F. split; intros (a & b & AB & X).
    - exists (mapply g a), (mapply g b). split; [rewrite mapply_ccw; now apply fmul_neq0|]. intros w W. apply H in W. destruct W as (v & W & ->). destruct (X v W) as (x & y & Fx & Fy & ->). exists x, y. split; auto. split; auto. apply mapply_comb.
    - assert (D' : mdet (minv g) <> 0). { intros Z. assert (Y : mdet (minv g) * mdet g = 1). { unfold mdet in *. unfold minv, mdet. cbn. field. exact D. } rewrite Z in Y. pose proof (@flt_0_1 K). flra. }
      exists (mapply (minv g) a), (mapply (minv g) b). split; [rewrite mapply_ccw; now apply fmul_neq0|]. intros v W.
      destruct (X (mapply g v)) as (x & y & Fx & Fy & Z); [apply H; eauto|]. exists x, y. split; auto. split; auto. rewrite <- mapply_comb, <- Z. symmetry. now apply mapply_inv'. }
  intros x. split; intros G.
  - apply (proj1 (B (generated hs') (generated_subfield hs')) (proj2 (Q _) (proj2 (B' _ (generated_subfield hs')) (fun _ y => y)))). exact G.
  - apply (proj1 (B' (generated hs) (generated_subfield hs)) (proj1 (Q _) (proj2 (B _ (generated_subfield hs)) (fun _ y => y)))). exact G.
Qed.
(** Over the rational numbers the surface itself is returned; its coordinates are in every field. *)
Theorem C75_rational (s : surf) : (forall w, holonomy s w -> generated nil (fst w) /\ generated nil (snd w)) ->
  normalized_coordinates BaseQQ s empty = (s, Ok (mone, nil)) /\ (forall v, mapply mone v = v :> vec K) /\ forall F, subfield F -> planar_over F s.
Proof.
  intros H. split; [reflexivity|]. split. { intros v. destruct v. apply vec_eq; cbn; ring. }
  intros F SF. exists (1, 0), (0, 1). split. { unfold ccw. cbn. pose proof (@flt_0_1 K). intros X. flra. }
  intros w W. destruct (H w W) as [A B]. exists (fst w), (snd w). split; [apply A; auto; intros _ []|]. split; [apply B; auto; intros _ []|]. destruct w. apply vec_eq; cbn; ring.
Qed.
End T.
Print Assumptions C75_corner.
Print Assumptions C75_normalized.
Print Assumptions C75_reflex.
Print Assumptions C75_convex.
Print Assumptions C75_invariant.
Print Assumptions C75_rational.

(** ** Examples *)
(** a parallelogram with opposite edges glued, the first edge is divided into two *)
Definition skew : polygon cqF := [qv 0 0; qv 1 0; qv 2 0; qv 3 3; qv 2 3; qv 1 3].
Definition skew_ops : list (@op (polygon cqF)) :=
  [OpAdd skew (Some 7%Z); OpGlue (7, 0)%Z (7, 4)%Z; OpGlue (7, 1)%Z (7, 3)%Z; OpGlue (7, 2)%Z (7, 5)%Z].
Definition skew_surface := run (plen cqF) skew_ops empty.
(** an L shape; its vertex 1 is the reflex angle *)
Definition ell : polygon cqF := [qv 2 1; qv 1 1; qv 1 2; qv 0 2; qv 0 1; qv 0 0; qv 1 0; qv 2 0].
Definition ell_ops : list (@op (polygon cqF)) :=
  [OpAdd ell None; OpGlue (0, 0)%Z (0, 6)%Z; OpGlue (0, 1)%Z (0, 3)%Z; OpGlue (0, 2)%Z (0, 5)%Z; OpGlue (0, 4)%Z (0, 7)%Z].
Definition ell_surface := run (plen cqF) ell_ops empty.

Lemma ops_intact ops : Forall op_nonneg ops -> mutable (run (plen cqF) ops empty) = true -> intact (plen cqF) (run (plen cqF) ops empty).
Proof. intros H M. apply reachable_intact; auto. now exists ops. Qed.
Lemma check_proper (s : @surf (polygon cqF)) : (forall l P, get_polygon s l = Ok P -> polygon_check P = Ok tt) -> proper_polygons s.
Proof. intros H l P E. apply H in E. apply polygon_check_spec in E. destruct E as [[A B] [C D]]. auto. Qed.
Lemma skew_intact : intact (plen cqF) skew_surface.
Proof. apply ops_intact; [repeat constructor; cbn; lia|vm_compute; reflexivity]. Qed.
Lemma ell_intact : intact (plen cqF) ell_surface.
Proof. apply ops_intact; [repeat constructor; cbn; lia|vm_compute; reflexivity]. Qed.
Lemma single_poly (s : @surf (polygon cqF)) k Q : polys s = [(k, Q)] -> forall l P, get_polygon s l = Ok P -> P = Q.
Proof. intros E l P H. unfold get_polygon, dgetE in H. rewrite E in H. cbn in H. destruct (l =? k)%Z; [now injection H|discriminate]. Qed.
Lemma skew_proper : proper_polygons skew_surface.
Proof. apply check_proper. intros l P E. rewrite (single_poly skew_surface 7%Z skew eq_refl l P E). vm_compute. reflexivity. Qed.
Lemma ell_proper : proper_polygons ell_surface.
Proof. apply check_proper. intros l P E. rewrite (single_poly ell_surface 0%Z ell eq_refl l P E). vm_compute. reflexivity. Qed.

(** the first vertex of the parallelogram is straight, the second is the corner; the vertices of the new polygon *)
Example C75_ex : first_corner skew 2 /\ flt f0 (ccw (edge skew 1) (edge skew 2)) /\
  iter_labels (plen cqF) skew_surface = Ok [7%Z] /\ get_polygon skew_surface 7%Z = Ok skew /\
  (match normalized_coordinates BaseField skew_surface empty with
   | (t, Ok (M, hs)) =>
     match get_polygon t 0%Z with
     | Ok Q => forallb (fun vw => veqb (fst vw) (snd vw)) (combine Q [qv 0 0; qv 0 (-1); qv 0 (-2); qv 1 (-2); qv 1 (-1); qv 1 0]) && (length Q =? 6)%nat &&
       match opposite_edge t 0%Z 2%Z with Ok (Some (0, 5)%Z) => true | _ => false end && (length hs =? 12)%nat
     | _ => false end
   | _ => false end = true).
Proof.
  split. { split; [lia|]. split; [intros H; vm_compute in H; discriminate|]. intros i Hi. assert (i = 1) by lia. subst i. vm_compute. reflexivity. }
  split; [vm_compute; reflexivity|]. split; [vm_compute; reflexivity|]. split; vm_compute; reflexivity.
Qed.
(** For surfaces with polygons that are not convex [normalized_coordinates] may fail: the L shape is a translation surface whose
    only polygon is accepted by the constructor. *)
Theorem C75_total_refuted : ~ (forall s : @surf (polygon cqF), intact (plen cqF) s -> proper_polygons s -> (exists l, is_label s l) ->
  exists r, snd (normalized_coordinates BaseField s empty) = Ok r).
Proof.
  intros H. destruct (H ell_surface ell_intact ell_proper) as [r E].
  - exists 0%Z. exists ell. vm_compute. reflexivity.
  - assert (X : (match snd (normalized_coordinates BaseField ell_surface empty) with Err AssertionError => true | _ => false end) = true) by (vm_compute; reflexivity).
    rewrite E in X. discriminate X.
Qed.
Print Assumptions C75_total_refuted.
(** all edges of the L shape are glued by translations *)
Example C75_ell_translation : forallb (fun e => match opposite_edge ell_surface 0%Z (Z.of_nat e) with
  | Ok (Some (l, e')) => (l =? 0)%Z && veqb (edge ell e) (vopp (edge ell (Z.to_nat e'))) | _ => false end) (seq 0 8) = true.
Proof. vm_compute. reflexivity. Qed.
