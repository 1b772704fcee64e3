(** Theorem C80: linear maps act on the tangent vectors of a surface. *)
From Coq Require Import List Bool ZArith Arith Lia QArith Relations.
From Verif Require Import OField FMicromega PField MBase MDict MEuclid PEuclid SEuclid MSim SSim PSim MPoly PPoly MMut SMut SPoint SCut TEuclid MSurf SSurf PSurf3 ExTab MTangent STangent PTangent3 PTangent4 TLazy TEar TIET TTangent SRotate TRotate MMap SMap PMap PMap2 PMap3.
Import ListNotations.
Open Scope nat_scope.

(** closed surfaces whose polygons are simple and have positive area *)
Section Surface.
Variables (K : OField) (L : Type) (EL : EqB L) (D : L -> Prop) (S : surface K L).
Hypothesis V : valid D S.
Hypothesis C : closed D S.
Hypothesis PRS : forall l P, D l -> s_poly S l = Ok P -> proper P.

(** The mapping exists if and only if the matrix is invertible. The image is a closed surface of simple polygons again,
    and pushing forward and pulling back are inverse bijections between the tangent vectors of both surfaces. The
    coordinates of the image are the images of the coordinates, up to the choice of a polygon. *)
Theorem C80_inverse M : (mdet M = f0 -> GL2RMapping S M = Err ZeroDivisionError) /\ (mdet M <> f0 -> exists g, GL2RMapping S M = Ok g /\
  valid D (gl2r S M) /\ closed D (gl2r S M) /\ (forall l Q, D l -> s_poly (gl2r S M) l = Ok Q -> proper Q) /\
  (forall t, tv_ok D S t -> exists u, push g t = Ok u /\ tv_ok D (gl2r S M) u /\ tangent_equiv D (gl2r S M) (linear_image_coords M (raw t)) (raw u) /\ pull g u = Ok t) /\
  (forall u, tv_ok D (gl2r S M) u -> exists t, pull g u = Ok t /\ tv_ok D S t /\ push g t = Ok u)).
Proof.
  unfold GL2RMapping. split.
  - intros ->. now rewrite (proj2 (feqb_eq _ _ _) eq_refl).
  - intros Hd. assert (E : feqb (mdet M) f0 = false) by (destruct (feqb (mdet M) f0) eqn:E; auto; apply feqb_eq in E; contradiction). rewrite E.
    eexists. split; [reflexivity|]. destruct (gl2r_valid D S M V C Hd) as [VT CT]. split; auto. split; auto. split; [exact (T_proper D S V PRS M Hd)|]. cbn [push pull]. split.
    + intros t O. exact (push_ok D S V C PRS M Hd t O).
    + intros u O. exact (pull_ok D S V C PRS M Hd u O).
Qed.
(** If the orientation is preserved then label and position do not change, and point and vector are multiplied by the
    matrix. *)
Theorem C80_positive M g t : flt f0 (mdet M) -> GL2RMapping S M = Ok g -> tv_ok D S t ->
  push g t = Ok (TVec (tv_label t) (mapply M (tv_point t)) (mapply M (tv_vector t)) (tv_position t)).
Proof.
  intros Pos E O. assert (Hd : mdet M <> f0) by now apply pos_nz. unfold GL2RMapping in E. destruct (feqb (mdet M) f0); [discriminate|]. injection E as <-. cbn [push].
  exact (proj1 (push_image D S V PRS M Pos t O)).
Qed.
(** Composing such mappings is multiplying the matrices. *)
Theorem C80_composition M N g h k t : flt f0 (mdet M) -> flt f0 (mdet N) -> GL2RMapping S M = Ok g -> GL2RMapping (gl2r S M) N = Ok h -> GL2RMapping S (mmul N M) = Ok k ->
  tv_ok D S t -> push (composition g h) t = push k t /\ bind (push (composition g h) t) (pull (composition g h)) = Ok t.
Proof.
  intros PM PN Eg Eh Ek O. pose proof (pos_nz M PM) as HM. pose proof (pos_nz N PN) as HN.
  destruct (proj2 (C80_inverse M) HM) as [g' [Eg' [VT [CT [PT [Pu _]]]]]]. rewrite Eg in Eg'. injection Eg' as <-. destruct (Pu t O) as [u [E1 [OU [_ B1]]]].
  assert (PNM : flt f0 (mdet (mmul N M))) by (rewrite mdet_mmul; now apply fmul_pos).
  pose proof (C80_positive M g t PM Eg O) as X. rewrite X in E1. injection E1 as <-.
  assert (HN2 : exists w, push h (TVec (tv_label t) (mapply M (tv_point t)) (mapply M (tv_vector t)) (tv_position t)) = Ok w /\ w = TVec (tv_label t) (mapply N (mapply M (tv_point t))) (mapply N (mapply M (tv_vector t))) (tv_position t) /\
    pull h w = Ok (TVec (tv_label t) (mapply M (tv_point t)) (mapply M (tv_vector t)) (tv_position t))).
  { unfold GL2RMapping in Eh. destruct (feqb (mdet N) f0); [discriminate|]. injection Eh as <-. cbn [push pull].
    destruct (push_ok D (gl2r S M) VT CT PT N HN _ OU) as [w [E2 [_ [_ B2]]]]. exists w. split; auto. split; auto.
    pose proof (proj1 (push_image D (gl2r S M) VT PT N PN _ OU)) as Y. rewrite E2 in Y. injection Y as ->. reflexivity. }
  destruct HN2 as [w [E2 [Ew B2]]]. unfold composition. cbn [push pull]. rewrite X. cbn [bind]. rewrite E2. cbn [bind]. rewrite B2. cbn [bind]. split; [|exact B1].
  rewrite (C80_positive (mmul N M) k t PNM Ek O), Ew. now rewrite !mapply_mmul.
Qed.
(** On dilation surfaces the image does not depend on how a tangent vector is described, and straight segments are mapped
    to straight segments if the orientation is preserved. *)
Theorem C80_natural M g l p v t : all_gluings D S map_dilation -> GL2RMapping S M = Ok g -> D l -> tangent_vector S l p v = Ok t ->
  tangent_vector (gl2r S M) l (mapply M p) (mapply M v) = push g t.
Proof.
  intros DIL E Dl ET. unfold GL2RMapping in E. destruct (feqb (mdet M) f0) eqn:Z; [discriminate|]. injection E as <-. cbn [push].
  assert (Hd : mdet M <> f0) by (intros X; rewrite (proj2 (feqb_eq _ _ _) X) in Z; discriminate).
  destruct (push_natural D S V C PRS M Hd DIL l p v t Dl ET) as [u [A B]]. now rewrite A, B.
Qed.
Theorem C80_straight M g s : all_gluings D S map_dilation -> flt f0 (mdet M) -> GL2RMapping S M = Ok g -> straight D S s ->
  exists a b, push g (sg_start s) = Ok a /\ push g (sg_end s) = Ok b /\ straight D (gl2r S M) (Segment a b).
Proof.
  intros DIL Pos E ST. do 2 eexists. split; [apply (C80_positive M g _ Pos E); apply ST|]. split; [apply (C80_positive M g _ Pos E); apply ST|].
  exact (straight_image D S V C PRS M Pos DIL s ST).
Qed.
(** Compositions, for both orientations: they are inverse bijections, and on dilation surfaces the image of a tangent
    vector given by [l], [p], [v] is given by [l] and the images of [p] and [v] under the product of the matrices. *)
Theorem C80_composition_inverse M N g h : GL2RMapping S M = Ok g -> GL2RMapping (gl2r S M) N = Ok h ->
  (forall t, tv_ok D S t -> exists w, push (composition g h) t = Ok w /\ tv_ok D (gl2r (gl2r S M) N) w /\ pull (composition g h) w = Ok t) /\
  (forall w, tv_ok D (gl2r (gl2r S M) N) w -> exists t, pull (composition g h) w = Ok t /\ tv_ok D S t /\ push (composition g h) t = Ok w).
Proof.
  intros Eg Eh.
  assert (HM : mdet M <> f0) by (intros X; rewrite (proj1 (C80_inverse M) X) in Eg; discriminate).
  destruct (proj2 (C80_inverse M) HM) as [g' [Eg' [VT [CT [PT [Pg Qg]]]]]]. rewrite Eg in Eg'. injection Eg' as <-.
  unfold GL2RMapping in Eh. destruct (feqb (mdet N) f0) eqn:Z; [discriminate|]. injection Eh as <-.
  assert (HN : mdet N <> f0) by (intros X; rewrite (proj2 (feqb_eq _ _ _) X) in Z; discriminate).
  unfold composition. cbn [push pull]. split.
  - intros t O. destruct (Pg t O) as [u [E1 [OU [_ B1]]]]. destruct (push_ok D (gl2r S M) VT CT PT N HN u OU) as [w [E2 [OW [_ B2]]]].
    exists w. rewrite E1. cbn [bind]. split; auto. split; auto. rewrite B2. exact B1.
  - intros w O. destruct (pull_ok D (gl2r S M) VT CT PT N HN w O) as [u [E1 [OU B1]]]. destruct (Qg u OU) as [t [E2 [OT B2]]].
    exists t. rewrite E1. cbn [bind]. split; auto. split; auto. rewrite B2. exact B1.
Qed.
Theorem C80_composition_natural M N g h l p v t : all_gluings D S map_dilation -> GL2RMapping S M = Ok g -> GL2RMapping (gl2r S M) N = Ok h -> D l -> tangent_vector S l p v = Ok t ->
  tangent_vector (gl2r (gl2r S M) N) l (mapply (mmul N M) p) (mapply (mmul N M) v) = push (composition g h) t.
Proof.
  intros DIL Eg Eh Dl E.
  assert (HM : mdet M <> f0) by (intros X; rewrite (proj1 (C80_inverse M) X) in Eg; discriminate).
  destruct (proj2 (C80_inverse M) HM) as [g' [Eg' [VT [CT [PT _]]]]]. rewrite Eg in Eg'. injection Eg' as <-.
  unfold GL2RMapping in Eh. destruct (feqb (mdet N) f0) eqn:Z; [discriminate|]. injection Eh as <-.
  assert (HN : mdet N <> f0) by (intros X; rewrite (proj2 (feqb_eq _ _ _) X) in Z; discriminate).
  unfold GL2RMapping in Eg. destruct (feqb (mdet M) f0); [discriminate|]. injection Eg as <-. unfold composition. cbn [push].
  destruct (push_natural D S V C PRS M HM DIL l p v t Dl E) as [u [A B]]. rewrite B. cbn [bind].
  destruct (push_natural D (gl2r S M) VT CT PT N HN (im_dilation D S V C M HM DIL) l _ _ u Dl A) as [w [A' B']].
  rewrite B', !mapply_mmul. exact A'.
Qed.
End Surface.
Print Assumptions C80_inverse.
Print Assumptions C80_positive.
Print Assumptions C80_composition.
Print Assumptions C80_natural.
Print Assumptions C80_straight.
Print Assumptions C80_composition_inverse.
Print Assumptions C80_composition_natural.

(** ** Examples and a counterexample *)
(** The L-shaped surface: a reflection reverses the edges, so a vector along an edge is moved to another polygon edge;
    pulling it back recovers it. *)
Definition reflection : mat cqF := Mat (qn 1) (qn 1) (qn 0) (qn (-1)).
Definition ell_along : tvec cqF Z := TVec 0%Z (qv (1#2) 0) (qv 1 0) (EdgeInterior 0).
Example C80_ex : res_report (fun g => res_report tv_report (push g ell_along)) (GL2RMapping ellS reflection) = inl (inl ((5#2, -(2)), (1, 0), EdgeInterior 2))%Q /\
  res_report (fun g => res_report tv_report (bind (push g ell_along) (pull g))) (GL2RMapping ellS reflection) = inl (inl (tv_report ell_along)) /\
  tv_ok ellD ellS ell_along /\ mdet reflection <> f0 /\ all_gluings ellD ellS map_dilation.
Proof.
  split; [vm_compute; reflexivity|]. split; [vm_compute; reflexivity|].
  split; [apply (ell_make ell_along 0%Z (qv (1#2) 0) (qv 1 0)); vm_compute; reflexivity|].
  split; [intros E; apply (f_equal cqv) in E; vm_compute in E; discriminate|].
  exact (translation_gluings ellD ellS ell_valid ell_translations).
Qed.
(** the hypotheses of the other theorems *)
Definition shear2 : mat cqF := Mat (qn 2) (qn 1) (qn 0) (qn (1#3)).
Example C80_ex_positive : flt f0 (mdet shear2) /\ flt f0 (mdet (mmul shear2 shear2)) /\ res_report (fun g => res_report tv_report (push g ell_along)) (GL2RMapping ellS shear2) = inl (inl ((1, 0), (2, 0), EdgeInterior 0))%Q.
Proof. split; [|split]; [unfold flt; vm_compute; reflexivity|unfold flt; vm_compute; reflexivity|vm_compute; reflexivity]. Qed.

(** a shear after a reflection *)
Example C80_ex_composition : res_report (fun f => res_report tv_report (push f ell_along)) (bind (GL2RMapping ellS reflection) (fun g => bind (GL2RMapping (gl2r ellS reflection) shear2) (fun h => Ok (composition g h)))) =
    inl (inl ((3, -(2#3)), (2, 0), EdgeInterior 2))%Q /\
  res_report (fun f => res_report tv_report (bind (push f ell_along) (pull f))) (bind (GL2RMapping ellS reflection) (fun g => bind (GL2RMapping (gl2r ellS reflection) shear2) (fun h => Ok (composition g h)))) = inl (inl (tv_report ell_along)).
Proof. split; vm_compute; reflexivity. Qed.

(** A square whose edges 0 and 1, and 2 and 3, are glued: these gluings are rotations. *)
Definition pillow : table cqF := ([[qv 0 0; qv 1 0; qv 1 1; qv 0 1]], [((0, 0), (0, 1)); ((0, 2), (0, 3))]).
Definition pillowS : surface cqF Z := ztab pillow.
Definition pillowD (l : Z) : Prop := zdom pillow l = true.
Lemma pillow_valid : valid pillowD pillowS.
Proof. apply ztab_valid. vm_compute. reflexivity. Qed.
Lemma pillow_closed : closed pillowD pillowS.
Proof. apply ztab_closed. vm_compute. reflexivity. Qed.
Lemma pillow_proper : forall l P, pillowD l -> s_poly pillowS l = Ok P -> proper P.
Proof.
  intros l P Dl E. destruct (ztab_proper pillow) with (l := l) as [P' [E' PR]]; [vm_compute; reflexivity|exact Dl|]. unfold pillowS in E. rewrite E' in E. injection E as <-. exact PR.
Qed.
(** [C80_natural] fails for other surfaces: after a linear map the rotations are replaced by other similarities, so that
    two descriptions of the same tangent vector at an edge have different images. *)
Theorem C80_natural_refuted : ~ (forall (K : OField) (L : Type) (EL : EqB L) (D : L -> Prop) (S : surface K L), valid D S -> closed D S -> (forall l P, D l -> s_poly S l = Ok P -> proper P) ->
  forall M g l p v t, GL2RMapping S M = Ok g -> D l -> tangent_vector S l p v = Ok t -> tangent_vector (gl2r S M) l (mapply M p) (mapply M v) = push g t).
Proof.
  intros X. specialize (X cqF Z _ pillowD pillowS pillow_valid pillow_closed pillow_proper shear2).
  assert (Z0 : feqb (mdet shear2) f0 = false) by (vm_compute; reflexivity). unfold GL2RMapping in X. rewrite Z0 in X.
  assert (X' := fun t => X _ 0%Z (qv (1#2) 0) (qv 1 (-1)) t eq_refl). clear X. rename X' into X. cbn [push] in X.
  assert (Y0 : match tangent_vector pillowS 0%Z (qv (1#2) 0) (qv 1 (-1)) with Ok _ => true | Err _ => false end = true) by (vm_compute; reflexivity).
  assert (Y : res_report tv_report (bind (tangent_vector pillowS 0%Z (qv (1#2) 0) (qv 1 (-1))) (fun t => tangent_vector (gl2r pillowS shear2) (tv_label t) (mapply shear2 (tv_point t)) (mapply shear2 (tv_vector t)))) =
    res_report tv_report (tangent_vector (gl2r pillowS shear2) 0%Z (mapply shear2 (qv (1#2) 0)) (mapply shear2 (qv 1 (-1))))).
  { destruct (tangent_vector pillowS 0%Z (qv (1#2) 0) (qv 1 (-1))) as [t|]; [|discriminate Y0]. cbn [bind].
    assert (D0 : pillowD 0%Z) by (vm_compute; reflexivity). specialize (X t D0 eq_refl). now rewrite X. }
  clear X Y0. vm_compute in Y. discriminate Y.
Qed.
Print Assumptions C80_natural_refuted.
