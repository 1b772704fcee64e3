(** Theorems C40 and C45: comparison of polygons and of surfaces, isometries of polygons. *)
From Coq Require Import List Bool ZArith Arith QArith Lia.
From Verif Require Import OField FMicromega PField MBase MEuclid SEuclid PEuclid TEuclid MSim SSim PSim MPoly PPoly MSurf SSurf PSurf PSurf3 TSurf MDict PDict ExTab MCmp SCmp PCmp PCmp2.
Import ListNotations.
Local Open Scope nat_scope.

(** ** C40: comparison of polygons *)
(** The comparison of polygons is a total preorder with values -1, 0, 1. *)
Theorem C40_polygons_order K : (forall P Q : polygon K, poly_cmp Q P = (- poly_cmp P Q)%Z) /\
  (forall P Q R : polygon K, (poly_cmp P Q <= 0)%Z -> (poly_cmp Q R <= 0)%Z -> (poly_cmp P R <= 0)%Z) /\
  (forall P Q : polygon K, (-1 <= poly_cmp P Q <= 1)%Z).
Proof. split; [apply (o_neg _ order_poly)|]. split; [apply (o_trans _ order_poly)|apply poly_cmp_range]. Qed.
Print Assumptions C40_polygons_order.
(** Which polygons are equal for the comparison: vertex 0 is not compared. *)
Theorem C40_polygons_zero K (P Q : polygon K) : poly_cmp P Q = 0%Z <->
  length P = length Q /\ area P = area Q /\ forall k, 1 <= k < length P -> vertex P k = vertex Q k.
Proof. apply poly_cmp_0. Qed.
Print Assumptions C40_polygons_zero.
(** Only equal polygons compare as 0 when the polygons begin at the same vertex. Missing: other polygons. *)
Theorem C40_polygons_partial K (P Q : polygon K) : 0 < length P -> vertex P 0 = vertex Q 0 -> (poly_cmp P Q = 0%Z <-> P = Q).
Proof. apply poly_cmp_eq0. Qed.
Print Assumptions C40_polygons_partial.
Example C40_polygons_ex : (poly_cmp unit_square [qv 0 0; qv 2 0; qv 2 1; qv 0 1] = -1 /\ poly_cmp [qv 0 0; qv 1 0; qv 1 1] unit_square = -1 /\
  poly_cmp [qv 0 0; qv 2 0; qv 1 1] [qv 0 0; qv 1 0; qv 1 2] = 1 /\ poly_cmp unit_square unit_square = 0)%Z.
Proof. vm_compute. repeat split. Qed.
(** the order is not total: two different triangles compare as 0 *)
Theorem C40_polygons_refuted : exists P Q : polygon cqF, length P = 3 /\ (0 < area P)%F /\ P <> Q /\ poly_cmp P Q = 0%Z.
Proof. exists [qv 0 0; qv 1 0; qv 1 1], [qv 0 1; qv 1 0; qv 1 1]. split; [reflexivity|]. split; [reflexivity|]. split; [intros E; discriminate (f_equal (fun l => veqb (hd (qv 0 0) l) (qv 0 0)) E)|]. vm_compute. reflexivity. Qed.
Print Assumptions C40_polygons_refuted.

(** ** C40: comparison of surfaces *)
(** What the comparison of surfaces of finite type really decides: the polygons of the first surface at the labels of
    both surfaces are compared. *)
Theorem C40_surfaces_zero K L `{EqB L} (S T : surface K L) ls1 ls2 : NoDup ls1 -> NoDup ls2 -> (surf_cmp S T ls1 ls2 = Ok 0%Z <-> length ls1 = length ls2 /\
  forall i l1 l2, nth_error ls1 i = Some l1 -> nth_error ls2 i = Some l2 -> exists P1 P2, s_poly S l1 = Ok P1 /\ s_poly S l2 = Ok P2 /\ poly_cmp P1 P2 = 0%Z /\
   forall e, e < length P1 -> exists j m1 m2 e', s_opp S l1 e = Ok (Some (m1, e')) /\ s_opp T l2 e = Ok (Some (m2, e')) /\ nth_error ls1 j = Some m1 /\ nth_error ls2 j = Some m2).
Proof. apply surf_cmp_0. Qed.
Print Assumptions C40_surfaces_zero.
(** The result is 0 exactly for equal surfaces, and the two comparisons have opposite signs, if the two surfaces have
    the same polygons at the same labels, and these begin at the same point. Missing: surfaces with other polygons. *)
Theorem C40_surfaces_partial K L `{EqB L} (S T : surface K L) ls1 ls2 v0 : NoDup ls1 -> NoDup ls2 ->
  (forall l, In l ls1 \/ In l ls2 -> exists P, s_poly S l = Ok P /\ s_poly T l = Ok P /\ 0 < length P /\ vertex P 0 = v0) ->
  (surf_cmp S T ls1 ls2 = Ok 0%Z <-> same_surface S T ls1 ls2) /\
  (forall z, surf_cmp S T ls1 ls2 = Ok z -> surf_cmp T S ls2 ls1 = Ok (- z)%Z).
Proof.
  intros N1 N2 A. split.
  - rewrite surf_cmp_0 by auto. split.
    + intros [E B]. constructor; auto.
      * intros i l1 l2 H1 H2. destruct (B i l1 l2 H1 H2) as (P1 & P2 & E1 & E2 & Z & _).
        destruct (A l1) as (P & F1 & F2 & Ln & V); [left; now apply nth_error_In in H1|]. destruct (A l2) as (P' & G1 & G2 & Ln' & V'); [right; now apply nth_error_In in H2|].
        rewrite F1 in E1. injection E1 as <-. rewrite G1 in E2. injection E2 as <-. apply poly_cmp_eq0 in Z; [|auto|congruence]. subst P'. exists P. auto.
      * intros i l1 l2 P e H1 H2 HP He. destruct (B i l1 l2 H1 H2) as (P1 & P2 & E1 & E2 & Z & D). rewrite HP in E1. injection E1 as <-. auto.
    + intros [E B C]. split; auto. intros i l1 l2 H1 H2. destruct (B i l1 l2 H1 H2) as (P & E1 & E2).
      destruct (A l2) as (P' & G1 & G2 & Ln' & V'); [right; now apply nth_error_In in H2|]. rewrite G2 in E2. injection E2 as ->.
      exists P, P. do 2 (split; auto). split; [apply poly_cmp_refl|]. intros e He. apply (C i l1 l2 P e H1 H2 E1 He).
  - intros z. apply surf_cmp_neg. intros l I. destruct (A l I) as (P & -> & -> & _). reflexivity.
Qed.
Print Assumptions C40_surfaces_partial.
Definition two_squares gs : surface cqF nat := tab_surface ([unit_square; unit_square], gs).
Example C40_surfaces_ex : (surf_cmp (two_squares [((0, 0), (0, 2)); ((0, 1), (1, 3)); ((0, 3), (1, 1)); ((1, 0), (1, 2))])
                          (two_squares [((0, 0), (1, 2)); ((0, 1), (0, 3)); ((0, 2), (1, 0)); ((1, 1), (1, 3))]) [0; 1] [0; 1] = Ok (-1)%Z).
Proof. vm_compute. reflexivity. Qed.
(** two tori of different shape compare as 0 *)
Theorem C40_refuted : exists S T : surface cqF nat, valid (fun l => In l [0]) S /\ valid (fun l => In l [0]) T /\ surf_cmp S T [0] [0] = Ok 0%Z /\ surf_cmp T S [0] [0] = Ok 0%Z /\
  ~ same_surface S T [0] [0] /\ forall P Q, s_poly S 0 = Ok P -> s_poly T 0 = Ok Q -> (area P < area Q)%F.
Proof.
  set (g := [((0, 0), (0, 2)); ((0, 1), (0, 3))]). exists (tab_surface ([unit_square], g)), (tab_surface ([[qv 0 0; qv 2 0; qv 2 1; qv 0 1]], g)).
  split; [apply (tab_valid ([unit_square], g)); vm_compute; reflexivity|]. split; [apply (tab_valid ([[qv 0 0; qv 2 0; qv 2 1; qv 0 1]], g)); vm_compute; reflexivity|].
  split; [vm_compute; reflexivity|]. split; [vm_compute; reflexivity|]. split.
  - intros [_ B _]. destruct (B 0 0 0 eq_refl eq_refl) as (P & E1 & E2). cbn in E1, E2. injection E1 as <-. discriminate E2.
  - intros P Q E1 E2. injection E1 as <-. injection E2 as <-. vm_compute. reflexivity.
Qed.
Print Assumptions C40_refuted.
(** both comparisons of two surfaces can have the same sign *)
Theorem C40_sign_refuted : exists S T : surface cqF nat, valid (fun l => In l [0; 1]) S /\ valid (fun l => In l [0; 1]) T /\
  surf_cmp S T [0; 1] [1; 0] = Ok (-1)%Z /\ surf_cmp T S [1; 0] [0; 1] = Ok (-1)%Z.
Proof.
  set (P := unit_square). set (Q := [qv 0 0; qv 1 0; qv 1 2; qv 0 2]).
  set (g := [((0, 0), (0, 2)); ((1, 0), (1, 2)); ((0, 1), (1, 3)); ((0, 3), (1, 1))]).
  exists (tab_surface ([P; Q], g)), (tab_surface ([Q; P], g)).
  split; [apply (tab_valid ([P; Q], g)); vm_compute; reflexivity|]. split; [apply (tab_valid ([Q; P], g)); vm_compute; reflexivity|].
  split; vm_compute; reflexivity.
Qed.
Print Assumptions C40_sign_refuted.

(** ** C45: isometries *)
Section I.
Context {K : OField}.
Implicit Types P Q : polygon K.
(** [is_isometric] without a certificate. *)
Theorem C45_is_isometric P Q : 0 < length P -> edge P 0 <> vzero -> is_convex false Q = true ->
  exists b, is_isometric P Q false = Ok (Bare b) /\
   (b = true <-> length P = length Q /\ exists F j, map_isometry F /\ map_orientation_preserving F /\ carries F P Q j).
Proof.
  intros N NZ Cv. unfold is_isometric. rewrite Cv. cbn [negb]. destruct (Nat.eqb_spec (length Q) (length P)) as [E|E]; cbn [negb].
  2: { exists false. split; auto. split; [discriminate|]. intros [X _]. congruence. }
  destruct (iso_edges P Q N E NZ) as (r & Er & Sr). rewrite Er. cbn [bind]. destruct r as [[i m]|].
  - exists true. split; auto. split; auto. intros _. split; auto. destruct Sr as (L & R & S). destruct (proj1 (iso_iff P Q i NZ)) as (F & A & B & C); [eauto|]. exists F, i. auto.
  - exists false. split; auto. split; [discriminate|]. intros (_ & F & j & A & B & C). destruct (proj2 (iso_iff P Q j NZ)) as (m & R & S); [eauto|]. destruct (Sr j m R S).
Qed.
(** The certificate: a rotation, and the edge [k + index] of [P] (not the edge 0, see [C45_index_refuted]) is the one that
    the rotation maps to the edge [k] of [Q]. *)
Theorem C45_certificate P Q : 0 < length P -> edge P 0 <> vzero -> is_convex false Q = true -> length P = length Q ->
  (is_isometric P Q true = Ok (With false None) /\ is_isometric P Q false = Ok (Bare false)) \/
  exists index rot, is_isometric P Q true = Ok (With true (Some (index, rot))) /\ is_isometric P Q false = Ok (Bare true) /\
    index < length P /\ mdet rot = f1 /\ mmul rot (mtrans rot) = mone /\ forall k, mapply rot (edge P (k + index)) = edge Q k.
Proof.
  intros N NZ Cv E. symmetry in E. unfold is_isometric. rewrite Cv. cbn [negb]. rewrite (proj2 (Nat.eqb_eq _ _) E). cbn [negb].
  destruct (iso_edges P Q N E NZ) as (r & Er & Sr). rewrite Er. cbn [bind]. destruct r as [[i m]|]; [right|now left].
  destruct Sr as (L & R & S). eexists. exists m. split; [reflexivity|]. split; [reflexivity|]. apply rotation_iff in R. destruct R as [R1 R2].
  split; [destruct (Nat.eqb_spec i 0); lia|]. do 2 (split; auto). intros k. rewrite <- S.
  rewrite <- (edge_mod Q k), <- (edge_mod Q (_ + i)), E. f_equal. destruct (Nat.eqb_spec i 0) as [->|]; [f_equal; lia|].
  replace (k + (length P - i) + i) with (k + 1 * length P) by lia. now rewrite Nat.mod_add by lia.
Qed.
(** [is_translate] *)
Theorem C45_is_translate P Q : 0 < length P -> length P = length Q ->
  (is_translate P Q true = With false None /\ is_translate P Q false = Bare false /\ (forall F j, map_translation F -> ~ carries F P Q j)) \/
  exists i F, is_translate P Q true = With true (Some (i, mone)) /\ is_translate P Q false = Bare true /\ i < length P /\ map_translation F /\ carries F P Q i.
Proof.
  intros N E. symmetry in E. unfold is_translate. rewrite (proj2 (Nat.eqb_eq _ _) E). cbn [negb].
  pose proof (shift_edges mone P Q N E) as X. rewrite map_one in X. specialize (X ltac:(intros v; now rewrite !mapply_one)).
  destruct (shift_loop (length P) 0 (edges P) (edges Q)) as [i|].
  - right. destruct X as [Li X]. apply translate_iff in X. destruct X as (F & A & B). exists i, F. auto.
  - left. do 2 (split; auto). intros F j A B. apply (X j). apply translate_iff. eauto.
Qed.
(** [is_half_translate]: the certificates of the two cases number the edges differently *)
Theorem C45_is_half_translate P Q : 0 < length P -> length P = length Q ->
  (is_half_translate P Q true = With false None /\ is_half_translate P Q false = Bare false /\
     (forall F j, map_translation F \/ map_half_turn F -> ~ carries F P Q j)) \/
  (exists i F, is_half_translate P Q true = With true (Some (i, mone)) /\ is_half_translate P Q false = Bare true /\ i < length P /\ map_translation F /\ carries F P Q i) \/
  (exists i F, is_half_translate P Q true = With true (Some (i, mopp mone)) /\ is_half_translate P Q false = Bare true /\ i < length P /\ map_half_turn F /\
     carries F P Q (length P - i) /\ (forall F' j, map_translation F' -> ~ carries F' P Q j)).
Proof.
  intros N E. symmetry in E. unfold is_half_translate. rewrite (proj2 (Nat.eqb_eq _ _) E). cbn [negb].
  pose proof (shift_edges mone P Q N E) as X. rewrite map_one in X. specialize (X ltac:(intros v; now rewrite !mapply_one)).
  destruct (shift_loop (length P) 0 (edges P) (edges Q)) as [i|].
  { right. left. destruct X as [Li X]. apply translate_iff in X. destruct X as (F & A & B). exists i, F. auto. }
  assert (X' : forall F j, map_translation F -> ~ carries F P Q j) by (intros F j A B; apply (X j); apply translate_iff; eauto).
  pose proof (shift_edges (mopp mone) P Q N E) as Y. rewrite (map_ext _ _ (@mapply_mopp K)) in Y. specialize (Y ltac:(intros v; rewrite !mapply_mopp; apply vopp_vopp)).
  destruct (shift_loop (length P) 0 (edges P) (map vopp (edges Q))) as [i|].
  - right. right. destruct Y as [Li Y]. apply half_iff in Y. destruct Y as (F & u & A & B). eexists. exists F. split; [reflexivity|]. split; [reflexivity|].
    split; [destruct (Nat.eqb_spec i 0); lia|]. split; [now exists u|]. split; auto. intros k. rewrite B. destruct (Nat.eqb_spec i 0) as [->|].
    + rewrite Nat.sub_0_r, Nat.add_0_r. unfold vertex. rewrite <- E. f_equal. replace (k + length Q) with (k + 1 * length Q) by lia. now rewrite Nat.mod_add by lia.
    + f_equal. lia.
  - left. do 2 (split; auto). intros F j [A|[u A]] B; [now apply (X' F j)|]. apply (Y j). apply half_iff. exists F, u. auto.
Qed.
(** polygons with different numbers of vertices *)
Theorem C45_lengths P Q c : length P <> length Q -> is_convex false Q = true ->
  is_isometric P Q c = Ok (Bare false) /\ is_translate P Q c = Bare false /\ is_half_translate P Q c = Bare false.
Proof.
  intros N Cv. unfold is_isometric, is_translate, is_half_translate. rewrite Cv. destruct (Nat.eqb_spec (length Q) (length P)); [congruence|]. auto.
Qed.
Print Assumptions C45_lengths.
End I.
Print Assumptions C45_is_isometric.
Print Assumptions C45_certificate.
Print Assumptions C45_is_translate.
Print Assumptions C45_is_half_translate.
Definition tri : polygon cqF := [qv 0 0; qv 3 0; qv 1 1].
Definition tri_shifted : polygon cqF := [qv 3 1; qv 1 2; qv 0 1].
Definition tri_half : polygon cqF := [qv 1 1; qv 3 0; qv 4 1].
Definition tri_rot : polygon cqF := [qv 0 3; qv (-1) 1; qv 0 0].
Definition is_index (a : @answer cqF) (i : nat) : bool := match a with With true (Some (j, _)) => (i =? j)%nat | _ => false end.
Definition rot_is (a : @answer cqF) (m : mat cqF) : bool := match a with With true (Some (_, r)) => mat_eqb r m | _ => false end.
Example C45_ex : is_convex false tri_rot = true /\ is_index (is_translate tri tri_shifted true) 2 = true /\
  is_index (is_half_translate tri tri_half true) 1 = true /\
  match is_isometric tri tri_rot true with Ok a => is_index a 1 && rot_is a (Mat (Q2cq 0 : car cqF) (Q2cq (-1) : car cqF) (Q2cq 1 : car cqF) (Q2cq 0 : car cqF)) | _ => false end = true.
Proof. vm_compute. repeat split. Qed.
(** the documented meaning of the index, that the edge 0 is mapped to the edge [index], is wrong *)
Theorem C45_index_refuted : exists (P Q : polygon cqF) a index rot, is_convex false P = true /\ is_convex false Q = true /\ is_isometric P Q true = Ok a /\
  a = With true (Some (index, rot)) /\ mapply rot (edge P 0) <> edge Q index.
Proof.
  destruct (is_isometric tri tri_rot true) as [[b|b [[i m]|]]|] eqn:E.
  1, 3, 4: exfalso; try destruct b; apply (f_equal (fun r => match r with Ok a => is_index a 1 | _ => false end)) in E; vm_compute in E; discriminate.
  pose proof (f_equal (fun r => match r with Ok a => is_index a 1 | _ => false end) E) as E1.
  pose proof (f_equal (fun r => match r with Ok a => rot_is a (Mat (Q2cq 0 : car cqF) (Q2cq (-1) : car cqF) (Q2cq 1 : car cqF) (Q2cq 0 : car cqF)) | _ => false end) E) as E2.
  vm_compute in E1. destruct b; [|discriminate]. destruct i as [|[|i]]; try discriminate. clear E1.
  assert (E2' : mat_eqb m (Mat (Q2cq 0 : car cqF) (Q2cq (-1) : car cqF) (Q2cq 1 : car cqF) (Q2cq 0 : car cqF)) = true) by (cbn [rot_is] in E2; rewrite <- E2; vm_compute; reflexivity).
  clear E2. apply mat_eqb_eq in E2'. exists tri, tri_rot, (With true (Some (1, m))), 1, m.
  split; [vm_compute; reflexivity|]. split; [vm_compute; reflexivity|]. split; [exact E|]. split; [reflexivity|]. subst m. apply veqb_neq. vm_compute. reflexivity.
Qed.
Print Assumptions C45_index_refuted.
(** the certificate of a translation has another meaning than the certificate of a half-translation *)
Theorem C45_half_refuted : exists (P Q : polygon cqF) shift rot, is_half_translate P Q true = With true (Some (shift, rot)) /\
  ~ forall k, mapply rot (edge P (k + shift)) = edge Q k.
Proof.
  destruct (C45_is_half_translate tri tri_shifted) as [(E & _)|[(i & F & E & _)|(i & F & E & _)]]; [cbn; lia|reflexivity| | |].
  - apply (f_equal (fun a => is_index a 2)) in E. vm_compute in E. discriminate.
  - pose proof (f_equal (fun a => is_index a 2) E) as E1. vm_compute in E1. destruct i as [|[|[|i]]]; try discriminate.
    exists tri, tri_shifted, 2, mone. split; auto. intros H. specialize (H 0). apply veqb_eq in H. vm_compute in H. discriminate.
  - apply (f_equal (fun a => match a with With _ (Some (_, m)) => mat_eqb m mone | _ => true end)) in E. vm_compute in E. discriminate.
Qed.
Print Assumptions C45_half_refuted.
(** no pair is returned for polygons with different numbers of vertices though a certificate is asked for *)
Theorem C45_pair_refuted : exists P Q : polygon cqF, is_convex false P = true /\ is_convex false Q = true /\ is_isometric P Q true = Ok (Bare false) /\
  is_translate P Q true = Bare false /\ is_half_translate P Q true = Bare false.
Proof.
  exists tri, unit_square. split; [vm_compute; reflexivity|]. split; [vm_compute; reflexivity|]. apply C45_lengths; [discriminate|vm_compute; reflexivity].
Qed.
Print Assumptions C45_pair_refuted.
