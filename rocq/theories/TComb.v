(** C09 and C10: the Euler characteristic and the genus. *)
From Coq Require Import List Bool ZArith Arith Lia Relations QArith.
From Verif Require Import OField MBase MDict PDict MPoly MSurf SSurf MMut SMut TMut MComb SComb PClos PComb PGenus PParity.
Import ListNotations.
Local Open Scope nat_scope.

(** ** surfaces that exist *)
(** a valid surface with finitely many polygons is a valid combinatorial surface; see C12_mutable_valid for the
    surfaces that are built with the mutable interface *)
Theorem C09_combinatorial (K : OField) (L : Type) (E : EqB L) (S : surface K L) (D : L -> Prop) (labels : list L) :
  valid D S -> NoDup labels -> (forall l, In l labels <-> D l) ->
  cvalid (csurf_of S labels) /\ (forall l, In l labels -> 3 <= c_nv (csurf_of S labels) l) /\
  (closed D S -> cclosed (csurf_of S labels)).
Proof.
  intros V ND DL.
  assert (DA : forall d, is_dart (csurf_of S labels) d -> D (fst d) /\ exists P, s_poly S (fst d) = Ok P /\ snd d < length P).
  { intros d [I J]. cbn in I, J. apply DL in I. split; auto. destruct (v_poly D S V _ I) as [P [E1 _]]. rewrite E1 in J. eauto. }
  split; [constructor; auto|split].
  - intros d c Hd O. destruct (DA d Hd) as [Dl [P [EP LP]]]. cbn in O.
    destruct (v_opp D S V _ P _ Dl EP LP) as [Z|[l' [e' [P' [Z [D' [EP' [LP' Z']]]]]]]]; rewrite Z in O; [discriminate|].
    injection O as <-. split; [split; cbn; [now apply DL|now rewrite EP']|]. cbn. rewrite Z'. now destruct d.
  - intros l I. cbn. apply DL in I. destruct (v_poly D S V _ I) as [P [E1 [E2 _]]]. now rewrite E1.
  - intros C d Hd. destruct (DA d Hd) as [Dl [P [EP LP]]]. cbn.
    destruct (v_opp D S V _ P _ Dl EP LP) as [Z|[l' [e' [P' [Z _]]]]]; rewrite Z; [|discriminate]. exfalso. exact (C _ P _ Dl EP LP Z).
Qed.
Print Assumptions C09_combinatorial.

Section T.
Context {L : Type} `{EqB L}.
Implicit Types S : csurf L.

(** ** C09 *)
Theorem C09_euler_characteristic S : cvalid S -> exists chi, euler_characteristic S = Ok chi /\ euler_number S chi.
Proof. apply euler_spec. Qed.
(** and that number is determined by the surface *)
Theorem C09_unique S chi chi' : cvalid S -> euler_number S chi -> euler_number S chi' -> chi = chi'.
Proof.
  intros CV [V [M [E [F [H1 [H2 [H3 [H4 ->]]]]]]]] [V' [M' [E' [F' [H1' [H2' [H3' [H4' ->]]]]]]]].
  assert (V = V').
  { eapply has_classes_unique; [| |exact H1|exact H1']; [intros x y C; now apply rst_sym|intros x y z C1 C2; eapply rst_trans; eauto]. }
  assert (M = M') by (eapply has_classes_unique; [| |exact H2|exact H2']; [intros; now symmetry|congruence]).
  assert (F = F') by (eapply has_classes_unique; [| |exact H4|exact H4']; [intros; now symmetry|congruence]).
  assert (E = E'); [|congruence].
  set (R := fun x y => is_dart S x /\ is_dart S y /\ same_edge S x y).
  assert (RR : forall n, has_classes (is_dart S) (same_edge S) n -> has_classes (is_dart S) R n).
  { intros n [reps [R1 [R2 [R3 [R4 R5]]]]]. exists reps. do 3 (split; auto). split.
    - intros x Dx. destruct (R4 x Dx) as [y [Y1 Y2]]. exists y. split; auto. split; auto.
    - intros x y Hx Hy [_ [_ Z]]. auto. }
  eapply has_classes_unique; [| |apply RR, H3|apply RR, H3'].
  - intros x y [Dx [Dy [->|O]]]; [split; auto; split; auto; now left|]. split; auto. split; auto. right. now apply (cv_opp S CV x y).
  - intros x y z [Dx [Dy [->|O]]] [_ [Dz [->|O']]]; split; auto; split; auto; try (now left); try (now right).
    left. destruct (cv_opp S CV x y Dx O). congruence.
Qed.

(** ** C10 *)
Lemma chi_even S chi : cvalid S -> cclosed S -> (forall l, In l (c_labels S) -> 0 < c_nv S l) ->
  euler_number S chi -> Z.Even chi.
Proof.
  intros CV CC NV EN.
  pose proof (NoDup_darts S (cv_labels S CV)) as ND.
  set (opp := fun d => match c_opp S d with Some c => c | None => d end).
  assert (O : forall d, is_dart S d -> c_opp S d = Some (opp d) /\ is_dart S (opp d) /\ opp (opp d) = d).
  { intros d D. destruct (opp_total S CV CC d D) as [c [O1 [Dc O2]]]. unfold opp. rewrite O1, O2. auto. }
  destruct EN as [V [M [E [F [HV [HM [HE [HF ->]]]]]]]].
  destruct (edge_classes S CV (length (darts S)) (darts S)) as [E' [HE' H2]]; auto.
  { intros d. apply In_darts. } { intros d c Hd Oc. apply In_darts in Hd. apply In_darts. apply (cv_opp S CV d c Hd Oc). }
  assert (EE : forall x y, is_dart S x -> (same_edge S x y <-> clos_refl_sym_trans _ (graph (darts S) opp) x y)).
  { intros x y Dx. split.
    - intros [->|Oxy]; [apply rst_refl|]. apply rst_step. split; [now apply In_darts|]. destruct (O x Dx) as [Q _]. congruence.
    - intros C. assert (G : (is_dart S x <-> is_dart S y) /\ (is_dart S x -> same_edge S x y)); [|tauto].
      clear Dx. induction C as [x y [I ->]|x|x y C [I1 I2]|x y z C1 [I1 I2] C2 [J1 J2]].
      + apply In_darts in I. destruct (O x I) as [Q1 [Q2 Q3]]. split; [tauto|]. intros _. now right.
      + split; [tauto|now left].
      + split; [tauto|]. intros Dy. apply I1 in Dy. destruct (I2 Dy) as [->|Q]; [now left|]. right. now apply (cv_opp S CV).
      + split; [tauto|]. intros Dx. assert (Dy : is_dart S y) by tauto.
        destruct (I2 Dx) as [->|Q], (J2 Dy) as [<-|Q']; auto; try (now left); try (now right).
        left. destruct (cv_opp S CV x y Dx Q). congruence. }
  assert (CE : has_classes (fun d => In d (darts S)) (clos_refl_sym_trans _ (graph (darts S) opp)) E').
  { destruct HE' as [reps [R1 [R2 [R3 [R4 R5]]]]]. exists reps. do 3 (split; auto). split.
    - intros x Ix. destruct (R4 x Ix) as [y [Y1 Y2]]. exists y. split; auto. apply EE; auto. now apply In_darts.
    - intros x y Ix Iy C. apply R5; auto. apply EE; auto. apply In_darts. auto. }
  (* corners *)
  set (rho := fun d => opp (dprev S d)).
  assert (CVt : has_classes (fun d => In d (darts S)) (clos_refl_sym_trans _ (graph (darts S) rho)) V).
  { destruct HV as [reps [R1 [R2 [R3 [R4 R5]]]]].
    assert (SV : forall x y, same_vertex S x y <-> clos_refl_sym_trans _ (graph (darts S) rho) x y).
    { intros x y. rewrite (same_vertex_merged S CV). split; apply clos_mono; intros u v [I Q]; split; auto; apply In_darts in I;
      destruct (O _ (dprev_dart S _ I)) as [Q1 _]; unfold rho in *; congruence. }
    exists reps. do 2 (split; auto). split; [intros; now apply In_darts, R3|]. split.
    - intros x Ix. apply In_darts in Ix. destruct (R4 x Ix) as [y [Y1 Y2]]. exists y. split; auto. now apply SV.
    - intros x y Ix Iy C. apply R5; auto. now apply SV. }
  (* faces *)
  assert (FF : forall x y, is_dart S x -> is_dart S y -> fst x = fst y -> clos_refl_sym_trans _ (graph (darts S) (dnext S)) x y).
  { assert (G : forall k l, is_dart S (l, k) -> clos_refl_sym_trans _ (graph (darts S) (dnext S)) (l, 0) (l, k)).
    { induction k as [|k IH]; intros l D; [apply rst_refl|].
      assert (D' : is_dart S (l, k)) by (destruct D as [D1 D2]; split; auto; cbn in *; lia).
      eapply rst_trans; [apply IH; auto|]. apply rst_step. split; [now apply In_darts|]. unfold dnext. cbn. f_equal.
      destruct D as [_ D2]. cbn in D2. rewrite Nat.mod_small; lia. }
    intros [l k] [l' k'] Dx Dy E0. cbn in E0. subst l'. eapply rst_trans; [apply rst_sym, G; auto|]. apply G; auto. }
  assert (FB : forall x y, clos_refl_sym_trans _ (graph (darts S) (dnext S)) x y -> fst x = fst y).
  { induction 1 as [x y [I ->]|x|x y C IH|x y z C1 IH1 C2 IH2]; auto; congruence. }
  assert (CF : has_classes (fun d => In d (darts S)) (clos_refl_sym_trans _ (graph (darts S) (dnext S))) F).
  { assert (F = length (c_labels S)) as ->.
    { eapply has_classes_unique; [| |exact HF|apply has_count_list; [apply CV|reflexivity]]; [intros; now symmetry|congruence]. }
    exists (map (fun l => (l, 0)) (c_labels S)). split; [apply map_length|]. split; [|split; [|split]].
    - apply FinFun.Injective_map_NoDup; [intros a b; congruence|apply CV].
    - intros x Hx. apply in_map_iff in Hx. destruct Hx as [l [<- I]]. apply In_darts. split; cbn; auto.
    - intros x Hx. apply In_darts in Hx. exists (fst x, 0). split; [apply in_map_iff; exists (fst x); split; [auto|apply Hx]|].
      apply FF; auto. split; [apply Hx|]. cbn. apply NV. apply Hx.
    - intros x y Hx Hy C. apply FB in C. apply in_map_iff in Hx, Hy. destruct Hx as [l [<- _]], Hy as [l' [<- _]]. cbn in C. congruence. }
  assert (An : acts (darts S) (dnext S)).
  { split; [intros x I; apply In_darts, dnext_dart, In_darts, I|]. intros x y Ix Iy Q. apply In_darts in Ix, Iy.
    rewrite <- (dprev_dnext S x Ix), <- (dprev_dnext S y Iy). congruence. }
  assert (Ao : acts (darts S) opp).
  { split; [intros x I; apply In_darts, O, In_darts, I|]. intros x y Ix Iy Q. apply In_darts in Ix, Iy.
    destruct (O x Ix) as [_ [_ Q1]], (O y Iy) as [_ [_ Q2]]. congruence. }
  assert (Ar : acts (darts S) rho).
  { unfold rho. split; [intros x I; apply In_darts, O, dprev_dart, In_darts, I|]. intros x y Ix Iy Q. apply In_darts in Ix, Iy.
    rewrite <- (dnext_dprev S x Ix), <- (dnext_dprev S y Iy). f_equal.
    destruct (O _ (dprev_dart S x Ix)) as [_ [_ Q1]], (O _ (dprev_dart S y Iy)) as [_ [_ Q2]]. congruence. }
  destruct (@parity_even _ _ (darts S) (dnext S) rho opp F V E' ND An Ar Ao) as [k Hk]; auto.
  { intros x Ix. apply In_darts in Ix. unfold rho. rewrite (dprev_dnext S x Ix). apply O. auto. }
  assert (E = E').
  { eapply has_classes_unique with (D := fun d => In d (darts S)); [| | |exact CE].
    - intros x y C. now apply rst_sym.
    - intros x y z C1 C2. eapply rst_trans; eauto.
    - destruct HE as [reps [R1 [R2 [R3 [R4 R5]]]]]. exists reps. do 2 (split; auto). split; [intros; now apply In_darts, R3|]. split.
      + intros x Ix. apply In_darts in Ix. destruct (R4 x Ix) as [y [Y1 Y2]]. exists y. split; auto. apply EE; auto.
      + intros x y Ix Iy C. apply R5; auto. apply EE; auto. }
  subst E'.
  assert (M = length (filter (single S) (darts S))).
  { eapply has_classes_unique; [| |exact HM|apply (has_count_list _ (filter (single S) (darts S)))]; [intros; now symmetry|congruence| |].
    - now apply NoDup_filter.
    - intros x. rewrite filter_In, In_darts. unfold single. split.
      + intros [Dx Q]. destruct (O x Dx) as [Q1 _]. rewrite Q1 in Q |- *. apply (eqb_ok (opp x) x) in Q. rewrite Q. auto.
      + intros [Dx Q]. rewrite Q. split; auto. apply eqb_refl. }
  change (F + V + E + length (darts S) = 2 * k) in Hk.
  exists (Z.of_nat k - 2 * Z.of_nat E + Z.of_nat M)%Z. lia.
Qed.

(** the Euler characteristic of a closed surface is even *)
Theorem C10_even S : cvalid S -> cclosed S -> (forall l, In l (c_labels S) -> 0 < c_nv S l) ->
  exists chi, euler_characteristic S = Ok chi /\ Z.Even chi.
Proof.
  intros CV CC NV. destruct (C09_euler_characteristic S CV) as [chi [E EN]]. exists chi. split; auto.
  eapply chi_even; eauto.
Qed.
(** so the genus of a closed connected surface is a natural number *)
Theorem C10_genus S : cvalid S -> cclosed S -> (forall l, In l (c_labels S) -> 0 < c_nv S l) ->
  cconnected S -> c_labels S <> nil ->
  exists g : nat, genus S = Ok (inject_Z (Z.of_nat g)) /\ euler_characteristic S = Ok (2 - 2 * Z.of_nat g)%Z.
Proof.
  intros CV CC NV CN NE. destruct (C09_euler_characteristic S CV) as [chi [E EN]].
  destruct (chi_even S chi CV CC NV EN) as [k Hk].
  assert (B : (chi <= 2)%Z).
  { destruct EN as [V [M [EE [F [HV [HM [HE [HF ->]]]]]]]].
    pose proof (chi_le_2 S CV CC NV V CN NE HV) as B.
    assert (F = length (c_labels S)).
    { eapply has_classes_unique; [| |exact HF|apply has_count_list; [apply CV|reflexivity]]; [intros; now symmetry|congruence]. }
    destruct (edge_classes S CV (length (darts S)) (darts S)) as [E' [HE' H2]]; auto.
    { apply NoDup_darts, CV. }
    { intros d. apply In_darts. } { intros d c Hd Oc. apply In_darts in Hd. apply In_darts. apply (cv_opp S CV d c Hd Oc). }
    assert (X : euler_number S (Z.of_nat (V + M) - Z.of_nat E' + Z.of_nat F)).
    { exists V, M, E', F. do 2 (split; auto). split; auto. eapply has_classes_ext; [|exact HE']. intros x. apply In_darts. }
    assert (Y : euler_number S (Z.of_nat (V + M) - Z.of_nat EE + Z.of_nat F)) by (exists V, M, EE, F; auto).
    rewrite (C09_unique S _ _ CV Y X).
    assert (FS : filter (folded S) (darts S) = filter (single S) (darts S)).
    { assert (G : forall ds, (forall d, In d ds -> is_dart S d) -> filter (folded S) ds = filter (single S) ds).
      { induction ds as [|d ds IH]; intros I; auto. cbn [filter]. rewrite IH by (intros; apply I; cbn; auto).
        destruct (opp_total S CV CC d) as [c [O _]]; [apply I; cbn; auto|]. unfold folded, single. now rewrite O. }
      apply G. intros d. apply In_darts. }
    assert (MM : M = length (filter (single S) (darts S))).
    { eapply has_classes_unique; [| |exact HM|apply (has_count_list _ (filter (single S) (darts S)))]; [intros; now symmetry|congruence| |].
      - apply NoDup_filter, NoDup_darts, CV.
      - intros x. rewrite <- FS, filter_In, In_darts. unfold folded. split.
        + intros [Dx Q]. destruct (c_opp S x) as [c|]; [|discriminate]. apply (eqb_ok c x) in Q. subst. auto.
        + intros [Dx Q]. rewrite Q. split; auto. apply eqb_refl. }
    rewrite FS in B. lia. }
  exists (Z.to_nat (1 - k)). assert (G : Z.of_nat (Z.to_nat (1 - k)) = (1 - k)%Z) by lia. rewrite G.
  split; [|rewrite E; f_equal; lia]. unfold genus. rewrite E. cbn [bind]. f_equal.
  transitivity (Qred (inject_Z (1 - k))).
  - apply Qred_complete. subst chi. unfold Z.sub. rewrite inject_Z_mult, inject_Z_plus, inject_Z_opp.
    change (inject_Z 2) with 2%Q. change (inject_Z 1) with 1%Q. field.
  - apply Qred_int.
Qed.
End T.
Print Assumptions C09_euler_characteristic.
Print Assumptions C09_unique.
Print Assumptions C10_even.
Print Assumptions C10_genus.

(** ** examples *)
(** squares numbered from 0; the edge 0 of square [i] is glued to the edge 2 of square [up' i], and the edge 1
    to the edge 3 of square [right i] (permutations given by lists) *)
Definition ex_origami (right up right' up' : list nat) : csurf nat :=
  CSurf (seq 0 (length right)) (fun _ => 4)
    (fun d => let at_ l := nth (fst d) l 0 in
       match snd d with 0 => Some (at_ up', 2) | 1 => Some (at_ right, 3) | 2 => Some (at_ up, 0) | _ => Some (at_ right', 1) end).
(** the surface shaped like the letter L, made of three squares, has genus two *)
Example ex_L : euler_characteristic (ex_origami [1;0;2] [2;1;0] [1;0;2] [2;1;0]) = Ok (-2)%Z /\
  genus (ex_origami [1;0;2] [2;1;0] [1;0;2] [2;1;0]) = Ok 2%Q.
Proof. vm_compute. auto. Qed.
Lemma ex_origami_ok (P : csurf nat) : NoDup (c_labels P) ->
  (forallb (fun d => match c_opp P d with Some c => mem c (darts P) &&
     match c_opp P c with Some d' => eqb d d' | None => false end | None => true end) (darts P) = true) -> cvalid P.
Proof.
  intros ND F. constructor; auto. intros d c D O. rewrite forallb_forall in F. apply In_darts in D. specialize (F d D).
  rewrite O in F. apply andb_true_iff in F. destruct F as [F1 F2]. split; [now apply In_darts, mem_In|].
  destruct (c_opp P c) as [d'|]; [|discriminate]. apply (eqb_ok d d') in F2. now subst.
Qed.
Example ex_L_valid : cvalid (ex_origami [1;0;2] [2;1;0] [1;0;2] [2;1;0]) /\ cclosed (ex_origami [1;0;2] [2;1;0] [1;0;2] [2;1;0]) /\
  cconnected (ex_origami [1;0;2] [2;1;0] [1;0;2] [2;1;0]).
Proof.
  split; [|split].
  - apply ex_origami_ok; [apply seq_NoDup|reflexivity].
  - intros [l [|[|[|e]]]] _; discriminate.
  - assert (G : forall l, In l [0; 1; 2] -> clos_refl_sym_trans nat (face_step (ex_origami [1;0;2] [2;1;0] [1;0;2] [2;1;0])) 0 l).
    { intros l [<-|[<-|[<-|[]]]]; [apply rst_refl| |]; apply rst_step.
      - exists 1, 3. split; [split; cbn; auto; lia|reflexivity].
      - exists 2, 0. split; [split; cbn; auto; lia|reflexivity]. }
    intros l l' I I'. eapply rst_trans; [apply rst_sym, G, I|apply G, I'].
Qed.
(** a square all of whose edges are glued to themselves is a sphere, a square without gluings is a disc, an
    annulus has Euler characteristic 0 *)
Example ex_sphere : euler_characteristic (CSurf [0] (fun _ => 4) (fun d => Some d)) = Ok 2%Z. Proof. reflexivity. Qed.
Example ex_disc : euler_characteristic (CSurf [0] (fun _ => 4) (fun _ => None)) = Ok 1%Z. Proof. reflexivity. Qed.
Example ex_annulus : euler_characteristic (CSurf [0] (fun _ => 4)
  (fun d => match snd d with 1 => Some (0, 3) | 3 => Some (0, 1) | _ => None end)) = Ok 0%Z. Proof. reflexivity. Qed.
