(** Proofs about the edges around a vertex. *)
From Coq Require Import List Bool ZArith Arith Lia Relations Ring Field.
From Verif Require Import OField FMicromega PField MBase MDict PDict MEuclid SEuclid PEuclid MSim SSim PSim MPoly PPoly
  MSurf SSurf PSurf PSurf2 PSurf3 MPoint SPoint PPoint PPoint2.
Import ListNotations.

Section Star.
Context {K : OField} {L : Type}.
Add Field KF : (of_ft K).
Local Open Scope F_scope.
Implicit Types (S : surface K L) (D : L -> Prop) (P : polygon K) (x y : L * nat).

Lemma corner_next_rotate D S x y : valid D S -> (corner_next D S x y <-> corner D S x /\ rotate S false x = Ok (Some y)).
Proof.
  intros V. split.
  - intros [P [e [Dx [Px [Lx [-> O]]]]]]. assert (C : corner D S x) by (exists P; auto). split; auto.
    now apply (rotate_false D S x y P V C Px).
  - intros [C R]. pose proof C as [P [Dx [Px Lx]]]. apply (rotate_false D S x y P V C Px) in R. exists P, ((snd x + length P - 1) mod length P)%nat. auto 6.
Qed.
Lemma corner_next_corner D S x y : valid D S -> corner_next D S x y -> corner D S x /\ corner D S y.
Proof. intros V N. apply corner_next_rotate in N; auto. destruct N as [C R]. split; auto. apply (rotate_bwd D S x y V C R). Qed.
Lemma corner_next_inj D S x x' y : valid D S -> corner_next D S x y -> corner_next D S x' y -> x = x'.
Proof.
  intros V N N'. apply corner_next_rotate in N, N'; auto. destruct N as [C R], N' as [C' R'].
  destruct (rotate_bwd D S x y V C R) as [_ Z], (rotate_bwd D S x' y V C' R') as [_ Z']. congruence.
Qed.
Lemma corner_next_fun D S x y y' : corner_next D S x y -> corner_next D S x y' -> y = y'.
Proof. intros [P [e [_ [Px [_ [-> O]]]]]] [P' [e' [_ [Px' [_ [-> O']]]]]]. rewrite Px in Px'. injection Px' as <-. congruence. Qed.

Lemma turning_mul (m m' : mat K) : turning m -> turning m' -> turning (mmul m m').
Proof.
  intros [a [b [N E]]] [a' [b' [N' E']]]. exists (a * a' - b * b'), (b * a' + a * b'). split.
  - destruct (feq_dec (a * a' - b * b') 0) as [Z|Z]; auto. destruct (feq_dec (b * a' + a * b') 0) as [Y|Y]; auto. exfalso.
    apply fsum_sq_pos in N. apply fsum_sq_pos in N'. assert (X : 0 < (a * a + b * b) * (a' * a' + b' * b')) by now apply fmul_pos.
    replace ((a * a + b * b) * (a' * a' + b' * b')) with ((a * a' - b * b') * (a * a' - b * b') + (b * a' + a * b') * (b * a' + a * b')) in X by ring.
    rewrite Z, Y in X. replace (0 * 0 + 0 * 0) with (0 : K) in X by ring. flra.
  - intros v. assert (M : mapply (mmul m m') v = mapply m (mapply m' v)) by (destruct v; unfold mapply, mmul; apply vec_eq; cbn; ring).
    rewrite M, E, E'. apply vec_eq; cbn; ring.
Qed.
Lemma turning_from (u v : vec K) : u <> vzero -> v <> vzero -> turning (similarity_from_vectors u v) /\ mapply (similarity_from_vectors u v) u = v.
Proof.
  intros Nu Nv. destruct (similarity_from_vectors_spec u v Nu) as [E [S1 S2]]. split; auto.
  set (m := similarity_from_vectors u v) in *. exists (m00 m), (m10 m). split.
  - destruct (feq_dec (m00 m) 0) as [Z|Z]; auto. destruct (feq_dec (m10 m) 0) as [Y|Y]; auto. exfalso. apply Nv. rewrite <- E.
    destruct u. unfold mapply. cbn. rewrite <- S1, Z. rewrite Y in *. apply vec_eq; cbn; [|ring].
    assert (m01 m = 0) as -> by (rewrite S2; ring || flra). ring.
  - intros w. destruct w. unfold mapply. cbn. apply vec_eq; cbn; rewrite ?S1, ?S2; try ring.
Qed.

Lemma turning_derivative (f : sim K) : sim_ok f -> sg_sign f = true -> turning (sim_derivative f).
Proof.
  intros Kf Sf. exists (sg_a f), (sg_b f). split.
  - exact Kf.
  - intros v. unfold sim_derivative, sgn, mapply. rewrite Sf. destruct v. apply vec_eq; cbn; ring.
Qed.
Lemma derivative_edge D S l e P l' e' P' f : valid D S -> glued_at D S l e P l' e' P' -> edge_transformation S l e = Ok f ->
  mapply (sim_derivative f) (edge P e) = vopp (edge P' e').
Proof.
  intros V G Ef. destruct (edge_transformation_ok _ _ _ _ _ _ _ _ V G) as [g [Eg [Kf [Sf [Fa Fb]]]]].
  rewrite Ef in Eg. injection Eg as <-. unfold edge at 1. rewrite <- sim_derivative_spec, Fa, Fb. unfold edge.
  destruct (vertex P' e'), (vertex P' (Datatypes.S e')). apply vec_eq; cbn; ring.
Qed.
Lemma mmul_apply (m m' : mat K) v : mapply (mmul m m') v = mapply m (mapply m' v).
Proof. destruct v. unfold mapply, mmul. apply vec_eq; cbn; ring. Qed.
Lemma mopp_apply (m : mat K) v : mapply (mopp m) v = mapply m (vopp v).
Proof. destruct v. unfold mapply, mopp. apply vec_eq; cbn; ring. Qed.

(** what is listed for a corner *)
Definition show (s : @place_at K L) := [(pa_corner s, pa_first s); (pa_exit s, pa_second s)].
Lemma consecutive_cons {A} (R : A -> A -> Prop) a b l : R a b -> consecutive R (b :: l) -> consecutive R (a :: b :: l).
Proof.
  intros Rab C [|i] x y; cbn.
  - intros [= <-] [= <-]. auto.
  - apply (C i).
Qed.
Lemma consecutive_one {A} (R : A -> A -> Prop) a : consecutive R [a].
Proof. intros [|[|i]] x y; cbn; discriminate. Qed.
Lemma consecutive_tail {A} (R : A -> A -> Prop) a l : consecutive R (a :: l) -> consecutive R l.
Proof. intros C i x y E F. apply (C (Datatypes.S i)); auto. Qed.

Context `{EqB L}.
Lemma ccw_loop_spec D S start fuel : forall x m r, valid D S -> corner D S x -> turning m -> ccw_loop S fuel start x m = Ok r ->
  exists s ss, pa_corner s = x /\ pa_frame s = m /\ r = (pa_exit s, pa_second s) :: flat_map show ss /\
    (forall t, In t (s :: ss) -> placed D S t) /\ consecutive (next_place S) (s :: ss) /\
    (forall t, In t ss -> pa_corner t <> start) /\
    exists sl, nth_error (s :: ss) (length ss) = Some sl /\
      (s_opp S (fst (pa_exit sl)) (snd (pa_exit sl)) = Ok (Some start) \/
       s_opp S (fst (pa_exit sl)) (snd (pa_exit sl)) = Ok None /\ s_opp S (fst start) (snd start) = Ok None).
Proof.
  induction fuel as [|fuel IH]; intros x m r V C Tm E; [discriminate|]. cbn [ccw_loop] in E.
  pose proof C as [P [Dx [Px Lx]]]. rewrite Px in E. cbn [bind fst snd] in E.
  set (e := ((snd x + length P - 1) mod length P)%nat) in *.
  assert (Le : (e < length P)%nat) by now apply prev_lt.
  set (s := PlaceAt x P m). assert (Ex : pa_exit s = (fst x, e)) by reflexivity.
  assert (So : (fst x, e, mapply (mopp m) (edge P e)) = (pa_exit s, pa_second s)).
  { unfold pa_second. rewrite Ex. cbn [fst snd pa_frame pa_poly s]. now rewrite mopp_apply. }
  assert (Ps : placed D S s) by (unfold placed; cbn; auto).
  rewrite So in E.
  destruct (v_opp _ _ V (fst x) P e Dx Px Le) as [O|[l' [e' [P' [O [Dl [Pl [Le' Back]]]]]]]]; rewrite O in E; cbn [bind] in E.
  - destruct (s_opp S (fst start) (snd start)) as [[?|]|] eqn:Os; cbn [bind] in E; try discriminate. injection E as <-.
    exists s, nil. split; auto. split; auto. split; auto. split; [intros t [<-|[]]; auto|]. split; [apply consecutive_one|].
    split; [intros t []|]. exists s. split; auto.
  - cbn [fst snd] in E. assert (G : glued_at D S l' e' P' (fst x) e P) by (constructor; auto).
    destruct (edge_transformation_ok _ _ _ _ _ _ _ _ V G) as [f [Ef [Kf [Sf _]]]]. rewrite Ef in E. cbn [bind] in E.
    assert (Tm' : turning (mmul m (sim_derivative f))) by (apply turning_mul; auto; now apply turning_derivative).
    destruct (eqb (l', e') start) eqn:Es.
    + apply (eqb_ok (l', e') start) in Es. subst start. injection E as <-.
      exists s, nil. split; auto. split; auto. split; auto. split; [intros t [<-|[]]; auto|]. split; [apply consecutive_one|].
      split; [intros t []|]. exists s. split; auto.
    + rewrite Pl in E. cbn [bind] in E.
      destruct (ccw_loop S fuel start (l', e') (mmul m (sim_derivative f))) as [rest|] eqn:R; cbn [bind] in E; [|discriminate].
      injection E as <-. assert (C' : corner D S (l', e')) by (exists P'; auto).
      destruct (IH _ _ _ V C' Tm' R) as [s' [ss [E1 [E2 [E3 [E4 [E5 [E6 [sl [E7 E8]]]]]]]]]].
      assert (Pp : pa_poly s' = P'). { destruct (E4 s' (or_introl eq_refl)) as [_ [X _]]. rewrite E1 in X. cbn in X. congruence. }
      assert (F1 : pa_first s' = mapply (mmul m (sim_derivative f)) (edge P' e')) by (unfold pa_first; rewrite E1, E2, Pp; reflexivity).
      exists s, (s' :: ss). split; auto. split; auto. split; [|split; [|split; [|split]]].
      * rewrite E3. cbn [flat_map show app]. now rewrite E1, F1.
      * intros t [<-|I]; auto.
      * apply consecutive_cons; auto. split; [rewrite E1; exact O|].
        rewrite F1, mmul_apply, (derivative_edge _ _ _ _ _ _ _ _ _ V G Ef). reflexivity.
      * intros t [<-|I]; auto. rewrite E1. intros X. rewrite X in Es. now rewrite eqb_refl in Es.
      * exists sl. split; auto.
Qed.
Lemma consecutive_nodup {A} (R : A -> A -> Prop) l a :
  (forall b b' c : A, R b c -> R b' c -> b = b') -> consecutive R (a :: l) -> ~ In a l -> NoDup (a :: l).
Proof.
  intros Inj C N. apply NoDup_nth_error.
  assert (G : forall i j, (i < j)%nat -> (j < length (a :: l))%nat -> nth_error (a :: l) i = nth_error (a :: l) j -> False).
  { induction i as [|i IH]; intros j Hij Hj E.
    - destruct j as [|j]; [lia|]. cbn in E. symmetry in E. apply nth_error_In in E. auto.
    - destruct j as [|j]; [lia|].
      destruct (nth_error (a :: l) i) as [x|] eqn:X; [|apply nth_error_None in X; lia].
      destruct (nth_error (a :: l) j) as [y|] eqn:Y; [|apply nth_error_None in Y; lia].
      destruct (nth_error (a :: l) (Datatypes.S i)) as [x1|] eqn:X1; [|apply nth_error_None in X1; lia].
      destruct (nth_error (a :: l) (Datatypes.S j)) as [y1|] eqn:Y1; [|apply nth_error_None in Y1; lia].
      injection E as ->. pose proof (C _ _ _ X X1) as R1. pose proof (C _ _ _ Y Y1) as R2.
      apply (IH j); [lia|lia|]. rewrite Y. f_equal. eapply Inj; eauto. }
  intros i j Hi E. destruct (Nat.lt_trichotomy i j) as [Z|[Z|Z]]; auto; exfalso.
  - assert (Hj : (j < length (a :: l))%nat). { destruct (nth_error (a :: l) i) eqn:X; [apply nth_error_Some; congruence|]. apply nth_error_None in X. lia. }
    apply (G i j); auto.
  - apply (G j i); auto.
Qed.
Lemma consecutive_map {A B} (f : A -> B) (R : A -> A -> Prop) (Q : B -> B -> Prop) l : (forall a b, In a l -> In b l -> R a b -> Q (f a) (f b)) ->
  consecutive R l -> consecutive Q (map f l).
Proof.
  intros I C i x y E F. rewrite nth_error_map in E, F.
  destruct (nth_error l i) as [a|] eqn:A1; [|discriminate]. destruct (nth_error l (Datatypes.S i)) as [b|] eqn:B1; [|discriminate].
  injection E as <-. injection F as <-. apply I; eauto using nth_error_In.
Qed.
Lemma next_place_corner D S s t : placed D S s -> next_place S s t -> corner_next D S (pa_corner s) (pa_corner t).
Proof. intros [D1 [P1 [L1 T1]]] [O _]. exists (pa_poly s), (snd (pa_exit s)). unfold pa_exit in *. cbn in *. auto 6. Qed.

Theorem edges_ccw_star D S fuel start h r P : valid D S -> corner D S start -> s_poly S (fst start) = Ok P ->
  (forall v, h = Some v -> v <> vzero) -> forall initial,
  edges_ccw_vertex S fuel initial (Some start) h = Ok r ->
  exists ss, star D S start ss /\ r = flat_map show ss /\
    forall s, nth_error ss 0 = Some s -> pa_first s = match h with Some v => v | None => edge P (snd start) end.
Proof.
  intros V C Px Nh initial E. unfold edges_ccw_vertex in E. cbn [bind] in E. rewrite Px in E. cbn [bind] in E.
  set (h0 := match h with Some v => v | None => edge P (snd start) end) in *.
  destruct (corner_valid D S (fst start) (snd start) P V) as [ND Lk]; auto.
  assert (N0 : h0 <> vzero) by (unfold h0; destruct h; [auto|apply ND]).
  destruct (turning_from (edge P (snd start)) h0 (proj2 ND _) N0) as [T0 T1].
  destruct (ccw_loop S fuel start start (similarity_from_vectors (edge P (snd start)) h0)) as [rest|] eqn:R; cbn [bind] in E; [|discriminate].
  injection E as <-.
  destruct (ccw_loop_spec D S start fuel _ _ _ V C T0 R) as [s [ss [E1 [E2 [E3 [E4 [E5 [E6 [sl [E7 E8]]]]]]]]]].
  assert (Pp : pa_poly s = P). { destruct (E4 s (or_introl eq_refl)) as [_ [X _]]. rewrite E1 in X. congruence. }
  assert (F1 : pa_first s = h0) by (unfold pa_first; rewrite E1, E2, Pp; exact T1).
  assert (CC : consecutive (corner_next D S) (map pa_corner (s :: ss))).
  { eapply consecutive_map; [|exact E5]. intros a b Ia _ N. now apply next_place_corner; auto. }
  assert (ND' : NoDup (map pa_corner (s :: ss))).
  { cbn [map]. apply (consecutive_nodup (corner_next D S)); auto.
    - intros x x' y. now apply corner_next_inj.
    - rewrite E1. intros I. apply in_map_iff in I. destruct I as [t [Et It]]. now apply (E6 t). }
  exists (s :: ss). split; [|split].
  - constructor; auto.
    + exists s, ss. auto.
    + exists s, sl. split; [eapply nth_error_In; eauto|]. split; auto. cbn [length]. rewrite Nat.sub_succ, Nat.sub_0_r. split; auto. rewrite E1. auto.
    + (* the list is closed under the next corner and the previous corner *)
      assert (NX : forall y z, In y (map pa_corner (s :: ss)) -> corner_next D S y z -> In z (map pa_corner (s :: ss))).
      { intros y z Iy N. apply In_nth_error in Iy. destruct Iy as [i Hi].
        destruct (nth_error (map pa_corner (s :: ss)) (Datatypes.S i)) as [z'|] eqn:Z.
        - rewrite (corner_next_fun D S _ _ _ N (CC _ _ _ Hi Z)). eapply nth_error_In; eauto.
        - apply nth_error_None in Z. assert (i = length ss). { assert (X : (i < length (map pa_corner (s :: ss)))%nat) by (apply nth_error_Some; congruence). rewrite map_length in *. cbn [length] in *. lia. }
          subst i. rewrite nth_error_map, E7 in Hi. injection Hi as <-.
          assert (Psl : placed D S sl) by (apply E4; eapply nth_error_In; eauto).
          destruct N as [P2 [e2 [_ [P2' [_ [-> O2]]]]]]. destruct Psl as [_ [P3 _]]. rewrite P3 in P2'. injection P2' as <-.
          unfold pa_exit in E8. cbn in E8. destruct E8 as [E8|[E8 _]]; [|congruence].
          rewrite E8 in O2. injection O2 as <-. left. auto. }
      assert (NB : forall y z, In z (map pa_corner (s :: ss)) -> corner_next D S y z -> In y (map pa_corner (s :: ss))).
      { intros y z Iz N. apply In_nth_error in Iz. destruct Iz as [[|i] Hi].
        - cbn in Hi. injection Hi as <-. rewrite E1 in N.
          assert (Psl : placed D S sl) by (apply E4; eapply nth_error_In; eauto).
          destruct E8 as [E8|[_ E8]].
          + assert (N' : corner_next D S (pa_corner sl) start).
            { destruct Psl as [Q1 [Q2 [Q3 _]]]. exists (pa_poly sl), (snd (pa_exit sl)). unfold pa_exit in *. cbn in *. auto 6. }
            rewrite (corner_next_inj D S _ _ _ V N N'). apply in_map. eapply nth_error_In; eauto.
          + exfalso. apply corner_next_rotate in N; auto. destruct N as [Cy Ry].
            destruct (rotate_bwd D S _ _ V Cy Ry) as [Cs Rs]. apply (rotate_true D S _ _ V Cs) in Rs. destruct Rs as [? [? [? [Z _]]]]. congruence.
        - destruct (nth_error (map pa_corner (s :: ss)) i) as [y'|] eqn:Y.
          + rewrite (corner_next_inj D S _ _ _ V N (CC _ _ _ Y Hi)). eapply nth_error_In; eauto.
          + apply nth_error_None in Y. exfalso. assert (Datatypes.S i < length (map pa_corner (s :: ss)))%nat by (apply nth_error_Some; congruence). lia. }
      intros y. split.
      * intros I. apply In_nth_error in I. destruct I as [i Hi]. revert y Hi. induction i as [|i IH]; intros y Hi.
        -- cbn in Hi. injection Hi as <-. rewrite E1. apply rst_refl.
        -- destruct (nth_error (map pa_corner (s :: ss)) i) as [y'|] eqn:Y.
           ++ eapply rst_trans; [apply IH; eauto|]. apply rst_step. eapply CC; eauto.
           ++ apply nth_error_None in Y. exfalso. assert (Datatypes.S i < length (map pa_corner (s :: ss)))%nat by (apply nth_error_Some; congruence). lia.
      * intros Cl. assert (G : forall u v, clos_refl_sym_trans _ (corner_next D S) u v -> (In u (map pa_corner (s :: ss)) <-> In v (map pa_corner (s :: ss)))).
        { clear Cl y. intros u v Cl. induction Cl as [u v N|u|u v Cl IH|u v w C1 I1 C2 I2]; [|tauto|tauto|tauto]. split; intros I; [eapply NX|eapply NB]; eauto. }
        apply (G start y Cl). left. exact E1.
  - cbn [flat_map]. unfold show at 1. cbn [app]. now rewrite E1, F1, E3.
  - intros t [= <-]. exact F1.
Qed.
End Star.
