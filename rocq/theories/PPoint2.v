(** Proofs about points of surfaces: a point is the class of its coordinates. *)
From Coq Require Import List Bool ZArith Arith Lia Relations Ring Field.
From Verif Require Import OField FMicromega PField MBase MDict PDict MEuclid SEuclid PEuclid MSim SSim PSim MPoly PPoly
  MSurf SSurf PSurf PSurf2 PSurf3 MPoint SPoint PPoint.
Import ListNotations.

Section Rot.
Context {K : OField} {L : Type}.
Implicit Types (S : surface K L) (D : L -> Prop) (P : polygon K).

Definition corner D S (x : L * nat) := exists P, D (fst x) /\ s_poly S (fst x) = Ok P /\ snd x < length P.
Lemma corner_valid D S l k P : valid D S -> corner D S (l, k) -> s_poly S l = Ok P -> nondeg P /\ k < length P.
Proof.
  intros V [Q [Dl [E Lk]]] E'. cbn in *. rewrite E in E'. injection E' as ->.
  destruct (v_poly _ _ V l Dl) as [Q [Q1 [Q2 Q3]]]. rewrite E in Q1. injection Q1 as <-. split; [split|]; auto.
Qed.
Lemma mod_cases k n : k < n -> (k = 0 /\ (k + n - 1) mod n = n - 1) \/ (0 < k /\ (k + n - 1) mod n = k - 1).
Proof.
  intros Lk. destruct k as [|k]; [left|right]; split; try lia.
  - apply Nat.mod_small. lia.
  - replace (Datatypes.S k + n - 1) with (k + 1 * n) by lia. rewrite Nat.mod_add by lia. rewrite Nat.mod_small; lia.
Qed.
Lemma mod_succ k n : k < n -> (k = n - 1 /\ (k + 1) mod n = 0) \/ (k < n - 1 /\ (k + 1) mod n = k + 1).
Proof.
  intros Lk. destruct (Nat.eq_dec k (n - 1)) as [->|N]; [left|right]; split; try lia.
  - replace (n - 1 + 1) with n by lia. apply Nat.mod_same. lia.
  - apply Nat.mod_small. lia.
Qed.
Lemma prev_succ k n : k < n -> ((k + 1) mod n + n - 1) mod n = k.
Proof. intros Lk. destruct (mod_succ k n Lk) as [[E ->]|[E ->]]; [|]; match goal with |- (?x + n - 1) mod n = _ => destruct (mod_cases x n) as [[A ->]|[A ->]] end; lia. Qed.
Lemma succ_prev k n : k < n -> ((k + n - 1) mod n + 1) mod n = k.
Proof. intros Lk. destruct (mod_cases k n Lk) as [[E ->]|[E ->]]; match goal with |- (?x + 1) mod n = _ => destruct (mod_succ x n) as [[A ->]|[A ->]] end; lia. Qed.
Lemma prev_lt k n : k < n -> (k + n - 1) mod n < n.
Proof. intros Lk. apply Nat.mod_upper_bound. lia. Qed.

Lemma rotate_true D S x y : valid D S -> corner D S x ->
  (rotate S true x = Ok (Some y) <-> exists l' e' P', s_opp S (fst x) (snd x) = Ok (Some (l', e')) /\ s_poly S l' = Ok P' /\
     D l' /\ e' < length P' /\ y = (l', (e' + 1) mod length P')).
Proof.
  intros V [P [Dx [Px Lx]]]. unfold rotate. cbn [bind].
  destruct (v_opp _ _ V (fst x) P (snd x) Dx Px Lx) as [->|[l' [e' [P' [-> [Dl [Pl [Le Back]]]]]]]]; cbn [bind fst snd].
  - split; [discriminate|]. intros [? [? [? [X _]]]]. discriminate.
  - rewrite Pl. cbn [bind]. split.
    + intros [= <-]. exists l', e', P'. auto.
    + intros [l2 [e2 [P2 [[= <- <-] [P2' [_ [_ ->]]]]]]]. rewrite Pl in P2'. injection P2' as <-. reflexivity.
Qed.
Lemma rotate_false D S x y P : valid D S -> corner D S x -> s_poly S (fst x) = Ok P ->
  (rotate S false x = Ok (Some y) <-> s_opp S (fst x) ((snd x + length P - 1) mod length P) = Ok (Some y)).
Proof.
  intros V [P2 [Dx [Px Lx]]] Px'. rewrite Px in Px'. injection Px' as ->. unfold rotate. rewrite Px. cbn [bind].
  destruct (v_opp _ _ V (fst x) P _ Dx Px (prev_lt _ _ Lx)) as [->|[l' [e' [P' [-> [Dl [Pl [Le Back]]]]]]]]; cbn [bind]; split; intros X; congruence.
Qed.
Lemma rotate_ok D S x b : valid D S -> corner D S x -> exists o, rotate S b x = Ok o.
Proof.
  intros V [P [Dx [Px Lx]]]. unfold rotate. destruct b; cbn [bind]; [|rewrite Px; cbn [bind]].
  - destruct (v_opp _ _ V (fst x) P (snd x) Dx Px Lx) as [->|[l' [e' [P' [-> [Dl [Pl [Le Back]]]]]]]]; cbn [bind fst snd]; [eauto|].
    rewrite Pl. cbn. eauto.
  - destruct (v_opp _ _ V (fst x) P _ Dx Px (prev_lt _ _ Lx)) as [->|[l' [e' [P' [-> [Dl [Pl [Le Back]]]]]]]]; cbn [bind]; eauto.
Qed.
Lemma rotate_fwd D S x y : valid D S -> corner D S x -> rotate S true x = Ok (Some y) ->
  corner D S y /\ rotate S false y = Ok (Some x).
Proof.
  intros V Cx R. pose proof Cx as [P [Dx [Px Lx]]]. apply (rotate_true D S x y V Cx) in R.
  destruct R as [l' [e' [P' [O [Pl [Dl [Le ->]]]]]]].
  assert (Cy : corner D S (l', (e' + 1) mod length P')) by (exists P'; cbn; repeat split; auto; apply Nat.mod_upper_bound; lia).
  split; auto. apply (rotate_false D S _ _ P' V Cy Pl). cbn [fst snd]. rewrite prev_succ by auto.
  assert (G : glued_at D S (fst x) (snd x) P l' e' P') by (constructor; auto).
  destruct (glued_partner _ _ _ _ _ _ _ _ V G) as [_ [_ [Back _]]]. rewrite Back. now destruct x.
Qed.
Lemma rotate_bwd D S x y : valid D S -> corner D S x -> rotate S false x = Ok (Some y) ->
  corner D S y /\ rotate S true y = Ok (Some x).
Proof.
  intros V Cx R. pose proof Cx as [P [Dx [Px Lx]]]. apply (rotate_false D S x y P V Cx Px) in R.
  destruct (v_opp _ _ V (fst x) P _ Dx Px (prev_lt _ _ Lx)) as [X|[l' [e' [P' [X [Dl [Pl [Le Back]]]]]]]]; [congruence|].
  rewrite X in R. injection R as <-.
  assert (Cy : corner D S (l', e')) by (exists P'; cbn; auto). split; auto.
  apply (rotate_true D S _ _ V Cy). cbn [fst snd]. eexists _, _, P. rewrite Back. split; [reflexivity|]. do 2 (split; auto).
  split; [now apply prev_lt|]. rewrite succ_prev by auto; now destruct x.
Qed.
End Rot.

Section Ident.
Context {K : OField} {L : Type}.
Add Field KF : (of_ft K).
Local Open Scope F_scope.
Implicit Types (S : surface K L) (D : L -> Prop) (P : polygon K).

Lemma sim_affine (f : sim K) (a b : vec K) t : sim_apply f (vadd a (vscale t (vsub b a))) =
  vadd (sim_apply f a) (vscale t (vsub (sim_apply f b) (sim_apply f a))).
Proof.
  destruct a as [a1 a2], b as [b1 b2]. unfold sim_apply, vadd, vscale, vsub. destruct (sg_sign f); apply vec_eq; cbn; ring.
Qed.
Lemma glued_param D S l e P l' e' P' F t : valid D S -> glued_at D S l e P l' e' P' -> gluing_map P e P' e' F ->
  F (vadd (vertex P e) (vscale t (edge P e))) = vadd (vertex P' e') (vscale (1 - t) (edge P' e')).
Proof.
  intros V G M. destruct (edge_transformation_ok _ _ _ _ _ _ _ _ V G) as [f [Ef [Kf [Sf [Fa Fb]]]]].
  rewrite (proj1 (gluing_map_iff _ _ _ _ _ _ _ _ _ V G Ef F) M). unfold edge. rewrite sim_affine, Fa, Fb.
  destruct (vertex P' e'), (vertex P' (Datatypes.S e')). apply vec_eq; cbn; ring.
Qed.
Lemma gluing_map_inverse D S l e P l' e' P' F G : valid D S -> glued_at D S l e P l' e' P' -> gluing_map P e P' e' F ->
  gluing_map P' e' P e G -> forall p, G (F p) = p.
Proof.
  intros V A M N p. destruct (edge_transformation_ok _ _ _ _ _ _ _ _ V A) as [f [Ef [Kf [Sf [Fa Fb]]]]].
  pose proof (edge_transformation_inverse _ _ _ _ _ _ _ _ _ V A Ef) as Ei. pose proof (glued_sym _ _ _ _ _ _ _ _ V A) as A'.
  rewrite (proj1 (gluing_map_iff _ _ _ _ _ _ _ _ _ V A Ef F) M), (proj1 (gluing_map_iff _ _ _ _ _ _ _ _ _ V A' Ei G) N).
  now apply sim_inv_apply.
Qed.
Lemma glue_step_sym D S x y : valid D S -> glue_step D S x y -> glue_step D S y x.
Proof.
  intros V [e [P [e' [P' [F [G [M [O E]]]]]]]]. pose proof (glued_sym _ _ _ _ _ _ _ _ V G) as G'.
  destruct (gm_exists _ _ _ _ _ _ _ _ V G') as [F' M']. exists e', P', e, P, F'. split; auto. split; auto. split.
  - rewrite E. apply side_segment in O. destruct O as [t [T0 [T1 ->]]]. apply side_segment. exists (1 - t).
    split; [flra|]. split; [flra|]. eapply glued_param; eauto.
  - rewrite E. symmetry. eapply gluing_map_inverse; [| exact G | |]; eauto.
Qed.
(** the class of a point is a set that contains it, only relates equivalent points and is closed *)
Lemma identified_class D S x (R : list (L * vec K)) : valid D S -> In x R ->
  (forall y, In y R -> identified D S x y) -> (forall y z, In y R -> glue_step D S y z -> In z R) ->
  forall y, In y R <-> identified D S x y.
Proof.
  intros V I1 I2 I3 y. split; auto. intros C.
  assert (G : forall u v, clos_refl_sym_trans _ (glue_step D S) u v -> (In u R <-> In v R)).
  { intros u v C'. induction C' as [u v Q|u|u v C' IH|u v w C1 IH1 C2 IH2].
    - split; intros I; [eapply I3; eauto|]. eapply I3; [exact I|]. now apply glue_step_sym.
    - tauto.
    - tauto.
    - tauto. }
  now apply (G x y C).
Qed.

(** the corners around a vertex *)
Definition place S (x : L * nat) (y : L * vec K) := exists P, s_poly S (fst x) = Ok P /\ y = (fst x, vertex P (snd x)).
Lemma rotate_glue D S x y px py : valid D S -> corner D S x -> rotate S true x = Ok (Some y) -> place S x px -> place S y py ->
  glue_step D S px py.
Proof.
  intros V Cx R [P [Px ->]] [P' [Py ->]]. pose proof Cx as [P2 [Dx [Px2 Lx]]]. rewrite Px in Px2. injection Px2 as <-.
  apply (rotate_true D S x y V Cx) in R. destruct R as [l' [e' [P2 [O [Pl [Dl [Le ->]]]]]]]. cbn [fst snd] in *.
  rewrite Py in Pl. injection Pl as <-.
  assert (G : glued_at D S (fst x) (snd x) P l' e' P') by (constructor; auto).
  destruct (gm_exists _ _ _ _ _ _ _ _ V G) as [F M]. exists (snd x), P, e', P', F. cbn [fst snd]. split; auto. split; auto. split.
  - apply vertex_on_side. apply (corner_valid D S (fst x) (snd x) P V); auto; now destruct x.
  - rewrite vertex_mod, Nat.add_1_r. symmetry. apply M.
Qed.
Lemma glue_rotate D S x px py : valid D S -> simple_polygons D S -> corner D S x -> place S x px -> glue_step D S px py ->
  exists y b, rotate S b x = Ok (Some y) /\ place S y py.
Proof.
  intros V SP Cx [P [Px ->]] [e [P2 [e' [P' [F [G [M [O E]]]]]]]]. pose proof Cx as [P3 [Dx [Px3 Lx]]].
  pose proof (ga_poly _ _ _ _ _ _ _ _ G) as X. cbn [fst snd] in *. rewrite Px in X, Px3. injection X as <-. injection Px3 as <-.
  destruct py as [l' q]. cbn [fst snd] in *.
  assert (N : nondeg P) by (apply (corner_valid D S (fst x) (snd x) P V); auto; now destruct x).
  destruct (glued_partner _ _ _ _ _ _ _ _ V G) as [Dl [Le' [Back _]]].
  destruct (vertex_sides P (snd x) e N (SP _ _ Dx Px) Lx (ga_edge _ _ _ _ _ _ _ _ G) O) as [Q|Q].
  - subst e. exists (l', ((e' + 1) mod length P')%nat), true. split.
    + apply (rotate_true D S x _ V Cx). exists l', e', P'. split; [apply G|]. do 2 (split; [auto; apply G|]). split; auto.
    + exists P'. cbn [fst snd]. split; [apply G|]. f_equal. rewrite vertex_mod, Nat.add_1_r, E. apply M.
  - exists (l', e'), false. split.
    + apply (rotate_false D S x _ P V Cx Px). rewrite Q, prev_succ by apply G. apply G.
    + exists P'. cbn [fst snd]. split; [apply G|]. f_equal. rewrite E, Q, vertex_mod, Nat.add_1_r. apply M.
Qed.

Context `{EqB L}.
Theorem surface_point_class D S fuel l p limit R : valid D S -> simple_polygons D S -> D l ->
  surface_point S fuel l p limit = Ok R -> forall y, In y R <-> identified D S (l, p) y.
Proof.
  intros V SP Dl E. unfold surface_point in E.
  destruct (v_poly _ _ V l Dl) as [P [Pl [LP NE]]]. rewrite Pl in E. cbn [bind] in E.
  assert (N : nondeg P) by (split; auto). pose proof (position_spec P p N) as PS.
  destruct (get_point_position P p) as [| |e|k]; [discriminate| | |]; cycle 2.
  - destruct PS as [Lk ->].
    destruct (collect fuel (rotate S true) nil (l, k) limit) as [R1|] eqn:C1; cbn [bind] in E; [|discriminate].
    destruct (collect fuel (rotate S false) R1 (l, k) limit) as [R2|] eqn:C2; cbn [bind] in E; [|discriminate].
    assert (Cx : corner D S (l, k)) by (exists P; auto).
    destruct (both_walks (rotate S true) (rotate S false) (corner D S)
      (fun x y Cx => rotate_fwd D S x y V Cx) (fun x y Cx => rotate_bwd D S x y V Cx) fuel (l, k) limit R1 R2 Cx C1 C2)
      as [I0 [ND [CR [RR [CF CB]]]]].
    assert (IN : forall y, In y R <-> exists x, In x R2 /\ place S x y).
    { intros y. split.
      - intros I. destruct (rmap_In _ _ _ _ E I) as [x [Ix Fx]]. exists x. split; auto.
        destruct (s_poly S (fst x)) as [Q|] eqn:Q1; [|discriminate]. cbn in Fx. injection Fx as <-. exists Q. auto.
      - intros [x [Ix [Q [Q1 ->]]]]. apply In_nth_error in Ix. destruct Ix as [n Hn].
        destruct (rmap_nth _ _ _ _ _ E Hn) as [y [Y1 Y2]]. rewrite Q1 in Y2. cbn in Y2. injection Y2 as <-. eapply nth_error_In; eauto. }
    apply identified_class; auto.
    + apply IN. exists (l, k). split; auto. exists P. auto.
    + intros y Iy. apply IN in Iy. destruct Iy as [x [Ix Px]]. specialize (RR x Ix).
      assert (G : forall u v, clos_refl_sym_trans _ (fun u v => corner D S u /\ rotate S true u = Ok (Some v)) u v ->
        forall pu pv, place S u pu -> place S v pv -> u = v \/ corner D S u /\ corner D S v /\ identified D S pu pv).
      { clear - V. intros u v C. induction C as [u v [Cu Q]|u|u v C IH|u v w C1 IH1 C2 IH2]; intros pu pv Pu Pv.
        - right. split; auto. split; [apply (rotate_fwd D S u v V Cu Q)|]. apply rst_step. eapply rotate_glue; eauto.
        - auto.
        - destruct (IH pv pu Pv Pu) as [|[A [B C']]]; auto. right. do 2 (split; auto). now apply rst_sym.
        - assert (PV : u = v \/ exists pw, place S v pw).
          { clear IH1 IH2 C2. assert (Z : u = v \/ corner D S v).
            { apply clos_rst_rst1n in C1. clear - C1 V.
              assert (G : u = v \/ (corner D S u /\ corner D S v)).
              { induction C1 as [u|u v w Q C IH]; auto. right.
                assert (T : corner D S u /\ corner D S v) by (destruct Q as [[A B]|[A B]]; pose proof (rotate_fwd _ _ _ _ V A B); tauto).
                destruct IH as [->|]; tauto. }
              tauto. }
            destruct Z as [|[Q [_ [Q1 _]]]]; auto. right. exists (fst v, vertex Q (snd v)). exists Q. auto. }
          destruct PV as [->|[pw Pw]]; [auto|].
          destruct (IH1 pu pw Pu Pw) as [->|[A [B C']]]; [auto|].
          destruct (IH2 pw pv Pw Pv) as [->|[A' [B' C'']]].
          + right. assert (pw = pv) as ->; [|auto]. destruct Pw as [Q1 [X1 ->]], Pv as [Q2 [X2 ->]]. congruence.
          + right. do 2 (split; auto). eapply rst_trans; eauto. }
      assert (P0 : place S (l, k) (l, vertex P k)) by (exists P; auto).
      destruct (G _ _ RR _ _ P0 Px) as [<-|[_ [_ I]]]; auto.
      destruct Px as [Q [Q1 ->]]. cbn [fst snd] in *. rewrite Pl in Q1. injection Q1 as <-. apply rst_refl.
    + intros y z Iy St. apply IN in Iy. destruct Iy as [x [Ix Px]].
      destruct (glue_rotate D S x y z V SP (CR x Ix) Px St) as [w [[|] [Rw Pw]]]; apply IN; exists w; split; eauto.
  - injection E as <-. apply identified_class; auto; [now left|intros y [<-|[]]; apply rst_refl|].
    intros y z [<-|[]] [e2 [P2 [e' [P' [F [G [M [Q _]]]]]]]]. exfalso. cbn [fst snd] in *.
    pose proof (ga_poly _ _ _ _ _ _ _ _ G) as X. rewrite Pl in X. injection X as <-. eapply PS; eauto.
  - destruct PS as [Le [[t [T0 [T1 ->]]] NV]].
    set (p := vadd (vertex P e) (vscale t (edge P e))) in *.
    destruct (v_opp _ _ V l P e Dl Pl Le) as [O|[l' [e' [P' [O [Dl' [Pl' [Le' Back]]]]]]]]; rewrite O in E; cbn [bind] in E.
    + injection E as <-. apply identified_class; auto; [now left|intros y [<-|[]]; apply rst_refl|].
      intros y z [<-|[]] [e2 [P2 [e' [P' [F [G [M [Q _]]]]]]]]. exfalso. cbn [fst snd] in *.
      pose proof (ga_poly _ _ _ _ _ _ _ _ G) as X. rewrite Pl in X. injection X as <-.
      assert (e2 = e) as -> by (eapply interior_sides; eauto; apply G). pose proof (ga_opp _ _ _ _ _ _ _ _ G). congruence.
    + assert (G : glued_at D S l e P l' e' P') by (constructor; auto).
      destruct (edge_transformation_ok _ _ _ _ _ _ _ _ V G) as [f [Ef _]]. rewrite Ef in E. cbn [bind fst snd] in E. injection E as <-.
      assert (M : gluing_map P e P' e' (sim_apply f)) by now apply (gluing_map_iff _ _ _ _ _ _ _ _ _ V G Ef).
      assert (Seg : on_segment (side P e) p) by now apply open_side.
      assert (Im : sim_apply f p = vadd (vertex P' e') (vscale (1 - t) (edge P' e'))) by (eapply glued_param; eauto).
      assert (St : glue_step D S (l, p) (l', sim_apply f p)) by (exists e, P, e', P', (sim_apply f); cbn; auto).
      apply identified_class; auto.
      * apply set_add_In. right. now left.
      * intros y Iy. apply set_add_In in Iy. destruct Iy as [->|[<-|[]]]; [now apply rst_step|apply rst_refl].
      * intros y z Iy [e2 [P2 [e3 [P3 [F [G2 [M2 [Q2 E2]]]]]]]]. apply set_add_In. apply set_add_In in Iy.
        destruct z as [lz z]. cbn [fst snd] in *. destruct Iy as [->|[<-|[]]]; cbn [fst snd] in *.
        -- pose proof (ga_poly _ _ _ _ _ _ _ _ G2) as X. rewrite Pl' in X. injection X as <-.
           destruct (v_poly _ _ V l' Dl') as [Q [Q1 [LQ NQ]]]. rewrite Pl' in Q1. injection Q1 as <-.
           rewrite Im in Q2. assert (e2 = e') as ->. { eapply (interior_sides P' e' e2 (1 - t)); eauto; try split; auto; try apply G2; flra. }
           pose proof (ga_opp _ _ _ _ _ _ _ _ G2) as X. rewrite Back in X. injection X as <- <-.
           pose proof (ga_poly' _ _ _ _ _ _ _ _ G2) as X. rewrite Pl in X. injection X as <-.
           right. left. f_equal. rewrite E2. symmetry. apply (gluing_map_inverse _ _ _ _ _ _ _ _ (sim_apply f) F V G M M2).
        -- pose proof (ga_poly _ _ _ _ _ _ _ _ G2) as X. rewrite Pl in X. injection X as <-.
           assert (e2 = e) as -> by (eapply interior_sides; eauto; apply G2).
           pose proof (ga_opp _ _ _ _ _ _ _ _ G2) as X. rewrite O in X. injection X as <- <-.
           pose proof (ga_poly' _ _ _ _ _ _ _ _ G2) as X. rewrite Pl' in X. injection X as <-.
           left. f_equal. rewrite E2. apply (gm_unique _ _ _ _ _ _ _ _ F (sim_apply f) V G M2 M).
Qed.

(** for a finite surface the construction succeeds *)
Lemma surface_point_total D S fuel (es : list (L * nat)) l p P : valid D S -> D l -> s_poly S l = Ok P -> NoDup es ->
  (forall x, In x es <-> corner D S x) -> (length es < fuel)%nat ->
  get_point_position P p <> Outside -> exists R, surface_point S fuel l p None = Ok R.
Proof.
  intros V Dl Pl ND Ies F NO. unfold surface_point. rewrite Pl. cbn [bind].
  destruct (v_poly _ _ V l Dl) as [Q [Q1 [LP NE]]]. rewrite Pl in Q1. injection Q1 as <-.
  assert (N : nondeg P) by (split; auto). pose proof (position_spec P p N) as PS.
  assert (T : forall b x, In x es -> rotate S b x = Ok None \/ exists y, rotate S b x = Ok (Some y) /\ In y es).
  { intros b x Ix. apply Ies in Ix. destruct (rotate_ok D S x b V Ix) as [[y|] E]; auto. right. exists y. split; auto.
    apply Ies. destruct b; [apply (rotate_fwd D S x y V Ix E)|apply (rotate_bwd D S x y V Ix E)]. }
  destruct (get_point_position P p) as [| |e|k]; [congruence|eauto| |]; cycle 1.
  - destruct PS as [Lk _]. assert (Ix : In (l, k) es) by (apply Ies; exists P; auto).
    destruct (collect_total (rotate S true) es ND (T true) fuel nil (l, k)) as [R1 [-> [I1 N1]]]; auto; [intros ? []|constructor|]. cbn [bind].
    destruct (collect_total (rotate S false) es ND (T false) fuel R1 (l, k)) as [R2 [-> [I2 N2]]]; auto. cbn [bind].
    apply rmap_total. intros x I. apply I2, Ies in I. destruct I as [Q [_ [-> _]]]. cbn. eauto.
  - destruct PS as [Le _].
    destruct (v_opp _ _ V l P e Dl Pl Le) as [O|[l' [e' [P' [O [Dl' [Pl' [Le' Back]]]]]]]]; rewrite O; cbn [bind]; eauto.
    assert (G : glued_at D S l e P l' e' P') by (constructor; auto).
    destruct (edge_transformation_ok _ _ _ _ _ _ _ _ V G) as [f [-> _]]. cbn. eauto.
Qed.
End Ident.
