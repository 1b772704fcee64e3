(** Proofs about the edges around a vertex: the walk to the boundary, and termination. *)
From Coq Require Import List Bool ZArith Arith Lia Relations Ring Field.
From Verif Require Import OField FMicromega PField MBase MDict PDict MEuclid SEuclid PEuclid MSim SSim PSim MPoly PPoly
  MSurf SSurf PSurf PSurf2 PSurf3 MPoint SPoint PPoint PPoint2 PPoint3.
Import ListNotations.

Section Walk.
Context {K : OField} {L : Type} `{EqB L}.
Implicit Types (S : surface K L) (D : L -> Prop) (P : polygon K) (x y : L * nat).

Lemma corner_next_true D S x y : valid D S -> (corner_next D S y x <-> corner D S x /\ rotate S true x = Ok (Some y)).
Proof.
  intros V. rewrite corner_next_rotate by auto. split; intros [C R].
  - apply (rotate_bwd D S y x V C R).
  - apply (rotate_fwd D S x y V C R).
Qed.

(** one step of the walk *)
Lemma clockwise_step D S fuel initial x : valid D S -> corner D S x ->
  most_clockwise S (Datatypes.S fuel) initial x =
  match rotate S true x with
  | Ok (Some y) => if eqb y initial then Ok y else most_clockwise S fuel initial y
  | Ok None => Ok x
  | Err e => Err e
  end.
Proof.
  intros V [P [Dx [Px Lx]]]. cbn [most_clockwise]. unfold rotate. cbn [bind].
  destruct (v_opp _ _ V (fst x) P (snd x) Dx Px Lx) as [->|[l' [e' [P' [-> [Dl [Pl [Le Back]]]]]]]]; cbn [bind fst snd]; auto.
  rewrite Pl. cbn [bind]. reflexivity.
Qed.
Lemma rotate_none D S x : valid D S -> corner D S x -> (rotate S true x = Ok None <-> s_opp S (fst x) (snd x) = Ok None).
Proof.
  intros V [P [Dx [Px Lx]]]. unfold rotate. cbn [bind].
  destruct (v_opp _ _ V (fst x) P (snd x) Dx Px Lx) as [->|[l' [e' [P' [-> [Dl [Pl [Le Back]]]]]]]]; cbn [bind fst snd].
  - tauto.
  - rewrite Pl. cbn [bind]. split; discriminate.
Qed.

(** the corners visited so far *)
Record visited D S (initial : L * nat) (vis : list (L * nat)) x : Prop := {
  vi_nodup : NoDup (x :: vis);
  vi_corner : forall v, In v (x :: vis) -> corner D S v;
  vi_next : forall v, In v vis -> exists w, corner_next D S w v /\ In w (x :: vis);
  vi_prev : forall v, In v (x :: vis) -> v = initial \/ exists w, corner_next D S v w /\ In w vis;
  vi_start : In initial (x :: vis);
  vi_class : forall v, In v (x :: vis) -> clos_refl_sym_trans _ (corner_next D S) initial v }.
Lemma visited_start D S x : corner D S x -> visited D S x nil x.
Proof.
  intros C. constructor; try (intros v [<-|[]]; auto).
  - constructor; auto. constructor.
  - intros v [].
  - now left.
  - apply rst_refl.
Qed.
Lemma visited_step D S initial vis x y : valid D S -> visited D S initial vis x -> corner_next D S y x -> y <> initial ->
  visited D S initial (x :: vis) y.
Proof.
  intros V [A1 A2 A3 A4 A5 A6] N Ne. constructor.
  - constructor; auto. intros I.
    destruct (A4 y I) as [->|[w [W1 W2]]]; [contradiction|].
    assert (w = x) as -> by (eapply corner_next_fun; eauto). inversion A1. contradiction.
  - intros v [<-|I]; auto. apply (corner_next_corner D S _ _ V N).
  - intros v [<-|I]; [exists y; split; auto; now left|]. destruct (A3 v I) as [w [W1 W2]]. exists w. split; auto. now right.
  - intros v [<-|I]; [right; exists x; split; auto; now left|]. destruct (A4 v I) as [->|[w [W1 W2]]]; auto. right. exists w. split; auto. now right.
  - now right.
  - intros v [<-|I]; auto. eapply rst_trans; [apply A6; now left|]. apply rst_sym, rst_step. auto.
Qed.
Lemma most_clockwise_spec D S fuel initial : forall vis x y, valid D S -> visited D S initial vis x ->
  most_clockwise S fuel initial x = Ok y ->
  clos_refl_sym_trans _ (corner_next D S) initial y /\ corner D S y /\
  (s_opp S (fst y) (snd y) = Ok None \/
   y = initial /\ forall z, clos_refl_sym_trans _ (corner_next D S) initial z -> exists w, corner_next D S z w).
Proof.
  induction fuel as [|fuel IH]; intros vis x y V VI E; [discriminate|].
  pose proof (vi_corner _ _ _ _ _ VI x (or_introl eq_refl)) as Cx. rewrite (clockwise_step D S fuel initial x V Cx) in E.
  destruct (rotate S true x) as [[z|]|] eqn:R; [| |discriminate].
  - assert (N : corner_next D S z x) by (apply corner_next_true; auto).
    destruct (eqb z initial) eqn:Ez.
    + apply (eqb_ok z initial) in Ez. subst z. injection E as <-. destruct VI as [A1 A2 A3 A4 A5 A6].
      split; [apply rst_refl|]. split; [now apply A2|]. right. split; auto.
      assert (NX : forall u w, In w (x :: vis) -> corner_next D S u w -> In u (x :: vis)).
      { intros u w [<-|I] Nu.
        - apply corner_next_true in Nu; auto. destruct Nu as [_ Nu]. rewrite R in Nu. now injection Nu as <-.
        - destruct (A3 w I) as [u' [U1 U2]]. apply corner_next_true in Nu, U1; auto. destruct Nu as [_ Nu], U1 as [_ U1]. congruence. }
      assert (PX : forall u w, In u (x :: vis) -> corner_next D S u w -> In w (x :: vis)).
      { intros u w I Nu. destruct (A4 u I) as [->|[w' [W1 W2]]].
        - rewrite (corner_next_fun D S _ _ _ Nu N). now left.
        - rewrite (corner_next_fun D S _ _ _ Nu W1). now right. }
      assert (G : forall u w, clos_refl_sym_trans _ (corner_next D S) u w -> (In u (x :: vis) <-> In w (x :: vis))).
      { intros u w Cl. induction Cl as [u w Nu|u|u w Cl IHc|u v w C1 I1 C2 I2]; [|tauto|tauto|tauto]. split; intros I; [eapply PX|eapply NX]; eauto. }
      intros z Cz. apply G in Cz. assert (Iz : In z (x :: vis)) by now apply Cz.
      destruct (A4 z Iz) as [->|[w [W1 W2]]]; eauto.
    + assert (Ne : z <> initial) by (intros ->; rewrite eqb_refl in Ez; discriminate).
      apply (IH (x :: vis) z y V); auto. now apply visited_step.
  - injection E as <-. split; [apply (vi_class _ _ _ _ _ VI); now left|]. split; auto. left. now apply (rotate_none D S).
Qed.
Lemma most_clockwise_total D S (es : list (L * nat)) initial : valid D S -> NoDup es -> (forall x, corner D S x -> In x es) ->
  forall fuel vis x, visited D S initial vis x -> length es - length vis <= fuel -> exists y, most_clockwise S fuel initial x = Ok y.
Proof.
  intros V ND Ies. induction fuel as [|fuel IH]; intros vis x VI F.
  - exfalso. assert (IL : length (x :: vis) <= length es).
    { apply NoDup_incl_length; [apply VI|]. intros v I. apply Ies. eapply vi_corner; eauto. } cbn in IL. lia.
  - pose proof (vi_corner _ _ _ _ _ VI x (or_introl eq_refl)) as Cx. rewrite (clockwise_step D S fuel initial x V Cx).
    destruct (rotate_ok D S x true V Cx) as [[z|] R]; rewrite R; eauto.
    destruct (eqb z initial) eqn:Ez; eauto.
    apply (IH (x :: vis)); [|cbn; lia]. apply visited_step; auto; [apply corner_next_true; auto|].
    intros ->. now rewrite eqb_refl in Ez.
Qed.

(** the corners visited by the second walk *)
Record rounded D S (start : L * nat) (vis : list (L * nat)) x : Prop := {
  ro_nodup : NoDup (x :: vis);
  ro_corner : forall v, In v (x :: vis) -> corner D S v;
  ro_prev : forall v, In v (x :: vis) -> v = start \/ exists w, corner_next D S w v /\ In w vis;
  ro_class : forall v, In v (x :: vis) -> clos_refl_sym_trans _ (corner_next D S) start v }.
Lemma ccw_loop_total D S (es : list (L * nat)) start : valid D S -> NoDup es -> (forall x, corner D S x -> In x es) ->
  (s_opp S (fst start) (snd start) = Ok None \/ forall z, clos_refl_sym_trans _ (corner_next D S) start z -> exists w, corner_next D S z w) ->
  forall fuel vis x m, rounded D S start vis x -> length es - length vis <= fuel -> exists r, ccw_loop S fuel start x m = Ok r.
Proof.
  intros V ND Ies B. induction fuel as [|fuel IH]; intros vis x m RO F.
  - exfalso. assert (IL : length (x :: vis) <= length es).
    { apply NoDup_incl_length; [apply RO|]. intros v I. apply Ies. eapply ro_corner; eauto. } cbn in IL. lia.
  - pose proof (ro_corner _ _ _ _ _ RO x (or_introl eq_refl)) as Cx. pose proof Cx as [P [Dx [Px Lx]]]. cbn [ccw_loop]. rewrite Px. cbn [bind fst snd].
    set (e := (snd x + length P - 1) mod length P) in *.
    assert (Le : e < length P) by now apply prev_lt.
    destruct (v_opp _ _ V (fst x) P e Dx Px Le) as [O|[l' [e' [P' [O [Dl [Pl [Le' Back]]]]]]]]; rewrite O; cbn [bind].
    + destruct B as [->|B]; [cbn; eauto|]. exfalso. destruct (B x) as [w [P2 [e2 [_ [P2' [_ [-> O2]]]]]]]; [apply RO; now left|].
      rewrite Px in P2'. injection P2' as <-. unfold e in O. congruence.
    + cbn [fst snd]. assert (G : glued_at D S l' e' P' (fst x) e P) by (constructor; auto).
      destruct (edge_transformation_ok _ _ _ _ _ _ _ _ V G) as [f [-> _]]. cbn [bind].
      destruct (eqb (l', e') start) eqn:Es; eauto. rewrite Pl. cbn [bind].
      assert (Ne : (l', e') <> start) by (intros <-; rewrite eqb_refl in Es; discriminate).
      assert (N : corner_next D S x (l', e')) by (exists P, e; auto).
      destruct (IH (x :: vis) (l', e') (mmul m (sim_derivative f))) as [r ->]; [|cbn; lia|cbn; eauto].
      destruct RO as [A1 A2 A3 A4]. constructor.
      * constructor; auto. intros I. destruct (A3 _ I) as [?|[w [W1 W2]]]; [contradiction|].
        assert (w = x) as -> by (eapply corner_next_inj; eauto). inversion A1. contradiction.
      * intros v [<-|I]; auto. exists P'. auto.
      * intros v [<-|I]; [right; exists x; split; auto; now left|]. destruct (A3 v I) as [->|[w [W1 W2]]]; auto. right. exists w. split; auto. now right.
      * intros v [<-|I]; auto. eapply rst_trans; [apply A4; now left|]. now apply rst_step.
Qed.

(** without a given edge, the walk starts at the most clockwise edge *)
Theorem edges_ccw_default D S fuel initial h r : valid D S -> corner D S initial -> (forall v, h = Some v -> v <> vzero) ->
  edges_ccw_vertex S fuel initial None h = Ok r ->
  exists start ss, star D S start ss /\ r = flat_map show ss /\
    (forall s v, nth_error ss 0 = Some s -> h = Some v -> pa_first s = v) /\
    (forall y, In y (map pa_corner ss) <-> clos_refl_sym_trans (L * nat) (corner_next D S) initial y).
Proof.
  intros V C Nh E. unfold edges_ccw_vertex in E. cbn [bind] in E.
  destruct (most_clockwise S fuel initial initial) as [start|] eqn:M; cbn [bind] in E; [|discriminate].
  destruct (most_clockwise_spec D S fuel initial nil initial start V (visited_start D S initial C) M) as [Cl [Cs _]].
  pose proof Cs as [P [Ds [Ps Ls]]].
  assert (E' : edges_ccw_vertex S fuel initial (Some start) h = Ok r) by exact E.
  destruct (edges_ccw_star D S fuel start h r P V Cs Ps Nh initial E') as [ss [St [Er F1]]].
  exists start, ss. split; auto. split; auto. split.
  - intros s v Es ->. apply F1. auto.
  - intros y. rewrite (st_all _ _ _ _ St y). split; intros Q; [eapply rst_trans; [exact Cl|exact Q]|].
    eapply rst_trans; [apply rst_sym; exact Cl|exact Q].
Qed.
Theorem edges_ccw_total D S fuel initial (es : list (L * nat)) h : valid D S -> corner D S initial -> NoDup es -> (forall x, corner D S x -> In x es) ->
  length es <= fuel -> exists r, edges_ccw_vertex S fuel initial None h = Ok r.
Proof.
  intros V C ND Ies F. unfold edges_ccw_vertex. cbn [bind].
  destruct (most_clockwise_total D S es initial V ND Ies fuel nil initial (visited_start D S initial C)) as [start M]; [cbn; lia|].
  rewrite M. cbn [bind]. destruct (most_clockwise_spec D S fuel initial nil initial start V (visited_start D S initial C) M) as [Cl [Cs B]].
  pose proof Cs as [P [Ds [Ps Ls]]]. rewrite Ps. cbn [bind].
  destruct (ccw_loop_total D S es start V ND Ies) with (fuel := fuel) (vis := @nil (L * nat)) (x := start)
    (m := similarity_from_vectors (edge P (snd start)) match h with Some h => h | None => edge P (snd start) end) as [rest ->].
  - destruct B as [B|[-> B]]; auto.
  - constructor; try (intros v [<-|[]]; auto).
    + constructor; auto. constructor.
    + apply rst_refl.
  - cbn. lia.
  - cbn. eauto.
Qed.
(** on closed surfaces any edge may be chosen as the first one *)
Theorem edges_ccw_total_closed D S fuel initial start (es : list (L * nat)) h : valid D S -> closed D S -> corner D S start -> NoDup es ->
  (forall x, corner D S x -> In x es) -> length es <= fuel -> exists r, edges_ccw_vertex S fuel initial (Some start) h = Ok r.
Proof.
  intros V Cl C ND Ies F. unfold edges_ccw_vertex. cbn [bind]. pose proof C as [P [Ds [Ps Ls]]]. rewrite Ps. cbn [bind].
  destruct (ccw_loop_total D S es start V ND Ies) with (fuel := fuel) (vis := @nil (L * nat)) (x := start)
    (m := similarity_from_vectors (edge P (snd start)) match h with Some h => h | None => edge P (snd start) end) as [rest ->].
  - right. intros z Cz. assert (Z : corner D S z).
    { clear - Cz C V. apply clos_rst_rst1n in Cz. induction Cz as [|u v w Q Cz IH]; auto. apply IH.
      destruct Q as [Q|Q]; apply (corner_next_corner D S _ _ V Q). }
    destruct Z as [Q [Dz [Qz Lz]]]. destruct (v_opp _ _ V (fst z) Q _ Dz Qz (prev_lt _ _ Lz)) as [O|[l' [e' [P' [O _]]]]].
    + exfalso. apply (Cl _ _ _ Dz Qz (prev_lt _ _ Lz)). exact O.
    + exists (l', e'), Q, ((snd z + length Q - 1) mod length Q). auto 6.
  - constructor; try (intros v [<-|[]]; auto).
    + constructor; auto. constructor.
    + apply rst_refl.
  - cbn. lia.
  - cbn. eauto.
Qed.
End Walk.
