(** Proofs about the action of flips on chains: one flip of a closed triangulated translation surface. *)
From Coq Require Import List Bool ZArith Arith Lia Ring Field Relations.
From Verif Require Import OField FMicromega PField MBase MDict PDict MEuclid SEuclid PEuclid MSim SSim PSim MPoly PPoly
  MMut SMut PMut PMut2 PMut3 MSurf SSurf PSurf PSurf3 SPoint PPoint PSimple MFlip SFlip PFlip PFlip2 PFlip3 PFlip4 PFlip5 TFlip PBuild MChain SChain PChain.
Import ListNotations.

Section Step.
Context {K : OField}.
Add Field KFchain2 : (of_ft K).
Local Open Scope F_scope.
Notation nv := (@length (vec K) : polygon K -> nat).
Implicit Types s : @surf (polygon K).

Lemma convex4_dec (p q r t : vec K) : strictly_convex4 p q r t \/ ~ strictly_convex4 p q r t.
Proof.
  unfold strictly_convex4, flt. destruct (fltb 0 (orient p q r)); [|right; intuition congruence]. destruct (fltb 0 (orient q r t)); [|right; intuition congruence].
  destruct (fltb 0 (orient r t p)); [|right; intuition congruence]. destruct (fltb 0 (orient t p q)); [left; auto|right; intuition congruence].
Qed.
Lemma Ok_inj {A} (a b : A) : Ok a = Ok b -> a = b.
Proof. congruence. Qed.
Lemma hedge_eq (x y : hedge) : x = y \/ x <> y.
Proof. destruct (eqb_case x y) as [[_ E]|[_ E]]; auto. Qed.
Lemma glued_sym s x y : intact nv s -> glued nv s x y -> glued nv s y x.
Proof.
  intros In. pose proof (g_inv nv s (intact_good nv s In)) as I. intros H. apply (glued_gz nv s x y I) in H. apply (glued_gz nv s y x I). now apply (i_inv nv s I).
Qed.
Lemma glued_fun s x y z : glued nv s x y -> glued nv s x z -> y = z.
Proof. intros [_ A] [_ B]. rewrite A in B. now injection B. Qed.
Lemma tri_is_edge s l P e k : get_polygon s l = Ok P -> length P = 3%nat -> is_edge nv s (tri_edge l e k).
Proof.
  intros G L. exists P. split; [exact G|]. unfold tri_edge. cbn [snd]. rewrite L. pose proof (Nat.mod_upper_bound (e + k) 3). lia.
Qed.
Lemma tri_edges_iff s x : triangulated s -> (is_edge nv s x <-> is_label s (fst x) /\ (0 <= snd x < 3)%Z).
Proof.
  intros T. split.
  - intros (P & G & R). destruct (tr_triangle s T _ _ G) as [L _]. rewrite L in R. split; [exists P; auto|lia].
  - intros [(P & G) R]. exists P. split; auto. destruct (tr_triangle s T _ _ G) as [L _]. rewrite L. lia.
Qed.

(** two edges of a triangle are not opposite vectors *)
Lemma triangle_not_parallel (P : polygon K) i j : length P = 3%nat -> 0 < area P -> (i < 3)%nat -> (j < 3)%nat -> edge P i <> vopp (edge P j).
Proof.
  intros L A Hi Hj E. destruct P as [|a [|b [|c [|? ?]]]]; try discriminate. rewrite area_triangle in A.
  assert (Z : forall X : K, X = 0 -> ~ 0 < X / 2) by (intros X -> Y; apply (flt_irrefl (0:K)); replace (0:K) with (0 / 2 : K) at 2 by (field; apply f2_neq0); exact Y).
  apply (Z _) in A; auto. clear A Z. destruct a as [a1 a2], b as [b1 b2], c as [c1 c2].
  apply lt3 in Hi, Hj. unfold ccw. cbn [vsub vadd vopp fst snd].
  pose proof (f_equal fst E) as E1. pose proof (f_equal snd E) as E2. clear E.
  destruct Hi as [->|[->| ->]], Hj as [->|[->| ->]]; cbn in E1, E2; 
    first [ assert (X1 : b1 = a1) by flra; assert (X2 : b2 = a2) by flra; rewrite X1, X2; ring
          | assert (X1 : c1 = a1) by flra; assert (X2 : c2 = a2) by flra; rewrite X1, X2; ring
          | assert (X1 : c1 = b1) by flra; assert (X2 : c2 = b2) by flra; rewrite X1, X2; ring ].
Qed.

Record stable s : Prop := { st_intact : intact nv s; st_mut : mutable s = true; st_rooted : rooted s; st_tri : triangulated s }.
(** what a flip does *)
Record flip_step s s' l e l' e' : Prop := {
  fs_neq : l <> l';
  fs_e : (e < 3)%nat;
  fs_e' : (e' < 3)%nat;
  fs_l : is_label s l;
  fs_l' : is_label s l';
  fs_label : forall m, is_label s' m <-> is_label s m;
  fs_old : glued nv s (tri_edge l e 0) (tri_edge l' e' 0);
  fs_new : glued nv s' (tri_edge l e 0) (tri_edge l' e' 0);
  fs_glue : forall x y, glued nv s x y -> glued nv s' (moved l e l' e' x) (moved l e l' e' y);
  fs_vector : forall x, is_edge nv s x -> x <> tri_edge l e 0 -> x <> tri_edge l' e' 0 -> edge_vector s' (moved l e l' e' x) = edge_vector s x }.

Lemma step_fine s l e l' e' x : triangulated s -> (e < 3)%nat -> (e' < 3)%nat -> is_edge nv s x -> fine l l' e e' x.
Proof.
  intros T He He' H. apply (tri_edges_iff s x T) in H. destruct H as [_ R]. destruct x as [m z]. cbn [snd] in R.
  destruct (Z.eq_dec m l) as [->|N1]; [|destruct (Z.eq_dec m l') as [->|N2]].
  - right. destruct (tri_edge_all l e z) as [j [Hj E]]; auto. exists j. auto.
  - right. destruct (tri_edge_all l' e' z) as [j [Hj E]]; auto. exists j. auto.
  - left. auto.
Qed.

Lemma flip_ok s l e y s' : stable s -> opposite_edge s l (Z.of_nat e) = Ok (Some y) -> triangle_flip l e s = (s', Ok tt) ->
  stable s' /\ exists e', snd y = Z.of_nat e' /\ flip_step s s' l e (fst y) e'.
Proof.
  intros [In Mu Ro T] O E. pose proof (intact_good nv s In) as G0. pose proof (g_inv nv s G0) as I0.
  destruct y as [l' z]. cbn [fst snd].
  assert (GL : glued nv s (l, Z.of_nat e) (l', z)).
  { split; [|exact O]. apply opposite_edge_Ok in O; [|lia]. apply (inrange_edge nv s _ I0). tauto. }
  pose proof (glued_sym s _ _ In GL) as GL'.
  destruct (proj1 (tri_edges_iff s _ T) (proj1 GL)) as [[P GP] R]. destruct (proj1 (tri_edges_iff s _ T) (proj1 GL')) as [[P' GP'] R'].
  cbn [fst snd] in *. assert (He : (e < 3)%nat) by lia. destruct (Z_of_nat_complete z) as [e' ->]; [lia|]. assert (He' : (e' < 3)%nat) by lia.
  destruct (tr_triangle s T _ _ GP) as [L A]. destruct (tr_triangle s T _ _ GP') as [L' A'].
  assert (V : edge_vector s (l, Z.of_nat e) = Ok (edge P e)) by (unfold edge_vector; cbn [fst snd]; rewrite GP, Nat2Z.id; reflexivity).
  assert (V' : edge_vector s (l', Z.of_nat e') = Ok (edge P' e')) by (unfold edge_vector; cbn [fst snd]; rewrite GP', Nat2Z.id; reflexivity).
  pose proof (tr_translation s T _ _ _ GL V) as V2. rewrite V' in V2. apply Ok_inj in V2.
  assert (D : l <> l').
  { intros <-. rewrite GP in GP'. injection GP' as <-. exact (triangle_not_parallel P e' e L A He' He V2). }
  set (w := vsub (vertex P e) (vertex P' (S e'))). set (F := fun p : vec K => vadd p w).
  assert (TT : two_triangles s l e l' e' P P' F).
  { constructor; auto. destruct (translation_similarity F w (fun p => eq_refl)) as [S1 S2]. constructor; auto; unfold F, w.
    - unfold edge in V2. pose proof (f_equal fst V2) as W1. pose proof (f_equal snd V2) as W2. cbn in W1, W2. apply vec_eq; cbn; flra.
    - apply vec_eq; cbn; ring. }
  assert (IS : inner_sides s l e l' e').
  { intros k _. assert (X : forall u, is_edge nv s u -> ~ free nv s u).
    { intros u Hu [_ Fr]. destruct (tr_closed s T u Hu) as [v [_ Gv]]. rewrite Gv in Fr. discriminate. }
    split; apply X; eapply tri_is_edge; eauto. }
  assert (NZ : edge P e <> vzero).
  { intros Z. apply (triangle_not_parallel P e e L A He He). rewrite Z. apply vec_eq; cbn; ring. }
  destruct (convex4_dec (vertex P e) (F (vertex P' (e' + 2))) (vertex P (e + 1)) (vertex P (e + 2))) as [C|C];
    [|destruct (C20_not_convex K s l e l' e' P P' F In TT NZ C) as [x X]; rewrite X in E; discriminate].
  destruct (C20_flip K s l e l' e' P P' F In Mu Ro TT D IS C) as (s1 & Q & Q' & E1 & In1 & Mu1 & Ro1 & GQ & GQ' & OT & LQ & LQ' & _ & _ & _ & _ & AQ & AQ' & _ & GN & [RG _]).
  destruct (C20_translation K s l e l' e' P P' F w In Mu Ro TT D IS (fun p => eq_refl) C) as (s2 & Q2 & Q2' & E2 & _ & _ & _ & VN & VN' & VO).
  rewrite E in E1, E2. injection E1 as <-. injection E2 as <-.
  assert (LB : forall m, is_label s' m <-> is_label s m).
  { intros m. destruct (Z.eq_dec m l) as [->|N1]; [split; intros _; [exists P|exists Q]; auto|].
    destruct (Z.eq_dec m l') as [->|N2]; [split; intros _; [exists P'|exists Q']; auto|]. unfold is_label. now rewrite OT. }
  assert (TRI : forall m R0, get_polygon s' m = Ok R0 -> length R0 = 3%nat /\ 0 < area R0).
  { intros m R0 HR. destruct (Z.eq_dec m l) as [->|N1]; [rewrite GQ in HR; injection HR as <-; auto|].
    destruct (Z.eq_dec m l') as [->|N2]; [rewrite GQ' in HR; injection HR as <-; auto|]. rewrite OT in HR by auto. eapply tr_triangle; eauto. }
  assert (T0 : tri_edge l e 0 = (l, Z.of_nat e)) by now apply tri_edge_0.
  assert (T0' : tri_edge l' e' 0 = (l', Z.of_nat e')) by now apply tri_edge_0.
  assert (FS : flip_step s s' l e l' e').
  { constructor; auto; try (rewrite ?T0, ?T0'; assumption); try (exists P; assumption); try (exists P'; assumption). }
  split; [|exists e'; auto]. constructor; auto.
  assert (ED : forall x, is_edge nv s' x -> is_edge nv s x).
  { intros x (R0 & HR & RR). apply (tri_edges_iff s x T). split; [apply LB; exists R0; auto|]. destruct (TRI _ _ HR) as [X _]. rewrite X in RR. lia. }
  assert (BK : forall u, is_edge nv s' u -> exists x, is_edge nv s x /\ u = moved l e l' e' x).
  { intros u Hu. pose proof (step_fine s l e l' e' u T He He' (ED u Hu)) as FU. exists (moved_inv l l' e e' u). split; [|symmetry; now apply moved_mi].
    destruct (mi_fine l l' e e' D He He' u FU) as [[N1 N2]|[k [Hk [X|X]]]].
    - assert (X : moved_inv l l' e e' u = u); [|rewrite X; auto]. 
      destruct (fine_cases l l' e e' u FU) as [[M1 M2]|[->|[->|[->|[->|[->| ->]]]]]]; [now apply mi_other| | | | | |]; exfalso; revert N1 N2;
        rewrite ?mi_0, ?mi_1, ?mi_2, ?mi_0', ?mi_1', ?mi_2' by auto; unfold tri_edge; cbn [fst]; auto.
    - rewrite X. eapply tri_is_edge; eauto.
    - rewrite X. eapply tri_is_edge; eauto. }
  constructor; auto.
  - intros u Hu. destruct (BK u Hu) as (x & Hx & ->). destruct (tr_closed s T x Hx) as [y Hy]. exists (moved l e l' e' y). now apply RG.
  - intros u v w' Huv W. destruct (BK u (proj1 Huv)) as (x & Hx & ->). destruct (tr_closed s T x Hx) as [y Hy].
    pose proof (glued_fun s' _ _ _ Huv (RG _ _ Hy)) as ->.
    destruct (hedge_eq x (l, Z.of_nat e)) as [->|N1]; [|destruct (hedge_eq x (l', Z.of_nat e')) as [->|N2]].
    + pose proof (glued_fun s _ _ _ GL Hy) as <-. rewrite <- T0, <- T0' in *. destruct (moved_all l e l' e' D He He') as (m0 & _ & _ & m0' & _ & _).
      rewrite m0 in W. rewrite m0'. rewrite VN in W. apply Ok_inj in W. subst w'. exact VN'.
    + pose proof (glued_fun s _ _ _ GL' Hy) as <-. rewrite <- T0, <- T0' in *. destruct (moved_all l e l' e' D He He') as (m0 & _ & _ & m0' & _ & _).
      rewrite m0' in W. rewrite m0. rewrite VN' in W. apply Ok_inj in W. subst w'. rewrite VN. f_equal. apply vec_eq; cbn; ring.
    + rewrite VO in W by auto. pose proof (glued_sym s _ _ In Hy) as Hy'. rewrite VO.
      * eapply tr_translation; eauto.
      * apply Hy'.
      * intros ->. apply N2. exact (glued_fun s _ _ _ Hy' GL).
      * intros ->. apply N1. exact (glued_fun s _ _ _ Hy' GL').
Qed.
Lemma certify_ok s l e f s' : stable s -> certify_flip (l, e) s = (s', Ok f) ->
  stable s' /\ exists l' e', f = ((l, Z.of_nat e), (l', Z.of_nat e')) /\ flip_step s s' l e l' e'.
Proof.
  intros St E. unfold certify_flip in E. cbn [fst snd] in E. apply mbind_inv in E. destruct E as (s1 & y & E1 & E).
  unfold mread in E1. destruct (opposite_edge s l (Z.of_nat e)) as [y'|] eqn:O; [|discriminate]. injection E1 as <- <-.
  apply mbind_inv in E. destruct E as (s2 & u & E2 & E). destruct u. destruct y' as [y|]; [|discriminate]. injection E as <- <-.
  destruct (flip_ok s l e y s2 St O E2) as (S' & e' & Y & FS). split; auto. exists (fst y), e'. split; auto. rewrite <- Y. now destruct y.
Qed.
End Step.
