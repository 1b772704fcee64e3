(** Theorem C62: rotating tangent vectors at vertices. *)
From Coq Require Import List Bool ZArith Arith Lia QArith.
From Verif Require Import OField MBase MDict MEuclid PEuclid SEuclid MSim SSim MPoly SPoint SCut TEuclid MSurf SSurf ExTab MTangent STangent PTangent3 PTangent4 SRotate PRotate TLazy TTangent.
Import ListNotations.
Open Scope nat_scope.

Section Rotate.
Variables (K : OField) (L : Type) (EL : EqB L) (D : L -> Prop) (S : surface K L).
Hypothesis V : valid D S.
Hypothesis C : closed D S.
Hypothesis PRS : forall l P, D l -> s_poly S l = Ok P -> proper P.

(** On translation surfaces, at a vertex with at most 99 corners, all of them less than 180 degrees: [clockwise_to] is the
    first tangent vector with the direction [w] that is met when turning clockwise. The code consists of the edges that
    are crossed. Missing: corners of 180 degrees and more, see C62_reflex_refuted, other surfaces, see C62_pillow_refuted, and
    vertices with more corners. *)
Theorem C62_clockwise_partial t w (c : nat -> L * nat) N : translations D S -> tv_ok D S t -> w <> vzero ->
  fst (c 0) = tv_label t -> tv_position t = AtVertex (snd (c 0)) ->
  0 < N -> N < 100 -> c N = c 0 -> (forall i, i < N -> clockwise_corner D S (c i) (c (Datatypes.S i))) -> (forall i, i <= N -> sharp D S (c i)) ->
  exists m t', m <= N /\ first_clockwise D S t w c m /\ vector_at S (c m) w t' /\ clockwise_to S t w = Ok (t', map (fun i => snd (c i)) (seq 0 m)).
Proof.
  intros TR O Nw L0 P0 N0 N1 CY CC SH. destruct (clockwise_found D S V PRS TR t w c N O Nw L0 P0 N0 CY CC SH) as [m [M F]].
  destruct (clockwise_ok D S V PRS TR t w c m O Nw) as [t' [VA E]]; [unfold rotate_limit; lia|exact F|intros i I; apply SH; lia|]. exists m, t'. auto.
Qed.
Theorem C62_counterclockwise_partial t w (c : nat -> L * nat) N : translations D S -> tv_ok D S t -> w <> vzero ->
  fst (c 0) = tv_label t -> tv_position t = AtVertex (snd (c 0)) ->
  0 < N -> N <= 100 -> c N = c 0 -> (forall i, i < N -> counterclockwise_corner D S (c i) (c (Datatypes.S i))) -> (forall i, i <= N -> sharp D S (c i)) ->
  exists m t' codes, m <= N /\ first_counterclockwise D S t w c m /\ vector_at S (c m) w t' /\ counterclockwise_to S t w = Ok (t', codes) /\ length codes = m /\
    forall i, i < m -> exists P, s_poly S (fst (c i)) = Ok P /\ nth i codes 0 < length P /\ snd (c i) = Datatypes.S (nth i codes 0) mod length P.
Proof.
  intros TR O Nw L0 P0 N0 N1 CY CC SH. destruct (counterclockwise_found D S V PRS TR t w c N O Nw L0 P0 N0 CY CC SH) as [m [M F]].
  destruct (counterclockwise_ok D S V PRS TR t w c m O Nw) as [t' [VA E]]; [unfold rotate_limit; lia|exact F|intros i I; apply SH; lia|].
  exists m, t', (codes_counterclockwise S c m). split; [exact M|]. split; [exact F|]. split; [exact VA|]. split; [exact E|]. unfold codes_counterclockwise. split; [now rewrite map_length, seq_length|].
  intros i I. destruct (CC i) as [e [P [P' [G [Lk Ek]]]]]; [lia|]. exists P. pose proof (ga_poly _ _ _ _ _ _ _ _ G) as GP. split; [exact GP|].
  rewrite (nth_indep _ 0 (ccw_code S (c 0))) by (rewrite map_length, seq_length; lia). rewrite (map_nth (fun i => ccw_code S (c i))), seq_nth by lia. cbn [Nat.add].
  destruct (ccw_step D S V PRS TR _ _ _ _ _ G Lk Ek) as [_ [_ EE]]. unfold ccw_code. rewrite GP, <- EE. split; [exact (ga_edge _ _ _ _ _ _ _ _ G)|exact Ek].
Qed.
Theorem C62_errors t w : (w = vzero -> clockwise_to S t w = Err ValueError /\ counterclockwise_to S t w = Err ValueError) /\
  (w <> vzero -> is_based_at_singularity t = false -> clockwise_to S t w = Err NotImplementedError /\ counterclockwise_to S t w = Err NotImplementedError).
Proof.
  unfold clockwise_to, counterclockwise_to. split.
  - intros ->. assert (E : veqb (@vzero K) vzero = true) by now apply veqb_eq. now rewrite E.
  - intros N I. apply veqb_neq in N. rewrite N. unfold is_based_at_singularity in I. destruct (tv_position t); try discriminate I; auto.
Qed.
End Rotate.
Print Assumptions C62_clockwise_partial.
Print Assumptions C62_counterclockwise_partial.
Print Assumptions C62_errors.

(** ** Examples and counterexamples *)
(** The torus from a parallelogram: the corners at its vertex. *)
Definition parT : table cqF := ([[qv 0 0; qv 2 0; qv 3 1; qv 1 1]], [((0, 0), (0, 2)); ((0, 1), (0, 3))]).
Definition parS : surface cqF Z := ztab parT.
Definition parD (l : Z) : Prop := zdom parT l = true.
Lemma par_valid : valid parD parS.
Proof. apply ztab_valid. vm_compute. reflexivity. Qed.
Lemma par_closed : closed parD parS.
Proof. apply ztab_closed. vm_compute. reflexivity. Qed.
Lemma proper_of (T : table cqF) : forallb (fun P => match polygon_check P with Ok _ => true | Err _ => false end) (fst T) = true ->
  forall l P, zdom T l = true -> s_poly (ztab T) l = Ok P -> proper P.
Proof. intros H l P Dl E. destruct (ztab_proper T H l Dl) as [P' [E' PR]]. rewrite E' in E. injection E as <-. exact PR. Qed.
Lemma par_proper : forall l P, parD l -> s_poly parS l = Ok P -> proper P.
Proof. apply proper_of. vm_compute. reflexivity. Qed.
Lemma one_label (T : table cqF) l : length (fst T) = 1 -> zdom T l = true -> l = 0%Z.
Proof. intros H X. unfold zdom in X. rewrite H in X. apply andb_true_iff in X as [A B]. apply Z.leb_le in A. apply Nat.ltb_lt in B. lia. Qed.
(** a table with one polygon whose glued edges are opposite vectors *)
Lemma one_translations (P : polygon cqF) gs : forallb (fun e => match s_opp (ztab ([P], gs)) 0%Z e with Ok (Some y) => Z.eqb (fst y) 0%Z && veqb (edge P (snd y)) (vopp (edge P e)) | _ => true end) (seq 0 (length P)) = true ->
  translations (fun l => zdom ([P], gs) l = true) (ztab ([P], gs)).
Proof.
  intros H l e Q l' e' Q' G. assert (l = 0%Z) by (apply (one_label ([P], gs)); [reflexivity|exact (ga_dom _ _ _ _ _ _ _ _ G)]). subst l.
  pose proof (ga_poly _ _ _ _ _ _ _ _ G) as GP. change (Ok P = Ok Q) in GP. injection GP as <-. rewrite forallb_forall in H. specialize (H e). rewrite (ga_opp _ _ _ _ _ _ _ _ G) in H.
  cbn [fst snd] in H. pose proof (ga_edge _ _ _ _ _ _ _ _ G) as Le. assert (I : In e (seq 0 (length P))) by (apply in_seq; lia). apply H in I. apply andb_true_iff in I as [I1 I2]. apply Z.eqb_eq in I1. subst l'.
  pose proof (ga_poly' _ _ _ _ _ _ _ _ G) as GP'. change (Ok P = Ok Q') in GP'. injection GP' as <-. now apply veqb_eq.
Qed.
Lemma par_translations : translations parD parS.
Proof. apply one_translations. vm_compute. reflexivity. Qed.
Lemma ell_translations : translations ellD ellS.
Proof. apply one_translations. vm_compute. reflexivity. Qed.
Lemma glue_of (T : table cqF) l e P l' e' P' : zdom T l = true -> s_poly (ztab T) l = Ok P -> e < length P -> match s_opp (ztab T) l e with Ok (Some y) => Z.eqb (fst y) l' && (snd y =? e') | _ => false end = true ->
  s_poly (ztab T) l' = Ok P' -> glued_at (fun l => zdom T l = true) (ztab T) l e P l' e' P'.
Proof.
  intros A B E X Y. split; auto. destruct (s_opp (ztab T) l e) as [[[a b]|]|]; try discriminate X. cbn [fst snd] in X. apply andb_true_iff in X as [X1 X2]. apply Z.eqb_eq in X1. apply Nat.eqb_eq in X2. now subst.
Qed.
Lemma tv_make (T : table cqF) (t : tvec cqF Z) (l : Z) p v : valid (fun l => zdom T l = true) (ztab T) -> closed (fun l => zdom T l = true) (ztab T) ->
  (forall l P, zdom T l = true -> s_poly (ztab T) l = Ok P -> proper P) -> zdom T l = true ->
  match tangent_vector (ztab T) l p v with Ok u => tv_eqb t u && position_eqb (tv_position t) (tv_position u) | Err _ => false end = true -> tv_ok (fun l => zdom T l = true) (ztab T) t.
Proof.
  intros V C PRS Dl. destruct (tangent_vector (ztab T) l p v) as [u|] eqn:E; [|discriminate]. intros X. apply andb_true_iff in X as [X Y]. unfold tv_eqb in X. apply andb_true_iff in X as [X X3]. apply andb_true_iff in X as [X1 X2].
  apply (proj1 (eqb_ok _ _)) in X1. apply veqb_eq in X2. apply veqb_eq in X3. apply position_eqb_eq in Y.
  assert (Q : t = u) by (destruct t, u; cbn in X1, X2, X3, Y; now rewrite X1, X2, X3, Y). rewrite Q. exact (proj1 (C59_result cqF Z _ (ztab T) V C PRS l p v u Dl E)).
Qed.
Definition par_corners (i : nat) : Z * nat := (0%Z, (4 - i mod 4) mod 4).
Lemma par_chain i : i < 4 -> clockwise_corner parD parS (par_corners i) (par_corners (Datatypes.S i)).
Proof.
  intros I. set (P := [qv 0 0; qv 2 0; qv 3 1; qv 1 1]). assert (G : forall e e', e < 4 -> match s_opp parS 0%Z e with Ok (Some y) => Z.eqb (fst y) 0%Z && (snd y =? e') | _ => false end = true -> glued_at parD parS 0%Z e P 0%Z e' P).
  { intros e e' E X. exact (glue_of parT 0%Z e P 0%Z e' P eq_refl eq_refl E X eq_refl). }
  destruct i as [|[|[|[|i]]]]; [exists P, 2, P|exists P, 1, P|exists P, 0, P|exists P, 3, P|lia]; (split; [apply G; [vm_compute; lia|vm_compute; reflexivity]|reflexivity]).
Qed.
Lemma par_sharp i : sharp parD parS (par_corners i).
Proof.
  intros u v [P [_ [GP [Lk [-> ->]]]]]. change (Ok [qv 0 0; qv 2 0; qv 3 1; qv 1 1] = Ok P) in GP. assert (E : [qv 0 0; qv 2 0; qv 3 1; qv 1 1] = P) by congruence. subst P.
  cbn [par_corners snd length] in *. set (k := (4 - i mod 4) mod 4) in *. clearbody k. do 4 (destruct k as [|k]; [vm_compute; reflexivity|]). cbn in Lk. lia.
Qed.
Example C62_ex : let t := TVec (K := cqF) 0%Z (qv 0 0) (qv 2 1) (AtVertex 0) in
  (exists m t', m <= 4 /\ first_clockwise parD parS t (qv 2 1) par_corners m /\ vector_at parS (par_corners m) (qv 2 1) t' /\
     clockwise_to parS t (qv 2 1) = Ok (t', map (fun i => snd (par_corners i)) (seq 0 m))) /\
  res_report (fun x => (tv_report (fst x), snd x)) (clockwise_to parS t (qv 2 1)) = inl ((0, 0)%Q, (2, 1)%Q, AtVertex 0, [0; 3; 2; 1]) /\
  res_report (fun x => (tv_report (fst x), snd x)) (clockwise_to parS t (qv (-1) 0)) = inl ((3, 1)%Q, (-(1), 0)%Q, AtVertex 2, [0; 3]) /\
  res_report (fun x => (tv_report (fst x), snd x)) (counterclockwise_to parS t (qv 1 1)) = inl ((2, 0)%Q, (1, 1)%Q, AtVertex 1, [3]).
Proof.
  intros t. split; [|split; [|split]; vm_compute; reflexivity].
  assert (O : tv_ok parD parS t).
  { apply (tv_make parT) with (l := 0%Z) (p := qv 0 0) (v := qv 2 1); [exact par_valid|exact par_closed|exact par_proper|vm_compute; reflexivity|vm_compute; reflexivity]. }
  apply (C62_clockwise_partial cqF Z parD parS par_valid par_proper t (qv 2 1) par_corners 4 par_translations O); try reflexivity; try lia.
  - intros E. apply (f_equal (fun v : vec cqF => cqv (fst v))) in E. vm_compute in E. discriminate E.
  - exact par_chain.
  - intros i _. apply par_sharp.
Qed.
(** At the corner of 270 degrees of the L-shaped surface: the vector (1, -1) at (1, 1), turned clockwise by 199 degrees, has
    the direction (-1, 2) and is still in this corner. But the code turns on to another corner. *)
Theorem C62_reflex_refuted : ~ (forall (K : OField) (L : Type) (D : L -> Prop) (S : surface K L), valid D S -> closed D S -> (forall l P, D l -> s_poly S l = Ok P -> proper P) -> translations D S ->
  forall t w c m, tv_ok D S t -> w <> vzero -> m < 100 -> first_clockwise D S t w c m -> exists t' codes, vector_at S (c m) w t' /\ clockwise_to S t w = Ok (t', codes)).
Proof.
  intros H. specialize (H cqF Z ellD ellS ell_valid ell_closed ell_proper ell_translations).
  set (t := TVec (K := cqF) 0%Z (qv 1 1) (qv 1 (-1)) (AtVertex 4)).
  assert (O : tv_ok ellD ellS t) by (apply (tv_make ell) with (l := 0%Z) (p := qv 1 1) (v := qv 1 (-1)); [exact ell_valid|exact ell_closed|exact ell_proper|vm_compute; reflexivity|vm_compute; reflexivity]).
  destruct (H t (qv (-1) 2) (fun _ => (0%Z, 4)) 0 O) as [t' [codes [[P [_ ET]] E]]].
  - intros E. apply (f_equal (fun v : vec cqF => cqv (fst v))) in E. vm_compute in E. discriminate E.
  - lia.
  - split; [reflexivity|]. split; [reflexivity|]. split; [intros; lia|]. split; [|split; intros; lia].
    intros u v [Q [_ [GQ [_ [-> _]]]]]. change (Ok (hd [] (fst ell)) = Ok Q) in GQ. assert (Q = hd [] (fst ell)) as -> by congruence. split; [intros _|reflexivity].
    assert (N1 : edge (hd [] (fst ell)) 4 <> vzero) by (apply veqb_neq; vm_compute; reflexivity). assert (N2 : tv_vector t <> vzero) by (apply veqb_neq; vm_compute; reflexivity).
    split; [intros X; apply is_parallel_spec in X; vm_compute in X; discriminate X|].
    left. apply (is_between_spec _ _ _ N1 N2). vm_compute. reflexivity.
  - assert (X : match clockwise_to ellS t (qv (-1) 2) with Ok (u, _) => position_eqb (tv_position u) (AtVertex 4) | Err _ => false end = false) by (vm_compute; reflexivity).
    rewrite E, ET in X. discriminate X.
Qed.
Print Assumptions C62_reflex_refuted.

(** The pillowcase from two squares: all corners have 90 degrees. The vector (1, 1) at (0, 0), turned clockwise by 90 degrees, is
    in the other square. There the direction is (-1, 1), but the code uses (1, -1), which points out of the square. *)
Definition pillow : table cqF := ([[qv 0 0; qv 1 0; qv 1 1; qv 0 1]; [qv 0 0; qv 1 0; qv 1 1; qv 0 1]],
  [((0, 0), (1, 0)); ((0, 1), (1, 3)); ((0, 2), (1, 2)); ((0, 3), (1, 1))]).
Theorem C62_pillow_refuted : ~ (forall (K : OField) (L : Type) (D : L -> Prop) (S : surface K L), valid D S -> closed D S -> (forall l P, D l -> s_poly S l = Ok P -> proper P) -> (forall c, sharp D S c) ->
  forall t w, tv_ok D S t -> is_based_at_singularity t = true -> w <> vzero -> exists y, clockwise_to S t w = Ok y).
Proof.
  intros H. assert (PV : valid (fun l => zdom pillow l = true) (ztab pillow)) by (apply ztab_valid; vm_compute; reflexivity).
  assert (PC : closed (fun l => zdom pillow l = true) (ztab pillow)) by (apply ztab_closed; vm_compute; reflexivity).
  assert (PP : forall l P, zdom pillow l = true -> s_poly (ztab pillow) l = Ok P -> proper P) by (apply proper_of; vm_compute; reflexivity).
  set (t := TVec (K := cqF) 0%Z (qv 0 0) (qv 1 1) (AtVertex 0)).
  destruct (H cqF Z (fun l => zdom pillow l = true) (ztab pillow) PV PC PP) with (t := t) (w := qv 1 (-1)) as [y E].
  - intros [l k] u v [P [Dl [GP [Lk [-> ->]]]]]. cbn [fst snd] in *. assert (EP : P = hd [] (fst pillow)).
    { unfold zdom in Dl. apply andb_true_iff in Dl as [A B]. apply Z.leb_le in A. apply Nat.ltb_lt in B. cbn [pillow fst length] in B. assert (L : l = 0%Z \/ l = 1%Z) by lia.
      destruct L as [-> | ->]; [change (Ok (hd [] (fst pillow)) = Ok P) in GP; congruence|change (Ok (hd [] (fst pillow)) = Ok P) in GP; congruence]. }
    rewrite EP in *. cbn [pillow fst hd length] in Lk. do 4 (destruct k as [|k]; [vm_compute; reflexivity|]). lia.
  - apply (tv_make pillow) with (l := 0%Z) (p := qv 0 0) (v := qv 1 1); [exact PV|exact PC|exact PP|vm_compute; reflexivity|vm_compute; reflexivity].
  - reflexivity.
  - intros E. apply (f_equal (fun v : vec cqF => cqv (fst v))) in E. vm_compute in E. discriminate E.
  - assert (X : lazy_error (clockwise_to (ztab pillow) t (qv 1 (-1))) = Some ValueError) by (vm_compute; reflexivity). rewrite E in X. discriminate X.
Qed.
Print Assumptions C62_pillow_refuted.
