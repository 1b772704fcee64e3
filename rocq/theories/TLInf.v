(** C74: the polytope of a marked triangulation and the cell of the L-infinity Delaunay triangulation. *)
From Coq Require Import List Bool ZArith QArith Arith Lia Ring Field.
From Verif Require Import OField FMicromega MBase MDict PDict MEuclid MTV PTV MLInf SLInf PLInf PLInf2 PLInf3.
Import ListNotations.
Local Open Scope nat_scope.

(** a right vertex and a left vertex, in some order *)
Definition sideways (m m' : marking) : Prop := (m = MRight /\ m' = MLeft) \/ (m = MLeft /\ m' = MRight).
Section T.
Context {K : OField}.
Add Field KFT : (of_ft K).
Local Open Scope F_scope.

(** The equations, the conditions on the signs and the conditions for bottom-top pairs hold if and only if the coordinates
    are the ones of the edges of a surface with the given markings all of whose edges are Delaunay except possibly those
    between a right and a left vertex. Without such edges, the polytope is the cell. What is missing is the condition for
    the other edges, which is wrong, see [C74_right_left_refuted]. *)
Theorem C74_polytope_partial n ids types t (x : nat -> K) : make_linf n ids types = Ok t -> paired n (opp_of ids) ->
  (forall p e, (p < n)%nat -> (e < 3)%nat -> compatible (mark_of types p e) (mark_of types p ((e + 1) mod 3)%nat)) ->
  (forall i, (i < 6 * n)%nat -> x i <> 0) ->
  exists eqns si bt rl, li_eqns t = Ok eqns /\ li_signs t = Ok si /\ li_bottom_top t = Ok bt /\ li_right_left t = Ok rl /\ li_polytope t = Ok (eqns, si ++ bt ++ rl) /\
  (in_polyhedron (6 * n) eqns (si ++ bt) x <-> marked_surface n (opp_of ids) (mark_of types) (E x) /\
    forall p e, (p < n)%nat -> (e < 3)%nat -> (let '(q, f) := across (opp_of ids) p e in ~ sideways (mark_of types p e) (mark_of types q f)) -> edge_is_delaunay (opp_of ids) (E x) p e) /\
  ((forall p e, (p < n)%nat -> (e < 3)%nat -> let '(q, f) := across (opp_of ids) p e in ~ sideways (mark_of types p e) (mark_of types q f)) -> rl = []).
Proof.
  intros MK PR CP NZ. destruct (eqns_ok n ids types t MK x PR) as (eqns & Q1 & QE). destruct (signs_ok n ids types t MK x CP) as (si & Q2 & QS). destruct (bt_ok n ids types t MK x PR) as (bt & Q3 & QB).
  destruct (rl_total (K := K) n ids types t MK PR) as (rl & Q4). exists eqns, si, bt, rl. do 4 (split; [assumption|]). split; [unfold li_polytope; now rewrite Q1, Q2, Q3, Q4|]. split.
  - assert (SP : in_polyhedron (6 * n) eqns (si ++ bt) x <-> (forall f, In f eqns -> form_eval (6 * n) f x = 0) /\ (forall f, In f si -> 0 <= form_eval (6 * n) f x) /\ (forall f, In f bt -> 0 <= form_eval (6 * n) f x)).
    { unfold in_polyhedron. split; intros [A B]; [split; auto; split; intros f Hf; apply B; apply in_or_app; auto|]. destruct B as [B C]. split; auto. intros f Hf. apply in_app_or in Hf. destruct Hf; auto. }
    rewrite SP, QE, QS, QB. clear SP QE QS QB.
    assert (TM : forall p e, (p < n)%nat -> (e < 3)%nat -> (ty types p e = V_BOT <-> mark_of types p e = MBottom) /\ (ty types p e = V_TOP <-> mark_of types p e = MTop)).
    { intros p e Hp He. rewrite mark_ty. pose proof (ty_case n ids types t MK p e Hp He) as T. cbn [In] in T. unfold V_BOT, V_TOP. destruct T as [Q|[Q|[Q|[Q|[Q|[]]]]]]; rewrite <- Q; cbn; split; split; congruence. }
    split.
    + intros ((C1 & C2) & (C3 & C4) & C5). assert (MS : marked_surface n (opp_of ids) (mark_of types) (E x)) by (constructor; auto). split; auto.
      assert (BT : forall p e, (p < n)%nat -> (e < 3)%nat -> mark_of types p e = MBottom -> mark_of types (fst (across (opp_of ids) p e)) (snd (across (opp_of ids) p e)) = MTop -> edge_is_delaunay (opp_of ids) (E x) p e).
      { intros p e Hp He M1 M2. destruct (across_bounds n ids PR p e Hp He) as (B1 & B2 & _). apply (bt_delaunay n ids types x PR NZ MS); auto.
        specialize (C5 p e Hp He). destruct (across (opp_of ids) p e) as [q f]. cbn [fst snd] in *. apply C5; apply TM; auto. }
      intros p e Hp He NS. destruct (across_bounds n ids PR p e Hp He) as (B1 & B2 & _).
      assert (D : (mark_of types p e = MBottom /\ mark_of types (fst (across (opp_of ids) p e)) (snd (across (opp_of ids) p e)) = MTop) \/ (mark_of types p e = MTop /\ mark_of types (fst (across (opp_of ids) p e)) (snd (across (opp_of ids) p e)) = MBottom) \/
        ~ facing (mark_of types p e) (mark_of types (fst (across (opp_of ids) p e)) (snd (across (opp_of ids) p e)))).
      { destruct (across (opp_of ids) p e) as [q f]. cbn [fst snd] in *. unfold sideways in NS. destruct (mark_of types p e); destruct (mark_of types q f); cbn [facing]; tauto. }
      destruct D as [[M1 M2]|[[M1 M2]|D]]; auto.
      * apply (edge_other n ids types x PR MS); auto. apply BT; auto. destruct (edge_opp n ids types x PR MS p e Hp He) as (_ & _ & ->). auto.
      * now apply (auto_edge n ids types t MK x PR CP MS).
    + intros (MS & D). split; [split; [apply (ms_close _ _ _ _ MS)|apply (ms_opposite _ _ _ _ MS)]|]. split; [split; [apply (ms_marked _ _ _ _ MS)|apply (ms_bounded _ _ _ _ MS)]|].
      intros p e Hp He. destruct (across_bounds n ids PR p e Hp He) as (B1 & B2 & _). specialize (D p e Hp He). pose proof (bt_delaunay n ids types x PR NZ MS p e Hp He) as L. destruct (across (opp_of ids) p e) as [q f]. cbn [fst snd] in *.
      intros T1 T2. apply TM in T1; auto. apply TM in T2; auto. apply L; auto. apply D. unfold sideways. rewrite T1, T2. intros [[]|[]]; congruence.
  - intros NS. unfold li_right_left in Q4. destruct (pairs_ok n ids types t MK PR V_RIGHT V_LEFT) as (l & L & I). unfold right_left_pairs in Q4. rewrite L in Q4. cbn [bind] in Q4.
    destruct l as [|[[[p e] q] f] l]; [cbn in Q4; congruence|]. exfalso. destruct (proj1 (I p e q f) (or_introl eq_refl)) as (Hp & He & T1 & A & T2). specialize (NS p e Hp He). rewrite <- A in NS. apply NS. left.
    unfold mark_of. unfold ty in T1, T2. rewrite T1, T2. split; reflexivity.
Qed.
(** membership, decided *)
Definition inb (dim : nat) (P : list form * list form) (x : nat -> K) : bool :=
  forallb (fun f => form_eval dim f x =? 0) (fst P) && forallb (fun f => negb (form_eval dim f x <? 0)) (snd P).
Lemma inb_ok dim P x : inb dim P x = true <-> in_polyhedron dim (fst P) (snd P) x.
Proof.
  unfold inb, in_polyhedron. rewrite andb_true_iff, !forallb_forall. split; intros [A B]; split; intros f Hf.
  - apply feqb_eq. auto.
  - specialize (B f Hf). apply negb_true_iff in B. exact B.
  - apply feqb_eq. auto.
  - apply negb_true_iff. apply (B f Hf).
Qed.
(** a surface satisfies the conditions other than the ones for the right-left pairs *)
Definition checkb (t : linf) (n : nat) (x : nat -> K) : bool :=
  match li_eqns t, li_signs t, li_bottom_top t with Ok a, Ok b, Ok c => inb (6 * n) (a, b ++ c) x | _, _, _ => false end.
(** The documentation's example is accepted although every surface with such markings is degenerate. *)
Definition doc_types : list (list Z) := [[V_BOT; V_NONE; V_RIGHT]; [V_NONE; V_LEFT; V_TOP]].
Definition doc_ids : dict (nat * nat) (nat * nat) := [((0, 0), (1, 2)); ((1, 2), (0, 0)); ((0, 1), (1, 0)); ((1, 0), (0, 1)); ((0, 2), (1, 1)); ((1, 1), (0, 2))]%nat.
Theorem C74_types_refuted : (exists t, make_linf 2 doc_ids doc_types = Ok t) /\ paired 2 (opp_of doc_ids) /\
  forall E : nat -> nat -> vec K, marked_surface 2 (opp_of doc_ids) (mark_of doc_types) E -> forall p e, (p < 2)%nat -> (e < 3)%nat -> E p e = (0, 0).
Proof.
  split; [eexists; vm_compute; reflexivity|]. split.
  - intros p e Hp He. destruct p as [|[|]]; [| |lia]; destruct e as [|[|[|]]]; try lia; cbn; repeat split; auto; lia.
  - intros E0 MS. pose proof (ms_close _ _ _ _ MS 0%nat ltac:(lia)) as C0. pose proof (ms_close _ _ _ _ MS 1%nat ltac:(lia)) as C1.
    pose proof (ms_marked _ _ _ _ MS 0%nat 0%nat ltac:(lia) ltac:(lia)) as M0. pose proof (ms_marked _ _ _ _ MS 0%nat 2%nat ltac:(lia) ltac:(lia)) as M2.
    pose proof (ms_marked _ _ _ _ MS 1%nat 1%nat ltac:(lia) ltac:(lia)) as N1. pose proof (ms_marked _ _ _ _ MS 1%nat 2%nat ltac:(lia) ltac:(lia)) as N2.
    cbn in M0, M2, N1, N2. unfold vplus in C0, C1. apply pair_equal_spec in C0. apply pair_equal_spec in C1. destruct C0, C1. cbn [fst snd] in *.
    destruct M0 as (? & ? & ? & ?), M2 as (? & ? & ? & ?), N1 as (? & ? & ? & ?), N2 as (? & ? & ? & ?).
    intros p e Hp He. apply veq; destruct p as [|[|]]; try lia; destruct e as [|[|[|]]]; try lia; cbn [fst snd]; flra.
Qed.
End T.

Section W.
Context {K : OField}.
Local Open Scope F_scope.
Variables (n : nat) (ids : dict (nat * nat) (nat * nat)) (types : list (list Z)) (t : linf) (x : nat -> K).
Hypothesis MK : make_linf n ids types = Ok t.
Hypothesis PR : paired n (opp_of ids).
Hypothesis CP : forall p e, (p < n)%nat -> (e < 3)%nat -> compatible (mark_of types p e) (mark_of types p ((e + 1) mod 3)%nat).
Lemma check_surface : (forallb (fun i => negb (x i =? 0)) (seq 0 (6 * n))) = true -> checkb t n x = true ->
  (forall i, (i < 6 * n)%nat -> x i <> 0) /\ marked_surface n (opp_of ids) (mark_of types) (E x) /\
    forall p e, (p < n)%nat -> (e < 3)%nat -> (let '(q, f) := across (opp_of ids) p e in ~ sideways (mark_of types p e) (mark_of types q f)) -> edge_is_delaunay (opp_of ids) (E x) p e.
Proof.
  intros Z C. assert (NZ : forall i, (i < 6 * n)%nat -> x i <> 0).
  { intros i Hi Q. rewrite forallb_forall in Z. specialize (Z i ltac:(apply in_seq; lia)). apply negb_true_iff in Z. apply feqb_eq in Q. congruence. }
  split; auto. destruct (C74_polytope_partial n ids types t x MK PR CP NZ) as (eqns & si & bt & rl & Q1 & Q2 & Q3 & Q4 & _ & P & _). apply P. unfold checkb in C. rewrite Q1, Q2, Q3 in C. apply inb_ok in C. exact C.
Qed.
(** the condition for a right-left pair in terms of the coordinates *)
Lemma check_right_left p e b : (forall i, (i < 6 * n)%nat -> x i <> 0) -> marked_surface n (opp_of ids) (mark_of types) (E x) -> (p < n)%nat -> (e < 3)%nat -> mark_of types p e = MRight -> mark_of types (fst (across (opp_of ids) p e)) (snd (across (opp_of ids) p e)) = MLeft ->
  (fst (E x (fst (across (opp_of ids) p e)) (snd (across (opp_of ids) p e))) + fst (E x p ((e + 2) mod 3)%nat) <? snd (E x (fst (across (opp_of ids) p e)) ((snd (across (opp_of ids) p e) + 1) mod 3)%nat)) = b ->
  if b then ~ edge_is_delaunay (opp_of ids) (E x) p e else edge_is_delaunay (opp_of ids) (E x) p e.
Proof.
  intros NZ MS Hp He M1 M2 B. pose proof (rl_delaunay n ids types x PR NZ MS p e Hp He M1 M2) as L. destruct b.
  - intros D. apply L in D. unfold fle in D. congruence.
  - apply L. exact B.
Qed.
End W.

(** The condition for right-left pairs is wrong: it excludes surfaces all of whose edges are Delaunay and it does not
    exclude surfaces with an edge that is not Delaunay. *)
Definition torus_types : list (list Z) := [[V_BOT; V_NONE; V_LEFT]; [V_NONE; V_RIGHT; V_TOP]].
Definition torus_x : nat -> cqF := fun i => nth i (map Q2cq ([1#2; 1; -1; -3#4; 1#2; -1#4; 1; 3#4; -1#2; 1#4; -1#2; -1])%Q) (Q2cq 0).
Definition swapped_types : list (list Z) := [[V_NONE; V_RIGHT; V_TOP]; [V_BOT; V_NONE; V_LEFT]].
Definition swapped_ids : dict (nat * nat) (nat * nat) := [((1, 0), (0, 2)); ((0, 2), (1, 0)); ((1, 1), (0, 0)); ((0, 0), (1, 1)); ((1, 2), (0, 1)); ((0, 1), (1, 2))].
Definition swapped_x : nat -> cqF := fun i => nth i (map Q2cq ([1#2; 1#4; -1#8; 1#2; -3#8; -3#4; 3#8; 3#4; -1#2; -1#4; 1#8; -1#2])%Q) (Q2cq 0).
Definition polytope_b (t : linf) (n : nat) (x : nat -> cqF) : bool := match li_polytope t with Ok P => inb (6 * n) P x | Err _ => false end.
Lemma torus_paired : paired 2 (opp_of doc_ids).
Proof. intros p e Hp He. destruct p as [|[|]]; [| |lia]; destruct e as [|[|[|]]]; try lia; cbn; repeat split; auto; lia. Qed.
Lemma swapped_paired : paired 2 (opp_of swapped_ids).
Proof. intros p e Hp He. destruct p as [|[|]]; [| |lia]; destruct e as [|[|[|]]]; try lia; cbn; repeat split; auto; lia. Qed.
Lemma torus_compatible p e : p < 2 -> e < 3 -> compatible (mark_of torus_types p e) (mark_of torus_types p ((e + 1) mod 3)).
Proof. intros Hp He. destruct p as [|[|]]; [| |lia]; destruct e as [|[|[|]]]; try lia; exact I. Qed.
Lemma swapped_compatible p e : p < 2 -> e < 3 -> compatible (mark_of swapped_types p e) (mark_of swapped_types p ((e + 1) mod 3)).
Proof. intros Hp He. destruct p as [|[|]]; [| |lia]; destruct e as [|[|[|]]]; try lia; exact I. Qed.
Theorem C74_right_left_refuted :
  (exists n ids types t (x : nat -> cqF), make_linf n ids types = Ok t /\ marked_surface n (opp_of ids) (mark_of types) (E x) /\ (forall i, i < 6 * n -> x i <> (@f0 cqF)) /\
    (forall p e, p < n -> e < 3 -> edge_is_delaunay (opp_of ids) (E x) p e) /\ exists P, li_polytope t = Ok P /\ ~ in_polyhedron (6 * n) (fst P) (snd P) x) /\
  (exists n ids types t (x : nat -> cqF), make_linf n ids types = Ok t /\ marked_surface n (opp_of ids) (mark_of types) (E x) /\ (forall i, i < 6 * n -> x i <> (@f0 cqF)) /\
    (exists P, li_polytope t = Ok P /\ in_polyhedron (6 * n) (fst P) (snd P) x) /\ exists p e, p < n /\ e < 3 /\ ~ edge_is_delaunay (opp_of ids) (E x) p e).
Proof.
  split.
  - exists 2, doc_ids, torus_types, (LI 2 doc_ids torus_types), torus_x. assert (MK : make_linf 2 doc_ids torus_types = Ok (LI 2 doc_ids torus_types)) by (vm_compute; reflexivity). split; auto.
    destruct (check_surface 2 doc_ids torus_types _ torus_x MK torus_paired torus_compatible) as (NZ & MS & D); [vm_compute; reflexivity|vm_compute; reflexivity|].
    split; auto. split; auto. split.
    + assert (R : edge_is_delaunay (opp_of doc_ids) (E torus_x) 1 1) by (apply (check_right_left 2 doc_ids torus_types torus_x torus_paired 1 1 false NZ MS); try lia; vm_compute; reflexivity).
      intros p e Hp He. destruct p as [|[|]]; [| |lia]; destruct e as [|[|[|]]]; try lia; auto;
        try (apply D; [lia|lia|vm_compute; intros [[]|[]]; discriminate]).
      apply (edge_other 2 doc_ids torus_types torus_x torus_paired MS 0 2); try lia. exact R.
    + destruct (C74_polytope_partial 2 doc_ids torus_types _ torus_x MK torus_paired torus_compatible NZ) as (eqns & si & bt & rl & _ & _ & _ & _ & L & _). eexists. split; [exact L|].
      intros H. apply inb_ok in H. assert (F : polytope_b (LI 2 doc_ids torus_types) 2 torus_x = false) by (vm_compute; reflexivity). unfold polytope_b in F. rewrite L in F. congruence.
  - exists 2, swapped_ids, swapped_types, (LI 2 swapped_ids swapped_types), swapped_x. assert (MK : make_linf 2 swapped_ids swapped_types = Ok (LI 2 swapped_ids swapped_types)) by (vm_compute; reflexivity). split; auto.
    destruct (check_surface 2 swapped_ids swapped_types _ swapped_x MK swapped_paired swapped_compatible) as (NZ & MS & D); [vm_compute; reflexivity|vm_compute; reflexivity|].
    split; auto. split; auto. split.
    + destruct (C74_polytope_partial 2 swapped_ids swapped_types _ swapped_x MK swapped_paired swapped_compatible NZ) as (eqns & si & bt & rl & _ & _ & _ & _ & L & _). eexists. split; [exact L|].
      apply inb_ok. assert (F : polytope_b (LI 2 swapped_ids swapped_types) 2 swapped_x = true) by (vm_compute; reflexivity). unfold polytope_b in F. now rewrite L in F.
    + exists 0, 1. split; [lia|]. split; [lia|]. apply (check_right_left 2 swapped_ids swapped_types swapped_x swapped_paired 0 1 true NZ MS); try lia; vm_compute; reflexivity.
Qed.

Example C74_ex : exists t, make_linf 2 doc_ids torus_types = Ok t /\ paired 2 (opp_of doc_ids) /\ (forall p e, p < 2 -> e < 3 -> compatible (mark_of torus_types p e) (mark_of torus_types p ((e + 1) mod 3))) /\
  bottom_top_pairs t = Ok [(0, 0, 1, 2)] /\ right_left_pairs t = Ok [(1, 1, 0, 2)] /\ length doc_ids = 6 /\ (polytope_b t 2 torus_x, checkb t 2 torus_x) = (false, true).
Proof. eexists. split; [vm_compute; reflexivity|]. split; [exact torus_paired|]. split; [exact torus_compatible|]. vm_compute. auto. Qed.
Print Assumptions C74_polytope_partial.
Print Assumptions C74_types_refuted.
Print Assumptions C74_right_left_refuted.
