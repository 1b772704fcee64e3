(** Theorems C42 and C53: relabelling and copying. *)
From Coq Require Import List Bool ZArith Lia.
From Verif Require Import MBase MDict PDict MMut SMut PMut PMut2 PMut3 PGlue PBuild MEq PEq MRelabel SRelabel PRelabel TMut.
Import ListNotations.
Local Open Scope Z_scope.

Lemma relabelled_ext {P} (nv : P -> nat) s f f' poly opp roots : good nv s -> (forall l, is_label s l -> f l = f' l) ->
  relabelled nv s f poly opp roots -> relabelled nv s f' poly opp roots.
Proof.
  intros G E [A B C D F H]. pose proof (g_inv nv s G) as Iv. constructor.
  - intros l l' Hl Hl'. rewrite <- !E by auto. auto.
  - intros l p X. rewrite <- E by (now exists p). auto.
  - intros l' p X. destruct (C l' p X) as [l [Y ->]]. exists l. split; auto.
  - intros x y X. rewrite <- !E; auto; [|exact (edge_label nv s _ (proj1 X))].
    apply (edge_label nv s y). apply (glued_gz nv s _ _ Iv) in X. apply (i_inv nv s Iv) in X. apply (glued_gz nv s _ _ Iv) in X. apply X.
  - intros x X. rewrite <- E by exact (edge_label nv s _ (proj1 X)). auto.
  - intros rs X. rewrite (H rs X). f_equal. apply map_ext_in. intros r Hr. apply E. apply is_label_keys.
    destruct (get_roots_spec nv s G) as [d [E' [[T1 _ _ _] _]]]. rewrite X in E'. injection E' as ->. now apply T1.
Qed.

Section T.
Context {P : Type} (nv : P -> nat).
Implicit Types s t : @surf P.

(** An injective relabelling of a mutable surface (with any roots, connected or not, with or without boundary) succeeds;
    the result is the surface with its labels replaced, in the given order of iteration. *)
Theorem C42_relabel s d : intact nv s -> mutable s = true ->
  (forall l l', is_label s l -> is_label s l' -> relabel_get d l = relabel_get d l' -> l = l') ->
  exists s', relabel nv d s = (s', Ok tt) /\ intact nv s' /\ mutable s' = true /\
    relabelled nv s (relabel_get d) (get_polygon s') (opposite_edge s') (get_roots nv s').
Proof.
  intros I Mu J. destruct (relabel_main nv s d (intact_good nv s I) Mu J) as (s' & E & G & M' & R & L & _).
  exists s'. split; auto. split; auto. apply reachable_intact; auto. apply R. now apply intact_reachable.
Qed.
(** every other relabelling raises *)
Theorem C42_clash s d l l' : intact nv s -> mutable s = true -> is_label s l -> is_label s l' -> l <> l' ->
  relabel_get d l = relabel_get d l' -> exists s', relabel nv d s = (s', Err ValueError).
Proof. intros I Mu. apply relabel_clash; auto. now apply intact_good. Qed.
(** the relabelling can be given as a function *)
Theorem C42_function s f : intact nv s -> mutable s = true ->
  (forall l l', is_label s l -> is_label s l' -> f l = f l' -> l = l') ->
  exists s', relabel_fun nv f s = (s', Ok tt) /\ intact nv s' /\ mutable s' = true /\
    relabelled nv s f (get_polygon s') (opposite_edge s') (get_roots nv s').
Proof.
  intros I Mu J. pose proof (intact_good nv s I) as G. destruct (iter_labels_spec nv s G) as [ls [EL [ND LI]]].
  set (d := map (fun l => (l, f l)) ls).
  assert (D : forall l, is_label s l -> relabel_get d l = f l).
  { intros l Hl. apply is_label_keys, LI in Hl. unfold relabel_get, d. clear - Hl. induction ls as [|a ls IH]; [destruct Hl|].
    cbn [map dget]. destruct (eqb_case l a) as [[Q ->]|[Q N]]; rewrite Q; auto. destruct Hl; [congruence|auto]. }
  destruct (C42_relabel s d I Mu) as (s' & E & I' & M' & R).
  { intros l l' Hl Hl'. rewrite !D by auto. auto. }
  exists s'. split; [unfold relabel_fun; rewrite (mbind_ok (mread (iter_labels nv)) _ s s ls) by (unfold mread; now rewrite EL); exact E|].
  split; auto. split; auto. now apply (relabelled_ext nv s (relabel_get d) f).
Qed.
(** without relabelling the labels become 0, 1, ... in the order of [labels()]; this never fails *)
Theorem C42_enumerate s : intact nv s -> mutable s = true ->
  exists ls s', iter_labels nv s = Ok ls /\ relabel_none nv s = (s', Ok tt) /\ intact nv s' /\ mutable s' = true /\
    exists f, relabelled nv s f (get_polygon s') (opposite_edge s') (get_roots nv s') /\
      forall k l, nth_error ls k = Some l -> f l = Z.of_nat k.
Proof.
  intros I Mu. pose proof (intact_good nv s I) as G. destruct (iter_labels_spec nv s G) as [ls [EL [ND LI]]].
  set (d := map (fun il => (snd il, fst il)) (enumerate ls)).
  assert (D : forall k l, nth_error ls k = Some l -> relabel_get d l = Z.of_nat k).
  { intros k l Hk. unfold relabel_get, d, enumerate.
    assert (X : forall a, dget l (map (fun il => (snd il, fst il)) (combine (map Z.of_nat (seq a (length ls))) ls)) = Some (Z.of_nat (a + k))).
    { clear - ND Hk. revert k Hk. induction ls as [|b ls IH]; intros k Hk a; [destruct k; discriminate|].
      inversion ND; subst. cbn [length seq map combine dget fst snd]. destruct k as [|k]; cbn in Hk.
      - injection Hk as ->. rewrite eqb_refl. f_equal. lia.
      - rewrite (proj2 (eqb_neq l b)) by (intros ->; apply nth_error_In in Hk; auto). rewrite (IH H2 k Hk). f_equal. lia. }
    rewrite X. reflexivity. }
  destruct (C42_relabel s d I Mu) as (s' & E & I' & M' & R).
  { intros l l' Hl Hl' E. apply is_label_keys, LI, In_nth_error in Hl as [k Hk]. apply is_label_keys, LI, In_nth_error in Hl' as [k' Hk'].
    rewrite (D _ _ Hk), (D _ _ Hk') in E. assert (k = k') by lia. congruence. }
  exists ls, s'. split; auto. split; [unfold relabel_none; rewrite (mbind_ok (mread (iter_labels nv)) _ s s ls) by (unfold mread; now rewrite EL); exact E|].
  split; auto. split; auto. exists (relabel_get d). auto.
Qed.
(** [LazyRelabeledSurface]: labels are exactly [0 .. n-1], numbered in the order of [labels()] *)
Theorem C42_lazy s : intact nv s -> exists ls f, iter_labels nv s = Ok ls /\
  relabelled nv s f (lazy_polygon nv s) (lazy_opposite nv s) (lazy_roots nv s) /\
  (forall k l, nth_error ls k = Some l -> f l = Z.of_nat k) /\
  (forall k, (exists p, lazy_polygon nv s k = Ok p) <-> 0 <= k < Z.of_nat (length ls)).
Proof.
  intros I. pose proof (intact_good nv s I) as G. destruct (lazy_main nv s G) as (ls & E & R & K). exists ls, (position ls).
  split; auto. split; auto. split; auto. intros k l Hk. apply position_nth; [|lia|now rewrite Nat2Z.id].
  destruct (iter_labels_spec nv s G) as [ls' [EL [ND _]]]. congruence.
Qed.

(** ** C53 *)
(** a copy of the part of a surface with the labels [ls] *)
Theorem C53_restriction s ls : intact nv s -> NoDup ls -> (forall l, In l ls -> is_label s l) ->
  exists s', from_surface nv s (Some ls) empty = (s', Ok tt) /\ intact nv s' /\ mutable s' = true /\
    (forall l, get_polygon s' l = if mem l ls then get_polygon s l else Err KeyError) /\
    (forall x y, glued nv s' x y <-> glued nv s x y /\ In (fst x) ls /\ In (fst y) ls) /\
    roots_ s' = filter (fun r => mem r ls) (roots_ s).
Proof.
  intros I ND LL. destruct (from_surface_main nv s ls (intact_good nv s I) ND LL) as (s' & E & G & M & R & H).
  exists s'. split; auto. split; [now apply reachable_intact|]. auto.
Qed.
(** a full copy: everything that can be observed is the same, and a copy of a mutable surface is equal to it *)
Theorem C53_copy `{EqB P} s : intact nv s ->
  exists s', from_surface nv s None empty = (s', Ok tt) /\ intact nv s' /\ mutable s' = true /\ same_view nv s s' /\
    (mutable s = true -> surf_eqb s s' = true) /\
    (mutable s = false -> surf_eqb s s' = false /\ surf_eqb s (fst (set_immutable nv s')) = true).
Proof.
  intros I. pose proof (intact_good nv s I) as G. destruct (copy_main nv s G) as (s' & E & G' & M & R & V & RO & DP & DG).
  assert (I' : intact nv s') by now apply reachable_intact.
  exists s'. split; auto. split; auto. split; auto. split; auto. split.
  - intros Mu. apply (surf_eqb_ok nv); auto. constructor; auto. congruence.
  - intros Mu. split.
    + destruct (surf_eqb s s') eqn:X; auto. apply (surf_eqb_ok nv) in X; auto. pose proof (sm_mut _ _ X). congruence.
    + destruct (set_immutable_spec nv s' G') as (s2 & rs & c & E2 & E3 & -> & G2). rewrite E2. cbn [fst]. apply (surf_eqb_ok nv); auto.
      constructor; cbn; auto. pose proof (sv_roots _ _ _ V) as X. rewrite E3 in X. destruct (get_roots_spec nv s G) as [d [E4 [_ [_ D]]]].
      rewrite (D Mu), app_nil_r in E4. congruence.
Qed.
End T.
Print Assumptions C42_relabel.
Print Assumptions C42_clash.
Print Assumptions C42_function.
Print Assumptions C42_enumerate.
Print Assumptions C42_lazy.
Print Assumptions C53_restriction.
Print Assumptions C53_copy.

(** *** examples: polygons are pairs of a number of edges and a name *)
Local Notation go := (fun ops => run (P := nat * nat) fst ops empty).
Definition ex_s := go [OpAdd (4, 0)%nat (Some 0); OpAdd (3, 1)%nat (Some 5); OpAdd (4, 2)%nat (Some 1); OpGlue (0, 1) (5, 2); OpGlue (0, 0) (0, 2); OpSetRoots [5; 1]].
Lemma ex_s_intact : intact fst ex_s.
Proof. unfold ex_s, run; cbn [fold_left]; repeat (apply intact_op; [|cbn; try lia; auto|cbn; auto]); apply intact_empty. Qed.
(** labels 0 and 5 are exchanged, 1 becomes 7 *)
Example ex_relabel : let s' := fst (relabel fst [(0, 5); (5, 0); (1, 7)] ex_s) in
  snd (relabel fst [(0, 5); (5, 0); (1, 7)] ex_s) = Ok tt /\ get_polygon s' 5 = Ok (4, 0)%nat /\ get_polygon s' 0 = Ok (3, 1)%nat /\
  opposite_edge s' 5 1 = Ok (Some (0, 2)) /\ opposite_edge s' 5 2 = Ok (Some (5, 0)) /\ get_roots fst s' = Ok [0; 7] /\
  snd (relabel fst [(0, 1)] ex_s) = Err ValueError /\
  lazy_opposite fst ex_s 0 2 = Ok (Some (1, 1)) /\ lazy_roots fst ex_s = Ok [0; 2].
Proof. vm_compute. repeat split. Qed.
Example ex_copy : let s' := fst (from_surface fst ex_s (Some [0; 1]) empty) in
  snd (from_surface fst ex_s (Some [0; 1]) empty) = Ok tt /\ opposite_edge s' 0 1 = Ok None /\ opposite_edge s' 0 0 = Ok (Some (0, 2)) /\
  roots_ s' = [1] /\ surf_eqb ex_s (fst (from_surface fst ex_s None empty)) = true.
Proof. vm_compute. repeat split. Qed.
(** Finding: a call of [relabel] that raises has already removed polygons and gluings. *)
Theorem C42_failed_call_refuted : exists s d, intact fst s /\ mutable s = true /\
  snd (relabel (P := nat * nat) fst d s) = Err ValueError /\ ~ same_view fst s (fst (relabel fst d s)).
Proof.
  exists ex_s, [(0, 1)]. split; [apply ex_s_intact|]. split; [vm_compute; reflexivity|]. split; [vm_compute; reflexivity|].
  intros [V _ _]. specialize (V 0). vm_compute in V. discriminate.
Qed.
Print Assumptions C42_failed_call_refuted.
