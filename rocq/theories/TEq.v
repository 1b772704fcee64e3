(** Theorems C48: comparison and hashing of surfaces. *)
From Coq Require Import List Bool ZArith Lia.
From Verif Require Import MBase MDict PDict MMut SMut PMut PMut2 PMut3 TMut MEq PEq.
Import ListNotations.
Local Open Scope Z_scope.

Section T.
Context {P : Type} `{EqB P} (nv : P -> nat).
Implicit Types s t u : @surf P.

(** [==] is an equivalence relation, for mutable and immutable surfaces *)
Theorem C48_equivalence :
  (forall s, intact nv s -> surf_eqb s s = true) /\
  (forall s t, intact nv s -> intact nv t -> surf_eqb s t = true -> surf_eqb t s = true) /\
  (forall s t u, intact nv s -> intact nv t -> intact nv u -> surf_eqb s t = true -> surf_eqb t u = true -> surf_eqb s u = true).
Proof.
  split; [|split].
  - intros s I. apply intact_good in I. apply (surf_eqb_ok nv); auto. apply same_refl.
  - intros s t I J. apply intact_good in I, J. rewrite !(surf_eqb_ok nv) by auto. apply same_sym.
  - intros s t u I J L. apply intact_good in I, J, L. rewrite !(surf_eqb_ok nv) by auto. apply same_trans.
Qed.
(** equal surfaces (mutable or not) have the same polygons, gluings, roots, and iterate in the same order *)
Theorem C48_equal_view s t : intact nv s -> intact nv t -> surf_eqb s t = true ->
  same_view nv s t /\ mutable s = mutable t /\ iter_labels nv s = iter_labels nv t /\ iter_gluings nv s = iter_gluings nv t.
Proof.
  intros I J E. apply intact_good in I, J. apply (surf_eqb_ok nv) in E; auto. split.
  - constructor; intros; [apply same_polygon|apply same_opposite|apply same_roots]; auto.
  - split; [apply E|]. split; symmetry; [apply same_labels|apply same_gluings_iter]; auto.
Qed.
(** immutable surfaces are equal as soon as they have the same polygons, gluings and roots: how they were built does not matter *)
Theorem C48_view_equal s t : intact nv s -> intact nv t -> mutable s = false -> mutable t = false ->
  (surf_eqb s t = true <-> same_view nv s t).
Proof.
  intros I J Mu Mu'. split; [intros E; now apply C48_equal_view|]. intros V. apply intact_good in I, J.
  apply (surf_eqb_ok nv); auto. now apply (view_same nv).
Qed.
(** whatever the builtin hash of tuples is, immutable surfaces have a hash and it is the same for equal surfaces;
    mutable surfaces have none *)
Theorem C48_hash {H1 H2} (h1 : list label * list P * list label -> H1) (h2 : H1 * list (hedge * hedge) -> H2) s :
  intact nv s ->
  (mutable s = true -> surf_hash nv h1 h2 s = Err TypeError) /\
  (mutable s = false -> exists v, surf_hash nv h1 h2 s = Ok v /\
     forall t, intact nv t -> surf_eqb s t = true -> surf_hash nv h1 h2 t = Ok v).
Proof.
  intros I. pose proof (intact_good nv s I) as G. split; intros Mu; unfold surf_hash; rewrite Mu; [reflexivity|].
  destruct (iter_labels_spec nv s G) as [ls [E [ND LI]]].
  destruct (C08_iteration nv s I) as [es [gs [_ [E' _]]]].
  assert (exists ps, iter_polygons nv s = Ok ps) as [ps E''].
  { unfold iter_polygons. rewrite E. apply rmap_total. intros l Hl. apply LI, dget_keys in Hl as [p Hp]. exists p.
    now apply dgetE_Ok. }
  exists (h2 (h1 (ls, ps, roots_ s), gs)). split; [unfold polygonal_hash; now rewrite Mu, E, E'', E'|].
  intros t J Q. apply intact_good in J. apply (surf_eqb_ok nv) in Q; auto.
  unfold polygonal_hash. rewrite <- (sm_mut _ _ Q), Mu.
  rewrite (same_labels nv s t) by auto. rewrite E. rewrite (same_polygons_iter nv s t) by auto. rewrite E''.
  rewrite (same_gluings_iter nv s t) by auto. rewrite E'. now rewrite <- (sm_roots _ _ Q).
Qed.
End T.
Print Assumptions C48_equivalence.
Print Assumptions C48_equal_view.
Print Assumptions C48_view_equal.
Print Assumptions C48_hash.

(** *** examples: polygons are pairs of a number of edges and a name *)
Local Notation go := (fun ops => run (P := nat * nat) fst ops empty).
Definition ex_a := go [OpAdd (4, 0)%nat (Some 0); OpAdd (4, 1)%nat (Some 1); OpGlue (0, 1) (1, 3); OpSetImmutable].
Definition ex_b := go [OpAdd (4, 1)%nat (Some 1); OpAdd (4, 0)%nat (Some 0); OpGlue (0, 2) (1, 3); OpGlue (1, 3) (0, 1); OpSetImmutable].
Definition ex_c := go [OpAdd (4, 0)%nat (Some 0); OpAdd (4, 1)%nat (Some 1); OpGlue (0, 1) (1, 3); OpSetRoot 1; OpSetImmutable].
(** other order of insertion: equal; other root: not equal *)
Example ex_compare : surf_eqb ex_a ex_b = true /\ polys ex_a <> polys ex_b /\ surf_eqb ex_a ex_c = false /\
  surf_hash fst (fun x => x) (fun x => x) ex_a = Ok (([0; 1], [(4, 0); (4, 1)]%nat, [0]), [((0, 1), (1, 3)); ((1, 3), (0, 1))]) /\
  surf_hash fst (fun x => x) (fun x => x) ex_b = surf_hash fst (fun x => x) (fun x => x) ex_a.
Proof. vm_compute. repeat split; discriminate. Qed.
Lemma ex_intact : intact fst ex_a /\ intact fst ex_b.
Proof. split; unfold ex_a, ex_b, run; cbn [fold_left]; repeat (apply intact_op; [|cbn; try lia; auto|cbn; auto]); apply intact_empty. Qed.
