(** Proofs about comparison of surfaces. *)
From Coq Require Import List Bool ZArith Lia Permutation.
From Verif Require Import MBase MDict PDict MMut SMut PMut PMut2 PMut3 MEq.
Import ListNotations.

Lemma list_eqb_ok {A} (e : A -> A -> bool) : (forall x y, e x y = true <-> x = y) -> forall l l', list_eqb e l l' = true <-> l = l'.
Proof.
  intros E. induction l as [|x l IH]; intros [|y l']; cbn; try easy.
  rewrite andb_true_iff, E, IH. split; [intros [-> ->]; auto|injection 1; auto].
Qed.
Lemma opt_eqb_ok {A} (e : A -> A -> bool) : (forall x y, e x y = true <-> x = y) -> forall l l', opt_eqb e l l' = true <-> l = l'.
Proof. intros E [x|] [y|]; cbn; try easy. rewrite E. split; [intros ->; auto|injection 1; auto]. Qed.

Section D.
Context {A B : Type} `{EqB A} (e : B -> B -> bool).
Hypothesis E : forall x y, e x y = true <-> x = y.
Definition deq (d d' : dict A B) := forall k, dget k d = dget k d'.
Lemma deq_keys d d' : deq d d' -> forall k, In k (keys d) <-> In k (keys d').
Proof. intros Q k. rewrite !dget_keys. rewrite Q. reflexivity. Qed.
Lemma dict_eqb_ok d d' : NoDup (keys d) -> NoDup (keys d') -> (dict_eqb e d d' = true <-> deq d d').
Proof.
  intros N N'. unfold dict_eqb. rewrite andb_true_iff, Nat.eqb_eq, forallb_forall. split.
  - intros [L F].
    assert (F' : forall k v, dget k d = Some v -> dget k d' = Some v).
    { intros k v G. apply dget_In in G. specialize (F _ G). cbn in F. destruct (dget k d'); [|discriminate]. apply E in F. congruence. }
    assert (I : incl (keys d') (keys d)).
    { apply NoDup_length_incl; auto; [unfold keys; rewrite !map_length; lia|].
      intros k Hk. apply dget_keys in Hk as [v Hv]. apply dget_keys. eauto. }
    intros k. destruct (dget k d) as [v|] eqn:G; [symmetry; auto|]. symmetry. apply dget_None. apply dget_None in G. auto.
  - intros Q. split.
    + rewrite <- (map_length fst d), <- (map_length fst d'). apply Nat.le_antisymm; apply NoDup_incl_length; auto;
        intros k Hk; apply (deq_keys d d' Q k); auto.
    + intros [k v] Hk. cbn. rewrite <- Q, (In_dget k v d) by auto. now apply E.
Qed.
Lemma deq_perm d d' : NoDup (keys d) -> NoDup (keys d') -> deq d d' -> Permutation d d'.
Proof.
  intros N N' Q. apply NoDup_Permutation.
  - now apply NoDup_map_inv in N.
  - now apply NoDup_map_inv in N'.
  - intros [k v]. split; intros G.
    + apply (In_dget k v) in G; auto. rewrite Q in G. now apply dget_In.
    + apply (In_dget k v) in G; auto. rewrite <- Q in G. now apply dget_In.
Qed.
End D.

Section P.
Context {P : Type} (nv : P -> nat).
Implicit Types s t : @surf P.
Notation good := (@good P nv).

(** same contents of the dictionaries, same roots, same mutability *)
Record same s t : Prop := {
  sm_polys : deq (polys s) (polys t);
  sm_gluings : deq (gluings s) (gluings t);
  sm_roots : roots_ s = roots_ t;
  sm_mut : mutable s = mutable t }.
Lemma surf_eqb_ok `{EqB P} s t : good s -> good t -> (surf_eqb s t = true <-> same s t).
Proof.
  intros G G'. destruct (g_inv nv s G) as [N1 N2 _ _ _ _]. destruct (g_inv nv t G') as [N1' N2' _ _ _ _].
  assert (E1 := dict_eqb_ok eqb eqb_ok (polys s) (polys t) N1 N1').
  assert (E2 := dict_eqb_ok _ (list_eqb_ok _ (opt_eqb_ok _ eqb_ok)) (gluings s) (gluings t) N2 N2').
  assert (E3 := list_eqb_ok _ eqb_ok (roots_ s) (roots_ t)).
  assert (E4 := Bool.eqb_true_iff (mutable s) (mutable t)).
  unfold surf_eqb, polygonal_eqb.
  destruct (dict_eqb _ (polys s) _), (list_eqb _ (roots_ s) _), (Bool.eqb _ _), (dict_eqb _ (gluings s) _); cbn; split; intros X; try discriminate;
    try (destruct X; intuition congruence); constructor; intuition.
Qed.
Lemma same_refl s : same s s. Proof. constructor; auto. intros k; auto. intros k; auto. Qed.
Lemma same_sym s t : same s t -> same t s.
Proof. intros [A B C D]. constructor; auto; intros k; symmetry; auto. Qed.
Lemma same_trans s t u : same s t -> same t u -> same s u.
Proof. intros [A B C D] [A' B' C' D']. constructor; try (etransitivity; eauto; fail); intros k; [rewrite A|rewrite B]; auto. Qed.

Lemma same_polygon s t l : same s t -> get_polygon t l = get_polygon s l.
Proof. intros Q. unfold get_polygon, dgetE. now rewrite (sm_polys _ _ Q). Qed.
Lemma same_opposite s t l e : same s t -> opposite_edge t l e = opposite_edge s l e.
Proof. intros Q. unfold opposite_edge, dgetE. now rewrite (sm_gluings _ _ Q). Qed.
Lemma rmap_ext {X Y} (f g : X -> res Y) l : (forall x, f x = g x) -> rmap f l = rmap g l.
Proof. intros E. induction l; cbn; auto. now rewrite E, IHl. Qed.
Lemma same_crosses s t l : same s t -> crosses nv t l = crosses nv s l.
Proof.
  intros Q. unfold crosses. rewrite (same_polygon s t l Q). destruct (get_polygon s l); auto.
  now rewrite (rmap_ext _ (opposite_edge s l)) by (intros; now apply same_opposite).
Qed.
Lemma bfs_ext f g fuel : (forall l, f l = g l) -> forall seen pending, bfs f fuel seen pending = bfs g fuel seen pending.
Proof.
  intros E. induction fuel as [|fuel IH]; intros seen [|l pending]; cbn; auto.
  rewrite E. destruct (mem l seen); auto. destruct (g l); auto.
Qed.
Lemma same_fuel s t : good s -> good t -> same s t -> bfs_fuel nv t = bfs_fuel nv s.
Proof.
  intros G G' Q. pose proof (deq_perm _ _ (i_np nv s (g_inv nv s G)) (i_np nv t (g_inv nv t G')) (sm_polys _ _ Q)) as PE.
  unfold bfs_fuel. f_equal. induction PE; cbn; lia.
Qed.
Lemma same_component s t l : good s -> good t -> same s t -> component nv t l = component nv s l.
Proof.
  intros G G' Q. unfold component. rewrite (same_fuel s t) by auto. apply bfs_ext. intros; now apply same_crosses.
Qed.
Lemma min_fold a l : forall x, In x (a :: l) -> (fold_left Z.min l a <= x)%Z.
Proof.
  revert a. induction l as [|b l IH]; intros a x Hx; cbn.
  - destruct Hx as [<-|[]]. lia.
  - destruct Hx as [<-|[<-|Hx]]; try (eapply Z.le_trans; [apply (IH (Z.min a b) (Z.min a b)); cbn; auto|lia]).
    apply IH. cbn. auto.
Qed.
Lemma min_fold_in a l : In (fold_left Z.min l a) (a :: l).
Proof.
  revert a. induction l as [|b l IH]; intros a; cbn; auto.
  destruct (IH (Z.min a b)) as [<-|Hx]; auto. destruct (Z.min_spec a b) as [[_ ->]|[_ ->]]; auto.
Qed.
Lemma lmin_perm l l' : Permutation l l' -> lmin l = lmin l'.
Proof.
  intros PE. destruct l as [|a l], l' as [|b l']; auto.
  - now apply Permutation_nil in PE.
  - apply Permutation_sym, Permutation_nil in PE. discriminate.
  - cbn. f_equal. apply Z.le_antisymm; apply min_fold.
    + apply (Permutation_in _ (Permutation_sym PE)). apply min_fold_in.
    + apply (Permutation_in _ PE). apply min_fold_in.
Qed.
Definition rperm (a b : res (list label)) : Prop :=
  match a, b with Ok l, Ok l' => Permutation l l' | Err x, Err y => x = y | _, _ => False end.
Lemma filter_perm (f : label -> bool) l l' : Permutation l l' -> Permutation (filter f l) (filter f l').
Proof.
  induction 1; cbn; auto; try (destruct (f x)); try (destruct (f y)); auto; try constructor. eapply perm_trans; eauto.
Qed.
Lemma mem_perm x (l l' : list label) : Permutation l l' -> mem x l = mem x l'.
Proof.
  intros PE. destruct (mem x l') eqn:E.
  - apply mem_In in E. apply mem_In. eapply Permutation_in; [apply Permutation_sym, PE|exact E].
  - apply mem_not_In in E. apply mem_not_In. intros X. apply E. eapply Permutation_in; eauto.
Qed.
Lemma set_remove_perm xs : forall l l', Permutation l l' -> rperm (set_remove_all xs l) (set_remove_all xs l').
Proof.
  induction xs as [|x xs IH]; intros l l' PE; cbn [set_remove_all]; auto.
  rewrite (mem_perm x l l' PE). destruct (mem x l'); [|reflexivity]. apply IH, filter_perm, PE.
Qed.
Lemma same_default s t fuel : good s -> good t -> same s t -> connected s = connected t ->
  forall l l', Permutation l l' -> default_roots nv s fuel l = default_roots nv t fuel l'.
Proof.
  intros G G' Q C. induction fuel as [|fuel IH]; intros l l' PE; cbn [default_roots].
  - destruct l, l'; auto. now apply Permutation_nil in PE. apply Permutation_sym, Permutation_nil in PE. discriminate.
  - rewrite (lmin_perm l l' PE), C. rewrite <- C.
    assert (X : forall x, default_roots nv s (Datatypes.S fuel) l = x -> True) by auto. clear X.
    destruct l as [|a l], l' as [|b l'].
    + auto.
    + now apply Permutation_nil in PE.
    + apply Permutation_sym, Permutation_nil in PE. discriminate.
    + destruct (lmin (b :: l')) as [r|]; auto. destruct (connected s); auto.
      rewrite (same_component s t) by auto. destruct (component nv s r) as [c|]; auto.
      pose proof (set_remove_perm c _ _ PE) as R. unfold rperm in R.
      destruct (set_remove_all c (a :: l)) as [m|], (set_remove_all c (b :: l')) as [m'|]; try easy; [|congruence].
      now rewrite (IH m m' R).
Qed.
Lemma same_remove s t rs : good s -> good t -> same s t -> forall l l', Permutation l l' ->
  rperm (remove_components nv s rs l) (remove_components nv t rs l').
Proof.
  intros G G' Q. induction rs as [|r rs IH]; intros l l' PE; cbn [remove_components]; auto.
  rewrite (same_component s t) by auto. destruct (component nv s r) as [c|]; [|reflexivity].
  pose proof (set_remove_perm c _ _ PE) as R. unfold rperm in R.
  destruct (set_remove_all c l) as [m|], (set_remove_all c l') as [m'|]; try easy. now apply IH.
Qed.
Lemma same_roots s t : good s -> good t -> same s t -> get_roots nv t = get_roots nv s.
Proof.
  intros G G' Q. destruct (mutable s) eqn:Mu.
  - assert (Mu' : mutable t = true) by (rewrite <- (sm_mut _ _ Q); auto).
    assert (C : connected s = false) by (destruct (connected s) eqn:X; auto; apply (g_con nv s G) in X as [X _]; congruence).
    assert (C' : connected t = false) by (destruct (connected t) eqn:X; auto; apply (g_con nv t G') in X as [X _]; congruence).
    assert (CC : connected s = connected t) by congruence.
    pose proof (deq_perm _ _ (i_np nv s (g_inv nv s G)) (i_np nv t (g_inv nv t G')) (sm_polys _ _ Q)) as PE.
    assert (PK : Permutation (keys (polys s)) (keys (polys t))) by (now apply Permutation_map).
    unfold get_roots. rewrite <- (sm_roots _ _ Q), C, C'. rewrite (Permutation_length PE).
    destruct (roots_ s) as [|r rs] eqn:ER.
    + symmetry. now apply same_default.
    + pose proof (same_remove s t (r :: rs) G G' Q _ _ PK) as R. unfold rperm in R.
      destruct (remove_components nv s _ _) as [m|], (remove_components nv t _ _) as [m'|]; try easy; [|congruence].
      now rewrite (same_default s t (length (polys t)) G G' Q CC m m' R).
  - destruct (get_roots_spec nv s G) as [d [E [_ [_ D]]]]. rewrite (D Mu), app_nil_r in E.
    destruct (get_roots_spec nv t G') as [d' [E' [_ [_ D']]]]. rewrite D', app_nil_r in E' by (rewrite <- (sm_mut _ _ Q); auto).
    rewrite E, E', (sm_roots _ _ Q). reflexivity.
Qed.
Lemma same_labels s t : good s -> good t -> same s t -> iter_labels nv t = iter_labels nv s.
Proof.
  intros G G' Q. unfold iter_labels, get_components. rewrite (same_roots s t) by auto. destruct (get_roots nv s); auto.
  now rewrite (rmap_ext _ (component nv s)) by (intros; now apply same_component).
Qed.
Lemma same_polygons_iter s t : good s -> good t -> same s t -> iter_polygons nv t = iter_polygons nv s.
Proof.
  intros G G' Q. unfold iter_polygons. rewrite (same_labels s t) by auto. destruct (iter_labels nv s); auto.
  apply rmap_ext. intros; now apply same_polygon.
Qed.
Lemma same_edges s t : good s -> good t -> same s t -> iter_edges nv t = iter_edges nv s.
Proof.
  intros G G' Q. unfold iter_edges. rewrite (same_labels s t) by auto. destruct (iter_labels nv s); auto.
  rewrite (rmap_ext (fun l => match get_polygon t l with Err x => Err x | Ok p => Ok (map (fun e => (l, e)) (edge_range nv p)) end)
    (fun l => match get_polygon s l with Err x => Err x | Ok p => Ok (map (fun e => (l, e)) (edge_range nv p)) end)); auto.
  intros l. now rewrite (same_polygon s t l Q).
Qed.
Lemma same_gluings_iter s t : good s -> good t -> same s t -> iter_gluings nv t = iter_gluings nv s.
Proof.
  intros G G' Q. unfold iter_gluings. rewrite (same_edges s t) by auto. destruct (iter_edges nv s); auto.
  rewrite (rmap_ext _ (fun e => match opposite_edge s (fst e) (snd e) with
                         | Err x => Err x | Ok None => Ok nil | Ok (Some c) => Ok [(e, c)] end)); auto.
  intros x. now rewrite (same_opposite s t _ _ Q).
Qed.

(** conversely *)
Lemma view_gluings s t : good s -> good t -> deq (polys s) (polys t) -> (forall l e, opposite_edge t l e = opposite_edge s l e) ->
  deq (gluings s) (gluings t).
Proof.
  intros G G' Q1 V2 k.
  assert (TK : forall u k, good u -> dget k (polys u) = None -> dget k (gluings u) = None).
  { intros u k' Gu N. destruct (dget k' (gluings u)) eqn:X; auto. apply (i_len nv u (g_inv nv u Gu)) in X as [p [X _]]. congruence. }
  destruct (dget k (polys s)) as [p|] eqn:K; [|rewrite (TK s k G K); symmetry; apply (TK t k G'); now rewrite <- Q1].
  assert (K' := K). rewrite Q1 in K'.
  assert (exists g, dget k (gluings s) = Some g) as [g Hg] by (apply dget_keys, (g_tot nv s G), dget_keys; eauto).
  assert (exists g, dget k (gluings t) = Some g) as [g' Hg'] by (apply dget_keys, (g_tot nv t G'), dget_keys; eauto).
  rewrite Hg, Hg'. f_equal.
  destruct (i_len nv s (g_inv nv s G) _ _ Hg) as [p1 [K1 L1]]. destruct (i_len nv t (g_inv nv t G') _ _ Hg') as [p2 [K2 L2]].
  assert (LL : length g = length g') by congruence.
  assert (X : forall n, nth_error g n = nth_error g' n).
  { intros n. destruct (nth_error g n) as [x|] eqn:N1.
    - assert (O : opposite_edge s k (Z.of_nat n) = Ok x).
      { unfold opposite_edge, dgetE. rewrite Hg. apply lgetE_pos; [lia|]. now rewrite Nat2Z.id. }
      rewrite <- V2 in O. unfold opposite_edge, dgetE in O. rewrite Hg' in O. apply lgetE_pos in O; [|lia]. now rewrite Nat2Z.id in O.
    - symmetry. apply nth_error_None in N1. apply nth_error_None. lia. }
  clear - X. revert g' X. induction g as [|a g IH]; intros [|b g'] X; auto.
  - specialize (X 0%nat). discriminate.
  - specialize (X 0%nat). discriminate.
  - f_equal; [specialize (X 0%nat); now injection X|]. apply IH. intros n. apply (X (Datatypes.S n)).
Qed.
Lemma view_same s t : good s -> good t -> same_view nv s t -> mutable s = false -> mutable t = false -> same s t.
Proof.
  intros G G' [V1 V2 V3] Mu Mu'.
  destruct (get_roots_spec nv s G) as [d [E [_ [_ D]]]]. rewrite (D Mu), app_nil_r in E.
  destruct (get_roots_spec nv t G') as [d' [E' [_ [_ D']]]]. rewrite (D' Mu'), app_nil_r in E'.
  assert (Q1 : deq (polys s) (polys t)).
  { intros k. specialize (V1 k). unfold get_polygon, dgetE in V1. destruct (dget k (polys s)), (dget k (polys t)); congruence. }
  constructor; auto; [now apply view_gluings|congruence|congruence].
Qed.
End P.
