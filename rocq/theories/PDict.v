(** Facts about dictionaries and lists. *)
From Coq Require Import List Bool ZArith Lia Arith.
From Verif Require Import MBase MDict.
Import ListNotations.

Section D.
Context {A B : Type} `{EqB A}.
Implicit Types (d : dict A B).

Lemma eqb_refl x : eqb x x = true.
Proof. now apply eqb_ok. Qed.
Lemma eqb_neq x y : eqb x y = false <-> x <> y.
Proof.
  split.
  - intros E ->. rewrite eqb_refl in E. discriminate.
  - intros N. destruct (eqb x y) eqn:E; auto. apply (eqb_ok x y) in E. contradiction.
Qed.
Lemma eqb_case x y : (eqb x y = true /\ x = y) \/ (eqb x y = false /\ x <> y).
Proof. destruct (eqb x y) eqn:E; [left; split; auto; now apply (eqb_ok x y) | right; split; auto; now apply eqb_neq]. Qed.
Lemma eq_dec_of (x y : A) : {x = y} + {x <> y}.
Proof. destruct (eqb x y) eqn:E; [left; now apply (eqb_ok x y) | right; now apply eqb_neq]. Qed.
Lemma eqb_sym x y : eqb x y = eqb y x.
Proof. destruct (eqb_case x y) as [[-> ->]|[-> N]]; [now rewrite eqb_refl|]. symmetry. apply eqb_neq. congruence. Qed.

Lemma mem_In x (l : list A) : mem x l = true <-> In x l.
Proof.
  unfold mem. rewrite existsb_exists. split.
  - intros [y [I E]]. apply (eqb_ok x y) in E. now subst.
  - intros I. exists x. split; auto. apply eqb_refl.
Qed.
Lemma mem_not_In x (l : list A) : mem x l = false <-> ~ In x l.
Proof. rewrite <- mem_In. destruct (mem x l); split; congruence. Qed.
Lemma In_dec_of (x : A) l : {In x l} + {~ In x l}.
Proof. destruct (mem x l) eqn:E; [left; now apply mem_In | right; now apply mem_not_In]. Qed.

Lemma dget_In k v d : dget k d = Some v -> In (k, v) d.
Proof.
  induction d as [|[k' v'] d IH]; cbn; [discriminate|].
  destruct (eqb_case k k') as [[-> ->]|[-> N]]; [injection 1 as ->; auto | auto].
Qed.
Lemma dget_keys k d : In k (keys d) <-> exists v, dget k d = Some v.
Proof.
  induction d as [|[k' v'] d IH]; cbn; [split; [tauto|intros [v E]; discriminate]|].
  destruct (eqb_case k k') as [[-> ->]|[-> N]]; [split; eauto|].
  rewrite <- IH. split; auto. intros [E|I]; [congruence|exact I].
Qed.
Lemma dget_None k d : dget k d = None <-> ~ In k (keys d).
Proof.
  rewrite dget_keys. split.
  - intros -> [v E]. discriminate.
  - intros N. destruct (dget k d); auto. exfalso. eauto.
Qed.
Lemma dmem_keys k d : dmem k d = true <-> In k (keys d).
Proof.
  rewrite dget_keys. unfold dmem. destruct (dget k d); split; intros X; try discriminate; eauto. now destruct X.
Qed.
Lemma dmem_false k d : dmem k d = false <-> ~ In k (keys d).
Proof. rewrite <- dmem_keys. destruct (dmem k d); split; congruence. Qed.
Lemma dgetE_Ok k d v : dgetE k d = Ok v <-> dget k d = Some v.
Proof. unfold dgetE. destruct (dget k d); split; congruence. Qed.
Lemma In_dget k v d : NoDup (keys d) -> In (k, v) d -> dget k d = Some v.
Proof.
  induction d as [|[k' v'] d IH]; cbn; [tauto|].
  intros N. inversion N as [|? ? N1 N2]; subst.
  intros [E|I].
  - injection E as -> ->. now rewrite eqb_refl.
  - destruct (eqb_case k k') as [[-> ->]|[-> X]]; [|auto].
    exfalso. apply N1. change k' with (fst (k', v)). now apply in_map.
Qed.

Lemma dget_dset k v d k' : dget k' (dset k v d) = if eqb k' k then Some v else dget k' d.
Proof.
  induction d as [|[a b] d IH]; cbn.
  - reflexivity.
  - destruct (eqb_case k a) as [[-> ->]|[-> N]]; cbn.
    + destruct (eqb_case k' a) as [[-> ->]|[-> N']]; auto.
    + rewrite IH. destruct (eqb_case k' a) as [[-> ->]|[-> N']]; auto.
      destruct (eqb_case a k) as [[-> ->]|[-> ?]]; congruence.
Qed.
Lemma keys_dset k v d : keys (dset k v d) = if mem k (keys d) then keys d else keys d ++ [k].
Proof.
  induction d as [|[a b] d IH]; cbn; auto.
  destruct (eqb_case k a) as [[-> ->]|[-> N]]; cbn; auto.
  fold (keys (dset k v d)). fold (keys d). fold (mem k (keys d)). rewrite IH. destruct (mem k (keys d)); auto.
Qed.
Lemma NoDup_snoc (l : list A) x : NoDup l -> ~ In x l -> NoDup (l ++ [x]).
Proof.
  intros N I. apply NoDup_rev in N. rewrite <- (rev_involutive (l ++ [x])). apply NoDup_rev.
  rewrite rev_app_distr. cbn. constructor; auto. now rewrite <- in_rev.
Qed.
Lemma NoDup_dset k v d : NoDup (keys d) -> NoDup (keys (dset k v d)).
Proof.
  intros N. rewrite keys_dset. destruct (mem k (keys d)) eqn:E; auto. apply mem_not_In in E. now apply NoDup_snoc.
Qed.
Lemma keys_dset_in k v d : In k (keys d) -> keys (dset k v d) = keys d.
Proof. intros I. rewrite keys_dset. now rewrite (proj2 (mem_In _ _) I). Qed.

Lemma In_keys_ddel k d k' : In k' (keys (ddel k d)) -> In k' (keys d).
Proof.
  induction d as [|[a b] d IH]; cbn; auto. destruct (eqb k a); cbn; [auto|]. intros [E|I]; auto.
Qed.
Lemma NoDup_ddel k d : NoDup (keys d) -> NoDup (keys (ddel k d)).
Proof.
  induction d as [|[a b] d IH]; cbn; auto. intros N. inversion N; subst.
  destruct (eqb k a); auto. cbn. constructor; auto. intros I. now apply In_keys_ddel in I.
Qed.
Lemma dget_ddel k d k' : NoDup (keys d) -> dget k' (ddel k d) = if eqb k' k then None else dget k' d.
Proof.
  induction d as [|[a b] d IH]; cbn.
  - now destruct (eqb k' k).
  - intros N. inversion N as [|? ? N1 N2]; subst.
    destruct (eqb_case k a) as [[-> ->]|[-> X]]; cbn.
    + destruct (eqb_case k' a) as [[-> ->]|[-> Y]]; auto. now apply dget_None.
    + destruct (eqb_case k' a) as [[-> ->]|[-> Y]]; auto.
      now rewrite (proj2 (eqb_neq a k)) by congruence.
Qed.
Lemma dget_app d d' k : dget k (d ++ d') = match dget k d with Some v => Some v | None => dget k d' end.
Proof. induction d as [|[a b] d IH]; cbn; auto. destruct (eqb k a); auto. Qed.
Lemma dset_notin k v d : ~ In k (keys d) -> dset k v d = d ++ [(k, v)].
Proof.
  induction d as [|[a b] d IH]; cbn; auto. intros N.
  rewrite (proj2 (eqb_neq k a)) by (intros ->; apply N; auto). f_equal. apply IH. auto.
Qed.
Lemma length_dset_in k v d : In k (keys d) -> length (dset k v d) = length d.
Proof.
  intros I. rewrite <- (map_length fst d). change (map fst d) with (keys d). rewrite <- (keys_dset_in k v d I).
  unfold keys. now rewrite map_length.
Qed.
End D.

Section L.
Context {B : Type}.
Implicit Types (l : list B).
Lemma nth_set_length l k x : length (nth_set l k x) = length l.
Proof. revert k. induction l; destruct k; cbn; auto. Qed.
Lemma nth_error_nth_set l k x j :
  nth_error (nth_set l k x) j = if (j =? k)%nat then (if (k <? length l)%nat then Some x else None) else nth_error l j.
Proof.
  revert k j. induction l as [|y l IH]; intros k j; cbn.
  - destruct (j =? k)%nat eqn:E; auto. destruct j; auto.
  - destruct k as [|k], j as [|j]; cbn; auto. apply IH.
Qed.
Lemma nth_error_repeat (x : B) n k : nth_error (repeat x n) k = if (k <? n)%nat then Some x else None.
Proof.
  revert k. induction n as [|n IH]; intros k; cbn; [now destruct k|].
  destruct k; cbn; auto. rewrite IH. reflexivity.
Qed.
Lemma py_index_pos n e : (0 <= e)%Z -> py_index n e = if (e <? Z.of_nat n)%Z then Some (Z.to_nat e) else None.
Proof.
  intros E. unfold py_index. rewrite (proj2 (Z.leb_le _ _) E). cbn.
  rewrite (proj2 (Z.ltb_ge e 0)) by lia. cbn. now destruct (e <? Z.of_nat n)%Z.
Qed.
Lemma lgetE_pos l e x : (0 <= e)%Z -> (lgetE l e = Ok x <-> nth_error l (Z.to_nat e) = Some x).
Proof.
  intros E. unfold lgetE. rewrite py_index_pos by auto.
  destruct (e <? Z.of_nat (length l))%Z eqn:L.
  - destruct (nth_error l (Z.to_nat e)); split; congruence.
  - apply Z.ltb_ge in L. split; [discriminate|]. intros X.
    assert (N : nth_error l (Z.to_nat e) <> None) by congruence. apply nth_error_Some in N. lia.
Qed.
Lemma lsetE_pos l e x : (0 <= e < Z.of_nat (length l))%Z -> lsetE l e x = Ok (nth_set l (Z.to_nat e) x).
Proof.
  intros E. unfold lsetE. rewrite py_index_pos by lia. now rewrite (proj2 (Z.ltb_lt _ _)) by lia.
Qed.
Lemma nth_error_lt l k x : nth_error l k = Some x -> (k < length l)%nat.
Proof. intros E. apply nth_error_Some. congruence. Qed.
End L.

Lemma rmap_Ok {A B} (f : A -> res B) l ys : rmap f l = Ok ys ->
  length ys = length l /\ forall x, In x l -> exists y, f x = Ok y /\ In y ys.
Proof.
  revert ys. induction l as [|x l IH]; cbn; intros ys.
  - injection 1 as <-. firstorder.
  - destruct (f x) as [y|] eqn:F; [|discriminate]. destruct (rmap f l) as [zs|]; [|discriminate].
    injection 1 as <-. destruct (IH zs eq_refl) as [L I]. cbn. split; [congruence|].
    intros z [->|Hz]; [eauto|]. destruct (I z Hz) as [w [? ?]]. eauto.
Qed.
Lemma rmap_total {A B} (f : A -> res B) l : (forall x, In x l -> exists y, f x = Ok y) -> exists ys, rmap f l = Ok ys.
Proof.
  induction l as [|x l IH]; cbn; intros T; [eauto|].
  destruct (T x (or_introl eq_refl)) as [y ->]. destruct IH as [ys ->]; [auto|]. eauto.
Qed.
Lemma rmap_In {A B} (f : A -> res B) l ys y : rmap f l = Ok ys -> In y ys -> exists x, In x l /\ f x = Ok y.
Proof.
  revert ys. induction l as [|x l IH]; cbn; intros ys.
  - injection 1 as <-. intros [].
  - destruct (f x) as [z|] eqn:F; [|discriminate]. destruct (rmap f l) as [zs|]; [|discriminate].
    injection 1 as <-. intros [<-|I]; [eauto|]. destruct (IH zs eq_refl I) as [w [? ?]]. eauto.
Qed.
Lemma rmap_map {A B} (f : A -> res B) (g : A -> B) l : (forall x, In x l -> f x = Ok (g x)) -> rmap f l = Ok (map g l).
Proof.
  induction l as [|x l IH]; cbn; intros T; auto. rewrite (T x) by auto. rewrite IH by auto. reflexivity.
Qed.
Lemma rmap_nth {A B} (f : A -> res B) l ys k x : rmap f l = Ok ys -> nth_error l k = Some x ->
  exists y, nth_error ys k = Some y /\ f x = Ok y.
Proof.
  revert ys k. induction l as [|a l IH]; cbn; intros ys k.
  - destruct k; discriminate.
  - destruct (f a) as [z|] eqn:F; [|discriminate]. destruct (rmap f l) as [zs|]; [|discriminate].
    injection 1 as <-. destruct k; cbn; [intros [= <-]; eauto|]. eauto.
Qed.
