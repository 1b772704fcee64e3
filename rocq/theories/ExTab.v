(** Finite surfaces given by tables, with a test of validity that can be computed; used in examples. *)
From Coq Require Import List Bool ZArith Arith Lia.
From Verif Require Import OField MBase MEuclid PEuclid MSim MPoly MSurf SSurf PSurf PSurf2 PSurf3 PSurf4.
Import ListNotations.

Section Tab.
Variable K : OField.
Definition table : Type := (list (polygon K) * list ((nat * nat) * (nat * nat)))%type.
Definition same_edge (x y : nat * nat) : bool := ((fst x =? fst y) && (snd x =? snd y))%nat%bool.
Lemma same_edge_eq x y : same_edge x y = true <-> x = y.
Proof.
  unfold same_edge. rewrite andb_true_iff, !Nat.eqb_eq. destruct x, y. cbn. split; [intros [-> ->]; auto|intros E; injection E as -> ->; auto].
Qed.
Definition tab_partner (gs : list ((nat * nat) * (nat * nat))) (x : nat * nat) : option (nat * nat) :=
  match find (fun g => same_edge (fst g) x || same_edge (snd g) x) gs with
  | Some g => Some (if same_edge (fst g) x then snd g else fst g)
  | None => None
  end.
Definition tab_surface (T : table) : surface K nat :=
  Surface (fun l => match nth_error (fst T) l with Some P => Ok P | None => Err KeyError end)
          (fun l e => Ok (tab_partner (snd T) (l, e))).
Definition tab_labels (T : table) : list nat := seq 0 (length (fst T)).
Definition tab_dom (T : table) (l : nat) : Prop := In l (tab_labels T).
Definition tab_ok (T : table) : bool :=
  forallb (fun l => match nth_error (fst T) l with
    | None => false
    | Some P => (3 <=? length P)%nat && forallb (fun e => negb (veqb (edge P e) vzero) &&
        match tab_partner (snd T) (l, e) with
        | None => true
        | Some (l', e') => match nth_error (fst T) l' with
          | None => false
          | Some P' => (e' <? length P')%nat && match tab_partner (snd T) (l', e') with Some x => same_edge x (l, e) | None => false end
          end
        end) (seq 0 (length P)) end) (tab_labels T).
Definition tab_closed (T : table) : bool :=
  forallb (fun l => match nth_error (fst T) l with
    | None => false
    | Some P => forallb (fun e => match tab_partner (snd T) (l, e) with Some _ => true | None => false end) (seq 0 (length P)) end) (tab_labels T).
Lemma tab_dom_iff T l : tab_dom T l <-> (l < length (fst T))%nat.
Proof. unfold tab_dom, tab_labels. rewrite in_seq. lia. Qed.
Lemma tab_valid T : tab_ok T = true -> valid (tab_dom T) (tab_surface T).
Proof.
  unfold tab_ok. rewrite forallb_forall. intros H. constructor.
  - intros l Dl. specialize (H l Dl). cbn [tab_surface s_poly]. destruct (nth_error (fst T) l) as [P|]; [|discriminate].
    rewrite andb_true_iff, forallb_forall in H. destruct H as [L3 H]. apply Nat.leb_le in L3. exists P. split; [reflexivity|].
    split; [exact L3|]. apply edges_nz; [lia|]. intros e He.
    assert (I : In e (seq 0 (length P))) by (apply in_seq; lia). apply H in I. apply andb_true_iff in I as [I _].
    apply veqb_neq. now apply negb_true_iff.
  - intros l P e Dl HP He. specialize (H l Dl). cbn [tab_surface s_poly s_opp] in *. destruct (nth_error (fst T) l) as [P0|]; [|discriminate].
    injection HP as ->. rewrite andb_true_iff, forallb_forall in H. destruct H as [L3 H].
    assert (I : In e (seq 0 (length P))) by (apply in_seq; lia). apply H in I. apply andb_true_iff in I as [_ I].
    destruct (tab_partner (snd T) (l, e)) as [[l' e']|] eqn:E; [|now left]. right.
    destruct (nth_error (fst T) l') as [P'|] eqn:E'; [|discriminate]. apply andb_true_iff in I as [I1 I2].
    destruct (tab_partner (snd T) (l', e')) as [x|] eqn:E2; [|discriminate]. apply same_edge_eq in I2. subst x.
    exists l', e', P'. split; [reflexivity|]. split; [apply tab_dom_iff, nth_error_Some; now rewrite E'|]. rewrite E'. split; [reflexivity|].
    apply Nat.ltb_lt in I1. rewrite E2. auto.
Qed.
Lemma tab_is_closed T : tab_closed T = true -> closed (tab_dom T) (tab_surface T).
Proof.
  unfold tab_closed. rewrite forallb_forall. intros H l P e Dl HP He. specialize (H l Dl). cbn [tab_surface s_poly s_opp] in *.
  destruct (nth_error (fst T) l) as [P0|]; [|discriminate]. injection HP as ->. rewrite forallb_forall in H.
  assert (I : In e (seq 0 (length P))) by (apply in_seq; lia). apply H in I. destruct (tab_partner (snd T) (l, e)); discriminate.
Qed.
End Tab.
Arguments tab_surface {K}. Arguments tab_labels {K}. Arguments tab_dom {K}. Arguments tab_ok {K}. Arguments tab_closed {K}.
Arguments tab_valid {K}. Arguments tab_is_closed {K}. Arguments tab_dom_iff {K}.
