(** The gluings of step billiards. *)
From Coq Require Import List Bool ZArith Arith Lia.
From Verif Require Import MBase MMut MGen MStep.
Import ListNotations.
Local Open Scope Z_scope.

(** the pairs of edges that are glued *)
Inductive sg (n : Z) : hedge -> hedge -> Prop :=
| sg1 : sg n (0, 4) (n, 4)
| sg2 : sg n (n - 1, 0) (2 * n - 1, 2)
| sg3 : sg n (n - 1, 1) (2 * n - 1, 1)
| sg4 : sg n (n - 1, 2) (2 * n - 1, 0)
| sg5 i : 0 <= i < n - 1 -> sg n (i, 0) (n + i, 3)
| sg6 i : 0 <= i < n - 1 -> sg n (i, 2) (n + i, 1)
| sg7 i : 0 <= i < n - 1 -> sg n (i, 3) (n + i, 0)
| sg8 : sg n (n - 2, 1) (n - 1, 3)
| sg9 : sg n (2 * n - 2, 2) (2 * n - 1, 3)
| sg10 i : 0 <= i < n - 2 -> sg n (i, 1) (i + 1, 4)
| sg11 i : 0 <= i < n - 2 -> sg n (n + i, 2) (n + i + 1, 4).

Lemma sg_In k x y : (2 <= k)%nat -> In (x, y) (step_gluings k) <-> sg (Z.of_nat k) x y.
Proof.
  intros K2. unfold step_gluings, hg. rewrite !in_app_iff, !in_flat_map. split.
  - intros [H|[H|[H|H]]].
    + cbn in H. destruct H as [H|[H|[H|[H|[]]]]]; injection H as <- <-; constructor.
    + destruct H as (j & Hj & H). apply in_seq in Hj. cbn in H. destruct H as [H|[H|[H|[]]]]; injection H as <- <-; constructor; lia.
    + cbn in H. destruct H as [H|[H|[]]]; injection H as <- <-; constructor.
    + destruct H as (j & Hj & H). apply in_seq in Hj. cbn in H. destruct H as [H|[H|[]]]; injection H as <- <-; constructor; lia.
  - intros H. assert (J : forall i m, 0 <= i < Z.of_nat k - Z.of_nat m -> exists j, In j (seq 0 (k - m)) /\ Z.of_nat j = i).
    { intros i m Hi. exists (Z.to_nat i). split; [apply in_seq; lia|lia]. }
    destruct H; try (left; cbn; tauto); try (right; right; left; cbn; tauto);
      try (right; left; destruct (J i 1%nat) as (j & Hj & <-); [lia|]; exists j; split; [auto|cbn; tauto]);
      right; right; right; destruct (J i 2%nat) as (j & Hj & <-); [lia| |lia|]; exists j; (split; [auto|cbn; tauto]).
Qed.

(** the edge opposite to an edge *)
Definition sopp (n : Z) (x : hedge) : hedge :=
  let (l, e) := x in
  if l <? n - 1 then
    (if e =? 0 then (n + l, 3) else if e =? 1 then (if l =? n - 2 then (n - 1, 3) else (l + 1, 4)) else if e =? 2 then (n + l, 1) else if e =? 3 then (n + l, 0)
     else if l =? 0 then (n, 4) else (l - 1, 1))
  else if l =? n - 1 then
    (if e =? 0 then (2 * n - 1, 2) else if e =? 1 then (2 * n - 1, 1) else if e =? 2 then (2 * n - 1, 0) else (n - 2, 1))
  else if l <? 2 * n - 1 then
    (if e =? 0 then (l - n, 3) else if e =? 1 then (l - n, 2) else if e =? 2 then (if l =? 2 * n - 2 then (2 * n - 1, 3) else (l + 1, 4)) else if e =? 3 then (l - n, 0)
     else if l =? n then (0, 4) else (l - 1, 2))
  else (if e =? 0 then (n - 1, 2) else if e =? 1 then (n - 1, 1) else if e =? 2 then (n - 1, 0) else (2 * n - 2, 2)).
Ltac zcase := repeat match goal with
  | |- context [(?a <? ?b)] => destruct (Z.ltb_spec a b); try (exfalso; lia)
  | |- context [(?a =? ?b)] => destruct (Z.eqb_spec a b); try (exfalso; lia)
  end.
Lemma sg_opp n x y : 2 <= n -> sg n x y -> sopp n x = y /\ sopp n y = x.
Proof. intros N H. destruct H; unfold sopp; split; zcase; f_equal; lia. Qed.
Lemma sg_functional n x y y' : 2 <= n -> sg n x y \/ sg n y x -> sg n x y' \/ sg n y' x -> y = y'.
Proof.
  intros N H H'. assert (E : sopp n x = y) by (destruct H as [H|H]; apply sg_opp in H; tauto). assert (E' : sopp n x = y') by (destruct H' as [H'|H']; apply sg_opp in H'; tauto). congruence.
Qed.
(** the number of edges of the polygon [l] *)
Definition slen (n l : Z) : Z := if (l =? n - 1) || (l =? 2 * n - 1) then 4 else 5.
Lemma sg_range n x y : 2 <= n -> sg n x y -> (0 <= fst x < 2 * n /\ 0 <= snd x < slen n (fst x)) /\ (0 <= fst y < 2 * n /\ 0 <= snd y < slen n (fst y)).
Proof. intros N H. unfold slen. destruct H; cbn [fst snd]; zcase; cbn [orb]; lia. Qed.
Lemma sg_complete n l e : 2 <= n -> 0 <= l < 2 * n -> 0 <= e < slen n l -> exists y, sg n (l, e) y \/ sg n y (l, e).
Proof.
  intros N L E.
  assert (W : forall x y z, sg n x y -> z = x -> exists u, sg n z u \/ sg n u z) by (intros x y z H ->; eauto).
  assert (W' : forall x y z, sg n x y -> z = y -> exists u, sg n z u \/ sg n u z) by (intros x y z H ->; eauto).
  assert (E5 : e = 0 \/ e = 1 \/ e = 2 \/ e = 3 \/ (e = 4 /\ l <> n - 1 /\ l <> 2 * n - 1)).
  { unfold slen in E. destruct (Z.eqb_spec l (n - 1)), (Z.eqb_spec l (2 * n - 1)); cbn [orb] in E; lia. }
  destruct (Z_lt_le_dec l (n - 1)) as [H1|H1]; [|destruct (Z.eq_dec l (n - 1)) as [H2|H2]; [|destruct (Z_lt_le_dec l (2 * n - 1)) as [H3|H3]]].
  - destruct E5 as [->|[->|[->|[->|[-> _]]]]].
    + eexists. left. apply sg5. lia.
    + destruct (Z.eq_dec l (n - 2)) as [->|]; [eexists; left; apply sg8|eexists; left; apply sg10; lia].
    + eexists. left. apply sg6. lia.
    + eexists. left. apply sg7. lia.
    + destruct (Z.eq_dec l 0) as [->|]; [eexists; left; apply sg1|]. apply (W' _ _ _ (sg10 n (l - 1) ltac:(lia))). f_equal; lia.
  - subst l. destruct E5 as [->|[->|[->|[->|[-> ?]]]]]; [eexists; left; apply sg2|eexists; left; apply sg3|eexists; left; apply sg4|eexists; right; apply sg8|lia].
  - destruct E5 as [->|[->|[->|[->|[-> _]]]]].
    + apply (W' _ _ _ (sg7 n (l - n) ltac:(lia))). f_equal; lia.
    + apply (W' _ _ _ (sg6 n (l - n) ltac:(lia))). f_equal; lia.
    + destruct (Z.eq_dec l (2 * n - 2)) as [->|]; [eexists; left; apply sg9|]. apply (W _ _ _ (sg11 n (l - n) ltac:(lia))). f_equal; lia.
    + apply (W' _ _ _ (sg5 n (l - n) ltac:(lia))). f_equal; lia.
    + destruct (Z.eq_dec l n) as [->|]; [eexists; right; apply sg1|]. apply (W' _ _ _ (sg11 n (l - n - 1) ltac:(lia))). f_equal; lia.
  - assert (l = 2 * n - 1) by lia. subst l. destruct E5 as [->|[->|[->|[->|[-> ?]]]]]; [eexists; right; apply sg4|eexists; right; apply sg3|eexists; right; apply sg2|eexists; right; apply sg9|lia].
Qed.
