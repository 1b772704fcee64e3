(** Comparison of polygons and surfaces: the order. *)
From Coq Require Import List Bool ZArith Arith Lia Ring Field.
From Verif Require Import OField FMicromega PField MBase MEuclid SEuclid PEuclid MPoly PPoly MSurf MDict PDict PSurf PSurf3 MCmp SCmp PCmp.
Import ListNotations.

Section O.
Context {K : OField}.
Add Field KF : (of_ft K).
Local Open Scope F_scope.
Implicit Types (P Q R : polygon K).

Lemma sign_of_neg (x y : K) : sign_of (y - x) = (- sign_of (x - y))%Z.
Proof.
  unfold sign_of. destruct (0 <? x - y) eqn:A, (x - y <? 0) eqn:B, (0 <? y - x) eqn:C, (y - x <? 0) eqn:D; auto; exfalso;
  repeat match goal with H : (?a <? ?b) = true |- _ => change (a < b) in H | H : (?a <? ?b) = false |- _ => change (b <= a) in H end; flra.
Qed.
Lemma sign_of_le (x y : K) : (sign_of (x - y) <= 0)%Z <-> x <= y.
Proof.
  unfold sign_of. destruct (0 <? x - y) eqn:A, (x - y <? 0) eqn:B; 
  repeat match goal with H : (?a <? ?b) = true |- _ => change (a < b) in H | H : (?a <? ?b) = false |- _ => change (b <= a) in H end;
  split; intros H; try lia; try flra; exfalso; flra.
Qed.
Lemma sign_of_0 (x y : K) : sign_of (x - y) = 0%Z <-> x = y.
Proof.
  split.
  - intros H. assert (A : x <= y) by (apply sign_of_le; lia). assert (B : y <= x) by (apply sign_of_le; rewrite sign_of_neg; lia). flra.
  - intros ->. pose proof (sign_of_neg y y). lia.
Qed.
Lemma sign_nat_neg m n : sign_nat n m = (- sign_nat m n)%Z.
Proof. unfold sign_nat. destruct (Nat.ltb_spec m n), (Nat.ltb_spec n m); auto; lia. Qed.
Lemma sign_nat_le m n : (sign_nat m n <= 0)%Z <-> (m <= n)%nat.
Proof. unfold sign_nat. destruct (Nat.ltb_spec m n), (Nat.ltb_spec n m); split; lia. Qed.
Lemma sign_nat_0 m n : sign_nat m n = 0%Z <-> m = n.
Proof. unfold sign_nat. destruct (Nat.ltb_spec m n), (Nat.ltb_spec n m); split; lia. Qed.
Lemma orelse_neg a b : orelse (- a) (- b) = (- orelse a b)%Z.
Proof. unfold orelse. destruct (Z.eqb_spec a 0), (Z.eqb_spec (- a) 0); lia. Qed.
Lemma orelse_0 a b : orelse a b = 0%Z <-> a = 0%Z /\ b = 0%Z.
Proof. unfold orelse. destruct (Z.eqb_spec a 0); lia. Qed.
(** a comparison *)
Record order {A} (c : A -> A -> Z) : Prop := {
  o_neg : forall x y, c y x = (- c x y)%Z;
  o_trans : forall x y z, (c x y <= 0)%Z -> (c y z <= 0)%Z -> (c x z <= 0)%Z }.
Lemma order_lt {A} (c : A -> A -> Z) : order c -> forall x y z, (c x y <= 0)%Z -> (c y z <= 0)%Z -> (c x y < 0 \/ c y z < 0)%Z -> (c x z < 0)%Z.
Proof.
  intros [N T] x y z H1 H2 D. pose proof (T x y z H1 H2). destruct (Z.eq_dec (c x z) 0) as [E|]; [|lia]. exfalso.
  assert (Z1 : (c z x <= 0)%Z) by (rewrite N; lia). pose proof (T y z x H2 Z1) as A1. pose proof (T z x y Z1 H1) as A2. rewrite (N x y) in A1. rewrite (N y z) in A2. lia.
Qed.
Lemma order_lex {A} (c c' : A -> A -> Z) : order c -> order c' -> order (fun x y => orelse (c x y) (c' x y)).
Proof.
  intros O O'. constructor.
  - intros x y. rewrite (o_neg c O), (o_neg c' O'). apply orelse_neg.
  - intros x y z H1 H2. assert (E : forall a b, (orelse a b <= 0)%Z <-> (a < 0)%Z \/ a = 0%Z /\ (b <= 0)%Z) by (intros a b; unfold orelse; destruct (Z.eqb_spec a 0); lia).
    rewrite E in *. destruct H1 as [H1|[H1 H1']].
    + left. destruct H2 as [H2|[H2 _]]; apply (order_lt c O x y z); lia.
    + destruct H2 as [H2|[H2 H2']]; [left; apply (order_lt c O x y z); lia|]. right. split; [|now apply (o_trans c' O' x y z)].
      pose proof (o_trans c O x y z). assert (c z x <= 0)%Z by (apply (o_trans c O z y x); rewrite (o_neg c O); lia). rewrite (o_neg c O) in H0. lia.
Qed.
Lemma order_K {A} (f : A -> K) : order (fun x y => sign_of (f x - f y)).
Proof.
  constructor; [intros; apply sign_of_neg|]. intros x y z H1 H2. apply sign_of_le in H1. apply sign_of_le in H2. apply sign_of_le. flra.
Qed.
Definition vertices_cmp idx P Q := fold_right (fun v r => orelse (sign_of (fst (vertex P v) - fst (vertex Q v))) (orelse (sign_of (snd (vertex P v) - snd (vertex Q v))) r)) 0%Z idx.
Lemma order_vertices idx : order (vertices_cmp idx).
Proof.
  induction idx as [|v idx IH]; [split; cbn; lia|]. cbn [vertices_cmp fold_right].
  apply (order_lex (fun P Q => sign_of (fst (vertex P v) - fst (vertex Q v)))); [apply (order_K (fun P => fst (vertex P v)))|].
  apply (order_lex (fun P Q => sign_of (snd (vertex P v) - snd (vertex Q v)))); [apply (order_K (fun P => snd (vertex P v)))|exact IH].
Qed.
Definition same_n_cmp n P Q := orelse (sign_of (area P - area Q)) (vertices_cmp (seq 1 (n - 1)) P Q).
Lemma order_same_n n : order (same_n_cmp n).
Proof. unfold same_n_cmp. apply (order_lex (fun P Q => sign_of (area P - area Q))); [apply (order_K area)|apply order_vertices]. Qed.
Lemma poly_cmp_eq P Q : poly_cmp P Q = orelse (sign_nat (length P) (length Q)) (same_n_cmp (length P) P Q).
Proof. reflexivity. Qed.
Lemma order_poly : order (@poly_cmp K).
Proof.
  constructor.
  - intros P Q. rewrite !poly_cmp_eq, sign_nat_neg. unfold orelse. destruct (Z.eqb_spec (- sign_nat (length P) (length Q)) 0), (Z.eqb_spec (sign_nat (length P) (length Q)) 0); try lia.
    apply sign_nat_0 in e0. rewrite e0. apply (o_neg _ (order_same_n _)).
  - intros P Q R. rewrite !poly_cmp_eq. unfold orelse.
    pose proof (sign_nat_0 (length P) (length Q)). pose proof (sign_nat_0 (length Q) (length R)). pose proof (sign_nat_0 (length P) (length R)).
    pose proof (sign_nat_le (length P) (length Q)). pose proof (sign_nat_le (length Q) (length R)). pose proof (sign_nat_le (length P) (length R)).
    destruct (Z.eqb_spec (sign_nat (length P) (length Q)) 0), (Z.eqb_spec (sign_nat (length Q) (length R)) 0), (Z.eqb_spec (sign_nat (length P) (length R)) 0); try lia.
    assert (E : length Q = length P) by lia. rewrite E. apply (o_trans _ (order_same_n _)).
Qed.
Lemma vertices_cmp_0 idx P Q : vertices_cmp idx P Q = 0%Z <-> forall k, In k idx -> vertex P k = vertex Q k.
Proof.
  induction idx as [|v idx IH]; cbn [vertices_cmp fold_right]; [split; [intros _ k []|auto]|]. fold (vertices_cmp idx P Q). rewrite !orelse_0, IH, !sign_of_0. split.
  - intros (A & B & C) k [<-|H]; auto. now apply vec_eq.
  - intros H. rewrite (H v) by (now left). repeat split; auto. intros k Hk. apply H. now right.
Qed.
Lemma poly_cmp_0 P Q : poly_cmp P Q = 0%Z <-> length P = length Q /\ area P = area Q /\ forall k, (1 <= k < length P)%nat -> vertex P k = vertex Q k.
Proof.
  rewrite poly_cmp_eq. unfold same_n_cmp. rewrite !orelse_0, vertices_cmp_0, sign_nat_0, sign_of_0. split.
  - intros (A & B & C). repeat split; auto. intros k Hk. apply C. apply in_seq. lia.
  - intros (A & B & C). repeat split; auto. intros k Hk. apply in_seq in Hk. apply C. lia.
Qed.
Lemma vertex_nth P k : (k < length P)%nat -> vertex P k = nth k P vzero.
Proof. intros H. unfold vertex. now rewrite Nat.mod_small. Qed.
Lemma poly_cmp_eq0 P Q : (0 < length P)%nat -> vertex P 0 = vertex Q 0 -> (poly_cmp P Q = 0%Z <-> P = Q).
Proof.
  intros N V. rewrite poly_cmp_0. split; [|intros ->; auto]. intros (A & B & C). apply (nth_ext _ _ vzero vzero A). intros k Hk.
  rewrite <- !vertex_nth by lia. destruct k; auto. apply C. lia.
Qed.
Lemma poly_cmp_refl P : poly_cmp P P = 0%Z.
Proof. apply poly_cmp_0. auto. Qed.
Lemma sign_of_range (x : K) : (-1 <= sign_of x <= 1)%Z.
Proof. unfold sign_of. destruct (0 <? x), (x <? 0); lia. Qed.
Lemma poly_cmp_range P Q : (-1 <= poly_cmp P Q <= 1)%Z.
Proof.
  rewrite poly_cmp_eq. unfold orelse. destruct (Z.eqb_spec (sign_nat (length P) (length Q)) 0); [|unfold sign_nat; destruct (length Q <? length P)%nat, (length P <? length Q)%nat; lia].
  unfold same_n_cmp, orelse. destruct (Z.eqb_spec (sign_of (area P - area Q)) 0); [|apply sign_of_range]. generalize (seq 1 (length P - 1)). intros idx.
  induction idx as [|v idx IH]; cbn [vertices_cmp fold_right]; [lia|]. fold (vertices_cmp idx P Q). unfold orelse. pose proof (sign_of_range (fst (vertex P v) - fst (vertex Q v))). pose proof (sign_of_range (snd (vertex P v) - snd (vertex Q v))).
  destruct (Z.eqb_spec (sign_of (fst (vertex P v) - fst (vertex Q v))) 0), (Z.eqb_spec (sign_of (snd (vertex P v) - snd (vertex Q v))) 0); lia.
Qed.

(** ** surfaces *)
Context {L : Type} `{EL : EqB L}.
Implicit Types S T : surface K L.
Implicit Types ls : list L.
Lemma index_of_ok l ls i : index_of l ls = Ok i -> nth_error ls i = Some l.
Proof.
  revert i. induction ls as [|x ls IH]; intros i; cbn; [discriminate|]. destruct (eqb_case l x) as [[Q Q0]|[Q Q0]]; rewrite Q; [injection 1 as <-; now subst|].
  destruct (index_of l ls) as [j|] eqn:E; cbn; [|discriminate]. injection 1 as <-. now apply IH.
Qed.
Lemma index_of_nth l ls i : NoDup ls -> nth_error ls i = Some l -> index_of l ls = Ok i.
Proof.
  intros N. revert i. induction N as [|x ls Nx N IH]; intros [|i]; cbn; try discriminate.
  - injection 1 as ->. now rewrite eqb_refl.
  - intros H. destruct (eqb_case l x) as [[Q Q0]|[Q Q0]]; rewrite Q; [subst; exfalso; apply Nx; now apply nth_error_In in H|]. now rewrite (IH i H).
Qed.
Lemma orelse_r_0 a b : orelse_r a b = Ok 0%Z <-> a = Ok 0%Z /\ b = Ok 0%Z.
Proof.
  unfold orelse_r. destruct a as [x|]; cbn; [|split; [discriminate|intros [? _]; discriminate]]. destruct (Z.eqb_spec x 0); split.
  - subst. auto.
  - tauto.
  - injection 1. congruence.
  - intros [H _]. congruence.
Qed.
Lemma fold_orelse_0 (f : nat -> res Z) (r : res Z) es : fold_right (fun e r => orelse_r (f e) r) r es = Ok 0%Z <-> (forall e, In e es -> f e = Ok 0%Z) /\ r = Ok 0%Z.
Proof.
  induction es as [|e es IH]; cbn [fold_right]; [split; [intros H; split; [intros e []|auto]|tauto]|]. rewrite orelse_r_0, IH. split.
  - intros (A & B & C). split; auto. intros k [<-|H]; auto.
  - intros (A & B). split; [apply A; now left|]. split; auto. intros k H. apply A. now right.
Qed.
Lemma cmp_edge_0 S T ls1 ls2 l1 l2 e : cmp_edge S T ls1 ls2 l1 l2 e = Ok 0%Z <-> exists m1 m2 j e',
  s_opp S l1 e = Ok (Some (m1, e')) /\ s_opp T l2 e = Ok (Some (m2, e')) /\ index_of m1 ls1 = Ok j /\ index_of m2 ls2 = Ok j.
Proof.
  unfold cmp_edge, opp_or_type_error. split.
  - intros H. destruct (s_opp S l1 e) as [[[m1 e1]|]|] eqn:E1; cbn in H; try discriminate. destruct (s_opp T l2 e) as [[[m2 e2]|]|] eqn:E2; cbn in H; try discriminate.
    destruct (index_of m1 ls1) as [n1|] eqn:I1; cbn in H; try discriminate. destruct (index_of m2 ls2) as [n2|] eqn:I2; cbn in H; try discriminate.
    injection H as H. apply orelse_0 in H. destruct H as [A B]. apply sign_nat_0 in A. apply sign_nat_0 in B. subst. exists m1, m2, n2, e2. auto.
  - intros (m1 & m2 & j & e' & E1 & E2 & I1 & I2). rewrite E1, E2. cbn. rewrite I1, I2. cbn. f_equal. apply orelse_0. rewrite !sign_nat_0. auto.
Qed.
Lemma cmp_loop_0 S T ls1 ls2 ps : cmp_loop S T ls1 ls2 ps = Ok 0%Z <-> forall l1 l2, In (l1, l2) ps -> exists P1 P2, s_poly S l1 = Ok P1 /\ s_poly S l2 = Ok P2 /\
  poly_cmp P1 P2 = 0%Z /\ forall e, (e < length P1)%nat -> cmp_edge S T ls1 ls2 l1 l2 e = Ok 0%Z.
Proof.
  induction ps as [|[l1 l2] ps IH]; cbn [cmp_loop]; [split; [intros _ l1 l2 []|auto]|]. split.
  - intros H. destruct (s_poly S l1) as [P1|] eqn:E1; cbn [bind] in H; [|discriminate]. destruct (s_poly S l2) as [P2|] eqn:E2; cbn [bind] in H; [|discriminate].
    apply orelse_r_0 in H. destruct H as [A B]. injection A as A. apply fold_orelse_0 in B. destruct B as [B C].
    intros m1 m2 [E|I]; [|now apply (proj1 IH C)]. injection E as <- <-. exists P1, P2. do 3 (split; auto). intros e He. apply B. apply in_seq. lia.
  - intros H. destruct (H l1 l2) as (P1 & P2 & E1 & E2 & A & B); [now left|]. rewrite E1, E2. cbn [bind]. apply orelse_r_0. split; [now f_equal|].
    apply fold_orelse_0. split; [intros e He; apply in_seq in He; apply B; lia|]. apply IH. intros m1 m2 I. apply H. now right.
Qed.
Lemma combine_nth_error {A B} (l : list A) (l' : list B) i x y : nth_error (combine l l') i = Some (x, y) <-> nth_error l i = Some x /\ nth_error l' i = Some y.
Proof.
  revert l' i. induction l as [|a l IH]; intros [|b l'] [|i]; cbn; split; try (intros [? ?]); try discriminate; auto.
  - injection 1 as -> ->. auto.
  - congruence.
  - apply IH.
  - intros. apply IH. auto.
Qed.
Lemma surf_cmp_0 S T ls1 ls2 : NoDup ls1 -> NoDup ls2 -> (surf_cmp S T ls1 ls2 = Ok 0%Z <-> length ls1 = length ls2 /\
  forall i l1 l2, nth_error ls1 i = Some l1 -> nth_error ls2 i = Some l2 -> exists P1 P2, s_poly S l1 = Ok P1 /\ s_poly S l2 = Ok P2 /\ poly_cmp P1 P2 = 0%Z /\
   forall e, (e < length P1)%nat -> exists j m1 m2 e', s_opp S l1 e = Ok (Some (m1, e')) /\ s_opp T l2 e = Ok (Some (m2, e')) /\ nth_error ls1 j = Some m1 /\ nth_error ls2 j = Some m2).
Proof.
  intros N1 N2. unfold surf_cmp. rewrite orelse_r_0, cmp_loop_0. split.
  - intros [A B]. injection A as A. apply sign_nat_0 in A. split; auto. intros i l1 l2 H1 H2.
    destruct (B l1 l2) as (P1 & P2 & E1 & E2 & C & D). { apply (nth_error_In _ i). now apply combine_nth_error. }
    exists P1, P2. do 3 (split; auto). intros e He. apply D in He. apply cmp_edge_0 in He. destruct He as (m1 & m2 & j & e' & X1 & X2 & I1 & I2).
    exists j, m1, m2, e'. repeat split; auto; now apply index_of_ok.
  - intros [A B]. split; [f_equal; now apply sign_nat_0|]. intros l1 l2 I. apply In_nth_error in I. destruct I as [i I]. apply combine_nth_error in I. destruct I as [H1 H2].
    destruct (B i l1 l2 H1 H2) as (P1 & P2 & E1 & E2 & C & D). exists P1, P2. do 3 (split; auto). intros e He. apply D in He.
    destruct He as (j & m1 & m2 & e' & X1 & X2 & I1 & I2). apply cmp_edge_0. exists m1, m2, j, e'. do 2 (split; auto). split; now apply index_of_nth.
Qed.
Definition neg_r (r : res Z) : res Z := (x <- r ;; Ok (- x)%Z)%res.
Lemma orelse_r_neg a b a' b' z : (forall x, a = Ok x -> a' = Ok (- x)%Z) -> (a = Ok 0%Z -> forall x, b = Ok x -> b' = Ok (- x)%Z) ->
  orelse_r a b = Ok z -> orelse_r a' b' = Ok (- z)%Z.
Proof.
  intros A B. unfold orelse_r. destruct a as [x|]; cbn; [|discriminate]. rewrite (A x eq_refl). cbn. destruct (Z.eqb_spec x 0), (Z.eqb_spec (- x) 0); try lia.
  - subst. apply B. reflexivity.
  - injection 1 as <-. reflexivity.
Qed.
Lemma cmp_edge_neg S T ls1 ls2 l1 l2 e z : cmp_edge S T ls1 ls2 l1 l2 e = Ok z -> cmp_edge T S ls2 ls1 l2 l1 e = Ok (- z)%Z.
Proof.
  unfold cmp_edge, opp_or_type_error. destruct (s_opp S l1 e) as [[[m1 e1]|]|]; cbn; try discriminate. destruct (s_opp T l2 e) as [[[m2 e2]|]|]; cbn; try discriminate.
  destruct (index_of m1 ls1) as [n1|]; cbn; try discriminate. destruct (index_of m2 ls2) as [n2|]; cbn; try discriminate. injection 1 as <-. f_equal.
  rewrite (sign_nat_neg n1), (sign_nat_neg e1). apply orelse_neg.
Qed.
Lemma fold_orelse_neg (f f' : nat -> res Z) r r' es : (forall e x, f e = Ok x -> f' e = Ok (- x)%Z) -> (forall x, r = Ok x -> r' = Ok (- x)%Z) ->
  forall z, fold_right (fun e r => orelse_r (f e) r) r es = Ok z -> fold_right (fun e r => orelse_r (f' e) r) r' es = Ok (- z)%Z.
Proof.
  intros A B. induction es as [|e es IH]; cbn [fold_right]; auto. intros z. apply orelse_r_neg; auto.
Qed.
Lemma cmp_loop_neg S T ls1 ls2 ps z : (forall l1 l2, In (l1, l2) ps -> s_poly S l1 = s_poly T l1 /\ s_poly S l2 = s_poly T l2) ->
  cmp_loop S T ls1 ls2 ps = Ok z -> cmp_loop T S ls2 ls1 (map (fun p => (snd p, fst p)) ps) = Ok (- z)%Z.
Proof.
  revert z. induction ps as [|[l1 l2] ps IH]; intros z E; cbn [cmp_loop map fst snd]; [injection 1 as <-; auto|].
  destruct (E l1 l2) as [E1 E2]; [now left|]. rewrite <- E1, <- E2. destruct (s_poly S l1) as [P1|]; cbn [bind]; [|discriminate]. destruct (s_poly S l2) as [P2|]; cbn [bind]; [|discriminate].
  apply orelse_r_neg.
  - intros x H. injection H as <-. f_equal. apply (o_neg _ order_poly).
  - intros H. injection H as H. apply poly_cmp_0 in H. destruct H as [H _]. rewrite <- H. apply fold_orelse_neg; [intros e x; apply cmp_edge_neg|].
    intros x. apply IH. intros m1 m2 I. apply E. now right.
Qed.
Lemma combine_swap {A B} (l : list A) (l' : list B) : map (fun p => (snd p, fst p)) (combine l l') = combine l' l.
Proof. revert l'. induction l as [|x l IH]; intros [|y l']; cbn; auto. now rewrite IH. Qed.
Lemma surf_cmp_neg S T ls1 ls2 z : (forall l, In l ls1 \/ In l ls2 -> s_poly S l = s_poly T l) -> surf_cmp S T ls1 ls2 = Ok z -> surf_cmp T S ls2 ls1 = Ok (- z)%Z.
Proof.
  intros E. unfold surf_cmp. apply orelse_r_neg.
  - intros x H. injection H as <-. f_equal. apply sign_nat_neg.
  - intros _ x. rewrite <- (combine_swap ls1 ls2). apply cmp_loop_neg. intros l1 l2 I. split; apply E.
    + left. now apply in_combine_l in I.
    + right. now apply in_combine_r in I.
Qed.
End O.
