(** The divisions in cos_minpoly are exact. *)
From Coq Require Import List Bool ZArith Arith Lia Ring_theory InitialRing.
From Verif Require Import MBase MCos SCos PCos PCos2.
Import ListNotations.

(** ** values at integers *)
Lemma ZRth : ring_theory 0%Z 1%Z Z.add Z.mul Z.sub Z.opp eq.
Proof. split; intros; lia. Qed.
Notation ev := (value 0%Z 1%Z Z.add Z.mul Z.opp).
Lemma of_Z_Z a : of_Z 0%Z 1%Z Z.add Z.mul Z.opp a = a.
Proof.
  assert (N : forall n, of_Z 0%Z 1%Z Z.add Z.mul Z.opp (Z.of_nat n) = Z.of_nat n).
  { induction n as [|n IH]; [reflexivity|]. rewrite Nat2Z.inj_succ, <- Z.add_1_r, (zr_add 0%Z 1%Z Z.add Z.mul Z.sub Z.opp ZRth), IH. reflexivity. }
  destruct (Z_le_gt_dec 0 a) as [L|L].
  - rewrite <- (Z2Nat.id a L). apply N.
  - replace a with (- Z.of_nat (Z.to_nat (- a)))%Z at 1 by (rewrite Z2Nat.id; lia). rewrite (zr_opp 0%Z 1%Z Z.add Z.mul Z.sub Z.opp ZRth), N. rewrite Z2Nat.id; lia.
Qed.
Local Open Scope Z_scope.
Lemma ev_cons a p x : ev (a :: p) x = a + x * ev p x.
Proof. cbn [value]. now rewrite of_Z_Z. Qed.
Lemma ev_1 x : ev [1] x = 1. Proof. apply (val_one _ _ _ _ _ _ ZRth). Qed.
Lemma ev_add p q x : ev (padd p q) x = ev p x + ev q x. Proof. apply (val_add _ _ _ _ _ _ ZRth). Qed.
Lemma ev_sub p q x : ev (psub p q) x = ev p x - ev q x. Proof. apply (val_sub _ _ _ _ _ _ ZRth). Qed.
Lemma ev_opp p x : ev (popp p) x = - ev p x. Proof. apply (val_opp _ _ _ _ _ _ ZRth). Qed.
Lemma ev_mul p q x : ev (pmul p q) x = ev p x * ev q x. Proof. apply (val_mul _ _ _ _ _ _ ZRth). Qed.
Lemma ev_comp p q x : ev (pcomp p q) x = ev p (ev q x). Proof. apply (val_comp _ _ _ _ _ _ ZRth). Qed.

(** a polynomial which vanishes at all large integers is zero *)
Lemma ev_zero p : forall B, (forall x, B <= x -> ev p x = 0) -> forall i, nth i p 0 = 0.
Proof.
  induction p as [|a p IH]; intros B H i; [now destruct i|].
  assert (A : a = 0). { pose proof (H (Z.max B (Z.abs a + 1)) ltac:(lia)) as E. rewrite ev_cons in E. set (y := Z.max B (Z.abs a + 1)) in *. assert (Hy : Z.abs a < y) by lia. clearbody y. set (e := ev p y) in *. clearbody e. clear - E Hy. destruct (Z.eq_dec e 0) as [->|]; nia. }
  destruct i as [|i]; [exact A|]. cbn [nth]. apply (IH (Z.max B 1)). intros x Hx. pose proof (H x ltac:(lia)) as E. rewrite ev_cons, A in E. nia.
Qed.
Lemma ev_inj p q : (exists B, forall x, B <= x -> ev p x = ev q x) -> forall i, nth i p 0 = nth i q 0.
Proof. intros [B H] i. assert (Z : nth i (psub p q) 0 = 0). { apply (ev_zero _ B). intros x Hx. rewrite ev_sub, H by lia. lia. } rewrite nth_psub in Z. lia. Qed.
Lemma growth : forall d M r, monic d M -> below d r -> exists B, forall x, B <= x -> Z.abs (ev r x) < ev M x.
Proof.
  induction d as [|d IH]; intros M r [A C] L.
  - exists 0. intros x _. destruct M as [|m M]; [discriminate|]. cbn in A. subst m. rewrite ev_cons, (val_zeros _ _ _ _ _ _ ZRth x M) by (intros i; apply (C (S i)); lia).
    rewrite (val_zeros _ _ _ _ _ _ ZRth x r) by (intros i; apply L; lia). lia.
  - destruct M as [|m M]; [discriminate|]. assert (HM : monic d M) by (split; [exact A|intros i Hi; apply (C (S i)); lia]).
    assert (exists r0 r', (forall x, ev r x = r0 + x * ev r' x) /\ below d r') as (r0 & r' & E & L').
    { destruct r as [|r0 r']; [exists 0, nil; split; [intros x; cbn; lia|intros [|i] _; auto]|]. exists r0, r'. split; [apply ev_cons|]. intros i Hi. apply (L (S i)). lia. }
    destruct (IH M r' HM L') as [B H]. exists (Z.max B (Z.abs m + Z.abs r0 + 1)). intros x Hx. rewrite E, ev_cons. specialize (H x ltac:(lia)).
    assert (Z.abs (r0 + x * ev r' x) <= Z.abs r0 + x * Z.abs (ev r' x)) by nia. nia.
Qed.
Lemma monic_positive d M : monic d M -> exists B, forall x, B <= x -> 0 < ev M x.
Proof. intros H. destruct (growth d M nil H) as [B G]; [intros [|i] _; auto|]. exists B. intros x Hx. specialize (G x Hx). cbn in G. lia. Qed.
(** a monic polynomial which divides at all large integers divides *)
Lemma exact_division d m a q' : monic d m -> (exists B, forall x, B <= x -> ev a x = ev m x * ev q' x) ->
  exists q r, quo_rem a m = Ok (q, r) /\ forallb (Z.eqb 0) r = true /\ forall e, monic e a -> (d <= e)%nat -> monic (e - d) q.
Proof.
  intros HM [B H]. destruct (quo_rem_monic d m HM a) as (q & r & E & Q). exists q, r. split; [exact E|split; [|exact Q]].
  assert (E2 := E). unfold quo_rem in E2. rewrite (monic_trim d m HM) in E2. replace (S d - 1)%nat with d in E2 by lia. rewrite trim_ext, (proj1 HM) in E2. cbn [Z.eqb Pos.eqb] in E2. injection E2 as E2.
  assert (HT : monic d (trim m)). { destruct HM as [X Y]. split; [|intros i Hi]; rewrite trim_ext; auto. }
  destruct (divide_ok _ _ _ _ _ _ ZRth _ _ HT _ _ _ E2) as [L V].
  destruct (growth d m r HM L) as [B2 G].
  assert (Z : forall i, nth i r 0 = 0).
  { apply (ev_zero r (Z.max B B2)). intros x Hx. specialize (G x ltac:(lia)). specialize (H x ltac:(lia)). specialize (V x). rewrite (val_ext _ _ _ _ _ _ ZRth x (trim m) m) in V by apply trim_ext. rewrite V in H.
    assert (X : ev r x = ev m x * (ev q' x - ev q x)) by nia. destruct (Z.eq_dec (ev q' x - ev q x) 0) as [Y|Y]; [rewrite X, Y; lia|]. exfalso. rewrite X in G. rewrite Z.abs_mul in G. assert (1 <= Z.abs (ev q' x - ev q x)) by lia. nia. }
  apply forallb_forall. intros c Hc. destruct (In_nth _ _ 0 Hc) as (i & _ & <-). now rewrite Z.
Qed.

(** ** the integers with an element [z] such that [z + 1/z = x] *)
Section Pair.
Variable x : Z.
Definition p0 : Z * Z := (0, 0). Definition p1 : Z * Z := (1, 0).
Definition padd2 (a b : Z * Z) : Z * Z := (fst a + fst b, snd a + snd b).
Definition psub2 (a b : Z * Z) : Z * Z := (fst a - fst b, snd a - snd b).
Definition popp2 (a : Z * Z) : Z * Z := (- fst a, - snd a).
Definition pmul2 (a b : Z * Z) : Z * Z := (fst a * fst b - snd a * snd b, fst a * snd b + snd a * fst b + x * (snd a * snd b)).
Lemma pair_ring : ring_theory p0 p1 padd2 pmul2 psub2 popp2 eq.
Proof.
  split; intros; repeat match goal with a : Z * Z |- _ => destruct a end; unfold padd2, psub2, popp2, pmul2, p0, p1; cbn [fst snd]; f_equal; ring.
Qed.
Lemma pair_of_Z a : of_Z p0 p1 padd2 pmul2 popp2 a = (a, 0).
Proof.
  assert (N : forall n, of_Z p0 p1 padd2 pmul2 popp2 (Z.of_nat n) = (Z.of_nat n, 0)).
  { induction n as [|n IH]; [reflexivity|]. rewrite Nat2Z.inj_succ, <- Z.add_1_r, (zr_add _ _ _ _ _ _ pair_ring), IH. reflexivity. }
  destruct (Z_le_gt_dec 0 a) as [L|L].
  - rewrite <- (Z2Nat.id a L). apply N.
  - replace a with (- Z.of_nat (Z.to_nat (- a))) at 1 by (rewrite Z2Nat.id; lia). rewrite (zr_opp _ _ _ _ _ _ pair_ring), N. unfold popp2. cbn [fst snd]. f_equal; rewrite ?Z2Nat.id; lia.
Qed.
Lemma pair_value p y : value p0 p1 padd2 pmul2 popp2 p (y, 0) = (ev p y, 0).
Proof.
  induction p as [|a p IH]; [reflexivity|]. rewrite ev_cons. cbn [value]. rewrite IH, pair_of_Z. unfold padd2, pmul2. cbn [fst snd]. f_equal; ring.
Qed.
Definition pz : Z * Z := (0, 1). Definition pi : Z * Z := (x, -1).
Lemma pz_pi : pmul2 pz pi = p1.
Proof. unfold pmul2, pz, pi, p1. cbn [fst snd]. f_equal; ring. Qed.
Lemma pz_sum : padd2 pz pi = (x, 0).
Proof. unfold padd2, pz, pi. cbn [fst snd]. f_equal; ring. Qed.
Lemma pz_cancel a b : pmul2 (padd2 pz p1) (a, 0) = pmul2 (padd2 pz p1) (b, 0) -> a = b.
Proof. unfold pmul2, padd2, pz, p1. cbn [fst snd]. intros E. apply (f_equal snd) in E. cbn [snd] in E. lia. Qed.
End Pair.

Definition odd_poly (k : nat) : poly := if (k =? 0)%nat then [1] else podd_prime (2 * k + 1).
Lemma odd_poly_monic k : monic k (odd_poly k).
Proof.
  unfold odd_poly. destruct (Nat.eqb_spec k 0) as [->|N]; [|apply odd_prime_monic; lia]. split; auto. intros [|[|i]] Hi; auto; lia.
Qed.
Section OddPoly.
Context {R : Type} (r0 r1 : R) (radd rmul rsub : R -> R -> R) (ropp : R -> R) (Rth : ring_theory r0 r1 radd rmul rsub ropp eq).
Let Rth' := Rth.
Add Ring RRO : Rth'.
Notation pw := (pow r1 rmul).
Notation val := (value r0 r1 radd rmul ropp).
Local Infix "+!" := radd (at level 50, left associativity). Local Infix "*!" := rmul (at level 40, left associativity).
Lemma odd_poly_value z w k : z *! w = r1 -> (z +! r1) *! val (odd_poly k) (z +! w) = pw w k +! pw z (S k).
Proof.
  intros H. unfold odd_poly. destruct (Nat.eqb_spec k 0) as [->|N].
  - cbn. ring.
  - rewrite (val_podd _ _ _ _ _ _ Rth), (odd_prime_ok _ _ _ _ _ _ Rth) by (auto; lia). now rewrite Nat.add_1_r.
Qed.
Lemma odd_poly_product z w k : z *! w = r1 -> (z +! r1) *! val (odd_poly k) (z +! w) = pw w k *! (pw z (2 * k + 1) +! r1).
Proof.
  intros H. rewrite odd_poly_value by auto. replace (2 * k + 1)%nat with (k + S k)%nat by lia. rewrite (pw_add _ _ _ _ _ _ Rth).
  transitivity (pw w k +! (pw z k *! pw w k) *! pw z (S k)); [rewrite (pw_inv _ _ _ _ _ _ Rth z w k H); ring|ring].
Qed.
(** the polynomial of a product *)
Lemma odd_poly_mul z w k l : z *! w = r1 ->
  (z +! r1) *! (val (odd_poly k) (pw z (2 * l + 1) +! pw w (2 * l + 1)) *! val (odd_poly l) (z +! w)) = (z +! r1) *! val (odd_poly (2 * k * l + k + l)) (z +! w).
Proof.
  intros H. rewrite (odd_poly_product z w (2 * k * l + k + l) H). set (b := (2 * l + 1)%nat).
  transitivity (pw w l *! ((pw z b +! r1) *! val (odd_poly k) (pw z b +! pw w b))).
  - transitivity ((z +! r1) *! val (odd_poly l) (z +! w) *! val (odd_poly k) (pw z b +! pw w b)); [ring|]. rewrite odd_poly_product by auto. fold b. ring.
  - rewrite odd_poly_product by (now apply (pw_inv _ _ _ _ _ _ Rth)). rewrite <- !(pw_mul _ _ _ _ _ _ Rth).
    replace (2 * (2 * k * l + k + l) + 1)%nat with (b * (2 * k + 1))%nat by (unfold b; lia). replace (2 * k * l + k + l)%nat with (l + b * k)%nat by (unfold b; lia). rewrite (pw_add _ _ _ _ _ _ Rth w l). ring.
Qed.
Definition mirror (l j : nat) : nat := if (j <=? l)%nat then (l - j)%nat else (j - l - 1)%nat.
Lemma odd_poly_sum z w j l : z *! w = r1 ->
  (z +! r1) *! (val (pcheb j) (z +! w) *! val (odd_poly l) (z +! w)) = (z +! r1) *! (val (odd_poly (l + j)) (z +! w) +! val (odd_poly (mirror l j)) (z +! w)).
Proof.
  intros H. rewrite (pcheb_value _ _ _ _ _ _ Rth) by auto.
  transitivity ((pw z j +! pw w j) *! ((z +! r1) *! val (odd_poly l) (z +! w))); [ring|].
  transitivity ((z +! r1) *! val (odd_poly (l + j)) (z +! w) +! (z +! r1) *! val (odd_poly (mirror l j)) (z +! w)); [|ring]. rewrite !odd_poly_value by auto.
  unfold mirror. destruct (Nat.leb_spec j l) as [L|L].
  - replace l with (l - j + j)%nat at 1 2 3 4 by lia. generalize (l - j)%nat. intros e. cbn [pow]. replace (e + j + j)%nat with (e + (j + j))%nat by lia. rewrite !(pw_add _ _ _ _ _ _ Rth).
    transitivity (pw z j *! pw w j *! (pw w e +! z *! pw z e) +! pw w e *! (pw w j *! pw w j) +! z *! (pw z e *! (pw z j *! pw z j))); [ring|]. rewrite (pw_inv _ _ _ _ _ _ Rth z w j H). ring.
  - replace j with (S (j - l - 1) + l)%nat at 1 2 3 4 by lia. generalize (j - l - 1)%nat. intros e. replace (l + (S e + l))%nat with (S e + (l + l))%nat by lia. cbn [pow plus]. rewrite !(pw_add _ _ _ _ _ _ Rth).
    transitivity (pw z l *! pw w l *! (z *! pw z e) +! (z *! w) *! (pw z l *! pw w l) *! pw w e +! w *! (pw w e *! (pw w l *! pw w l)) +! z *! (z *! (pw z e *! (pw z l *! pw z l)))); [ring|]. rewrite (pw_inv _ _ _ _ _ _ Rth z w l H), H. ring.
Qed.
End OddPoly.

Notation T := pcheb.
Notation O := odd_poly.
Lemma ev_T x n : (ev (T n) x, 0) = padd2 (pow p1 (pmul2 x) pz n) (pow p1 (pmul2 x) (pi x) n).
Proof. rewrite <- (pair_value x), <- pz_sum. apply (pcheb_value _ _ _ _ _ _ (pair_ring x)). apply pz_pi. Qed.
Lemma T_comp m n x : ev (T m) (ev (T n) x) = ev (T (n * m)) x.
Proof.
  assert (E : (ev (T m) (ev (T n) x), 0) = (ev (T (n * m)) x, 0)); [|now injection E].
  rewrite <- (pair_value x), !ev_T, (pcheb_value _ _ _ _ _ _ (pair_ring x)) by (apply (pw_inv _ _ _ _ _ _ (pair_ring x)), pz_pi). now rewrite !(pw_mul _ _ _ _ _ _ (pair_ring x)).
Qed.
Lemma T_comm m n x : ev (T m) (ev (T n) x) = ev (T n) (ev (T m) x).
Proof. now rewrite !T_comp, Nat.mul_comm. Qed.
Lemma O_mul k l x : ev (O k) (ev (T (2 * l + 1)) x) * ev (O l) x = ev (O (2 * k * l + k + l)) x.
Proof.
  apply (pz_cancel x). pose proof (odd_poly_mul _ _ _ _ _ _ (pair_ring x) pz (pi x) k l (pz_pi x)) as E. rewrite <- ev_T, pz_sum, !pair_value in E. rewrite <- E. f_equal. unfold pmul2. cbn [fst snd]. f_equal; ring.
Qed.
Lemma O_swap k l x : ev (O k) (ev (T (2 * l + 1)) x) * ev (O l) x = ev (O l) (ev (T (2 * k + 1)) x) * ev (O k) x.
Proof. rewrite !O_mul. do 2 f_equal. lia. Qed.
Lemma O_sum j l x : ev (T j) x * ev (O l) x = ev (O (l + j)) x + ev (O (mirror l j)) x.
Proof.
  apply (pz_cancel x). pose proof (odd_poly_sum _ _ _ _ _ _ (pair_ring x) pz (pi x) j l (pz_pi x)) as E. rewrite pz_sum, !pair_value in E.
  transitivity (pmul2 x (padd2 pz p1) (pmul2 x (ev (T j) x, 0) (ev (O l) x, 0))); [|rewrite E; f_equal]. f_equal. unfold pmul2. cbn [fst snd]. f_equal; ring.
Qed.

Definition coprime (a b : nat) : Prop := forall d, Nat.divide d a -> Nat.divide d b -> d = 1%nat.
Definition bezout (k l : nat) : Prop := exists U V, forall x, ev U x * ev (O k) x + ev V x * ev (O l) x = 1.
Lemma bezout_sym k l : bezout k l -> bezout l k.
Proof. intros (U & V & H). exists V, U. intros x. specialize (H x). lia. Qed.
Lemma bezout_step k l : (l < k)%nat -> bezout (mirror l (k - l)) l -> bezout k l.
Proof.
  intros L (U & V & H). exists (popp U), (padd (pmul U (T (k - l))) V). intros x. specialize (H x). pose proof (O_sum (k - l) l x) as E. replace (l + (k - l))%nat with k in E by lia.
  rewrite ev_opp, ev_add, ev_mul. etransitivity; [|exact H]. replace (ev (O k) x) with (ev (T (k - l)) x * ev (O l) x - ev (O (mirror l (k - l))) x) by lia. ring.
Qed.
Lemma mirror_coprime k l : (l < k)%nat -> coprime (2 * k + 1) (2 * l + 1) -> coprime (2 * mirror l (k - l) + 1) (2 * l + 1).
Proof.
  intros L C d [u Hu] [v Hv]. apply C; [|now exists v]. unfold mirror in Hu. destruct (Nat.leb_spec (k - l) l) as [M|M].
  - exists (2 * v - u)%nat. rewrite Nat.mul_sub_distr_r. lia.
  - exists (2 * v + u)%nat. lia.
Qed.
Lemma bezout_ok : forall n k l, (k + l < n)%nat -> coprime (2 * k + 1) (2 * l + 1) -> bezout k l.
Proof.
  induction n as [|n IH]; intros k l L C; [lia|].
  assert (S : forall k l, (k + l < S n)%nat -> (l < k)%nat -> coprime (2 * k + 1) (2 * l + 1) -> bezout k l).
  { clear k l L C. intros k l L G C. apply bezout_step; auto. apply IH; [|now apply mirror_coprime]. unfold mirror. destruct (Nat.leb_spec (k - l) l); lia. }
  destruct (Nat.lt_trichotomy k l) as [G|[->|G]].
  - apply bezout_sym, S; auto; [lia|]. intros d A B. now apply C.
  - assert (l = 0)%nat as -> by (specialize (C (2 * l + 1)%nat (Nat.divide_refl _) (Nat.divide_refl _)); lia). exists [1], nil. intros x. change (O 0) with [1]. rewrite ev_1. cbn [value]. lia.
  - apply S; auto.
Qed.

(** ** the divisions are exact *)
Lemma ev_cancel d M p q : monic d M -> (forall x, ev M x * ev p x = ev M x * ev q x) -> forall x, ev p x = ev q x.
Proof.
  intros HM H. destruct (monic_positive d M HM) as [B P]. intros x. apply (val_ext _ _ _ _ _ _ ZRth). apply ev_inj. exists B. intros y Hy. specialize (P y Hy). specialize (H y). nia.
Qed.
Lemma ev_cancel2 d M H k p q : monic d M -> (forall x, ev M x = ev H x * ev k x) -> (forall x, ev H x * ev p x = ev H x * ev q x) -> forall x, ev p x = ev q x.
Proof. intros HM E X. apply (ev_cancel d M); auto. intros x. rewrite E. specialize (X x). transitivity (ev k x * (ev H x * ev p x)); [ring|]. rewrite X. ring. Qed.
Lemma O_divides k l : coprime (2 * k + 1) (2 * l + 1) -> exists E, forall x, ev (O k) (ev (T (2 * l + 1)) x) = ev (O k) x * ev E x.
Proof.
  intros C. destruct (bezout_ok (S (k + l)) k l ltac:(lia) C) as (U & V & H).
  exists (padd (pmul U (pcomp (O k) (T (2 * l + 1)))) (pmul V (pcomp (O l) (T (2 * k + 1))))). intros x. rewrite ev_add, !ev_mul, !ev_comp. specialize (H x). pose proof (O_swap k l x) as S.
  set (a := ev (O k) (ev (T (2 * l + 1)) x)) in *. set (b := ev (O l) (ev (T (2 * k + 1)) x)) in *. transitivity (a * (ev U x * ev (O k) x + ev V x * ev (O l) x)); [rewrite H; ring|].
  transitivity (ev U x * (a * ev (O k) x) + ev V x * (a * ev (O l) x)); [ring|]. rewrite S. ring.
Qed.
(** [M] and [H] are complementary factors of the polynomial of the odd number [2 N + 1], and they divide their compositions with Chebyshev polynomials *)
Record divides_all (N : nat) (d : nat) (M H : poly) : Prop := {
  da_monic : monic d M;
  da_product : forall x, ev M x * ev H x = ev (O N) x;
  da_divides : forall k, coprime (2 * N + 1) (2 * k + 1) ->
    exists A B, (forall x, ev M (ev (T (2 * k + 1)) x) = ev M x * ev A x) /\ (forall x, ev H (ev (T (2 * k + 1)) x) = ev H x * ev B x) }.
Lemma da_start k : divides_all k k (O k) [1].
Proof.
  split.
  - apply odd_poly_monic.
  - intros x. rewrite ev_1. lia.
  - intros l C. destruct (O_divides k l C) as [E H]. exists E, [1]. split; auto. intros x. now rewrite !ev_1.
Qed.
(** the factors of the quotient *)
Lemma da_quotient N d M H k A B : divides_all N d M H -> (forall x, ev M (ev (T (2 * k + 1)) x) = ev M x * ev A x) -> (forall x, ev H (ev (T (2 * k + 1)) x) = ev H x * ev B x) ->
  forall x, ev A x * ev B x * ev (O k) x = ev (O k) (ev (T (2 * N + 1)) x).
Proof.
  intros [D1 D2 D3] HA HB x. rewrite <- (ev_mul A B), <- ev_mul, <- ev_comp. revert x. apply (ev_cancel N (O N)); [apply odd_poly_monic|]. intros x. rewrite !ev_mul, ev_comp.
  pose proof (O_swap N k x) as S. rewrite (Z.mul_comm (ev (O N) x) (ev (O k) (ev (T (2 * N + 1)) x))), <- S, <- (D2 (ev (T (2 * k + 1)) x)), HA, HB, <- D2. ring.
Qed.
Lemma da_step N d M H k A B : divides_all N d M H -> (1 <= k)%nat -> coprime (2 * N + 1) (2 * k + 1) ->
  (forall x, ev M (ev (T (2 * k + 1)) x) = ev M x * ev A x) -> (forall x, ev H (ev (T (2 * k + 1)) x) = ev H x * ev B x) ->
  (forall l, coprime ((2 * N + 1) * (2 * k + 1)) (2 * l + 1) -> coprime (2 * N + 1) (2 * l + 1) /\ coprime (2 * k + 1) (2 * l + 1)) ->
  monic (d * (2 * k)) A -> divides_all (2 * N * k + N + k) (d * (2 * k)) A (pmul B (pmul (O N) (O k))).
Proof.
  intros D Hk C HA HB HC MA. pose proof (da_quotient N d M H k A B D HA HB) as Q. destruct D as [D1 D2 D3]. split; auto.
  - intros x. rewrite !ev_mul. rewrite <- O_mul, O_swap. rewrite <- Q. ring.
  - intros l Cl. replace (2 * (2 * N * k + N + k) + 1)%nat with ((2 * N + 1) * (2 * k + 1))%nat in Cl by lia. destruct (HC l Cl) as [C1 C2].
    destruct (D3 l C1) as (Am & Bm & HAm & HBm). pose proof (da_quotient N d M H l Am Bm (Build_divides_all _ _ _ _ D1 D2 D3) HAm HBm) as Qm.
    destruct (bezout_ok (S (k + l)) k l ltac:(lia) C2) as (U & V & BZ). destruct (O_divides k l C2) as [E HE].
    assert (K1 : forall x, ev A (ev (T (2 * l + 1)) x) * ev Am x = ev A x * ev Am (ev (T (2 * k + 1)) x)).
    { intros x. rewrite <- !ev_comp, <- !ev_mul. revert x. apply (ev_cancel d M); auto. intros x. rewrite !ev_mul, !ev_comp.
      transitivity (ev M (ev (T (2 * l + 1)) x) * ev A (ev (T (2 * l + 1)) x)); [rewrite HAm; ring|]. rewrite <- HA, T_comm, HAm, HA. ring. }
    assert (K2 : forall x, ev B (ev (T (2 * l + 1)) x) * ev Bm x = ev B x * ev Bm (ev (T (2 * k + 1)) x)).
    { intros x. rewrite <- !ev_comp, <- !ev_mul. revert x. apply (ev_cancel2 N (O N) H M); [apply odd_poly_monic|intros x; rewrite <- D2; ring|]. intros x. rewrite !ev_mul, !ev_comp.
      transitivity (ev H (ev (T (2 * l + 1)) x) * ev B (ev (T (2 * l + 1)) x)); [rewrite HBm; ring|]. rewrite <- HB, T_comm, HBm, HB. ring. }
    exists (padd (pmul (pcomp Am (T (2 * k + 1))) (pmul (pcomp V (T (2 * N + 1))) (pmul Bm (O l)))) (pmul (pcomp A (T (2 * l + 1))) (pmul (pcomp U (T (2 * N + 1))) (pmul B (O k))))),
      (pmul (pcomp Bm (T (2 * k + 1))) (pmul Am E)). split; intros x.
    + rewrite ev_add, !ev_mul, !ev_comp. pose proof (BZ (ev (T (2 * N + 1)) x)) as Z. rewrite <- Q, <- Qm in Z. set (u := ev U _) in *. set (v := ev V _) in *. specialize (K1 x). set (a := ev A (ev (T (2 * l + 1)) x)) in *.
      transitivity (a * (u * (ev A x * ev B x * ev (O k) x) + v * (ev Am x * ev Bm x * ev (O l) x))); [rewrite Z; ring|].
      transitivity (ev A x * (a * (u * ev B x * ev (O k) x)) + (a * ev Am x) * (v * ev Bm x * ev (O l) x)); [ring|]. rewrite K1. ring.
    + rewrite !ev_mul, !ev_comp, HE, <- (D2 (ev (T (2 * l + 1)) x)), HAm, HBm, <- D2. specialize (K2 x).
      transitivity (ev B (ev (T (2 * l + 1)) x) * ev Bm x * (ev M x * ev Am x * ev H x * (ev (O k) x * ev E x))); [ring|]. rewrite K2. ring.
Qed.
