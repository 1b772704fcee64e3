(** C76: Chebyshev polynomials and the polynomials of 2 cos(pi/n). *)
From Coq Require Import List Bool ZArith Arith Lia Ring_theory InitialRing.
From Verif Require Import MBase MCos SCos PCos PCos2 PCos3 PCos4.
Import ListNotations.

Section C76.
Context {R : Type} (r0 r1 : R) (radd rmul rsub : R -> R -> R) (ropp : R -> R) (Rth : ring_theory r0 r1 radd rmul rsub ropp eq).
Let Rth' := Rth.
Add Ring RRT : Rth'.
Notation pw := (pow r1 rmul).
Local Infix "+!" := radd (at level 50, left associativity). Local Infix "*!" := rmul (at level 40, left associativity).

(** In every commutative ring: [chebyshev_T(n, z + 1/z)] is [z^n + 1/z^n]. *)
Theorem C76_chebyshev : forall z w n, z *! w = r1 -> chebyshev_T r1 radd rmul rsub n (z +! w) = pw z n +! pw w n.
Proof. intros. now apply (cheb_powers _ _ _ _ _ _ Rth). Qed.

(** [chebyshev_T(n, 2 cos(t))] is [2 cos(n t)], where [cos(n t)] and [sin(n t)] are given by the powers of the rotation matrix. *)
Theorem C76_rotation : forall c s n, c *! c +! s *! s = r1 ->
  chebyshev_T r1 radd rmul rsub n (c +! c) = fst (rotation r0 r1 radd rmul ropp c s n) +! fst (rotation r0 r1 radd rmul ropp c s n).
Proof. intros. now apply (cheb_rotation _ _ _ _ _ _ Rth). Qed.

(** [_cos_minpoly_odd_prime(p, z + 1/z)] is [(z^p + 1) / (z + 1)] divided by [z^((p - 1) / 2)], for every odd number [p > 1]. *)
Theorem C76_odd_prime : forall z w k, z *! w = r1 -> (1 <= k)%nat ->
  pw z k *! ((z +! r1) *! cos_minpoly_odd_prime r1 radd rmul rsub ropp (2 * k + 1) (z +! w)) = pw z (2 * k + 1) +! r1.
Proof.
  intros z w k H Hk. rewrite (odd_prime_ok _ _ _ _ _ _ Rth) by auto. replace (2 * k + 1)%nat with (k + (k + 1))%nat by lia. rewrite (pw_add _ _ _ _ _ _ Rth z k (k + 1)).
  transitivity (pw z k *! pw z (k + 1) +! pw z k *! pw w k); [ring|]. now rewrite (pw_inv _ _ _ _ _ _ Rth).
Qed.

(** ** orders *)
Hypothesis NZ : no_zero_divisors r0 r1 rmul.
Hypothesis two : r1 <> ropp r1.
Lemma square_root x : x *! x = r1 -> x = r1 \/ x = ropp r1.
Proof.
  intros E. assert (X : (rsub x r1) *! (x +! r1) = r0) by (transitivity (rsub (x *! x) r1); [ring|]; rewrite E; ring).
  destruct (proj2 NZ _ _ X) as [Y|Y]; [left; transitivity (rsub x r1 +! r1); [ring|]|right; transitivity (rsub (x +! r1) r1); [ring|]]; rewrite Y; ring.
Qed.
Lemma one_pow n : pw r1 n = r1.
Proof. induction n as [|n IH]; cbn [pow]; auto. rewrite IH. ring. Qed.
Lemma minus_one_odd k : pw (ropp r1) (2 * k + 1) = ropp r1.
Proof. rewrite (pw_add _ _ _ _ _ _ Rth), (pw_mul _ _ _ _ _ _ Rth). replace (pw (ropp r1) 2) with r1 by (cbn; ring). rewrite one_pow. cbn. ring. Qed.
Lemma prime_factor : forall n e, (2 <= e <= n)%nat -> exists q, is_prime q /\ Nat.divide q e.
Proof.
  induction n as [|n IH]; intros e H; [lia|].
  destruct (existsb (fun a => (2 <=? a)%nat && (a <? e)%nat && (e mod a =? 0)%nat) (seq 0 e)) eqn:X.
  - apply existsb_exists in X. destruct X as (a & _ & Ha). apply andb_prop in Ha. destruct Ha as [Ha Hm]. apply andb_prop in Ha. destruct Ha as [H1 H2]. apply Nat.leb_le in H1. apply Nat.ltb_lt in H2. apply Nat.eqb_eq in Hm.
    destruct (IH a ltac:(lia)) as (q & Q1 & [c Hc]). exists q. split; auto. apply Nat.mod_divides in Hm; [|lia]. destruct Hm as [b Hb]. exists (b * c)%nat. rewrite Hb, Hc. lia.
  - exists e. split; [|exists 1%nat; lia]. split; [lia|]. intros a b E. destruct (Nat.eq_dec a 1) as [|A1]; auto. destruct (Nat.eq_dec a e) as [->|Ae]; [right; nia|]. exfalso.
    assert (existsb (fun a => (2 <=? a)%nat && (a <? e)%nat && (e mod a =? 0)%nat) (seq 0 e) = true); [|congruence].
    apply existsb_exists. exists a. assert (a <> 0 /\ b <> 0)%nat by (split; intros ->; lia). assert (a < e)%nat by nia. split; [apply in_seq; lia|].
    rewrite (proj2 (Nat.leb_le 2 a)), (proj2 (Nat.ltb_lt a e)) by lia. cbn. apply Nat.eqb_eq. rewrite E, Nat.mul_comm. apply Nat.mod_mul. lia.
Qed.
Lemma common_period z m n : (0 < m)%nat -> pw z m = r1 -> pw z n = r1 -> pw z (Nat.gcd m n) = r1.
Proof.
  intros H E F. destruct (Nat.gcd_bezout_pos m n H) as (a & b & Hab). assert (X : pw z (m * a) = pw z (Nat.gcd m n + n * b)) by (f_equal; lia).
  rewrite (pw_add _ _ _ _ _ _ Rth), !(pw_mul _ _ _ _ _ _ Rth), E, F, !one_pow in X. transitivity (pw z (Nat.gcd m n) *! r1); [ring|]. now symmetry.
Qed.
Lemma primitive_order n z : (1 <= n)%nat -> (primitive_root r1 rmul ropp n z <-> has_order r1 rmul z (2 * n)).
Proof.
  intros Hn. split.
  - intros [P1 P2]. assert (E2 : pw z (2 * n) = r1). { rewrite Nat.mul_comm, (pw_mul _ _ _ _ _ _ Rth), P1. cbn. ring. } split; auto. intros m Hm E.
    pose proof (common_period z m (2 * n) ltac:(lia) E E2) as G. set (g := Nat.gcd m (2 * n)) in *.
    destruct (Nat.gcd_divide_l m (2 * n)) as [c Hc]. destruct (Nat.gcd_divide_r m (2 * n)) as [e He]. fold g in Hc, He.
    destruct (prime_factor e e) as (q & Q & [f Hf]). { assert (g <= m)%nat by (destruct c; nia). assert (e <> 0 /\ e <> 1)%nat by (split; intros ->; lia). lia. }
    assert (F : pw z (f * g) = r1) by (rewrite Nat.mul_comm, (pw_mul _ _ _ _ _ _ Rth), G; apply one_pow).
    assert (D : (2 * n = q * (f * g))%nat) by (rewrite He, Hf; lia). destruct (Nat.eq_dec q 2) as [->|N].
    + assert (f * g = n)%nat as Ef by lia. rewrite Ef, P1 in F. now apply two.
    + destruct (prime_divides q 2 n Q) as [X|[n' Hn']]; [exists (f * g)%nat; lia| |].
      * destruct X as [y Hy]. destruct Q as [Q _]. destruct y as [|[|y]]; lia.
      * assert (f * g = n' * 2)%nat as Ef by (destruct Q as [Q _]; nia). rewrite Ef, (pw_mul _ _ _ _ _ _ Rth) in F.
        assert (F' : pw z n' *! pw z n' = r1) by (transitivity (pw (pw z n') 2); [cbn; ring|exact F]). destruct (square_root _ F') as [X|X].
        -- apply two. transitivity (pw z n); [|exact P1]. rewrite Hn', (pw_mul _ _ _ _ _ _ Rth), X. symmetry. apply one_pow.
        -- apply (P2 q n'); auto. lia.
  - intros [O1 O2]. split.
    + rewrite Nat.mul_comm, (pw_mul _ _ _ _ _ _ Rth) in O1. assert (F' : pw z n *! pw z n = r1) by (transitivity (pw (pw z n) 2); [cbn; ring|exact O1]). destruct (square_root _ F') as [X|X]; auto.
      exfalso. apply (O2 n); auto. lia.
    + intros q m Q Q2 E X. apply (O2 (m * 2)%nat); [destruct Q as [Q _]; split; nia|]. rewrite (pw_mul _ _ _ _ _ _ Rth), X. cbn. ring.
Qed.
End C76.

(** [cos_minpoly(n)] never fails for [n >= 1].
    Its result is monic and has degree [phi(2 n) / 2], where [phi] is Euler's totient function.
    In every commutative ring without zero divisors in which 2 and the prime factors of [n] do not vanish (for example in the complex numbers),
    its value at [z + 1/z] is zero if and only if [z] is a root of unity of order [2 n]. *)
Theorem C76_minpoly_partial : forall n facs, factorization n facs ->
  exists M d, cos_minpoly facs = Ok M /\ monic_of_degree d M /\
    (2 * d = if (n =? 1)%nat then 2 else if Nat.even n then 2 * totient_product facs else totient_product facs)%nat /\
    forall (R : Type) (r0 r1 : R) radd rmul rsub ropp, ring_theory r0 r1 radd rmul rsub ropp eq -> no_zero_divisors r0 r1 rmul -> r1 <> ropp r1 ->
      (forall q, is_prime q -> q <> 2%nat -> Nat.divide q n -> of_Z r0 r1 radd rmul ropp (Z.of_nat q) <> r0) ->
      forall z w, rmul z w = r1 -> (value r0 r1 radd rmul ropp M (radd z w) = r0 <-> has_order r1 rmul z (2 * n)).
Proof.
  intros n facs F. destruct (minpoly_total n facs F) as (M & E & SM).
  assert (Hn : (1 <= n)%nat).
  { destruct F as [F1 _ ->]. clear - F1. induction facs as [|[p a] l IH]; cbn [fold_right fst snd]; [lia|]. specialize (IH (fun p a h => F1 p a (or_intror h))). destruct (F1 p a (or_introl eq_refl)) as [[G _] _].
    assert (p ^ a <> 0)%nat by (apply Nat.pow_nonzero; lia). nia. }
  assert (D : exists d, monic_of_degree d M /\ (2 * d = if (n =? 1)%nat then 2 else if Nat.even n then 2 * totient_product facs else totient_product facs)%nat).
  { destruct (Nat.eqb_spec n 1) as [->|N].
    - exists 1%nat. split; auto. assert (facs = []) as ->.
      { destruct F as [F1 _ F3]. destruct facs as [|[p a] l]; auto. exfalso. cbn [fold_right fst snd] in F3. destruct (F1 p a (or_introl eq_refl)) as [[G _] Ha]. destruct a as [|a]; [lia|]. rewrite Nat.pow_succ_r' in F3.
        symmetry in F3. apply Nat.eq_mul_1 in F3. destruct F3 as [F3 _]. apply Nat.eq_mul_1 in F3. lia. }
      injection E as <-. split; [reflexivity|]. intros [|[|i]] Hi; try lia. now destruct i.
    - pose proof (minpoly_monic n facs F ltac:(lia)) as X. rewrite E in X. destruct X as (d & X1 & X2). now exists d. }
  destruct D as (d & D1 & D2). exists M, d. split; [exact E|split; [exact D1|split; [exact D2|]]]. intros R r0 r1 radd rmul rsub ropp Rth NZ Two NP z w H.
  rewrite <- (primitive_order r0 r1 radd rmul rsub ropp Rth NZ Two n z Hn). split.
  - apply (SM R r0 r1 radd rmul rsub ropp Rth NZ NP z w H).
  - apply (rooted_minpoly r0 r1 radd rmul rsub ropp Rth NZ n facs M F E z w H).
Qed.
Print Assumptions C76_chebyshev.
Print Assumptions C76_rotation.
Print Assumptions C76_odd_prime.
Print Assumptions C76_minpoly_partial.

(** ** examples: the documented polynomials *)
Definition trimmed (r : res poly) : res poly := match r with Ok p => Ok (trim p) | Err x => Err x end.
Local Open Scope Z_scope.
Example C76_ex_small :
  map trimmed [cos_minpoly []; cos_minpoly [(2, 1)]; cos_minpoly [(3, 1)]; cos_minpoly [(2, 2)]; cos_minpoly [(5, 1)]; cos_minpoly [(2, 1); (3, 1)]; cos_minpoly [(2, 3)]; cos_minpoly [(3, 2)]; cos_minpoly [(2, 1); (5, 1)]]%nat
  = map Ok [[2; 1]; [0; 1]; [-1; 1]; [-2; 0; 1]; [-1; -1; 1]; [-3; 0; 1]; [2; 0; -4; 0; 1]; [-1; -3; 0; 1]; [5; 0; -5; 0; 1]].
Proof. vm_compute. reflexivity. Qed.
Example C76_ex_90 : trimmed (cos_minpoly [(2, 1); (3, 2); (5, 1)]%nat) =
  Ok [1; 0; -72; 0; 1182; 0; -6623; 0; 17523; 0; -26169; 0; 24206; 0; -14553; 0; 5796; 0; -1519; 0; 252; 0; -24; 0; 1].
Proof. vm_compute. reflexivity. Qed.
Example C76_ex_odd_prime : map (fun p => trim (podd_prime p)) [3; 5; 7; 11]%nat = [[-1; 1]; [-1; -1; 1]; [1; -2; -1; 1]; [-1; 3; 3; -4; -1; 1]].
Proof. vm_compute. reflexivity. Qed.
Lemma small_prime p : (2 <= p)%nat -> forallb (fun a => negb (Nat.eqb (p mod a) 0)) (seq 2 (p - 2)) = true -> is_prime p.
Proof.
  intros H F. split; auto. intros a b E. destruct (Nat.eq_dec a 1) as [|A1]; auto. destruct (Nat.eq_dec b 1) as [|B1]; auto. exfalso. rewrite forallb_forall in F.
  assert (a <> 0 /\ b <> 0)%nat by (split; intros ->; lia). assert (I : In a (seq 2 (p - 2))) by (apply in_seq; nia). specialize (F a I). rewrite E, Nat.mul_comm, Nat.mod_mul in F by lia. discriminate.
Qed.
Example C76_factorization_90 : factorization 90 [(2, 1); (3, 2); (5, 1)]%nat.
Proof.
  split.
  - intros p a [X|[X|[X|[]]]]; injection X as <- <-; (split; [apply small_prime; [lia|reflexivity]|lia]).
  - intros [|[|[|i]]] [|[|[|j]]] p a q b L; cbn; intros X Y; try lia; try discriminate; try (injection X as <- <-; injection Y as <- <-; lia); try (destruct j; discriminate); destruct i; discriminate.
  - reflexivity.
Qed.
(** the hypotheses are met for [n = 3] by the ring generated by a root of unity of order 6 *)
Lemma eisenstein_domain : no_zero_divisors p0 p1 (pmul2 1).
Proof.
  split; [discriminate|]. intros [a b] [c d] E. unfold pmul2 in E. cbn [fst snd] in E.
  assert (E1 : a * c - b * d = 0) by (apply (f_equal fst) in E; exact E). assert (E2 : a * d + b * c + 1 * (b * d) = 0) by (apply (f_equal snd) in E; exact E).
  assert (N : (a * a + a * b + b * b) * (c * c + c * d + d * d) = 0).
  { transitivity ((a * c - b * d) * (a * c - b * d) + (a * c - b * d) * (a * d + b * c + 1 * (b * d)) + (a * d + b * c + 1 * (b * d)) * (a * d + b * c + 1 * (b * d))); [ring|]. rewrite E1, E2. ring. }
  apply Z.mul_eq_0 in N. assert (Q : forall u v, u * u + u * v + v * v = 0 -> (u, v) = p0). { intros u v Z. assert (0 <= (u + v) * (u + v)) by nia. assert (u * u = 0) by nia. assert (v * v = 0) by nia. unfold p0. f_equal; nia. }
  destruct N as [N|N]; [left|right]; now apply Q.
Qed.
Example C76_hypotheses :
  ring_theory p0 p1 padd2 (pmul2 1) psub2 popp2 eq /\ no_zero_divisors p0 p1 (pmul2 1) /\ p1 <> popp2 p1 /\
  (forall q, of_Z p0 p1 padd2 (pmul2 1) popp2 (Z.of_nat (S q)) <> p0) /\ pmul2 1 pz (pi 1) = p1 /\ has_order p1 (pmul2 1) pz 6 /\
  value p0 p1 padd2 (pmul2 1) popp2 [-1; 1] (padd2 pz (pi 1)) = p0.
Proof.
  split; [apply pair_ring|split; [apply eisenstein_domain|split; [discriminate|split]]].
  - intros q. rewrite pair_of_Z. unfold p0. intros E. apply (f_equal fst) in E. cbn [fst] in E. lia.
  - split; [reflexivity|split; [|reflexivity]]. split; [reflexivity|]. intros [|[|[|[|[|[|m]]]]]] Hm; try lia; discriminate.
Qed.
