(** cos_minpoly never fails, and its roots are exactly those of primitive roots of unity. *)
From Coq Require Import List Bool ZArith Arith Lia Ring_theory InitialRing.
From Verif Require Import MBase MCos SCos PCos PCos2 PCos3.
Import ListNotations.

(** ** primes *)
Lemma prime_divides q a b : is_prime q -> Nat.divide q (a * b) -> Nat.divide q a \/ Nat.divide q b.
Proof.
  intros [G P] D. destruct (Nat.gcd_divide_l q a) as [c Hc]. destruct (P c (Nat.gcd q a) Hc) as [-> | E].
  - left. rewrite Nat.mul_1_l in Hc. rewrite Hc at 1. apply Nat.gcd_divide_r.
  - right. now apply (Nat.gauss q a b).
Qed.
Lemma prime_prime q p : is_prime q -> is_prime p -> Nat.divide q p -> q = p.
Proof. intros [G _] [_ P] [c Hc]. destruct (P c q Hc) as [-> | ->]; lia. Qed.
Lemma prime_power q p a : is_prime q -> is_prime p -> Nat.divide q (p ^ a) -> q = p.
Proof.
  intros Q P. induction a as [|a IH]; intros D.
  - cbn in D. destruct D as [c Hc]. destruct Q as [G _]. exfalso. destruct c; nia.
  - rewrite Nat.pow_succ_r' in D. destruct (prime_divides q p _ Q D); auto. now apply prime_prime.
Qed.
Lemma coprime_prime n p : is_prime p -> ~ Nat.divide p n -> coprime n p.
Proof. intros [G P] N d D1 [c Hc]. destruct (P c d Hc) as [-> |]; auto. exfalso. apply N. now replace p with d by lia. Qed.
Lemma prime_odd p : is_prime p -> p <> 2%nat -> exists k, p = (2 * k + 1)%nat /\ (1 <= k)%nat.
Proof. intros [G Pp] N. destruct (Nat.Even_or_Odd p) as [[j ->]|[j ->]]; [destruct (Pp 2%nat j eq_refl) as [|]; lia|]. exists j. split; lia. Qed.

Lemma odd_poly_eq k : (1 <= k)%nat -> odd_poly k = podd_prime (2 * k + 1).
Proof. intros H. unfold odd_poly. destruct (Nat.eqb_spec k 0); [lia|]. reflexivity. Qed.
Lemma odd_poly_minus_two k : ev (odd_poly k) (-2)%Z = (if Nat.even k then Z.of_nat (2 * k + 1) else - Z.of_nat (2 * k + 1))%Z.
Proof.
  assert (H : ev (odd_poly k) (-2)%Z = (if Nat.even k then Z.of_nat (2 * k + 1) else - Z.of_nat (2 * k + 1))%Z /\ ev (odd_poly (S k)) (-2)%Z = (if Nat.even (S k) then Z.of_nat (2 * S k + 1) else - Z.of_nat (2 * S k + 1))%Z); [|tauto].
  induction k as [|k [IH1 IH2]]; [split; reflexivity|]. split; auto. pose proof (O_sum 1 (S k) (-2)%Z) as E. unfold mirror in E. cbn [Nat.leb] in E. rewrite Nat.add_1_r, Nat.sub_succ, Nat.sub_0_r, IH1, IH2 in E.
  change (ev (pcheb 1) (-2)%Z) with (-2)%Z in E. rewrite Nat.even_succ, <- Nat.negb_even. rewrite Nat.even_succ, <- Nat.negb_even in E |- *. destruct (Nat.even k); cbn [negb] in *; lia.
Qed.

Section Strong.
Context {R : Type} (r0 r1 : R) (radd rmul rsub : R -> R -> R) (ropp : R -> R) (Rth : ring_theory r0 r1 radd rmul rsub ropp eq).
Let Rth' := Rth.
Add Ring RRS : Rth'.
Notation pw := (pow r1 rmul).
Notation val := (value r0 r1 radd rmul ropp).
Notation zr := (of_Z r0 r1 radd rmul ropp).
Notation prim := (primitive_root r1 rmul ropp).
Local Infix "+!" := radd (at level 50, left associativity). Local Infix "*!" := rmul (at level 40, left associativity).
Context (NZ : no_zero_divisors r0 r1 rmul).
Lemma val_int p x : val p (zr x) = zr (ev p x).
Proof.
  induction p as [|a p IH]; [reflexivity|]. rewrite ev_cons. cbn [value]. now rewrite IH, (zr_add _ _ _ _ _ _ Rth), (zr_mul _ _ _ _ _ _ Rth).
Qed.
Lemma transfer p q : (forall x, ev p x = ev q x) -> forall x, val p x = val q x.
Proof. intros H x. apply (val_ext _ _ _ _ _ _ Rth). apply ev_inj. now exists 0%Z. Qed.
(** roots are primitive *)
Definition strong (n : nat) (M : poly) : Prop := forall z w, z *! w = r1 -> val M (z +! w) = r0 -> prim n z.
Lemma minus_one_inverse z w : z *! w = r1 -> z = ropp r1 -> w = ropp r1.
Proof. intros H ->. transitivity (ropp (ropp r1 *! w)); [ring|]. now rewrite H. Qed.
Lemma not_minus_one z w k : z *! w = r1 -> zr (Z.of_nat (2 * k + 1)) <> r0 -> val (odd_poly k) (z +! w) = r0 -> z <> ropp r1.
Proof.
  intros H N V E. rewrite (minus_one_inverse z w H E), E in V. replace (ropp r1 +! ropp r1) with (zr (-2)%Z) in V by (cbn; ring). rewrite val_int, odd_poly_minus_two in V.
  destruct (Nat.even k); [contradiction|]. rewrite (zr_opp _ _ _ _ _ _ Rth) in V. apply N. transitivity (ropp (ropp (zr (Z.of_nat (2 * k + 1))))); [ring|]. rewrite V. ring.
Qed.
Lemma rooted_odd_poly z w k : z *! w = r1 -> val (odd_poly k) (z +! w) = r0 -> pw z (2 * k + 1) = ropp r1.
Proof.
  intros H V. pose proof (odd_poly_product _ _ _ _ _ _ Rth z w k H) as E. rewrite V in E. apply (minus_one _ _ _ _ _ _ Rth NZ (pw w k)); [rewrite <- E; ring|].
  apply (unit_neq _ _ _ _ _ _ Rth NZ (pw z k)). now apply (pw_inv _ _ _ _ _ _ Rth).
Qed.
Lemma strong_prime k : (1 <= k)%nat -> is_prime (2 * k + 1) -> zr (Z.of_nat (2 * k + 1)) <> r0 -> strong (2 * k + 1) (odd_poly k).
Proof.
  intros Hk P N z w H V. split; [now apply (rooted_odd_poly z w)|]. intros q m Q Q2 E.
  assert (q = 2 * k + 1)%nat as -> by (apply prime_prime; auto; exists m; lia). assert (m = 1)%nat as -> by nia. rewrite (pw_1 _ _ _ _ _ _ Rth). now apply (not_minus_one z w k).
Qed.
Lemma strong_step N d M H k A B : divides_all N d M H -> is_prime (2 * k + 1) -> zr (Z.of_nat (2 * k + 1)) <> r0 -> strong (2 * N + 1) M ->
  (forall x, ev M (ev (pcheb (2 * k + 1)) x) = (ev M x * ev A x)%Z) -> (forall x, ev H (ev (pcheb (2 * k + 1)) x) = (ev H x * ev B x)%Z) -> strong ((2 * N + 1) * (2 * k + 1)) A.
Proof.
  intros D Hp N0 HM HA HB z w Hz V. set (p := (2 * k + 1)%nat) in *. set (n := (2 * N + 1)%nat) in *.
  pose proof (da_quotient N d M H k A B D HA HB) as Q. fold n in Q.
  assert (Q' : val (pmul (pmul A B) (odd_poly k)) (z +! w) = val (pcomp (odd_poly k) (pcheb n)) (z +! w)). { apply transfer. intros x. rewrite !ev_mul, ev_comp. apply Q. }
  rewrite !(val_mul _ _ _ _ _ _ Rth), (val_comp _ _ _ _ _ _ Rth), (pcheb_value _ _ _ _ _ _ Rth) in Q' by auto. rewrite V in Q'.
  assert (E : val (pcomp M (pcheb p)) (z +! w) = val (pmul M A) (z +! w)). { apply transfer. intros x. rewrite ev_mul, ev_comp. apply HA. }
  rewrite (val_mul _ _ _ _ _ _ Rth), (val_comp _ _ _ _ _ _ Rth), (pcheb_value _ _ _ _ _ _ Rth), V in E by auto.
  destruct (HM (pw z p) (pw w p)) as [P1 P2]; [now apply (pw_inv _ _ _ _ _ _ Rth)|rewrite E; ring|]. split.
  - rewrite Nat.mul_comm, (pw_mul _ _ _ _ _ _ Rth). exact P1.
  - intros q m Hq Hq2 Em. destruct (prime_divides q n p Hq) as [[c Hc]|Dq]; [exists m; lia| |].
    + assert (m = (p * c)%nat) as -> by (destruct Hq as [G _]; nia). rewrite (pw_mul _ _ _ _ _ _ Rth). apply (P2 q); auto. lia.
    + assert (q = p) as -> by (apply prime_prime; auto). assert (m = n) as -> by (destruct Hq as [G _]; nia).
      apply (not_minus_one (pw z n) (pw w n) k); auto; [now apply (pw_inv _ _ _ _ _ _ Rth)|]. rewrite <- Q'. ring.
Qed.
Lemma strong_comp n M c : strong n M -> (forall q, is_prime q -> q <> 2%nat -> Nat.divide q (n * c) -> Nat.divide q n) -> strong (n * c) (pcomp M (pcheb c)).
Proof.
  intros HM D z w Hz V. rewrite (val_comp _ _ _ _ _ _ Rth), (pcheb_value _ _ _ _ _ _ Rth) in V by auto.
  destruct (HM (pw z c) (pw w c)) as [P1 P2]; auto; [now apply (pw_inv _ _ _ _ _ _ Rth)|]. split.
  - rewrite Nat.mul_comm, (pw_mul _ _ _ _ _ _ Rth). exact P1.
  - intros q m Hq Hq2 Em. destruct (D q Hq Hq2) as [e He]; [exists m; lia|]. assert (m = (c * e)%nat) as -> by (destruct Hq as [G _]; nia).
    rewrite (pw_mul _ _ _ _ _ _ Rth). apply (P2 q); auto. lia.
Qed.
End Strong.

(** in every ring without zero divisors in which the odd prime factors of [n] do not vanish the roots are primitive *)
Definition all_strong (n : nat) (M : poly) : Prop :=
  forall (R : Type) (r0 r1 : R) radd rmul rsub ropp, ring_theory r0 r1 radd rmul rsub ropp eq -> no_zero_divisors r0 r1 rmul ->
    (forall q, is_prime q -> q <> 2%nat -> Nat.divide q n -> of_Z r0 r1 radd rmul ropp (Z.of_nat q) <> r0) -> strong r0 r1 radd rmul ropp n M.

Lemma loop_total ps : forall N d M H, divides_all N d M H -> all_strong (2 * N + 1) M -> (1 <= d)%nat ->
  (forall p, In p ps -> is_prime p /\ p <> 2%nat /\ ~ Nat.divide p (2 * N + 1)) -> NoDup ps ->
  exists M', minpoly_loop M ps = Ok M' /\ all_strong (fold_left Nat.mul ps (2 * N + 1)%nat) M'.
Proof.
  induction ps as [|p ps IH]; intros N d M H D SM Hd Hp ND; cbn [minpoly_loop fold_left]; [now exists M|].
  destruct (Hp p (or_introl eq_refl)) as (Pp & P2 & Pn). destruct (prime_odd p Pp P2) as (k & -> & Hk). pose proof (coprime_prime _ _ Pp Pn) as C.
  destruct (da_divides _ _ _ _ D k C) as (A & B & HA & HB).
  destruct (exact_division d M (pcomp M (pcheb (2 * k + 1))) A (da_monic _ _ _ _ D)) as (q & r & E & F & Mq). { exists 0%Z. intros x _. rewrite ev_comp. apply HA. }
  rewrite E, F. pose proof (quo_rem_ok _ _ _ _ _ _ ZRth _ _ _ _ E F) as V.
  assert (HQ : forall x, ev M (ev (pcheb (2 * k + 1)) x) = (ev M x * ev q x)%Z). { intros x. rewrite <- ev_comp, V. ring. }
  assert (MQ : monic_of_degree (d * (2 * k)) q). { replace (d * (2 * k))%nat with (d * (2 * k + 1) - d)%nat by lia. apply Mq; [|lia]. apply monic_comp; [lia|apply (da_monic _ _ _ _ D)|apply cheb_monic; lia]. }
  assert (Dq := da_step N d M H k q B D Hk C HQ HB). inversion ND as [|? ? N1 N2]; subst.
  replace ((2 * N + 1) * (2 * k + 1))%nat with (2 * (2 * N * k + N + k) + 1)%nat by lia. apply (IH _ (d * (2 * k))%nat q (pmul B (pmul (odd_poly N) (odd_poly k)))); auto.
  - apply Dq; auto. intros l Cl. split; intros e De1 De2; apply Cl; auto; destruct De1 as [c Hc].
    + exists (c * (2 * k + 1))%nat. lia.
    + exists (c * (2 * N + 1))%nat. lia.
  - replace (2 * (2 * N * k + N + k) + 1)%nat with ((2 * N + 1) * (2 * k + 1))%nat by lia. intros R r0 r1 radd rmul rsub ropp Rth NZ NP.
    apply (strong_step _ _ _ _ rsub _ Rth N d M H k q B); auto.
    + apply NP; auto. exists (2 * N + 1)%nat. lia.
    + apply (SM R r0 r1 radd rmul rsub ropp Rth NZ). intros s S1 S2 [c Hc]. apply NP; auto. exists (c * (2 * k + 1))%nat. lia.
  - nia.
  - intros s Hs. destruct (Hp s (or_intror Hs)) as (S1 & S2 & S3). repeat split; try apply S1; auto. intros Ds. replace (2 * (2 * N * k + N + k) + 1)%nat with ((2 * N + 1) * (2 * k + 1))%nat in Ds by lia.
    destruct (prime_divides _ _ _ S1 Ds) as [X|X]; [contradiction|]. apply (prime_prime _ _ S1 Pp) in X. subst s. contradiction.
Qed.
Lemma divides_product q ps : is_prime q -> (forall p, In p ps -> is_prime p) -> forall n, Nat.divide q (fold_left Nat.mul ps n) -> Nat.divide q n \/ In q ps.
Proof.
  intros Q. induction ps as [|p ps IH]; intros P n D; cbn [fold_left] in D; auto. destruct (IH (fun p h => P p (or_intror h)) _ D) as [X|X]; [|right; now right].
  destruct (prime_divides _ _ _ Q X) as [Y|Y]; auto. right. left. symmetry. apply prime_prime; auto. apply P. now left.
Qed.
Lemma product_divides q ps : In q ps -> forall n, Nat.divide q (fold_left Nat.mul ps n).
Proof.
  assert (G : forall ps n m, Nat.divide m n -> Nat.divide m (fold_left Nat.mul ps n)). { induction ps0 as [|p ps0 IH]; intros n m D; cbn [fold_left]; auto. apply IH. now apply Nat.divide_mul_l. }
  revert q. induction ps as [|p ps IH]; intros q H n; cbn [fold_left]; [contradiction|]. destruct H as [-> |H]; [|now apply IH]. apply G, Nat.divide_mul_r, Nat.divide_refl.
Qed.
Lemma exponent_divides q k facs : is_prime q -> q <> 2%nat -> (forall p a, In (p, a) facs -> is_prime p) -> Nat.divide q (minpoly_exponent k facs) -> In q (map fst facs).
Proof.
  intros Q Q2 P D. unfold minpoly_exponent in D. destruct (prime_divides _ _ _ Q D) as [X|X].
  - exfalso. apply Q2. apply (prime_power q 2 k Q); auto. split; [lia|]. intros a b E. destruct a as [|[|[|a]]]; [lia|auto|right; lia|]. destruct b as [|[|b]]; lia.
  - clear D. induction facs as [|[p a] facs IH]; cbn [fold_right fst snd map] in *; [destruct X as [c Hc]; destruct Q as [G _]; exfalso; destruct c; nia|].
    destruct (prime_divides _ _ _ Q X) as [Y|Y]; [left; symmetry; apply (prime_power q p (a - 1)); auto; apply (P p a); now left|]. right. apply IH; auto. intros. apply (P p0 a0). now right.
Qed.
Lemma odd_total k p a facs : (forall q b, In (q, b) ((p, a) :: facs) -> is_prime q /\ q <> 2%nat /\ (1 <= b)%nat) -> NoDup (map fst ((p, a) :: facs)) ->
  exists M, minpoly_odd k p a facs = Ok M /\ all_strong (2 ^ k * fold_right (fun pa m => (fst pa ^ snd pa * m)%nat) 1%nat ((p, a) :: facs)) M.
Proof.
  intros H ND. destruct (H p a (or_introl eq_refl)) as (Pp & P2 & Ha). destruct (prime_odd p Pp P2) as (j & Ej & Hj). cbn [map fst] in ND. inversion ND as [|? ? N1 N2]; subst x l.
  assert (HF : forall q, In q (map fst facs) -> is_prime q /\ q <> 2%nat). { intros q Hq. apply in_map_iff in Hq. destruct Hq as ([q' b] & <- & Hq). destruct (H q' b (or_intror Hq)) as (A & B & _). auto. }
  destruct (loop_total (map fst facs) j j (odd_poly j) [1%Z] (da_start j)) as (M & E & SM); auto.
  { rewrite <- Ej. intros R r0 r1 radd rmul rsub ropp Rth NZ NP. rewrite Ej in *. apply (strong_prime _ _ _ _ rsub _ Rth NZ); auto. apply NP; auto. apply Nat.divide_refl. }
  { rewrite <- Ej. intros q Hq. destruct (HF q Hq) as [A B]. split; [exact A|split; [exact B|]]. intros D. apply (prime_prime _ _ A Pp) in D. subst q. contradiction. }
  rewrite odd_poly_eq, <- Ej in E by auto. rewrite <- Ej in SM. unfold minpoly_odd. rewrite E. eexists. split; [reflexivity|].
  set (nn := minpoly_exponent k ((p, a) :: facs)).
  assert (En : (2 ^ k * fold_right (fun pa m => (fst pa ^ snd pa * m)%nat) 1%nat ((p, a) :: facs) = fold_left Nat.mul (map fst facs) p * nn)%nat).
  { unfold nn, minpoly_exponent. rewrite Nat.mul_assoc, (Nat.mul_comm _ (2 ^ k)), <- Nat.mul_assoc. f_equal. pose proof (exponent_ok ((p, a) :: facs)) as X. specialize (X (fun q b h => proj2 (proj2 (H q b h))) 1%nat). cbn [map fold_left fst] in X. rewrite !Nat.mul_1_l in X. now symmetry. }
  rewrite En.
  assert (G : all_strong (fold_left Nat.mul (map fst facs) p * nn) (pcomp M (pcheb nn))).
  { intros R r0 r1 radd rmul rsub ropp Rth NZ NP. apply (strong_comp _ _ _ _ rsub _ Rth).
    - apply (SM R r0 r1 radd rmul rsub ropp Rth NZ). intros q Q1 Q2 Q3. apply NP; auto. now apply Nat.divide_mul_l.
    - intros q Q1 Q2 D. destruct (prime_divides _ _ _ Q1 D) as [X|X]; auto. apply exponent_divides in X; auto; [|intros p' a' Hp; apply (H p' a' Hp)].
      destruct X as [X|X]; [|now apply product_divides]. cbn in X. subst q. clear. generalize (map fst facs). intros l. assert (G : forall ps n m, Nat.divide m n -> Nat.divide m (fold_left Nat.mul ps n)). { induction ps as [|p0 ps0 IH]; intros n m D; cbn [fold_left]; auto. apply IH. now apply Nat.divide_mul_l. }
      apply G, Nat.divide_refl. }
  destruct (Nat.eqb_spec nn 1) as [E1|]; [|exact G]. rewrite E1 in G |- *. intros R r0 r1 radd rmul rsub ropp Rth NZ NP z w Hz V. apply (G R r0 r1 radd rmul rsub ropp Rth NZ NP z w Hz).
  rewrite (val_comp _ _ _ _ _ _ Rth), (val_pcheb _ _ _ _ _ _ Rth). exact V.
Qed.
Lemma fa_nodup n facs : factorization n facs -> NoDup (map fst facs).
Proof.
  intros [_ F2 _]. apply NoDup_nth_error. intros i j Hi E. destruct (nth_error (map fst facs) i) as [p|] eqn:Ei; [|apply nth_error_None in Ei; lia]. symmetry in E.
  rewrite nth_error_map in Ei, E. destruct (nth_error facs i) as [[p1 a]|] eqn:Fi; [|discriminate]. destruct (nth_error facs j) as [[p2 b]|] eqn:Fj; [|discriminate]. cbn in Ei, E.
  injection Ei as <-. injection E as ->. destruct (Nat.lt_trichotomy i j) as [L|[L|L]]; auto; exfalso.
  - specialize (F2 _ _ _ _ _ _ L Fi Fj). lia.
  - specialize (F2 _ _ _ _ _ _ L Fj Fi). lia.
Qed.
Lemma minpoly_total n facs : factorization n facs -> exists M, cos_minpoly facs = Ok M /\ all_strong n M.
Proof.
  intros F. pose proof (fa_nodup n facs F) as ND. assert (RM := fun R r0 r1 radd rmul rsub ropp Rth NZ M E => rooted_minpoly (R := R) r0 r1 radd rmul rsub ropp Rth NZ n facs M F E).
  destruct F as [F1 F2 F3]. destruct facs as [|[p a] facs].
  - eexists. split; [reflexivity|]. cbn in F3. subst n. intros R r0 r1 radd rmul rsub ropp Rth NZ NP z w Hz V. split; [now apply (RM R r0 r1 radd rmul rsub ropp Rth NZ _ eq_refl z w Hz)|].
    intros q m [G _] _ E. exfalso. destruct m; nia.
  - cbn [cos_minpoly] in *. destruct (Nat.eqb_spec p 2) as [->|N].
    + destruct facs as [|[p b] facs].
      * eexists. split; [reflexivity|]. intros R r0 r1 radd rmul rsub ropp Rth NZ NP z w Hz V. split; [now apply (RM R r0 r1 radd rmul rsub ropp Rth NZ _ eq_refl z w Hz)|].
        intros q m Q Q2 E. exfalso. apply Q2. apply (prime_power q 2 a Q); [apply (F1 2%nat a); now left|]. cbn in F3. exists m. lia.
      * rewrite F3. cbn [map fst] in ND. inversion ND as [|? ? N1 N2]; subst x l. apply (odd_total a p b facs); auto.
        intros q c Hq. destruct (F1 q c (or_intror Hq)) as [A B]. split; [exact A|split; [|exact B]]. intros ->. apply N1. apply (in_map fst) in Hq. exact Hq.
    + destruct (odd_total 0 p a facs) as (M & E & S); auto.
      * intros q c Hq. destruct (F1 q c Hq) as [A B]. split; [exact A|split; [|exact B]]. destruct (In_nth_error _ _ Hq) as [[|i] Hi]; [cbn in Hi; injection Hi as <- <-; auto|].
        intros ->. specialize (F2 0%nat (S i) p a 2%nat c (Nat.lt_0_succ i) eq_refl Hi). destruct (F1 p a (or_introl eq_refl)) as [[G _] _]. lia.
      * exists M. split; auto. rewrite F3. cbn [Nat.pow] in S. rewrite Nat.mul_1_l in S. exact S.
Qed.
