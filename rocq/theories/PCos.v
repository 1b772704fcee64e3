(** Proofs about Chebyshev polynomials and minimal polynomials of 2 cos(pi/n). *)
From Coq Require Import List Bool ZArith Arith Lia Ring Ring_theory InitialRing Setoid Morphisms.
From Verif Require Import MBase MCos SCos.
Import ListNotations.

(** ** values in rings *)
Section V.
Context {R : Type} (r0 r1 : R) (radd rmul rsub : R -> R -> R) (ropp : R -> R).
Hypothesis Rth : ring_theory r0 r1 radd rmul rsub ropp (@eq R).
Let Rth' := Rth.
Add Ring RR : Rth'.
Notation "0" := r0. Notation "1" := r1.
Infix "+" := radd. Infix "*" := rmul. Infix "-" := rsub. Notation "- x" := (ropp x).
Notation pw := (pow r1 rmul).
Notation zr := (of_Z r0 r1 radd rmul ropp).
Notation val := (value r0 r1 radd rmul ropp).

Let morph := gen_phiZ_morph (Eqsth R) (Eq_ext radd rmul ropp) Rth.
Lemma zr_0 : zr 0%Z = 0. Proof. reflexivity. Qed.
Lemma zr_1 : zr 1%Z = 1. Proof. reflexivity. Qed.
Lemma zr_add a b : zr (a + b)%Z = zr a + zr b. Proof. apply (morph_add morph). Qed.
Lemma zr_mul a b : zr (a * b)%Z = zr a * zr b. Proof. apply (morph_mul morph). Qed.
Lemma zr_opp a : zr (- a)%Z = - zr a. Proof. apply (morph_opp morph). Qed.

Lemma val_add x p : forall q, val (padd p q) x = val p x + val q x.
Proof. induction p as [|a p IH]; intros [|b q]; cbn [padd value]; try ring. rewrite IH, zr_add. ring. Qed.
Lemma val_scale x c p : val (pscale c p) x = zr c * val p x.
Proof. induction p as [|a p IH]; cbn [pscale map value]; [ring|]. unfold pscale in IH. rewrite IH, zr_mul. ring. Qed.
Lemma val_opp x p : val (popp p) x = - val p x.
Proof. unfold popp. rewrite val_scale. replace (zr (-1)%Z) with (- (1)) by reflexivity. ring. Qed.
Lemma val_sub x p q : val (psub p q) x = val p x - val q x.
Proof. unfold psub. rewrite val_add, val_opp. ring. Qed.
Lemma val_mul x p q : val (pmul p q) x = val p x * val q x.
Proof. induction p as [|a p IH]; cbn [pmul value]; [ring|]. rewrite val_add, val_scale. cbn [value]. rewrite IH, zr_0. ring. Qed.
Lemma val_comp x p q : val (pcomp p q) x = val p (val q x).
Proof. induction p as [|a p IH]; cbn [pcomp value]; [ring|]. rewrite val_add, val_mul, IH. cbn [value]. ring. Qed.
Lemma val_gen x : val pgen x = x.
Proof. unfold pgen. cbn [value]. rewrite zr_0, zr_1. ring. Qed.
Lemma val_one x : val [1%Z] x = 1.
Proof. cbn [value]. rewrite zr_1. ring. Qed.
Lemma val_zeros x p : (forall i, nth i p 0%Z = 0%Z) -> val p x = 0.
Proof.
  induction p as [|a p IH]; intros H; cbn [value]; auto. rewrite IH by (intros i; exact (H (S i))). specialize (H O). cbn in H. subst. rewrite zr_0. ring.
Qed.
Lemma val_ext x p : forall q, (forall i, nth i p 0%Z = nth i q 0%Z) -> val p x = val q x.
Proof.
  induction p as [|a p IH]; intros [|b q] H; auto.
  - symmetry. apply val_zeros. intros i. rewrite <- H. now destruct i.
  - apply val_zeros. intros i. rewrite H. now destruct i.
  - cbn [value]. rewrite (IH q) by (intros i; exact (H (S i))). specialize (H O). cbn in H. now subst.
Qed.

(** ** powers *)
Lemma pw_add x m n : pw x (m + n) = pw x m * pw x n.
Proof. induction m; cbn; [ring|]. rewrite IHm. ring. Qed.
Lemma pw_mul x m n : pw x (m * n) = pw (pw x m) n.
Proof. induction n; [now rewrite Nat.mul_0_r|]. rewrite Nat.mul_succ_r, pw_add, IHn. cbn. ring. Qed.
Lemma pw_1 x : pw x 1 = x. Proof. cbn. ring. Qed.
Lemma pw_inv z w n : z * w = 1 -> pw z n * pw w n = 1.
Proof. intros H. induction n; cbn; [ring|]. transitivity ((z * w) * (pw z n * pw w n)); [ring|]. rewrite H, IHn. ring. Qed.
Lemma pw_S x n : pw x (S n) = x * pw x n. Proof. reflexivity. Qed.

(** ** Chebyshev polynomials *)
Lemma cheb_loop_ok (f : nat -> R) c : (forall i, f (S (S i)) = c * f (S i) - f i) -> forall m i, cheb_loop rmul rsub c m (f i) (f (S i)) = f (i + S m)%nat.
Proof.
  intros H. induction m as [|m IH]; intros i; cbn [cheb_loop]; [now rewrite Nat.add_1_r|]. rewrite <- H, IH. f_equal. lia.
Qed.
Lemma cheb_ok (f : nat -> R) c : f O = 1 + 1 -> f 1%nat = c -> (forall i, f (S (S i)) = c * f (S i) - f i) -> forall n, chebyshev_T r1 radd rmul rsub n c = f n.
Proof.
  intros F0 F1 H n. unfold chebyshev_T. destruct n as [|n]; cbn [Nat.eqb]; [now symmetry|]. rewrite <- F0. rewrite <- F1 at 2. rewrite (cheb_loop_ok f c H). f_equal. lia.
Qed.
Lemma power_recurrence z w i : z * w = 1 -> pw z (S (S i)) + pw w (S (S i)) = (z + w) * (pw z (S i) + pw w (S i)) - (pw z i + pw w i).
Proof.
  intros H. cbn [pow]. transitivity (z * (z * pw z i) + w * (w * pw w i) + (z * w) * (pw z i + pw w i) - (pw z i + pw w i)); [rewrite H; ring|ring].
Qed.
Lemma cheb_powers z w n : z * w = 1 -> chebyshev_T r1 radd rmul rsub n (z + w) = pw z n + pw w n.
Proof.
  intros H. apply (cheb_ok (fun i => pw z i + pw w i)); [reflexivity|cbn; ring|]. intros i. now apply power_recurrence.
Qed.
Lemma cheb_rotation c s n : c * c + s * s = 1 -> chebyshev_T r1 radd rmul rsub n (c + c) = fst (rotation r0 r1 radd rmul ropp c s n) + fst (rotation r0 r1 radd rmul ropp c s n).
Proof.
  intros H. apply (cheb_ok (fun i => fst (rotation r0 r1 radd rmul ropp c s i) + fst (rotation r0 r1 radd rmul ropp c s i))); [reflexivity|cbn; ring|].
  intros i. cbn [rotation]. destruct (rotation r0 r1 radd rmul ropp c s i) as [a b]. cbn [fst].
  transitivity ((c + c) * ((c * a + - (s * b)) + (c * a + - (s * b))) - ((c * c + s * s) * a + (c * c + s * s) * a)); [|rewrite H; ring]. ring.
Qed.
(** the same program in the ring of polynomials *)
Lemma val_cheb_loop x c m : forall T0 T1, val (cheb_loop pmul psub c m T0 T1) x = cheb_loop rmul rsub (val c x) m (val T0 x) (val T1 x).
Proof. induction m as [|m IH]; intros; cbn [cheb_loop]; auto. rewrite IH, val_sub, val_mul. reflexivity. Qed.
Lemma val_pcheb x n : val (pcheb n) x = chebyshev_T r1 radd rmul rsub n x.
Proof.
  unfold pcheb, chebyshev_T. destruct (n =? 0)%nat; rewrite ?val_cheb_loop, val_add, val_one, ?val_gen; reflexivity.
Qed.
Lemma pcheb_value z w n : z * w = 1 -> val (pcheb n) (z + w) = pw z n + pw w n.
Proof. intros H. rewrite val_pcheb. now apply cheb_powers. Qed.

(** ** odd prime numbers *)
Definition sg (s : bool) : R := if s then 1 else - (1).
Lemma signed_sg s x : signed ropp s x = sg s * x.
Proof. destruct s; cbn; ring. Qed.
Lemma odd_prime_loop_ok z w : z * w = 1 -> forall m i s M, (z + 1) * M = - (sg s * (pw w (S i) + pw z (S (S i)))) ->
  (z + 1) * odd_prime_loop radd rmul rsub ropp (z + w) m s (pw z i + pw w i) (pw z (S i) + pw w (S i)) M =
  - (sg (xorb s (Nat.odd m)) * (pw w (i + m + 1) + pw z (i + m + 2))).
Proof.
  intros H. induction m as [|m IH]; intros i s M HM; cbn [odd_prime_loop].
  - rewrite HM. rewrite Nat.add_0_r. replace (i + 1)%nat with (S i) by lia. replace (i + 2)%nat with (S (S i)) by lia. destruct s; reflexivity.
  - rewrite <- power_recurrence by auto. rewrite IH.
    + rewrite Nat.odd_succ, <- Nat.negb_odd. replace (S i + m + 1)%nat with (i + S m + 1)%nat by lia. replace (S i + m + 2)%nat with (i + S m + 2)%nat by lia. destruct (Nat.odd m), s; reflexivity.
    + rewrite signed_sg. transitivity ((z + 1) * M + sg s * ((z + 1) * (pw z (S (S i)) + pw w (S (S i))))); [ring|]. rewrite HM. cbn [pow].
      assert (E : sg (negb s) = - sg s) by (destruct s; cbn; ring). rewrite E.
      transitivity (sg s * (w * pw w i * (z * w - 1) + w * (w * pw w i) + z * (z * (z * pw z i)))); [ring|]. rewrite H. ring.
Qed.
Lemma odd_prime_ok z w k : z * w = 1 -> (1 <= k)%nat ->
  (z + 1) * cos_minpoly_odd_prime r1 radd rmul rsub ropp (2 * k + 1) (z + w) = pw w k + pw z (k + 1).
Proof.
  intros H Hk. unfold cos_minpoly_odd_prime. replace ((2 * k + 1 - 1) / 2)%nat with k by (replace (2 * k + 1 - 1)%nat with (k * 2)%nat by lia; now rewrite Nat.div_mul by lia).
  replace (1 + 1) with (pw z 0 + pw w 0) by reflexivity. replace (odd_prime_loop radd rmul rsub ropp (z + w) (k - 1) (Nat.even k) (pw z 0 + pw w 0) (z + w))
    with (odd_prime_loop radd rmul rsub ropp (z + w) (k - 1) (Nat.even k) (pw z 0 + pw w 0) (pw z 1 + pw w 1)) by (rewrite !pw_1; reflexivity).
  rewrite (odd_prime_loop_ok z w H (k - 1) 0).
  - replace (0 + (k - 1) + 1)%nat with k by lia. replace (0 + (k - 1) + 2)%nat with (k + 1)%nat by lia.
    replace (xorb (Nat.even k) (Nat.odd (k - 1))) with false; [cbn; ring|]. destruct k as [|k]; [lia|]. rewrite Nat.sub_succ, Nat.sub_0_r, Nat.even_succ. now destruct (Nat.odd k).
  - rewrite signed_sg. cbn [pow]. transitivity (sg (Nat.even k) * (z + 1 - z * z - z - z * w - w)); [ring|]. rewrite H. ring.
Qed.
Lemma val_odd_loop x v m : forall s T0 T1 M, val (odd_prime_loop padd pmul psub popp v m s T0 T1 M) x = odd_prime_loop radd rmul rsub ropp (val v x) m s (val T0 x) (val T1 x) (val M x).
Proof.
  induction m as [|m IH]; intros; cbn [odd_prime_loop]; auto. rewrite IH, val_add, val_sub, val_mul. f_equal. f_equal. destruct s; cbn [signed]; rewrite ?val_opp, val_sub, val_mul; reflexivity.
Qed.
Lemma val_podd x p : val (podd_prime p) x = cos_minpoly_odd_prime r1 radd rmul rsub ropp p x.
Proof.
  unfold podd_prime, cos_minpoly_odd_prime. rewrite val_odd_loop, val_add, val_one, val_gen. f_equal. destruct (Nat.even _); cbn [signed]; rewrite ?val_opp, val_sub, val_one, val_gen; reflexivity.
Qed.

(** ** division *)
Lemma nth_add p : forall q i, nth i (padd p q) 0%Z = (nth i p 0%Z + nth i q 0%Z)%Z.
Proof. induction p as [|a p IH]; intros [|b q] [|i]; cbn [padd nth]; auto; lia. Qed.
Lemma nth_scale c p i : nth i (pscale c p) 0%Z = (c * nth i p 0%Z)%Z.
Proof. revert i. induction p as [|a p IH]; intros [|i]; cbn [pscale map nth]; try lia. apply IH. Qed.
Lemma nth_psub p q i : nth i (psub p q) 0%Z = (nth i p 0%Z - nth i q 0%Z)%Z.
Proof. unfold psub, popp. rewrite nth_add, nth_scale. lia. Qed.
Lemma firstn_ext (p : list Z) d : (forall i, (d <= i)%nat -> nth i p 0%Z = 0%Z) -> forall i, nth i (firstn d p) 0%Z = nth i p 0%Z.
Proof.
  intros H i. destruct (Nat.lt_ge_cases i d) as [L|L].
  - destruct (Nat.lt_ge_cases i (length p)) as [L'|L'].
    + rewrite <- (firstn_skipn d p) at 2. rewrite app_nth1; auto. rewrite firstn_length. lia.
    + rewrite (nth_overflow p) by lia. apply nth_overflow. rewrite firstn_length. lia.
  - rewrite (H i L). apply nth_overflow. rewrite firstn_length. lia.
Qed.
Lemma divide_ok m d : monic_of_degree d m -> forall a q r, divide m d a = (q, r) ->
  (forall i, (d <= i)%nat -> nth i r 0%Z = 0%Z) /\ forall x, val a x = val q x * val m x + val r x.
Proof.
  intros [M1 M2]. induction a as [|a0 a IH]; intros q r E; cbn [divide] in E.
  - injection E as <- <-. split; [intros [|i]; auto|]. intros x. cbn [value]. ring.
  - destruct (divide m d a) as [q' r']. destruct (IH q' r' eq_refl) as [A B]. set (rr := a0 :: r') in *. set (c := nth d rr 0%Z) in *. injection E as <- <-.
    assert (Z : forall i, (d <= i)%nat -> nth i (psub rr (pscale c m)) 0%Z = 0%Z).
    { intros i Hi. rewrite nth_psub, nth_scale. destruct (Nat.eq_dec i d) as [->|N]; [rewrite M1; fold c; lia|]. rewrite M2 by lia.
      unfold rr. destruct i as [|i]; [lia|]. cbn [nth]. rewrite A by lia. lia. }
    split. { intros i Hi. rewrite firstn_ext; auto. }
    intros x. rewrite (val_ext x (firstn d (psub rr (pscale c m))) (psub rr (pscale c m))) by (now apply firstn_ext). rewrite val_sub, val_scale. cbn [value]. rewrite B. unfold rr. cbn [value]. ring.
Qed.
Lemma trim_ext p : forall i, nth i (trim p) 0%Z = nth i p 0%Z.
Proof.
  induction p as [|a p IH]; intros i; cbn [trim]; auto. destruct (trim p) as [|b l] eqn:E.
  - destruct (Z.eqb_spec a 0) as [->|N]; destruct i as [|i]; cbn [nth]; auto; rewrite <- IH; destruct i; auto.
  - destruct i as [|i]; cbn [nth]; auto. rewrite <- IH. reflexivity.
Qed.
Lemma quo_rem_ok a m q r : quo_rem a m = Ok (q, r) -> forallb (Z.eqb 0%Z) r = true -> forall x, val a x = val q x * val m x.
Proof.
  unfold quo_rem. intros E F x. destruct (Z.eqb_spec (nth (length (trim m) - 1) (trim m) 0%Z) 1%Z) as [N|]; [|discriminate]. injection E as E.
  assert (M : monic_of_degree (length (trim m) - 1) (trim m)) by (split; auto; intros i Hi; apply nth_overflow; lia).
  destruct (divide_ok _ _ M _ _ _ E) as [_ B]. rewrite (B x), (val_ext x (trim m) m) by apply trim_ext.
  rewrite (val_zeros x r); [ring|]. intros i. rewrite forallb_forall in F. destruct (Nat.lt_ge_cases i (length r)) as [L|L]; [|now apply nth_overflow].
  specialize (F _ (nth_In r 0%Z L)). apply Z.eqb_eq in F. auto.
Qed.

(** ** roots *)
Context (NZ : no_zero_divisors r0 r1 rmul).
Notation prim := (primitive_root r1 rmul ropp).
Definition rooted (n : nat) (M : poly) : Prop :=
  forall z w, z * w = 1 -> (val M (z + w) = 0 -> pw z n = - (1)) /\ (prim n z -> val M (z + w) = 0).
Lemma minus_one x y : x * (y + 1) = 0 -> x <> 0 -> y = - (1).
Proof. intros E N. destruct (proj2 NZ _ _ E) as [|E']; [contradiction|]. transitivity (y + 1 - 1); [ring|]. rewrite E'. ring. Qed.
Lemma unit_neq z w : z * w = 1 -> w <> 0.
Proof. intros E ->. apply (proj1 NZ). rewrite <- E. ring. Qed.
Lemma rooted_prime k : (1 <= k)%nat -> is_prime (2 * k + 1) -> rooted (2 * k + 1) (podd_prime (2 * k + 1)).
Proof.
  intros Hk Hp z w H. rewrite val_podd. pose proof (odd_prime_ok z w k H Hk) as E.
  assert (E' : pw w k + pw z (k + 1) = pw w k * (pw z (2 * k + 1) + 1)).
  { replace (2 * k + 1)%nat with (k + (k + 1))%nat by lia. rewrite (pw_add z k (k + 1)). transitivity (pw w k + (pw z k * pw w k) * pw z (k + 1)); [rewrite (pw_inv z w k H); ring|ring]. }
  split.
  - intros Z. rewrite Z in E. apply (minus_one (pw w k)); [rewrite <- E', <- E; ring|]. apply (unit_neq (pw z k)). now apply pw_inv.
  - intros [P1 P2]. rewrite E', P1 in E. assert (E2 : (z + 1) * cos_minpoly_odd_prime r1 radd rmul rsub ropp (2 * k + 1) (z + w) = 0) by (rewrite E; ring).
    destruct (proj2 NZ _ _ E2) as [E3|]; auto. exfalso. apply (P2 (2 * k + 1)%nat 1%nat); auto; try lia. rewrite pw_1. transitivity (z + 1 - 1); [ring|]. rewrite E3. ring.
Qed.
Lemma prim_power n p z : prim (n * p) z -> prim n (pw z p).
Proof.
  intros [P1 P2]. split. { rewrite <- pw_mul. now rewrite Nat.mul_comm. }
  intros q m Q1 Q2 ->. rewrite <- pw_mul. apply (P2 q); auto. lia.
Qed.
Lemma rooted_comp n M p : rooted n M -> rooted (n * p) (pcomp M (pcheb p)).
Proof.
  intros HM z w H. rewrite val_comp, pcheb_value by auto. destruct (HM (pw z p) (pw w p)) as [A B]; [now apply pw_inv|]. split.
  - intros Z. rewrite Nat.mul_comm, pw_mul. auto.
  - intros P. apply B. now apply prim_power.
Qed.
Lemma rooted_step n M p q : is_prime p -> p <> 2%nat -> rooted n M -> (forall x, val (pcomp M (pcheb p)) x = val q x * val M x) -> rooted (n * p) q.
Proof.
  intros Hp H2 HM Hq z w H. destruct (rooted_comp n M p HM z w H) as [A B]. rewrite Hq in A, B. split.
  - intros Z. apply A. rewrite Z. ring.
  - intros P. destruct (proj2 NZ _ _ (B P)) as [|Z]; auto. exfalso. destruct P as [_ P]. apply (P p n Hp H2); [lia|]. now apply (HM z w H).
Qed.
Lemma minpoly_loop_ok ps : forall n M M', (forall p, In p ps -> is_prime p /\ p <> 2%nat) -> rooted n M -> minpoly_loop M ps = Ok M' -> rooted (fold_left Nat.mul ps n) M'.
Proof.
  induction ps as [|p ps IH]; intros n M M' Hp HM E; cbn [minpoly_loop fold_left] in *.
  - injection E as <-. auto.
  - destruct (quo_rem (pcomp M (pcheb p)) M) as [[q r]|] eqn:Q; [|discriminate]. destruct (forallb (Z.eqb 0%Z) r) eqn:F; [|discriminate].
    apply (IH _ q); auto; [intros; apply Hp; now right|]. destruct (Hp p) as [P1 P2]; [now left|]. apply (rooted_step n M p q P1 P2 HM). intros x. now apply (quo_rem_ok _ _ q r).
Qed.
Lemma exponent_ok facs : (forall p a, In (p, a) facs -> (1 <= a)%nat) -> forall n,
  (fold_left Nat.mul (map fst facs) n * fold_right (fun pa n => (fst pa ^ (snd pa - 1) * n)%nat) 1%nat facs = n * fold_right (fun pa m => (fst pa ^ snd pa * m)%nat) 1%nat facs)%nat.
Proof.
  induction facs as [|[p a] facs IH]; intros H n; cbn [map fold_left fold_right fst snd]; [lia|]. rewrite Nat.mul_assoc.
  pose proof (H p a (or_introl eq_refl)) as Ha. specialize (IH (fun p a h => H p a (or_intror h)) (n * p)%nat). replace a with (S (a - 1)) at 2 by lia. rewrite Nat.pow_succ_r' by lia.
  rewrite (Nat.mul_comm _ (p ^ (a - 1))), <- Nat.mul_assoc, IH. lia.
Qed.
Lemma rooted_odd k p a facs M : (forall q b, In (q, b) ((p, a) :: facs) -> is_prime q /\ q <> 2%nat /\ (1 <= b)%nat) -> minpoly_odd k p a facs = Ok M ->
  rooted (2 ^ k * fold_right (fun pa m => (fst pa ^ snd pa * m)%nat) 1%nat ((p, a) :: facs)) M.
Proof.
  intros H E. unfold minpoly_odd in E. destruct (minpoly_loop (podd_prime p) (map fst facs)) as [M'|] eqn:L; [|discriminate]. injection E as <-.
  destruct (H p a (or_introl eq_refl)) as (Pp & P2 & Ha).
  assert (Hk : exists j, p = (2 * j + 1)%nat /\ (1 <= j)%nat).
  { destruct Pp as [G Pp]. destruct (Nat.Even_or_Odd p) as [[j ->]|[j ->]]; [destruct (Pp 2%nat j eq_refl) as [|]; lia|]. exists j. split; lia. }
  destruct Hk as (j & Ej & Hj).
  assert (R1 : rooted (fold_left Nat.mul (map fst facs) p) M').
  { apply (minpoly_loop_ok _ _ (podd_prime p)); auto; [|subst p; now apply rooted_prime].
    intros q Hq. apply in_map_iff in Hq. destruct Hq as ([q' b] & <- & Hq). destruct (H q' b (or_intror Hq)) as (A & B & _). auto. }
  assert (R2 : rooted (2 ^ k * fold_right (fun pa m => (fst pa ^ snd pa * m)%nat) 1%nat ((p, a) :: facs)) (pcomp M' (pcheb (minpoly_exponent k ((p, a) :: facs))))).
  { replace (2 ^ k * fold_right (fun pa m => (fst pa ^ snd pa * m)%nat) 1%nat ((p, a) :: facs))%nat with (fold_left Nat.mul (map fst facs) p * minpoly_exponent k ((p, a) :: facs))%nat; [now apply rooted_comp|].
    unfold minpoly_exponent. rewrite Nat.mul_assoc, (Nat.mul_comm _ (2 ^ k)), <- Nat.mul_assoc. f_equal.
    pose proof (exponent_ok ((p, a) :: facs)) as X. specialize (X (fun q b h => proj2 (proj2 (H q b h))) 1%nat). cbn [map fold_left fst] in X. rewrite !Nat.mul_1_l in X. exact X. }
  destruct (Nat.eqb_spec (minpoly_exponent k ((p, a) :: facs)) 1) as [E1|]; [|exact R2].
  intros z w Hz. specialize (R2 z w Hz). rewrite val_comp, E1, (val_pcheb _ 1) in R2. exact R2.
Qed.
Lemma rooted_minpoly n facs M : factorization n facs -> cos_minpoly facs = Ok M -> rooted n M.
Proof.
  intros [F1 F2 F3] E. destruct facs as [|[p a] facs].
  - injection E as <-. cbn in F3. subst n. intros z w H. cbn [value pow]. rewrite zr_1. replace (zr 2%Z) with (1 + 1) by (cbn; ring).
    assert (E : (1 + 1) + (z + w) * (1 + (z + w) * 0) = w * ((z + 1) * (z + 1)) - (z + 1 + 1) * (z * w - 1)) by ring. split.
    + intros Z. change ((1 + 1) + (z + w) * (1 + (z + w) * 0) = 0) in Z. rewrite E, H in Z.
      assert (Z' : w * ((z + 1) * (z + 1)) = 0) by (rewrite <- Z; ring). destruct (proj2 NZ _ _ Z') as [Z2|Z2]; [now apply unit_neq in H|].
      assert (Z3 : z + 1 = 0) by (destruct (proj2 NZ _ _ Z2); auto). transitivity (z + 1 - 1); [ring|]. rewrite Z3. ring.
    + intros [P _]. change ((1 + 1) + (z + w) * (1 + (z + w) * 0) = 0). rewrite E, H. cbn [pow] in P. assert (P' : z = - (1)) by (rewrite <- P; ring). rewrite P'. ring.
  - cbn [cos_minpoly] in E. destruct (Nat.eqb_spec p 2) as [->|N].
    + destruct facs as [|[p b] facs].
      * injection E as <-. cbn in F3. intros z w H. rewrite pcheb_value by auto. set (h := (2 ^ (a - 1))%nat).
        assert (Hn : n = (h + h)%nat). { destruct (F1 2%nat a (or_introl eq_refl)) as [_ G]. subst h. rewrite F3. replace a with (S (a - 1)) at 1 by lia. rewrite Nat.pow_succ_r'. lia. }
        assert (E : pw w h * (pw z n + 1) = pw z h + pw w h). { rewrite Hn, pw_add. transitivity (pw z h * pw w h * pw z h + pw w h); [ring|]. rewrite pw_inv by auto. ring. }
        rewrite <- E. split; [intros Z; apply (minus_one _ _ Z), (unit_neq (pw z h)); now apply pw_inv|]. intros [P _]. rewrite P. ring.
      * rewrite F3. change (rooted (2 ^ a * fold_right (fun pa m => (fst pa ^ snd pa * m)%nat) 1%nat ((p, b) :: facs)) M). apply rooted_odd; auto.
        intros q c Hq. destruct (F1 q c (or_intror Hq)) as [A B]. split; [exact A|split; [|exact B]]. intros ->. destruct (In_nth_error _ _ Hq) as [i Hi].
        specialize (F2 0%nat (S i) 2%nat a 2%nat c (Nat.lt_0_succ i) eq_refl Hi). lia.
    + rewrite F3. replace (fold_right (fun pa m => (fst pa ^ snd pa * m)%nat) 1%nat ((p, a) :: facs)) with (2 ^ 0 * fold_right (fun pa m => (fst pa ^ snd pa * m)%nat) 1%nat ((p, a) :: facs))%nat by (cbn [Nat.pow]; lia).
      apply rooted_odd; auto. intros q c Hq. destruct (F1 q c Hq) as [A B]. split; [exact A|split; [|exact B]]. destruct (In_nth_error _ _ Hq) as [[|i] Hi]; [cbn in Hi; injection Hi as <- <-; auto|].
      intros ->. specialize (F2 0%nat (S i) p a 2%nat c (Nat.lt_0_succ i) eq_refl Hi). destruct (F1 p a (or_introl eq_refl)) as [[G _] _]. lia.
Qed.
End V.
