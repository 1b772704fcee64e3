(** Degrees of Chebyshev polynomials and of the polynomials of cos_minpoly. *)
From Coq Require Import List Bool ZArith Arith Lia.
From Verif Require Import MBase MCos SCos PCos.
Import ListNotations.

Notation monic := monic_of_degree.
(** the degree is less than [d] *)
Definition below (d : nat) (p : poly) := forall i, (d <= i)%nat -> nth i p 0%Z = 0%Z.
Lemma monic_add d p q : monic d p -> below d q -> monic d (padd p q).
Proof. intros [A B] H. split; [|intros i Hi]; rewrite nth_add; rewrite ?A, ?B, H; lia. Qed.
Lemma monic_add' d p q : monic d p -> below d q -> monic d (padd q p).
Proof. intros [A B] H. split; [|intros i Hi]; rewrite nth_add; rewrite ?A, ?B, H; lia. Qed.
Lemma monic_sub d p q : monic d p -> below d q -> monic d (psub p q).
Proof. intros [A B] H. split; [|intros i Hi]; rewrite nth_psub; rewrite ?A, ?B, H; lia. Qed.
Lemma monic_below d e p : monic d p -> (d < e)%nat -> below e p.
Proof. intros [_ B] L i Hi. apply B. lia. Qed.
Lemma mul_zero p q : below 0 p -> below 0 (pmul p q).
Proof.
  induction p as [|a p IH]; intros H i Hi; cbn [pmul]; [now destruct i|]. rewrite nth_add, nth_scale. pose proof (H O (le_n 0)) as H0. cbn in H0. subst a.
  destruct i as [|i]; cbn [nth]; [lia|]. rewrite IH; [lia| |lia]. intros j _. apply (H (S j)). lia.
Qed.
Lemma mul_zero_r p q : below 0 q -> below 0 (pmul p q).
Proof.
  intros H. induction p as [|a p IH]; intros i Hi; cbn [pmul]; [now destruct i|]. rewrite nth_add, nth_scale, H by lia. destruct i as [|i]; cbn [nth]; [lia|]. rewrite IH; lia.
Qed.
Lemma monic_mul p : forall d e q, monic d p -> monic e q -> monic (d + e) (pmul p q).
Proof.
  induction p as [|a p IH]; intros d e q [A B] [C D]; [destruct d; discriminate|]. cbn [pmul]. destruct d as [|d].
  - cbn in A. subst a. change (0 + e)%nat with e. apply monic_add; [split; [rewrite nth_scale, C; lia|intros i Hi; rewrite nth_scale, D by lia; lia]|].
    intros [|i] Hi; cbn [nth]; auto. apply mul_zero; [|lia]. intros j _. apply (B (S j)). lia.
  - assert (M : monic (d + e) (pmul p q)). { apply IH; [|now split]. split; [exact A|]. intros i Hi. apply (B (S i)). lia. }
    apply monic_add'; [|intros i Hi; rewrite nth_scale, D by lia; lia]. destruct M as [M1 M2]. split; [exact M1|]. intros [|i] Hi; cbn [nth]; auto. apply M2. lia.
Qed.
Lemma comp_zero p q : below 0 p -> below 0 (pcomp p q).
Proof.
  induction p as [|a p IH]; intros H i Hi; cbn [pcomp]; [now destruct i|]. rewrite nth_add. pose proof (H O (le_n 0)) as H0. cbn in H0. subst a.
  rewrite mul_zero_r; [|apply IH; intros j _; apply (H (S j)); lia|lia]. destruct i as [|[|i]]; reflexivity.
Qed.
Lemma below_one a d : (1 <= d)%nat -> below d [a].
Proof. intros H [|[|i]] Hi; auto. lia. Qed.
Lemma monic_comp p : forall d e q, (1 <= e)%nat -> monic d p -> monic e q -> monic (d * e) (pcomp p q).
Proof.
  induction p as [|a p IH]; intros d e q He [A B] Q; [destruct d; discriminate|]. cbn [pcomp]. destruct d as [|d].
  - cbn in A. subst a. apply monic_add; [split; [reflexivity|intros [|[|i]] Hi; auto; lia]|]. apply mul_zero_r, comp_zero. intros j _. apply (B (S j)). lia.
  - apply monic_add'; [|apply below_one; lia]. replace (S d * e)%nat with (e + d * e)%nat by lia. apply monic_mul; auto. apply IH; auto. split; [exact A|]. intros i Hi. apply (B (S i)). lia.
Qed.
Lemma monic_gen : monic 1 pgen.
Proof. split; auto. intros [|[|[|i]]] H; auto; lia. Qed.
Lemma gen_mul d T : monic d T -> monic (S d) (pmul pgen T).
Proof. intros H. apply (monic_mul _ 1 d); auto. apply monic_gen. Qed.
Lemma cheb_loop_monic m : forall i T0 T1, (i = 0%nat /\ below 1 T0 \/ monic i T0) -> monic (S i) T1 -> monic (i + S m) (cheb_loop pmul psub pgen m T0 T1).
Proof.
  induction m as [|m IH]; intros i T0 T1 H0 H1; cbn [cheb_loop]; [now replace (i + 1)%nat with (S i) by lia|].
  replace (i + S (S m))%nat with (S i + S m)%nat by lia. apply IH; auto. apply monic_sub; [now apply gen_mul|].
  destruct H0 as [[-> H0]|H0]; [intros j Hj; apply H0; lia|]. apply (monic_below i); auto.
Qed.
Lemma cheb_monic n : (1 <= n)%nat -> monic n (pcheb n).
Proof.
  intros H. unfold pcheb, chebyshev_T. destruct (Nat.eqb_spec n 0); [lia|]. replace n with (0 + S (n - 1))%nat at 1 by lia. apply cheb_loop_monic; [|apply monic_gen].
  left. split; auto. intros [|[|i]] Hi; auto. lia.
Qed.
(** up to the sign *)
Definition smonic (s : bool) (d : nat) (p : poly) : Prop := if s then monic d p else monic d (popp p).
Lemma nth_popp p i : nth i (popp p) 0%Z = (- nth i p 0)%Z.
Proof. unfold popp. rewrite nth_scale. lia. Qed.
Lemma signed_monic s d p : monic d p -> smonic s d (signed popp s p).
Proof. intros [A B]. destruct s; cbn [smonic signed]; [now split|]. split; [|intros i Hi]; rewrite !nth_popp, ?A, ?B; lia. Qed.
Lemma smonic_add s d p q : smonic s d p -> below d q -> smonic s d (padd q p).
Proof.
  destruct s; cbn [smonic]; intros H L; [now apply monic_add'|]. destruct H as [A B]. split; [|intros i Hi]; rewrite nth_popp, nth_add, L by lia; rewrite nth_popp in *; [|specialize (B i Hi); rewrite nth_popp in B]; lia.
Qed.
Lemma smonic_below s d e p : smonic s d p -> (d < e)%nat -> below e p.
Proof. destruct s; cbn [smonic]; intros [_ B] L i Hi; specialize (B i ltac:(lia)); rewrite ?nth_popp in B; lia. Qed.
Lemma odd_loop_monic m : forall i s T0 T1 M, (i = 0%nat /\ below 1 T0 \/ monic i T0) -> monic (S i) T1 -> smonic (negb s) (S i) M ->
  smonic (xorb (negb s) (Nat.odd m)) (S i + m) (odd_prime_loop padd pmul psub popp pgen m s T0 T1 M).
Proof.
  induction m as [|m IH]; intros i s T0 T1 M H0 H1 HM; cbn [odd_prime_loop].
  - rewrite Nat.add_0_r. destruct s; exact HM.
  - replace (S i + S m)%nat with (S (S i) + m)%nat by lia. replace (xorb (negb s) (Nat.odd (S m))) with (xorb (negb (negb s)) (Nat.odd m)) by (rewrite Nat.odd_succ, <- Nat.negb_odd; now destruct s, (Nat.odd m)).
    assert (T2 : monic (S (S i)) (psub (pmul pgen T1) T0)). { apply monic_sub; [now apply gen_mul|]. destruct H0 as [[-> H0]|H0]; [intros j Hj; apply H0; lia|]. apply (monic_below i); auto. }
    apply IH; auto. rewrite Bool.negb_involutive. apply smonic_add; [now apply signed_monic|]. apply (smonic_below (negb s) (S i)); auto.
Qed.
Lemma odd_prime_monic k : (1 <= k)%nat -> monic k (podd_prime (2 * k + 1)).
Proof.
  intros Hk. unfold podd_prime, cos_minpoly_odd_prime. replace ((2 * k + 1 - 1) / 2)%nat with k by (replace (2 * k + 1 - 1)%nat with (k * 2)%nat by lia; now rewrite Nat.div_mul by lia).
  pose proof (odd_loop_monic (k - 1) 0 (Nat.even k) (padd [1%Z] [1%Z]) pgen (signed popp (Nat.even k) (psub [1%Z] pgen))) as X.
  replace (xorb (negb (Nat.even k)) (Nat.odd (k - 1))) with true in X.
  - replace (1 + (k - 1))%nat with k in X by lia. apply X; [|apply monic_gen|]. { left. split; auto. intros [|[|i]] Hi; auto; lia. }
    destruct (Nat.even k); cbn; (split; [reflexivity|intros [|[|[|i]]] Hi; auto; lia]).
  - destruct k as [|k]; [lia|]. rewrite Nat.sub_succ, Nat.sub_0_r, Nat.even_succ. now destruct (Nat.odd k).
Qed.

(** ** division *)
Lemma divide_low m d : monic d m -> forall a, below d a -> forall q r, divide m d a = (q, r) -> below 0 q /\ forall i, nth i r 0%Z = nth i a 0%Z.
Proof.
  intros [M1 M2]. induction a as [|a0 a IH]; intros H q r E; cbn [divide] in E.
  - injection E as <- <-. split; auto. intros [|i] _; auto.
  - destruct (divide m d a) as [q' r']. destruct (IH (fun i Hi => H (S i) (le_S _ _ Hi)) _ _ eq_refl) as [A B].
    assert (Z : nth d (a0 :: r') 0%Z = 0%Z). { destruct d as [|d]; [exact (H O (le_n 0))|]. cbn [nth]. rewrite B. apply (H (S d)). lia. }
    rewrite Z in E. injection E as <- <-. split; [intros [|i] _; auto; apply A; lia|].
    assert (W : forall i, nth i (psub (a0 :: r') (pscale 0 m)) 0%Z = nth i (a0 :: a) 0%Z). { intros i. rewrite nth_psub, nth_scale. destruct i as [|i]; cbn [nth]; rewrite ?B; lia. }
    intros i. rewrite firstn_ext; auto. intros j Hj. rewrite W. now apply H.
Qed.
Lemma divide_monic m d : monic d m -> forall a e, monic e a -> (d <= e)%nat -> forall q r, divide m d a = (q, r) -> monic (e - d) q.
Proof.
  intros HM. induction a as [|a0 a IH]; intros e [A B] L q r E; cbn [divide] in E; [destruct e; discriminate|].
  destruct (divide m d a) as [q' r'] eqn:D. injection E as <- <-. destruct (Nat.eq_dec d e) as [->|N].
  - rewrite Nat.sub_diag. destruct (divide_low m e HM a (fun i Hi => B (S i) (le_n_S _ _ Hi)) _ _ D) as [X Y]. split; cbn [nth].
    + destruct e as [|e]; [exact A|]. cbn [nth] in *. now rewrite Y.
    + intros [|i] Hi; [lia|]. cbn [nth]. apply X. lia.
  - destruct e as [|e]; [lia|]. assert (Ma : monic e a). { split; [exact A|]. intros i Hi. apply (B (S i)). lia. }
    destruct (IH e Ma ltac:(lia) q' r' eq_refl) as [X Y]. replace (S e - d)%nat with (S (e - d)) by lia. split; [exact X|]. intros [|i] Hi; [lia|]. apply Y. lia.
Qed.
Lemma monic_trim d p : monic d p -> length (trim p) = S d.
Proof.
  revert d. induction p as [|a p IH]; intros d [A B]; [destruct d; discriminate|]. cbn [trim]. destruct d as [|d].
  - cbn in A. subst a. destruct (trim p) as [|b l] eqn:E; auto. exfalso.
    assert (Z : forall i, nth i (trim p) 0%Z = 0%Z) by (intros i; rewrite (trim_ext p); apply (B (S i)); lia).
    assert (L : trim p <> nil -> last (trim p) 0%Z <> 0%Z).
    { clear. induction p as [|a p IH]; intros H; cbn [trim] in *; [contradiction|]. destruct (trim p) as [|b l]; [destruct (Z.eqb_spec a 0); [contradiction|auto]|]. apply IH. discriminate. }
    apply L; [now rewrite E|]. clear L. rewrite E in Z |- *. clear E IH B. revert b Z. induction l as [|c l IH]; intros b Z; [exact (Z O)|]. change (last (c :: l) 0%Z = 0%Z). apply IH. intros i. exact (Z (S i)).
  - assert (Mp : monic d p). { split; [exact A|]. intros i Hi. apply (B (S i)). lia. }
    specialize (IH d Mp). destruct (trim p) as [|b l]; [discriminate|]. cbn [length] in *. lia.
Qed.
Lemma quo_rem_monic d m : monic d m -> forall a, exists q r, quo_rem a m = Ok (q, r) /\ forall e, monic e a -> (d <= e)%nat -> monic (e - d) q.
Proof.
  intros HM a. unfold quo_rem. rewrite (monic_trim d m HM). replace (S d - 1)%nat with d by lia. rewrite trim_ext. rewrite (proj1 HM). cbn [Z.eqb Pos.eqb].
  assert (HT : monic d (trim m)). { destruct HM as [A B]. split; [|intros i Hi]; rewrite trim_ext; auto. }
  destruct (divide (trim m) d a) as [q r] eqn:E. exists q, r. split; auto. intros e He L. exact (divide_monic _ _ HT a e He L q r E).
Qed.
Lemma loop_monic ps : forall d M, monic d M -> (forall p, In p ps -> (1 <= p)%nat) ->
  match minpoly_loop M ps with Ok M' => monic (fold_left (fun d p => (d * (p - 1))%nat) ps d) M' | Err x => x = AssertionError end.
Proof.
  induction ps as [|p ps IH]; intros d M HM Hp; cbn [minpoly_loop fold_left]; auto.
  destruct (quo_rem_monic d M HM (pcomp M (pcheb p))) as (q & r & E & Q). rewrite E. destruct (forallb (Z.eqb 0) r); auto.
  pose proof (Hp p (or_introl eq_refl)) as Hp1. apply IH; [|intros; apply Hp; now right].
  replace (d * (p - 1))%nat with (d * p - d)%nat by nia. apply Q; [|nia]. apply monic_comp; auto. now apply cheb_monic.
Qed.
Lemma exponent_pos k facs : (forall p a, In (p, a) facs -> (1 <= p)%nat) -> (1 <= minpoly_exponent k facs)%nat.
Proof.
  intros H. unfold minpoly_exponent. assert (A : (1 <= 2 ^ k)%nat) by (apply Nat.neq_0_lt_0, Nat.pow_nonzero; lia).
  assert (B : (1 <= fold_right (fun pa n => (fst pa ^ (snd pa - 1) * n)%nat) 1%nat facs)%nat); [|nia].
  induction facs as [|[p a] facs IH]; cbn [fold_right fst snd]; [lia|]. specialize (IH (fun p a h => H p a (or_intror h))).
  assert (C : (p ^ (a - 1) <> 0)%nat) by (apply Nat.pow_nonzero; specialize (H p a (or_introl eq_refl)); lia). nia.
Qed.
Lemma loop_degree facs : forall d,
  (fold_left (fun d p => (d * (p - 1))%nat) (map fst facs) d * fold_right (fun pa n => (fst pa ^ (snd pa - 1) * n)%nat) 1%nat facs = d * totient_product facs)%nat.
Proof.
  induction facs as [|[p a] facs IH]; intros d; cbn [map fold_left fold_right totient_product fst snd]; [lia|].
  rewrite Nat.mul_assoc, (Nat.mul_comm _ (p ^ (a - 1))), <- Nat.mul_assoc, IH. unfold totient_product. lia.
Qed.
Lemma odd_monic k p a facs : (forall q b, In (q, b) ((p, a) :: facs) -> is_prime q /\ q <> 2%nat /\ (1 <= b)%nat) ->
  match minpoly_odd k p a facs with Ok M => exists d, (2 * d = 2 ^ k * totient_product ((p, a) :: facs))%nat /\ monic d M | Err x => x = AssertionError end.
Proof.
  intros H. unfold minpoly_odd. destruct (H p a (or_introl eq_refl)) as (Pp & P2 & Ha).
  assert (Hk : exists j, p = (2 * j + 1)%nat /\ (1 <= j)%nat).
  { destruct Pp as [G Pp]. destruct (Nat.Even_or_Odd p) as [[j ->]|[j ->]]; [destruct (Pp 2%nat j eq_refl) as [|]; lia|]. exists j. split; lia. }
  destruct Hk as (j & Ej & Hj). assert (Mj : monic j (podd_prime p)) by (rewrite Ej; now apply odd_prime_monic).
  pose proof (loop_monic (map fst facs) j _ Mj) as L. destruct (minpoly_loop (podd_prime p) (map fst facs)) as [M|x].
  2: { apply L. intros q Hq. apply in_map_iff in Hq. destruct Hq as ([q' b] & <- & Hq). destruct (H q' b (or_intror Hq)) as ((G & _) & _). cbn. lia. }
  assert (L' : monic (fold_left (fun d p => (d * (p - 1))%nat) (map fst facs) j) M).
  { apply L. intros q Hq. apply in_map_iff in Hq. destruct Hq as ([q' b] & <- & Hq). destruct (H q' b (or_intror Hq)) as ((G & _) & _). cbn. lia. }
  clear L. set (nn := minpoly_exponent k ((p, a) :: facs)).
  assert (Hn : (1 <= nn)%nat) by (apply exponent_pos; intros q b Hq; destruct (H q b Hq) as ((G & _) & _); lia).
  exists (fold_left (fun d p => (d * (p - 1))%nat) (map fst facs) j * nn)%nat. split.
  - subst nn. unfold minpoly_exponent. pose proof (loop_degree facs j) as D. cbn [fold_right fst snd]. unfold totient_product in *. cbn [fold_right fst snd].
    set (F := fold_left _ _ _) in *. set (G := fold_right (fun pa n => (fst pa ^ (snd pa - 1) * n)%nat) _ _) in *. set (T := fold_right _ _ _) in *.
    replace (2 * (F * (2 ^ k * (p ^ (a - 1) * G))))%nat with (2 * (2 ^ k * p ^ (a - 1)) * (F * G))%nat by lia. rewrite D. replace (p - 1)%nat with (2 * j)%nat by lia. lia.
  - destruct (Nat.eqb_spec nn 1) as [E1|]; [rewrite E1, Nat.mul_1_r; auto|]. apply monic_comp; auto. now apply cheb_monic.
Qed.
Lemma minpoly_monic n facs : factorization n facs -> (2 <= n)%nat ->
  match cos_minpoly facs with Ok M => exists d, (2 * d = if Nat.even n then 2 * totient_product facs else totient_product facs)%nat /\ monic d M | Err x => x = AssertionError end.
Proof.
  intros [F1 F2 F3] Hn. destruct facs as [|[p a] facs]; [cbn in F3; lia|]. cbn [cos_minpoly]. destruct (F1 p a (or_introl eq_refl)) as [Pp Ha]. destruct (Nat.eqb_spec p 2) as [->|N].
  - assert (Ev : Nat.even n = true). { rewrite F3. cbn [fold_right fst snd]. replace a with (S (a - 1)) by lia. rewrite Nat.pow_succ_r', !Nat.even_mul. reflexivity. } rewrite Ev.
    destruct facs as [|[p b] facs].
    + exists (2 ^ (a - 1))%nat. split; [cbn; lia|]. apply cheb_monic. apply Nat.neq_0_lt_0, Nat.pow_nonzero. lia.
    + pose proof (odd_monic a p b facs) as O. destruct (minpoly_odd a p b facs) as [M|x].
      * destruct O as (d & D1 & D2). { intros q c Hq. destruct (F1 q c (or_intror Hq)) as [A B]. split; [exact A|split; [|exact B]]. intros ->. destruct (In_nth_error _ _ Hq) as [i Hi]. specialize (F2 0%nat (S i) 2%nat a 2%nat c (Nat.lt_0_succ i) eq_refl Hi). lia. }
        exists d. split; auto. rewrite D1. unfold totient_product. cbn [fold_right fst snd]. replace a with (S (a - 1)) at 1 by lia. rewrite Nat.pow_succ_r'. lia.
      * apply O. intros q c Hq. destruct (F1 q c (or_intror Hq)) as [A B]. split; [exact A|split; [|exact B]]. intros ->. destruct (In_nth_error _ _ Hq) as [i Hi]. specialize (F2 0%nat (S i) 2%nat a 2%nat c (Nat.lt_0_succ i) eq_refl Hi). lia.
  - assert (HA : forall q b, In (q, b) ((p, a) :: facs) -> is_prime q /\ q <> 2%nat /\ (1 <= b)%nat).
    { intros q c Hq. destruct (F1 q c Hq) as [A B]. split; [exact A|split; [|exact B]]. destruct (In_nth_error _ _ Hq) as [[|i] Hi]; [cbn in Hi; injection Hi as <- <-; auto|].
      intros ->. specialize (F2 0%nat (S i) p a 2%nat c (Nat.lt_0_succ i) eq_refl Hi). destruct Pp as [G _]. lia. }
    assert (Od : Nat.even n = false).
    { rewrite F3. clear - HA. induction ((p, a) :: facs) as [|[q b] l IH]; [reflexivity|]. cbn [fold_right fst snd]. rewrite Nat.even_mul, IH by (intros; apply HA; now right). rewrite orb_false_r.
      destruct (HA q b (or_introl eq_refl)) as ([G Q] & N & _). destruct (Nat.even q) eqn:E; [apply Nat.even_spec in E; destruct E as [j ->]; destruct (Q 2%nat j eq_refl); lia|].
      clear - E. induction b as [|b IH]; [reflexivity|]. now rewrite Nat.pow_succ_r', Nat.even_mul, E, IH. }
    rewrite Od. pose proof (odd_monic 0 p a facs HA) as O. destruct (minpoly_odd 0 p a facs) as [M|x]; auto. destruct O as (d & D1 & D2). exists d. split; auto. rewrite D1. cbn [Nat.pow]. lia.
Qed.
