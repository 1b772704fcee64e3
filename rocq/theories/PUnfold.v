(** Proofs about unfoldings of polygons with rational angles. *)
From Coq Require Qcanon.
From Coq Require Import List Bool ZArith QArith Qreduction Lia Lqa Znumtheory Setoid Morphisms.
From Verif Require Import MBase MUnfold SUnfold.
Import ListNotations.

(** ** fractions *)
Local Open Scope Z_scope.
Lemma den_pos x : 0 < denominator x. Proof. unfold denominator. lia. Qed.
Lemma num_den x : (x == inject_Z (numerator x) / inject_Z (denominator x))%Q.
Proof. rewrite <- (Qred_correct x) at 1. unfold numerator, denominator. generalize (Qred x). intros [a b]. cbn [Qnum Qden]. apply Qmake_Qdiv. Qed.
Lemma num_den_gcd x : Z.gcd (numerator x) (denominator x) = 1.
Proof. unfold numerator, denominator. apply Qcanon.Qred_iff. apply Qcanon.Qred_involutive. Qed.
Global Instance numerator_proper : Proper (Qeq ==> eq) numerator.
Proof. intros x y H. unfold numerator. now rewrite (Qred_complete x y H). Qed.
Global Instance denominator_proper : Proper (Qeq ==> eq) denominator.
Proof. intros x y H. unfold denominator. now rewrite (Qred_complete x y H). Qed.
Lemma inj_neq0 d : d <> 0 -> ~ (inject_Z d == 0)%Q.
Proof. intros H E. apply H. unfold Qeq in E. cbn in E. lia. Qed.
Lemma inj_eq a b : (inject_Z a == inject_Z b)%Q <-> a = b.
Proof. unfold Qeq. cbn. split; lia. Qed.
Lemma den_mul x : (inject_Z (denominator x) * x == inject_Z (numerator x))%Q.
Proof. rewrite (num_den x) at 2. field. apply inj_neq0. pose proof (den_pos x). lia. Qed.
Lemma mul_eq x a b : (inject_Z a * x == inject_Z b)%Q <-> a * numerator x = b * denominator x.
Proof.
  pose proof (den_pos x) as P. split.
  - intros E. apply inj_eq. rewrite !inject_Z_mult, <- E, <- den_mul. ring.
  - intros E. apply (Qmult_inj_r _ _ (inject_Z (denominator x))); [apply inj_neq0; lia|]. rewrite <- (inject_Z_mult b), <- E, inject_Z_mult, <- den_mul. ring.
Qed.
Lemma int_iff x M : is_int (inject_Z M * x) <-> (denominator x | M).
Proof.
  split.
  - intros [z E]. apply mul_eq in E. apply (Z.gauss _ (numerator x)); [exists z; lia|]. rewrite Z.gcd_comm. apply num_den_gcd.
  - intros [t E]. exists (t * numerator x). apply mul_eq. subst M. ring.
Qed.

(** ** dictionaries *)
Definition dsum (g : Q -> Q) (d : dict) : Q := qsum (map (fun ym => inject_Z (snd ym) * g (fst ym))%Q d).
Lemma dsum_nil g : (dsum g [] == 0)%Q. Proof. reflexivity. Qed.
Lemma dsum_add g d y m : Proper (Qeq ==> Qeq) g -> (dsum g (dict_add d y m) == dsum g d + inject_Z m * g y)%Q.
Proof.
  intros G. induction d as [|[x k] d IH]; cbn [dict_add].
  - unfold dsum, qsum. cbn [map fold_right fst snd]. ring.
  - destruct (Qeq_bool x y) eqn:E.
    + apply Qeq_bool_iff in E. unfold dsum, qsum. cbn [map fold_right fst snd]. rewrite inject_Z_plus, E. ring.
    + unfold dsum, qsum in *. cbn [map fold_right fst snd]. rewrite IH. ring.
Qed.
Lemma in_add d y m z k : In (z, k) (dict_add d y m) -> (z == y)%Q \/ exists k', In (z, k') d.
Proof.
  induction d as [|[x j] d IH]; cbn [dict_add].
  - intros [E|[]]. injection E as <- <-. left. reflexivity.
  - destruct (Qeq_bool x y) eqn:E.
    + intros [H|H]; [injection H as <- <-; left; now apply Qeq_bool_iff|right; exists k; now right].
    + intros [H|H]; [injection H as <- <-; right; exists j; now left|]. destruct (IH H) as [X|[k' X]]; auto. right. exists k'. now right.
Qed.
Lemma add_in d y m : exists z k, In (z, k) (dict_add d y m) /\ (z == y)%Q.
Proof.
  induction d as [|[x j] d IH]; cbn [dict_add]; [exists y, m; split; [now left|reflexivity]|]. destruct (Qeq_bool x y) eqn:E.
  - exists x, (j + m). split; [now left|now apply Qeq_bool_iff].
  - destruct IH as (z & k & H & H'). exists z, k. split; [now right|auto].
Qed.
Lemma add_mono d y m z k : In (z, k) d -> exists k', In (z, k') (dict_add d y m).
Proof.
  induction d as [|[x j] d IH]; cbn [dict_add]; [contradiction|]. destruct (Qeq_bool x y).
  - intros [H|H]; [injection H as <- <-; exists (j + m); now left|exists k; now right].
  - intros [H|H]; [injection H as <- <-; exists j; now left|]. destruct (IH H) as [k' X]. exists k'. now right.
Qed.
Lemma add_unique d y m : unique_keys d -> unique_keys (dict_add d y m).
Proof.
  induction d as [|[x j] d IH]; cbn [dict_add unique_keys]; [intros _; split; [intros z k []|exact I]|]. intros [U1 U2]. destruct (Qeq_bool x y) eqn:E; cbn [unique_keys]; [now split|].
  split; [|now apply IH]. intros z k H. destruct (in_add _ _ _ _ _ H) as [X|[k' X]]; [|now apply (U1 z k')]. intros X'. rewrite X in X'. apply Qeq_bool_neq in E. contradiction.
Qed.
Lemma add_positive d y m : 0 < m -> (forall z k, In (z, k) d -> 0 < k) -> forall z k, In (z, k) (dict_add d y m) -> 0 < k.
Proof.
  intros M. induction d as [|[x j] d IH]; cbn [dict_add]; intros H z k.
  - intros [E|[]]. injection E as <- <-. auto.
  - pose proof (H x j (or_introl eq_refl)) as Hj. destruct (Qeq_bool x y); intros [E|E].
    + injection E as <- <-. lia.
    + apply (H z k). now right.
    + injection E as <- <-. auto.
    + apply (IH (fun z k h => H z k (or_intror h)) z k E).
Qed.
Definition ind (y z : Q) : Q := if Qeq_bool z y then 1%Q else 0%Q.
Global Instance ind_proper y : Proper (Qeq ==> Qeq) (ind y).
Proof. intros a b H. unfold ind. destruct (Qeq_bool a y) eqn:A, (Qeq_bool b y) eqn:B; try reflexivity; exfalso; [apply Qeq_bool_neq in B; apply Qeq_bool_iff in A; apply B; now rewrite <- H|apply Qeq_bool_neq in A; apply Qeq_bool_iff in B; apply A; now rewrite H]. Qed.
Lemma multiplicity_dsum d y : (inject_Z (multiplicity d y) == dsum (ind y) d)%Q.
Proof.
  induction d as [|[x k] d IH]; [reflexivity|]. unfold dsum, multiplicity, qsum, ind in *. cbn [map fold_right fst snd] in *. destruct (Qeq_bool x y); rewrite ?inject_Z_plus, IH; ring.
Qed.

(** ** least common multiples *)
Lemma lcm_list_pos l : (forall x, In x l -> 0 < x) -> 0 < lcm_list l.
Proof.
  induction l as [|a l IH]; intros H; cbn; [lia|]. specialize (IH (fun x h => H x (or_intror h))). specialize (H a (or_introl eq_refl)). fold (lcm_list l).
  assert (Z.lcm a (lcm_list l) <> 0) by (intros E; apply Z.lcm_eq_0 in E; lia). pose proof (Z.lcm_nonneg a (lcm_list l)). lia.
Qed.
Lemma lcm_list_divide l M : (lcm_list l | M) <-> forall x, In x l -> (x | M).
Proof.
  induction l as [|a l IH].
  - cbn. split; [intros _ x []|intros _; apply Z.divide_1_l].
  - cbn. fold (lcm_list l). split.
    + intros D x [<-|H]; [apply (Z.divide_trans _ (Z.lcm a (lcm_list l))); auto; apply Z.divide_lcm_l|]. apply IH; auto. apply (Z.divide_trans _ (Z.lcm a (lcm_list l))); auto. apply Z.divide_lcm_r.
    + intros H. apply Z.lcm_least; [apply H; now left|]. apply IH. intros x Hx. apply H. now right.
Qed.

(** ** the dictionary of angles *)
Definition asum (g : Q -> Q) (angles : list Q) : Q := qsum (map (fun a => g (2 * a)%Q) angles).
Definition rat_of (angles : list Q) : dict := fold_left (fun d a => dict_add d (2 * a)%Q 1) angles nil.
Lemma rat_gen g angles : Proper (Qeq ==> Qeq) g -> forall d, (dsum g (fold_left (fun d a => dict_add d (2 * a)%Q 1) angles d) == dsum g d + asum g angles)%Q.
Proof.
  intros G. induction angles as [|a l IH]; intros d; cbn [fold_left]; [unfold asum, qsum; cbn; ring|]. rewrite IH, dsum_add by auto. unfold asum, qsum. cbn [map fold_right]. ring.
Qed.
Lemma rat_sum g angles : Proper (Qeq ==> Qeq) g -> (dsum g (rat_of angles) == asum g angles)%Q.
Proof. intros G. unfold rat_of. rewrite rat_gen by auto. rewrite dsum_nil. ring. Qed.
Lemma rat_keys angles : forall d z, (exists k, In (z, k) (fold_left (fun d a => dict_add d (2 * a)%Q 1) angles d)) -> (exists k, In (z, k) d) \/ exists a, In a angles /\ (z == 2 * a)%Q.
Proof.
  induction angles as [|a l IH]; intros d z H; cbn [fold_left] in H; auto. destruct (IH _ _ H) as [[k X]|(b & X & Y)]; [|right; exists b; split; [now right|auto]].
  destruct (in_add _ _ _ _ _ X) as [E|E]; auto. right. exists a. split; [now left|auto].
Qed.
Lemma rat_mono angles : forall d z k, In (z, k) d -> exists k', In (z, k') (fold_left (fun d a => dict_add d (2 * a)%Q 1) angles d).
Proof. induction angles as [|a l IH]; intros d z k H; cbn [fold_left]; [now exists k|]. destruct (add_mono d (2 * a)%Q 1 z k H) as [k' X]. now apply (IH _ z k'). Qed.
Lemma rat_has angles : forall d a, In a angles -> exists z k, In (z, k) (fold_left (fun d a => dict_add d (2 * a)%Q 1) angles d) /\ (z == 2 * a)%Q.
Proof.
  induction angles as [|b l IH]; intros d a H; cbn [fold_left]; [contradiction|]. destruct H as [->|H]; [|now apply IH]. destruct (add_in d (2 * a)%Q 1) as (z & k & X & Y). destruct (rat_mono l _ z k X) as [k' X']. now exists z, k'.
Qed.
Lemma rat_unique angles : forall d, unique_keys d -> unique_keys (fold_left (fun d a => dict_add d (2 * a)%Q 1) angles d).
Proof. induction angles as [|a l IH]; intros d H; cbn [fold_left]; auto. apply IH, add_unique, H. Qed.
Lemma rat_positive angles : forall d, (forall z k, In (z, k) d -> 0 < k) -> forall z k, In (z, k) (fold_left (fun d a => dict_add d (2 * a)%Q 1) angles d) -> 0 < k.
Proof. induction angles as [|a l IH]; intros d H; cbn [fold_left]; auto. apply IH. apply add_positive; auto. lia. Qed.
Definition order (angles : list Q) : Z := lcm_list (map (fun xm => denominator (fst xm)) (rat_of angles)).
Lemma order_divide angles M : (order angles | M) <-> forall a, In a angles -> (denominator (2 * a)%Q | M).
Proof.
  unfold order. rewrite lcm_list_divide. split.
  - intros H a Ha. destruct (rat_has angles nil a Ha) as (z & k & X & Y). rewrite <- Y. apply H. apply in_map_iff. now exists (z, k).
  - intros H q Hq. apply in_map_iff in Hq. destruct Hq as ([z k] & <- & X). cbn [fst]. destruct (rat_keys angles nil z) as [[k' []]|(a & Ha & E)]; [now exists k|]. rewrite E. now apply H.
Qed.
Lemma order_pos angles : 0 < order angles.
Proof. apply lcm_list_pos. intros q Hq. apply in_map_iff in Hq. destruct Hq as ([z k] & <- & X). apply den_pos. Qed.

(** ** the loops *)
Definition new_d (x : Q) : Z := if negb (denominator x mod 2 =? 0) then denominator x * 2 else denominator x.
Definition new_y (x : Q) : Q := if negb (denominator x mod 2 =? 0) then inject_Z (numerator x) else (inject_Z (numerator x) / 2)%Q.
Global Instance new_d_proper : Proper (Qeq ==> eq) new_d. Proof. intros a b H. unfold new_d. rewrite (denominator_proper a b H). reflexivity. Qed.
Global Instance new_y_proper : Proper (Qeq ==> eq) new_y. Proof. intros a b H. unfold new_y. rewrite (denominator_proper a b H), (numerator_proper a b H). reflexivity. Qed.
Lemma cover_loop_ok N items : (forall x m, In (x, m) items -> (new_d x | N)) -> forall cov, exists cov', cover_loop N items cov = Ok cov' /\
  (forall g, Proper (Qeq ==> Qeq) g -> (dsum g cov' == dsum g cov + dsum (fun x => inject_Z (N / new_d x) * g (new_y x)) items)%Q) /\
  (unique_keys cov -> unique_keys cov') /\
  (forall z, (exists k, In (z, k) cov') -> (exists k, In (z, k) cov) \/ exists x k, In (x, k) items /\ (z == new_y x)%Q) /\
  (forall z, (exists k, In (z, k) cov) -> exists k, In (z, k) cov') /\
  (forall x k, In (x, k) items -> exists z k, In (z, k) cov' /\ (z == new_y x)%Q) /\
  (0 < N -> (forall z k, In (z, k) items -> 0 < k) -> (forall z k, In (z, k) cov -> 0 < k) -> forall z k, In (z, k) cov' -> 0 < k).
Proof.
  induction items as [|[x mult] items IH]; intros H cov; cbn [cover_loop].
  - exists cov. repeat split; auto.
    + intros g _. rewrite (dsum_nil (fun x => _)). ring.
    + intros x k [].
  - pose proof (H x mult (or_introl eq_refl)) as [t Ht].
    replace (let '(y, d) := if negb (denominator x mod 2 =? 0) then (inject_Z (numerator x), denominator x * 2) else ((inject_Z (numerator x) / 2)%Q, denominator x) in if N mod d =? 0 then cover_loop N items (dict_add cov y (mult * N / d)) else Err AssertionError)
      with (if N mod new_d x =? 0 then cover_loop N items (dict_add cov (new_y x) (mult * N / new_d x)) else Err AssertionError) by (unfold new_d, new_y; destruct (negb _); reflexivity).
    assert (P : 0 < new_d x) by (unfold new_d; pose proof (den_pos x); destruct (negb _); lia).
    assert (N mod new_d x = 0) as -> by (rewrite Ht; apply Z.mod_mul; lia). rewrite Z.eqb_refl.
    destruct (IH (fun x m h => H x m (or_intror h)) (dict_add cov (new_y x) (mult * N / new_d x))) as (cov' & E & F1 & F2 & F3 & F4 & F5 & F6).
    exists cov'. split; [exact E|]. split; [|split; [|split; [|split; [|split]]]].
    + intros g G. rewrite (F1 g G), dsum_add by auto. rewrite Z.divide_div_mul_exact by (try lia; now exists t). unfold dsum, qsum. cbn [map fold_right fst snd]. rewrite inject_Z_mult. ring.
    + intros U. apply F2, add_unique, U.
    + intros z Hz. destruct (F3 z Hz) as [[k X]|(x' & k & X & Y)]; [|right; exists x', k; split; [now right|auto]]. destruct (in_add _ _ _ _ _ X) as [Y|Y]; auto. right. exists x, mult. split; [now left|auto].
    + intros z [k X]. apply F4. now apply (add_mono _ _ _ _ k).
    + intros x' k [X|X]; [|now apply (F5 x' k)]. injection X as <- <-. destruct (add_in cov (new_y x) (mult * N / new_d x)) as (z & k & X & Y). destruct (F4 z (ex_intro _ k X)) as [k' X']. now exists z, k'.
    + intros PN PI PC. apply F6; auto; [intros z k X; apply (PI z k); now right|]. apply add_positive; auto. rewrite Z.divide_div_mul_exact by (try lia; now exists t). specialize (PI x mult (or_introl eq_refl)).
      rewrite Ht, Z.div_mul by lia. nia.
Qed.
Lemma double_ok g cov : Proper (Qeq ==> Qeq) g -> (dsum g (double_loop cov) == dsum (fun y => inject_Z (2 / denominator y) * g (inject_Z (numerator y))) cov)%Q.
Proof.
  intros G. unfold double_loop. assert (X : forall cc, (dsum g (fold_left (fun cc ym => dict_add cc (inject_Z (numerator (fst ym))) (2 / denominator (fst ym) * snd ym)) cov cc) == dsum g cc + dsum (fun y => inject_Z (2 / denominator y) * g (inject_Z (numerator y))) cov)%Q).
  { induction cov as [|[y m] cov IH]; intros cc; cbn [fold_left fst snd]; [rewrite (dsum_nil (fun x => _)); ring|]. rewrite IH, dsum_add by auto. unfold dsum, qsum. cbn [map fold_right fst snd]. rewrite inject_Z_mult. ring. }
  rewrite X, dsum_nil. ring.
Qed.
Lemma double_unique cov : unique_keys (double_loop cov).
Proof.
  unfold double_loop. assert (X : forall cc, unique_keys cc -> unique_keys (fold_left (fun cc ym => dict_add cc (inject_Z (numerator (fst ym))) (2 / denominator (fst ym) * snd ym)) cov cc)).
  { induction cov as [|[y m] cov IH]; intros cc U; cbn [fold_left]; auto. apply IH, add_unique, U. }
  apply X. exact I.
Qed.
