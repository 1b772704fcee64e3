(** The dictionaries of cone angles of covers. *)
From Coq Require Import List Bool ZArith QArith Qreduction Lia Lqa Znumtheory Setoid Morphisms.
From Verif Require Import MBase MUnfold SUnfold PUnfold.
Import ListNotations.
Local Open Scope Z_scope.

Lemma fraction_unique x a b : 0 < b -> Z.gcd a b = 1 -> (inject_Z b * x == inject_Z a)%Q -> numerator x = a /\ denominator x = b.
Proof.
  intros P G E. apply mul_eq in E. pose proof (den_pos x) as D. pose proof (num_den_gcd x) as G'.
  assert (D1 : (denominator x | b)). { apply (Z.gauss _ (numerator x)); [exists a; lia|]. now rewrite Z.gcd_comm. }
  assert (D2 : (b | denominator x)). { apply (Z.gauss _ a); [exists (numerator x); lia|]. now rewrite Z.gcd_comm. }
  assert (Eb : denominator x = b) by (apply Z.divide_antisym_nonneg; auto; lia). split; auto. rewrite Eb in E. nia.
Qed.
Lemma fraction_int p : numerator (inject_Z p) = p /\ denominator (inject_Z p) = 1.
Proof. apply fraction_unique; [lia|apply Z.gcd_1_r|]. change (inject_Z 1) with 1%Q. ring. Qed.
Lemma fraction_half p : p mod 2 = 1 -> numerator (inject_Z p / 2)%Q = p /\ denominator (inject_Z p / 2)%Q = 2.
Proof.
  intros H. apply fraction_unique; [lia| |change (inject_Z 2) with 2%Q; field; lra].
  assert (D : (Z.gcd p 2 | 2)) by apply Z.gcd_divide_r. assert (D' : (Z.gcd p 2 | p)) by apply Z.gcd_divide_l. pose proof (Z.gcd_nonneg p 2). pose proof (Z.divide_pos_le (Z.gcd p 2) 2 ltac:(lia) D).
  destruct (Z.eq_dec (Z.gcd p 2) 2) as [E|]; [|destruct (Z.eq_dec (Z.gcd p 2) 0) as [E|]; [apply Z.gcd_eq_0_r in E|]; lia]. rewrite E in D'. apply Z.mod_divide in D'; lia.
Qed.
Lemma dsum_ext g h d : (forall y m, In (y, m) d -> (g y == h y)%Q) -> (dsum g d == dsum h d)%Q.
Proof.
  induction d as [|[y m] d IH]; intros H; [reflexivity|]. unfold dsum, qsum in *. cbn [map fold_right fst snd]. rewrite IH by (intros; apply (H y0 m0); now right). rewrite (H y m) by now left. reflexivity.
Qed.
Lemma asum_ext g h l : (forall a, In a l -> (g (2 * a) == h (2 * a))%Q) -> (asum g l == asum h l)%Q.
Proof.
  induction l as [|a l IH]; intros H; [reflexivity|]. unfold asum, qsum in *. cbn [map fold_right]. rewrite IH by (intros; apply H; now right). rewrite (H a) by now left. reflexivity.
Qed.

(** the number of turns after which one is back on the same sheet *)
Definition turns (c : Z) (x : Q) : Z := denominator x / Z.gcd c (denominator x).
Global Instance turns_proper c : Proper (Qeq ==> eq) (turns c). Proof. intros a b H. unfold turns. now rewrite (denominator_proper a b H). Qed.
Definition degree (c : Z) (angles : list Q) : Z := order angles / Z.gcd c (order angles).
Lemma gcd2 q : 0 < q -> Z.gcd 2 q = if q mod 2 =? 0 then 2 else 1.
Proof.
  intros P. destruct (Z.eqb_spec (q mod 2) 0) as [E|E].
  - apply Z.mod_divide in E; [|lia]. apply (proj1 (Z.divide_gcd_iff 2 q ltac:(lia))). exact E.
  - assert (D : (Z.gcd 2 q | 2)) by apply Z.gcd_divide_l. pose proof (Z.gcd_nonneg 2 q). pose proof (Z.divide_pos_le (Z.gcd 2 q) 2 ltac:(lia) D).
    destruct (Z.eq_dec (Z.gcd 2 q) 2) as [X|]; [|destruct (Z.eq_dec (Z.gcd 2 q) 0) as [X|]; [apply Z.gcd_eq_0_r in X|]; lia]. exfalso. apply E. apply Z.mod_divide; [lia|]. rewrite <- X. apply Z.gcd_divide_r.
Qed.
Lemma turns_1 x : turns 1 x = denominator x. Proof. unfold turns. rewrite Z.gcd_1_l. apply Z.div_1_r. Qed.
Lemma turns_2 x : turns 2 x = if denominator x mod 2 =? 0 then denominator x / 2 else denominator x.
Proof. unfold turns. rewrite gcd2 by apply den_pos. destruct (denominator x mod 2 =? 0); auto. apply Z.div_1_r. Qed.
Lemma turns_pos c x : c = 1 \/ c = 2 -> 0 < turns c x.
Proof.
  intros [-> | ->]; [rewrite turns_1; apply den_pos|]. rewrite turns_2. pose proof (den_pos x). destruct (Z.eqb_spec (denominator x mod 2) 0) as [E|E]; auto. apply Z.mod_divide in E; [|lia]. destruct E as [t E]. rewrite E, Z.div_mul by lia. lia.
Qed.
Definition doubled (angles : list Q) : Z := if negb (order angles mod 2 =? 0) then order angles * 2 else order angles.
Lemma doubled_degree angles : doubled angles = 2 * degree 2 angles.
Proof.
  unfold doubled, degree. pose proof (order_pos angles). rewrite gcd2 by auto. destruct (Z.eqb_spec (order angles mod 2) 0) as [E|E]; cbn [negb].
  - apply Z.mod_divide in E; [|lia]. destruct E as [t E]. rewrite E, Z.div_mul by lia. lia.
  - rewrite Z.div_1_r. lia.
Qed.
Lemma divide_degree c angles a : c = 1 \/ c = 2 -> In a angles -> (turns c (2 * a)%Q | degree c angles).
Proof.
  intros C Ha. pose proof (proj1 (order_divide angles (order angles)) (Z.divide_refl _) a Ha) as D. pose proof (order_pos angles) as P. pose proof (den_pos (2 * a)%Q) as P'. destruct C as [-> | ->].
  - rewrite turns_1. unfold degree. now rewrite Z.gcd_1_l, Z.div_1_r.
  - pose proof (doubled_degree angles) as E. rewrite turns_2. destruct (Z.eqb_spec (denominator (2 * a)%Q mod 2) 0) as [X|X].
    + apply Z.mod_divide in X; [|lia]. destruct X as [t X]. rewrite X in *. rewrite Z.div_mul by lia. destruct D as [s D]. assert (E0 : order angles mod 2 = 0) by (apply Z.mod_divide; [lia|]; exists (s * t); lia).
      unfold doubled in E. rewrite E0 in E. cbn [Z.eqb negb] in E. exists s. nia.
    + apply (Z.gauss _ 2); [|rewrite Z.gcd_comm, gcd2 by auto; now destruct (Z.eqb_spec (denominator (2 * a)%Q mod 2) 0)]. rewrite <- E. unfold doubled. destruct (negb _); auto. now apply Z.divide_mul_l.
Qed.
Lemma new_d_divide angles x m : In (x, m) (rat_of angles) -> (new_d x | doubled angles).
Proof.
  intros H. destruct (rat_keys angles nil x) as [[k []]|(a & Ha & E)]; [now exists m|]. rewrite (new_d_proper _ _ E). rewrite doubled_degree. destruct (divide_degree 2 angles a (or_intror eq_refl) Ha) as [t T]. rewrite T. exists t.
  rewrite turns_2. unfold new_d. destruct (Z.eqb_spec (denominator (2 * a)%Q mod 2) 0) as [X|X]; cbn [negb]; [|lia]. apply Z.mod_divide in X; [|lia]. destruct X as [s X]. rewrite X, Z.div_mul by lia. lia.
Qed.
Lemma new_y_turns x : (new_y x == inject_Z (turns 2 x) * x)%Q.
Proof.
  rewrite turns_2. unfold new_y. destruct (Z.eqb_spec (denominator x mod 2) 0) as [E|E]; cbn [negb]; [|now rewrite den_mul].
  apply Z.mod_divide in E; [|lia]. destruct E as [t E]. rewrite <- den_mul. rewrite E, Z.div_mul by lia. rewrite inject_Z_mult. change (inject_Z 2) with 2%Q. field.
Qed.
Lemma new_d_turns angles a : In a angles -> doubled angles / new_d (2 * a)%Q = degree 2 angles / turns 2 (2 * a)%Q.
Proof.
  intros Ha. rewrite doubled_degree. destruct (divide_degree 2 angles a (or_intror eq_refl) Ha) as [t T]. pose proof (turns_pos 2 (2 * a)%Q (or_intror eq_refl)) as P. rewrite T, Z.div_mul by lia.
  assert (N : new_d (2 * a)%Q = 2 * turns 2 (2 * a)%Q). { rewrite turns_2. unfold new_d. destruct (Z.eqb_spec (denominator (2 * a)%Q mod 2) 0) as [X|X]; cbn [negb]; [|lia]. apply Z.mod_divide in X; [|lia]. destruct X as [s X]. rewrite X, Z.div_mul by lia. lia. }
  rewrite N. replace (2 * (t * turns 2 (2 * a)%Q)) with (t * (2 * turns 2 (2 * a)%Q)) by lia. apply Z.div_mul. lia.
Qed.

Definition cover_of (c : Z) : cover_type := if c =? 1 then translation_cover else half_translation_cover.
Definition good_dict (c : Z) (angles : list Q) (d : dict) : Prop :=
  unique_keys d /\ forall g, Proper (Qeq ==> Qeq) g -> (dsum g d == asum (fun x => inject_Z (degree c angles / turns c x) * g (inject_Z (turns c x) * x)%Q) angles)%Q.
Lemma half_ok angles : exists cov, cover_loop (doubled angles) (rat_of angles) nil = Ok cov /\ good_dict 2 angles cov /\
  (forall z, (exists k, In (z, k) cov) -> exists a, In a angles /\ (z == new_y (2 * a))%Q) /\ (forall a, In a angles -> exists z k, In (z, k) cov /\ (z == new_y (2 * a))%Q) /\
  (forall z k, In (z, k) cov -> 0 < k).
Proof.
  destruct (cover_loop_ok (doubled angles) (rat_of angles) (new_d_divide angles) nil) as (cov & E & F1 & F2 & F3 & F4 & F5 & F6). exists cov. split; [exact E|]. split; [split|split; [|split]].
  - apply F2. exact I.
  - intros g G. rewrite (F1 g G), dsum_nil, Qplus_0_l, rat_sum.
    + apply asum_ext. intros a Ha. rewrite new_d_turns by auto. rewrite (G _ _ (new_y_turns (2 * a)%Q)). reflexivity.
    + intros x y H. rewrite (new_d_proper _ _ H), (new_y_proper _ _ H). reflexivity.
  - intros z Hz. destruct (F3 z Hz) as [[k []]|(x & k & X & Y)]. destruct (rat_keys angles nil x) as [[k' []]|(a & Ha & Ea)]; [now exists k|]. exists a. split; auto. rewrite Y, (new_y_proper _ _ Ea). reflexivity.
  - intros a Ha. destruct (rat_has angles nil a Ha) as (x & k & X & Y). destruct (F5 x k X) as (z & k' & Z1 & Z2). exists z, k'. split; auto. rewrite Z2, (new_y_proper _ _ Y). reflexivity.
  - apply F6; [|apply rat_positive; intros z k []|intros z k []]. pose proof (doubled_degree angles). unfold doubled in *. pose proof (order_pos angles). destruct (negb _); lia.
Qed.
Lemma unfolding_ok c angles : c = 1 \/ c = 2 -> exists d, billiard_unfolding_angles angles (cover_of c) = Ok d /\ good_dict c angles d /\ (forall z k, In (z, k) d -> 0 < k).
Proof.
  intros C. destruct (half_ok angles) as (cov & E & G & K1 & K2 & K3). unfold billiard_unfolding_angles. change (fold_left (fun d a => dict_add d (2 * a) 1) angles []) with (rat_of angles).
  change (lcm_list (map (fun xm => denominator (fst xm)) (rat_of angles))) with (order angles). change (if negb (order angles mod 2 =? 0) then order angles * 2 else order angles) with (doubled angles).
  destruct C as [-> | ->]; cbn [cover_of Z.eqb Pos.eqb]; rewrite E; [|now exists cov].
  assert (DN : forall x, denominator (new_y x) = if denominator x mod 2 =? 0 then 2 else 1).
  { intros x. unfold new_y. destruct (Z.eqb_spec (denominator x mod 2) 0) as [X|X]; cbn [negb]; [|apply fraction_int]. apply fraction_half.
    pose proof (num_den_gcd x) as GG. destruct (Z.eq_dec (numerator x mod 2) 0) as [Y|Y]; [|pose proof (Z.mod_pos_bound (numerator x) 2); lia]. exfalso. apply Z.mod_divide in X, Y; try lia. assert (D : (2 | 1)) by (rewrite <- GG; now apply Z.gcd_greatest). apply Z.divide_1_r in D. lia. }
  assert (NM : forall x, numerator (new_y x) = numerator x).
  { intros x. pose proof (DN x) as D. unfold new_y in *. destruct (Z.eqb_spec (denominator x mod 2) 0) as [X|X]; cbn [negb] in *; [|apply fraction_int].
    pose proof (num_den (inject_Z (numerator x) / 2)%Q) as ND. rewrite D in ND. apply inj_eq. change (inject_Z 2) with 2%Q in ND. apply (Qmult_inj_r _ _ (/ 2)%Q); [discriminate|]. unfold Qdiv in *. now symmetry. }
  destruct (existsb (fun ym => denominator (fst ym) =? 2) cov) eqn:X.
  - apply existsb_exists in X. destruct X as ([z k] & Hz & X). cbn [fst] in X. apply Z.eqb_eq in X. destruct (K1 z (ex_intro _ k Hz)) as (a & Ha & Ea). rewrite (denominator_proper _ _ Ea), DN in X.
    destruct (Z.eqb_spec (denominator (2 * a)%Q mod 2) 0) as [Y|]; [|lia].
    assert (EV : order angles mod 2 = 0). { apply Z.mod_divide; [lia|]. apply Z.mod_divide in Y; [|lia]. apply (Z.divide_trans _ _ _ Y). now apply (proj1 (order_divide angles (order angles)) (Z.divide_refl _)). }
    assert (DO : doubled angles = order angles) by (unfold doubled; now rewrite EV).
    exists (double_loop cov). split; auto. split; [split; [apply double_unique|]|].
    + intros g Pg. rewrite double_ok by auto. destruct G as [_ G]. rewrite (G (fun y => inject_Z (2 / denominator y) * g (inject_Z (numerator y)))%Q).
      * apply asum_ext. intros b Hb. set (x := (2 * b)%Q) in *. rewrite (denominator_proper _ _ (Qeq_sym _ _ (new_y_turns x))), (numerator_proper _ _ (Qeq_sym _ _ (new_y_turns x))), DN, NM.
        assert (Y1 : (inject_Z (turns 1 x) * x == inject_Z (numerator x))%Q) by (rewrite turns_1; apply den_mul). rewrite (Pg _ _ Y1).
        assert (Q : degree 1 angles / turns 1 x = degree 2 angles / turns 2 x * (2 / (if denominator x mod 2 =? 0 then 2 else 1))).
        { rewrite turns_1, turns_2. unfold degree. rewrite Z.gcd_1_l, Z.div_1_r, gcd2, EV by apply order_pos. cbn [Z.eqb]. destruct (proj1 (order_divide angles (order angles)) (Z.divide_refl _) b Hb) as [t T]. fold x in T. pose proof (den_pos x) as P.
          rewrite T, Z.div_mul by lia. destruct (Z.eqb_spec (denominator x mod 2) 0) as [W|W].
          - apply Z.mod_divide in W; [|lia]. destruct W as [s W]. rewrite W, (Z.div_mul s) by lia. replace (t * (s * 2)) with (t * s * 2) by lia. rewrite Z.div_mul, Z.div_mul by lia. change (2 / 2) with 1. lia.
          - assert (W2 : (2 | t)). { apply (Z.gauss _ (denominator x)); [rewrite Z.mul_comm, <- T; apply Z.mod_divide; [lia|auto]|]. rewrite gcd2 by lia. now destruct (Z.eqb_spec (denominator x mod 2) 0). }
            destruct W2 as [s ->]. replace (s * 2 * denominator x) with (s * denominator x * 2) by lia. rewrite Z.div_mul, Z.div_mul by lia. change (2 / 1) with 2. lia. }
        rewrite Q, inject_Z_mult. ring.
      * intros y y' H. rewrite (denominator_proper _ _ H), (numerator_proper _ _ H). reflexivity.
    + unfold double_loop. assert (W : forall l cc, (forall z k, In (z, k) l -> 0 < k /\ (denominator z = 1 \/ denominator z = 2)) -> (forall z k, In (z, k) cc -> 0 < k) ->
        forall z k, In (z, k) (fold_left (fun cc ym => dict_add cc (inject_Z (numerator (fst ym))) (2 / denominator (fst ym) * snd ym)) l cc) -> 0 < k).
      { induction l as [|[y m] l IH]; intros cc HL HC; cbn [fold_left fst snd]; auto. apply IH; [intros; apply (HL z0 k0); now right|]. apply add_positive; auto. destruct (HL y m (or_introl eq_refl)) as [P [-> | ->]]; [change (2 / 1) with 2|change (2 / 2) with 1]; lia. }
      apply W; [|intros ? ? []]. intros z' k' H. split; [now apply (K3 z')|]. destruct (K1 z' (ex_intro _ k' H)) as (b & Hb & Eb). rewrite (denominator_proper _ _ Eb), DN. destruct (_ =? 0); auto.
  - exists cov. split; auto. split; [|exact K3].
    assert (OD : forall a, In a angles -> denominator (2 * a)%Q mod 2 <> 0).
    { intros a Ha Y. destruct (K2 a Ha) as (z & k & Z1 & Z2). assert (existsb (fun ym => denominator (fst ym) =? 2) cov = true); [|congruence]. apply existsb_exists. exists (z, k). split; auto. cbn [fst]. rewrite (denominator_proper _ _ Z2), DN, Y. reflexivity. }
    assert (OO : order angles mod 2 <> 0).
    { intros Y. apply Z.mod_divide in Y; [|lia]. destruct Y as [t Y]. pose proof (order_pos angles) as P. assert (D : (order angles | t)); [|apply Z.divide_pos_le in D; lia]. apply order_divide. intros a Ha.
      apply (Z.gauss _ 2); [rewrite Z.mul_comm, <- Y; now apply (proj1 (order_divide angles (order angles)) (Z.divide_refl _))|]. rewrite Z.gcd_comm, gcd2 by apply den_pos. destruct (Z.eqb_spec (denominator (2 * a)%Q mod 2) 0); auto. now apply OD in Ha. }
    destruct G as [U G]. split; auto. intros g Pg. rewrite (G g Pg). apply asum_ext. intros a Ha. specialize (OD a Ha).
    rewrite turns_1, turns_2. destruct (Z.eqb_spec (denominator (2 * a)%Q mod 2) 0); [contradiction|]. unfold degree. rewrite Z.gcd_1_l, gcd2 by apply order_pos. destruct (Z.eqb_spec (order angles mod 2) 0); [contradiction|]. reflexivity.
Qed.
