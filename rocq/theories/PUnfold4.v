(** Strata of unfoldings and their dimension. *)
From Coq Require Import List Bool ZArith QArith Qreduction Lia Lqa Znumtheory Setoid Morphisms.
From Verif Require Import MBase MUnfold SUnfold PUnfold PUnfold2 PUnfold3.
Import ListNotations.
Local Open Scope Z_scope.

Lemma is_int_den x : is_int x <-> denominator x = 1.
Proof.
  split.
  - intros [z E]. rewrite (denominator_proper _ _ E). apply fraction_int.
  - intros E. exists (numerator x). rewrite <- den_mul, E. change (inject_Z 1) with 1%Q. ring.
Qed.
Definition keeps (marked : bool) (y : Q) : bool := marked || negb (Qeq_bool y 1).
Global Instance keeps_proper marked : Proper (Qeq ==> eq) (keeps marked). Proof. intros a b H. unfold keeps. now rewrite H. Qed.
Lemma keeps_iff marked y : keeps marked y = true <-> marked = true \/ ~ (y == 1)%Q.
Proof.
  unfold keeps. rewrite orb_true_iff, negb_true_iff. split; intros [H|H]; auto; right; [now apply Qeq_bool_neq|]. destruct (Qeq_bool y 1) eqn:E; auto. apply Qeq_bool_iff in E. contradiction.
Qed.
Lemma dropped marked y : keeps marked y = false -> (y == 1)%Q.
Proof. unfold keeps. intros H. apply orb_false_iff in H. destruct H as [_ H]. apply negb_false_iff in H. now apply Qeq_bool_iff. Qed.
Lemma filter_true {A} (d : list A) : filter (fun _ => true) d = d. Proof. induction d; cbn; congruence. Qed.
Lemma filter_chi marked d : (dsum (fun y => y - 1) (filter (fun ym => keeps marked (fst ym)) d) == dsum (fun y => y - 1) d)%Q.
Proof.
  induction d as [|[y m] d IH]; [reflexivity|]. unfold dsum, qsum in *. cbn [filter map fold_right fst snd]. destruct (keeps marked y) eqn:K; cbn [map fold_right fst snd]; rewrite IH; [reflexivity|]. apply dropped in K. rewrite K. ring.
Qed.
Lemma filter_abelian marked (d : dict) : forallb (fun am => denominator (fst am) =? 1) (filter (fun ym => keeps marked (fst ym)) d) = forallb (fun am => denominator (fst am) =? 1) d.
Proof.
  induction d as [|[y m] d IH]; [reflexivity|]. cbn [filter forallb fst]. destruct (keeps marked y) eqn:K; cbn [forallb fst]; rewrite IH; auto. apply dropped in K. rewrite (denominator_proper _ _ K). reflexivity.
Qed.
Lemma asum_inj (f : Q -> Z) l : (asum (fun x => inject_Z (f x)) l == inject_Z (zsum (map (fun a => f (2 * a)%Q) l)))%Q.
Proof. induction l as [|a l IH]; [reflexivity|]. unfold asum, qsum, zsum in *. cbn [map fold_right]. rewrite IH, inject_Z_plus. reflexivity. Qed.
Lemma asum_sub f g l : (asum (fun x => f x - g x) l == asum f l - asum g l)%Q.
Proof. induction l as [|a l IH]; [reflexivity|]. unfold asum, qsum in *. cbn [map fold_right]. rewrite IH. ring. Qed.
Lemma asum_scale k l : (asum (fun x => k * x) l == k * (2 * qsum l))%Q.
Proof. induction l as [|a l IH]; [unfold asum; cbn; ring|]. unfold asum, qsum in *. cbn [map fold_right]. rewrite IH. ring. Qed.
Lemma zsum_snd d : (inject_Z (zsum (map snd d)) == dsum (fun _ => 1) d)%Q.
Proof. induction d as [|[y m] d IH]; [reflexivity|]. unfold dsum, qsum, zsum in *. cbn [map fold_right fst snd]. rewrite inject_Z_plus, IH. ring. Qed.

Lemma zsum_even (f g : Q -> Z) l : (forall a, In a l -> (g a - f a) mod 2 = 0) -> (zsum (map g l) - zsum (map f l)) mod 2 = 0.
Proof.
  induction l as [|a r IH]; intros W; [reflexivity|]. unfold zsum in *. cbn [map fold_right]. specialize (IH (fun x h => W x (or_intror h))). specialize (W a (or_introl eq_refl)).
  apply Z.mod_divide in IH, W; try lia. apply Z.mod_divide; [lia|]. destruct IH as [p P], W as [q Q]. exists (p + q). lia.
Qed.
Lemma zsum_odd (g : Q -> Z) l : (forall a, In a l -> g a mod 2 = 1) -> (zsum (map g l) - Z.of_nat (length l)) mod 2 = 0.
Proof.
  induction l as [|a r IH]; intros W; [reflexivity|]. unfold zsum in *. cbn [map fold_right length]. specialize (IH (fun x h => W x (or_intror h))). specialize (W a (or_introl eq_refl)).
  pose proof (Z.div_mod (g a) 2 ltac:(lia)) as DM. rewrite W in DM. apply Z.mod_divide in IH; [|lia]. apply Z.mod_divide; [lia|]. destruct IH as [p P]. exists (p + g a / 2). rewrite Nat2Z.inj_succ. lia.
Qed.
Definition angle_sum (angles : list Q) : Prop := (2 * qsum angles == inject_Z (Z.of_nat (length angles) - 2))%Q.
Section Chi.
Variables (c : Z) (angles : list Q) (d : dict).
Hypothesis C : c = 1 \/ c = 2.
Hypothesis G : good_dict c angles d.
Hypothesis Ps : forall z k, In (z, k) d -> 0 < k.
Let m := degree c angles.
Let n := Z.of_nat (length angles).
Lemma total : zsum (map snd d) = zsum (map (fun a => sheetcount c angles (2 * a)%Q) angles).
Proof.
  apply inj_eq. rewrite zsum_snd. destruct G as [_ G']. rewrite G'; [|intros ? ? ?; reflexivity]. rewrite <- asum_inj. apply asum_ext. intros. unfold sheetcount. ring.
Qed.
Lemma chi_eq : angle_sum angles -> (dsum (fun y => y - 1) d == inject_Z (m * (n - 2) - zsum (map snd d)))%Q.
Proof.
  intros A. destruct G as [_ G']. rewrite G'; [|intros ? ? H; now rewrite H].
  rewrite (asum_ext _ (fun x => inject_Z m * x - inject_Z (sheetcount c angles x))%Q).
  - rewrite asum_sub, asum_scale, asum_inj, <- total. unfold angle_sum in A. rewrite A. unfold n. set (w := Z.of_nat (length angles) - 2). unfold Z.sub. rewrite inject_Z_plus, inject_Z_opp, inject_Z_mult. reflexivity.
  - intros a Ha. destruct (sheetcount_ok c angles a C Ha) as [E _]. unfold m. rewrite E at 2. rewrite inject_Z_mult. unfold sheetcount. ring.
Qed.
Lemma chi_even : angle_sum angles -> (m * (n - 2) - zsum (map snd d)) mod 2 = 0.
Proof.
  intros A. rewrite total. destruct (Z.eq_dec (m mod 2) 0) as [E|E].
  - set (K := zsum (map (fun a => sheetcount c angles (2 * a)%Q * step c (2 * a)%Q) angles)).
    assert (EK : K = c * m * (n - 2)).
    { apply inj_eq. unfold K. rewrite <- (asum_inj (fun x => sheetcount c angles x * step c x)). rewrite (asum_ext _ (fun x => inject_Z (c * m) * x)%Q).
      - rewrite asum_scale. unfold angle_sum in A. rewrite A. fold n. now rewrite <- inject_Z_mult.
      - intros a Ha. destruct (sheetcount_ok c angles a C Ha) as [E' _]. unfold m. rewrite E' at 1. rewrite !inject_Z_mult, step_turns, inject_Z_mult by auto. ring. }
    assert (P : (zsum (map (fun a => sheetcount c angles (2 * a)%Q) angles) - K) mod 2 = 0).
    { unfold K. assert (W : forall a, In a angles -> (sheetcount c angles (2 * a)%Q - sheetcount c angles (2 * a)%Q * step c (2 * a)%Q) mod 2 = 0).
      { intros a Ha. destruct (sheetcount_ok c angles a C Ha) as [E' _]. fold m in E'. pose proof (step_gcd c (2 * a)%Q C) as Gc. set (t := sheetcount c angles (2 * a)%Q) in *. set (u := step c (2 * a)%Q) in *. set (l := turns c (2 * a)%Q) in *.
        destruct (Z.eq_dec (t mod 2) 0) as [T|T]; [apply Z.mod_divide in T; [|lia]; apply Z.mod_divide; [lia|]; replace (t - t * u) with (t * (1 - u)) by ring; now apply Z.divide_mul_l|].
        assert (L : (2 | l)). { apply (Z.gauss _ t); [rewrite <- E'; apply Z.mod_divide; [lia|auto]|]. destruct (Z.eq_dec (Z.gcd 2 t) 1); auto. exfalso. pose proof (Z.gcd_divide_l 2 t) as D. pose proof (Z.divide_pos_le (Z.gcd 2 t) 2 ltac:(lia) D). pose proof (Z.gcd_nonneg 2 t). destruct (Z.eq_dec (Z.gcd 2 t) 0) as [X|]; [apply Z.gcd_eq_0_l in X; lia|]. assert (X : Z.gcd 2 t = 2) by lia. apply T, Z.mod_divide; [lia|]. rewrite <- X. apply Z.gcd_divide_r. }
        assert (U : u mod 2 = 1). { pose proof (Z.mod_pos_bound u 2 ltac:(lia)). destruct (Z.eq_dec (u mod 2) 0) as [X|]; [|lia]. exfalso. apply Z.mod_divide in X; [|lia]. assert (D : (2 | 1)) by (rewrite <- Gc; now apply Z.gcd_greatest). apply Z.divide_1_r in D. lia. }
        apply Z.mod_divide; [lia|]. replace (t - t * u) with (t * (1 - u)) by ring. apply Z.divide_mul_r. apply Z.mod_divide; [lia|]. rewrite Zminus_mod, U. reflexivity. }
      apply (zsum_even (fun a => sheetcount c angles (2 * a)%Q * step c (2 * a)%Q) (fun a => sheetcount c angles (2 * a)%Q)). exact W. }
    apply Z.mod_divide in P, E; try lia. apply Z.mod_divide; [lia|]. destruct P as [p P], E as [q Q]. exists (q * (n - 2) - p - c * q * (n - 2)). rewrite EK in P. rewrite Q in *. lia.
  - assert (W : forall a, In a angles -> sheetcount c angles (2 * a)%Q mod 2 = 1).
    { intros a Ha. destruct (sheetcount_ok c angles a C Ha) as [E' _]. fold m in E'. set (t := sheetcount c angles (2 * a)%Q) in *. pose proof (Z.mod_pos_bound t 2 ltac:(lia)). destruct (Z.eq_dec (t mod 2) 0) as [X|]; [|lia]. exfalso. apply E. apply Z.mod_divide in X; [|lia]. apply Z.mod_divide; [lia|]. rewrite E'. now apply Z.divide_mul_l. }
    assert (M : (m - 1) mod 2 = 0) by (pose proof (Z.mod_pos_bound m 2 ltac:(lia)); rewrite Zminus_mod; replace (m mod 2) with 1 by lia; reflexivity).
    assert (P : (zsum (map (fun a => sheetcount c angles (2 * a)%Q) angles) - n) mod 2 = 0).
    { unfold n. apply (zsum_odd (fun a => sheetcount c angles (2 * a)%Q)). exact W. }
    apply Z.mod_divide in P, M; try lia. apply Z.mod_divide; [lia|]. destruct P as [p P], M as [q Q]. exists (q * (n - 2) - 1 - p). assert (m = q * 2 + 1) by lia. rewrite H. lia.
Qed.

Lemma points_nonempty : angles <> [] -> exists p y, cone_point c angles m y p.
Proof.
  intros A. assert (E : exists a r, angles = a :: r) by (clear - A; destruct angles as [|a r]; [congruence|now exists a, r]). destruct E as (a & r & E). exists (0%nat, 0), (inject_Z (turns c (2 * a)) * (2 * a))%Q. apply cone_point_iff; auto. exists a. split; [now rewrite E|]. split; [reflexivity|].
  assert (Ia : In a angles) by (rewrite E; now left). destruct (sheetcount_ok c angles a C Ia). lia.
Qed.
Lemma abelian_iff : forallb (fun am => denominator (fst am) =? 1) d = true <-> forall p y, cone_point c angles m y p -> is_int y.
Proof.
  pose proof (keys_iff c angles d (fun y => negb (denominator y =? 1)) C G Ps) as K. specialize (K ltac:(intros a b H; now rewrite (denominator_proper a b H))). rewrite forallb_forall. split.
  - intros H p y Hp. apply is_int_den. destruct (Z.eqb_spec (denominator y) 1) as [|N]; auto. exfalso. destruct (proj2 K) as (z & k & I & N'); [exists p, y; split; auto; now apply negb_true_iff, Z.eqb_neq|]. specialize (H _ I). cbn [fst] in H. rewrite H in N'. discriminate.
  - intros H [z k] I. cbn [fst]. destruct (denominator z =? 1) eqn:E; auto. exfalso. destruct (proj1 K) as (p & y & Hp & N); [exists z, k; split; auto; now rewrite E|]. apply H, is_int_den in Hp. rewrite Hp in N. discriminate.
Qed.
Lemma nonabelian_iff : forallb (fun am => denominator (fst am) =? 1) d = false -> exists p y, cone_point c angles m y p /\ ~ is_int y.
Proof.
  intros H. pose proof (keys_iff c angles d (fun y => negb (denominator y =? 1)) C G Ps) as K. specialize (K ltac:(intros a b E; now rewrite (denominator_proper a b E))).
  destruct (proj1 K) as (p & y & Hp & N).
  - clear - H. induction d as [|[z k] r IH]; [discriminate|]. cbn [forallb fst] in H. destruct (denominator z =? 1) eqn:E; [|exists z, k; split; [now left|now rewrite E]]. destruct (IH H) as (z' & k' & I & N). exists z', k'. split; auto. now right.
  - exists p, y. split; auto. intros I. apply is_int_den in I. rewrite I in N. discriminate.
Qed.
Lemma key_doubles z k : In (z, k) d -> is_int (inject_Z 2 * z).
Proof.
  intros I. destruct (Z.eq_dec (denominator (inject_Z 2 * z)%Q) 1) as [E|E]; [now apply is_int_den|]. exfalso.
  pose proof (keys_iff c angles d (fun y => negb (denominator (inject_Z 2 * y)%Q =? 1)) C G Ps) as K. specialize (K ltac:(intros a b H; assert (H' : (inject_Z 2 * a == inject_Z 2 * b)%Q) by (now rewrite H); now rewrite (denominator_proper _ _ H'))).
  destruct (proj1 K) as ([i j] & y & Hp & N); [exists z, k; split; auto; now apply negb_true_iff, Z.eqb_neq|]. apply cone_point_iff in Hp; auto. destruct Hp as (a & Ha & Ey & _). apply negb_true_iff, Z.eqb_neq in N. apply N, is_int_den.
  pose proof (step_turns c (2 * a)%Q C) as ST. destruct C as [X|X]; rewrite X in ST, Ey.
  - exists (2 * step 1 (2 * a)%Q). rewrite inject_Z_mult, ST, Ey. rewrite Z.mul_1_l. reflexivity.
  - exists (step 2 (2 * a)%Q). rewrite ST, Ey, inject_Z_mult. ring.
Qed.
End Chi.
