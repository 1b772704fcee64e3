(** Cone points of covers: counting them, Euler characteristics. *)
From Coq Require Import List Bool ZArith QArith Qreduction Lia Lqa Znumtheory FinFun Setoid Morphisms.
From Verif Require Import MBase MUnfold SUnfold PUnfold PUnfold2.
Import ListNotations.
Local Open Scope Z_scope.

(** ** going round a vertex *)
Section Orbit.
Variables t u l : Z.
Hypothesis Pt : 0 < t.
Hypothesis Pl : 0 < l.
Hypothesis G : Z.gcd u l = 1.
Lemma orbit_mod n : (n * (t * u)) mod (t * l) = t * ((n * u) mod l).
Proof. replace (n * (t * u)) with (t * (n * u)) by ring. apply Z.mul_mod_distr_l; lia. Qed.
Lemma orbit_zero n : (n * (t * u)) mod (t * l) = 0 <-> (l | n).
Proof.
  rewrite orbit_mod. split.
  - intros E. assert (E' : (n * u) mod l = 0) by nia. apply Z.mod_divide in E'; [|lia]. apply (Z.gauss _ u); [now rewrite Z.mul_comm|]. now rewrite Z.gcd_comm.
  - intros D. assert (E : (n * u) mod l = 0) by (apply Z.mod_divide; [lia|now apply Z.divide_mul_l]). rewrite E. lia.
Qed.
Lemma closes_iff n : closes_after (t * u) (t * l) n <-> n = l.
Proof.
  split.
  - intros (P & E & M). apply orbit_zero in E. pose proof (Z.divide_pos_le _ _ P E) as LE. destruct (Z.eq_dec n l); auto. exfalso. apply (M l); [lia|]. apply orbit_zero, Z.divide_refl.
  - intros ->. split; [lia|]. split; [apply orbit_zero, Z.divide_refl|]. intros l' [H1 H2] E. apply orbit_zero in E. apply Z.divide_pos_le in E; lia.
Qed.
Lemma first_iff j : first_sheet (t * u) (t * l) j <-> 0 <= j < t.
Proof.
  split.
  - intros [[J0 J1] M]. split; auto. destruct (Z_lt_le_dec j t) as [|J]; auto. exfalso.
    destruct (Z.gcd_bezout u l 1 G) as (v & w & B). set (e := j / t). set (f := j mod t). assert (Ej : j = t * e + f) by (apply Z.div_mod; lia). assert (F : 0 <= f < t) by (apply Z.mod_pos_bound; lia).
    specialize (M ((- e * v) mod l)). assert (S0 : 0 <= (- e * v) mod l) by (apply Z.mod_pos_bound; lia). specialize (M S0).
    pose proof (Z.div_mod (- e * v) l ltac:(lia)) as DM. set (s := (- e * v) mod l) in *. set (h := (- e * v) / l) in *.
    assert (E : j + s * (t * u) = f + (e * w - h * u) * (t * l)). { assert (s = - e * v - l * h) by lia. subst s. rewrite H, Ej. assert (V : v * u = 1 - w * l) by lia. replace (t * e + f + (- e * v - l * h) * (t * u)) with (t * e + f - t * e * (v * u) - l * h * t * u) by ring. rewrite V. ring. }
    rewrite E, Z.mod_add, Z.mod_small in M by nia. lia.
  - intros J. split; [nia|]. intros s S0. pose proof (orbit_mod s) as O. pose proof (Z.mod_pos_bound (s * u) l Pl) as B.
    rewrite <- Z.add_mod_idemp_r by nia. rewrite O. rewrite Z.mod_small; nia.
Qed.
End Orbit.

(** ** the vertex with angle [x] *)
Definition step (c : Z) (x : Q) : Z := c / Z.gcd c (denominator x) * numerator x.
Lemma step_gcd c x : c = 1 \/ c = 2 -> Z.gcd (step c x) (turns c x) = 1.
Proof.
  intros C. pose proof (num_den_gcd x) as G. pose proof (den_pos x) as P. unfold step. destruct C as [-> | ->].
  - rewrite turns_1, Z.gcd_1_l, Z.div_1_r, Z.mul_1_l. exact G.
  - rewrite turns_2, gcd2 by auto. destruct (Z.eqb_spec (denominator x mod 2) 0) as [E|E].
    + change (2 / 2) with 1. rewrite Z.mul_1_l. apply Z.mod_divide in E; [|lia]. destruct E as [h E]. rewrite E, Z.div_mul by lia. rewrite E in G.
      apply Zgcd_1_rel_prime. apply Zgcd_1_rel_prime in G. apply rel_prime_sym in G. apply rel_prime_sym. apply (rel_prime_div (h * 2)); auto. now exists 2; lia.
    + change (2 / 1) with 2. apply Zgcd_1_rel_prime. apply rel_prime_sym, rel_prime_mult; apply rel_prime_sym; apply Zgcd_1_rel_prime; auto. rewrite gcd2 by auto. now destruct (Z.eqb_spec (denominator x mod 2) 0).
Qed.
Lemma step_turns c x : c = 1 \/ c = 2 -> (inject_Z (step c x) == inject_Z (c * turns c x) * x)%Q.
Proof.
  intros C. pose proof (den_pos x) as P. unfold step. destruct C as [-> | ->].
  - rewrite turns_1, Z.gcd_1_l, Z.div_1_r, !Z.mul_1_l. now rewrite den_mul.
  - rewrite turns_2, gcd2 by auto. destruct (Z.eqb_spec (denominator x mod 2) 0) as [E|E].
    + change (2 / 2) with 1. rewrite Z.mul_1_l. apply Z.mod_divide in E; [|lia]. destruct E as [h E]. rewrite <- den_mul, E, Z.div_mul by lia. now rewrite (Z.mul_comm 2).
    + change (2 / 1) with 2. rewrite !inject_Z_mult, <- den_mul. ring.
Qed.
Lemma at_vertex angles i x : cone_angle angles i x <-> exists a, nth_error angles i = Some a /\ (x == 2 * a)%Q. Proof. reflexivity. Qed.
Lemma sheets_degree c angles : c = 1 \/ c = 2 -> sheets c angles (degree c angles).
Proof.
  intros C. pose proof (order_pos angles) as P.
  assert (K : forall m, (forall i x, cone_angle angles i x -> is_int (inject_Z (c * m) * x)) <-> (order angles | c * m)).
  { intros m. rewrite order_divide. split.
    - intros H a Ha. apply In_nth_error in Ha. destruct Ha as [i Hi]. apply int_iff. apply (H i). exists a. split; auto. reflexivity.
    - intros H i x (a & Ha & E). apply nth_error_In in Ha. apply H in Ha. apply int_iff. now rewrite (denominator_proper _ _ E). }
  assert (Dg : 0 < degree c angles /\ c * degree c angles = order angles * (c / Z.gcd c (order angles))).
  { unfold degree. destruct C as [-> | ->]; [rewrite Z.gcd_1_l, !Z.div_1_r; lia|]. rewrite gcd2 by auto. destruct (Z.eqb_spec (order angles mod 2) 0) as [E|E]; [|rewrite !Z.div_1_r; lia]. apply Z.mod_divide in E; [|lia]. destruct E as [h E]. rewrite E, Z.div_mul by lia. change (2 / 2) with 1. lia. }
  destruct Dg as [D0 D1]. constructor; auto.
  - apply K. rewrite D1. apply Z.divide_factor_l.
  - intros m' P' H. apply K in H. unfold degree. destruct C as [-> | ->].
    + rewrite Z.gcd_1_l, Z.div_1_r. rewrite Z.mul_1_l in H. now apply Z.divide_pos_le.
    + rewrite gcd2 by auto. destruct (Z.eqb_spec (order angles mod 2) 0) as [E|E].
      * apply Z.mod_divide in E; [|lia]. destruct E as [h E]. rewrite E, Z.div_mul by lia. rewrite E in H. destruct H as [s H]. apply Z.divide_pos_le; auto. exists s. nia.
      * rewrite Z.div_1_r. apply Z.divide_pos_le; auto. apply (Z.gauss _ 2); auto. rewrite Z.gcd_comm, gcd2 by auto. now destruct (Z.eqb_spec (order angles mod 2) 0).
Qed.
Lemma sheets_unique c angles m m' : sheets c angles m -> sheets c angles m' -> m = m'.
Proof. intros [P I L] [P' I' L']. specialize (L m' P' I'). specialize (L' m P I). lia. Qed.

Definition sheetcount (c : Z) (angles : list Q) (x : Q) : Z := degree c angles / turns c x.
Lemma sheetcount_ok c angles a : c = 1 \/ c = 2 -> In a angles -> degree c angles = sheetcount c angles (2 * a)%Q * turns c (2 * a)%Q /\ 0 < sheetcount c angles (2 * a)%Q.
Proof.
  intros C Ha. pose proof (divide_degree c angles a C Ha) as [t T]. pose proof (turns_pos c (2 * a)%Q C) as P. pose proof (sh_pos _ _ _ (sheets_degree c angles C)) as D. unfold sheetcount. rewrite T at 2 3. rewrite Z.div_mul by lia. split; auto. nia.
Qed.
Global Instance sheetcount_proper c angles : Proper (Qeq ==> eq) (sheetcount c angles). Proof. intros a b H. unfold sheetcount. now rewrite (turns_proper c a b H). Qed.
Lemma cone_point_iff c angles y i j : c = 1 \/ c = 2 -> cone_point c angles (degree c angles) y (i, j) <->
  exists a, nth_error angles i = Some a /\ (y == inject_Z (turns c (2 * a)) * (2 * a))%Q /\ 0 <= j < sheetcount c angles (2 * a)%Q.
Proof.
  intros C.
  assert (K : forall a, In a angles -> forall k, (inject_Z k == inject_Z (c * degree c angles) * (2 * a))%Q <-> k = sheetcount c angles (2 * a)%Q * step c (2 * a)%Q).
  { intros a Ha k. destruct (sheetcount_ok c angles a C Ha) as [E P]. rewrite <- inj_eq. rewrite !inject_Z_mult, step_turns, inject_Z_mult by auto. rewrite E, inject_Z_mult. split; intros ->; ring. }
  unfold cone_point. cbn [fst snd]. split.
  - intros (x & k & l & (a & Ha & Ex) & Ek & F & Cl & Ey). exists a. assert (Ia := nth_error_In _ _ Ha). rewrite Ex in Ek. apply (K a Ia) in Ek. destruct (sheetcount_ok c angles a C Ia) as [E P]. pose proof (turns_pos c (2 * a)%Q C) as P2. pose proof (step_gcd c (2 * a)%Q C) as G.
    subst k. rewrite E in F, Cl. apply closes_iff in Cl; auto. apply first_iff in F; auto. subst l. split; auto. split; auto. now rewrite Ey, Ex.
  - intros (a & Ha & Ey & J). assert (Ia := nth_error_In _ _ Ha). destruct (sheetcount_ok c angles a C Ia) as [E P]. pose proof (turns_pos c (2 * a)%Q C) as P2. pose proof (step_gcd c (2 * a)%Q C) as G.
    exists (2 * a)%Q, (sheetcount c angles (2 * a)%Q * step c (2 * a)%Q), (turns c (2 * a)%Q). split; [exists a; split; [auto|reflexivity]|]. split; [now apply K|]. rewrite E at 1 2. split; [now apply first_iff|]. split; [now apply closes_iff|auto].
Qed.

(** ** counting *)
Definition zsum (l : list Z) : Z := fold_right Z.add 0 l.
Fixpoint points (sel : Q -> bool) (t : Q -> Z) (i : nat) (angles : list Q) : list (nat * Z) :=
  match angles with
  | nil => nil
  | a :: r => (if sel (2 * a)%Q then map (fun j => (i, Z.of_nat j)) (seq 0 (Z.to_nat (t (2 * a)%Q))) else nil) ++ points sel t (Datatypes.S i) r
  end.
Lemma points_iff sel t angles : forall i p, In p (points sel t i angles) <-> exists k a, nth_error angles k = Some a /\ fst p = (i + k)%nat /\ sel (2 * a)%Q = true /\ 0 <= snd p < t (2 * a)%Q.
Proof.
  induction angles as [|b r IH]; intros i p; cbn [points].
  - split; [intros []|]. intros ([|k] & a & E & _); discriminate.
  - rewrite in_app_iff, IH. split.
    + intros [H|(k & a & E & F & H)]; [|exists (Datatypes.S k), a; repeat split; try apply H; auto; lia]. destruct (sel (2 * b)%Q) eqn:S1; [|destruct H]. apply in_map_iff in H. destruct H as (j & <- & H). apply in_seq in H. exists 0%nat, b. cbn [nth_error fst snd]. repeat split; auto; lia.
    + intros ([|k] & a & E & F & S1 & J); cbn [nth_error] in E.
      * injection E as ->. left. rewrite S1. apply in_map_iff. exists (Z.to_nat (snd p)). split; [destruct p; cbn in *; f_equal; lia|]. apply in_seq. lia.
      * right. exists k, a. repeat split; auto; lia.
Qed.
Lemma points_nodup sel t angles : forall i, NoDup (points sel t i angles).
Proof.
  induction angles as [|b r IH]; intros i; cbn [points]; [constructor|]. assert (A : NoDup (if sel (2 * b)%Q then map (fun j => (i, Z.of_nat j)) (seq 0 (Z.to_nat (t (2 * b)%Q))) else [])).
  { destruct (sel (2 * b)%Q); [|constructor]. apply FinFun.Injective_map_NoDup; [|apply seq_NoDup]. intros x y E. injection E. lia. }
  assert (D : forall p, In p (if sel (2 * b)%Q then map (fun j => (i, Z.of_nat j)) (seq 0 (Z.to_nat (t (2 * b)%Q))) else []) -> ~ In p (points sel t (Datatypes.S i) r)).
  { intros p H H'. apply points_iff in H'. destruct H' as (k & a & _ & F & _). destruct (sel (2 * b)%Q); [|destruct H]. apply in_map_iff in H. destruct H as (j & <- & _). cbn in F. lia. }
  revert A D. generalize (if sel (2 * b)%Q then map (fun j => (i, Z.of_nat j)) (seq 0 (Z.to_nat (t (2 * b)%Q))) else []). intros l A D. induction l as [|x l IHl]; cbn [app]; [apply IH|]. inversion A; subst. constructor.
  - rewrite in_app_iff. intros [|]; auto. apply (D x); [now left|auto].
  - apply IHl; auto. intros p Hp. apply D. now right.
Qed.
Lemma points_length sel t angles : (forall a, In a angles -> 0 <= t (2 * a)%Q) -> forall i, (inject_Z (Z.of_nat (length (points sel t i angles))) == asum (fun x => inject_Z (t x) * if sel x then 1 else 0) angles)%Q.
Proof.
  induction angles as [|b r IH]; intros H i; [reflexivity|]. unfold asum, qsum in *. cbn [points map fold_right]. rewrite app_length, Nat2Z.inj_add, inject_Z_plus, IH by (intros; apply H; now right). specialize (H b (or_introl eq_refl)).
  destruct (sel (2 * b)%Q); [rewrite map_length, seq_length, Z2Nat.id by auto; ring|]. cbn [length Z.of_nat]. change (inject_Z 0) with 0%Q. ring.
Qed.
Lemma filter_dsum (P : Q -> bool) d : (inject_Z (zsum (map snd (filter (fun ym => P (fst ym)) d))) == dsum (fun y => if P y then 1 else 0) d)%Q.
Proof.
  induction d as [|[y m] d IH]; [reflexivity|]. unfold dsum, qsum in *. cbn [filter map fold_right fst snd]. destruct (P y); cbn [map zsum fold_right snd]; rewrite ?inject_Z_plus; unfold zsum in IH; rewrite IH; ring.
Qed.
Lemma counts_unique {A} (P : A -> Prop) n m : counts P n -> counts P m -> n = m.
Proof.
  intros (L & N & I & ->) (L' & N' & I' & ->). f_equal. apply Nat.le_antisymm; apply NoDup_incl_length; auto; intros x Hx; [apply I', I|apply I, I']; auto.
Qed.
Lemma counts_ext {A} (P P' : A -> Prop) n : (forall p, P p <-> P' p) -> counts P n -> counts P' n.
Proof. intros E (L & N & I & ->). exists L. repeat split; auto; intros; [apply E, I|apply I, E]; auto. Qed.
Lemma counts_dict c angles d (P : Q -> bool) : c = 1 \/ c = 2 -> good_dict c angles d -> Proper (Qeq ==> eq) P ->
  counts (fun p => exists y, cone_point c angles (degree c angles) y p /\ P y = true) (zsum (map snd (filter (fun ym => P (fst ym)) d))).
Proof.
  intros C [_ G] PP. set (sel := fun x => P (inject_Z (turns c x) * x)%Q). exists (points sel (sheetcount c angles) 0 angles). split; [apply points_nodup|]. split.
  - intros [i j]. rewrite points_iff. cbn [fst snd]. split.
    + intros (k & a & Ha & -> & S1 & J). exists (inject_Z (turns c (2 * a)) * (2 * a))%Q. split; [|exact S1]. apply cone_point_iff; auto. exists a. repeat split; auto; try lia.
    + intros (y & Hy & S1). apply cone_point_iff in Hy; auto. destruct Hy as (a & Ha & Ey & J). exists i, a. repeat split; auto; try lia. unfold sel. rewrite <- (PP _ _ Ey). exact S1.
  - apply inj_eq. rewrite filter_dsum, points_length.
    + rewrite G; [reflexivity|]. intros a b H. now rewrite (PP a b H).
    + intros a Ha. pose proof (sheetcount_ok c angles a C Ha). lia.
Qed.
Lemma multiplicity_filter d y : multiplicity d y = zsum (map snd (filter (fun ym => Qeq_bool (fst ym) y) d)).
Proof. induction d as [|[x k] d IH]; [reflexivity|]. cbn [multiplicity fold_right filter fst snd]. destruct (Qeq_bool x y); cbn [map zsum fold_right snd]; unfold multiplicity in IH; now rewrite IH. Qed.
Global Instance Qeq_bool_proper : Proper (Qeq ==> Qeq ==> eq) Qeq_bool.
Proof. intros a b H a' b' H'. destruct (Qeq_bool a a') eqn:X, (Qeq_bool b b') eqn:Y; auto; [apply Qeq_bool_iff in X; apply Qeq_bool_neq in Y; rewrite H, H' in X; contradiction|apply Qeq_bool_iff in Y; apply Qeq_bool_neq in X; rewrite <- H, <- H' in Y; contradiction]. Qed.
Lemma cone_point_proper c angles m y y' p : (y == y')%Q -> cone_point c angles m y p -> cone_point c angles m y' p.
Proof. intros E (x & k & l & A & B & D & F & H). exists x, k, l. repeat split; try apply D; try apply F; auto. now rewrite <- E. Qed.
Lemma counts_multiplicity c angles d y : c = 1 \/ c = 2 -> good_dict c angles d -> counts (cone_point c angles (degree c angles) y) (multiplicity d y).
Proof.
  intros C G. rewrite multiplicity_filter. apply (counts_ext (fun p => exists y', cone_point c angles (degree c angles) y' p /\ Qeq_bool y' y = true)).
  - intros p. split; [intros (y' & H & E); apply Qeq_bool_iff in E; now apply (cone_point_proper _ _ _ y')|]. intros H. exists y. split; auto. apply Qeq_bool_iff. reflexivity.
  - apply (counts_dict c angles d (fun y' => Qeq_bool y' y)); auto. intros a b H. rewrite H. reflexivity.
Qed.
Lemma zsum_pos l : (forall x, In x l -> 0 < x) -> 0 <= zsum l /\ (l <> [] -> 0 < zsum l).
Proof. induction l as [|a l IH]; intros H; cbn [zsum fold_right]; [split; [lia|congruence]|]. destruct IH as [A _]; [intros; apply H; now right|]. specialize (H a (or_introl eq_refl)). unfold zsum in A. split; intros; lia. Qed.
Lemma keys_iff c angles d (P : Q -> bool) : c = 1 \/ c = 2 -> good_dict c angles d -> (forall z k, In (z, k) d -> 0 < k) -> Proper (Qeq ==> eq) P ->
  (exists z k, In (z, k) d /\ P z = true) <-> exists p y, cone_point c angles (degree c angles) y p /\ P y = true.
Proof.
  intros C G Ps PP. destruct (counts_dict c angles d P C G PP) as (L & N & I & E).
  assert (K : 0 <= zsum (map snd (filter (fun ym => P (fst ym)) d)) /\ (map snd (filter (fun ym => P (fst ym)) d) <> [] -> 0 < zsum (map snd (filter (fun ym => P (fst ym)) d)))).
  { apply zsum_pos. intros k Hk. apply in_map_iff in Hk. destruct Hk as ([z k'] & <- & H). apply filter_In in H. now apply (Ps z). }
  split.
  - intros (z & k & H & S1). destruct L as [|p L].
    + exfalso. cbn in E. assert (H' : In (z, k) (filter (fun ym => P (fst ym)) d)) by (apply filter_In; auto). destruct (filter (fun ym => P (fst ym)) d); [destruct H'|]. destruct K as [_ K]. specialize (K ltac:(discriminate)). lia.
    + exists p. apply I. now left.
  - intros (p & y & H). assert (H' : In p L) by (apply I; now exists y). destruct (filter (fun ym => P (fst ym)) d) as [|[z k] r] eqn:F; [cbn in E; destruct L; [destruct H'|cbn in E; lia]|].
    exists z, k. apply (proj1 (filter_In (fun ym => P (fst ym)) (z, k) d)). rewrite F. now left.
Qed.
