(** C77: angles of polygons with prescribed angles and of their unfoldings. *)
From Coq Require Import List Bool ZArith QArith Qreduction Lia Lqa Znumtheory Setoid Morphisms.
From Verif Require Import MBase MUnfold SUnfold PUnfold PUnfold2 PUnfold3 PUnfold4 PUnfold5.
Import ListNotations.
Local Open Scope Z_scope.

(** The dictionaries of billiard_unfolding_angles list the cone points of the minimal translation and half-translation covers:
    no assertion fails, no key appears twice, multiplicities are positive, and each angle has the multiplicity with which it appears in the cover. *)
Theorem C77_cone_points : forall c angles, c = 1 \/ c = 2 -> exists d m,
  billiard_unfolding_angles angles (if c =? 1 then translation_cover else half_translation_cover) = Ok d /\
  unique_keys d /\ (forall y k, In (y, k) d -> 0 < k) /\
  sheets c angles m /\ forall y, counts (cone_point c angles m y) (multiplicity d y).
Proof.
  intros c angles C. destruct (unfolding_ok c angles C) as (d & E & G & P). exists d, (degree c angles). split; [exact E|]. split; [apply G|]. split; [exact P|]. split; [now apply sheets_degree|].
  intros y. now apply counts_multiplicity.
Qed.
(** the rational cover: the angles of the double of the polygon *)
Theorem C77_double : forall angles, exists d, billiard_unfolding_angles angles rational_cover = Ok d /\
  unique_keys d /\ (forall y k, In (y, k) d -> 0 < k) /\ forall y, counts (fun i => cone_angle angles i y) (multiplicity d y).
Proof.
  intros angles. exists (rat_of angles). split; [reflexivity|]. split; [apply rat_unique; exact I|]. split; [apply rat_positive; intros ? ? []|]. intros y.
  set (L := points (fun x => Qeq_bool x y) (fun _ => 1) 0 angles). exists (map fst L).
  assert (K : forall i j, In (i, j) L <-> j = 0 /\ cone_angle angles i y).
  { intros i j. unfold L. rewrite points_iff. cbn [fst snd]. split.
    - intros (k & a & Ha & -> & E & J). split; [lia|]. exists a. split; auto. apply Qeq_bool_iff in E. now symmetry.
    - intros (-> & a & Ha & E). exists i, a. split; auto. split; [lia|]. split; [apply Qeq_bool_iff; now symmetry|lia]. }
  split; [|split].
  - assert (ND : NoDup L) by apply points_nodup. assert (Z0 : forall p, In p L -> snd p = 0) by (intros [i j] H; now apply K in H).
    clearbody L. clear K. induction ND as [|[i j] L' N ND IH]; cbn [map]; constructor; [|apply IH; intros; apply Z0; now right].
    intros H. apply in_map_iff in H. destruct H as ([i' j'] & E & H). cbn in E. subst i'. pose proof (Z0 (i, j) (or_introl eq_refl)) as X. pose proof (Z0 (i, j') (or_intror H)) as Y. cbn in X, Y. subst. contradiction.
  - intros i. rewrite in_map_iff. split; [intros ([i' j] & E & H); cbn in E; subst; now apply K in H|]. intros H. exists (i, 0). split; auto. now apply K.
  - apply inj_eq. rewrite map_length. unfold L. rewrite points_length by (intros; lia). rewrite multiplicity_dsum, rat_sum by apply ind_proper. apply asum_ext. intros a _. unfold ind. change (inject_Z 1) with 1%Q. ring.
Qed.

(** The dimension of the stratum: the Euler characteristic of the cover is computed from its vertices, edges, and faces
    (the double of an n-gon has n edges and two faces). No assertion fails.
    The stratum is one of Abelian differentials if all angles are multiples of 2 pi, and one of quadratic differentials otherwise. *)
Theorem C77_dimension : forall c angles marked m, c = 1 \/ c = 2 ->
  (2 * fold_right Qplus 0 angles == inject_Z (Z.of_nat (length angles) - 2))%Q -> sheets c angles m ->
  exists g s s' e,
    counts (fun p => exists y, cone_point c angles m y p) s /\
    counts (fun p => exists y, cone_point c angles m y p /\ (marked = true \/ ~ (y == 1)%Q)) s' /\
    s - m * Z.of_nat (length angles) + 2 * m = 2 - 2 * g /\
    (e = 1 /\ (forall p y, cone_point c angles m y p -> is_int y) \/ e = 2 /\ exists p y, cone_point c angles m y p /\ ~ is_int y) /\
    billiard_unfolding_stratum_dimension angles (if c =? 1 then translation_cover else half_translation_cover) marked = Ok (2 * g + Z.max 1 s' - e).
Proof.
  intros c angles marked m C A Sm. rewrite (sheets_unique _ _ _ _ Sm (sheets_degree c angles C)). clear Sm m.
  destruct (dimension_ok c angles marked C A) as (d & g & E & G & P & X & D). exists g, (zsum (map snd d)), (zsum (map snd (filter (fun ym => keeps marked (fst ym)) d))), (if forallb (fun am => denominator (fst am) =? 1) d then 1 else 2).
  split; [|split; [|split; [exact X|split; [|exact D]]]].
  - pose proof (counts_dict c angles d (fun _ => true) C G ltac:(intros ? ? ?; reflexivity)) as K. cbn beta in K. rewrite filter_true in K. revert K. apply counts_ext. intros p. split; intros (y & H); exists y; [apply H|auto].
  - generalize (counts_dict c angles d (keeps marked) C G (keeps_proper marked)). apply counts_ext. intros p. split; intros (y & H & K); exists y; (split; [auto|now apply keeps_iff]).
  - destruct (forallb (fun am => denominator (fst am) =? 1) d) eqn:F; [left|right]; (split; [reflexivity|]).
    + now apply (abelian_iff c angles d C G P).
    + now apply (nonabelian_iff c angles d C G P).
Qed.

(** The arguments of Stratum: one zero of the correct order for each cone point; if all points are regular and are not marked, then the single marked point of a torus. *)
Theorem C77_stratum : forall c angles marked m, c = 1 \/ c = 2 -> angles <> [] -> sheets c angles m ->
  exists degrees k,
    billiard_unfolding_stratum angles (if c =? 1 then translation_cover else half_translation_cover) marked = Ok (degrees, k) /\
    (k = 1 /\ (forall p y, cone_point c angles m y p -> is_int y) \/ k = 2 /\ exists p y, cone_point c angles m y p /\ ~ is_int y) /\
    ((marked = false /\ (forall p y, cone_point c angles m y p -> (y == 1)%Q) /\ degrees = [0]) \/
     ((marked = true \/ exists p y, cone_point c angles m y p /\ ~ (y == 1)%Q) /\
      forall z, counts (fun p => exists y, cone_point c angles m y p /\ (marked = true \/ ~ (y == 1)%Q) /\ (inject_Z k * (y - 1) == inject_Z z)%Q) (Z.of_nat (count_occ Z.eq_dec degrees z)))).
Proof.
  intros c angles marked m C NE Sm. rewrite (sheets_unique _ _ _ _ Sm (sheets_degree c angles C)). clear Sm m.
  destruct (unfolding_ok c angles C) as (d & E & G & P). unfold billiard_unfolding_stratum. change (if c =? 1 then translation_cover else half_translation_cover) with (cover_of c). rewrite E.
  assert (DN : d <> []). { destruct (points_nonempty c angles C NE) as (p & y & Hp). destruct (proj2 (keys_iff c angles d (fun _ => true) C G P ltac:(intros ? ? ?; reflexivity))) as (z & k & I0 & _); [now exists p, y|]. intros ->. destruct I0. }
  pose proof (proj1 G) as U. pose proof (single_key d U DN) as SK.
  pose proof (keys_iff c angles d (fun y => negb (Qeq_bool y 1)) C G P ltac:(intros a b H; now rewrite H)) as K1.
  assert (ALL : (forall z k, In (z, k) d -> (z == 1)%Q) <-> forall p y, cone_point c angles (degree c angles) y p -> (y == 1)%Q).
  { split.
    - intros H p y Hp. destruct (Qeq_bool y 1) eqn:Q; [now apply Qeq_bool_iff|]. exfalso. destruct (proj2 K1) as (z & k & I0 & N); [exists p, y; split; auto; now rewrite Q|]. apply H in I0. rewrite I0 in N. discriminate.
    - intros H z k I0. destruct (Qeq_bool z 1) eqn:Q; [now apply Qeq_bool_iff|]. exfalso. destruct (proj1 K1) as (p & y & Hp & N); [exists z, k; split; auto; now rewrite Q|]. apply H in Hp. rewrite Hp in N. discriminate. }
  assert (CNT : forall (f : Q -> Q) kk l, Proper (Qeq ==> Qeq) f -> (forall y, (f y == inject_Z kk * (y - 1))%Q) ->
    (forall z, Z.of_nat (count_occ Z.eq_dec l z) = zsum (map snd (filter (fun ym => keeps marked (fst ym) && Qeq_bool (f (fst ym)) (inject_Z z)) d))) ->
    forall z, counts (fun p => exists y, cone_point c angles (degree c angles) y p /\ (marked = true \/ ~ (y == 1)%Q) /\ (inject_Z kk * (y - 1) == inject_Z z)%Q) (Z.of_nat (count_occ Z.eq_dec l z))).
  { intros f kk l Pf Ef H z. rewrite H. generalize (counts_dict c angles d (fun y => keeps marked y && Qeq_bool (f y) (inject_Z z)) C G ltac:(intros a b X; now rewrite X)). apply counts_ext.
    intros p. split.
    - intros (y & Hp & B). apply andb_true_iff in B. destruct B as [B1 B2]. exists y. split; auto. split; [now apply keeps_iff|]. apply Qeq_bool_iff in B2. now rewrite <- Ef.
    - intros (y & Hp & B1 & B2). exists y. split; auto. apply andb_true_iff. split; [now apply keeps_iff|]. apply Qeq_bool_iff. now rewrite Ef. }
  destruct (forallb (fun am => denominator (fst am) =? 1) d) eqn:F.
  - assert (AB := proj1 (abelian_iff c angles d C G P) F). rewrite forallb_forall in F.
    destruct (negb marked && (length d =? 1)%nat && existsb (fun am => Qeq_bool (fst am) 1) d) eqn:B.
    + rewrite <- andb_assoc in B. apply andb_true_iff in B. destruct B as [B1 B2]. exists [0], 1. split; [reflexivity|]. split; [left; auto|]. left. split; [now apply negb_true_iff|]. split; auto. now apply ALL, SK.
    + destruct (degrees_ok (fun a => a - 1)%Q marked d) as (l & El & Ql).
      { intros z k I0. split; [|now apply (P z)]. specialize (F _ I0). cbn [fst] in F. apply Z.eqb_eq, is_int_den in F. destruct F as [w W]. exists (w - 1). rewrite W. unfold Z.sub. rewrite inject_Z_plus. reflexivity. }
      rewrite El. exists l, 1. split; [reflexivity|]. split; [left; auto|]. right. split.
      * destruct marked; [now left|]. right. cbn [negb andb] in B. destruct (existsb (fun am => negb (Qeq_bool (fst am) 1)) d) eqn:X.
        -- apply existsb_exists in X. destruct X as ([z k] & I0 & N). destruct (proj1 K1) as (p & y & Hp & N'); [now exists z, k|]. exists p, y. split; auto. apply negb_true_iff in N'. now apply Qeq_bool_neq.
        -- exfalso. assert (X' : (length d =? 1)%nat && existsb (fun am => Qeq_bool (fst am) 1) d = true); [|rewrite X' in B; discriminate]. apply SK. intros z k I0. destruct (Qeq_bool z 1) eqn:Q; [now apply Qeq_bool_iff|]. exfalso.
           assert (existsb (fun am => negb (Qeq_bool (fst am) 1)) d = true); [|congruence]. apply existsb_exists. exists (z, k). split; auto. cbn [fst]. now rewrite Q.
      * apply (CNT (fun a => a - 1)%Q); auto; [intros a b H; now rewrite H|]. intros y. change (inject_Z 1) with 1%Q. ring.
  - destruct (nonabelian_iff c angles d C G P F) as (p & y & Hp & NI).
    destruct (degrees_ok (fun a => 2 * (a - 1))%Q marked d) as (l & El & Ql).
    { intros z k I0. split; [|now apply (P z)]. destruct (key_doubles c angles d C G P z k I0) as [w W]. exists (w - 2). unfold Z.sub. rewrite inject_Z_plus, <- W. change (inject_Z 2) with 2%Q. change (inject_Z (-(2))) with (-2)%Q. ring. }
    rewrite El. exists l, 2. split; [reflexivity|]. split; [right; split; auto; now exists p, y|]. right. split.
    + right. exists p, y. split; auto. intros H. apply NI. exists 1. exact H.
    + apply (CNT (fun a => 2 * (a - 1))%Q); auto; [intros a b H; now rewrite H|]. intros z. reflexivity.
Qed.
(** For rational covers, which the documentation of billiard_unfolding_stratum admits, the method fails, already for the triangle (1, 2, 5) of its examples. *)
Theorem C77_rational_stratum_refuted : exists angles, normalize_angles [1%Q; 2%Q; 5%Q] = Ok angles /\
  forall marked, billiard_unfolding_stratum angles rational_cover marked = Err TypeError.
Proof. eexists. split; [reflexivity|]. intros []; reflexivity. Qed.

(** Normalized angles are proportional to the given ones, have the sum of the angles of an n-gon, and are between 0 and 2 pi; and when the method fails, this is impossible. *)
Theorem C77_normalize : forall angles, let n := Z.of_nat (length angles) in
  match normalize_angles angles with
  | Ok r => 3 <= n /\ (exists k, (0 < k)%Q /\ Forall2 (fun a b => b == k * a)%Q angles r) /\ (2 * fold_right Qplus 0 r == inject_Z (n - 2))%Q /\ (forall b, In b r -> 0 < b /\ b < 1)%Q
  | Err ValueError => n < 3 \/ exists a, In a angles /\ (a <= 0)%Q
  | Err NotImplementedError => 3 <= n /\ (forall a, In a angles -> 0 < a)%Q /\
      forall k r, Forall2 (fun a b => b == k * a)%Q angles r -> (2 * fold_right Qplus 0 r == inject_Z (n - 2))%Q -> exists b, In b r /\ (1 <= b)%Q
  | _ => False
  end.
Proof.
  intros angles n. unfold normalize_angles. fold n. destruct (Z.ltb_spec n 3) as [L|L]; [now left|]. destruct (existsb (fun a => Qle_bool a 0) angles) eqn:X.
  - right. apply existsb_exists in X. destruct X as (a & I0 & E). exists a. split; auto. now apply Qle_bool_iff.
  - assert (Ps : forall a, In a angles -> (0 < a)%Q).
    { intros a I0. apply Qnot_le_lt. intros H. apply Qle_bool_iff in H. assert (existsb (fun a => Qle_bool a 0) angles = true); [|congruence]. apply existsb_exists. now exists a. }
    assert (NE : angles <> []) by (intros ->; cbn in L; unfold n in L; cbn in L; lia). pose proof (qsum_pos angles NE Ps) as SP. set (s := qsum angles) in *. set (q := inject_Z (n - 2)).
    assert (QP : (0 < q)%Q) by (unfold q; change 0%Q with (inject_Z 0); rewrite <- Zlt_Qlt; lia).
    rewrite map_map. set (h := fun a => (a / s * q / 2)%Q). change (map (fun x => (x / s * q / 2)%Q) angles) with (map h angles). set (k := (q / (2 * s))%Q).
    assert (hk : forall a, (h a == k * a)%Q) by (intros a; unfold h, k; field; lra).
    assert (kP : (0 < k)%Q) by (unfold k; apply Qlt_shift_div_l; lra).
    assert (SH : (qsum (map h angles) == k * s)%Q). { unfold s. rewrite Qmult_comm, <- qsum_scale. apply qsum_ext. clear - hk. revert hk. generalize h k. clear. intros h k hk. induction angles; cbn [map]; constructor; auto. rewrite hk. ring. }
    assert (SH2 : (2 * qsum (map h angles) == q)%Q) by (rewrite SH; unfold k; field; lra).
    destruct (existsb (fun a => Qle_bool a 0 || Qle_bool 1 a) (map h angles)) eqn:B.
    + split; [lia|]. split; auto. intros k' r F S2. apply existsb_exists in B. destruct B as (b & Hb & B). apply in_map_iff in Hb. destruct Hb as (a & <- & I0). apply orb_true_iff in B. rewrite !Qle_bool_iff, hk in B. pose proof (Ps a I0) as Pa.
      assert (K1 : (0 < k * a)%Q) by (now apply Qmult_lt_0_compat). destruct B as [B|B]; [lra|].
      assert (SR : (qsum r == k' * s)%Q). { unfold s. rewrite Qmult_comm, <- qsum_scale. apply qsum_ext. clear - F. induction F; cbn [map]; constructor; auto. rewrite H. ring. }
      assert (EK : (k' == k)%Q). { unfold qsum in SR. rewrite SR in S2. fold q in S2. unfold k. rewrite <- S2. field. lra. }
      clearbody k. clear - F I0 B EK. induction F as [|x y l r E F IH]; [destruct I0|]. destruct I0 as [->|I0]; [exists y; split; [now left|]; now rewrite E, EK|]. destruct (IH I0) as (b & Hb & B'). exists b. split; auto. now right.
    + split; [lia|]. split; [|split].
      * exists k. split; auto. clear - hk. revert hk. generalize h k. clear. intros h k hk. induction angles; cbn [map]; constructor; auto.
      * exact SH2.
      * intros b Hb. assert (Nb : Qle_bool b 0 || Qle_bool 1 b = false). { destruct (Qle_bool b 0 || Qle_bool 1 b) eqn:Y; auto. assert (existsb (fun a => Qle_bool a 0 || Qle_bool 1 a) (map h angles) = true); [|congruence]. apply existsb_exists. now exists b. }
        apply orb_false_iff in Nb. destruct Nb as [N1 N2]. split; apply Qnot_le_lt; intros H; apply Qle_bool_iff in H; congruence.
Qed.
(** Integral angles are proportional to the angles by a positive factor and have no common divisor; the conversion to integers never fails. *)
Theorem C77_integral : forall angles, angles <> [] -> (forall a, In a angles -> 0 < a)%Q ->
  exists C l, (0 < C)%Q /\ angles_integral angles = Ok l /\ Forall2 (fun a z => inject_Z z == C * a)%Q angles l /\ forall e, (forall z, In z l -> (e | z)) -> (e | 1).
Proof. exact integral_ok. Qed.
(** is_convex: all angles are smaller than pi; at most pi if not strict *)
Theorem C77_convex : forall strict angles, is_convex strict angles = true <-> forall a, In a angles -> if strict then (a < 1 # 2)%Q else (a <= 1 # 2)%Q.
Proof.
  intros strict angles. unfold is_convex. destruct strict; rewrite forallb_forall; split; intros H a I0; specialize (H a I0).
  - unfold Qltb in H. apply negb_true_iff in H. apply Qnot_le_lt. intros X. assert (Qle_bool 1 (2 * a) = true); [|congruence]. apply Qle_bool_iff. lra.
  - unfold Qltb. apply negb_true_iff. destruct (Qle_bool 1 (2 * a)) eqn:X; auto. apply Qle_bool_iff in X. lra.
  - apply Qle_bool_iff in H. lra.
  - apply Qle_bool_iff. lra.
Qed.

(** The examples of the documentation. *)
Definition E125 : list Q := [1 # 16; 1 # 8; 5 # 16]%Q.
Example ex_norm : match normalize_angles [1%Q; 2%Q; 5%Q] with Ok r => map Qred r | _ => [] end = E125. Proof. reflexivity. Qed.
Example ex_norm_err : normalize_angles [1%Q; 1%Q; 1%Q; 1%Q; 100%Q] = Err NotImplementedError /\ normalize_angles [1%Q; 1%Q] = Err ValueError /\ normalize_angles [1%Q; 1%Q; -1 # 1; 1%Q]%Q = Err ValueError. Proof. repeat split. Qed.
Example ex_sum : (2 * fold_right Qplus 0 E125 == inject_Z (Z.of_nat (length E125) - 2))%Q. Proof. reflexivity. Qed.
Example ex_sheets : sheets 1 E125 8 /\ sheets 2 E125 4. Proof. split; [exact (sheets_degree 1 E125 (or_introl eq_refl))|exact (sheets_degree 2 E125 (or_intror eq_refl))]. Qed.
Definition red (r : res dict) : list (Q * Z) := match r with Ok d => map (fun ym => (Qred (fst ym), snd ym)) d | _ => [] end.
Example ex_125 : red (billiard_unfolding_angles E125 rational_cover) = [((1 # 8)%Q, 1); ((1 # 4)%Q, 1); ((5 # 8)%Q, 1)] /\
  red (billiard_unfolding_angles E125 half_translation_cover) = [((1 # 2)%Q, 3); ((5 # 2)%Q, 1)] /\ red (billiard_unfolding_angles E125 translation_cover) = [((1 # 1)%Q, 3); ((5 # 1)%Q, 1)]. Proof. repeat split. Qed.
Definition E1317 : list Q := [1 # 12; 1 # 4; 1 # 12; 7 # 12]%Q.
Example ex_1317 : red (billiard_unfolding_angles E1317 half_translation_cover) = [((1 # 2)%Q, 5); ((7 # 2)%Q, 1)] /\ red (billiard_unfolding_angles E1317 translation_cover) = [((1 # 1)%Q, 5); ((7 # 1)%Q, 1)]. Proof. repeat split. Qed.
Example ex_stratum : billiard_unfolding_stratum E125 half_translation_cover false = Ok ([-1; -1; -1; 3], 2) /\ billiard_unfolding_stratum E125 translation_cover false = Ok ([4], 1) /\
  billiard_unfolding_stratum E125 translation_cover true = Ok ([0; 0; 0; 4], 1). Proof. repeat split. Qed.
Example ex_dim : billiard_unfolding_stratum_dimension E125 half_translation_cover false = Ok 4 /\ billiard_unfolding_stratum_dimension E125 translation_cover false = Ok 6 /\
  billiard_unfolding_stratum_dimension E125 translation_cover true = Ok 9 /\
  billiard_unfolding_stratum_dimension [1 # 6; 1 # 6; 1 # 6]%Q translation_cover false = Ok 2 /\ billiard_unfolding_stratum_dimension [1 # 6; 1 # 6; 1 # 6]%Q half_translation_cover true = Ok 4. Proof. repeat split. Qed.
Example ex_integral : angles_integral E125 = Ok [1; 2; 5]. Proof. reflexivity. Qed.
Example ex_convex : is_convex true E125 = true /\ is_convex false E1317 = false. Proof. split; reflexivity. Qed.

Print Assumptions C77_cone_points.
Print Assumptions C77_double.
Print Assumptions C77_dimension.
Print Assumptions C77_stratum.
Print Assumptions C77_rational_stratum_refuted.
Print Assumptions C77_normalize.
Print Assumptions C77_integral.
Print Assumptions C77_convex.
