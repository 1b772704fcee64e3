(** Strata, dimensions, normalized and integral angles: from the dictionaries to the results of the methods. *)
From Coq Require Import List Bool ZArith QArith Qreduction Lia Lqa Znumtheory Setoid Morphisms.
From Verif Require Import MBase MUnfold SUnfold PUnfold PUnfold2 PUnfold3 PUnfold4.
Import ListNotations.
Local Open Scope Z_scope.

Lemma cover_of_cases c : c = 1 \/ c = 2 -> cover_of c = translation_cover \/ cover_of c = half_translation_cover. Proof. intros [-> | ->]; auto. Qed.
Lemma zsum_pos_ge d : d <> [] -> (forall z k, In (z : Q, k) d -> 0 < k) -> 1 <= zsum (map snd d).
Proof. intros N P. destruct (zsum_pos (map snd d)) as [_ K]; [|destruct d as [|x r]; [congruence|specialize (K ltac:(discriminate)); lia]]. intros k Hk. apply in_map_iff in Hk. destruct Hk as ([z k'] & <- & H). now apply (P z). Qed.

Lemma dimension_ok c angles marked : c = 1 \/ c = 2 -> angle_sum angles -> exists d g,
  billiard_unfolding_angles angles (cover_of c) = Ok d /\ good_dict c angles d /\ (forall z k, In (z, k) d -> 0 < k) /\
  zsum (map snd d) - degree c angles * Z.of_nat (length angles) + 2 * degree c angles = 2 - 2 * g /\
  billiard_unfolding_stratum_dimension angles (cover_of c) marked = Ok (2 * g + Z.max 1 (zsum (map snd (filter (fun ym => keeps marked (fst ym)) d))) - (if forallb (fun am => denominator (fst am) =? 1) d then 1 else 2)).
Proof.
  intros C A. destruct (unfolding_ok c angles C) as (d & E & G & Ps). exists d. pose proof (chi_eq c angles d C G A) as X. pose proof (chi_even c angles d C G A) as Ev. set (X0 := degree c angles * (Z.of_nat (length angles) - 2) - zsum (map snd d)) in *.
  exists (X0 / 2 + 1). split; auto. split; auto. split; auto. apply Z.mod_divide in Ev; [|lia]. destruct Ev as [h Eh]. rewrite Eh, Z.div_mul by lia. split; [unfold X0 in Eh; lia|].
  unfold billiard_unfolding_stratum_dimension. rewrite E.
  assert (NE : angles <> []) by (intros ->; unfold angle_sum in A; cbn in A; discriminate A).
  assert (DN : d <> []). { destruct (points_nonempty c angles C NE) as (p & y & Hp). destruct (proj2 (keys_iff c angles d (fun _ => true) C G Ps ltac:(intros ? ? ?; reflexivity))) as (z & k & I & _); [now exists p, y|]. intros ->. destruct I. }
  set (F := filter (fun ym => keeps marked (fst ym)) d).
  assert (D1 : (if marked then d else match filter (fun am => negb (Qeq_bool (fst am) 1)) d with nil => [(1%Q, 1)] | d' => d' end) = match F with nil => [(1%Q, 1)] | d' => d' end).
  { unfold F. destruct marked; unfold keeps; cbn [orb]; [|destruct (filter _ d); reflexivity]. rewrite filter_true. destruct d; congruence. }
  assert (FP : forall z k, In (z, k) F -> 0 < k) by (intros z k H; apply filter_In in H; now apply (Ps z)).
  assert (R : forall f : res Z, match cover_of c with rational_cover => Err NotImplementedError | other_cover => Err ValueError | _ => f end = f) by (intros; destruct (cover_of_cases c C) as [-> | ->]; reflexivity).
  rewrite R. rewrite D1. match type of D1 with _ = ?D0 => set (D := D0) in * end. clear D1.
  assert (S1 : fold_right Z.add 0 (map snd D) = Z.max 1 (zsum (map snd F))). { unfold D. destruct F as [|f r] eqn:EF; [reflexivity|]. rewrite <- EF in *. pose proof (zsum_pos_ge F ltac:(congruence) FP). change (fold_right Z.add 0 (map snd F)) with (zsum (map snd F)). lia. }
  assert (S2 : forallb (fun am => denominator (fst am) =? 1) D = forallb (fun am => denominator (fst am) =? 1) d). { rewrite <- (filter_abelian marked d). fold F. unfold D. destruct F; reflexivity. }
  assert (S3 : (qsum (map (fun am => inject_Z (snd am) * (fst am - 1)) D) == inject_Z X0)%Q).
  { rewrite <- X, <- (filter_chi marked d). fold F. unfold D. destruct F; [|reflexivity]. reflexivity. }
  rewrite S1, S2, (denominator_proper _ _ S3), (numerator_proper _ _ S3). destruct (fraction_int X0) as [N1 N2]. rewrite N1, N2. cbn [Z.eqb Pos.eqb negb].
  rewrite Eh, Z.mod_mul, Z.div_mul by lia. cbn [Z.eqb negb]. destruct (forallb _ d); reflexivity.
Qed.

(** ** strata *)
Lemma degrees_ok (f : Q -> Q) marked d : (forall z k, In (z, k) d -> is_int (f z) /\ 0 < k) -> exists l, repeat_degrees f marked d = Ok l /\
  forall z, Z.of_nat (count_occ Z.eq_dec l z) = zsum (map snd (filter (fun ym => keeps marked (fst ym) && Qeq_bool (f (fst ym)) (inject_Z z)) d)).
Proof.
  intros H. unfold repeat_degrees. change (fun am : Q * Z => marked || negb (Qeq_bool (fst am) 1)) with (fun am : Q * Z => keeps marked (fst am)).
  induction d as [|[y k] d IH]; [exists []; split; reflexivity|]. destruct IH as (l & E & Q1); [intros; apply (H z k0); now right|]. cbn [filter fst]. destruct (keeps marked y) eqn:K; [|exists l; split; auto].
  destruct (H y k (or_introl eq_refl)) as [I P]. cbn [mapM fst snd]. unfold to_ZZ at 1. pose proof I as I'. apply is_int_den in I'. rewrite I'. cbn [Z.eqb Pos.eqb]. destruct (mapM _ _) as [ls|] eqn:M in E; [|discriminate]. injection E as <-. rewrite M. cbn [concat]. eexists. split; [reflexivity|].
  intros z. rewrite count_occ_app, Nat2Z.inj_add, Q1. cbn [andb].
  assert (B : Qeq_bool (f y) (inject_Z z) = (numerator (f y) =? z)).
  { destruct I as [w W]. rewrite W. destruct (fraction_int w) as [N _]. rewrite N. destruct (Z.eqb_spec w z) as [->|X]; [apply Qeq_bool_iff; reflexivity|]. destruct (Qeq_bool (inject_Z w) (inject_Z z)) eqn:Y; auto. apply Qeq_bool_iff in Y. apply (proj1 (inj_eq w z)) in Y. contradiction. }
  rewrite B. destruct (Z.eqb_spec (numerator (f y)) z) as [->|X].
  - cbn [map zsum fold_right snd]. rewrite count_occ_repeat_eq by auto. rewrite Z2Nat.id by lia. reflexivity.
  - rewrite count_occ_repeat_neq by auto. reflexivity.
Qed.
Lemma single_key d : unique_keys d -> d <> [] -> ((length d =? 1)%nat && existsb (fun am => Qeq_bool (fst am) 1) d = true <-> forall z k, In (z, k) d -> (z == 1)%Q).
Proof.
  intros U N. rewrite andb_true_iff, Nat.eqb_eq, existsb_exists. split.
  - intros [L ([z k] & I & E)] z' k' I'. cbn [fst] in E. apply Qeq_bool_iff in E. destruct d as [|x [|]]; try discriminate. destruct I as [->|[]], I' as [I'|[]]. injection I' as <- _. exact E.
  - intros H. destruct d as [|[z k] r]; [congruence|]. cbn [unique_keys] in U. destruct U as [U _]. split.
    + destruct r as [|[z' k'] r]; auto. exfalso. apply (U z' k'); [now left|]. rewrite (H z k), (H z' k'); [reflexivity|right; now left|now left].
    + exists (z, k). split; [now left|]. apply Qeq_bool_iff. apply (H z k). now left.
Qed.

(** ** normalized angles *)
Lemma qsum_scale k l : (qsum (map (fun a => a * k) l) == qsum l * k)%Q.
Proof. induction l as [|a l IH]; [unfold qsum; cbn; ring|]. unfold qsum in *. cbn [map fold_right]. rewrite IH. ring. Qed.
Lemma qsum_pos l : l <> [] -> (forall a, In a l -> 0 < a)%Q -> (0 < qsum l)%Q.
Proof.
  intros N H. destruct l as [|a r]; [congruence|]. clear N. revert a H. induction r as [|b r IH]; intros a H; unfold qsum in *; cbn [fold_right].
  - specialize (H a (or_introl eq_refl)). lra.
  - specialize (IH b (fun x h => H x (or_intror h))). specialize (H a (or_introl eq_refl)). cbn [fold_right] in IH. lra.
Qed.
Lemma qsum_ext l l' : Forall2 Qeq l l' -> (qsum l == qsum l')%Q.
Proof. induction 1; [reflexivity|]. unfold qsum in *. cbn [fold_right]. now rewrite H, IHForall2. Qed.

(** ** integral angles *)
Lemma gcd_list_divide l e : (e | gcd_list l) <-> forall x, In x l -> (e | x).
Proof.
  induction l as [|a l IH]; cbn [gcd_list fold_right]; [split; [intros _ x []|intros _; apply Z.divide_0_r]|]. split.
  - intros D x [<-|I]; [apply (Z.divide_trans _ _ _ D), Z.gcd_divide_l|]. apply IH; auto. apply (Z.divide_trans _ _ _ D), Z.gcd_divide_r.
  - intros H. apply Z.gcd_greatest; [apply H; now left|]. apply IH. intros x I. apply H. now right.
Qed.
Lemma gcd_list_nonneg l : 0 <= gcd_list l. Proof. destruct l; cbn [gcd_list fold_right]; [lia|apply Z.gcd_nonneg]. Qed.
Lemma mapM_ok {A B} (f : A -> res B) (h : A -> B) l : (forall a, In a l -> f a = Ok (h a)) -> mapM f l = Ok (map h l).
Proof. induction l as [|a l IH]; intros H; [reflexivity|]. cbn [mapM map]. rewrite (H a) by now left. rewrite IH; auto. intros; apply H; now right. Qed.
Lemma numerator_pos a : (0 < a)%Q -> 0 < numerator a.
Proof.
  intros P. pose proof (den_mul a) as E. pose proof (den_pos a) as D. assert (X : (0 < inject_Z (numerator a))%Q). { rewrite <- E. apply Qmult_lt_0_compat; auto. }
  change 0%Q with (inject_Z 0) in X. now rewrite <- Zlt_Qlt in X.
Qed.
Lemma integral_ok angles : angles <> [] -> (forall a, In a angles -> 0 < a)%Q ->
  exists C l, (0 < C)%Q /\ angles_integral angles = Ok l /\ Forall2 (fun a z => inject_Z z == C * a)%Q angles l /\ forall e, (forall z, In z l -> (e | z)) -> (e | 1).
Proof.
  intros N P. set (g := gcd_list (map numerator angles)). set (L := lcm_list (map denominator angles)).
  assert (Lp : 0 < L) by (apply lcm_list_pos; intros x H; apply in_map_iff in H; destruct H as (a & <- & _); apply den_pos).
  assert (Gd : forall a, In a angles -> (g | numerator a)) by (intros a H; apply (proj1 (gcd_list_divide (map numerator angles) g) (Z.divide_refl _)); now apply in_map).
  assert (Ld : forall a, In a angles -> (denominator a | L)) by (intros a H; apply (proj1 (lcm_list_divide (map denominator angles) L) (Z.divide_refl _)); now apply in_map).
  assert (Gp : 0 < g). { pose proof (gcd_list_nonneg (map numerator angles)) as X. fold g in X. destruct (Z.eq_dec g 0) as [E|]; [|lia]. exfalso. destruct angles as [|a r]; [congruence|]. specialize (Gd a (or_introl eq_refl)). rewrite E in Gd. apply Z.divide_0_l in Gd. pose proof (numerator_pos a (P a (or_introl eq_refl))). lia. }
  set (Lf := fun a => L / denominator a). set (Pf := fun a => numerator a / g).
  assert (EL : forall a, In a angles -> L = Lf a * denominator a) by (intros a H; destruct (Ld a H) as [t T]; unfold Lf; rewrite T at 2; rewrite Z.div_mul by (pose proof (den_pos a); lia); exact T).
  assert (EP : forall a, In a angles -> numerator a = Pf a * g) by (intros a H; destruct (Gd a H) as [t T]; unfold Pf; rewrite T at 2; rewrite Z.div_mul by lia; exact T).
  assert (V : forall a, In a angles -> (inject_Z L / inject_Z g * a == inject_Z (Lf a * Pf a))%Q).
  { intros a H. rewrite (EL a H) at 1. rewrite !inject_Z_mult. transitivity (inject_Z (Lf a) * (inject_Z (denominator a) * a) / inject_Z g)%Q; [field; apply inj_neq0; lia|]. rewrite den_mul, (EP a H), inject_Z_mult. field. apply inj_neq0; lia. }
  exists (inject_Z L / inject_Z g)%Q, (map (fun a => Lf a * Pf a) angles). split; [|split; [|split]].
  - apply Qlt_shift_div_l; [change 0%Q with (inject_Z 0); now rewrite <- Zlt_Qlt|]. change 0%Q with (inject_Z 0). rewrite <- inject_Z_mult, <- Zlt_Qlt. lia.
  - unfold angles_integral. fold g L. destruct (Z.eqb_spec g 0); [lia|]. apply (mapM_ok _ (fun a => Lf a * Pf a)). intros a H. unfold to_ZZ. rewrite (denominator_proper _ _ (V a H)), (numerator_proper _ _ (V a H)). destruct (fraction_int (Lf a * Pf a)) as [-> ->]. reflexivity.
  - clear - V. revert V. generalize (inject_Z L / inject_Z g)%Q Lf Pf. clear. intros C Lf Pf V. induction angles as [|a r IH]; cbn [map]; constructor; [symmetry; apply V; now left|]. apply IH. intros; apply V; now right.
  - intros e H. assert (H' : forall a, In a angles -> (e | Lf a * Pf a)) by (intros a I; apply H; apply in_map_iff; now exists a).
    assert (co : forall a, In a angles -> Z.gcd (denominator a) (Pf a) = 1).
    { intros a I. pose proof (num_den_gcd a) as X. rewrite (EP a I) in X. apply Zgcd_1_rel_prime. apply Zgcd_1_rel_prime in X. apply rel_prime_sym. apply (rel_prime_div (Pf a * g)); [exact X|apply Z.divide_factor_l]. }
    assert (F : (Z.gcd e L | 1)).
    { assert (FL : forall a, In a angles -> (Z.gcd e L | Lf a)).
      { intros a I. replace (Lf a) with (Z.gcd (Lf a * denominator a) (Lf a * Pf a)).
        - apply Z.gcd_greatest; [rewrite <- EL by auto; apply Z.gcd_divide_r|]. apply (Z.divide_trans _ e); [apply Z.gcd_divide_l|auto].
        - rewrite Z.gcd_mul_mono_l_nonneg by (unfold Lf; apply Z.div_pos; [lia|apply den_pos]). rewrite co by auto. ring. }
      pose proof (Z.gcd_nonneg e L) as FN. destruct (Z.gcd_divide_r e L) as [s Es]. assert (F0 : Z.gcd e L <> 0) by (intros X; apply Z.gcd_eq_0_r in X; lia).
      assert (D : (L | s)). { apply lcm_list_divide. intros x Hx. apply in_map_iff in Hx. destruct Hx as (a & <- & I). destruct (FL a I) as [w W]. exists w. pose proof (EL a I) as X. rewrite W in X. rewrite Es in X at 1. apply (Z.mul_reg_r _ _ (Z.gcd e L)); auto. rewrite X. ring. }
      apply Z.divide_pos_le in D; [|nia]. exists 1. nia. }
    apply Z.divide_1_r_nonneg in F; [|apply Z.gcd_nonneg].
    assert (X : (e | gcd_list (map Pf angles))). { apply gcd_list_divide. intros x Hx. apply in_map_iff in Hx. destruct Hx as (a & <- & I). apply (Z.gauss _ (Lf a)); auto. apply Zgcd_1_rel_prime. apply rel_prime_sym. apply (rel_prime_div L); [apply rel_prime_sym, Zgcd_1_rel_prime; exact F|]. rewrite (EL a I). apply Z.divide_factor_l. }
    assert (Y : (gcd_list (map Pf angles) | 1)).
    { assert (D : (gcd_list (map Pf angles) * g | g)). { unfold g at 2. apply gcd_list_divide. intros x Hx. apply in_map_iff in Hx. destruct Hx as (a & <- & I). rewrite (EP a I). apply Z.mul_divide_mono_r. apply (proj1 (gcd_list_divide (map Pf angles) _) (Z.divide_refl _)). now apply in_map. }
      destruct D as [w W]. exists w. nia. }
    now apply (Z.divide_trans _ (gcd_list (map Pf angles))).
Qed.
