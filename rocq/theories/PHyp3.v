(** The upper half plane, the coordinates of end points of geodesics, and half spaces. *)
From Coq Require Import List Bool ZArith Lia Ring Field.
From Verif Require Import OField FMicromega PField MBase MEuclid PEuclid SEuclid MHyp SHyp PHyp PHyp2.
Import ListNotations.

Section Hyp.
Context {K : OField}.
Add Field KF : (of_ft K).
Local Open Scope F_scope.
Implicit Types p q : vec K.
Implicit Types f g h : geo K.
Implicit Types x y : K.

Definition hp x y : vec K := (2 * x / (1 + x * x + y * y), (- (1) + x * x + y * y) / (1 + x * x + y * y)).
Lemma hp_den x y : 0 < 1 + x * x + y * y.
Proof. pose proof (fsq_nonneg x). pose proof (fsq_nonneg y). pose proof (@flt_0_1 K). flra. Qed.
Lemma hp_norm x y : 1 - norm2 (hp x y) = (2 * y / (1 + x * x + y * y)) * (2 * y / (1 + x * x + y * y)).
Proof. pose proof (fpos_neq0 _ (hp_den x y)) as N. unfold norm2, hp. cbn [fst snd]. field. exact N. Qed.
Lemma hp_snd x y : 1 - snd (hp x y) = 2 / (1 + x * x + y * y).
Proof. pose proof (fpos_neq0 _ (hp_den x y)) as N. unfold hp. cbn [fst snd]. field. exact N. Qed.
Lemma hp_point x y : 0 <= y -> half_plane_point x y (hp x y).
Proof.
  intros Y. pose proof (hp_den x y) as P. pose proof (fpos_neq0 _ P) as N. split; auto. split.
  - pose proof (hp_snd x y) as E. pose proof (fdiv_pos _ _ P (@f2_pos K)) as Q. rewrite <- E in Q. flra.
  - split; [|fold (norm2 (hp x y)); rewrite hp_norm]; rewrite hp_snd; unfold hp; cbn [fst snd]; field; exact N.
Qed.
Lemma hp_unique x y p : half_plane_point x y p -> p = hp x y.
Proof.
  intros [Y [H [E F]]]. pose proof (hp_den x y) as P. pose proof (fpos_neq0 _ P) as N. set (u := 1 - snd p) in *. assert (U : 0 < u) by (unfold u; flra). assert (S : snd p = 1 - u) by (unfold u; ring). rewrite E, S in F. clearbody u.
  assert (D : u * (1 + x * x + y * y) = 2). { apply (fcancel _ _ u (fpos_neq0 _ U)). flra. }
  assert (Eu : u = 2 / (1 + x * x + y * y)). { apply (fcancel _ _ _ N). rewrite fdiv_mul by exact N. exact D. }
  apply vec_eq; unfold hp; cbn [fst snd]; [rewrite E|rewrite S]; rewrite Eu; field; exact N.
Qed.
Lemma hp_inj x y x' y' p : half_plane_point x y p -> half_plane_point x' y' p -> x = x' /\ y = y'.
Proof.
  intros [Y [H [E F]]] [Y' [_ [E' F']]]. set (u := 1 - snd p) in *. assert (U : 0 < u) by (unfold u; flra). pose proof (fpos_neq0 _ U) as N.
  split; [apply (fcancel _ _ _ N); congruence|]. assert (Q : y * y = y' * y') by (apply (fcancel _ _ _ (fmul_neq0 _ _ N N)); congruence). apply sq_eq in Q. destruct Q as [Q|Q]; flra.
Qed.
Lemma hp_in_disk x y : in_disk (hp x y).
Proof. pose proof (hp_norm x y) as E. pose proof (fsq_nonneg (2 * y / (1 + x * x + y * y))) as Q. rewrite <- E in Q. unfold in_disk. fold (norm2 (hp x y)). flra. Qed.
Lemma hp_finite x y : 0 < y -> finite (hp x y).
Proof.
  intros Y. assert (Q : 0 < 2 * y / (1 + x * x + y * y)) by (apply fdiv_pos; [apply hp_den|flra]). pose proof (fmul_pos _ _ Q Q) as Q2. rewrite <- hp_norm in Q2. unfold finite. fold (norm2 (hp x y)). flra.
Qed.
Lemma hp_ideal x : ideal (hp x 0).
Proof. pose proof (hp_norm x 0) as E. unfold ideal. fold (norm2 (hp x 0)). replace (2 * 0 / (1 + x * x + 0 * 0)) with (0 : K) in E by (unfold fdiv; ring). flra. Qed.
Lemma point_hp_ok x y : 0 <= y -> point_half_plane x y = Ok (hp x y).
Proof.
  intros Y. unfold point_half_plane. rewrite sgn_neg. destruct (y <? 0) eqn:E; bools; [exfalso; flra|]. unfold point_klein. fold (hp x y). destruct (is_ultra_ideal (hp x y)) eqn:U; auto. unfold is_ultra_ideal in U. bools. pose proof (hp_in_disk x y) as D. unfold in_disk in D. unfold norm2 in U. exfalso. flra.
Qed.
Lemma point_hp_err x y : y < 0 -> point_half_plane x y = Err ValueError.
Proof. intros Y. unfold point_half_plane. rewrite sgn_neg. unfold flt in Y. now rewrite Y. Qed.
Lemma hp_eval g x y A B C : equation_half_plane g = (A, B, C) ->
  geo_eval g (hp x y) = (A * (x * x + y * y) + B * x + C) / (1 + x * x + y * y).
Proof.
  unfold equation_half_plane. intros E. assert (EA : A = g_a g + g_c g) by congruence. assert (EB : B = 2 * g_b g) by congruence. assert (EC : C = g_a g - g_c g) by congruence. rewrite EA, EB, EC.
  unfold geo_eval, hp. cbn [fst snd]. field. apply fpos_neq0, hp_den.
Qed.
(** a quotient by a positive number has the sign of the numerator *)
Lemma div_zero (u d : K) : 0 < d -> u / d = 0 <-> u = 0.
Proof. intros D. pose proof (fpos_neq0 _ D) as N. split; intros E; [|rewrite E; field; exact N]. rewrite <- (fdiv_mul u d N), E. ring. Qed.
Lemma div_nonneg (u d : K) : 0 < d -> 0 <= u / d <-> 0 <= u.
Proof.
  intros D. pose proof (fpos_neq0 _ D) as N. split; intros E; [|now apply fdiv_nonneg]. rewrite <- (fdiv_mul u d N). set (r := u / d) in *. clearbody r. destruct (proj1 (fle_lteq _ _) E) as [C|C]; [apply fle_lteq; left; now apply fmul_pos|subst r; flra].
Qed.
Lemma hp_equation g x y p A B C : half_plane_point x y p -> equation_half_plane g = (A, B, C) ->
  (on g p <-> A * (x * x + y * y) + B * x + C = 0) /\ (left_of g p <-> 0 <= A * (x * x + y * y) + B * x + C).
Proof.
  intros H E. apply hp_unique in H. subst p. change (on g (hp x y)) with (geo_eval g (hp x y) = 0). change (left_of g (hp x y)) with (0 <= geo_eval g (hp x y)). rewrite (hp_eval g x y A B C E). split; [apply div_zero|apply div_nonneg]; apply hp_den.
Qed.

(** ** The starting point of a geodesic in the half plane *)
Lemma vertical_start g : chord g -> g_a g + g_c g = 0 -> 0 < g_b g -> start_of g infinity.
Proof.
  intros C A B. apply start_iff; [now apply chord_line|]. unfold on, ideal, infinity, dot, tangent. cbn [fst snd]. split; [flra|]. split; [ring|flra].
Qed.
Lemma vertical_start2 g : chord g -> g_a g + g_c g = 0 -> g_b g < 0 -> start_of g (hp (- (g_a g - g_c g) / (2 * g_b g)) 0).
Proof.
  intros C A B. set (x := - (g_a g - g_c g) / (2 * g_b g)). pose proof (hp_den x 0) as P. pose proof (fpos_neq0 _ P) as N. pose proof (fneg_neq0 _ B) as NB. pose proof (@f2_neq0 K) as N2.
  assert (Ex : g_c g = g_b g * x). { unfold x. assert (Ea : g_a g = - g_c g) by flra. rewrite Ea. field. split; auto. } clearbody x.
  apply start_iff; [now apply chord_line|]. split; [|split; [apply hp_ideal|]].
  - change (geo_eval g (hp x 0) = 0). erewrite hp_eval by reflexivity. apply div_zero; auto. rewrite A. assert (Ea : g_a g = - g_c g) by flra. rewrite Ea, Ex. ring.
  - unfold dot, tangent, hp. cbn [fst snd]. rewrite Ex. match goal with |- ?t < 0 => assert (EE : t = g_b g) end; [|rewrite EE; exact B]. 
    generalize (eq_refl (1 + x * x + 0 * 0)). generalize (1 + x * x + 0 * 0) at 1 3 4. intros d Ed. rewrite <- Ed in N. transitivity ((2 * g_b g * (x * x) - g_b g * (- (1) + x * x + 0 * 0)) / d); [field; exact N|]. replace (2 * g_b g * (x * x) - g_b g * (- (1) + x * x + 0 * 0)) with (g_b g * d) by (rewrite Ed; ring). field. exact N.
Qed.
Lemma circle_start g x s : chord g -> g_a g + g_c g <> 0 -> 0 < s -> s = - (2 * (g_a g + g_c g) * x + 2 * g_b g) ->
  (g_a g + g_c g) * (x * x) + 2 * g_b g * x + (g_a g - g_c g) = 0 -> start_of g (hp x 0).
Proof.
  intros C A S E Q. pose proof (hp_den x 0) as P. pose proof (fpos_neq0 _ P) as N. apply start_iff; [now apply chord_line|]. split; [|split; [apply hp_ideal|]].
  - change (geo_eval g (hp x 0) = 0). erewrite hp_eval by reflexivity. apply div_zero; auto. etransitivity; [|exact Q]. ring.
  - unfold dot, tangent, hp. cbn [fst snd]. match goal with |- ?t < 0 => replace t with ((2 * x * g_c g - (x * x - 1) * g_b g) / (1 + x * x + 0 * 0)) end.
    2: { generalize (eq_refl (1 + x * x + 0 * 0)). generalize (1 + x * x + 0 * 0) at 1 3 4 5. intros d Ed. rewrite <- Ed in N. replace (- (1) + x * x + 0 * 0) with (x * x - 1) by ring. field. exact N. }
    set (A' := g_a g + g_c g) in *. set (b := g_b g) in *. assert (Ec : g_a g = A' - g_c g) by (unfold A'; ring). set (c := g_c g) in *. rewrite Ec in Q. clearbody A' b c.
    assert (H : (2 * x * c - (x * x - 1) * b) * (2 * A') = (- s) * (1 + x * x + 0 * 0) * A').
    { assert (Eb : 2 * b = - s - 2 * A' * x) by flra. assert (E2c : 2 * c = A' * (x * x) + 2 * b * x + A') by flra.
      replace ((2 * x * c - (x * x - 1) * b) * (2 * A')) with ((2 * x * (2 * c) - (x * x - 1) * (2 * b)) * A') by ring. rewrite E2c, Eb. ring. }
    assert (H2 : (2 * x * c - (x * x - 1) * b) * 2 = (- s) * (1 + x * x + 0 * 0)). { apply (fcancel _ _ A' A). rewrite <- H. ring. }
    assert (0 < s * (1 + x * x + 0 * 0)) by (now apply fmul_pos). assert (H3 : 0 < (- (2 * x * c - (x * x - 1) * b)) / (1 + x * x + 0 * 0)) by (apply fdiv_pos; [auto|flra]).
    replace ((- (2 * x * c - (x * x - 1) * b)) / (1 + x * x + 0 * 0)) with (- ((2 * x * c - (x * x - 1) * b) / (1 + x * x + 0 * 0))) in H3 by (unfold fdiv; ring). flra.
Qed.

(** ** Coordinates *)
Section Base.
Variables (B : K -> Prop) (sqrt : K -> option K).
Hypothesis SB : subfield B.
Hypothesis SQ : sqrt_in B sqrt.

Lemma B1 : B 1. Proof. apply SB. Qed.
Lemma Badd x y : B x -> B y -> B (x + y). Proof. apply SB. Qed.
Lemma Bmul x y : B x -> B y -> B (x * y). Proof. apply SB. Qed.
Lemma Bopp x : B x -> B (- x). Proof. apply SB. Qed.
Lemma Bsub x y : B x -> B y -> B (x - y). Proof. intros. apply Badd; auto. now apply Bopp. Qed.
Lemma Bdiv x y : B x -> B y -> y <> 0 -> B (x / y). Proof. intros. apply Bmul; auto. now apply SB. Qed.
Lemma B2 : B 2. Proof. apply Badd; apply B1. Qed.

(** the discriminant *)
Lemma disc_pos g : chord g -> 0 < 2 * g_b g * (2 * g_b g) - 2 * 2 * (g_a g + g_c g) * (g_a g - g_c g).
Proof. rewrite chord_iff. intros C. flra. Qed.
Lemma coordinates_start g : chord g -> geo_over B g ->
  match coordinates_klein sqrt (Start g) with
  | Ok q => start_of g q
  | Err e => e = ValueError /\ forall q, start_of g q -> B (fst q) -> B (snd q) -> False
  end.
Proof.
  intros C [Ba [Bb Bc]]. pose proof (chord_line g C) as L. unfold coordinates_klein, equation_half_plane. destruct (_ =? _) eqn:E; bools.
  - rewrite sgn_pos. assert (Nb : g_b g <> 0). { intros Z. apply chord_iff in C. assert (A : g_a g = - g_c g) by flra. rewrite A, Z in C. flra. } destruct (0 <? 2 * g_b g) eqn:P; bools.
    + apply vertical_start; auto. flra.
    + destruct (2 * g_b g =? 0) eqn:Z; bools; [exfalso; apply Nb; flra|]. rewrite point_hp_ok by flra. apply vertical_start2; auto. apply fneq_lt in Nb. destruct Nb; flra.
  - set (A := g_a g + g_c g) in *. set (D := 2 * g_b g * (2 * g_b g) - 2 * 2 * A * (g_a g - g_c g)). assert (BD : B D). { unfold D, A. repeat first [assumption | apply B2 | apply B1 | apply Bsub | apply Badd | apply Bmul | apply Bopp]. }
    pose proof (SQ D BD) as SD. pose proof (disc_pos g C) as DP. fold A in DP. fold D in DP. destruct (sqrt D) as [s|].
    + destruct SD as [Bs [S0 SS]]. assert (S1 : 0 < s). { apply fle_lteq in S0. destruct S0 as [S0|S0]; auto. subst s. rewrite <- SS in DP. exfalso. flra. }
      set (x := (- (2 * g_b g) - s) / (2 * A)). set (x' := (- (2 * g_b g) + s) / (2 * A)). assert (N2 : 2 * A <> 0) by (apply fmul_neq0; [apply f2_neq0|auto]).
      assert (Ex : (if (0 <? sgn A)%Z then if x' <? x then x' else x else if x <? x' then x' else x) = x).
      { rewrite sgn_pos. assert (XX : (x' - x) * (2 * A) = 2 * s) by (unfold x, x'; field; split; [auto|apply f2_neq0]). clearbody x x'. destruct (0 <? A) eqn:PA; bools.
        - destruct (x' <? x) eqn:Q; bools; auto. exfalso. assert (0 < (x - x') * (2 * A)) by (apply fmul_pos; flra). flra.
        - destruct (x <? x') eqn:Q; bools; auto. exfalso. apply fneq_lt in E. destruct E as [E|E]; [|flra]. assert (0 < (x' - x) * (- (2 * A))) by (apply fmul_pos; flra). flra. }
      rewrite Ex, point_hp_ok by flra. apply (circle_start g x s); auto; fold A.
      * unfold x. field. split; [auto|apply f2_neq0].
      * assert (Xe : 2 * A * x = - (2 * g_b g) - s) by (unfold x; field; split; [auto|apply f2_neq0]). apply (fcancel _ _ (2 * 2 * A)); [apply fmul_neq0; [apply fmul_neq0; apply f2_neq0|auto]|].
        replace ((A * (x * x) + 2 * g_b g * x + (g_a g - g_c g)) * (2 * 2 * A)) with ((2 * A * x) * (2 * A * x) + 2 * (2 * g_b g) * (2 * A * x) + 2 * 2 * A * (g_a g - g_c g)) by ring. rewrite Xe.
        replace ((- (2 * g_b g) - s) * (- (2 * g_b g) - s) + 2 * (2 * g_b g) * (- (2 * g_b g) - s) + 2 * 2 * A * (g_a g - g_c g)) with (s * s - D) by (unfold D; ring). rewrite SS. ring.
    + split; auto. intros q Q Bx By. apply start_iff in Q; auto. destruct Q as [O [I _]].
      assert (Y1 : 1 - snd q <> 0). { intros Z. assert (Sq : snd q = 1) by flra. unfold ideal in I. rewrite Sq in I. assert (fst q = 0) by (apply fsqr_eq0; flra). unfold on in O. rewrite H, Sq in O. apply E. unfold A. flra. }
      set (x := fst q / (1 - snd q)). assert (Bxx : B x) by (apply Bdiv; auto; apply Bsub; auto; apply B1).
      apply (SD (2 * A * x + 2 * g_b g)). { unfold A. repeat first [assumption | apply B2 | apply B1 | apply Bsub | apply Badd | apply Bmul | apply Bopp]. }
      unfold D. assert (Q : A * (x * x) + 2 * g_b g * x + (g_a g - g_c g) = 0).
      { assert (H : half_plane_point x 0 q). { split; [flra|]. unfold ideal in I. split; [|split].
          - apply fnle_lt. intros W. pose proof (fsq_nonneg (fst q)). assert (snd q * snd q <= 1) by flra. assert (snd q = 1); [|apply Y1; flra]. apply fle_antisym; auto. apply fnlt_le. intros W2. assert (0 < (snd q - 1) * (snd q + 1)) by (apply fmul_pos; flra). flra.
          - unfold x. field. exact Y1. - rewrite I. ring. }
        pose proof (proj1 (hp_equation g x 0 q _ _ _ H eq_refl)) as W. apply W in O. etransitivity; [|exact O]. unfold A. ring. }
      clear SD. assert (W : g_a g - g_c g = - (A * (x * x) + 2 * g_b g * x)) by flra. rewrite W. ring.
Qed.

Lemma pos_mul_iff (k u : K) : 0 < u -> (0 <= k * u <-> 0 <= k).
Proof.
  intros U. split; intros H.
  - apply fnlt_le. intros C. assert (0 < (- k) * u) by (apply fmul_pos; flra). flra.
  - destruct (proj1 (fle_lteq _ _) H) as [C|C]; [apply fle_lteq; left; now apply fmul_pos|subst k; flra].
Qed.
Lemma nonneg_dec (x : K) : (0 <=? sgn x)%Z = true <-> 0 <= x.
Proof. rewrite sgn_nonneg. unfold fle. destruct (x <? 0); cbn; intuition congruence. Qed.
Lemma intersection_over f g i : geo_over B f -> geo_over B g -> intersection f g = Some i -> B (fst i) /\ B (snd i).
Proof.
  intros [F1 [F2 F3]] [G1 [G2 G3]]. unfold intersection. destruct (_ =? _) eqn:E; [discriminate|]. bools. intros Q. injection Q as <-. cbn [fst snd]. split; apply Bdiv; auto; repeat first [assumption | apply B2 | apply B1 | apply Bsub | apply Badd | apply Bmul | apply Bopp].
Qed.
Lemma half_space_contains_ok h (o : point K) (s : vec K) : chord h -> geo_over B h -> valid_point o -> over B o -> denotes o s ->
  exists b, half_space_contains sqrt h o = Ok b /\ (b = true <-> left_of h s).
Proof.
  intros Ch Bh V O D. unfold half_space_contains. destruct o as [p|g]; cbn [valid_point over denotes] in *.
  - subst p. cbn [coordinates_klein]. eexists. split; [reflexivity|]. apply nonneg_dec.
  - pose proof (coordinates_start g V O) as CS. pose proof (chord_line g V) as L. destruct (coordinates_klein sqrt (Start g)) as [q|e].
    + eexists. split; [reflexivity|]. rewrite (start_unique g s q L D CS). apply nonneg_dec.
    + destruct CS as [-> CS]. pose proof (start_on g s D) as So. pose proof (start_ideal g s D) as Si. destruct (on_point g s L So) as [ts Es]. pose proof (proj1 (start_param g s ts L Es Si) D) as Ts.
      set (k := g_b h * g_c g - g_c h * g_b g). assert (EV : forall t, geo_eval h (vadd (foot g) (vscale t (tangent g))) = geo_eval h (foot g) + t * k). { intros t. rewrite eval_add. unfold tangent, k. cbn [fst snd]. ring. }
      assert (ES : geo_eval h s = geo_eval h (foot g) + ts * k) by (rewrite <- EV, <- Es; reflexivity).
      assert (AN : (0 <= geo_eval h (foot g) <-> left_of h s) -> exists b, (q <- an_element g ;; Ok (0 <=? sgn (geo_eval h q))%Z)%res = Ok b /\ (b = true <-> left_of h s)).
      { intros W. rewrite (an_element_ok g L). cbn [bind]. eexists. split; [reflexivity|]. rewrite nonneg_dec. exact W. }
      destruct (intersection h g) as [i|] eqn:EI.
      * pose proof (intersection_over _ _ _ Bh O EI) as [Bi1 Bi2]. pose proof EI as EI'. apply intersection_some in EI'. destruct EI' as [Kn [Oh [Og U]]]. fold k in Kn. destruct (on_point g i L Og) as [ti Ei].
        assert (E0 : geo_eval h (foot g) = - ti * k). { assert (Z : geo_eval h i = 0) by exact Oh. rewrite Ei, EV in Z. flra. }
        assert (ET : geo_eval h s = (ts - ti) * k) by (rewrite ES, E0; ring). assert (NE : ti <> ts). { intros Q. assert (X : s = i) by (rewrite Es, Ei, Q; reflexivity). apply (CS s D); rewrite X; assumption. }
        set (n := g_b g * g_b g + g_c g * g_c g). pose proof (line_pos g L) as Pn. fold n in Pn. rewrite Es in Si. apply ideal_param in Si; auto. fold n in Si.
        destruct (is_finite i) eqn:F; cbn [negb]; unfold is_finite in F; bools.
        -- assert (Fi : finite i) by exact F. rewrite Ei in Fi. apply finite_param in Fi; auto. fold n in Fi. assert (T2 : ti * ti < ts * ts). { apply fnle_lt. intros W. assert (0 <= (ti * ti - ts * ts) * (n * n)). { destruct (proj1 (fle_lteq _ _) W) as [W'|W']; [apply fle_lteq; left; apply fmul_pos; [flra|now apply fmul_pos]|rewrite W'; flra]. } flra. }
           assert (ts < ti). { assert (- ti < - ts); [|flra]. apply sq_lt; flra. }
           unfold geo_ccw. rewrite EI. destruct (is_ideal i) eqn:I1; [unfold is_ideal in I1; bools; exfalso; flra|]. destruct (is_ultra_ideal i) eqn:I2; [unfold is_ultra_ideal in I2; bools; exfalso; flra|]. cbn [andb bind].
           assert (EK : ccw (tangent h) (tangent g) = k) by (unfold ccw, tangent, k; cbn [fst snd]; ring). rewrite EK. rewrite sgn_zero. destruct (k =? 0) eqn:Z; bools; [tauto|].
           eexists. split; [reflexivity|]. rewrite sgn_neg. change ((k <? 0) = true) with (k < 0). change (left_of h s) with (0 <= geo_eval h s). rewrite ET. split; intros W.
           ++ apply fle_lteq. left. assert (0 < (ti - ts) * (- k)) by (apply fmul_pos; flra). flra.
           ++ apply fneq_lt in Kn. destruct Kn as [Kn|Kn]; auto. exfalso. assert (0 < (ti - ts) * k) by (apply fmul_pos; flra). flra.
        -- apply AN. change (left_of h s) with (0 <= geo_eval h s). rewrite E0, ET.
           assert (T2 : ts * ts <= ti * ti). { apply fnlt_le. intros W. assert (0 < (ts * ts - ti * ti) * (n * n)) by (apply fmul_pos; [flra|now apply fmul_pos]). assert (Fi : finite i). { rewrite Ei. apply finite_param; auto. fold n. flra. } unfold finite in Fi. unfold norm2 in F. flra. }
           destruct (fltb_total K ti 0) as [W|[W|W]].
           ++ assert (ti < ts). { apply fneq_lt in NE. destruct NE as [NE|NE]; auto. exfalso. assert (- ti < - ts) by flra. assert (0 < (ti - ts) * (- ti - ts)) by (apply fmul_pos; flra). flra. }
              replace (- ti * k) with (k * (- ti)) by ring. replace ((ts - ti) * k) with (k * (ts - ti)) by ring. rewrite !pos_mul_iff by flra. tauto.
           ++ subst ti. exfalso. assert (0 < (- ts) * (- ts)) by (apply fmul_pos; flra). flra.
           ++ replace (- ti * k) with ((- k) * ti) by ring. replace ((ts - ti) * k) with ((- k) * (ti - ts)) by ring. rewrite !pos_mul_iff by flra. tauto.
      * apply intersection_none in EI. fold k in EI. apply AN. change (left_of h s) with (0 <= geo_eval h s). rewrite ES, EI. replace (geo_eval h (foot g) + ts * 0) with (geo_eval h (foot g)) by ring. tauto.
Qed.

(** the coordinates in the half plane *)
Lemma coordinates_half_plane_ok p : in_disk p -> B (fst p) -> B (snd p) ->
  match coordinates_half_plane sqrt p with
  | Ok (x, y) => half_plane_point x y p
  | Err e => e = ValueError /\ forall x y, B x -> B y -> ~ half_plane_point x y p
  end.
Proof.
  intros D Bx By. unfold coordinates_half_plane. destruct p as [x y]. cbn [fst snd] in *. destruct (veqb (x, y) infinity) eqn:E; cbn [orb].
  { apply (proj1 (veqb_eq _ _)) in E. split; auto. intros u v _ _ [_ [H _]]. rewrite E in H. cbn in H. flra. }
  unfold in_disk in D. cbn [fst snd] in D. unfold is_ultra_ideal, norm2. cbn [fst snd]. destruct (1 <? x * x + y * y) eqn:U; bools; [exfalso; flra|]. unfold is_finite, norm2. cbn [fst snd].
  assert (Y1 : y < 1). { apply fnle_lt. intros W. pose proof (fsq_nonneg x). assert (0 <= (y - 1) * (y + 1)). { destruct (proj1 (fle_lteq _ _) W) as [W'|W']; [apply fle_lteq; left; apply fmul_pos; flra|subst y; flra]. } assert (Q : (y - 1) * (y + 1) = 0) by flra. apply fmul_eq0 in Q. destruct Q as [Q|Q]; [|flra]. assert (Ey : y = 1) by flra. subst y. assert (x = 0) by (apply fsqr_eq0; flra). subst x.
    apply (proj1 (veqb_neq _ _)) in E. now apply E. }
  assert (N : 1 - y <> 0) by (apply fpos_neq0; flra). destruct (x * x + y * y <? 1) eqn:F; bools; cbn [negb].
  - assert (BQ : B (1 - x * x - y * y)) by (repeat first [assumption | apply B2 | apply B1 | apply Bsub | apply Badd | apply Bmul | apply Bopp]). pose proof (SQ _ BQ) as S. destruct (sqrt _) as [s|].
    + destruct S as [_ [S0 SS]]. split; [apply fdiv_nonneg; flra|]. cbn [fst snd]. split; auto. split; [field; exact N|].
      replace (s / (1 - y) * (s / (1 - y)) * ((1 - y) * (1 - y))) with (s * s) by (field; exact N). rewrite SS. ring.
    + split; auto. intros u v Bu Bv [_ [_ [_ H]]]. cbn [fst snd] in H. apply (S (v * (1 - y))). { apply Bmul; auto. apply Bsub; auto. apply B1. } flra.
  - split; [flra|]. cbn [fst snd]. split; auto. split; [field; exact N|]. replace (x * x + y * y) with (1 : K) by flra. ring.
Qed.
End Base.
End Hyp.
