(** Theorems C28: the map of the flow in a polygon, an exchange of intervals. *)
From Coq Require Import List Bool ZArith Arith Lia QArith.
From Verif Require Import OField FMicromega PField MBase MDict PDict MIET SIET PIET TEuclid.
Import ListNotations.
Open Scope nat_scope.

(** the constructor accepts exactly the pairs of partitions of the same interval *)
Theorem C28_constructor (K : OField) (A B : Type) `{EqB A} `{EqB B} (bl : list A) (bL : list K) (tl : list B) (tL : list K) :
  (exchange bl bL tl tL /\ bL <> nil <-> exists T, flow_polygon_map bl bL tl tL = Ok T) /\
  (~ exchange bl bL tl tL -> flow_polygon_map bl bL tl tL = Err ValueError).
Proof.
  split; [split|].
  - intros [E N]. now apply flow_map_exists.
  - intros [T E]. apply flow_map_Ok in E. tauto.
  - apply flow_map_err.
Qed.
Print Assumptions C28_constructor.

(** images of points in the interval [a] with label [i]: the function returns a point at the same position in one of the
    closed intervals of the other side; it fails only in the right end point of everything *)
Theorem C28_forward_partial (K : OField) (A B : Type) `{EqB A} `{EqB B} (bl : list A) (bL : list K) (tl : list B) (tL : list K) T a i b x :
  flow_polygon_map bl bL tl tL = Ok T -> nth_error bl a = Some i -> nth_error bL a = Some b -> fle f0 x -> fle x b ->
  fadd (left_end bL a) x <> left_end tL (length tL) \/ flt (left_end bL a) (left_end tL (pred (length tL))) ->
  exists k j y, nth_error tl k = Some j /\ forward_image T i x = Ok (j, y) /\ at_position tL k y (fadd (left_end bL a) x).
Proof.
  intros ET Ei Eb H1 H2 N. destruct (forward_spec bl bL tl tL T a i b x ET Ei Eb H1 H2) as [[_ [Q1 Q2]]|(k & j & y & Q1 & Q2 & Q3 & _)].
  - exfalso. destruct N as [N|N]; [contradiction|flra].
  - exists k, j, y. auto.
Qed.
Print Assumptions C28_forward_partial.
Theorem C28_backward_partial (K : OField) (A B : Type) `{EqB A} `{EqB B} (bl : list A) (bL : list K) (tl : list B) (tL : list K) T a j t y :
  flow_polygon_map bl bL tl tL = Ok T -> nth_error tl a = Some j -> nth_error tL a = Some t -> fle f0 y -> fle y t ->
  fadd (left_end tL a) y <> left_end bL (length bL) \/ flt (left_end tL a) (left_end bL (pred (length bL))) ->
  exists k i x, nth_error bl k = Some i /\ backward_image T j y = Ok (i, x) /\ at_position bL k x (fadd (left_end tL a) y).
Proof.
  intros ET. apply swap_Ok in ET. apply (C28_forward_partial K B A tl tL bl bL (swap_map T) a j t y ET).
Qed.
Print Assumptions C28_backward_partial.

(** the right end point: exactly when the last interval of the other side does not start later, the call raises *)
Theorem C28_right_end_refuted (K : OField) (A B : Type) `{EqB A} `{EqB B} (bl : list A) (bL : list K) (tl : list B) (tL : list K) T a i b :
  flow_polygon_map bl bL tl tL = Ok T -> nth_error bl a = Some i -> nth_error bL a = Some b -> S a = length bL ->
  fle (left_end tL (pred (length tL))) (left_end bL a) -> forward_image T i b = Err IndexError.
Proof.
  intros ET Ei Eb L H1. destruct (flow_map_Ok bl bL tl tL T ET) as ([P1 P2 L1 L2 S1 D1 D2] & N1 & N2 & _).
  assert (Hb : flt f0 b) by (apply P1; eapply nth_error_In; eauto).
  pose proof (left_end_S bL a b Eb) as LS. rewrite L, S1 in LS.
  destruct (forward_spec bl bL tl tL T a i b b ET Ei Eb) as [[Q _]|(k & j & y & Q1 & Q2 & [t [Q3 [Q4 [Q5 Q6]]]] & Q7 & _)]; auto; [flra|flra|].
  exfalso. rewrite <- LS in Q6, Q7. pose proof (left_end_S tL k t Q3) as LS2. destruct Q7 as [[t' [Q3' [Z1 [Z2 Z3]]]]|[Z1 Z2]].
  - assert (t' = t) by congruence. subst t'. pose proof (left_end_le tL (S k) P2) as X. rewrite <- total_lsum in X. rewrite LS2 in X. flra.
  - assert (Hk : k < length tL) by (apply nth_error_Some; congruence).
    pose proof (left_end_mono tL k (pred (length tL)) P2 ltac:(lia)). flra.
Qed.
Print Assumptions C28_right_end_refuted.

(** end points of intervals of the other side: the result is [(j, 0)] unless the interval to the left of the end point
    starts to the right of the start of the interval of the argument, then it is the end of that interval *)
Theorem C28_singularity_partial (K : OField) (A B : Type) `{EqB A} `{EqB B} (bl : list A) (bL : list K) (tl : list B) (tL : list K) T a i b x k j :
  flow_polygon_map bl bL tl tL = Ok T -> nth_error bl a = Some i -> nth_error bL a = Some b -> fle f0 x -> fle x b ->
  nth_error tl k = Some j -> fadd (left_end bL a) x = left_end tL k ->
  (k = 0 \/ fle (left_end tL (pred k)) (left_end bL a) -> forward_image T i x = Ok (j, f0)) /\
  (k <> 0 -> flt (left_end bL a) (left_end tL (pred k)) -> exists j' t, nth_error tl (pred k) = Some j' /\ nth_error tL (pred k) = Some t /\
    forward_image T i x = Ok (j', t)).
Proof.
  intros ET Ei Eb H1 H2 Ej EX. destruct (flow_map_Ok bl bL tl tL T ET) as ([P1 P2 L1 L2 S1 D1 D2] & N1 & N2 & _).
  assert (Hk : k < length tL) by (rewrite <- L2; apply nth_error_Some; congruence).
  destruct (nth_error tL k) as [tk|] eqn:Ek; [|apply nth_error_None in Ek; lia].
  assert (Tk : flt f0 tk) by (apply P2; eapply nth_error_In; eauto). pose proof (left_end_S tL k tk Ek) as LSk.
  pose proof (left_end_le tL (S k) P2) as Y. rewrite LSk in Y.
  destruct (forward_spec bl bL tl tL T a i b x ET Ei Eb H1 H2) as [[_ [Q _]]|(k' & j' & y & Q1 & Q2 & [t [Q3 [Q4 [Q5 Q6]]]] & Q7 & Q8)].
  { exfalso. rewrite EX, total_lsum in Q. flra. }
  rewrite EX in *. pose proof (left_end_S tL k' t Q3) as LS'.
  assert (LK : at_position_left tL k f0 (left_end tL k)) by (exists tk; split; auto; split; [flra|split; [auto|flra]]).
  destruct Q7 as [Z|[Z1 Z2]].
  - destruct (left_unique tL k' y k f0 (left_end tL k) P2 Z LK) as [-> ->]. assert (j' = j) by congruence. subst j'.
    split; [auto|]. intros N0 X. exfalso.
    specialize (Q8 eq_refl). flra.
  - assert (S k' = k) as <-.
    { destruct (Nat.lt_trichotomy (S k') k) as [X|[X|X]]; auto; exfalso.
      - destruct (nth_error tL (S k')) as [u|] eqn:Eu; [|apply nth_error_None in Eu; lia].
        assert (flt f0 u) by (apply P2; eapply nth_error_In; eauto).
        pose proof (left_end_end tL (S k') k u P2 Eu X). flra.
      - pose proof (left_end_end tL k (S k') tk P2 Ek X). flra. }
    cbn [pred]. split; [intros [X|X]; [discriminate|exfalso; flra]|]. intros _ _. exists j', t. split; auto. split; auto. rewrite Q2. f_equal. f_equal. flra.
Qed.
Print Assumptions C28_singularity_partial.

(** points that are not end points: the result is unique, and the other map gives back the point *)
Theorem C28_inverse (K : OField) (A B : Type) `{EqB A} `{EqB B} (bl : list A) (bL : list K) (tl : list B) (tL : list K) T a i b x :
  flow_polygon_map bl bL tl tL = Ok T -> nth_error bl a = Some i -> nth_error bL a = Some b -> flt f0 x -> flt x b ->
  exists j y, forward_image T i x = Ok (j, y) /\ backward_image T j y = Ok (i, x).
Proof.
  intros ET Ei Eb H1 H2. destruct (flow_map_Ok bl bL tl tL T ET) as ([P1 P2 L1 L2 S1 D1 D2] & N1 & N2 & _).
  pose proof (left_end_S bL a b Eb) as LS. pose proof (left_end_le bL (S a) P1) as LE. rewrite LS, <- total_lsum in LE.
  destruct (C28_forward_partial K A B bl bL tl tL T a i b x ET Ei Eb) as (k & j & y & Q1 & Q2 & Q3); [flra|flra|left; rewrite <- S1; intros X; flra|].
  exists j, y. split; auto. destruct Q3 as [t [Et [Y1 [Y2 Y3]]]].
  destruct (C28_backward_partial K A B bl bL tl tL T k j t y ET Q1 Et Y1 Y2) as (a' & i' & x' & R1 & R2 & R3).
  { left. rewrite Y3. intros X. flra. }
  rewrite Y3 in R3. rewrite R2.
  destruct (inner_unique bL a x a' x' (fadd (left_end bL a) x) P1) as [-> ->]; auto.
  - exists b. split; auto. split; [flra|]. split; [flra|reflexivity].
  - flra.
  - rewrite LS. flra.
  - now rewrite Ei in R1; injection R1 as ->.
Qed.
Print Assumptions C28_inverse.
Theorem C28_inverse_backward (K : OField) (A B : Type) `{EqB A} `{EqB B} (bl : list A) (bL : list K) (tl : list B) (tL : list K) T a j t y :
  flow_polygon_map bl bL tl tL = Ok T -> nth_error tl a = Some j -> nth_error tL a = Some t -> flt f0 y -> flt y t ->
  exists i x, backward_image T j y = Ok (i, x) /\ forward_image T i x = Ok (j, y).
Proof. intros ET. apply swap_Ok in ET. apply (C28_inverse K B A tl tL bl bL (swap_map T) a j t y ET). Qed.
Print Assumptions C28_inverse_backward.

Theorem C28_out_of_range (K : OField) (A B : Type) `{EqB A} `{EqB B} (bl : list A) (bL : list K) (tl : list B) (tL : list K) T :
  flow_polygon_map bl bL tl tL = Ok T ->
  (forall a i b x, nth_error bl a = Some i -> nth_error bL a = Some b -> flt x f0 \/ flt b x -> forward_image T i x = Err ValueError) /\
  (forall a j t y, nth_error tl a = Some j -> nth_error tL a = Some t -> flt y f0 \/ flt t y -> backward_image T j y = Err ValueError) /\
  (forall i x, ~ In i bl -> forward_image T i x = Err KeyError) /\ (forall j y, ~ In j tl -> backward_image T j y = Err KeyError).
Proof.
  intros ET. destruct (flow_map_Ok bl bL tl tL T ET) as (_ & _ & _ & F1 & F2 & _). repeat split.
  - intros a i b x. now apply (forward_range bl bL tl tL).
  - intros a j t y. rewrite backward_swap. apply swap_Ok in ET. now apply (forward_range tl tL bl bL).
  - intros i x N. unfold forward_image. now rewrite F1, index_dict_None.
  - intros j y N. unfold backward_image. now rewrite F2, index_dict_None.
Qed.
Print Assumptions C28_out_of_range.

(** *** examples *)
Lemma get_ok {X} (r : res X) (Q : X -> Prop) : match r with Ok x => Q x | Err _ => False end -> exists x, r = Ok x /\ Q x.
Proof. destruct r; [eauto|tauto]. Qed.
Definition qn (x : Q) : cqF := Q2cq x.
Definition ex_iet : res (flow_map cqF nat nat) :=
  flow_polygon_map [0; 1] [qn (5#2); qn (1#2)] [2; 3; 4] [qn 1; qn (3#4); qn (5#4)].
Example ex_iet_values : exists T, ex_iet = Ok T /\ forward_image T 0 (qn (1#2)) = Ok (2, qn (1#2)) /\ forward_image T 0 (qn 1) = Ok (3, qn 0) /\
  forward_image T 1 (qn (1#4)) = Ok (4, qn 1) /\ backward_image T 4 (qn 1) = Ok (1, qn (1#4)) /\ backward_image T 4 (qn (1#4)) = Ok (0, qn 2) /\
  forward_image T 0 (qn 3) = Err ValueError /\ fm_forward T = [(0, qn 0); (2, qn (3#4))].
Proof. apply get_ok. vm_compute. repeat split. Qed.
(** "Singularities are always sent to a (i, 0)" (line 132) is false *)
Theorem C28_singularities_refuted : exists T : flow_map cqF nat nat,
  flow_polygon_map [0] [qn 3] [1; 2; 3] [qn 1; qn 1; qn 1] = Ok T /\ forward_image T 0 (qn 1) = Ok (2, qn 0) /\ forward_image T 0 (qn 2) = Ok (2, qn 1).
Proof. apply get_ok. vm_compute. repeat split. Qed.
Print Assumptions C28_singularities_refuted.
(** a point of the closed interval [0, length_bot(i)] without an image *)
Example C28_right_end_example : exists T : flow_map cqF nat nat,
  flow_polygon_map [0; 1] [qn 2; qn 1] [1; 0] [qn 1; qn 2] = Ok T /\ length_bot T 1 = Ok (qn 1) /\ forward_image T 1 (qn 1) = Err IndexError /\
  forward_image T 0 (qn 2) = Ok (0, qn 1) /\ backward_image T 0 (qn 2) = Ok (1, qn 1).
Proof. apply get_ok. vm_compute. repeat split. Qed.
