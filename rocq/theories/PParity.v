(** The parity of the number of cycles of three permutations whose product is the identity. *)
From Coq Require Import List Bool Arith Lia Relations.
From Verif Require Import MDict PDict MComb SComb PClos PComb.
Import ListNotations.

Section Parity.
Context {A : Type} `{EqB A}.
Implicit Types (a b x y : A) (R S T : A -> A -> Prop).
Fixpoint it (n : nat) (f : A -> A) (x : A) : A := match n with 0 => x | Datatypes.S n => f (it n f x) end.

Lemma eqbT x y : eqb x y = true -> x = y. Proof. intros E. now apply eqb_ok. Qed.
(** *** joining two classes of an equivalence relation *)
Definition equivalence_on S := (forall x, S x x) /\ (forall x y, S x y -> S y x) /\ (forall x y z, S x y -> S y z -> S x z).
Definition joins S T a b := forall x y, T x y <-> S x y \/ (S x a /\ S b y) \/ (S x b /\ S a y).

Lemma remove_rep (reps : list A) r : NoDup reps -> In r reps -> exists rest, NoDup rest /\ length reps = length rest + 1 /\
  forall x, In x rest <-> In x reps /\ x <> r.
Proof.
  intros N I. destruct (in_split r reps I) as [l1 [l2 ->]]. exists (l1 ++ l2). pose proof (NoDup_remove_1 _ _ _ N) as N1. pose proof (NoDup_remove_2 _ _ _ N) as N2.
  split; auto. split; [rewrite !app_length; cbn; lia|]. intros x. rewrite !in_app_iff in *. cbn. split.
  - intros X. split; [tauto|]. intros ->. tauto.
  - intros [[X|[X|X]] Y]; auto. congruence.
Qed.
Lemma join_classes (D : A -> Prop) S T a b n : equivalence_on S -> joins S T a b -> D a -> D b -> ~ S a b ->
  has_classes D S n -> exists k, n = k + 1 /\ has_classes D T k.
Proof.
  intros [Sr [Ss St]] J Da Db N [reps [R1 [R2 [R3 [R4 R5]]]]].
  destruct (R4 a Da) as [ra [Ia Ra]], (R4 b Db) as [rb [Ib Rb]].
  assert (Nr : ra <> rb) by (intros ->; apply N; eauto).
  destruct (remove_rep reps rb R2 Ib) as [rest [M1 [M2 M3]]]. exists (length rest). split; [lia|]. exists rest. split; auto. split; auto.
  split; [intros x I; apply R3; now apply M3|]. split.
  - intros x Dx. destruct (R4 x Dx) as [y [Iy Xy]]. destruct (eqb y rb) eqn:E.
    + apply eqbT in E. subst y. exists ra. split; [now apply M3|]. apply J. right. right. split; [|exact Ra]. eapply St; eauto.
    + exists y. split; [apply M3; split; auto; intros ->; rewrite (proj2 (eqb_ok rb rb) eq_refl) in E; discriminate|]. apply J. now left.
  - intros x y Ix Iy X. apply M3 in Ix, Iy. destruct Ix as [Ix Nx], Iy as [Iy Ny]. apply J in X. destruct X as [X|[[X Y]|[X Y]]].
    + now apply R5.
    + destruct Ny. symmetry. apply R5; auto. eapply St; [apply Ss, Rb|]; eauto.
    + destruct Nx. apply R5; auto. eapply St; eauto.
Qed.
Lemma split_classes (D : A -> Prop) S T a b k : equivalence_on S -> joins S T a b -> D a -> D b -> ~ S a b ->
  has_classes D T k -> has_classes D S (k + 1).
Proof.
  intros [Sr [Ss St]] J Da Db N [reps [R1 [R2 [R3 [R4 R5]]]]].
  assert (Tab : T b a) by (apply J; right; right; auto).
  assert (Tt : forall x y z, T x y -> T y z -> T x z).
  { intros x y z X Y. apply J in X, Y. apply J. destruct X as [X|[[X X']|[X X']]], Y as [Y|[[Y Y']|[Y Y']]];
    [left; eauto|right; left; eauto|right; right; eauto|right; left; eauto|right; left; eauto|left; eauto|right; right; eauto|left; eauto|right; right; eauto]. }
  destruct (R4 a Da) as [r [Ir Xr]]. destruct (remove_rep reps r R2 Ir) as [rest [M1 [M2 M3]]].
  assert (Na : ~ In a rest) by (intros I; apply M3 in I; destruct I as [I Q]; apply Q; now apply R5).
  assert (Nb : ~ In b rest) by (intros I; apply M3 in I; destruct I as [I Q]; apply Q; apply R5; eauto).
  assert (Nab : a <> b) by (intros ->; auto).
  exists (a :: b :: rest). split; [cbn; lia|]. split; [repeat constructor; cbn; tauto||(intros [->|I]; auto)|].
  split; [intros x [<-|[<-|I]]; auto; apply R3; now apply M3|]. split.
  - intros x Dx. destruct (R4 x Dx) as [y [Iy Xy]]. destruct (eqb y r) eqn:E.
    + apply eqbT in E. subst y. assert (X : T x a) by (apply Tt with r; auto; apply J; apply J in Xr; destruct Xr as [Z|[[Z Z']|[Z Z']]]; eauto 6).
      apply J in X. destruct X as [X|[[X X']|[X X']]]; [exists a|exists a|exists b]; cbn; auto.
    + assert (Q : y <> r) by (intros ->; rewrite (proj2 (eqb_ok r r) eq_refl) in E; discriminate).
      assert (Iy' : In y rest) by (now apply M3). pose proof Xy as X. apply J in X. destruct X as [X|[[X Y]|[X Y]]].
      * exists y. cbn. auto.
      * destruct Q. apply R5; auto. apply Tt with b; [apply J; left; now apply Ss|]. eauto.
      * destruct Q. apply R5; auto. apply Tt with a; [apply J; left; now apply Ss|]. auto.
  - assert (G : forall x y, In y rest -> S x y -> T x a -> x = y).
    { intros x y I X Z. exfalso. apply M3 in I. destruct I as [I Q]. apply Q. apply R5; auto. apply Tt with x; [apply J; left; now apply Ss|]. eauto. }
    assert (Taa : T a a) by (apply J; auto).
    intros x y [<-|[<-|Ix]] [<-|[<-|Iy]] X; auto.
    + now destruct N.
    + destruct N. auto.
    + symmetry. apply G; auto.
    + symmetry. apply G; auto.
    + apply M3 in Ix, Iy. apply R5; try tauto. apply J. now left.
Qed.

(** *** permutations of a list *)
Variable ds : list A.
Hypothesis ND : NoDup ds.
Definition graph (f : A -> A) x y := In x ds /\ y = f x.
Definition acts (f : A -> A) := (forall x, In x ds -> In (f x) ds) /\ (forall x y, In x ds -> In y ds -> f x = f y -> x = y).
Notation cyc f := (clos_refl_sym_trans A (graph f)).
Notation classes f n := (has_classes (fun x => In x ds) (cyc f) n).
Notation sw a b x := (if eqb x a then b else if eqb x b then a else x).

Lemma eqb_same x : eqb x x = true. Proof. now apply eqb_ok. Qed.
Lemma sw_cases a b x : (x = a /\ sw a b x = b) \/ (x <> a /\ x = b /\ sw a b x = a) \/ (x <> a /\ x <> b /\ sw a b x = x).
Proof.
  destruct (eqb x a) eqn:E; [apply eqbT in E; auto|]. right. assert (x <> a) by (intros ->; rewrite eqb_same in E; discriminate).
  destruct (eqb x b) eqn:E2; [apply eqbT in E2; auto|]. right. split; auto. split; auto. intros ->. rewrite eqb_same in E2. discriminate.
Qed.
Lemma sw_invol a b x : sw a b (sw a b x) = x.
Proof.
  destruct (sw_cases a b x) as [[-> E]|[[N [-> E]]|[N [N' E]]]]; rewrite E.
  - destruct (sw_cases a b b) as [[-> E2]|[[N2 [_ E2]]|[N2 [N3 _]]]]; auto. now destruct N3.
  - now rewrite eqb_same.
  - exact E.
Qed.
Lemma cyc_equiv f : equivalence_on (cyc f).
Proof. split; [apply rst_refl|split; [intros; now apply rst_sym|intros; eapply rst_trans; eauto]]. Qed.
Lemma cyc_ext f g x y : (forall x, In x ds -> f x = g x) -> cyc f x y -> cyc g x y.
Proof. intros E. apply clos_mono. intros u v [I ->]. split; auto. Qed.
Lemma classes_ext f g n : (forall x, In x ds -> f x = g x) -> classes f n -> classes g n.
Proof.
  intros E [reps [R1 [R2 [R3 [R4 R5]]]]]. exists reps. do 3 (split; auto). split.
  - intros x Dx. destruct (R4 x Dx) as [y [I C]]. exists y. split; auto. now apply (cyc_ext f).
  - intros x y Ix Iy C. apply R5; auto. apply (cyc_ext g); auto. intros. symmetry. auto.
Qed.
Lemma classes_fun f n m : classes f n -> classes f m -> n = m.
Proof. apply has_classes_unique; [intros; now apply rst_sym|intros; eapply rst_trans; eauto]. Qed.

Lemma iter_in f x i : acts f -> In x ds -> In (it i f x) ds.
Proof. intros [F _] I. induction i; cbn; auto. Qed.
Lemma iter_cyc f x i : acts f -> In x ds -> cyc f x (it i f x).
Proof.
  intros F I. induction i as [|i IH]; cbn; [apply rst_refl|]. eapply rst_trans; [exact IH|]. apply rst_step. split; auto. now apply iter_in.
Qed.
Lemma iter_cancel f x i j : acts f -> In x ds -> it i f x = it (i + j) f x -> it j f x = x.
Proof.
  intros F I. induction i as [|i IH]; cbn; [intros <-; reflexivity|]. intros E. apply IH. apply (proj2 F) in E; auto; now apply iter_in.
Qed.
Lemma iter_return f x : acts f -> In x ds -> exists m, 0 < m /\ it m f x = x.
Proof.
  intros F I. assert (C : forall n, (exists i j, i < j /\ j < n /\ it i f x = it j f x) \/ NoDup (map (fun i => it i f x) (seq 0 n))).
  { induction n as [|n [[i [j [X [Y Z]]]]|IH]]; [right; constructor|left; exists i, j; auto|].
    rewrite seq_S, map_app. cbn. destruct (In_dec_of (it n f x) (map (fun i => it i f x) (seq 0 n))) as [J|J].
    - left. apply in_map_iff in J. destruct J as [i [E J]]. apply in_seq in J. exists i, n. split; [lia|]. split; [lia|]. auto.
    - right. apply NoDup_snoc; auto. }
  destruct (C (Datatypes.S (length ds))) as [[i [j [X [Y Z]]]]|X].
  - exists (j - i). split; [lia|]. apply (iter_cancel f x i); auto. now replace (i + (j - i)) with j by lia.
  - exfalso. assert (IN : incl (map (fun i => it i f x) (seq 0 (Datatypes.S (length ds)))) ds).
    { intros y J. apply in_map_iff in J. destruct J as [i [<- _]]. now apply iter_in. }
    pose proof (NoDup_incl_length X IN) as Y. rewrite map_length, seq_length in Y. lia.
Qed.
Lemma first_hit (Q : nat -> bool) m : 0 < m -> Q m = true -> exists k, 0 < k /\ Q k = true /\ forall i, 0 < i < k -> Q i = false.
Proof.
  revert m. induction m as [m IH] using lt_wf_ind. intros P E.
  destruct (existsb Q (seq 1 (m - 1))) eqn:X.
  - apply existsb_exists in X. destruct X as [i [I Ei]]. apply in_seq in I. apply (IH i); auto; lia.
  - exists m. split; auto. split; auto. intros i Hi. destruct (Q i) eqn:Ei; auto.
    assert (Z : existsb Q (seq 1 (m - 1)) = true) by (apply existsb_exists; exists i; split; auto; apply in_seq; lia). congruence.
Qed.
Lemma swap_acts f a b : acts f -> In a ds -> In b ds -> acts (fun x => sw a b (f x)).
Proof.
  intros [F1 F2] Ia Ib. split.
  - intros x Ix. apply F1 in Ix. destruct (sw_cases a b (f x)) as [[_ ->]|[[_ [_ ->]]|[_ [_ ->]]]]; auto.
  - intros x y Ix Iy E. apply F2; auto. rewrite <- (sw_invol a b (f x)), <- (sw_invol a b (f y)). now rewrite E.
Qed.
Lemma cyc_invariant f (C : A -> Prop) x y : acts f -> (forall x, In x ds -> (C x <-> C (f x))) -> cyc f x y -> (C x <-> C y).
Proof. intros F I. induction 1 as [u v [J ->]|u|u v X IH|u v w X IH Y IH']; [auto|tauto|tauto|tauto]. Qed.
Lemma swap_splits f a b : acts f -> In a ds -> In b ds -> a <> b ->
  (cyc f a b /\ ~ cyc (fun x => sw a b (f x)) a b) \/ (~ cyc f a b /\ cyc (fun x => sw a b (f x)) a b).
Proof.
  intros F Ia Ib Nab. pose proof (swap_acts f a b F Ia Ib) as F'. set (f' := fun x => sw a b (f x)) in *.
  destruct (iter_return f a F Ia) as [m0 [P0 E0]].
  destruct (first_hit (fun i => eqb (it i f a) a || eqb (it i f a) b) m0 P0) as [m [P [E Min]]].
  { apply orb_true_iff. left. now apply eqb_ok. }
  assert (Miss : forall i, 0 < i < m -> it i f a <> a /\ it i f a <> b).
  { intros i Hi. apply Min in Hi. apply orb_false_iff in Hi. destruct Hi as [X Y]. split; intros Q; rewrite Q, eqb_same in *; discriminate. }
  assert (Step : forall i, i + 1 < m -> f' (it i f a) = it (i + 1) f a).
  { intros i Hi. destruct (Miss (i + 1)) as [X Y]; [lia|]. rewrite Nat.add_1_r in *. cbn [it] in *. unfold f'.
    destruct (sw_cases a b (f (it i f a))) as [[Z _]|[[_ [Z _]]|[_ [_ Z]]]]; congruence. }
  assert (Last : it m f a = f (it (m - 1) f a)) by (replace m with (Datatypes.S (m - 1)) at 1 by lia; reflexivity).
  assert (Walk : forall i, i < m -> cyc f' a (it i f a)).
  { induction i as [|i IH]; intros Hi; [apply rst_refl|]. eapply rst_trans; [apply IH; lia|]. apply rst_step. split; [now apply iter_in|].
    rewrite Step by lia. now rewrite Nat.add_1_r. }
  apply orb_true_iff in E. destruct E as [E|E]; apply eqbT in E.
  - right. split.
    + intros X. set (C := fun y => exists i, i < m /\ y = it i f a).
      assert (I : C a <-> C b).
      { apply (cyc_invariant f C a b F); auto. intros x Ix. split.
        - intros [i [Hi ->]]. destruct (Nat.eq_dec (i + 1) m) as [Q|Q].
          + exists 0. split; [lia|]. change (it (Datatypes.S i) f a = a). replace (Datatypes.S i) with m by lia. exact E.
          + exists (i + 1). split; [lia|]. now rewrite Nat.add_1_r.
        - intros [i [Hi Q]]. destruct i as [|i].
          + exists (m - 1). split; [lia|]. apply (proj2 F); auto; [now apply iter_in|]. rewrite <- Last, E. exact Q.
          + exists i. split; [lia|]. apply (proj2 F); auto. now apply iter_in. }
      assert (Cb : C b) by (apply I; exists 0; auto). destruct Cb as [i [Hi Q]]. destruct i as [|i]; [cbn in Q; congruence|].
      destruct (Miss (Datatypes.S i)) as [_ Z]; [lia|]. congruence.
    + eapply rst_trans; [apply (Walk (m - 1)); lia|]. apply rst_step. split; [now apply iter_in|]. unfold f'. rewrite <- Last, E, eqb_same. reflexivity.
  - left. split; [rewrite <- E; now apply iter_cyc|]. intros X. set (C := fun y => exists i, i < m /\ y = it i f a).
    assert (I : C a <-> C b).
    { apply (cyc_invariant f' C a b F'); auto. intros x Ix. split.
      - intros [i [Hi ->]]. destruct (Nat.eq_dec (i + 1) m) as [Q|Q].
        + exists 0. split; [lia|]. unfold f'. replace i with (m - 1) by lia. rewrite <- Last, E.
          destruct (sw_cases a b b) as [[Z _]|[[_ [_ Z]]|[_ [Z _]]]]; [congruence|exact Z|now destruct Z].
        + exists (i + 1). split; [lia|]. apply Step. lia.
      - intros [i [Hi Q]]. assert (Fx : f x = sw a b (it i f a)) by (rewrite <- Q; unfold f'; now rewrite sw_invol).
        destruct i as [|i].
        + exists (m - 1). split; [lia|]. apply (proj2 F); auto; [now apply iter_in|]. rewrite <- Last, E, Fx. cbn. now rewrite eqb_same.
        + destruct (Miss (Datatypes.S i)) as [Z1 Z2]; [lia|]. exists i. split; [lia|]. apply (proj2 F); auto; [now apply iter_in|]. rewrite Fx.
          destruct (sw_cases a b (it (Datatypes.S i) f a)) as [[Z _]|[[_ [Z _]]|[_ [_ Z]]]]; [congruence|congruence|exact Z]. }
    assert (Cb : C b) by (apply I; exists 0; auto). destruct Cb as [i [Hi Q]]. destruct i as [|i]; [cbn in Q; congruence|].
    destruct (Miss (Datatypes.S i)) as [_ Z]; [lia|]. congruence.
Qed.
(** adding the pair to one or the other relation gives the same relation *)
Lemma swap_added f a b x y : clos_refl_sym_trans A (add_pair (graph (fun x => sw a b (f x))) a b) x y -> clos_refl_sym_trans A (add_pair (graph f) a b) x y.
Proof.
  apply clos_join. intros u v [[I ->]|[-> ->]]; [|apply rst_step; now right].
  assert (X : clos_refl_sym_trans A (add_pair (graph f) a b) u (f u)) by (apply rst_step; left; split; auto).
  assert (P : clos_refl_sym_trans A (add_pair (graph f) a b) a b) by (apply rst_step; now right).
  destruct (sw_cases a b (f u)) as [[E ->]|[[_ [E ->]]|[_ [_ ->]]]]; auto.
  - rewrite E in X. eapply rst_trans; eauto.
  - rewrite E in X. eapply rst_trans; [exact X|]. now apply rst_sym.
Qed.
Lemma swap_added_iff f a b x y : clos_refl_sym_trans A (add_pair (graph (fun x => sw a b (f x))) a b) x y <-> clos_refl_sym_trans A (add_pair (graph f) a b) x y.
Proof.
  split; [apply swap_added|]. intros X. apply swap_added. eapply clos_mono; [|exact X]. intros u v [[I ->]|E]; [left|right; auto].
  split; auto. cbn. now rewrite sw_invol.
Qed.
Lemma joined_when f a b x y : cyc f a b -> clos_refl_sym_trans A (add_pair (graph f) a b) x y -> cyc f x y.
Proof. intros P. apply clos_join. intros u v [G|[-> ->]]; auto. now apply rst_step. Qed.
Lemma swap_joins f a b : (~ cyc f a b /\ cyc (fun x => sw a b (f x)) a b) -> joins (cyc f) (cyc (fun x => sw a b (f x))) a b.
Proof.
  intros [_ C] x y. split.
  - intros X. apply clos_add. apply swap_added_iff. eapply clos_mono; [|exact X]. intros u v G. now left.
  - intros X. apply (joined_when _ a b); auto. apply swap_added_iff. now apply clos_add.
Qed.
Lemma swap_count f a b n : acts f -> In a ds -> In b ds -> a <> b -> classes f n ->
  exists k, classes (fun x => sw a b (f x)) k /\ (k = n + 1 \/ n = k + 1).
Proof.
  intros F Ia Ib N C. pose proof (swap_acts f a b F Ia Ib) as F'. destruct (swap_splits f a b F Ia Ib N) as [[X Y]|X].
  - exists (n + 1). split; auto. apply (split_classes _ _ (cyc f) a b); auto using cyc_equiv.
    assert (J : joins (cyc (fun x => sw a b (f x))) (cyc (fun x => sw a b (sw a b (f x)))) a b).
    { apply (swap_joins (fun x => sw a b (f x))). split; auto. apply (cyc_ext f); auto. intros u _. now rewrite sw_invol. }
    intros x y. rewrite <- (J x y). split; apply cyc_ext; intros u _; now rewrite sw_invol.
  - destruct (join_classes (fun x => In x ds) _ _ a b n (cyc_equiv f) (swap_joins f a b X) Ia Ib (proj1 X) C) as [k [E K]]. eauto.
Qed.

Lemma classes_id f : (forall x, In x ds -> f x = x) -> classes f (length ds).
Proof.
  intros F. assert (C : forall x y, cyc f x y -> x = y).
  { induction 1 as [x y [I ->]|x|x y X IH|x y z X IH Y IH']; [symmetry; auto|auto|auto|congruence]. }
  exists ds. do 3 (split; auto). split; [intros x I; exists x; split; auto; apply rst_refl|]. intros; auto.
Qed.
Definition moved (f : A -> A) := length (filter (fun x => negb (eqb (f x) x)) ds).
Lemma count_less (p q : A -> bool) (l : list A) z : (forall x, In x l -> p x = true -> q x = true) -> In z l -> p z = false -> q z = true ->
  length (filter p l) < length (filter q l).
Proof.
  intros I Iz Pz Qz. induction l as [|y l IH]; [destruct Iz|]. cbn.
  assert (G : length (filter p l) <= length (filter q l)).
  { clear IH Iz. assert (I' : forall x, In x l -> p x = true -> q x = true) by (intros x X; apply I; now right). clear I. induction l as [|u l IH]; cbn; auto.
    assert (length (filter p l) <= length (filter q l)) by (apply IH; intros x X; apply I'; now right).
    destruct (p u) eqn:E; [rewrite (I' u (or_introl eq_refl) E); cbn; lia|destruct (q u); cbn; lia]. }
  destruct Iz as [->|Iz].
  - rewrite Pz, Qz. cbn. lia.
  - assert (length (filter p l) < length (filter q l)) by (apply IH; auto; intros x X; apply I; now right).
    destruct (p y) eqn:E; [rewrite (I y (or_introl eq_refl) E); cbn; lia|destruct (q y); cbn; lia].
Qed.
Lemma product_parity n : forall f, moved f <= n -> acts f -> exists F, classes f F /\
  forall g G, acts g -> classes g G -> exists W k, classes (fun x => f (g x)) W /\ F + G + W + length ds = 2 * k.
Proof.
  induction n as [|n IH]; intros f M Af.
  all: destruct (List.find (fun x => negb (eqb (f x) x)) ds) as [a|] eqn:E.
  1: { exfalso. apply find_some in E. unfold moved in M. assert (I : In a (filter (fun x => negb (eqb (f x) x)) ds)) by (now apply filter_In).
       destruct (filter _ ds); [destruct I|cbn in M; lia]. }
  2: { apply find_some in E. destruct E as [Ia E]. apply negb_true_iff in E.
       assert (N : a <> f a) by (intros Q; rewrite <- Q, eqb_same in E; discriminate).
       assert (Ifa : In (f a) ds) by (now apply Af). set (b := f a) in *. set (f' := fun x => sw a b (f x)).
       assert (Af' : acts f') by (now apply swap_acts).
       assert (Fa : f' a = a).
       { unfold f'. fold b. destruct (sw_cases a b b) as [[Q _]|[[_ [_ Q]]|[_ [Q _]]]]; [congruence|exact Q|congruence]. }
       destruct (IH f') as [F' [CF' H']]; auto.
       { assert (moved f' < moved f); [|lia]. unfold moved. apply (count_less _ _ _ a); auto.
         - intros x Ix Q. destruct (eqb (f x) x) eqn:Z; auto. apply eqbT in Z. unfold f' in Q. rewrite Z in Q.
           exfalso. destruct (sw_cases a b x) as [[X _]|[[_ [Y _]]|[_ [_ X]]]].
           + subst x. fold b in Z. congruence.
           + apply N. rewrite <- Y. apply Af; auto. rewrite Z. symmetry. exact Y.
           + rewrite X, eqb_same in Q. discriminate.
         - now rewrite Fa, eqb_same.
         - fold b; now rewrite E. }
       destruct (swap_count f' a b F' Af' Ia Ifa N CF') as [F [CF PF]].
       assert (Back : forall x, sw a b (f' x) = f x) by (intros x; unfold f'; now rewrite sw_invol).
       exists F. split; [apply (classes_ext _ f) in CF; auto|]. intros g G Ag CG. destruct (H' g G Ag CG) as [W' [k' [CW' E']]].
       destruct (swap_count (fun x => f' (g x)) a b W') as [W [CW PW]]; auto.
       { split; [intros x Ix; apply Af', Ag, Ix|]. intros x y Ix Iy Q. apply Ag; auto. apply Af'; auto; now apply Ag. }
       apply (classes_ext _ (fun x => f (g x))) in CW; [|intros; apply Back].
       destruct PF, PW; exists W; [exists (k' + 1)|exists k'|exists k'|exists (k' - 1)]; split; auto; lia. }
  all: assert (Id : forall x, In x ds -> f x = x) by (intros x Ix; pose proof (find_none _ _ E x Ix) as Q; apply negb_false_iff in Q; now apply eqbT in Q).
  all: exists (length ds); split; [now apply classes_id|]; intros g G Ag CG; exists G, (length ds + G); split; [|lia].
  all: apply (classes_ext g); auto; intros x Ix; symmetry; apply Id; now apply Ag.
Qed.
End Parity.
Lemma parity_even (A : Type) (E0 : EqB A) (ds : list A) f g h F G W : NoDup ds -> acts ds f -> acts ds g -> acts ds h ->
  (forall x, In x ds -> h (g (f x)) = x) ->
  has_classes (fun x => In x ds) (clos_refl_sym_trans A (graph ds f)) F ->
  has_classes (fun x => In x ds) (clos_refl_sym_trans A (graph ds g)) G ->
  has_classes (fun x => In x ds) (clos_refl_sym_trans A (graph ds h)) W ->
  exists k, F + G + W + length ds = 2 * k.
Proof.
  intros ND Af Ag Ah E CF CG CW. destruct (product_parity ds ND (moved ds g) g (le_n _) Ag) as [G' [CG' P]].
  assert (G' = G) by (eapply classes_fun; eauto). subst G'.
  destruct (P f F Af CF) as [W' [k [CW' Ek]]]. exists k.
  assert (W' = W); [|lia]. eapply classes_fun; [exact CW'|].
  assert (B : forall x, In x ds -> g (f (h x)) = x).
  { intros x Ix. apply (proj2 Ah); auto; [apply Ag, Af, Ah, Ix|]. apply E. now apply Ah. }
  assert (X : forall x y, clos_refl_sym_trans A (graph ds h) x y <-> clos_refl_sym_trans A (graph ds (fun x => g (f x))) x y).
  { intros x y. split; apply clos_join; intros u v [I ->]; apply rst_sym, rst_step; split.
    - now apply Ah. - now rewrite B. - apply Ag, Af, I. - now rewrite E. }
  destruct CW as [reps [R1 [R2 [R3 [R4 R5]]]]]. exists reps. do 3 (split; auto). split.
  - intros x Dx. destruct (R4 x Dx) as [y [I C]]. exists y. split; auto. now apply X.
  - intros x y Ix Iy C. apply R5; auto. now apply X.
Qed.
