(** Proofs about the matrices of flips. *)
From Coq Require Import List Bool ZArith Arith Lia Ring Field.
From Verif Require Import OField FMicromega PField MBase MDict PDict MEuclid MSim MPoly MMut SMut MSurf SSurf SFlip PFlip PFlip2 PFlip3 PFlip5 MChain SChain.
Import ListNotations.

Section Sum.
Context {K : OField}.
Add Field KFchain : (of_ft K).
Local Open Scope F_scope.
Definition sumK {A} (f : A -> K) (l : list A) : K := fold_right fadd 0 (map f l).
Lemma sumK_cons {A} (f : A -> K) a l : sumK f (a :: l) = f a + sumK f l.
Proof. reflexivity. Qed.
Lemma sumK_ext {A} (f g : A -> K) l : (forall a, In a l -> f a = g a) -> sumK f l = sumK g l.
Proof.
  induction l as [|a l IH]; intros H; auto. rewrite !sumK_cons, IH by (intros; apply H; now right). rewrite (H a); auto. now left.
Qed.
Lemma sumK_add {A} (f g : A -> K) l : sumK (fun a => f a + g a) l = sumK f l + sumK g l.
Proof. induction l as [|a l IH]; [unfold sumK; cbn; ring|]. rewrite !sumK_cons, IH. ring. Qed.
Lemma sumK_mul {A} (f : A -> K) c l : sumK (fun a => c * f a) l = c * sumK f l.
Proof. induction l as [|a l IH]; [unfold sumK; cbn; ring|]. rewrite !sumK_cons, IH. ring. Qed.
Lemma sumK_zero {A} (l : list A) : sumK (fun _ => 0) l = 0.
Proof. induction l as [|a l IH]; auto. rewrite sumK_cons, IH. ring. Qed.
Lemma sumK_swap {A B} (f : A -> B -> K) l m : sumK (fun a => sumK (f a) m) l = sumK (fun b => sumK (fun a => f a b) l) m.
Proof.
  induction l as [|a l IH].
  - symmetry. apply (sumK_zero m).
  - rewrite sumK_cons, IH, <- sumK_add. apply sumK_ext. intros b _. reflexivity.
Qed.
Lemma sumK_map {A B} (f : B -> K) (g : A -> B) l : sumK f (map g l) = sumK (fun a => f (g a)) l.
Proof. unfold sumK. now rewrite map_map. Qed.
Lemma sumK_Z {A} (f : A -> Z) l : Z2K K (fold_right Z.add 0%Z (map f l)) = sumK (fun a => Z2K K (f a)) l.
Proof. induction l as [|a l IH]; auto. cbn [map fold_right]. rewrite Z2K_add, IH. reflexivity. Qed.
Lemma sumK_filter {A} (p : A -> bool) (f : A -> K) l : (forall a, p a = false -> f a = 0) -> sumK f (filter p l) = sumK f l.
Proof.
  intros H. induction l as [|a l IH]; auto. cbn [filter]. destruct (p a) eqn:E; rewrite !sumK_cons, ?IH; auto. rewrite (H a E). ring.
Qed.
Lemma seq_nth {A} (l : list A) d : map (fun i => nth i l d) (seq 0 (length l)) = l.
Proof.
  apply (nth_ext _ _ d d); rewrite map_length, seq_length; auto. intros i H.
  rewrite (nth_indep _ d (nth 0 l d)) by (rewrite map_length, seq_length; auto).
  rewrite (map_nth (fun i => nth i l d)), seq_nth by auto. reflexivity.
Qed.
Lemma sumK_seq {A} (f : A -> K) l d : sumK (fun i => f (nth i l d)) (seq 0 (length l)) = sumK f l.
Proof. rewrite <- (sumK_map f (fun i => nth i l d)). now rewrite seq_nth. Qed.
Lemma sumK_single (f : hedge -> K) a l : NoDup l -> In a l -> sumK (fun b => if eqb b a then f b else 0) l = f a.
Proof.
  induction 1 as [|b l N ND IH]; intros I; [destruct I|]. rewrite sumK_cons. destruct (eqb_case b a) as [[Q E]|[Q E]]; rewrite Q.
  - subst b. replace (sumK _ l) with (sumK (fun _ : hedge => (0:K)) l); [rewrite sumK_zero; ring|]. apply sumK_ext. intros c Ic.
    assert (X : eqb c a = false) by (apply eqb_neq; intros ->; auto). now rewrite X.
  - destruct I as [->|I]; [congruence|]. rewrite IH by auto. ring.
Qed.
End Sum.

Section Index.
Context (gens : list hedge) (ND : NoDup gens).
Notation n := (length gens).
Notation g i := (nth i gens (0, 0)%Z).
Lemma index_spec x : In x gens -> exists i, index x gens = Ok i /\ (i < n)%nat /\ g i = x.
Proof.
  clear ND. induction gens as [|y l IH]; intros I; [destruct I|]. cbn [index]. destruct (eqb_case y x) as [[Q E]|[Q E]]; rewrite Q.
  - exists 0%nat. cbn. split; [|split]; auto. lia.
  - destruct I as [->|I]; [congruence|]. destruct (IH I) as (i & A & B & C). rewrite A. exists (S i). cbn. split; [|split]; auto. lia.
Qed.
Lemma index_none x : ~ In x gens -> index x gens = Err ValueError.
Proof.
  clear ND. induction gens as [|y l IH]; intros I; auto. cbn [index]. rewrite (proj2 (eqb_neq y x)) by (intros ->; apply I; now left).
  now rewrite IH by (intros J; apply I; now right).
Qed.
Lemma index_eqb x i k : In x gens -> index x gens = Ok i -> (k < n)%nat -> (k =? i)%nat = eqb (g k) x.
Proof.
  intros I E Hk. destruct (index_spec x I) as (i' & A & B & C). rewrite A in E. injection E as <-.
  destruct (Nat.eqb_spec k i') as [->|N].
  - symmetry. rewrite C. apply eqb_refl.
  - symmetry. apply eqb_neq. intros X. apply N. rewrite <- C in X. apply (proj1 (NoDup_nth gens (0,0)%Z) ND); auto.
Qed.
(** the matrix [m] has the entries [E] *)
Definition rep (m : mtx) (E : hedge -> hedge -> Z) := forall i j, (i < n)%nat -> (j < n)%nat -> m i j = E (g i) (g j).
Definition eset (E : hedge -> hedge -> Z) (y x : hedge) : hedge -> hedge -> Z := fun p q => if eqb p y && eqb q x then 1%Z else E p q.
Lemma rep_set m E i j y x : rep m E -> In x gens -> In y gens -> index y gens = Ok i -> index x gens = Ok j -> rep (mset m i j 1) (eset E y x).
Proof.
  intros R Ix Iy Y X a b Ha Hb. unfold mset, eset. rewrite (index_eqb y i a Iy Y Ha), (index_eqb x j b Ix X Hb).
  destruct (eqb (g a) y && eqb (g b) x); auto.
Qed.
Lemma rep_images flip x ys zs : forall m E, rep m E -> In x gens -> Forall2 (fun y z => denormalize flip y = Ok z /\ In z gens) ys zs ->
  exists m', set_images flip gens x ys m = Ok m' /\ rep m' (fold_left (fun E z => eset E z x) zs E).
Proof.
  intros m E R Ix F. revert m E R. induction F as [|y z ys zs [D Iz] F IH]; intros m E R.
  - exists m. auto.
  - cbn [set_images fold_left]. rewrite D. cbn [bind]. destruct (index_spec z Iz) as (i & A & B & C). rewrite A. cbn [bind].
    destruct (index_spec x Ix) as (j & A' & B' & C'). rewrite A'. cbn [bind]. apply IH. now apply rep_set.
Qed.
Lemma rep_image flip p x ys zs m E : rep m E -> denormalize flip p = Ok x -> In x gens -> Forall2 (fun y z => denormalize flip y = Ok z /\ In z gens) ys zs ->
  exists m', set_image flip gens p ys m = Ok m' /\ rep m' (fold_left (fun E z => eset E z x) zs E).
Proof. intros R D Ix F. unfold set_image. rewrite D. cbn [bind]. now apply rep_images. Qed.
Lemma rep_diagonal l l' : rep (fold_left (fun m ig => if negb (fst (snd ig) =? l)%Z && negb (fst (snd ig) =? l')%Z then mset m (fst ig) (fst ig) 1 else m)
    (combine (seq 0 n) gens) mzero) (fun p q => if eqb p q && (negb (fst p =? l)%Z && negb (fst p =? l')%Z) then 1%Z else 0%Z).
Proof.
  set (F := fun (m : mtx) (ig : nat * (Z * Z)) => if negb (fst (snd ig) =? l)%Z && negb (fst (snd ig) =? l')%Z then mset m (fst ig) (fst ig) 1 else m).
  assert (A : forall (k : nat) (a : list hedge) m (i j : nat),
    ((i < k \/ k + length a <= i)%nat -> fold_left F (combine (seq k (length a)) a) m i j = m i j) /\
    ((k <= i < k + length a)%nat -> fold_left F (combine (seq k (length a)) a) m i j =
      if (i =? j)%nat && (negb (fst (nth (i - k) a (0,0)%Z) =? l)%Z && negb (fst (nth (i - k) a (0,0)%Z) =? l')%Z) then 1%Z else m i j)).
  { intros k a. revert k. induction a as [|h a IH]; intros k m i j; split; intros H; cbn [length] in H; try lia; try reflexivity; cbn [length seq combine fold_left]; unfold F at 2; cbn [fst snd].
    - rewrite (proj1 (IH (S k) _ i j)) by lia. destruct (_ && _); auto. unfold mset. destruct (Nat.eqb_spec i k); auto. lia.
    - destruct (Nat.eq_dec i k) as [->|N].
      + rewrite (proj1 (IH (S k) _ k j)) by lia. rewrite Nat.sub_diag. cbn [nth]. destruct (_ && _); [|now rewrite andb_false_r].
        unfold mset. rewrite Nat.eqb_refl, andb_true_r, andb_true_l. now rewrite Nat.eqb_sym.
      + rewrite (proj2 (IH (S k) _ i j)) by lia. replace (i - k)%nat with (S (i - S k)) by lia. cbn [nth].
        destruct ((i =? j)%nat && _); auto. destruct (_ && _); auto. unfold mset. destruct (Nat.eqb_spec i k); auto. lia. }
  intros i j Hi Hj. rewrite (proj2 (A 0%nat gens mzero i j)) by lia. rewrite Nat.sub_0_r. unfold mzero.
  replace (i =? j)%nat with (eqb (g i) (g j)); auto. destruct (Nat.eqb_spec i j) as [->|N]; [apply eqb_refl|].
  apply eqb_neq. intros X. apply N, (proj1 (NoDup_nth gens (0,0)%Z) ND); auto.
Qed.
End Index.

(** the chain that replaces an edge when a diagonal is flipped *)
Definition flip_chain (l : label) (e : nat) (l' : label) (e' : nat) (x : hedge) : list hedge :=
  if eqb x (tri_edge l e 0) then [tri_edge l' e' 1; tri_edge l e 2]
  else if eqb x (tri_edge l' e' 0) then [tri_edge l e 1; tri_edge l' e' 2]
  else [moved l e l' e' x].

Section Matrix.
Context {K : OField}.
Add Field KFchain1 : (of_ft K).
Local Open Scope F_scope.
Context (gens : list hedge) (ND : NoDup gens).
Notation n := (length gens).
Notation g i := (nth i gens (0, 0)%Z).
Definition val (m : mtx) (phi : hedge -> K) (j : nat) : K := sumK (fun i => Z2K K (m i j) * phi (g i)) (seq 0 n).
Lemma val_mul m a phi j : val (mmul n m a) phi j = sumK (fun k => Z2K K (a k j) * val m phi k) (seq 0 n).
Proof.
  unfold val. transitivity (sumK (fun i => sumK (fun k => Z2K K (a k j) * (Z2K K (m i k) * phi (g i))) (seq 0 n)) (seq 0 n)).
  - apply sumK_ext. intros i _. unfold mmul. rewrite sumK_Z. rewrite (fmul_comm K), <- sumK_mul. apply sumK_ext. intros k _. rewrite Z2K_mul. ring.
  - rewrite sumK_swap. apply sumK_ext. intros k _. now rewrite sumK_mul.
Qed.
Lemma val_identity phi j : (j < n)%nat -> val midentity phi j = phi (g j).
Proof.
  intros H. unfold val. transitivity (sumK (fun i => if eqb (g i) (g j) then phi (g i) else 0) (seq 0 n)).
  - apply sumK_ext. intros i Hi. apply in_seq in Hi. unfold midentity. destruct (Nat.eqb_spec i j) as [->|N].
    + rewrite eqb_refl. change (Z2K K 1) with (1 : K). ring.
    + rewrite (proj2 (eqb_neq (g i) (g j))); [change (Z2K K 0) with (0 : K); ring|]. intros X. apply N, (proj1 (NoDup_nth gens (0,0)%Z) ND); auto. lia.
  - rewrite (sumK_seq (fun y => if eqb y (g j) then phi y else 0)). apply sumK_single; auto. now apply nth_In.
Qed.

Context (l l' : label) (e e' : nat) (D : l <> l') (He : (e < 3)%nat) (He' : (e' < 3)%nat).
Notation t k := (tri_edge l e k).
Notation t' k := (tri_edge l' e' k).
Context (It : forall k, In (t k) gens /\ In (t' k) gens) (FI : forall x, In x gens -> fine l l' e e' x).
Let flip : hedge * hedge := ((l, Z.of_nat e), (l', Z.of_nat e')).
Lemma denorm_l k : denormalize flip (l, Z.of_nat k) = Ok (t k).
Proof. unfold denormalize, flip. cbn [fst snd]. rewrite Z.eqb_refl, tri_edge_Z. f_equal. f_equal. now rewrite Z.add_comm. Qed.
Lemma denorm_l' k : denormalize flip (l', Z.of_nat k) = Ok (t' k).
Proof.
  unfold denormalize, flip. cbn [fst snd]. rewrite (proj2 (Z.eqb_neq l' l)) by auto. rewrite Z.eqb_refl, tri_edge_Z. f_equal. f_equal. now rewrite Z.add_comm.
Qed.
Definition entries : hedge -> hedge -> Z :=
  eset (eset (eset (eset (eset (eset (eset (eset (fun p q => if eqb p q && (negb (fst p =? l)%Z && negb (fst p =? l')%Z) then 1%Z else 0%Z)
    (t' 1) (t 0)) (t 2) (t 0)) (t' 2) (t 1)) (t 1) (t 2)) (t 1) (t' 0)) (t' 2) (t' 0)) (t 2) (t' 1)) (t' 1) (t' 2).
Lemma flip_matrix_entries : exists a, flip_matrix flip gens = Ok a /\ rep gens a entries.
Proof.
  unfold flip_matrix. change (fst (fst flip)) with l. change (fst (snd flip)) with l'. cbv zeta.
  pose proof (fun k => denorm_l k) as DL. pose proof (fun k => denorm_l' k) as DL'.
  pose proof (fun k => proj1 (It k)) as I1. pose proof (fun k => proj2 (It k)) as I2.
  pose proof (rep_diagonal gens ND l l') as R0.
  destruct (rep_image gens ND flip (l, 0%Z) (t 0) [(l', 1%Z); (l, 2%Z)] [t' 1; t 2] _ _ R0 (DL 0%nat) (I1 0%nat)
    ltac:(repeat constructor; auto; first [exact (DL' 1%nat)|exact (DL 2%nat)])) as (m1 & E1 & R1).
  rewrite E1. cbn [bind].
  destruct (rep_image gens ND flip (l, 1%Z) (t 1) [(l', 2%Z)] [t' 2] _ _ R1 (DL 1%nat) (I1 1%nat)
    ltac:(repeat constructor; auto; exact (DL' 2%nat))) as (m2 & E2 & R2).
  rewrite E2. cbn [bind].
  destruct (rep_image gens ND flip (l, 2%Z) (t 2) [(l, 1%Z)] [t 1] _ _ R2 (DL 2%nat) (I1 2%nat)
    ltac:(repeat constructor; auto; exact (DL 1%nat))) as (m3 & E3 & R3).
  rewrite E3. cbn [bind].
  destruct (rep_image gens ND flip (l', 0%Z) (t' 0) [(l, 1%Z); (l', 2%Z)] [t 1; t' 2] _ _ R3 (DL' 0%nat) (I2 0%nat)
    ltac:(repeat constructor; auto; first [exact (DL' 2%nat)|exact (DL 1%nat)])) as (m4 & E4 & R4).
  rewrite E4. cbn [bind].
  destruct (rep_image gens ND flip (l', 1%Z) (t' 1) [(l, 2%Z)] [t 2] _ _ R4 (DL' 1%nat) (I2 1%nat)
    ltac:(repeat constructor; auto; exact (DL 2%nat))) as (m5 & E5 & R5).
  rewrite E5. cbn [bind].
  destruct (rep_image gens ND flip (l', 2%Z) (t' 2) [(l', 1%Z)] [t' 1] _ _ R5 (DL' 2%nat) (I2 2%nat)
    ltac:(repeat constructor; auto; exact (DL' 1%nat))) as (m6 & E6 & R6).
  exists m6. split; [exact E6|exact R6].
Qed.
Lemma tri_label k : fst (t k) = l. Proof. reflexivity. Qed.
Lemma tri_label' k : fst (t' k) = l'. Proof. reflexivity. Qed.
(** the columns *)
Lemma entries_sum x (psi : hedge -> K) : In x gens -> sumK (fun y => Z2K K (entries y x) * psi y) gens = sumK psi (flip_chain l e l' e' x).
Proof.
  intros Ix.
  assert (ONE : forall a, In a gens -> (forall y, In y gens -> entries y x = if eqb y a then 1%Z else 0%Z) ->
    sumK (fun y => Z2K K (entries y x) * psi y) gens = sumK psi [a]).
  { intros a Ia H. transitivity (sumK (fun y => if eqb y a then psi y else 0) gens).
    - apply sumK_ext. intros y Iy. rewrite (H y Iy). destruct (eqb y a); [change (Z2K K 1) with (1 : K)|change (Z2K K 0) with (0 : K)]; ring.
    - rewrite sumK_single by auto. unfold sumK. cbn. ring. }
  assert (TWO : forall a b, In a gens -> In b gens -> a <> b -> (forall y, In y gens -> entries y x = if eqb y a then 1%Z else if eqb y b then 1%Z else 0%Z) ->
    sumK (fun y => Z2K K (entries y x) * psi y) gens = sumK psi [a; b]).
  { intros a b Ia Ib N H. transitivity (sumK (fun y => (if eqb y a then psi y else 0) + (if eqb y b then psi y else 0)) gens).
    - apply sumK_ext. intros y Iy. rewrite (H y Iy). destruct (eqb_case y a) as [[Q E]|[Q E]]; rewrite Q.
      + subst y. rewrite (proj2 (eqb_neq a b) N). change (Z2K K 1) with (1 : K). ring.
      + destruct (eqb y b); [change (Z2K K 1) with (1 : K)|change (Z2K K 0) with (0 : K)]; ring.
    - rewrite sumK_add, !sumK_single by auto. unfold sumK. cbn. ring. }
  pose proof (fun k => proj1 (It k)) as I1. pose proof (fun k => proj2 (It k)) as I2.
  destruct (moved_all l e l' e' D He He') as (m0 & m1 & m2 & m0' & m1' & m2').
  pose proof (t_neq l e) as NT. pose proof (t_neq l' e') as NT'.
  pose proof (tt'_neq l l' e e' D) as NX. pose proof (t't_neq l l' e e' D) as NY.
  assert (DG : forall y k, eqb y (t k) && (negb (fst y =? l)%Z && negb (fst y =? l')%Z) = false).
  { intros y k. destruct (eqb_case y (t k)) as [[Q E]|[Q E]]; rewrite Q; auto. subst y. cbn [fst]. rewrite tri_label, Z.eqb_refl. reflexivity. }
  assert (DG' : forall y k, eqb y (t' k) && (negb (fst y =? l)%Z && negb (fst y =? l')%Z) = false).
  { intros y k. destruct (eqb_case y (t' k)) as [[Q E]|[Q E]]; rewrite Q; auto. subst y. rewrite tri_label', Z.eqb_refl, andb_false_r. reflexivity. }
  unfold flip_chain.
  destruct (fine_cases l l' e e' x (FI x Ix)) as [[A B]|[->|[->|[->|[->|[->| ->]]]]]].
  - assert (N1 : forall k, eqb x (t k) = false) by (intros k; apply eqb_neq; intros ->; apply A; reflexivity).
    assert (N2 : forall k, eqb x (t' k) = false) by (intros k; apply eqb_neq; intros ->; apply B; reflexivity).
    rewrite N1, N2, moved_other by auto. apply ONE; auto. intros y Iy. unfold entries, eset. rewrite !N1, !N2, !andb_false_r.
    destruct (eqb_case y x) as [[Q E]|[Q E]]; rewrite Q; auto. subst y. now rewrite (proj2 (Z.eqb_neq _ _) A), (proj2 (Z.eqb_neq _ _) B).
  - rewrite eqb_refl. apply TWO; auto; [apply eqb_neq; apply NY|]. intros y Iy. unfold entries, eset.
    rewrite ?eqb_refl, ?NX, ?NY, ?NT, ?NT' by lia. rewrite ?DG, ?DG', ?andb_true_r, ?andb_false_r. destruct (eqb y (t 2)), (eqb y (t' 1)); reflexivity.
  - rewrite ?eqb_refl, ?NX, ?NY, ?NT, ?NT', ?m1 by lia. apply ONE; auto. intros y Iy. unfold entries, eset.
    rewrite ?eqb_refl, ?NX, ?NY, ?NT, ?NT' by lia. rewrite ?DG, ?DG', ?andb_true_r, ?andb_false_r. reflexivity.
  - rewrite ?eqb_refl, ?NX, ?NY, ?NT, ?NT', ?m2 by lia. apply ONE; auto. intros y Iy. unfold entries, eset.
    rewrite ?eqb_refl, ?NX, ?NY, ?NT, ?NT' by lia. rewrite ?DG, ?DG', ?andb_true_r, ?andb_false_r. reflexivity.
  - rewrite ?eqb_refl, ?NX, ?NY, ?NT, ?NT' by lia. apply TWO; auto; [apply eqb_neq; apply NX|]. intros y Iy. unfold entries, eset.
    rewrite ?eqb_refl, ?NX, ?NY, ?NT, ?NT' by lia. rewrite ?DG, ?DG', ?andb_true_r, ?andb_false_r. destruct (eqb y (t 1)), (eqb y (t' 2)); reflexivity.
  - rewrite ?eqb_refl, ?NX, ?NY, ?NT, ?NT', ?m1' by lia. apply ONE; auto. intros y Iy. unfold entries, eset.
    rewrite ?eqb_refl, ?NX, ?NY, ?NT, ?NT' by lia. rewrite ?DG, ?DG', ?andb_true_r, ?andb_false_r. reflexivity.
  - rewrite ?eqb_refl, ?NX, ?NY, ?NT, ?NT', ?m2' by lia. apply ONE; auto. intros y Iy. unfold entries, eset.
    rewrite ?eqb_refl, ?NX, ?NY, ?NT, ?NT' by lia. rewrite ?DG, ?DG', ?andb_true_r, ?andb_false_r. reflexivity.
Qed.
Lemma flip_column : exists a, flip_matrix flip gens = Ok a /\ forall j (psi : hedge -> K), (j < n)%nat ->
  sumK (fun k => Z2K K (a k j) * psi (g k)) (seq 0 n) = sumK psi (flip_chain l e l' e' (g j)).
Proof.
  destruct flip_matrix_entries as (a & E & R). exists a. split; auto. intros j psi Hj. rewrite <- entries_sum by now apply nth_In.
  rewrite <- (sumK_seq _ gens (0,0)%Z). apply sumK_ext. intros k Hk. apply in_seq in Hk. now rewrite R by lia.
Qed.
End Matrix.
