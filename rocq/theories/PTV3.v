(** Proofs about the Thurston-Veech construction: the sizes of the rectangles. *)
From Coq Require Import List Bool ZArith Arith Lia Ring Field Relations.
From Verif Require Import OField FMicromega PField MBase MEuclid MPoly PRotate PHyp2 MTV STV PTV PTV2.
Import ListNotations.

(** what is known of the combinatorial data *)
Record tv_ok (n : nat) (t : thurston_veech) : Prop := {
  to_n : (0 < n)%nat;
  to_r : permutes n (tv_r t); to_u : permutes n (tv_u t);
  to_h : cycle_labels n (tv_r t) (tv_h t) (tv_nh t);
  to_v : cycle_labels n (tv_u t) (tv_v t) (tv_nv t) }.
Definition tv_swap (t : thurston_veech) : thurston_veech := TV (tv_u t) (tv_r t) (tv_v t) (tv_nv t) (tv_h t) (tv_nh t).
Lemma swap_ok n t : tv_ok n t -> tv_ok n (tv_swap t).
Proof. intros [A B C D E]. now constructor. Qed.
Lemma count_swap h v i j l : count v h j i l = count h v i j l.
Proof. unfold count. f_equal. apply filter_ext. intros k. apply andb_comm. Qed.
Lemma cyl_count n t i j : tv_ok n t -> cylinder_intersection t i j = count (tv_h t) (tv_v t) i j (seq 0 n).
Proof. intros [_ [L _] _ _ _]. unfold cylinder_intersection, count. now rewrite L. Qed.
Lemma swap_cyl n t i j : tv_ok n t -> cylinder_intersection (tv_swap t) j i = cylinder_intersection t i j.
Proof. intros T. rewrite (cyl_count n t i j T), (cyl_count n (tv_swap t) j i (swap_ok n t T)). apply count_swap. Qed.
Lemma swap_transitive n r u : transitive n r u -> transitive n u r.
Proof.
  intros T j k Hj Hk. specialize (T j k Hj Hk). clear Hj Hk. induction T as [a b [Ha [H|H]]| |a b H IH|a b c H1 IH1 H2 IH2].
  - apply rst_step. auto.
  - apply rst_step. auto.
  - apply rst_refl.
  - now apply rst_sym.
  - now apply (rst_trans _ _ _ b).
Qed.
Lemma cyl_pos n t k : tv_ok n t -> (k < n)%nat -> (0 < cylinder_intersection t (at_ (tv_h t) k) (at_ (tv_v t) k))%nat.
Proof.
  intros T Hk. rewrite (cyl_count n) by auto. unfold count.
  assert (X : In k (filter (fun k0 => (at_ (tv_h t) k0 =? at_ (tv_h t) k)%nat && (at_ (tv_v t) k0 =? at_ (tv_v t) k)%nat) (seq 0 n))).
  { apply filter_In. split; [apply in_seq; lia|]. now rewrite !Nat.eqb_refl. }
  destruct (filter _ _); [destruct X|cbn; lia].
Qed.

Section P.
Context {K : OField}.
Add Field KF : (of_ft K).
Local Open Scope F_scope.
Definition EE (t : thurston_veech) (i j : nat) : K := fnat (cylinder_intersection t i j).
Definition EE' (t : thurston_veech) (j i : nat) : K := EE t i j.
Lemma EE_rows n t i : tv_ok n t -> (i < tv_nh t)%nat -> exists j, (j < tv_nv t)%nat /\ 0 < EE t i j.
Proof.
  intros T Hi. pose proof (to_h n t T) as (_ & _ & S & _). destruct (S i Hi) as [k [Hk <-]]. exists (at_ (tv_v t) k).
  split; [now apply (to_v n t T)|]. apply fnat_pos. now apply (cyl_pos n).
Qed.
Lemma EE_cols n t j : tv_ok n t -> (j < tv_nv t)%nat -> exists i, (i < tv_nh t)%nat /\ 0 < EE t i j.
Proof.
  intros T Hi. pose proof (to_v n t T) as (_ & _ & S & _). destruct (S j Hi) as [k [Hk <-]]. exists (at_ (tv_h t) k).
  split; [now apply (to_h n t T)|]. apply fnat_pos. now apply (cyl_pos n).
Qed.
Lemma nh_pos n t : tv_ok n t -> (0 < tv_nh t)%nat /\ (0 < tv_nv t)%nat.
Proof. intros T. pose proof (to_n n t T) as N. destruct (to_h n t T) as (_ & A & _), (to_v n t T) as (_ & B & _). specialize (A 0%nat N). specialize (B 0%nat N). lia. Qed.
Lemma EE_irr n t (hm vm : nat -> K) : tv_ok n t -> transitive n (tv_r t) (tv_u t) -> positive (tv_nh t) hm -> positive (tv_nv t) vm ->
  forall Z : nat -> Prop, (forall i j, (i < tv_nh t)%nat -> (j < tv_nh t)%nat -> Z i -> 0 < FF (EE t) (tv_nv t) hm vm i j -> Z j) ->
  (exists i, (i < tv_nh t)%nat /\ Z i) -> forall j, (j < tv_nh t)%nat -> Z j.
Proof.
  intros T TR HP VP Z CL [i [Hi Zi]] j Hj. pose proof (to_h n t T) as (_ & HL & HS & _). pose proof (to_v n t T) as (_ & VL & _ & _).
  destruct (HS i Hi) as [k [Hk <-]]. destruct (HS j Hj) as [k' [Hk' <-]]. specialize (TR k k' Hk Hk').
  assert (G : Z (at_ (tv_h t) k) <-> Z (at_ (tv_h t) k')); [|tauto]. clear Zi Hi Hj Hk Hk'.
  induction TR as [a b [Ha [->| ->]]|a|a b H IH|a b c H1 IH1 H2 IH2]; try tauto.
  - rewrite (label_step n _ _ (tv_nh t)); auto; [reflexivity|apply (to_r n t T)|apply (to_h n t T)].
  - assert (Hb : (at_ (tv_u t) a < n)%nat) by now apply (to_u n t T).
    assert (VE : at_ (tv_v t) (at_ (tv_u t) a) = at_ (tv_v t) a) by (apply (label_step n _ _ (tv_nv t)); auto; [apply (to_u n t T)|apply (to_v n t T)]).
    assert (P1 : 0 < EE t (at_ (tv_h t) a) (at_ (tv_v t) a)) by (apply fnat_pos; now apply (cyl_pos n)).
    assert (P2 : 0 < EE t (at_ (tv_h t) (at_ (tv_u t) a)) (at_ (tv_v t) a)) by (rewrite <- VE; apply fnat_pos; now apply (cyl_pos n)).
    assert (NN : forall i j, (i < tv_nh t)%nat -> (j < tv_nv t)%nat -> 0 <= EE t i j) by (intros; apply fnat_nonneg).
    split; intros Hz; [apply (CL (at_ (tv_h t) a)); auto|apply (CL (at_ (tv_h t) (at_ (tv_u t) a))); auto];
      apply (FF_pos (EE t) (tv_nh t) (tv_nv t) hm vm NN HP VP _ _ (at_ (tv_v t) a)); auto.
Qed.

Lemma total_ext n p (w w' : nat -> K) m : permutes n p -> (forall k, (k < n)%nat -> w k = w' k) -> forall k, (k < n)%nat -> total p w k m = total p w' k m.
Proof. intros P E. induction m as [|m IH]; intros k Hk; cbn [total]; auto. rewrite E, IH; auto. now apply P. Qed.
(** sizes of cylinders give multitwists *)
Lemma sizes_twists n t (hmult vmult : list K) hh vv c d : tv_ok n t -> 0 < c -> 0 < d -> positive (tv_nh t) hh -> positive (tv_nv t) vv ->
  sizes (EE t) (tv_nh t) (tv_nv t) (row hmult) (row vmult) hh vv c d ->
  multitwists n (tv_r t) (tv_u t) (tv_h t) (tv_v t) hmult vmult (fun k => vv (at_ (tv_v t) k)) (fun k => hh (at_ (tv_h t) k)) c d.
Proof.
  intros T C D HP VP [S1 S2]. destruct T as [N R U (HL & HB & HS & HC) (VL & VB & VS & VC)] eqn:TE. pose proof T as T'. clear TE.
  constructor; auto.
  - intros k Hk. apply VP. auto.
  - intros k Hk. apply HP. auto.
  - split; intros k; [intros Hk; f_equal; apply (label_step n _ _ (tv_nh t)); auto; now apply (to_h n t T)|].
    intros m Hk P. rewrite S1 by auto. unfold row. f_equal. symmetry. erewrite (total_cylinder n (tv_r t) (tv_h t) (tv_nh t) (tv_v t) (tv_nv t) vv k m); auto; [|now apply (to_h n t T)].
    apply sumn_ext. intros j Hj. unfold EE. now rewrite (cyl_count n).
  - split; intros k; [intros Hk; f_equal; apply (label_step n _ _ (tv_nv t)); auto; now apply (to_v n t T)|].
    intros m Hk P. rewrite S2 by auto. unfold row. f_equal. symmetry. erewrite (total_cylinder n (tv_u t) (tv_v t) (tv_nv t) (tv_h t) (tv_nh t) hh k m); auto; [|now apply (to_v n t T)].
    apply sumn_ext. intros j Hj. unfold EE. rewrite (cyl_count n) by auto. now rewrite count_swap.
Qed.
(** and conversely *)
Definition rep (n : nat) (labels : list nat) (i : nat) : nat := hd 0%nat (filter (fun k => (at_ labels k =? i)%nat) (seq 0 n)).
Lemma rep_ok n p labels m i : cycle_labels n p labels m -> (i < m)%nat -> (rep n labels i < n)%nat /\ at_ labels (rep n labels i) = i.
Proof.
  intros (_ & _ & S & _) Hi. destruct (S i Hi) as [k [Hk E]]. unfold rep.
  assert (X : In k (filter (fun k => (at_ labels k =? i)%nat) (seq 0 n))) by (apply filter_In; split; [apply in_seq; lia|now apply Nat.eqb_eq]).
  destruct (filter _ _) as [|k' l] eqn:F; [destruct X|]. cbn [hd]. assert (Y : In k' (k' :: l)) by now left. rewrite <- F in Y. apply filter_In in Y. destruct Y as [Y1 Y2].
  apply in_seq in Y1. apply Nat.eqb_eq in Y2. split; [lia|auto].
Qed.
Lemma across_rep n p labels m (across : nat -> K) k : permutes n p -> cycle_labels n p labels m -> (forall k, (k < n)%nat -> across (at_ p k) = across k) -> (k < n)%nat ->
  across k = across (rep n labels (at_ labels k)).
Proof.
  intros P CY A Hk. pose proof CY as (_ & HB & _ & HC). destruct (rep_ok n p labels m (at_ labels k) CY (HB k Hk)) as [R1 R2].
  symmetry in R2. apply HC in R2; auto. destruct R2 as [s E]. rewrite <- E.
  assert (G : forall s, across (Nat.iter s (at_ p) k) = across k); [|now rewrite G]. clear s E. induction s as [|s IH]; [reflexivity|].
  change (Nat.iter (S s) (at_ p) k) with (at_ p (Nat.iter s (at_ p) k)). rewrite A; auto. now apply iter_lt.
Qed.
Lemma twists_sizes n t (hmult vmult : list K) w h c d : tv_ok n t -> multitwists n (tv_r t) (tv_u t) (tv_h t) (tv_v t) hmult vmult w h c d ->
  exists hh vv, positive (tv_nh t) hh /\ positive (tv_nv t) vv /\ sizes (EE t) (tv_nh t) (tv_nv t) (row hmult) (row vmult) hh vv c d /\
    (forall k, (k < n)%nat -> w k = vv (at_ (tv_v t) k)) /\ (forall k, (k < n)%nat -> h k = hh (at_ (tv_h t) k)).
Proof.
  intros T [C D WP HP [R1 R2] [U1 U2]]. pose proof (to_h n t T) as TH. pose proof (to_v n t T) as TW. pose proof (to_r n t T) as TR. pose proof (to_u n t T) as TU.
  exists (fun i => h (rep n (tv_h t) i)), (fun j => w (rep n (tv_v t) j)).
  assert (W : forall k, (k < n)%nat -> w k = w (rep n (tv_v t) (at_ (tv_v t) k))) by (intros k Hk; now apply (across_rep n (tv_u t) _ (tv_nv t))).
  assert (H : forall k, (k < n)%nat -> h k = h (rep n (tv_h t) (at_ (tv_h t) k))) by (intros k Hk; now apply (across_rep n (tv_r t) _ (tv_nh t))).
  split; [intros i Hi; apply HP; now apply (rep_ok n (tv_r t) _ (tv_nh t))|]. split; [intros i Hi; apply WP; now apply (rep_ok n (tv_u t) _ (tv_nv t))|].
  split; [|split; auto]. split.
  - intros i Hi. destruct (rep_ok n (tv_r t) _ (tv_nh t) i TH Hi) as [K1 K2]. destruct (period_exists n (tv_r t) (tv_h t) (tv_nh t) _ TR TH K1) as [m P].
    rewrite (R2 _ m) by auto. rewrite K2. unfold row. f_equal.
    rewrite (total_ext n _ _ (fun k => w (rep n (tv_v t) (at_ (tv_v t) k)))) by auto.
    erewrite (total_cylinder n (tv_r t) (tv_h t) (tv_nh t) (tv_v t) (tv_nv t) (fun j => w (rep n (tv_v t) j)) _ m); auto; try apply TW.
    rewrite K2. apply sumn_ext. intros j Hj. unfold EE. now rewrite (cyl_count n).
  - intros i Hi. destruct (rep_ok n (tv_u t) _ (tv_nv t) i TW Hi) as [K1 K2]. destruct (period_exists n (tv_u t) (tv_v t) (tv_nv t) _ TU TW K1) as [m P].
    rewrite (U2 _ m) by auto. rewrite K2. unfold row. f_equal.
    rewrite (total_ext n _ _ (fun k => h (rep n (tv_h t) (at_ (tv_h t) k)))) by auto.
    erewrite (total_cylinder n (tv_u t) (tv_v t) (tv_nv t) (tv_h t) (tv_nh t) (fun j => h (rep n (tv_h t) j)) _ m); auto; try apply TH.
    rewrite K2. apply sumn_ext. intros j Hj. unfold EE. rewrite (cyl_count n) by auto. now rewrite count_swap.
Qed.
Lemma twists_unique n t (hmult vmult : list K) w h c d w' h' c' d' : tv_ok n t -> transitive n (tv_r t) (tv_u t) -> positive (tv_nh t) (row hmult) -> positive (tv_nv t) (row vmult) ->
  multitwists n (tv_r t) (tv_u t) (tv_h t) (tv_v t) hmult vmult w h c d -> multitwists n (tv_r t) (tv_u t) (tv_h t) (tv_v t) hmult vmult w' h' c' d' ->
  c * d = c' * d' /\ exists s s', 0 < s /\ 0 < s' /\ forall k, (k < n)%nat -> w' k = s * w k /\ h' k = s' * h k.
Proof.
  intros T TR HP VP M1 M2. destruct (twists_sizes _ _ _ _ _ _ _ _ T M1) as (hh & vv & A1 & A2 & A3 & A4 & A5).
  destruct (twists_sizes _ _ _ _ _ _ _ _ T M2) as (hh' & vv' & B1 & B2 & B3 & B4 & B5).
  destruct (sizes_unique (EE t) (tv_nh t) (tv_nv t) (row hmult) (row vmult)) with (hh := hh) (vv := vv) (c := c) (d := d) (hh' := hh') (vv' := vv') (c' := c') (d' := d')
    as [E (s & s' & S1 & S2 & S3 & S4)]; auto; try apply M1; try apply M2.
  - intros; apply fnat_nonneg.
  - intros i Hi. now apply (EE_rows n).
  - now apply (EE_irr n).
  - now apply (nh_pos n).
  - split; auto. exists s', s. split; auto. split; auto. intros k Hk. rewrite A4, A5, B4, B5 by auto. split; [apply S4|apply S3]; [apply (to_v n t T)|apply (to_h n t T)]; auto.
Qed.

(** ** the numbers that the code computes *)
Definition tv_heights (t : thurston_veech) (hmult vmult x : list K) (pf : K) : list K :=
  map (fun i => nth i (if (tv_nh t <? tv_nv t)%nat then x else mat_vec (tv_nh t) (tv_nv t) (tv_H t vmult) x) 0 * nth i hmult 0 / (if (tv_nh t <? tv_nv t)%nat then 1 else pf)) (seq 0 (tv_nh t)).
Definition tv_widths (t : thurston_veech) (hmult vmult x : list K) (pf : K) : list K :=
  map (fun i => nth i (if (tv_nh t <? tv_nv t)%nat then mat_vec (tv_nv t) (tv_nh t) (tv_V t hmult) x else x) 0 * nth i vmult 0 / (if (tv_nh t <? tv_nv t)%nat then pf else 1)) (seq 0 (tv_nv t)).
Lemma nth_map_seq (f : nat -> K) m i : (i < m)%nat -> nth i (map f (seq 0 m)) 0 = f i.
Proof. intros H. rewrite (nth_indep _ 0 (f 0%nat)) by (now rewrite map_length, seq_length). rewrite map_nth, seq_nth; auto. Qed.
Lemma sizes_ext E a b hm vm (hh vv hh' vv' : nat -> K) c d : (forall i, (i < a)%nat -> hh i = hh' i) -> (forall j, (j < b)%nat -> vv j = vv' j) -> sizes E a b hm vm hh vv c d -> sizes E a b hm vm hh' vv' c d.
Proof.
  intros H V [S1 S2]. split.
  - intros i Hi. rewrite <- H, S1 by auto. f_equal. apply sumn_ext. intros j Hj. now rewrite V.
  - intros j Hj. rewrite <- V, S2 by auto. f_equal. apply sumn_ext. intros i Hi. now rewrite H.
Qed.
Lemma computed n t (hmult vmult x : list K) pf : tv_ok n t -> positive (tv_nh t) (row hmult) -> positive (tv_nv t) (row vmult) ->
  positive (tv_size t) (row x) -> eigen (tv_size t) (tv_F t hmult vmult) pf (row x) ->
  0 < pf /\ positive (tv_nh t) (row (tv_heights t hmult vmult x pf)) /\ positive (tv_nv t) (row (tv_widths t hmult vmult x pf)) /\
  exists c d, 0 < c /\ 0 < d /\ sizes (EE t) (tv_nh t) (tv_nv t) (row hmult) (row vmult) (row (tv_heights t hmult vmult x pf)) (row (tv_widths t hmult vmult x pf)) c d.
Proof.
  intros T HP VP XP EV. destruct (nh_pos n t T) as [NH NV]. unfold tv_size, tv_F, tv_heights, tv_widths in *.
  assert (O : 0 < (1 : K)) by apply flt_0_1.
  assert (NN : forall i j, (i < tv_nh t)%nat -> (j < tv_nv t)%nat -> 0 <= EE t i j) by (intros; apply fnat_nonneg).
  destruct (tv_nh t <? tv_nv t)%nat eqn:LT.
  - change (mat_prod (tv_nv t) (tv_H t vmult) (tv_V t hmult)) with (FF (EE t) (tv_nv t) (row hmult) (row vmult)) in EV.
    assert (P : 0 < pf) by (apply (eigen_pos (EE t) (tv_nh t) (tv_nv t) (row hmult) (row vmult)) with (x := row x); auto; intros; now apply (EE_rows n)).
    destruct (sizes_pos (EE t) (tv_nh t) (tv_nv t) (row hmult) (row vmult) NN HP VP) with (x := row x) (p := pf) as [Q1 Q2]; auto; [intros; now apply (EE_cols n)|].
    pose proof (eigen_sizes (EE t) (tv_nh t) (tv_nv t) (row hmult) (row vmult) (row x) pf ltac:(now apply fpos_neq0) EV) as SZ.
    assert (X1 : forall i, (i < tv_nh t)%nat -> row x i * row hmult i / 1 = row (map (fun i => nth i x 0 * nth i hmult 0 / 1) (seq 0 (tv_nh t))) i) by (intros i Hi; unfold row; now rewrite nth_map_seq).
    assert (X2 : forall j, (j < tv_nv t)%nat -> sumn (tv_nh t) (fun i => EE t i j * row hmult i * row x i) * row vmult j / pf =
       row (map (fun i => nth i (mat_vec (tv_nv t) (tv_nh t) (tv_V t hmult) x) 0 * nth i vmult 0 / pf) (seq 0 (tv_nv t))) j).
    { intros j Hj. unfold row at 3 4. rewrite nth_map_seq by auto. unfold mat_vec. now rewrite nth_map_seq. }
    split; auto. split; [intros i Hi; rewrite <- X1 by auto; now apply Q1|]. split; [intros i Hi; rewrite <- X2 by auto; now apply Q2|].
    exists 1, pf. split; auto. split; auto. now apply (sizes_ext _ _ _ _ _ _ _ _ _ _ _ X1 X2).
  - change (mat_prod (tv_nh t) (tv_V t hmult) (tv_H t vmult)) with (FF (EE' t) (tv_nh t) (row vmult) (row hmult)) in EV.
    assert (NN' : forall i j, (i < tv_nv t)%nat -> (j < tv_nh t)%nat -> 0 <= EE' t i j) by (intros; apply fnat_nonneg).
    assert (P : 0 < pf) by (apply (eigen_pos (EE' t) (tv_nv t) (tv_nh t) (row vmult) (row hmult)) with (x := row x); auto; intros; now apply (EE_cols n)).
    destruct (sizes_pos (EE' t) (tv_nv t) (tv_nh t) (row vmult) (row hmult) NN' VP HP) with (x := row x) (p := pf) as [Q1 Q2]; auto; [intros; now apply (EE_rows n)|].
    pose proof (eigen_sizes (EE' t) (tv_nv t) (tv_nh t) (row vmult) (row hmult) (row x) pf ltac:(now apply fpos_neq0) EV) as SZ.
    assert (X1 : forall i, (i < tv_nv t)%nat -> row x i * row vmult i / 1 = row (map (fun i => nth i x 0 * nth i vmult 0 / 1) (seq 0 (tv_nv t))) i) by (intros i Hi; unfold row; now rewrite nth_map_seq).
    assert (X2 : forall j, (j < tv_nh t)%nat -> sumn (tv_nv t) (fun i => EE' t i j * row vmult i * row x i) * row hmult j / pf =
       row (map (fun i => nth i (mat_vec (tv_nh t) (tv_nv t) (tv_H t vmult) x) 0 * nth i hmult 0 / pf) (seq 0 (tv_nh t))) j).
    { intros j Hj. unfold row at 3 4. rewrite nth_map_seq by auto. unfold mat_vec. now rewrite nth_map_seq. }
    split; auto. split; [intros i Hi; rewrite <- X2 by auto; now apply Q2|]. split; [intros i Hi; rewrite <- X1 by auto; now apply Q1|].
    exists pf, 1. split; auto. split; auto. apply (sizes_swap (EE' t)). now apply (sizes_ext _ _ _ _ _ _ _ _ _ _ _ X1 X2).
Qed.
(** if there are sizes, then the matrix has a positive eigenvector *)
Lemma twists_eigen n t (hmult vmult : list K) w h c d : tv_ok n t -> positive (tv_nh t) (row hmult) -> positive (tv_nv t) (row vmult) ->
  multitwists n (tv_r t) (tv_u t) (tv_h t) (tv_v t) hmult vmult w h c d -> exists x, positive (tv_size t) x /\ eigen (tv_size t) (tv_F t hmult vmult) (c * d) x.
Proof.
  intros T HP VP M. destruct (twists_sizes _ _ _ _ _ _ _ _ T M) as (hh & vv & A1 & A2 & A3 & _). unfold tv_size, tv_F. destruct (tv_nh t <? tv_nv t)%nat.
  - exists (fun i => sumn (tv_nv t) (fun j => EE t i j * vv j)). split.
    + intros i Hi. destruct (EE_rows n t i T Hi) as [j [Hj Ej]]. apply (sumn_pos _ _ j); auto; [|apply fmul_pos; auto]. intros k Hk. apply fmul_nonneg; [apply fnat_nonneg|]. pose proof (A2 k Hk). flra.
    + exact (sizes_eigen _ _ _ _ _ _ _ _ _ A3).
  - exists (fun j => sumn (tv_nh t) (fun i => EE' t j i * hh i)). split.
    + intros i Hi. destruct (EE_cols n t i T Hi) as [j [Hj Ej]]. apply (sumn_pos _ _ j); auto; [|apply fmul_pos; auto]. intros k Hk. apply fmul_nonneg; [apply fnat_nonneg|]. pose proof (A1 k Hk). flra.
    + rewrite (fmul_comm K c d). exact (sizes_eigen _ _ _ _ _ _ _ _ _ (sizes_swap _ _ _ _ _ _ _ _ _ A3)).
Qed.
Lemma tv_F_nonneg t (hmult vmult : list K) : positive (tv_nh t) (row hmult) -> positive (tv_nv t) (row vmult) ->
  forall i j, (i < tv_size t)%nat -> (j < tv_size t)%nat -> 0 <= tv_F t hmult vmult i j.
Proof.
  intros HP VP i j. unfold tv_size, tv_F. destruct (tv_nh t <? tv_nv t)%nat.
  - apply (FF_nonneg (EE t) (tv_nh t) (tv_nv t) (row hmult) (row vmult)); auto. intros; apply fnat_nonneg.
  - apply (FF_nonneg (EE' t) (tv_nv t) (tv_nh t) (row vmult) (row hmult)); auto. intros; apply fnat_nonneg.
Qed.
Lemma FF_ext E E' b hm vm i k : (forall i j, E i j = E' i j :> K) -> FF E b hm vm i k = FF E' b hm vm i k.
Proof. intros H. apply sumn_ext. intros j _. now rewrite !H. Qed.
Lemma tv_F_irr n t (hmult vmult : list K) : tv_ok n t -> transitive n (tv_r t) (tv_u t) -> positive (tv_nh t) (row hmult) -> positive (tv_nv t) (row vmult) ->
  forall Z : nat -> Prop, (forall i j, (i < tv_size t)%nat -> (j < tv_size t)%nat -> Z i -> 0 < tv_F t hmult vmult i j -> Z j) ->
  (exists i, (i < tv_size t)%nat /\ Z i) -> forall j, (j < tv_size t)%nat -> Z j.
Proof.
  intros T TR HP VP Z. unfold tv_size, tv_F. destruct (tv_nh t <? tv_nv t)%nat.
  - now apply (EE_irr n t (row hmult) (row vmult)).
  - intros H. apply (EE_irr n (tv_swap t) (row vmult) (row hmult)); auto; [now apply swap_ok|now apply swap_transitive|].
    intros i j Hi Hj Zi Fi. apply (H i j); auto. change (mat_prod (tv_nh t) (tv_V t hmult) (tv_H t vmult)) with (FF (EE' t) (tv_nh t) (row vmult) (row hmult)).
    rewrite <- (FF_ext (EE (tv_swap t))); auto. intros i' j'. unfold EE', EE. now rewrite (swap_cyl n).
Qed.
Lemma eigen_sub n (A : nat -> nat -> K) c x : eigen n (mat_sub_scalar A c) 0 x <-> eigen n A c x.
Proof.
  assert (G : forall m i, sumn m (fun j => mat_sub_scalar A c i j * x j) = sumn m (fun j => A i j * x j) - (if (i <? m)%nat then c * x i else 0)).
  { intros m i. induction m as [|m IH]; cbn [sumn]; [cbn; ring|]. rewrite IH. unfold mat_sub_scalar at 1. destruct (Nat.eqb_spec i m) as [->|N].
    - rewrite Nat.ltb_irrefl. destruct (Nat.ltb_spec m (S m)); [|lia]. ring.
    - destruct (Nat.ltb_spec i m), (Nat.ltb_spec i (S m)); try lia; ring. }
  rewrite !eigen_sum. split; intros H i Hi; specialize (H i Hi); rewrite G in *; destruct (Nat.ltb_spec i n); try lia.
  - transitivity (sumn n (fun j => A i j * x j) - c * x i + c * x i); [ring|rewrite H; ring].
  - rewrite H. ring.
Qed.
End P.
