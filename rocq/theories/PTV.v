(** Proofs about the Thurston-Veech construction: sums, positive matrices and cycles. *)
From Coq Require Import List Bool ZArith Arith Lia Ring Field Relations Permutation.
From Verif Require Import OField FMicromega PField MBase MEuclid PEuclid PRotate MPoly PHyp2 MTV STV.
Import ListNotations.

Section P.
Context {K : OField}.
Add Field KF : (of_ft K).
Local Open Scope F_scope.

(** ** sums *)
Lemma dot_sum n (a x : nat -> K) : dot_ n a x = sumn n (fun j => a j * x j).
Proof. induction n as [|n IH]; cbn; [reflexivity|now rewrite IH]. Qed.
Lemma sumn_ext n (f g : nat -> K) : (forall i, (i < n)%nat -> f i = g i) -> sumn n f = sumn n g.
Proof. induction n as [|n IH]; intros H; cbn; [reflexivity|]. rewrite IH, H by (intros; try apply H; lia). reflexivity. Qed.
Lemma sumn_0 n (f : nat -> K) : (forall i, (i < n)%nat -> f i = 0) -> sumn n f = 0.
Proof. induction n as [|n IH]; intros H; cbn; [reflexivity|]. rewrite IH, H by (intros; try apply H; lia). ring. Qed.
Lemma sumn_add n (f g : nat -> K) : sumn n (fun i => f i + g i) = sumn n f + sumn n g.
Proof. induction n as [|n IH]; cbn; [ring|]. rewrite IH. ring. Qed.
Lemma sumn_scale n c (f : nat -> K) : sumn n (fun i => c * f i) = c * sumn n f.
Proof. induction n as [|n IH]; cbn; [ring|]. rewrite IH. ring. Qed.
Lemma sumn_swap m n (f : nat -> nat -> K) : sumn m (fun i => sumn n (f i)) = sumn n (fun j => sumn m (fun i => f i j)).
Proof. induction m as [|m IH]; cbn; [symmetry; now apply sumn_0|]. now rewrite IH, sumn_add. Qed.
Lemma sumn_le n (f g : nat -> K) : (forall i, (i < n)%nat -> f i <= g i) -> sumn n f <= sumn n g.
Proof. induction n as [|n IH]; intros H; cbn; [flra|]. pose proof (H n ltac:(lia)). assert (sumn n f <= sumn n g) by (apply IH; intros; apply H; lia). flra. Qed.
Lemma sumn_nonneg n (f : nat -> K) : (forall i, (i < n)%nat -> 0 <= f i) -> 0 <= sumn n f.
Proof. induction n as [|n IH]; intros H; cbn; [flra|]. pose proof (H n ltac:(lia)). assert (0 <= sumn n f) by (apply IH; intros; apply H; lia). flra. Qed.
Lemma sumn_pos n (f : nat -> K) j : (forall i, (i < n)%nat -> 0 <= f i) -> (j < n)%nat -> 0 < f j -> 0 < sumn n f.
Proof.
  induction n as [|n IH]; intros H Hj P; [lia|]. cbn. destruct (Nat.eq_dec j n) as [->|N].
  - assert (0 <= sumn n f) by (apply sumn_nonneg; intros; apply H; lia). flra.
  - assert (0 < sumn n f) by (apply IH; auto; lia). pose proof (H n ltac:(lia)). flra.
Qed.
Lemma sumn_zero_terms n (f : nat -> K) : (forall i, (i < n)%nat -> 0 <= f i) -> sumn n f = 0 -> forall i, (i < n)%nat -> f i = 0.
Proof.
  intros H E i Hi. destruct (proj1 (fle_lteq _ _) (H i Hi)) as [P|P]; [|auto]. pose proof (sumn_pos n f i H Hi P). rewrite E in H0. exfalso. flra.
Qed.
Lemma fnat_nonneg n : 0 <= (fnat n : K).
Proof. induction n; cbn; [flra|]. pose proof (@flt_0_1 K). flra. Qed.
Lemma fnat_pos n : (0 < n)%nat -> 0 < (fnat n : K).
Proof. destruct n; [lia|]. intros _. cbn. pose proof (fnat_nonneg n). pose proof (@flt_0_1 K). flra. Qed.

(** ** positive eigenvectors *)
Lemma min_ratio n (x y : nat -> K) : (0 < n)%nat -> positive n x -> exists i t, (i < n)%nat /\ y i = t * x i /\ forall j, (j < n)%nat -> t * x j <= y j.
Proof.
  induction n as [|n IH]; intros N P; [lia|]. assert (Pn : 0 < x n) by (apply P; lia). assert (NZ : x n <> 0) by (now apply fpos_neq0).
  assert (En : y n = y n / x n * x n) by (rewrite fdiv_mul; auto).
  destruct n as [|n]; [exists 0%nat, (y 0%nat / x 0%nat); split; [lia|]; split; auto; intros j Hj; assert (j = 0)%nat by lia; subst; rewrite <- En; flra|].
  destruct IH as [i [t [Hi [E L]]]]; [lia|intros k Hk; apply P; lia|]. destruct (y (S n) / x (S n) <? t) eqn:C; bools.
  - exists (S n), (y (S n) / x (S n)). split; [lia|]. split; auto. intros j Hj. destruct (Nat.eq_dec j (S n)) as [->|Nj]; [rewrite <- En; flra|].
    pose proof (L j ltac:(lia)). assert (0 <= (t - y (S n) / x (S n)) * x j) by (apply fmul_nonneg; [flra|pose proof (P j ltac:(lia)); flra]). flra.
  - exists i, t. split; [lia|]. split; auto. intros j Hj. destruct (Nat.eq_dec j (S n)) as [->|Nj]; [|apply L; lia]. assert (0 <= (y (S n) / x (S n) - t) * x (S n)) by (apply fmul_nonneg; flra).
    assert (Q : (y (S n) / x (S n) - t) * x (S n) = y (S n) / x (S n) * x (S n) - t * x (S n)) by ring. rewrite Q, <- En in H. flra.
Qed.
Section Perron.
Variables (n : nat) (A : nat -> nat -> K).
Hypothesis NN : forall i j, (i < n)%nat -> (j < n)%nat -> 0 <= A i j.
Lemma eigen_sum c x : eigen n A c x <-> forall i, (i < n)%nat -> sumn n (fun j => A i j * x j) = c * x i.
Proof. unfold eigen. split; intros H i Hi; specialize (H i Hi); rewrite dot_sum in *; auto. Qed.
Lemma perron_nonneg c x : (0 < n)%nat -> positive n x -> eigen n A c x -> 0 <= c.
Proof.
  intros N P E. rewrite eigen_sum in E. specialize (E 0%nat N). assert (S : 0 <= sumn n (fun j => A 0%nat j * x j)) by (apply sumn_nonneg; intros j Hj; apply fmul_nonneg; auto; pose proof (P j Hj); flra).
  rewrite E in S. pose proof (P 0%nat N). destruct (c <? 0) eqn:C; bools; auto. exfalso. assert (0 < - c * x 0%nat) by (apply fmul_pos; auto; flra). flra.
Qed.
Lemma perron_bound c x e y : positive n x -> eigen n A c x -> nonzero n y -> eigen n A e y -> e <= c.
Proof.
  intros P E NZ E'.
  assert (G : forall y, eigen n A e y -> (exists i, (i < n)%nat /\ 0 < y i) -> e <= c).
  { clear y NZ E'. intros y E' [i [Hi Yi]]. destruct (min_ratio n x (fun k => - y k)) as [i0 [t [H0 [R L]]]]; [lia|auto|].
    rewrite eigen_sum in E, E'. specialize (E i0 H0). specialize (E' i0 H0).
    assert (LE : sumn n (fun j => A i0 j * y j) <= - t * sumn n (fun j => A i0 j * x j)).
    { rewrite <- sumn_scale. apply sumn_le. intros j Hj. specialize (L j Hj). assert (0 <= A i0 j * (- y j - t * x j)) by (apply fmul_nonneg; auto; flra). flra. }
    rewrite E, E' in LE. assert (RR : - t * (c * x i0) = c * y i0) by (transitivity (- c * (t * x i0)); [ring|rewrite <- R; ring]). rewrite RR in LE.
    assert (T : t < 0). { destruct (t <? 0) eqn:C; bools; auto. exfalso. specialize (L i Hi). assert (0 <= t * x i) by (apply fmul_nonneg; auto; pose proof (P i Hi); flra). flra. }
    assert (Y0 : 0 < y i0). { assert (0 < - t * x i0) by (apply fmul_pos; auto; flra). assert (Q : y i0 = - t * x i0) by (transitivity (- (- y i0)); [ring|rewrite R; ring]). rewrite Q. auto. }
    destruct (c <? e) eqn:C; bools; auto. exfalso. assert (0 < (e - c) * y i0) by (apply fmul_pos; auto; flra). flra. }
  destruct NZ as [i [Hi Ni]]. apply fneq_lt in Ni. destruct Ni as [Ni|Ni].
  - apply (G (fun k => - y k)); [|exists i; split; auto; flra]. rewrite eigen_sum in *. intros k Hk. specialize (E' k Hk). transitivity (- (1) * sumn n (fun j => A k j * y j)); [rewrite <- sumn_scale; apply sumn_ext; intros; ring|rewrite E'; ring].
  - apply (G y); auto. exists i. auto.
Qed.
Lemma perron_unique c x y : (forall Z : nat -> Prop, (forall i j, (i < n)%nat -> (j < n)%nat -> Z i -> 0 < A i j -> Z j) -> (exists i, (i < n)%nat /\ Z i) -> forall j, (j < n)%nat -> Z j) ->
  positive n x -> eigen n A c x -> eigen n A c y -> exists s, forall i, (i < n)%nat -> y i = s * x i.
Proof.
  intros IR P E E'. destruct (Nat.eq_dec n 0) as [->|N0]; [exists 0; lia|]. destruct (min_ratio n x y) as [i0 [t [H0 [R L]]]]; [lia|auto|]. exists t.
  set (z := fun i => y i - t * x i). assert (Z0 : forall i, (i < n)%nat -> 0 <= z i) by (intros i Hi; specialize (L i Hi); unfold z; flra).
  assert (EZ : forall i, (i < n)%nat -> sumn n (fun j => A i j * z j) = c * z i).
  { rewrite eigen_sum in E, E'. intros i Hi. specialize (E i Hi). specialize (E' i Hi). transitivity (sumn n (fun j => A i j * y j) + - t * sumn n (fun j => A i j * x j)); [rewrite <- sumn_scale, <- sumn_add; apply sumn_ext; intros; unfold z; ring|rewrite E, E'; unfold z; ring]. }
  assert (G : forall j, (j < n)%nat -> z j = 0).
  { apply (IR (fun i => z i = 0)).
    - intros i j Hi Hj Zi Aij. specialize (EZ i Hi). rewrite Zi in EZ. assert (EZ' : sumn n (fun j => A i j * z j) = 0) by (rewrite EZ; ring). pose proof (sumn_zero_terms n _ (fun k Hk => fmul_nonneg _ _ (NN i k Hi Hk) (Z0 k Hk)) EZ' j Hj) as Q. apply fmul_eq0 in Q. destruct Q as [Q|Q]; auto. rewrite Q in Aij. exfalso. flra.
    - exists i0. split; auto. unfold z. rewrite R. ring. }
  intros i Hi. specialize (G i Hi). unfold z in G. flra.
Qed.
End Perron.

(** ** cycles *)
Lemma iter_lt n p k s : permutes n p -> (k < n)%nat -> (Nat.iter s (at_ p) k < n)%nat.
Proof. intros [_ [H _]] Hk. induction s; cbn; auto. Qed.
Lemma iter_add s t p k : Nat.iter (s + t) (at_ p) k = Nat.iter s (at_ p) (Nat.iter t (at_ p) k).
Proof. induction s as [|s IH]; [reflexivity|]. change (at_ p (Nat.iter (s + t) (at_ p) k) = at_ p (Nat.iter s (at_ p) (Nat.iter t (at_ p) k))). now rewrite IH. Qed.
Lemma iter_inj n p s j k : permutes n p -> (j < n)%nat -> (k < n)%nat -> Nat.iter s (at_ p) j = Nat.iter s (at_ p) k -> j = k.
Proof. intros PE Hj Hk. induction s; cbn; auto. intros E. apply IHs. destruct PE as [L [B I]]. apply I; auto; now apply (iter_lt n). Qed.
Definition lsum_ (w : nat -> K) (l : list nat) : K := fold_right (fun k a => w k + a) 0 l.
Lemma total_sum p (w : nat -> K) m : forall k, total p w k m = lsum_ w (map (fun s => Nat.iter s (at_ p) k) (seq 0 m)).
Proof.
  induction m as [|m IH]; intros k; [reflexivity|]. cbn [total seq map lsum_ fold_right Nat.iter]. f_equal. rewrite IH. rewrite <- seq_shift, map_map. unfold lsum_. apply f_equal. apply map_ext. intros s. replace (S s) with (s + 1)%nat by lia. symmetry. exact (iter_add s 1 p k).
Qed.
Lemma lsum_perm w l m : Permutation l m -> lsum_ w l = lsum_ w m.
Proof. unfold lsum_. induction 1; cbn [fold_right]; try congruence. ring. Qed.
Lemma cycle_list n p labels m0 k m : permutes n p -> cycle_labels n p labels m0 -> (k < n)%nat -> period p k m ->
  Permutation (map (fun s => Nat.iter s (at_ p) k) (seq 0 m)) (filter (fun j => at_ labels j =? at_ labels k)%nat (seq 0 n)).
Proof.
  intros PE [_ [_ [_ CL]]] Hk [M0 [MK MI]]. apply NoDup_Permutation.
  - assert (I : forall a b, (a < b)%nat -> (b < m)%nat -> Nat.iter a (at_ p) k <> Nat.iter b (at_ p) k).
    { intros a b AB BM E. replace b with (a + (b - a))%nat in E by lia. rewrite iter_add in E. apply (iter_inj n) in E; auto; [|now apply (iter_lt n)]. symmetry in E. revert E. apply MI. lia. }
    apply NoDup_nth with (d := 0%nat). rewrite map_length, seq_length. intros a b Ha Hb E.
    assert (NT : forall a, (a < m)%nat -> nth a (map (fun s => Nat.iter s (at_ p) k) (seq 0 m)) 0%nat = Nat.iter a (at_ p) k). { intros c Hc. rewrite (nth_indep _ 0%nat (Nat.iter 0 (at_ p) k)) by (now rewrite map_length, seq_length). rewrite (map_nth (fun s => Nat.iter s (at_ p) k)), seq_nth by auto. reflexivity. }
    rewrite !NT in E by auto. destruct (Nat.lt_trichotomy a b) as [L|[L|L]]; auto; exfalso; [exact (I a b L Hb E)|symmetry in E; exact (I b a L Ha E)].
  - apply NoDup_filter, seq_NoDup.
  - intros x. rewrite in_map_iff, filter_In, in_seq, Nat.eqb_eq. split.
    + intros [s [<- Hs]]. assert (Hx : (Nat.iter s (at_ p) k < n)%nat) by (now apply (iter_lt n)). split; [lia|]. symmetry. apply CL; auto. now exists s.
    + intros [Hx E]. symmetry in E. apply CL in E; auto; [|lia]. destruct E as [s Es]. exists (s mod m)%nat. split; [|apply in_seq; pose proof (Nat.mod_upper_bound s m); lia].
      assert (Q : forall q, Nat.iter (q * m) (at_ p) k = k) by (induction q as [|q IHq]; [reflexivity|]; change (S q * m)%nat with (m + q * m)%nat; rewrite iter_add, IHq; auto).
      rewrite (Nat.div_mod s m) in Es by lia. rewrite Nat.mul_comm, Nat.add_comm, iter_add, Q in Es. exact Es.
Qed.
Lemma label_step n p labels m0 k : permutes n p -> cycle_labels n p labels m0 -> (k < n)%nat -> at_ labels (at_ p k) = at_ labels k.
Proof. intros [L [B I]] [_ [_ [_ CL]]] Hk. symmetry. apply CL; auto. now exists 1%nat. Qed.
Definition count (h v : list nat) (i j : nat) (l : list nat) : nat := length (filter (fun k => (at_ h k =? i)%nat && (at_ v k =? j)%nat) l).
Lemma count_sum h v i n (f : nat -> K) l : (forall k, In k l -> (at_ v k < n)%nat) ->
  lsum_ (fun k => f (at_ v k)) (filter (fun k => at_ h k =? i)%nat l) = sumn n (fun j => fnat (count h v i j l) * f j).
Proof.
  induction l as [|k l IH]; intros B; [cbn; symmetry; apply sumn_0; intros; ring|]. assert (IH' := IH (fun x Hx => B x (or_intror Hx))). clear IH. cbn [filter]. destruct (at_ h k =? i)%nat eqn:E.
  - cbn [lsum_ fold_right]. fold (lsum_ (fun k => f (at_ v k))). change (fold_right (fun k a => f (at_ v k) + a) 0 (filter (fun k => (at_ h k =? i)%nat) l)) with (lsum_ (fun k => f (at_ v k)) (filter (fun k => (at_ h k =? i)%nat) l)). rewrite IH'.
    assert (SP : f (at_ v k) = sumn n (fun j => if (at_ v k =? j)%nat then f j else 0)).
    { assert (Hk : (at_ v k < n)%nat) by (apply B; now left). clear - Hk. induction n as [|n IHn]; [lia|]. cbn. destruct (Nat.eq_dec (at_ v k) n) as [Q|Q].
      - rewrite Q, Nat.eqb_refl. rewrite sumn_0; [ring|]. intros i Hi. destruct (Nat.eqb_spec n i); auto; lia.
      - destruct (Nat.eqb_spec (at_ v k) n); [lia|]. rewrite <- IHn by lia. ring. }
    rewrite SP at 1. rewrite <- sumn_add. apply sumn_ext. intros j Hj. unfold count. cbn [filter]. rewrite E. cbn [andb]. destruct (at_ v k =? j)%nat; cbn [length fnat]; ring.
  - rewrite IH'. apply sumn_ext. intros j Hj. unfold count. cbn [filter]. now rewrite E.
Qed.
Lemma total_cylinder n p h m0 v m1 (f : nat -> K) k m : permutes n p -> cycle_labels n p h m0 -> length v = n -> (forall k, (k < n)%nat -> (at_ v k < m1)%nat) -> (k < n)%nat -> period p k m ->
  total p (fun k => f (at_ v k)) k m = sumn m1 (fun j => fnat (count h v (at_ h k) j (seq 0 n)) * f j).
Proof.
  intros PE CL LV BV Hk PM. rewrite total_sum, (lsum_perm _ _ _ (cycle_list n p h m0 k m PE CL Hk PM)). apply count_sum. intros x Hx. apply in_seq in Hx. apply BV. lia.
Qed.
Lemma least (Q : nat -> Prop) (D : forall i, Q i \/ ~ Q i) m : (0 < m)%nat -> Q m -> exists k, (0 < k)%nat /\ Q k /\ forall i, (0 < i < k)%nat -> ~ Q i.
Proof.
  induction m as [m IH] using lt_wf_ind. intros M0 Qm.
  assert (DD : (exists i, (0 < i < m)%nat /\ Q i) \/ forall i, (0 < i < m)%nat -> ~ Q i).
  { clear IH Qm M0. induction m as [|m IH]; [right; lia|]. destruct IH as [[i [Hi Qi]]|N]; [left; exists i; split; auto; lia|]. destruct (Nat.eq_dec m 0) as [->|M]; [right; lia|].
    destruct (D m) as [Qm|Qm]; [left; exists m; split; auto; lia|]. right. intros i Hi. destruct (Nat.eq_dec i m) as [->|]; auto. apply N. lia. }
  destruct DD as [[i [Hi Qi]]|N]; [apply (IH i); auto; lia|]. exists m. auto.
Qed.
Lemma period_exists n p labels m0 k : permutes n p -> cycle_labels n p labels m0 -> (k < n)%nat -> exists m, period p k m.
Proof.
  intros PE CL Hk. pose proof (label_step n p labels m0 k PE CL Hk) as E. destruct PE as [L [B I]], CL as [_ [_ [_ CL]]]. apply CL in E; auto. destruct E as [s Es].
  destruct (least (fun m => Nat.iter m (at_ p) k = k)) with (m := S s) as [m [M0 [MK MI]]]; [intros; lia|lia| |exists m; repeat split; auto].
  replace (S s) with (s + 1)%nat by lia. rewrite iter_add. exact Es.
Qed.
End P.
