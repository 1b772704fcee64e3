(** Proofs about the J-invariant. *)
From Coq Require Import List Bool ZArith Arith Lia Ring Field Permutation.
From Verif Require Import OField FMicromega PField MBase MDict PDict MEuclid SEuclid PEuclid MSim SSim PSim MPoly PPoly
  MMut SMut PMut PMut2 PMut3 MJinv SJinv.
Import ListNotations.

Section P.
Context {K : OField}.
Add Field KF : (of_ft K).
Local Open Scope F_scope.

Lemma zip_map {A B C D} (h : B -> C -> D) (f : A -> B) (g : A -> C) l : zip h (map f l) (map g l) = map (fun x => h (f x) (g x)) l.
Proof. unfold zip. induction l as [|x l IH]; cbn; [reflexivity|]. now rewrite IH. Qed.
Lemma repeat_map {A B} (x : B) (l : list A) : repeat x (length l) = map (fun _ => x) l.
Proof. induction l; cbn; congruence. Qed.

Lemma wedge_length_aux d k m : (k + m + 1 = d)%nat ->
  (2 * length (flat_map (fun i => map (fun j => (i, j)) (seq (i + 1) (d - (i + 1)))) (seq k m)) = m * (m + 1))%nat.
Proof.
  revert k. induction m as [|m IH]; intros k E; cbn [seq flat_map]; [reflexivity|].
  rewrite app_length, map_length, seq_length. specialize (IH (S k)). nia.
Qed.
Lemma wedge_length d : (d * (d - 1) / 2 = length (wedge_pairs d))%nat.
Proof.
  destruct d as [|d]; [reflexivity|]. symmetry. apply Nat.div_unique_exact; [discriminate|].
  unfold wedge_pairs. rewrite (wedge_length_aux (S d) 0 (S d - 1)) by lia. replace (S d - 1)%nat with d by lia. lia.
Qed.

Lemma nth_to_V (V : vspace K) i x : (i < vs_dim V)%nat -> nth i (to_V V x) 0 = vs_coord V i x.
Proof.
  intros H. unfold to_V. rewrite (nth_indep _ 0 (vs_coord V 0 x)) by (rewrite map_length, seq_length; lia).
  rewrite (map_nth (fun i => vs_coord V i x)). now rewrite seq_nth.
Qed.
Lemma to_V_length (V : vspace K) x : length (to_V V x) = vs_dim V.
Proof. unfold to_V. now rewrite map_length, seq_length. Qed.
Lemma wedge_pairs_lt d i j : In (i, j) (wedge_pairs d) <-> (i < j < d)%nat.
Proof.
  unfold wedge_pairs. rewrite in_flat_map. split.
  - intros (x & Hx & Hy). apply in_map_iff in Hy. destruct Hy as (y & E & Hy). apply in_seq in Hx, Hy.
    assert (x = i) by (exact (f_equal fst E)). assert (y = j) by (exact (f_equal snd E)). lia.
  - intros H. exists i. rewrite in_seq. split; [lia|]. apply in_map_iff. exists j. rewrite in_seq. split; [reflexivity|lia].
Qed.

Definition alt (f g : vec K -> K) (v w : vec K) : K := f v * g w - g v * f w.
Lemma wedge_to_V (V : vspace K) (pr : vec K -> K) v w :
  wedge_product (to_V V (pr v)) (to_V V (pr w)) =
  map (fun ij => alt (fun u => vs_coord V (fst ij) (pr u)) (fun u => vs_coord V (snd ij) (pr u)) v w) (wedge_pairs (vs_dim V)).
Proof.
  unfold wedge_product. rewrite to_V_length. apply map_ext_in. intros [i j] Hi. apply wedge_pairs_lt in Hi. cbn [fst snd].
  rewrite !nth_to_V by lia. reflexivity.
Qed.
Lemma tensor_to_V (V : vspace K) x y : tensor_product (to_V V x) (to_V V y) =
  map (fun j => map (fun i => vs_coord V i x * vs_coord V j y) (seq 0 (vs_dim V))) (seq 0 (vs_dim V)).
Proof.
  unfold tensor_product. rewrite to_V_length. apply map_ext_in. intros j Hj. apply map_ext_in. intros i Hi.
  apply in_seq in Hi, Hj. rewrite !nth_to_V by lia. reflexivity.
Qed.

Lemma fold_j {A B} (idx : list A) (idy : list A) (rows : list B) (F : nat -> A -> K) (G : nat -> A -> K) (H H' : nat -> B -> B -> K)
  (f : A -> K) (g : A -> K) (h : B -> B -> K) is :
  fold_left (fun (J : jinv) i => let '(Jxx, Jyy, Jxy) := J in
    (v_add Jxx (map (F i) idx), v_add Jyy (map (G i) idy),
     m_sub (m_add Jxy (map (fun j => map (fun k => H i j k) rows) rows)) (map (fun j => map (fun k => H' i j k) rows) rows)))
    is (map f idx, map g idy, map (fun j => map (fun k => h j k) rows) rows) =
  (map (fun x => fold_left (fun t i => t + F i x) is (f x)) idx,
   map (fun x => fold_left (fun t i => t + G i x) is (g x)) idy,
   map (fun j => map (fun k => fold_left (fun t i => t + (H i j k - H' i j k)) is (h j k)) rows) rows).
Proof.
  revert f g h. induction is as [|i is IH]; intros f g h; cbn [fold_left]; [reflexivity|].
  assert (E1 : v_add (map f idx) (map (F i) idx) = map (fun x => f x + F i x) idx) by apply zip_map.
  assert (E2 : v_add (map g idy) (map (G i) idy) = map (fun x => g x + G i x) idy) by apply zip_map.
  assert (E3 : m_sub (m_add (map (fun j => map (fun k => h j k) rows) rows) (map (fun j => map (fun k => H i j k) rows) rows))
     (map (fun j => map (fun k => H' i j k) rows) rows) = map (fun j => map (fun k => h j k + (H i j k - H' i j k)) rows) rows).
  { unfold m_add, m_sub, v_add, v_sub. rewrite !zip_map. apply map_ext. intros j. rewrite !zip_map. apply map_ext. intros k. ring. }
  rewrite E1, E2, E3, IH. reflexivity.
Qed.

Lemma fold_left_ext' {A B} (f g : A -> B -> A) l a : (forall a b, f a b = g a b) -> fold_left f l a = fold_left g l a.
Proof. intros H. revert a. induction l; intros; cbn; [reflexivity|]. rewrite H. apply IHl. Qed.

Lemma nth_closed (P : polygon K) i : (i <= length P)%nat -> P <> nil -> nth i (P ++ firstn 1 P) vzero = vertex P i.
Proof.
  intros H N. destruct (Nat.eq_dec i (length P)) as [->|D].
  - rewrite vertex_n by auto. rewrite app_nth2, Nat.sub_diag by lia. destruct P; [congruence|reflexivity].
  - rewrite vertex_lt by lia. apply app_nth1. lia.
Qed.

Definition j_spec (V : vspace K) (P : polygon K) : jinv :=
  (map (fun ij => csum (alt (xc V (fst ij)) (xc V (snd ij))) P) (wedge_pairs (vs_dim V)),
   map (fun ij => csum (alt (yc V (fst ij)) (yc V (snd ij))) P) (wedge_pairs (vs_dim V)),
   map (fun j => map (fun i => csum (alt (xc V i) (yc V j)) P) (seq 0 (vs_dim V))) (seq 0 (vs_dim V))).

Lemma polygon_j_spec (V : vspace K) P : polygon_j V P = j_spec V P.
Proof.
  set (d := vs_dim V).
  set (FX := fun i ij => alt (xc V (fst ij)) (xc V (snd ij)) (nth i (P ++ firstn 1 P) vzero) (nth (i + 1) (P ++ firstn 1 P) vzero)).
  set (FY := fun i ij => alt (yc V (fst ij)) (yc V (snd ij)) (nth i (P ++ firstn 1 P) vzero) (nth (i + 1) (P ++ firstn 1 P) vzero)).
  set (H1 := fun i j k => xc V k (nth i (P ++ firstn 1 P) vzero) * yc V j (nth (i + 1) (P ++ firstn 1 P) vzero)).
  set (H2 := fun i j k => xc V k (nth (i + 1) (P ++ firstn 1 P) vzero) * yc V j (nth i (P ++ firstn 1 P) vzero)).
  pose proof (fold_j (wedge_pairs d) (wedge_pairs d) (seq 0 d) FX FY H1 H2 (fun _ => 0) (fun _ => 0) (fun _ _ => 0)
    (seq 0 (length (P ++ firstn 1 P) - 1))) as E.
  assert (L : (length (P ++ firstn 1 P) - 1)%nat = length P) by (rewrite app_length; destruct P; cbn; lia).
  assert (S : forall f : vec K -> vec K -> K, fold_left (fun t i => t + f (nth i (P ++ firstn 1 P) vzero) (nth (i + 1) (P ++ firstn 1 P) vzero))
    (seq 0 (length (P ++ firstn 1 P) - 1)) 0 = csum f P).
  { intros f. rewrite L, <- fold_csum. apply fold_left_ext_in. intros i Hi. apply in_seq in Hi.
    assert (P <> nil) by (destruct P; cbn in Hi; [lia|discriminate]).
    rewrite !nth_closed by (auto; lia). now rewrite Nat.add_1_r. }
  unfold j_spec. fold d. transitivity (fold_left
           (fun (J : jinv) (i : nat) =>
            let '(Jxx, Jyy, Jxy) := J in
            (v_add Jxx (map (FX i) (wedge_pairs d)), v_add Jyy (map (FY i) (wedge_pairs d)),
             m_sub (m_add Jxy (map (fun j : nat => map (fun k : nat => H1 i j k) (seq 0 d)) (seq 0 d)))
               (map (fun j : nat => map (fun k : nat => H2 i j k) (seq 0 d)) (seq 0 d))))
           (seq 0 (length (P ++ firstn 1 P) - 1))
           (map (fun _ : nat * nat => 0) (wedge_pairs d), map (fun _ : nat * nat => 0) (wedge_pairs d),
            map (fun _ : nat => map (fun _ : nat => 0) (seq 0 d)) (seq 0 d))).
  - unfold polygon_j. fold d. rewrite wedge_length, repeat_map.
    replace (repeat (repeat 0 d) d) with (map (fun _ : nat => map (fun _ : nat => (0 : K)) (seq 0 d)) (seq 0 d)).
    2:{ rewrite <- !repeat_map, !seq_length. reflexivity. }
    apply fold_left_ext'. intros [[J1 J2] J3] i.
    rewrite (wedge_to_V V fst), (wedge_to_V V snd), !tensor_to_V. reflexivity.
  - rewrite E. f_equal; [f_equal|].
    + apply map_ext. intros ij. apply S.
    + apply map_ext. intros ij. apply S.
    + apply map_ext. intros j. apply map_ext. intros i.
      rewrite <- (S (alt (xc V i) (yc V j))). apply fold_left_ext_in. intros k _. unfold H1, H2, alt. ring.
Qed.

(** ** the values for an arbitrary sum of alternating forms *)
Definition j_of (V : vspace K) (S : (vec K -> vec K -> K) -> K) : jinv :=
  (map (fun ij => S (alt (xc V (fst ij)) (xc V (snd ij)))) (wedge_pairs (vs_dim V)),
   map (fun ij => S (alt (yc V (fst ij)) (yc V (snd ij)))) (wedge_pairs (vs_dim V)),
   map (fun j => map (fun i => S (alt (xc V i) (yc V j))) (seq 0 (vs_dim V))) (seq 0 (vs_dim V))).

Definition additive (f : vec K -> K) := forall v w, f (vadd v w) = f v + f w.
Lemma xc_add V i : additive (xc V i).
Proof. intros v w. apply vs_add. Qed.
Lemma yc_add V i : additive (yc V i).
Proof. intros v w. apply vs_add. Qed.
Lemma coo_add V i : additive (coo V i).
Proof. unfold coo. destruct (_ <? _)%nat; [apply xc_add|apply yc_add]. Qed.

Lemma j_of_ext V S S' : (forall f g, additive f -> additive g -> S (alt f g) = S' (alt f g)) -> j_of V S = j_of V S'.
Proof.
  intros H. unfold j_of. f_equal; [f_equal|].
  - apply map_ext. intros. apply H; apply xc_add.
  - apply map_ext. intros. apply H; apply yc_add.
  - apply map_ext. intros. apply map_ext. intros. apply H; [apply xc_add|apply yc_add].
Qed.
Lemma j_of_add V S S' : j_add (j_of V S) (j_of V S') = j_of V (fun f => S f + S' f).
Proof.
  unfold j_of, j_add, v_add, m_add. rewrite !zip_map. f_equal. apply map_ext. intros j. unfold v_add. now rewrite zip_map.
Qed.
Lemma polygon_j_of V P : polygon_j V P = j_of V (fun f => csum f P).
Proof. apply polygon_j_spec. Qed.
Lemma period_csum f g P : period_form P f g = csum (alt f g) P.
Proof. unfold period_form, sum_to. now rewrite <- fold_csum. Qed.

Lemma alt_anti f g v w : alt f g v w + alt f g w v = 0.
Proof. unfold alt. ring. Qed.
Lemma alt_translate f g P u : additive f -> additive g -> csum (alt f g) (translate P u) = csum (alt f g) P.
Proof.
  intros Hf Hg. unfold translate. rewrite csum_map.
  transitivity (csum (fun a b => alt f g a b + ((f u * g b - g u * f b) - (f u * g a - g u * f a))) P).
  - apply csum_ext. intros a b. unfold alt. rewrite !Hf, !Hg. ring.
  - rewrite (csum_add (alt f g) (fun a b => (f u * g b - g u * f b) - (f u * g a - g u * f a))).
    rewrite (csum_tele (fun b => f u * g b - g u * f b)). ring.
Qed.
Lemma alt_rev f g P : csum (alt f g) (rev P) = - csum (alt f g) P.
Proof.
  rewrite csum_rev. transitivity (- (1) * csum (alt f g) P); [|ring]. rewrite <- csum_scale. apply csum_ext. intros. unfold alt. ring.
Qed.

(** ** surfaces *)
Notation nv := (@length (vec K) : polygon K -> nat).
Notation surf := (@surf (polygon K)).
Definition pol (s : surf) (l : label) : polygon K := match get_polygon s l with Ok P => P | Err _ => nil end.
Fixpoint tot (s : surf) (ls : list label) (f : vec K -> vec K -> K) : K :=
  match ls with nil => 0 | l :: ls => csum f (pol s l) + tot s ls f end.
Lemma tot_perm s ls ls' f : Permutation ls ls' -> tot s ls f = tot s ls' f.
Proof. intros H. induction H; cbn; [reflexivity|now rewrite IHPermutation|ring|congruence]. Qed.
Lemma tot_ext s s' ls f : (forall l, In l ls -> pol s l = pol s' l) -> tot s ls f = tot s' ls f.
Proof. induction ls as [|l ls IH]; intros H; cbn; [reflexivity|]. rewrite (H l) by (now left). rewrite IH; auto. intros; apply H; now right. Qed.

Lemma surface_j_fold V s ls S : (forall l, In l ls -> is_label s l) ->
  fold_left (fun J l => match J with Ok J => match get_polygon s l with Ok P => Ok (j_add J (polygon_j V P)) | Err x => Err x end | Err x => Err x end)
    ls (Ok (j_of V S)) = Ok (j_of V (fun f => S f + tot s ls f)).
Proof.
  revert S. induction ls as [|l ls IH]; intros S H; cbn [fold_left].
  - f_equal. apply j_of_ext. intros. cbn. ring.
  - destruct (H l) as [P E]; [now left|]. rewrite E, polygon_j_of, j_of_add, IH by (intros; apply H; now right).
    f_equal. apply j_of_ext. intros. cbn [tot]. unfold pol at 1. rewrite E. ring.
Qed.
Lemma surface_j_spec V s : good nv s -> polys s <> nil ->
  exists ls, iter_labels nv s = Ok ls /\ NoDup ls /\ (forall l, In l ls <-> is_label s l) /\ surface_j V s = Ok (j_of V (tot s ls)).
Proof.
  intros G N. destruct (iter_labels_spec nv s G) as (ls & E & ND & H). exists ls. split; [exact E|]. split; [exact ND|].
  assert (H' : forall l, In l ls <-> is_label s l) by (intros l; rewrite is_label_keys; apply H). split; [exact H'|].
  unfold surface_j. change (iter_labels (length (A:=vec K)) s) with (iter_labels nv s). rewrite E. destruct ls as [|l ls].
  - destruct (polys s) as [|[k p] r] eqn:Q; [congruence|]. destruct (proj2 (H k)). now left.
  - destruct (proj1 (H' l)) as [P EP]; [now left|]. cbn [bind]. rewrite EP. cbn [bind]. rewrite polygon_j_of.
    etransitivity; [apply surface_j_fold; intros m Hm; apply H'; now right|]. f_equal. apply j_of_ext. intros f g _ _.
    cbn [tot]. unfold pol at 1. now rewrite EP.
Qed.
(** exchanging polygons *)
Lemma surface_j_two V s s' l l' : good nv s -> good nv s' -> l <> l' -> is_label s l -> is_label s l' ->
  (forall m, is_label s' m <-> is_label s m) -> (forall m, m <> l -> m <> l' -> get_polygon s' m = get_polygon s m) ->
  (forall f g, additive f -> additive g -> csum (alt f g) (pol s' l) + csum (alt f g) (pol s' l') = csum (alt f g) (pol s l) + csum (alt f g) (pol s l')) ->
  surface_j V s' = surface_j V s.
Proof.
  intros G G' D Hl Hl' HL O E.
  assert (N : polys s <> nil) by (intros Q; apply is_label_keys in Hl; rewrite Q in Hl; destruct Hl).
  assert (N' : polys s' <> nil) by (intros Q; apply HL, is_label_keys in Hl; rewrite Q in Hl; destruct Hl).
  destruct (surface_j_spec V s G N) as (ls & _ & ND & HI & ->). destruct (surface_j_spec V s' G' N') as (ls' & _ & ND' & HI' & ->).
  f_equal. apply j_of_ext. intros f g Hf Hg.
  rewrite (tot_perm s' ls' ls) by (apply NoDup_Permutation; auto; intros m; now rewrite HI, HI', HL).
  destruct (in_split l ls) as (a & b & ->); [now apply HI|].
  assert (Pm : Permutation (a ++ l :: b) (l :: a ++ b)) by (symmetry; apply Permutation_middle).
  rewrite !(tot_perm _ _ _ _ Pm). apply HI in Hl'. 
  assert (I' : In l' (a ++ b)).
  { apply (Permutation_in _ Pm) in Hl'. destruct Hl' as [X|X]; [congruence|exact X]. }
  assert (ND2 : NoDup (l :: a ++ b)) by (eapply Permutation_NoDup; eauto).
  destruct (in_split l' (a ++ b) I') as (c & d & EQ). rewrite EQ in *.
  assert (Pm2 : Permutation (l :: c ++ l' :: d) (l :: l' :: c ++ d)) by (constructor; symmetry; apply Permutation_middle).
  rewrite !(tot_perm _ _ _ _ Pm2). cbn [tot].
  rewrite (tot_ext s' s (c ++ d)).
  - rewrite (fadd_assoc K), (fadd_assoc K). now rewrite E.
  - intros m Hm. assert (m <> l /\ m <> l').
    { pose proof (Permutation_NoDup Pm2 ND2) as X. inversion X as [|? ? X1 X2]; subst. inversion X2 as [|? ? X3 X4]; subst.
      split; intros ->; [apply X1; now right|now apply X3]. }
    unfold pol. now rewrite O by tauto.
Qed.

(** ** linear maps *)
Lemma sum_to_S n (f : nat -> K) : sum_to (S n) f = sum_to n f + f n.
Proof. unfold sum_to. rewrite seq_S, fold_left_app. reflexivity. Qed.
Lemma sum_to_ext n (f g : nat -> K) : (forall i, (i < n)%nat -> f i = g i) -> sum_to n f = sum_to n g.
Proof. intros H. apply fold_left_ext_in. intros i Hi. apply in_seq in Hi. apply H. lia. Qed.
Lemma sum_to_mul n (f : nat -> K) c : sum_to n f * c = sum_to n (fun i => f i * c).
Proof. induction n as [|n IH]; [unfold sum_to; cbn; ring|]. rewrite !sum_to_S, <- IH. ring. Qed.
Lemma sum_to_sub n (f g : nat -> K) : sum_to n f - sum_to n g = sum_to n (fun i => f i - g i).
Proof. induction n as [|n IH]; [unfold sum_to; cbn; ring|]. rewrite !sum_to_S, <- IH. ring. Qed.
Lemma csum_sum n (F : nat -> vec K -> vec K -> K) P : csum (fun a b => sum_to n (fun i => F i a b)) P = sum_to n (fun i => csum (F i) P).
Proof.
  induction n as [|n IH].
  - unfold sum_to; cbn. destruct P as [|p l]; cbn; [reflexivity|]. generalize (l ++ [p]). intros r. revert p.
    induction r; intros; cbn; [reflexivity|]. rewrite IHr. ring.
  - rewrite sum_to_S, <- IH. rewrite (csum_ext _ (fun a b => sum_to n (fun i => F i a b) + F n a b)) by (intros; apply sum_to_S).
    now rewrite csum_add.
Qed.
Lemma J_linear (V : vspace K) (A : nat -> nat -> K) g P a b : describes V A g -> (a < 2 * vs_dim V)%nat -> (b < 2 * vs_dim V)%nat ->
  J_entry V (map (mapply g) P) a b =
  sum_to (2 * vs_dim V) (fun c => sum_to (2 * vs_dim V) (fun d => A a c * A b d * J_entry V P c d)).
Proof.
  intros H Ha Hb. unfold J_entry. rewrite period_csum, csum_map. set (n := (2 * vs_dim V)%nat) in *.
  transitivity (csum (fun v w => sum_to n (fun c => sum_to n (fun d => A a c * A b d * alt (coo V c) (coo V d) v w))) P).
  - apply csum_ext. intros v w. unfold alt. rewrite !(H _ a Ha), !(H _ b Hb). fold n.
    assert (B : forall x y, sum_to n (fun c => A a c * coo V c x) * sum_to n (fun d => A b d * coo V d y) =
      sum_to n (fun c => sum_to n (fun d => A a c * A b d * (coo V c x * coo V d y)))).
    { intros x y. rewrite sum_to_mul. apply sum_to_ext. intros c _. rewrite (fmul_comm K), sum_to_mul. apply sum_to_ext. intros. ring. }
    rewrite (fmul_comm K (sum_to n (fun b0 => A b b0 * coo V b0 v))). rewrite !B, sum_to_sub. apply sum_to_ext. intros c _.
    rewrite sum_to_sub. apply sum_to_ext. intros d _. ring.
  - rewrite (csum_sum n (fun c v w => sum_to n (fun d => A a c * A b d * alt (coo V c) (coo V d) v w))). apply sum_to_ext. intros c _.
    rewrite (csum_sum n (fun d v w => A a c * A b d * alt (coo V c) (coo V d) v w)). apply sum_to_ext. intros d _. rewrite csum_scale.
    now rewrite period_csum.
Qed.
Lemma J_anti (V : vspace K) P a b : J_entry V P a b = - J_entry V P b a.
Proof.
  unfold J_entry. rewrite !period_csum. transitivity (- (1) * csum (alt (coo V b) (coo V a)) P); [|ring].
  rewrite <- csum_scale. apply csum_ext. intros. unfold alt. ring.
Qed.
End P.
