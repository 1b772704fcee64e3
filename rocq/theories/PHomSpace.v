(** Proofs about homomorphisms of homology groups. *)
From Coq Require Import List Bool ZArith Arith Lia Ring.
From Verif Require Import MBase MDict PDict MHomSpace SHomSpace.
Import ListNotations.

Section P.
Context {R : Type} `{ER : EqB R}.
Variables (rO rI : R) (radd rmul : R -> R -> R) (ropp : R -> R).
Hypothesis Rth : ring_theory rO rI radd rmul (fun x y => radd x (ropp y)) ropp (@eq R).
Let Rth' : ring_theory rO rI radd rmul (fun x y => radd x (ropp y)) ropp (@eq R) := Rth.
Add Ring RR : Rth'.
Notation rsum := (rsum rO radd).
Notation vsum := (vsum radd).
Notation vtimes := (vtimes rmul).
Notation basis_vec := (basis_vec rO rI).
Notation entry := (mx_entry rO).
Notation mx := (@mx R).

Lemma rsum_ext n f g : (forall i, i < n -> f i = g i) -> rsum n f = rsum n g.
Proof. induction n as [|n IH]; intros H; cbn; auto. rewrite IH, H; auto. Qed.
Lemma rsum_0 n f : (forall i, i < n -> f i = rO) -> rsum n f = rO.
Proof. induction n as [|n IH]; intros H; cbn; auto. rewrite IH, H; auto. ring. Qed.
Lemma rsum_add n f g : rsum n (fun i => radd (f i) (g i)) = radd (rsum n f) (rsum n g).
Proof. induction n as [|n IH]; cbn; [ring|]. rewrite IH. ring. Qed.
Lemma rsum_scale n c f : rsum n (fun i => rmul c (f i)) = rmul c (rsum n f).
Proof. induction n as [|n IH]; cbn; [ring|]. rewrite IH. ring. Qed.
Lemma rsum_swap m n f : rsum m (fun i => rsum n (f i)) = rsum n (fun j => rsum m (fun i => f i j)).
Proof. induction m as [|m IH]; cbn; [now rewrite rsum_0|]. rewrite IH, <- rsum_add. reflexivity. Qed.
Lemma rsum_one n f k : k < n -> (forall i, i < n -> i <> k -> f i = rO) -> rsum n f = f k.
Proof.
  induction n as [|n IH]; intros Hk H; [lia|]. cbn. destruct (Nat.eq_dec k n) as [->|N].
  - rewrite rsum_0; [ring|]. intros i Hi. apply H; lia.
  - rewrite IH; [|lia|intros; apply H; lia]. rewrite (H n); [ring|lia|auto].
Qed.
Lemma rsum_shift n f : rsum (S n) f = radd (f 0) (rsum n (fun i => f (S i))).
Proof. induction n as [|n IH]; [cbn; ring|]. cbn [MHomSpace.rsum] in *. rewrite IH. ring. Qed.

Lemma vsum_length u : forall v, length u = length v -> length (vsum u v) = length u.
Proof. induction u as [|x u IH]; intros [|y v] H; cbn in *; auto; try lia. Qed.
Lemma nth_vsum u : forall v i, length u = length v -> nth i (vsum u v) rO = radd (nth i u rO) (nth i v rO).
Proof. induction u as [|x u IH]; intros [|y v] i H; cbn in *; try lia; [destruct i; ring|]. destruct i; auto. Qed.
Lemma nth_vtimes x v i : nth i (vtimes x v) rO = rmul x (nth i v rO).
Proof. revert i. induction v as [|y v IH]; intros [|i]; cbn; auto; ring. Qed.
Lemma vtimes_length x v : length (vtimes x v) = length v. Proof. apply map_length. Qed.
Lemma basis_length n : forall i, length (basis_vec n i) = n.
Proof. induction n as [|n IH]; intros [|i]; cbn; auto. now rewrite repeat_length. Qed.
Lemma nth_basis n : forall i j, j < n -> nth j (basis_vec n i) rO = if i =? j then rI else rO.
Proof. induction n as [|n IH]; intros [|i] [|j] H; cbn; auto; try lia; [apply nth_repeat|]. apply IH. lia. Qed.
Lemma list_ext (u v : list R) : length u = length v -> (forall i, i < length u -> nth i u rO = nth i v rO) -> u = v.
Proof. intros. now apply (nth_ext _ _ rO rO). Qed.
Lemma unit_basis n i : unit_vec rO rI n i = basis_vec n i.
Proof.
  unfold unit_vec. apply list_ext; rewrite map_length, seq_length; [now rewrite basis_length|]. intros j Hj. rewrite nth_basis by auto.
  rewrite (nth_indep _ rO (if i =? 0 then rI else rO)) by (now rewrite map_length, seq_length). rewrite (map_nth (fun j => if i =? j then rI else rO)). now rewrite seq_nth.
Qed.
Lemma nth_map_seq {A} (f : nat -> A) n i d : i < n -> nth i (map f (seq 0 n)) d = f i.
Proof. intros H. rewrite (nth_indep _ d (f 0)) by (now rewrite map_length, seq_length). rewrite map_nth. now rewrite seq_nth. Qed.
Lemma dot_rsum u : forall v, length u = length v -> dot rO radd rmul u v = rsum (length v) (fun j => rmul (nth j u rO) (nth j v rO)).
Proof. induction u as [|x u IH]; intros [|y v] H; cbn [dot length] in *; try lia; auto. rewrite rsum_shift. cbn [nth]. rewrite IH; auto. Qed.

(** ** linear maps *)
Definition trunc (k : nat) (v : list R) : list R := map (fun j => if j <? k then nth j v rO else rO) (seq 0 (length v)).
Lemma trunc_length k v : length (trunc k v) = length v. Proof. unfold trunc. now rewrite map_length, seq_length. Qed.
Lemma nth_trunc k v j : j < length v -> nth j (trunc k v) rO = if j <? k then nth j v rO else rO.
Proof. intros H. unfold trunc. now rewrite nth_map_seq. Qed.
Lemma linear_expand n m T v i : linear_map radd rmul n m T -> length v = n ->
  nth i (T v) rO = rsum n (fun j => rmul (nth i (T (basis_vec n j)) rO) (nth j v rO)).
Proof.
  intros [L A S] N.
  assert (G : forall k, k <= n -> nth i (T (trunc k v)) rO = rsum k (fun j => rmul (nth i (T (basis_vec n j)) rO) (nth j v rO))).
  { induction k as [|k IH]; intros Hk; cbn [MHomSpace.rsum].
    - replace (trunc 0 v) with (vtimes rO v).
      + rewrite S by auto. rewrite nth_vtimes. ring.
      + apply list_ext; [now rewrite vtimes_length, trunc_length|]. rewrite vtimes_length. intros j Hj. rewrite nth_vtimes, nth_trunc by auto. cbn. ring.
    - replace (trunc (Datatypes.S k) v) with (vsum (trunc k v) (vtimes (nth k v rO) (basis_vec n k))).
      + assert (LB : length (vtimes (nth k v rO) (basis_vec n k)) = n) by (now rewrite vtimes_length, basis_length).
        assert (LT : length (trunc k v) = n) by (now rewrite trunc_length).
        rewrite A by auto. rewrite nth_vsum by (now rewrite !L). rewrite IH by lia. f_equal. rewrite S by apply basis_length. rewrite nth_vtimes. ring.
      + assert (LL : length (trunc k v) = length (vtimes (nth k v rO) (basis_vec n k))) by (rewrite trunc_length, vtimes_length, basis_length; auto).
        apply list_ext; rewrite vsum_length by auto; [now rewrite !trunc_length|]. rewrite trunc_length. intros j Hj. rewrite nth_vsum, nth_vtimes by auto. rewrite !nth_trunc, nth_basis by lia.
        destruct (Nat.eqb_spec k j) as [EQ|NE].
        * subst j. rewrite Nat.ltb_irrefl. destruct (Nat.ltb_spec k (Datatypes.S k)); [ring|lia].
        * destruct (Nat.ltb_spec j k), (Nat.ltb_spec j (Datatypes.S k)); try lia; ring. }
  specialize (G n (le_n n)). rewrite <- G. do 2 f_equal. apply list_ext; [now rewrite trunc_length|]. intros j Hj. rewrite nth_trunc by auto. destruct (Nat.ltb_spec j n); auto. lia.
Qed.

(** ** matrices *)
Lemma make_entry nr nc f i j : i < nr -> j < nc -> entry (mx_make nr nc f) i j = f i j.
Proof. intros Hi Hj. unfold mx_entry, mx_make. cbn [mx_rows]. rewrite (nth_map_seq (fun i => map (f i) (seq 0 nc))) by auto. now rewrite nth_map_seq. Qed.
Lemma make_ext nr nc f g : (forall i j, i < nr -> j < nc -> f i j = g i j :> R) -> mx_make nr nc f = mx_make nr nc g.
Proof. intros H. unfold mx_make. f_equal. apply map_ext_in. intros i Hi. apply map_ext_in. intros j Hj. apply in_seq in Hi, Hj. apply H; lia. Qed.
Definition mx_wf (m : mx) : Prop := length (mx_rows m) = mx_nr m /\ forall r, In r (mx_rows m) -> length r = mx_nc m.
Lemma make_wf nr nc f : mx_wf (mx_make nr nc f).
Proof. split; cbn; [now rewrite map_length, seq_length|]. intros r H. apply in_map_iff in H. destruct H as [i [<- _]]. now rewrite map_length, seq_length. Qed.
Lemma wf_ext m m' : mx_wf m -> mx_wf m' -> mx_nr m = mx_nr m' -> mx_nc m = mx_nc m' -> (forall i j, i < mx_nr m -> j < mx_nc m -> entry m i j = entry m' i j) -> m = m'.
Proof.
  destruct m as [nr nc rows], m' as [nr' nc' rows']. intros [A B] [A' B'] E1 E2 E3. cbn in *. subst nr' nc'. f_equal; [exact E1|].
  apply (nth_ext _ _ [] []); [lia|]. intros i Hi. rewrite A in Hi. assert (L : length (nth i rows []) = nc) by (apply B, nth_In; lia).
  assert (L' : length (nth i rows' []) = nc) by (apply B', nth_In; lia). apply list_ext; [lia|]. intros j Hj. rewrite L in Hj. apply E3; auto.
Qed.
Lemma eq_list_eq {A} (f : A -> A -> bool) (H : forall x y, f x y = true <-> x = y) l : forall l', eq_list f l l' = true <-> l = l'.
Proof.
  induction l as [|x l IH]; intros [|y l']; cbn; try (split; congruence). rewrite andb_true_iff, H, IH. split; [intros [-> ->]; auto|intros E; injection E as <- <-; auto].
Qed.
Lemma mx_eqb_eq m m' : mx_eqb m m' = true <-> m = m'.
Proof.
  unfold mx_eqb. rewrite !andb_true_iff, !Nat.eqb_eq, (eq_list_eq (eq_list eqb)) by (intros; apply eq_list_eq; intros; apply eqb_ok).
  destruct m, m'; cbn. split; [intros [[-> ->] ->]; auto|intros E; injection E as <- <- <-; auto].
Qed.
Lemma mx_bool_false m : mx_wf m -> (mx_bool rO m = false <-> forall i j, i < mx_nr m -> j < mx_nc m -> entry m i j = rO).
Proof.
  intros [A B]. unfold mx_bool. split.
  - intros E i j Hi Hj. destruct (eqb_case (entry m i j) rO) as [[_ H]|[H _]]; auto. exfalso. assert (X : existsb (existsb (fun x => negb (eqb x rO))) (mx_rows m) = true); [|congruence].
    apply existsb_exists. exists (nth i (mx_rows m) []). assert (I : In (nth i (mx_rows m) []) (mx_rows m)) by (apply nth_In; lia). split; auto.
    apply existsb_exists. exists (entry m i j). split; [apply nth_In; rewrite B; auto|]. now rewrite H.
  - intros H. destruct (existsb _ (mx_rows m)) eqn:E; auto. apply existsb_exists in E. destruct E as [r [I E]]. apply existsb_exists in E. destruct E as [x [I' E]].
    apply (In_nth _ _ []) in I. destruct I as (i & Hi & <-). apply (In_nth _ _ rO) in I'. destruct I' as (j & Hj & <-).
    change (nth j (nth i (mx_rows m) []) rO) with (entry m i j) in E. rewrite H in E; [|lia|rewrite B in Hj; auto; apply nth_In; lia]. now rewrite eqb_refl in E.
Qed.

(** ** homomorphisms *)
Context {G C : Type} `{EG : EqB G}.
Variables (rank : G -> nat) (coeffs : G -> C -> res (list R)) (lift : G -> list R -> C).
Hypothesis HG : homology_groups rank coeffs lift.
Notation mcall := (mcall rO radd rmul coeffs lift).
Notation mmatrix := (mmatrix rO rI radd rmul rank coeffs lift).
Notation Mor_ := (@MHomSpace.Mor R G C).
Notation linear d c := (linear_map radd rmul (rank d) (rank c)).
Definition does (f : @mor R G C) T := acts_as coeffs (mcall f) (m_dom f) (m_cod f) T.
Definition computable (f : @mor R G C) := 0 < rank (m_dom f) \/ rank (m_cod f) = 0.

Lemma hom_matrix_inv d (m : mx) c f : hom_matrix (C := C) rank d m (Some c) = Ok f <-> mx_nc m = rank d /\ mx_nr m = rank c /\ f = Mor_ d c (KMatrix m).
Proof.
  unfold hom_matrix. cbn [bind]. destruct (Nat.eqb_spec (mx_nc m) (rank d)) as [E|E]; cbn [negb]; [|split; [discriminate|tauto]].
  destruct (Nat.eqb_spec (mx_nr m) (rank c)) as [E'|E']; cbn [negb]; [|split; [discriminate|tauto]]. split; [intros H; injection H as <-; auto|intros (_ & _ & ->); auto].
Qed.
Lemma matrix_does d c m T : mx_nc m = rank d -> mx_nr m = rank c -> (forall v, length v = rank d -> length (T v) = rank c) ->
  (forall v i, length v = rank d -> i < rank c -> nth i (T v) rO = rsum (rank d) (fun j => rmul (entry m i j) (nth j v rO))) -> does (Mor_ d c (KMatrix m)) T.
Proof.
  intros E1 E2 L H x v Hx. cbn [m_dom m_cod] in *. pose proof (hg_rank _ _ _ HG _ _ _ Hx) as LV. exists (lift c (T v)). split; [|apply (hg_lift _ _ _ HG), L; auto].
  unfold MHomSpace.mcall. cbn [m_kind m_dom m_cod]. rewrite Hx. cbn [bind]. unfold mx_vec. rewrite E1, LV, Nat.eqb_refl. cbn [bind]. do 2 f_equal.
  apply list_ext; rewrite map_length, seq_length; [rewrite L; auto|]. intros i Hi. rewrite nth_map_seq by auto. rewrite H; auto. congruence.
Qed.
Lemma make_does d c F T : (forall v, length v = rank d -> length (T v) = rank c) ->
  (forall v i, length v = rank d -> i < rank c -> nth i (T v) rO = rsum (rank d) (fun j => rmul (F i j) (nth j v rO))) -> does (Mor_ d c (KMatrix (mx_make (rank c) (rank d) F))) T.
Proof. intros L H. apply matrix_does; auto. intros v i Lv Hi. rewrite H by auto. apply rsum_ext. intros j Hj. now rewrite make_entry. Qed.
Lemma does_unique f T T' v : does f T -> does f T' -> length v = rank (m_dom f) -> T v = T' v.
Proof. intros D D' L. pose proof (hg_lift _ _ _ HG _ v L) as E. destruct (D _ _ E) as (y & Y1 & Y2), (D' _ _ E) as (y' & Y1' & Y2'). congruence. Qed.
Lemma matrix_ok f T : does f T -> linear (m_dom f) (m_cod f) T -> computable f ->
  mmatrix f = Ok (mx_make (rank (m_cod f)) (rank (m_dom f)) (fun i j => nth i (T (basis_vec (rank (m_dom f)) j)) rO)).
Proof.
  intros D L CP. unfold MHomSpace.mmatrix. set (n := rank (m_dom f)) in *. set (r := rank (m_cod f)) in *.
  assert (RO : forall i, bind (mcall f (hgen rO rI rank lift (m_dom f) i)) (fun y => coeffs (m_cod f) y) = Ok (T (basis_vec n i))).
  { intros i. unfold hgen. fold n. rewrite unit_basis. assert (E : coeffs (m_dom f) (lift (m_dom f) (basis_vec n i)) = Ok (basis_vec n i)) by (apply (hg_lift _ _ _ HG); apply basis_length).
    destruct (D _ _ E) as (y & Y1 & Y2). rewrite Y1. exact Y2. }
  rewrite (rmap_map _ (fun i => T (basis_vec n i))) by (intros; apply RO). cbn [bind]. f_equal. unfold mx_transpose. cbn [mx_of_rows mx_nr mx_nc].
  rewrite map_length, seq_length. assert (NC : (match map (fun i => T (basis_vec n i)) (seq 0 n) with [] => 0 | x :: _ => length x end) = r).
  { destruct n as [|n'] eqn:N; cbn [seq map].
    - destruct CP as [CP|CP]; fold n in CP; fold r in CP; [unfold n in N; lia|now rewrite CP].
    - apply (lm_length _ _ _ _ _ L). apply basis_length. }
  rewrite NC. apply make_ext. intros i j Hi Hj. unfold mx_entry, mx_of_rows. cbn [mx_rows]. now rewrite (nth_map_seq (fun i => T (basis_vec n i))).
Qed.
Lemma vsum_len u v n : length u = n -> length v = n -> length (vsum u v) = n. Proof. intros. rewrite vsum_length; congruence. Qed.

Lemma add_ok f g T T' : does f T -> does g T' -> m_dom g = m_dom f -> m_cod g = m_cod f -> linear (m_dom f) (m_cod f) T -> linear (m_dom f) (m_cod f) T' -> computable f ->
  exists h, madd rO rI radd rmul rank coeffs lift f g = Ok h /\ m_dom h = m_dom f /\ m_cod h = m_cod f /\ does h (fun v => vsum (T v) (T' v)).
Proof.
  intros D D' ED EC L L' CP. unfold madd. rewrite (matrix_ok f T D L CP). cbn [bind]. rewrite (matrix_ok g T' D'); rewrite ?ED, ?EC; auto; [|unfold computable; now rewrite ED, EC].
  cbn [bind]. unfold mx_add. cbn [mx_make mx_nr mx_nc]. rewrite !Nat.eqb_refl. cbn [andb bind].
  set (m := mx_make _ _ _). exists (Mor_ (m_dom f) (m_cod f) (KMatrix m)). split; [apply hom_matrix_inv; auto|]. split; [reflexivity|]. split; [reflexivity|].
  apply matrix_does; auto.
  - intros v Hv. apply vsum_len; [apply (lm_length _ _ _ _ _ L)|apply (lm_length _ _ _ _ _ L')]; auto.
  - intros v i Hv Hi. rewrite nth_vsum by (rewrite (lm_length _ _ _ _ _ L), (lm_length _ _ _ _ _ L'); auto). rewrite (linear_expand _ _ _ _ i L Hv), (linear_expand _ _ _ _ i L' Hv), <- rsum_add.
    apply rsum_ext. intros j Hj. unfold m. rewrite make_entry by auto. rewrite !make_entry by auto. ring.
Qed.
Lemma neg_ok f T : does f T -> linear (m_dom f) (m_cod f) T -> computable f ->
  exists h, mneg rO rI radd rmul ropp rank coeffs lift f = Ok h /\ m_dom h = m_dom f /\ m_cod h = m_cod f /\ does h (fun v => vtimes (ropp rI) (T v)).
Proof.
  intros D L CP. unfold mneg. rewrite (matrix_ok f T D L CP). cbn [bind]. set (m := mx_neg _ _ _). exists (Mor_ (m_dom f) (m_cod f) (KMatrix m)). split; [apply hom_matrix_inv; auto|]. split; [reflexivity|]. split; [reflexivity|].
  apply matrix_does; auto.
  - intros v Hv. rewrite vtimes_length. now apply (lm_length _ _ _ _ _ L).
  - intros v i Hv Hi. rewrite nth_vtimes. rewrite (linear_expand _ _ _ _ i L Hv), <- rsum_scale. apply rsum_ext. intros j Hj. unfold m, mx_neg. cbn [mx_nr mx_nc mx_make]. rewrite make_entry by auto. fold (@mx_make R). rewrite make_entry by auto. ring.
Qed.
Lemma scale_ok x f T : does f T -> linear (m_dom f) (m_cod f) T -> m_cod f = m_dom f ->
  exists h, mscale rO rI radd rmul rank coeffs lift x f = Ok h /\ m_dom h = m_dom f /\ m_cod h = m_cod f /\ does h (fun v => vtimes x (T v)).
Proof.
  intros D L E. assert (CP : computable f) by (unfold computable; rewrite E; lia). unfold mscale. rewrite (matrix_ok f T D L CP). cbn [bind]. set (m := mx_scale _ _ _ _). exists (Mor_ (m_dom f) (m_cod f) (KMatrix m)).
  split. { unfold hom_matrix. cbn [m mx_scale mx_make mx_nr mx_nc]. unfold m. cbn [mx_scale mx_make mx_nr mx_nc]. rewrite E, Nat.eqb_refl. cbn [bind]. rewrite Nat.eqb_refl. cbn [negb]. reflexivity. }
  split; [reflexivity|]. split; [reflexivity|]. apply matrix_does; auto.
  - intros v Hv. rewrite vtimes_length. now apply (lm_length _ _ _ _ _ L).
  - intros v i Hv Hi. rewrite nth_vtimes. rewrite (linear_expand _ _ _ _ i L Hv), <- rsum_scale. apply rsum_ext. intros j Hj. unfold m, mx_scale. cbn [mx_nr mx_nc mx_make]. rewrite make_entry by auto. fold (@mx_make R). rewrite make_entry by auto. ring.
Qed.
Lemma comp_ok f g T T' : does f T -> does g T' -> m_cod g = m_dom f -> linear (m_dom f) (m_cod f) T -> linear (m_dom g) (m_cod g) T' -> computable f -> computable g ->
  exists h, mcomp rO rI radd rmul rank coeffs lift f g = Ok h /\ m_dom h = m_dom g /\ m_cod h = m_cod f /\ does h (fun v => T (T' v)).
Proof.
  intros D D' E L L' CP CP'. unfold mcomp. rewrite (matrix_ok f T D L CP). cbn [bind]. rewrite (matrix_ok g T' D' L' CP'). cbn [bind]. unfold mx_mul. cbn [mx_make mx_nr mx_nc]. rewrite E, Nat.eqb_refl. cbn [bind].
  set (m := mx_make _ _ _). exists (Mor_ (m_dom g) (m_cod f) (KMatrix m)). split; [apply hom_matrix_inv; auto|]. split; [reflexivity|]. split; [reflexivity|].
  rewrite E in L'. apply matrix_does; auto.
  - intros v Hv. apply (lm_length _ _ _ _ _ L), (lm_length _ _ _ _ _ L'). auto.
  - intros v i Hv Hi. rewrite (linear_expand _ _ _ _ i L) by (now apply (lm_length _ _ _ _ _ L')).
    transitivity (rsum (rank (m_dom f)) (fun k => rsum (rank (m_dom g)) (fun j => rmul (rmul (nth i (T (basis_vec (rank (m_dom f)) k)) rO) (nth k (T' (basis_vec (rank (m_dom g)) j)) rO)) (nth j v rO)))).
    + apply rsum_ext. intros k Hk. rewrite (linear_expand _ _ _ _ k L' Hv), <- rsum_scale. apply rsum_ext. intros; ring.
    + rewrite rsum_swap. apply rsum_ext. intros j Hj. unfold m. rewrite make_entry by auto.
      transitivity (rmul (nth j v rO) (rsum (rank (m_dom f)) (fun k => rmul (nth i (T (basis_vec (rank (m_dom f)) k)) rO) (nth k (T' (basis_vec (rank (m_dom g)) j)) rO)))); [rewrite <- rsum_scale; apply rsum_ext; intros; ring|].
      transitivity (rmul (rsum (rank (m_dom f)) (fun k => rmul (nth i (T (basis_vec (rank (m_dom f)) k)) rO) (nth k (T' (basis_vec (rank (m_dom g)) j)) rO))) (nth j v rO)); [ring|]. f_equal. apply rsum_ext. intros k Hk. rewrite !make_entry; auto.
Qed.
Lemma bool_ok f T : does f T -> linear (m_dom f) (m_cod f) T -> computable f ->
  exists b, mbool rO rI radd rmul rank coeffs lift f = Ok b /\ (b = false <-> forall v, length v = rank (m_dom f) -> T v = repeat rO (rank (m_cod f))).
Proof.
  intros D L CP. unfold mbool. rewrite (matrix_ok f T D L CP). cbn [bind]. eexists. split; [reflexivity|]. rewrite mx_bool_false by apply make_wf. cbn [mx_nr mx_nc mx_make]. split.
  - intros H v Hv. apply list_ext; [rewrite repeat_length; now apply (lm_length _ _ _ _ _ L)|]. intros i Hi. rewrite (lm_length _ _ _ _ _ L) in Hi by auto. rewrite nth_repeat, (linear_expand _ _ _ _ i L Hv).
    apply rsum_0. intros j Hj. specialize (H i j Hi Hj). fold (@mx_make R) in H. rewrite make_entry in H by auto. rewrite H. ring.
  - intros H i j Hi Hj. fold (@mx_make R). rewrite make_entry by auto. rewrite H by apply basis_length. apply nth_repeat.
Qed.
Lemma eq_ok sm d c m d' c' m' f g : mx_wf m -> mx_wf m' -> hom_matrix (C := C) rank d m (Some c) = Ok f -> hom_matrix (C := C) rank d' m' (Some c') = Ok g ->
  (meq sm f g = true <-> d = d' /\ c = c' /\ forall T, does f T -> does g T).
Proof.
  intros W W' F F'. apply hom_matrix_inv in F, F'. destruct F as (A1 & A2 & ->), F' as (B1 & B2 & ->). unfold meq. cbn [m_kind m_dom m_cod].
  rewrite !andb_true_iff, mx_eqb_eq. split.
  - intros [[E1 E2] ->]. apply (proj1 (eqb_ok _ _)) in E1, E2. subst. auto.
  - intros (-> & -> & H). split; [split; apply eqb_refl|].
    set (T := fun v => map (fun i => rsum (rank d') (fun j => rmul (entry m i j) (nth j v rO))) (seq 0 (rank c'))).
    set (T' := fun v => map (fun i => rsum (rank d') (fun j => rmul (entry m' i j) (nth j v rO))) (seq 0 (rank c'))).
    assert (D : does (Mor_ d' c' (KMatrix m)) T) by (apply matrix_does; auto; [intros; unfold T; now rewrite map_length, seq_length|intros; unfold T; now rewrite nth_map_seq]).
    assert (D' : does (Mor_ d' c' (KMatrix m')) T') by (apply matrix_does; auto; [intros; unfold T'; now rewrite map_length, seq_length|intros; unfold T'; now rewrite nth_map_seq]).
    apply wf_ext; auto; try congruence. intros i j Hi Hj. rewrite A2 in Hi. rewrite A1 in Hj.
    pose proof (does_unique _ _ _ (basis_vec (rank d') j) (H T D) D' (basis_length _ _)) as Q. apply (f_equal (fun l => nth i l rO)) in Q. unfold T, T' in Q. rewrite !nth_map_seq in Q by auto.
    rewrite (rsum_one _ _ j), (rsum_one _ _ j) in Q; auto;
      try (intros k Hk NE; rewrite nth_basis by auto; destruct (Nat.eqb_spec j k); [congruence|ring]). rewrite nth_basis, Nat.eqb_refl in Q by auto.
    transitivity (rmul (entry m i j) rI); [ring|]. rewrite Q. ring.
Qed.
Lemma identity_ok g : does (midentity rO rI rank g) (fun v => v) /\ linear g g (fun v => v).
Proof.
  split; [|constructor; auto]. apply make_does; auto. intros v i Hv Hi. rewrite (rsum_one _ _ i); auto; [rewrite Nat.eqb_refl; ring|]. intros k Hk N. destruct (Nat.eqb_spec i k); [congruence|ring].
Qed.
Lemma zero_ok d c : exists f, mzero rO rank d c = Ok f /\ m_dom f = d /\ m_cod f = c /\ does f (fun _ => repeat rO (rank c)).
Proof.
  eexists. split; [apply hom_matrix_inv; cbn; auto|]. split; [reflexivity|]. split; [reflexivity|]. apply make_does; [intros; apply repeat_length|].
  intros v i Hv Hi. rewrite nth_repeat, rsum_0; auto. intros. ring.
Qed.
End P.
