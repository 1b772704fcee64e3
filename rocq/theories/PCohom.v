(** Proofs about cohomology classes. *)
From Coq Require Import List Bool ZArith Arith Lia Ring.
From Verif Require Import MBase MDict PDict MEq PEq MHomSpace SHomSpace PHomSpace MCohom SCohom.
Import ListNotations.

Section P.
Context {V : Type} `{EV : EqB V}.
Variables (vO vI : V) (vadd vmul : V -> V -> V) (vopp : V -> V) (inj : Z -> V).
Hypothesis Vth : ring_theory vO vI vadd vmul (fun x y => vadd x (vopp y)) vopp (@eq V).
Let Vth' : ring_theory vO vI vadd vmul (fun x y => vadd x (vopp y)) vopp (@eq V) := Vth.
Add Ring VV : Vth'.
Hypothesis inj_0 : inj 0%Z = vO.
Hypothesis inj_1 : inj 1%Z = vI.
Hypothesis inj_add : forall a b, inj (a + b)%Z = vadd (inj a) (inj b).
Notation ccall := (ccall vO vadd vmul inj).
Notation construct := (construct vO).
Notation vs := (rsum vO vadd).

Lemma Zth : ring_theory 0%Z 1%Z Z.add Z.mul (fun x y => Z.add x (Z.opp y)) Z.opp (@eq Z).
Proof. constructor; intros; ring. Qed.
Lemma zgen_generator n i : zgen n i = generator n i.
Proof. exact (unit_basis 0%Z 1%Z n i). Qed.
Lemma generator_inj n i j : i < n -> j < n -> generator n i = generator n j -> i = j.
Proof.
  intros Hi Hj E. apply (f_equal (fun l => nth i l 0%Z)) in E. unfold generator in E. rewrite !nth_basis in E by auto. rewrite Nat.eqb_refl in E. destruct (Nat.eqb_spec j i); auto. discriminate.
Qed.
Lemma zgens_NoDup n : NoDup (zgens n).
Proof.
  unfold zgens. assert (G : forall l, NoDup l -> (forall i, In i l -> i < n) -> NoDup (map (zgen n) l)).
  { induction l as [|a l IH]; intros N H; cbn; [constructor|]. inversion_clear N. constructor; [|apply IH; auto; intros; apply H; right; auto].
    intros I. apply in_map_iff in I. destruct I as (b & E & I). rewrite !zgen_generator in E. apply generator_inj in E; [congruence|apply H; right; auto|apply H; left; auto]. }
  apply G; [apply seq_NoDup|]. intros i I. apply in_seq in I. lia.
Qed.
Lemma In_zgens n k : In k (zgens n) <-> exists i, i < n /\ k = generator n i.
Proof.
  unfold zgens. rewrite in_map_iff. split.
  - intros (i & <- & I). apply in_seq in I. exists i. split; [lia|apply zgen_generator].
  - intros (i & Hi & ->). exists i. split; [apply zgen_generator|apply in_seq; lia].
Qed.
Lemma filter_zeros s m : filter (fun p : nat * Z => negb (Z.eqb (snd p) 0)) (combine (seq s m) (repeat 0%Z m)) = [].
Proof. revert s. induction m as [|m IH]; intros s; cbn; auto. Qed.
Lemma filter_basis n : forall i s, i < n -> filter (fun p => negb (Z.eqb (snd p) 0)) (combine (seq s n) (generator n i)) = [(s + i, 1%Z)].
Proof.
  induction n as [|n IH]; intros [|i] s H; try lia; cbn [generator basis_vec seq combine filter snd].
  - cbn. rewrite filter_zeros. now rewrite Nat.add_0_r.
  - cbn. unfold generator in IH. rewrite IH by lia. now rewrite Nat.add_succ_r.
Qed.
Lemma coefficient_gen n h i : length h = n -> i < n -> coefficient h (generator n i) = Ok (nth i h 0%Z).
Proof.
  intros L Hi. unfold coefficient. rewrite (basis_length 0%Z 1%Z n i : length (generator n i) = n). rewrite filter_basis by auto. cbn [Nat.add]. rewrite Z.eqb_refl.
  apply lgetE_pos; [lia|]. rewrite Nat2Z.id. apply nth_error_nth'. lia.
Qed.
Definition val (x : cclass (V := V)) (k : list Z) : V := match dget k x with Some v => v | None => vO end.
Lemma fold_rsum (f : nat -> V) n : fold_left vadd (map f (seq 0 n)) vO = vs n f.
Proof. induction n as [|n IH]; auto. rewrite seq_S, map_app, fold_left_app. rewrite IH. reflexivity. Qed.
Definition functional n (x : cclass) (h : list Z) : V := vs n (fun i => vmul (val x (generator n i)) (inj (nth i h 0%Z))).
Lemma call_ok n x h : length h = n -> ccall n x h = Ok (functional n x h).
Proof.
  intros L. unfold MCohom.ccall.
  rewrite (rmap_map _ (fun g => vmul (val x g) (inj (match coefficient h g with Ok c => c | _ => 0%Z end)))).
  - cbn [bind]. f_equal. unfold zgens. rewrite map_map, fold_rsum. apply rsum_ext. intros i Hi. rewrite zgen_generator, (coefficient_gen n) by auto. reflexivity.
  - intros g Hg. apply In_zgens in Hg. destruct Hg as (i & Hi & ->). rewrite (coefficient_gen n) by auto. reflexivity.
Qed.
Lemma functional_additive n x : additive vadd n (functional n x).
Proof.
  intros u v Lu Lv. unfold functional. rewrite <- (rsum_add vO vI vadd vmul vopp Vth). apply rsum_ext. intros i Hi. rewrite (nth_vsum 0%Z 1%Z Z.add Z.mul Z.opp Zth) by congruence. rewrite inj_add. ring.
Qed.
Lemma functional_gen n x i : i < n -> functional n x (generator n i) = val x (generator n i).
Proof.
  intros Hi. unfold functional. rewrite (rsum_one vO vI vadd vmul vopp Vth _ _ i Hi).
  - unfold generator. rewrite nth_basis, Nat.eqb_refl by auto. rewrite inj_1. ring.
  - intros j Hj N. unfold generator. rewrite (nth_basis 0%Z 1%Z n i j) by auto. destruct (Nat.eqb_spec i j); [congruence|]. rewrite inj_0. ring.
Qed.
(** additive maps on integer vectors are determined on the generators *)
Section A.
Variables (n : nat) (phi : list Z -> V).
Hypothesis A : additive vadd n phi.
Notation zeros := (repeat 0%Z n).
Lemma cancel_add a b c : vadd a b = vadd a c -> b = c.
Proof. intros E. transitivity (vadd (vopp a) (vadd a b)); [ring|]. rewrite E. ring. Qed.
Lemma phi_0 : phi zeros = vO.
Proof.
  apply (cancel_add (phi zeros)). rewrite <- A by apply repeat_length. replace (vsum Z.add zeros zeros) with zeros; [ring|].
  apply (list_ext 0%Z); rewrite ?vsum_length by auto; auto. intros i Hi. rewrite (nth_vsum 0%Z 1%Z Z.add Z.mul Z.opp Zth) by auto. rewrite nth_repeat. reflexivity.
Qed.
Lemma phi_times c : forall v, length v = n -> phi (vtimes Z.mul c v) = vmul (inj c) (phi v).
Proof.
  assert (SC : forall c v, length v = n -> phi (vtimes Z.mul (c + 1)%Z v) = vadd (phi (vtimes Z.mul c v)) (phi v)).
  { intros c' v L. rewrite <- A; [|now rewrite vtimes_length|auto]. f_equal. apply (list_ext 0%Z); [rewrite vsum_length; rewrite !vtimes_length; auto|]. intros i Hi.
    rewrite (nth_vsum 0%Z 1%Z Z.add Z.mul Z.opp Zth) by (now rewrite vtimes_length). rewrite !(nth_vtimes 0%Z 1%Z Z.add Z.mul Z.opp Zth). ring. }
  intros v L.
  assert (Z0 : phi (vtimes Z.mul 0%Z v) = vO).
  { rewrite <- phi_0. f_equal. apply (list_ext 0%Z); [now rewrite vtimes_length, repeat_length|]. intros i Hi. rewrite (nth_vtimes 0%Z 1%Z Z.add Z.mul Z.opp Zth), nth_repeat. ring. }
  revert c. apply Z.bi_induction; [intros a b ->; tauto| |].
  - rewrite Z0, inj_0. ring.
  - intros c. rewrite <- Z.add_1_r, SC, inj_add, inj_1 by auto. split; intros E.
    + rewrite E. ring.
    + transitivity (vadd (vadd (phi (vtimes Z.mul c v)) (phi v)) (vopp (phi v))); [ring|]. rewrite E. ring.
Qed.
Lemma phi_expand h : length h = n -> phi h = vs n (fun i => vmul (phi (generator n i)) (inj (nth i h 0%Z))).
Proof.
  intros L.
  assert (G : forall k, k <= n -> phi (trunc 0%Z k h) = vs k (fun i => vmul (phi (generator n i)) (inj (nth i h 0%Z)))).
  { induction k as [|k IH]; intros Hk; cbn [rsum].
    - rewrite <- phi_0. f_equal. apply (list_ext 0%Z); [now rewrite trunc_length, repeat_length|]. rewrite trunc_length. intros j Hj. rewrite nth_trunc, nth_repeat by auto. reflexivity.
    - rewrite <- IH by lia.
      replace (vmul (phi (generator n k)) (inj (nth k h 0%Z))) with (phi (vtimes Z.mul (nth k h 0%Z) (generator n k))) by (rewrite phi_times by apply basis_length; ring).
      rewrite <- A; [|now rewrite trunc_length|rewrite vtimes_length; apply basis_length]. f_equal.
      assert (LL : length (trunc 0%Z k h) = length (vtimes Z.mul (nth k h 0%Z) (generator n k))) by (rewrite trunc_length, vtimes_length; unfold generator; rewrite basis_length; auto).
      symmetry. apply (list_ext 0%Z); rewrite vsum_length by auto; [now rewrite !trunc_length|]. rewrite trunc_length. intros j Hj.
      rewrite (nth_vsum 0%Z 1%Z Z.add Z.mul Z.opp Zth), (nth_vtimes 0%Z 1%Z Z.add Z.mul Z.opp Zth) by auto. rewrite !nth_trunc by auto. unfold generator. rewrite nth_basis by lia.
      destruct (Nat.eqb_spec k j) as [EQ|NE].
      + subst j. rewrite Nat.ltb_irrefl. destruct (Nat.ltb_spec k (S k)); [ring|lia].
      + destruct (Nat.ltb_spec j k), (Nat.ltb_spec j (S k)); try lia; ring. }
  rewrite <- G by auto. f_equal. apply (list_ext 0%Z); [now rewrite trunc_length|]. intros j Hj. rewrite nth_trunc by auto. destruct (Nat.ltb_spec j n); auto. lia.
Qed.
End A.

(** ** the constructor *)
Lemma construct_spec (items : dict (list Z) V) : forall (d : dict (list Z) V) k, NoDup (keys items) ->
  dget k (fold_left (fun d kv => if eqb (snd kv) vO then d else dset (fst kv) (snd kv) d) items d) =
  match dget k items with Some v => if eqb v vO then dget k d else Some v | None => dget k d end.
Proof.
  induction items as [|[a v] items IH]; intros d k N; cbn [fold_left dget fst snd]; auto. unfold keys in N. cbn in N. inversion_clear N as [|? ? N1 N2]. fold (keys items) in N1, N2.
  rewrite IH by auto. destruct (eqb_case k a) as [[E <-]|[E NE]]; rewrite E.
  - apply dget_None in N1. rewrite N1. destruct (eqb v vO); auto. rewrite dget_dset, eqb_refl. reflexivity.
  - assert (Q : dget k (if eqb v vO then d else dset a v d) = dget k d) by (destruct (eqb v vO); auto; rewrite dget_dset, E; auto). rewrite Q. reflexivity.
Qed.
Lemma dget_construct items k : NoDup (keys items) -> dget k (construct items) = match dget k items with Some v => if eqb v vO then None else Some v | None => None end.
Proof. intros N. unfold MCohom.construct. rewrite construct_spec by auto. reflexivity. Qed.
Lemma construct_NoDup items : NoDup (keys (construct items)).
Proof.
  unfold MCohom.construct. assert (G : forall d, NoDup (keys d) -> NoDup (keys (fold_left (fun d kv => if eqb (snd kv) vO then d else dset (fst kv) (snd kv) d) items d))).
  { induction items as [|[a v] items IH]; intros d N; cbn [fold_left fst snd]; auto. apply IH. destruct (eqb v vO); auto. now apply NoDup_dset. }
  apply G. constructor.
Qed.
Lemma val_construct items k : NoDup (keys items) -> val (construct items) k = val items k.
Proof. intros N. unfold val. rewrite dget_construct by auto. destruct (dget k items) as [v|]; auto. destruct (eqb_case v vO) as [[-> ->]|[-> _]]; auto. Qed.
Lemma construct_good items n : NoDup (keys items) -> generators_only n items -> generators_only n (construct items).
Proof.
  intros N H k I. apply (proj1 (dget_keys k _)) in I. destruct I as [v E]. rewrite dget_construct in E by auto. destruct (dget k items) as [w|] eqn:D; [|discriminate]. apply H. apply dget_keys. eauto.
Qed.

(** ** sums *)
Lemma add_loop_ok n x y gens : forall d, (forall g, In g gens -> exists i, i < n /\ g = generator n i) -> NoDup gens -> (forall g, In g gens -> dget g d = None) -> NoDup (keys d) ->
  exists z, cadd_loop vO vadd vmul inj n x y gens d = Ok z /\ NoDup (keys z) /\ (forall k, In k (keys z) -> In k gens \/ In k (keys d)) /\
    forall k, val z k = if mem k gens then vadd (val x k) (val y k) else val d k.
Proof.
  induction gens as [|g gens IH]; intros d G N D ND; cbn [cadd_loop mem].
  { exists d. auto. }
  inversion_clear N as [|? ? N1 N2]. destruct (G g (or_introl eq_refl)) as (i & Hi & ->).
  rewrite !call_ok by apply basis_length. cbn [bind]. rewrite !functional_gen by auto. set (s := vadd (val x (generator n i)) (val y (generator n i))).
  set (d' := if eqb s vO then d else dset (generator n i) s d).
  assert (ND' : NoDup (keys d')) by (unfold d'; destruct (eqb s vO); auto; now apply NoDup_dset).
  assert (DG : forall k, dget k d' = if eqb k (generator n i) then (if eqb s vO then None else Some s) else dget k d).
  { intros k. unfold d'. destruct (eqb_case k (generator n i)) as [[E ->]|[E NE]]; destruct (eqb s vO); rewrite ?dget_dset, ?E; auto. apply D. now left. }
  destruct (IH d') as (z & Z1 & Z2 & Z3 & Z4); auto.
  { intros g Hg. apply G. now right. }
  { intros g Hg. rewrite DG. destruct (eqb_case g (generator n i)) as [[E ->]|[E NE]]; [contradiction|]. rewrite E. apply D. now right. }
  exists z. split; auto. split; auto. split.
  - intros k Hk. destruct (Z3 k Hk) as [I|I]; [left; now right|]. apply (proj1 (dget_keys k d')) in I. destruct I as [v E]. rewrite DG in E.
    destruct (eqb_case k (generator n i)) as [[E' ->]|[E' NE]]; [left; now left|]. rewrite E' in E. right. apply dget_keys. eauto.
  - intros k. rewrite Z4. unfold mem. cbn [existsb]. fold (mem k gens). destruct (eqb_case k (generator n i)) as [[E ->]|[E NE]]; rewrite E; cbn [orb].
    + destruct (mem (generator n i) gens) eqn:M; auto. unfold val at 1. rewrite DG, eqb_refl. fold s. destruct (eqb_case s vO) as [[-> ->]|[-> _]]; auto.
    + destruct (mem k gens); auto. unfold val. rewrite DG, E. reflexivity.
Qed.
Lemma add_ok' n x y : exists z, cadd vO vadd vmul inj n x y = Ok z /\ NoDup (keys z) /\ (exists items, NoDup (keys items) /\ generators_only n items /\ z = construct items) /\
  forall i, i < n -> val z (generator n i) = vadd (val x (generator n i)) (val y (generator n i)).
Proof.
  destruct (add_loop_ok n x y (zgens n) []) as (z & Z1 & Z2 & Z3 & Z4).
  { intros g Hg. now apply In_zgens. }
  { apply zgens_NoDup. }
  { auto. }
  { constructor. }
  exists (construct z). unfold cadd. rewrite Z1. cbn [bind]. split; auto. split; [apply construct_NoDup|]. split.
  - exists z. split; auto. split; auto. intros k Hk. apply In_zgens. destruct (Z3 k Hk) as [|[]]; auto.
  - intros i Hi. rewrite val_construct by auto. rewrite Z4. destruct (mem (generator n i) (zgens n)) eqn:M; auto. apply mem_not_In in M. exfalso. apply M. apply In_zgens. eauto.
Qed.
Lemma functional_val n x y h : (forall i, i < n -> val x (generator n i) = val y (generator n i)) -> functional n x h = functional n y h.
Proof. intros H. apply rsum_ext. intros i Hi. now rewrite H. Qed.
Lemma add_functional n x y h z : (forall i, i < n -> val z (generator n i) = vadd (val x (generator n i)) (val y (generator n i))) -> functional n z h = vadd (functional n x h) (functional n y h).
Proof. intros H. unfold functional. rewrite <- (rsum_add vO vI vadd vmul vopp Vth). apply rsum_ext. intros i Hi. rewrite H by auto. ring. Qed.
Lemma eq_ok' n a b : NoDup (keys a) -> NoDup (keys b) -> generators_only n a -> generators_only n b ->
  (ceq (construct a) (construct b) = true <-> forall h, length h = n -> functional n (construct a) h = functional n (construct b) h).
Proof.
  intros Na Nb Ga Gb. unfold ceq. rewrite (dict_eqb_ok eqb (fun x y => eqb_ok x y)) by apply construct_NoDup. split.
  - intros E h L. apply functional_val. intros i Hi. unfold val. now rewrite E.
  - intros H k. assert (Q : (exists i, i < n /\ k = generator n i) \/ dget k (construct a) = None /\ dget k (construct b) = None).
    { rewrite !dget_construct by auto. destruct (dget k a) as [v|] eqn:Ea; [left; apply Ga, dget_keys; eauto|]. destruct (dget k b) as [v|] eqn:Eb; [left; apply Gb, dget_keys; eauto|auto]. }
    destruct Q as [(i & Hi & ->)|[-> ->]]; auto. specialize (H (generator n i) (basis_length _ _ _ _)). rewrite !functional_gen in H by auto. unfold val in H.
    rewrite !dget_construct in * by auto. destruct (dget _ a) as [v|], (dget _ b) as [w|]; auto.
    + destruct (eqb_case v vO) as [[Q1 W1]|[Q1 W1]], (eqb_case w vO) as [[Q2 W2]|[Q2 W2]]; rewrite Q1, Q2 in *; congruence.
    + destruct (eqb_case v vO) as [[Q1 W1]|[Q1 W1]]; rewrite Q1 in *; congruence.
    + destruct (eqb_case w vO) as [[Q1 W1]|[Q1 W1]]; rewrite Q1 in *; congruence.
Qed.
End P.
