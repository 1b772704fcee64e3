(** C73: cohomology classes are the additive functionals on homology. *)
From Coq Require Import List Bool ZArith Arith Lia Ring.
From Verif Require Import MBase MDict PDict MEq SHomSpace PHomSpace MCohom SCohom PCohom.
Import ListNotations.

Section T.
Context {V : Type} `{EV : EqB V}.
Variables (vO vI : V) (vadd vmul : V -> V -> V) (vopp : V -> V) (inj : Z -> V).
Hypothesis Vth : ring_theory vO vI vadd vmul (fun x y => vadd x (vopp y)) vopp (@eq V).
Let Vth' : ring_theory vO vI vadd vmul (fun x y => vadd x (vopp y)) vopp (@eq V) := Vth.
Add Ring VT : Vth'.
(** [inj] is the homomorphism from the integers *)
Hypothesis inj_0 : inj 0%Z = vO.
Hypothesis inj_1 : inj 1%Z = vI.
Hypothesis inj_add : forall a b, inj (a + b)%Z = vadd (inj a) (inj b).
Notation call := (ccall vO vadd vmul inj).

(** Classes are additive functionals whose values at the generators are the ones of the dictionary; there is just one such functional. *)
Theorem C73_call n items : dictionary items -> exists phi, additive vadd n phi /\
  (forall h, length h = n -> call n (construct vO items) h = Ok (phi h)) /\
  (forall i, i < n -> phi (generator n i) = match dget (generator n i) items with Some v => v | None => vO end) /\
  (forall psi, additive vadd n psi -> (forall i, i < n -> psi (generator n i) = match dget (generator n i) items with Some v => v | None => vO end) -> forall h, length h = n -> psi h = phi h).
Proof.
  intros N. exists (functional vO vadd vmul inj n (construct vO items)). split; [apply (functional_additive vO vI vadd vmul vopp inj Vth inj_add)|]. split; [intros; now apply call_ok|].
  assert (GV : forall i, i < n -> functional vO vadd vmul inj n (construct vO items) (generator n i) = match dget (generator n i) items with Some v => v | None => vO end).
  { intros i Hi. rewrite (functional_gen vO vI vadd vmul vopp inj Vth inj_0 inj_1) by auto. now apply val_construct. }
  split; auto. intros psi A H h L. rewrite (phi_expand vO vI vadd vmul vopp inj Vth inj_0 inj_1 inj_add n psi A h L). unfold functional. apply rsum_ext. intros i Hi. f_equal.
  rewrite H by auto. symmetry. now apply (val_construct vO).
Qed.
(** Every additive functional is a class. *)
Theorem C73_dual n phi : additive vadd n phi -> exists items, dictionary items /\ generators_only n items /\ forall h, length h = n -> call n (construct vO items) h = Ok (phi h).
Proof.
  intros A. set (items := map (fun g => (g, phi g)) (zgens n)). exists items.
  assert (K : map fst items = zgens n) by (unfold items; rewrite map_map; apply map_id).
  assert (N : dictionary items) by (unfold dictionary; rewrite K; apply zgens_NoDup). split; auto. split; [intros k Hk; rewrite K in Hk; now apply In_zgens|].
  destruct (C73_call n items N) as (psi & P1 & P2 & P3 & P4). intros h L. rewrite P2 by auto. f_equal. symmetry. apply P4; auto.
  intros i Hi. rewrite (In_dget (generator n i) (phi (generator n i)) items N); auto. apply in_map_iff. exists (generator n i). split; auto. apply In_zgens. eauto.
Qed.
(** Sums are pointwise; the keys of a sum are generators. *)
Theorem C73_add n x y : exists z, cadd vO vadd vmul inj n x y = Ok z /\ (exists items, dictionary items /\ generators_only n items /\ z = construct vO items) /\
  forall h, length h = n -> exists a b, call n x h = Ok a /\ call n y h = Ok b /\ call n z h = Ok (vadd a b).
Proof.
  destruct (add_ok' vO vI vadd vmul vopp inj Vth inj_0 inj_1 n x y) as (z & Z1 & Z2 & Z3 & Z4). exists z. split; auto. split; auto.
  intros h L. do 2 eexists. split; [apply call_ok; auto|]. split; [apply call_ok; auto|]. rewrite call_ok by auto. f_equal. now apply (add_functional vO vI vadd vmul vopp inj Vth).
Qed.
(** Classes whose keys are generators are equal if and only if they have the same values. *)
Theorem C73_eq_partial n a b : dictionary a -> dictionary b -> generators_only n a -> generators_only n b ->
  (ceq (construct vO a) (construct vO b) = true <-> forall h, length h = n -> call n (construct vO a) h = call n (construct vO b) h).
Proof.
  intros Na Nb Ga Gb. rewrite (eq_ok' vO vI vadd vmul vopp inj Vth inj_0 inj_1 n a b Na Nb Ga Gb). split; intros H h L; specialize (H h L).
  - rewrite !call_ok by auto. now rewrite H.
  - rewrite !call_ok in H by auto. congruence.
Qed.
(** The generators are the dual basis. *)
Theorem C73_gens n : length (cgens vO vI n) = n /\ forall i x h, nth_error (cgens vO vI n) i = Some x -> length h = n -> call n x h = Ok (inj (nth i h 0%Z)).
Proof.
  unfold cgens, zgens. rewrite !map_length, seq_length. split; auto. intros i x h E L. assert (Hi : i < n) by (apply nth_error_lt in E; now rewrite !map_length, seq_length in E).
  rewrite map_map in E. assert (E' : nth_error (map (fun i => construct vO [(zgen n i, vI)]) (seq 0 n)) i = Some (construct vO [(zgen n i, vI)])).
  { rewrite nth_error_map. rewrite (nth_error_nth' (seq 0 n) 0) by (now rewrite seq_length). now rewrite seq_nth. }
  rewrite E in E'. injection E' as ->. clear E. rewrite zgen_generator.
  assert (N : dictionary [(generator n i, vI)]) by (constructor; [intros []|constructor]).
  destruct (C73_call n _ N) as (phi & P1 & P2 & P3 & P4). rewrite P2 by auto. f_equal. symmetry. apply (P4 (fun h => inj (nth i h 0%Z))); auto.
  - intros u v Lu Lv. rewrite <- inj_add. f_equal. apply (nth_vsum 0%Z 1%Z Z.add Z.mul Z.opp Zth). congruence.
  - intros j Hj. cbn [dget]. unfold generator at 1. rewrite nth_basis by auto. destruct (eqb_case (generator n j) (generator n i)) as [[Q E]|[Q E]]; rewrite Q.
    + apply generator_inj in E; auto. subst j. now rewrite Nat.eqb_refl.
    + destruct (Nat.eqb_spec j i); [congruence|auto].
Qed.
End T.

Notation zccall := (ccall 0%Z Z.add Z.mul (fun c => c)).
Definition zx : dict (list Z) Z := [([1; 0], 5); ([0; 1], -2)]%Z.
Definition zy : dict (list Z) Z := [([0; 1], 2)]%Z.
Example C73_ex :
  zccall 2 (construct 0%Z zx) [3; 4]%Z = Ok 7%Z /\ zccall 2 (construct 0%Z zy) [3; 4]%Z = Ok 8%Z /\
  cadd 0%Z Z.add Z.mul (fun c => c) 2 (construct 0%Z zx) (construct 0%Z zy) = Ok [([1; 0], 5)]%Z /\
  ceq (construct 0%Z zx) (construct 0%Z (rev zx)) = true /\ cgens 0%Z 1%Z 2 = [[([1; 0], 1)]; [([0; 1], 1)]]%Z.
Proof. repeat split; vm_compute; reflexivity. Qed.
Example C73_hypotheses : dictionary zx /\ generators_only 2 zx /\ additive Z.add 2 (fun h => match h with [a; b] => 5 * a - 2 * b | _ => 0 end)%Z.
Proof.
  split; [|split].
  - unfold dictionary, zx. cbn. repeat constructor; cbn; intros; intuition congruence.
  - intros k [<-|[<-|[]]]; [exists 0|exists 1]; split; auto.
  - intros [|a [|b [|]]] [|c [|d [|]]] H H'; try discriminate. cbn -[Z.mul Z.add Z.sub]. ring.
Qed.
(** Finding: the constructor accepts classes that are not generators as keys, and their values are ignored: such classes
    vanish on all of homology but they are not equal to zero, and adding zero changes them. *)
Theorem C73_eq_refuted : exists items : dict (list Z) Z, dictionary items /\ (forall h, length h = 2 -> zccall 2 (construct 0%Z items) h = Ok 0%Z) /\
  dget [2; 0]%Z items = Some 3%Z /\ ceq (construct 0%Z items) (construct 0%Z []) = false /\
  exists z, cadd 0%Z Z.add Z.mul (fun c => c) 2 (construct 0%Z items) (construct 0%Z []) = Ok z /\ ceq z (construct 0%Z items) = false.
Proof.
  exists [([2; 0], 3)]%Z. split; [constructor; [intros []|constructor]|]. split; [|split; [reflexivity|split; [reflexivity|eexists; split; vm_compute; reflexivity]]].
  intros [|a [|b [|]]] H; try discriminate. vm_compute. reflexivity.
Qed.
Print Assumptions C73_call.
Print Assumptions C73_dual.
Print Assumptions C73_add.
Print Assumptions C73_eq_partial.
Print Assumptions C73_gens.
Print Assumptions C73_eq_refuted.
