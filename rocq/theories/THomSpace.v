(** C72: homomorphisms of homology groups are linear maps: the constructor from matrices, the matrix of a homomorphism,
    sums, multiples, negatives, compositions, the zero test and equality agree with those of the linear maps. *)
From Coq Require Import List Bool ZArith Arith Lia Ring.
From Verif Require Import MBase MDict PDict MHomSpace SHomSpace PHomSpace.
Import ListNotations.

Section T.
Context {R : Type} `{ER : EqB R}.
Variables (rO rI : R) (radd rmul : R -> R -> R) (ropp : R -> R).
Hypothesis Rth : ring_theory rO rI radd rmul (fun x y => radd x (ropp y)) ropp (@eq R).
Let Rth' : ring_theory rO rI radd rmul (fun x y => radd x (ropp y)) ropp (@eq R) := Rth.
Add Ring RT : Rth'.
Context {G C : Type} `{EG : EqB G}.
Variables (rank : G -> nat) (coeffs : G -> C -> res (list R)) (lift : G -> list R -> C).
Hypothesis HG : homology_groups rank coeffs lift.
Notation call := (mcall rO radd rmul coeffs lift).
Notation linear d c := (linear_map radd rmul (rank d) (rank c)).
Notation acts f := (acts_as coeffs (call f) (m_dom f) (m_cod f)).
(** the rows have the length that the matrix claims *)
Definition proper (m : @mx R) : Prop := length (mx_rows m) = mx_nr m /\ forall r, In r (mx_rows m) -> length r = mx_nc m.

(** Matrices define homomorphisms exactly when they have a column for each generator of the domain and a row for each
    generator of the codomain. The homomorphism is the linear map whose i-th coordinate is the product with the i-th row. *)
Theorem C72_hom d c m :
  (forall f, hom_matrix (C := C) rank d m (Some c) = Ok f <-> mx_nc m = rank d /\ mx_nr m = rank c /\ f = Mor d c (KMatrix m)) /\
  (mx_nc m = rank d -> mx_nr m = rank c -> proper m ->
   exists T, linear d c T /\ acts (Mor d c (KMatrix (C := C) m)) T /\
     forall v i, length v = rank d -> i < rank c -> nth i (T v) rO = dot rO radd rmul (nth i (mx_rows m) []) v).
Proof.
  split; [intros; apply hom_matrix_inv; auto|]. intros E1 E2 [P1 P2].
  assert (LR : forall i, i < rank c -> length (nth i (mx_rows m) []) = rank d) by (intros i Hi; rewrite P2; auto; apply nth_In; lia).
  assert (LD : forall r u v, length r = length u -> length u = length v -> dot rO radd rmul r (vsum radd u v) = radd (dot rO radd rmul r u) (dot rO radd rmul r v)).
  { induction r as [|x r IH]; intros [|y u] [|z v] H H'; cbn in *; try lia; [ring|]. rewrite IH by lia. ring. }
  assert (LS : forall r x v, dot rO radd rmul r (vtimes rmul x v) = rmul x (dot rO radd rmul r v)).
  { induction r as [|y r IH]; intros x [|z v]; cbn; try ring. fold (vtimes rmul x v). rewrite IH. ring. }
  exists (fun v => map (fun r => dot rO radd rmul r v) (mx_rows m)). split; [|split].
  - constructor.
    + intros v Hv. rewrite map_length. lia.
    + intros u v Hu Hv. apply (list_ext rO); [rewrite vsum_length; rewrite ?map_length; auto|]. rewrite map_length. intros i Hi.
      rewrite (nth_vsum rO rI radd rmul ropp Rth) by (now rewrite !map_length).
      assert (ND : forall w, nth i (map (fun r => dot rO radd rmul r w) (mx_rows m)) rO = dot rO radd rmul (nth i (mx_rows m) []) w) by (intros w; exact (map_nth (fun r => dot rO radd rmul r w) (mx_rows m) [] i)).
      rewrite !ND.
      apply LD; [rewrite LR; [auto|lia]|congruence].
    + intros x v Hv. unfold vtimes. rewrite map_map. apply map_ext. intros r. apply LS.
  - apply (matrix_does rO radd rmul rank coeffs lift HG); auto.
    + intros v Hv. rewrite map_length. lia.
    + intros v i Hv Hi. rewrite (nth_indep _ rO (dot rO radd rmul [] v)) by (rewrite map_length; lia). rewrite (map_nth (fun r => dot rO radd rmul r v)).
      rewrite (dot_rsum rO rI radd rmul ropp Rth) by (rewrite LR; auto). rewrite Hv. reflexivity.
  - intros v i Hv Hi. rewrite (nth_indep _ rO (dot rO radd rmul [] v)) by (rewrite map_length; lia). now rewrite (map_nth (fun r => dot rO radd rmul r v)).
Qed.

Section F.
Variables (f : @mor R G C) (T : list R -> list R).
Hypothesis (FT : acts f T) (LT : linear (m_dom f) (m_cod f) T).
(** there are generators in the domain unless the codomain is trivial *)
Hypothesis FN : 0 < rank (m_dom f) \/ rank (m_cod f) = 0.

(** The j-th column of the matrix is the image of the j-th vector of the basis; the matrix defines the same homomorphism. *)
Theorem C72_matrix : exists m, mmatrix rO rI radd rmul rank coeffs lift f = Ok m /\ proper m /\ mx_nr m = rank (m_cod f) /\ mx_nc m = rank (m_dom f) /\
  (forall i j, i < rank (m_cod f) -> j < rank (m_dom f) -> nth j (nth i (mx_rows m) []) rO = nth i (T (basis_vec rO rI (rank (m_dom f)) j)) rO) /\
  exists h, hom_matrix rank (m_dom f) m (Some (m_cod f)) = Ok h /\ acts h T.
Proof.
  rewrite (matrix_ok rO rI radd rmul rank coeffs lift HG f T FT LT FN). eexists. split; [reflexivity|]. split; [apply make_wf|]. split; [reflexivity|]. split; [reflexivity|]. split.
  - intros i j Hi Hj. exact (make_entry rO _ _ _ i j Hi Hj).
  - eexists. split; [apply hom_matrix_inv; auto|]. apply (make_does rO radd rmul rank coeffs lift HG); [apply (lm_length _ _ _ _ _ LT)|]. intros v i Hv Hi. now apply (linear_expand rO rI radd rmul ropp Rth _ (rank (m_cod f))).
Qed.
Theorem C72_neg : exists h, mneg rO rI radd rmul ropp rank coeffs lift f = Ok h /\ m_dom h = m_dom f /\ m_cod h = m_cod f /\ acts h (fun v => map ropp (T v)).
Proof.
  destruct (neg_ok rO rI radd rmul ropp Rth rank coeffs lift HG f T FT LT FN) as (h & A & B & D & E). exists h. split; auto. split; auto. split; auto.
  intros x v Hx. destruct (E x v Hx) as (y & Y1 & Y2). exists y. split; auto. rewrite Y2. f_equal. apply map_ext. intros a. ring.
Qed.
(** Homomorphisms are true unless they are the zero map. *)
Theorem C72_bool : exists b, mbool rO rI radd rmul rank coeffs lift f = Ok b /\ (b = false <-> forall v, length v = rank (m_dom f) -> T v = repeat rO (rank (m_cod f))).
Proof. apply (bool_ok rO rI radd rmul ropp Rth rank coeffs lift HG f T FT LT FN). Qed.
(** Multiples, provided that domain and codomain are the same. *)
Theorem C72_scale_partial x : m_cod f = m_dom f -> exists h, mscale rO rI radd rmul rank coeffs lift x f = Ok h /\ m_dom h = m_dom f /\ m_cod h = m_cod f /\ acts h (fun v => vtimes rmul x (T v)).
Proof. apply (scale_ok rO rI radd rmul ropp Rth rank coeffs lift HG x f T FT LT). Qed.
End F.

Theorem C72_add f g T T' : acts f T -> acts g T' -> m_dom g = m_dom f -> m_cod g = m_cod f -> linear (m_dom f) (m_cod f) T -> linear (m_dom f) (m_cod f) T' -> 0 < rank (m_dom f) \/ rank (m_cod f) = 0 ->
  exists h, madd rO rI radd rmul rank coeffs lift f g = Ok h /\ m_dom h = m_dom f /\ m_cod h = m_cod f /\ acts h (fun v => vsum radd (T v) (T' v)).
Proof. intros. apply (add_ok rO rI radd rmul ropp Rth rank coeffs lift HG); auto. Qed.
Theorem C72_compose f g T T' : acts f T -> acts g T' -> m_cod g = m_dom f -> linear (m_dom f) (m_cod f) T -> linear (m_dom g) (m_cod g) T' ->
  0 < rank (m_dom f) \/ rank (m_cod f) = 0 -> 0 < rank (m_dom g) \/ rank (m_cod g) = 0 ->
  exists h, mcomp rO rI radd rmul rank coeffs lift f g = Ok h /\ m_dom h = m_dom g /\ m_cod h = m_cod f /\ acts h (fun v => T (T' v)).
Proof. intros. apply (comp_ok rO rI radd rmul ropp Rth rank coeffs lift HG); auto. Qed.
(** Homomorphisms given by matrices are equal if and only if they have the same domain and codomain and are the same map. *)
Theorem C72_eq same d c m d' c' m' f g : proper m -> proper m' -> hom_matrix (C := C) rank d m (Some c) = Ok f -> hom_matrix (C := C) rank d' m' (Some c') = Ok g ->
  (meq same f g = true <-> d = d' /\ c = c' /\ forall T, acts f T -> acts g T).
Proof. intros. apply (eq_ok rO rI radd rmul ropp Rth rank coeffs lift HG same d c m d' c' m'); auto. Qed.
Theorem C72_identity_zero :
  (forall g : G, acts (midentity (C := C) rO rI rank g) (fun v => v) /\ linear g g (fun v => v)) /\
  (forall d c : G, exists f, mzero (C := C) rO rank d c = Ok f /\ m_dom f = d /\ m_cod f = c /\ acts f (fun _ => repeat rO (rank c))).
Proof. split; intros; [apply (identity_ok rO rI radd rmul ropp Rth rank coeffs lift HG)|apply (zero_ok rO rI radd rmul ropp Rth rank coeffs lift HG)]. Qed.
End T.

(** ** examples: groups are pairs of a name and a rank, chains are vectors of integers *)
Definition zrank (g : nat * nat) : nat := snd g.
Definition zcoeffs (g : nat * nat) (c : list Z) : res (list Z) := if length c =? snd g then Ok c else Err ValueError.
Definition zlift (g : nat * nat) (v : list Z) : list Z := v.
Lemma zgroups : homology_groups zrank zcoeffs zlift.
Proof.
  constructor.
  - intros g v H. unfold zcoeffs, zlift. unfold zrank in H. rewrite H. now rewrite Nat.eqb_refl.
  - intros g c v H. unfold zcoeffs in H. destruct (Nat.eqb_spec (length c) (snd g)); [injection H as <-; auto|discriminate].
Qed.
Definition znth : ring_theory 0%Z 1%Z Z.add Z.mul (fun x y => Z.add x (Z.opp y)) Z.opp (@eq Z).
Proof. constructor; intros; ring. Qed.
Notation zcall := (mcall 0%Z Z.add Z.mul zcoeffs zlift).
Notation zhom := (hom_matrix (C := list Z) zrank).
Definition zA : @mx Z := mx_of_rows [[1; 2]; [0; 3]; [5; -1]]%Z.
Definition zf : @mor Z (nat * nat) (list Z) := Mor (0, 2) (1, 3) (KMatrix zA).

Example C72_ex :
  zhom (0, 2) zA (Some (1, 3)) = Ok zf /\ zcall zf [1; 1]%Z = Ok [3; 3; 4]%Z /\
  mmatrix 0%Z 1%Z Z.add Z.mul zrank zcoeffs zlift zf = Ok zA /\
  bind (mneg 0%Z 1%Z Z.add Z.mul Z.opp zrank zcoeffs zlift zf) (fun h => zcall h [1; 1]%Z) = Ok [-3; -3; -4]%Z /\
  bind (madd 0%Z 1%Z Z.add Z.mul zrank zcoeffs zlift zf zf) (fun h => zcall h [1; 1]%Z) = Ok [6; 6; 8]%Z /\
  mbool 0%Z 1%Z Z.add Z.mul zrank zcoeffs zlift zf = Ok true /\
  zhom (0, 2) zA None = Err NotImplementedError /\ zhom (0, 3) zA (Some (1, 3)) = Err ValueError.
Proof. repeat split; vm_compute; reflexivity. Qed.
Definition zrows (v : list Z) : list Z := match v with [x; y] => [x + 2 * y; 3 * y; 5 * x - y]%Z | _ => [] end.
Lemma zrows_linear : linear_map Z.add Z.mul 2 3 zrows.
Proof.
  constructor.
  - intros [|x [|y [|]]] H; try discriminate; auto.
  - intros [|x [|y [|]]] [|x' [|y' [|]]] H H'; try discriminate. cbn -[Z.mul Z.add Z.sub]. f_equal; [ring|]; f_equal; [ring|]; f_equal; ring.
  - intros a [|x [|y [|]]] H; try discriminate. cbn -[Z.mul Z.add Z.sub]. f_equal; [ring|]; f_equal; [ring|]; f_equal; ring.
Qed.
(** the hypotheses of the theorems hold for this homomorphism *)
Example C72_hypotheses : proper zA /\ acts_as zcoeffs (zcall zf) (0, 2) (1, 3) zrows.
Proof.
  split; [split; [reflexivity|]; intros r [<-|[<-|[<-|[]]]]; reflexivity|]. intros x v H. unfold zcoeffs in H. cbn [snd] in H. destruct x as [|a [|b [|]]]; try discriminate. injection H as <-.
  eexists. split; [cbn -[Z.mul Z.add Z.sub]; reflexivity|]. unfold zcoeffs, zlift. cbn -[Z.mul Z.add Z.sub]. f_equal.
  assert (E : forall x y z x1 y1 z1 : Z, x = x1 -> y = y1 -> z = z1 -> [x; y; z] = [x1; y1; z1]) by (intros; congruence). apply E; ring.
Qed.

(** Finding: multiples of homomorphisms do not keep the codomain: the multiple has the domain as its codomain, and there
    are no multiples at all when the ranks differ. *)
Theorem C72_scale_refuted :
  (forall (x : Z) d c (m : @mx Z) h, mscale 0%Z 1%Z Z.add Z.mul zrank zcoeffs zlift x (Mor (C := list Z) d c (KMatrix m)) = Ok h -> m_cod h = d) /\
  (exists f h, zhom (0, 1) (mx_of_rows [[1]]%Z) (Some (1, 1)) = Ok f /\ mscale 0%Z 1%Z Z.add Z.mul zrank zcoeffs zlift 1%Z f = Ok h /\ m_cod f = (1, 1) /\ m_cod h = (0, 1) /\ meq (fun _ _ => true) h f = false) /\
  mscale 0%Z 1%Z Z.add Z.mul zrank zcoeffs zlift 2%Z zf = Err NotImplementedError.
Proof.
  split; [|split].
  - intros x d c m h H. unfold mscale, hom_matrix in H. destruct (mmatrix _ _ _ _ _ _ _ _) as [a|] eqn:E; [|discriminate]. cbn [bind m_dom] in H.
    destruct (mx_nr _ =? mx_nc _); [|discriminate]. cbn [bind] in H. destruct (negb _); [discriminate|]. destruct (negb _); [discriminate|]. injection H as <-. reflexivity.
  - do 2 eexists. repeat split; vm_compute; reflexivity.
  - vm_compute. reflexivity.
Qed.
(** Finding: the matrix of a homomorphism from the trivial group is a matrix without rows, so that the negative of the only
    homomorphism from the trivial group to a group of positive rank raises an error, as does its sum with itself. *)
Theorem C72_trivial_domain_refuted : exists f, mzero (C := list Z) 0%Z zrank (0, 0) (1, 2) = Ok f /\
  mneg 0%Z 1%Z Z.add Z.mul Z.opp zrank zcoeffs zlift f = Err ValueError /\ madd 0%Z 1%Z Z.add Z.mul zrank zcoeffs zlift f f = Err ValueError.
Proof. eexists. repeat split; vm_compute; reflexivity. Qed.

Print Assumptions C72_hom.
Print Assumptions C72_matrix.
Print Assumptions C72_neg.
Print Assumptions C72_bool.
Print Assumptions C72_scale_partial.
Print Assumptions C72_add.
Print Assumptions C72_compose.
Print Assumptions C72_eq.
Print Assumptions C72_identity_zero.
Print Assumptions C72_scale_refuted.
Print Assumptions C72_trivial_domain_refuted.
