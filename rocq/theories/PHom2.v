(** Chains and the intersection form. *)
From Coq Require Import List Bool ZArith Arith Lia Ring Permutation.
From Verif Require Import MBase MDict PDict MComb SComb PComb PParity MHom SHom PHom.
Import ListNotations.

Section R.
Context {R : Type} `{ER : EqB R}.
Variables (rO rI : R) (radd rmul : R -> R -> R) (ropp : R -> R).
Hypothesis Rth : coeff_ring rO rI radd rmul ropp.
Let Rth' : ring_theory rO rI radd rmul (fun x y => radd x (ropp y)) ropp (@eq R) := Rth.
Add Ring RR : Rth'.
Declare Scope R_scope.
Delimit Scope R_scope with R.
Notation "0" := rO : R_scope.
Notation "1" := rI : R_scope.
Notation "x + y" := (radd x y) : R_scope.
Notation "x * y" := (rmul x y) : R_scope.
Notation "- x" := (ropp x) : R_scope.
Notation "x - y" := (radd x (ropp y)) : R_scope.
Local Open Scope R_scope.
Notation coef := (coef rO).
Notation acc := (acc rO radd).
Notation ok := (chain_ok rO).

(** ** sums *)
Fixpoint rsum {X} (f : X -> R) (l : list X) : R := match l with nil => 0 | x :: l => f x + rsum f l end.
Lemma rsum_ext {X} (f g : X -> R) l : (forall x, In x l -> f x = g x) -> rsum f l = rsum g l.
Proof. induction l as [|x l IH]; cbn; intros E; auto. rewrite (E x), IH; auto. Qed.
Lemma rsum_add {X} (f g : X -> R) l : rsum (fun x => f x + g x) l = rsum f l + rsum g l.
Proof. induction l as [|x l IH]; cbn; [ring|]. rewrite IH. ring. Qed.
Lemma rsum_opp {X} (f : X -> R) l : rsum (fun x => - f x) l = - rsum f l.
Proof. induction l as [|x l IH]; cbn; [ring|]. rewrite IH. ring. Qed.
Lemma rsum_scale {X} r (f : X -> R) l : rsum (fun x => r * f x) l = r * rsum f l.
Proof. induction l as [|x l IH]; cbn; [ring|]. rewrite IH. ring. Qed.
Lemma rsum_0 {X} (f : X -> R) l : (forall x, In x l -> f x = 0) -> rsum f l = 0.
Proof. induction l as [|x l IH]; cbn; intros E; auto. rewrite (E x), IH; auto. ring. Qed.
Lemma rsum_app {X} (f : X -> R) l l' : rsum f (l ++ l') = rsum f l + rsum f l'.
Proof. induction l as [|x l IH]; cbn; [ring|]. rewrite IH. ring. Qed.
Lemma rsum_perm {X} (f : X -> R) l l' : Permutation l l' -> rsum f l = rsum f l'.
Proof. induction 1; cbn; auto; [now rewrite IHPermutation | ring | congruence]. Qed.
Lemma rsum_map {X Y} (f : Y -> R) (g : X -> Y) l : rsum f (map g l) = rsum (fun x => f (g x)) l.
Proof. induction l; cbn; auto. now rewrite IHl. Qed.
Lemma rsum_concat {X} (f : X -> R) ls : rsum f (concat ls) = rsum (fun l => rsum f l) ls.
Proof. induction ls; cbn; auto. now rewrite rsum_app, IHls. Qed.

(** ** chains *)
Section C.
Context {X : Type} `{EX : EqB X}.
Implicit Types (c d : dict X R) (x y : X).
Notation delta := (delta rO rI).
Definition lin (f : X -> R) c : R := rsum (fun t => snd t * f (fst t)) c.
Lemma lin_ext f g c : (forall x r, In (x, r) c -> f x = g x) -> lin f c = lin g c.
Proof. intros E. apply rsum_ext. intros [x r] I. cbn. now rewrite (E x r). Qed.
Lemma keys_ddel_nodup x c : NoDup (keys c) -> NoDup (keys (ddel x c)).
Proof. apply NoDup_ddel. Qed.
Lemma acc_nodup x r c : NoDup (keys c) -> NoDup (keys (acc x r c)).
Proof. intros N. unfold MHom.acc. destruct (eqb _ _); [now apply NoDup_ddel | now apply NoDup_dset]. Qed.
Lemma coef_acc x r c y : NoDup (keys c) -> coef (acc x r c) y = coef c y + r * delta x y.
Proof.
  intros N. unfold MHom.acc, SHom.delta. destruct (eqb (coef c x + r) 0) eqn:Z.
  - apply (proj1 (eqb_ok _ _)) in Z. unfold MHom.coef in *. rewrite dget_ddel by auto. rewrite (eqb_sym y x).
    destruct (eqb x y) eqn:E; [|ring]. apply (proj1 (eqb_ok _ _)) in E. subst y. symmetry. etransitivity; [|exact Z]. ring.
  - unfold MHom.coef in *. rewrite dget_dset, (eqb_sym y x). destruct (eqb x y) eqn:E; [|ring].
    apply (proj1 (eqb_ok _ _)) in E. subst y. ring.
Qed.
Lemma acc_ok (D : X -> Prop) x r c : ok D c -> D x -> ok D (acc x r c).
Proof.
  intros [N A] Dx. split; [now apply acc_nodup|]. intros y s I. unfold MHom.acc in I.
  destruct (eqb (coef c x + r) 0) eqn:Z.
  - apply A. clear - I. induction c as [|[k v] c IH]; cbn in *; auto. destruct (eqb x k); auto. destruct I; auto.
  - assert (G : dget y (dset x (coef c x + r) c) = Some s) by (apply In_dget; auto; now apply NoDup_dset).
    rewrite dget_dset in G. destruct (eqb y x) eqn:E.
    + apply (proj1 (eqb_ok _ _)) in E. subst y. inversion G; subst. split; auto. now apply eqb_neq.
    + apply A. now apply dget_In.
Qed.
Lemma ok_nil (D : X -> Prop) : ok D nil.
Proof. split; [constructor|]. intros x r []. Qed.
Lemma ok_zero (D : X -> Prop) c : ok D c -> (forall x, D x -> coef c x = 0) -> c = nil.
Proof.
  intros [N A] Z. destruct c as [|[x r] c]; auto. exfalso. destruct (A x r (or_introl eq_refl)) as [Dx Nz]. apply Nz.
  specialize (Z x Dx). unfold MHom.coef in Z. cbn in Z. now rewrite eqb_refl in Z.
Qed.
Lemma lin_dset f x s c : NoDup (keys c) -> lin f (dset x s c) = lin f c + (s - coef c x) * f x.
Proof.
  unfold lin. induction c as [|[k v] c IH]; intros N.
  - cbn. ring.
  - cbn [dset]. unfold MHom.coef. cbn [dget]. destruct (eqb x k) eqn:E.
    + apply (proj1 (eqb_ok _ _)) in E. subst k. cbn. ring.
    + cbn [rsum fst snd]. inversion N; subst. change (v * f k + rsum (fun t => snd t * f (fst t)) (dset x s c) = v * f k + rsum (fun t => snd t * f (fst t)) c + (s - coef c x) * f x).
      rewrite IH by auto. ring.
Qed.
Lemma lin_ddel f x c : NoDup (keys c) -> lin f (ddel x c) = lin f c - coef c x * f x.
Proof.
  unfold lin. induction c as [|[k v] c IH]; intros N.
  - cbn. ring.
  - cbn [ddel]. unfold MHom.coef. cbn [dget]. destruct (eqb x k) eqn:E.
    + apply (proj1 (eqb_ok _ _)) in E. subst k. cbn. ring.
    + inversion N; subst. change (v * f k + rsum (fun t => snd t * f (fst t)) (ddel x c) = v * f k + rsum (fun t => snd t * f (fst t)) c - coef c x * f x).
      rewrite IH by auto. ring.
Qed.
Lemma lin_acc f x r c : NoDup (keys c) -> lin f (acc x r c) = lin f c + r * f x.
Proof.
  intros N. unfold MHom.acc. destruct (eqb (coef c x + r) 0) eqn:Z.
  - apply (proj1 (eqb_ok _ _)) in Z. rewrite lin_ddel by auto. transitivity (lin f c - coef c x * f x + (coef c x + r) * f x); [rewrite Z; ring|ring].
  - rewrite lin_dset by auto. ring.
Qed.
Lemma lin_coef c x : NoDup (keys c) -> lin (fun y => delta y x) c = coef c x.
Proof.
  unfold lin, MHom.coef, SHom.delta. induction c as [|[k v] c IH]; intros N; [reflexivity|]. inversion N; subst.
  cbn [dget rsum fst snd]. rewrite (eqb_sym k x). destruct (eqb x k) eqn:E.
  - apply (proj1 (eqb_ok _ _)) in E. subst k. fold (rsum (fun t : X * R => snd t * (if eqb (fst t) x then 1 else 0)) c).
    rewrite rsum_0; [ring|]. intros [y s] I. cbn. destruct (eqb y x) eqn:E; [|ring]. apply (proj1 (eqb_ok _ _)) in E. subst y.
    exfalso. apply H1. apply (in_map fst) in I. exact I.
  - fold (rsum (fun t : X * R => snd t * (if eqb (fst t) x then 1 else 0)) c). rewrite IH by auto. ring.
Qed.
(** a sum over a chain is a sum over all simplices *)
Lemma rsum_delta f x (l : list X) : NoDup l -> rsum (fun y => delta x y * f y) l = if mem x l then f x else 0.
Proof.
  unfold SHom.delta. induction l as [|y l IH]; intros N; [reflexivity|]. inversion N; subst. cbn [rsum mem existsb].
  fold (rsum (fun y => (if eqb x y then 1 else 0) * f y) l). rewrite IH by auto. fold (mem x l).
  destruct (eqb x y) eqn:E; cbn [orb].
  - apply (proj1 (eqb_ok _ _)) in E. subst y. apply mem_not_In in H1. rewrite H1. ring.
  - ring.
Qed.
Lemma lin_sum f c (l : list X) : NoDup l -> NoDup (keys c) -> (forall x, In x (keys c) -> In x l) ->
  lin f c = rsum (fun x => coef c x * f x) l.
Proof.
  intros Nl N I. rewrite (rsum_ext _ (fun x => lin (fun y => delta y x) c * f x)) by (intros x _; now rewrite lin_coef).
  clear N. unfold lin. induction c as [|[k v] c IH].
  - cbn. symmetry. apply rsum_0. intros. ring.
  - cbn [rsum fst snd]. fold (rsum (fun t : X * R => snd t * f (fst t)) c). rewrite IH by (intros x J; apply I; now right).
    rewrite (rsum_ext (fun x => (v * delta k x + rsum (fun t => snd t * delta (fst t) x) c) * f x)
      (fun x => v * (delta k x * f x) + rsum (fun t => snd t * delta (fst t) x) c * f x)) by (intros; ring).
    rewrite rsum_add, rsum_scale, rsum_delta by auto.
    assert (J : mem k l = true) by (apply mem_In, I; now left). now rewrite J.
Qed.
Lemma fold_acc (D : X -> Prop) (g : R -> R) d : forall c, ok D c -> (forall x r, In (x, r) d -> D x) ->
  ok D (fold_left (fun c t => acc (fst t) (g (snd t)) c) d c) /\
  forall x, coef (fold_left (fun c t => acc (fst t) (g (snd t)) c) d c) x = coef c x + rsum (fun t => g (snd t) * delta (fst t) x) d.
Proof.
  induction d as [|[k v] d IH]; intros c C I; cbn [fold_left fst snd].
  - split; auto. intros x. cbn. ring.
  - destruct (IH (acc k (g v) c)) as [A B].
    + apply acc_ok; auto. apply (I k v). now left.
    + intros x r J. apply (I x r). now right.
    + split; auto. intros x. rewrite B, coef_acc by apply C. cbn. fold (rsum (fun t => g (snd t) * delta (fst t) x) d). ring.
Qed.
Lemma cadd_spec (D : X -> Prop) c d : ok D c -> ok D d -> ok D (cadd rO radd c d) /\ forall x, coef (cadd rO radd c d) x = coef c x + coef d x.
Proof.
  intros C [Nd Dd]. destruct (fold_acc D (fun r => r) d c C) as [A B]; [intros x r I; now apply (Dd x r)|].
  split; auto. intros x. unfold cadd. rewrite B. f_equal. now apply lin_coef.
Qed.
Lemma copp_spec (D : X -> Prop) c : ok D c -> ok D (copp rO radd ropp c) /\ forall x, coef (copp rO radd ropp c) x = - coef c x.
Proof.
  intros [N A]. destruct (fold_acc D ropp c nil (ok_nil D)) as [B C]; [intros x r I; now apply (A x r)|].
  split; auto. intros x. unfold copp. rewrite C. rewrite <- (lin_coef c x N).
  rewrite (rsum_ext _ (fun t => - (snd t * delta (fst t) x))) by (intros; ring). rewrite rsum_opp. unfold MHom.coef, lin. cbn. ring.
Qed.
Lemma cscale_spec (D : X -> Prop) s c : ok D c -> ok D (cscale rO radd rmul s c) /\ forall x, coef (cscale rO radd rmul s c) x = s * coef c x.
Proof.
  intros [N A]. destruct (fold_acc D (rmul s) c nil (ok_nil D)) as [B C]; [intros x r I; now apply (A x r)|].
  split; auto. intros x. unfold cscale. rewrite C. rewrite <- (lin_coef c x N).
  rewrite (rsum_ext _ (fun t => s * (snd t * delta (fst t) x))) by (intros; ring). rewrite rsum_scale. unfold MHom.coef, lin. cbn. ring.
Qed.
End C.

(** ** boundaries *)
Section H.
Context {L : Type} `{EL : EqB L}.
Notation dart := (L * nat)%type.
Variable S : csurf L.
Variable CV : cvalid S.
Variable CC : cclosed S.
Notation ds := (darts S).
Notation opp := (MHom.opp S).
Notation point := (point S).
Notation delta := (delta rO rI).
Notation simp := (simplices1 S).
Notation boundary1 := (boundary1 rO radd ropp S).
Notation boundary2 := (boundary2 rO radd ropp S).
Notation along := (along rO radd ropp S).
Hint Resolve opp_dart next_in prev_in nodup : core.

Definition rdel (rel : list dart) (p v : dart) : R := if mem p rel then 0 else delta p v.
Lemma boundary1_fold rel c : forall b, (forall x r, In (x, r) c -> In x ds) -> ok (fun v => In v (vertices S)) b ->
  let r := fold_left (fun b t => to_C0 rO radd rel (point (fst t)) (- snd t) (to_C0 rO radd rel (point (opp (fst t))) (snd t) b)) c b in
  ok (fun v => In v (vertices S)) r /\
  forall v, coef r v = coef b v + lin (fun e => rdel rel (point (opp e)) v - rdel rel (point e) v) c.
Proof.
  induction c as [|[e r] c IH]; intros b I B; cbn [fold_left fst snd].
  - split; auto. intros v. unfold lin. cbn. ring.
  - assert (De : In e ds) by (apply (I e r); now left).
    assert (X : forall p s b, In p (vertices S) -> ok (fun v => In v (vertices S)) b ->
      ok (fun v => In v (vertices S)) (to_C0 rO radd rel p s b) /\ forall v, coef (to_C0 rO radd rel p s b) v = coef b v + s * rdel rel p v).
    { intros p s b' P B'. unfold to_C0, rdel. destruct (mem p rel).
      - split; auto. intros. ring.
      - split; [now apply acc_ok|]. intros v. apply coef_acc, B'. }
    destruct (X (point (opp e)) r b) as [X1 X2]; auto. { apply point_spec; auto. }
    destruct (X (point e) (- r) _ (proj1 (point_spec S CV CC e De)) X1) as [X3 X4].
    destruct (IH _ (fun x s J => I x s (or_intror J)) X3) as [Y1 Y2]. split; auto.
    intros v. rewrite Y2, X4, X2. unfold lin. cbn. ring.
Qed.
Lemma boundary1_spec rel c : (forall x r, In (x, r) c -> In x ds) ->
  ok (fun v => In v (vertices S)) (boundary1 rel c) /\
  forall v, coef (boundary1 rel c) v = lin (fun e => rdel rel (point (opp e)) v - rdel rel (point e) v) c.
Proof.
  intros I. destruct (boundary1_fold rel c nil I (ok_nil _)) as [A B]. split; auto. intros v.
  etransitivity; [apply B|]. unfold MHom.coef. cbn. ring.
Qed.

Definition side (f : dart -> R) (d : dart) : R := if mem d simp then f d else - f (opp d).
Lemma boundary2_fold c : forall b, (forall x r, In (x, r) c -> In x (c_labels S)) -> ok (fun d => In d simp) b ->
  let r := fold_left (fun b t =>
    fold_left (fun b e => if mem (fst t, e) simp then acc (fst t, e) (snd t) b else acc (opp (fst t, e)) (- snd t) b)
      (seq 0 (c_nv S (fst t))) b) c b in
  ok (fun d => In d simp) r /\
  forall f, lin f r = lin f b + lin (fun l => rsum (fun e => side f (l, e)) (seq 0 (c_nv S l))) c.
Proof.
  induction c as [|[l r] c IH]; intros b I B; cbn [fold_left fst snd].
  - split; auto. intros f. unfold lin at 3. cbn. ring.
  - assert (Dl : In l (c_labels S)) by (apply (I l r); now left).
    assert (X : forall es b, (forall e, In e es -> e < c_nv S l) -> ok (fun d => In d simp) b ->
      ok (fun d => In d simp) (fold_left (fun b e => if mem (l, e) simp then acc (l, e) r b else acc (opp (l, e)) (- r) b) es b) /\
      forall f, lin f (fold_left (fun b e => if mem (l, e) simp then acc (l, e) r b else acc (opp (l, e)) (- r) b) es b)
        = lin f b + r * rsum (fun e => side f (l, e)) es).
    { clear b B. induction es as [|e es IHe]; intros b E B; cbn [fold_left].
      - split; auto. intros. cbn. ring.
      - assert (De : In (l, e) ds). { apply In_darts. split; auto. apply E. now left. }
        set (b' := if mem (l, e) simp then acc (l, e) r b else acc (opp (l, e)) (- r) b).
        assert (B' : ok (fun d => In d simp) b' /\ forall f, lin f b' = lin f b + r * side f (l, e)).
        { unfold b', side. destruct (mem (l, e) simp) eqn:M.
          - apply mem_In in M. split; [now apply acc_ok|]. intros f. apply lin_acc, B.
          - apply mem_not_In in M. destruct (simplices_spec S CV CC) as (_ & _ & S3 & _). destruct (S3 _ De) as [Z|Z]; [contradiction|].
            split; [now apply acc_ok|]. intros f. rewrite lin_acc by apply B. ring. }
        destruct B' as [B1 B2]. destruct (IHe b' (fun e' J => E e' (or_intror J)) B1) as [Y1 Y2]. split; auto.
        intros f. rewrite Y2, B2. cbn. ring. }
    destruct (X (seq 0 (c_nv S l)) b) as [X1 X2]; auto. { intros e J. apply in_seq in J. lia. }
    destruct (IH _ (fun x s J => I x s (or_intror J)) X1) as [Y1 Y2]. split; auto.
    intros f. rewrite Y2, X2. unfold lin. cbn. ring.
Qed.
Lemma boundary2_spec c : (forall x r, In (x, r) c -> In x (c_labels S)) ->
  ok (fun d => In d simp) (boundary2 c) /\
  forall f, lin f (boundary2 c) = lin (fun l => rsum (fun e => side f (l, e)) (seq 0 (c_nv S l))) c.
Proof.
  intros I. destruct (boundary2_fold c nil I (ok_nil _)) as [A B]. split; auto. intros f.
  etransitivity; [apply B|]. unfold lin at 1. cbn. ring.
Qed.
Lemma face_next (f : dart -> R) l : In l (c_labels S) ->
  rsum (fun e => f (dnext S (l, e))) (seq 0 (c_nv S l)) = rsum (fun e => f (l, e)) (seq 0 (c_nv S l)).
Proof.
  intros _. unfold dnext. cbn [fst snd]. destruct (c_nv S l) as [|n] eqn:N; [reflexivity|].
  transitivity (rsum (fun e => f (l, Datatypes.S e)) (seq 0 n) + f (l, 0%nat)).
  - rewrite (seq_S n), rsum_app. cbn [rsum Nat.add]. rewrite Nat.add_1_r, Nat.mod_same by lia.
    rewrite (rsum_ext _ (fun e => f (l, Datatypes.S e))); [ring|].
    intros e J. apply in_seq in J. rewrite Nat.add_1_r, Nat.mod_small by lia. reflexivity.
  - change (seq 0 (Datatypes.S n)) with (0%nat :: seq 1 n). cbn [rsum]. rewrite <- seq_shift, rsum_map. ring.
Qed.
Lemma boundary_boundary rel c : faces rO S c -> boundary1 rel (boundary2 c) = nil.
Proof.
  intros [N F]. destruct (boundary2_spec c) as [B1 B2]; [intros x r I; now apply (F x r)|].
  destruct (simplices_spec S CV CC) as (_ & S2 & _ & _).
  destruct (boundary1_spec rel (boundary2 c)) as [A1 A2]; [intros x r I; apply S2; now apply (proj2 B1 x r)|].
  apply (ok_zero _ _ A1). intros v V. rewrite A2, B2. apply rsum_0. intros [l r] I. cbn [fst snd].
  assert (Dl : In l (c_labels S)) by now apply (F l r).
  set (g := fun d => rdel rel (point d) v).
  rewrite (rsum_ext _ (fun e => g (dnext S (l, e)) - g (l, e))).
  - rewrite rsum_add, rsum_opp, face_next by auto. ring.
  - intros e J. apply in_seq in J. assert (De : In (l, e) ds) by (apply In_darts; split; auto; cbn; lia).
    assert (Q : point (opp (l, e)) = point (dnext S (l, e))).
    { rewrite <- (sig_next S _ De). apply point_sig; auto. }
    unfold side. destruct (mem (l, e) simp).
    + rewrite Q. reflexivity.
    + rewrite opp_opp by auto. rewrite Q. unfold g. ring.
Qed.
(** the boundary of a chain of polygons, seen from an edge *)
Lemma boundary2_coef c d : faces rO S c -> In d ds ->
  coef (boundary2 c) d = if mem d simp then coef c (fst d) - (if eqb (opp d) d then 0 else coef c (fst (opp d))) else 0.
Proof.
  intros [N F] D. destruct (boundary2_spec c) as [B1 B2]; [intros x r I; now apply (F x r)|].
  rewrite <- (lin_coef _ d (proj1 B1)), B2.
  destruct (simplices_spec S CV CC) as (_ & _ & S3 & S4).
  assert (Sum : forall a l, In a ds -> In l (c_labels S) -> rsum (fun e => delta (l, e) a) (seq 0 (c_nv S l)) = delta l (fst a)).
  { intros [k i] l Da Dl. apply In_darts in Da. destruct Da as [_ Hi]. cbn [fst snd] in *. unfold SHom.delta. destruct (eqb l k) eqn:E.
    - apply (proj1 (eqb_ok _ _)) in E. subst k.
      rewrite (rsum_ext _ (fun e => SHom.delta rO rI i e * 1)).
      + rewrite (rsum_delta (fun _ => 1)) by apply seq_NoDup.
        assert (M : mem i (seq 0 (c_nv S l)) = true) by (apply mem_In, in_seq; lia). now rewrite M.
      + intros e J. unfold SHom.delta. destruct (eqb_case (l, e) (l, i)) as [[-> Q]|[-> Q]], (eqb_case i e) as [[-> Q']|[-> Q']]; try ring; congruence.
    - apply rsum_0. intros e J. destruct (eqb_case (l, e) (k, i)) as [[-> Q]|[-> Q]]; auto.
      exfalso. inversion Q; subst. now rewrite eqb_refl in E. }
  transitivity (lin (fun l => if mem d simp then delta l (fst d) - (if eqb (opp d) d then 0 else delta l (fst (opp d))) else 0) c).
  - apply lin_ext. intros l r I. assert (Dl : In l (c_labels S)) by now apply (F l r).
    rewrite (rsum_ext _ (fun e => (if mem d simp then delta (l, e) d else 0) - (if mem (opp d) simp then 0 else delta (l, e) (opp d)))).
    + rewrite rsum_add, rsum_opp. destruct (mem d simp) eqn:M.
      * rewrite Sum by auto. f_equal. f_equal. apply mem_In in M. destruct (eqb_case (opp d) d) as [[-> Q]|[-> Q]].
        -- rewrite Q. apply mem_In in M. rewrite M. apply rsum_0. auto.
        -- pose proof (S4 d D Q M) as Z. apply mem_not_In in Z. rewrite Z. apply Sum; auto.
      * apply mem_not_In in M. destruct (S3 d D) as [Z|Z]; [contradiction|]. apply mem_In in Z. rewrite Z.
        rewrite !rsum_0; auto. ring.
    + intros e J. apply in_seq in J. assert (De : In (l, e) ds) by (apply In_darts; split; auto; cbn; lia).
      unfold side. destruct (mem (l, e) simp) eqn:M.
      * unfold SHom.delta. destruct (eqb_case (l, e) d) as [[-> Q]|[-> Q]].
        -- subst d. rewrite M. destruct (eqb_case (l, e) (opp (l, e))) as [[-> Q]|[-> Q]].
           ++ rewrite <- Q, M. ring.
           ++ destruct (mem (opp (l, e)) simp); ring.
        -- destruct (eqb_case (l, e) (opp d)) as [[-> Q']|[-> Q']].
           ++ rewrite <- Q', M. destruct (mem d simp); ring.
           ++ destruct (mem d simp), (mem (opp d) simp); ring.
      * apply mem_not_In in M. unfold SHom.delta. destruct (eqb_case (opp (l, e)) d) as [[-> Q]|[-> Q]].
        -- subst d. rewrite opp_opp, eqb_refl by auto. destruct (S3 _ De) as [Z|Z]; [contradiction|].
           assert (Q : eqb (l, e) (opp (l, e)) = false). { apply eqb_neq. intros Q. rewrite <- Q in Z. contradiction. }
           rewrite Q. apply mem_not_In in M. rewrite M. destruct (mem (opp (l, e)) simp); ring.
        -- destruct (eqb_case (l, e) d) as [[-> Q']|[-> Q']].
           ++ subst d. apply mem_not_In in M. rewrite M.
              assert (Q' : eqb (l, e) (opp (l, e)) = false) by (apply eqb_neq; congruence). rewrite Q'.
              destruct (mem (opp (l, e)) simp); ring.
           ++ assert (Q2 : eqb (l, e) (opp d) = false). { apply eqb_neq. intros Q2. apply Q. rewrite Q2. now apply opp_opp. }
              rewrite Q2. destruct (mem d simp), (mem (opp d) simp); ring.
  - destruct (mem d simp); [|unfold lin; apply rsum_0; intros; ring]. destruct (eqb (opp d) d).
    + rewrite (lin_ext _ (fun l => delta l (fst d))) by (intros; ring). rewrite lin_coef by auto. ring.
    + unfold lin. rewrite (rsum_ext _ (fun t => snd t * delta (fst t) (fst d) + - (snd t * delta (fst t) (fst (opp d))))) by (intros; ring).
      rewrite rsum_add, rsum_opp. f_equal; [|f_equal]; apply (lin_coef c); auto.
Qed.
Lemma boundary2_along c d : faces rO S c -> In d ds -> along (boundary2 c) d = coef c (fst d) - coef c (fst (opp d)).
Proof.
  intros F D. unfold SHom.along. rewrite !boundary2_coef, opp_opp by auto.
  destruct (simplices_spec S CV CC) as (_ & _ & S3 & S4).
  destruct (eqb_case (opp d) d) as [[E Q]|[E Q]].
  - rewrite Q. ring.
  - rewrite (eqb_sym d (opp d)), E. destruct (mem d simp) eqn:M.
    + apply mem_In in M. pose proof (S4 d D Q M) as Z. apply mem_not_In in Z. rewrite Z. ring.
    + apply mem_not_In in M. destruct (S3 d D) as [Z|Z]; [contradiction|]. apply mem_In in Z. rewrite Z. ring.
Qed.

(** ** the intersection form *)
Section Form.
Variables a b : dart -> R.
Definition al (f : dart -> R) (d : dart) : R := f d - f (opp d).
Fixpoint before (f : dart -> R) (es : list dart) (d : dart) : R :=
  match es with nil => 0 | e :: es => if eqb e d then 0 else al f e + before f es d end.
Definition pre (f : dart -> R) (d : dart) : R := before f (edges_ccw S (point d)) d.
End Form.
Definition form (a b : dart -> R) : R := rsum (fun d => (pre a d + a d) * al b d) ds.

Lemma turn_spec a b es : NoDup es -> forall cn ocn i,
  turn_round rO radd rmul ropp S a b es cn ocn i =
  (cn + rsum (al (coef a)) es, ocn + rsum (al (coef b)) es,
   i + rsum (fun d => (cn + before (coef a) es d + coef a d) * al (coef b) d) es).
Proof.
  induction es as [|e es IH]; intros N cn ocn i; cbn [turn_round rsum].
  - f_equal; [f_equal|]; ring.
  - inversion N; subst. rewrite IH by auto. f_equal; [f_equal|].
    + unfold al at 2. ring.
    + unfold al at 2. ring.
    + cbn [before]. rewrite eqb_refl.
      rewrite (rsum_ext (fun d => (cn + (if eqb e d then 0 else al (coef a) e + before (coef a) es d) + coef a d) * al (coef b) d)
        (fun d => (cn + coef a e - coef a (opp e) + before (coef a) es d + coef a d) * al (coef b) d)).
      * unfold al at 2. ring.
      * intros d J. assert (Q : eqb e d = false) by (apply eqb_neq; congruence). rewrite Q. unfold al at 1. ring.
Qed.
Definition balanced (f : dart -> R) := forall v, In v (vertices S) -> rsum (al f) (edges_ccw S v) = 0.
Lemma rsum_orbits (f : dart -> R) : rsum f ds = rsum (fun v => rsum f (edges_ccw S v)) (vertices S).
Proof. rewrite <- (rsum_perm f _ _ (orbits_perm S CV CC)), rsum_concat, rsum_map. reflexivity. Qed.
Lemma around_spec a b : balanced (coef a) -> balanced (coef b) -> algebraic_intersection rO radd rmul ropp S a b = Ok (form (coef a) (coef b)).
Proof.
  intros A B. unfold algebraic_intersection, form. rewrite rsum_orbits.
  assert (X : forall vs i, incl vs (vertices S) -> around_all rO radd rmul ropp S a b vs i =
    Ok (i + rsum (fun v => rsum (fun d => (pre (coef a) d + coef a d) * al (coef b) d) (edges_ccw S v)) vs)).
  { induction vs as [|v vs IH]; intros i I; cbn [around_all rsum].
    - f_equal. ring.
    - assert (V : In v (vertices S)) by (apply I; now left). pose proof (vertex_dart S CV CC v V) as Dv.
      rewrite (turn_spec a b _ (ccw_nodup S CV CC v Dv)). rewrite (A v V), (B v V).
      replace (0 + 0) with 0 by ring. rewrite eqb_refl. cbn [negb]. rewrite IH by (intros z Z; apply I; now right).
      f_equal. rewrite (rsum_ext (fun d => (0 + before (coef a) (edges_ccw S v) d + coef a d) * al (coef b) d)
        (fun d => (pre (coef a) d + coef a d) * al (coef b) d)); [ring|].
      intros d J. unfold pre. replace (point d) with v; [ring|]. symmetry. apply point_eq; auto. now apply (ccw_incl S CV CC v). }
  rewrite X by apply incl_refl. f_equal. ring.
Qed.
Lemma al_opp f d : In d ds -> al f (opp d) = - al f d.
Proof. intros D. unfold al. rewrite opp_opp by auto. ring. Qed.
Lemma rsum_acts (f : dart -> R) g : acts ds g -> rsum (fun d => f (g d)) ds = rsum f ds.
Proof. intros A. rewrite <- rsum_map. apply rsum_perm. apply acts_perm; auto. Qed.
Lemma before_pairs f g es : NoDup es ->
  rsum (fun d => before f es d * al g d + before g es d * al f d) es + rsum (fun d => al f d * al g d) es = rsum (al f) es * rsum (al g) es.
Proof.
  induction es as [|e es IH]; intros N; cbn [rsum]; [ring|]. inversion N; subst. cbn [before]. rewrite eqb_refl.
  rewrite (rsum_ext (fun d => (if eqb e d then 0 else al f e + before f es d) * al g d + (if eqb e d then 0 else al g e + before g es d) * al f d)
    (fun d => (al f e * al g d + al g e * al f d) + (before f es d * al g d + before g es d * al f d))).
  - rewrite !rsum_add, !rsum_scale. rewrite rsum_add in IH. specialize (IH H2).
    transitivity (al f e * al g e + al f e * rsum (al g) es + al g e * rsum (al f) es +
      (rsum (fun d => before f es d * al g d) es + rsum (fun d => before g es d * al f d) es + rsum (fun d => al f d * al g d) es)); [ring|].
    rewrite IH. ring.
  - intros d J. assert (Q : eqb e d = false) by (apply eqb_neq; congruence). rewrite Q. ring.
Qed.
Lemma form_antisym f g : balanced f -> balanced g -> form f g + form g f = 0.
Proof.
  intros F G. unfold form.
  assert (E1 : rsum (fun d => pre f d * al g d + pre g d * al f d) ds + rsum (fun d => al f d * al g d) ds = 0).
  { rewrite !rsum_orbits, <- rsum_add. apply rsum_0. intros v V. pose proof (vertex_dart S CV CC v V) as Dv.
    rewrite (rsum_ext (fun d => pre f d * al g d + pre g d * al f d)
      (fun d => before f (edges_ccw S v) d * al g d + before g (edges_ccw S v) d * al f d)).
    - rewrite before_pairs by now apply ccw_nodup. rewrite (F v V). ring.
    - intros d J. unfold pre. replace (point d) with v; [ring|]. symmetry. apply point_eq; auto. now apply (ccw_incl S CV CC v). }
  assert (E2 : rsum (fun d => al f d * al g d) ds = rsum (fun d => f d * al g d) ds + rsum (fun d => g d * al f d) ds).
  { transitivity (rsum (fun d => f d * al g d) ds - rsum (fun d => f (opp d) * al g d) ds).
    - rewrite <- rsum_opp, <- rsum_add. apply rsum_ext. intros d _. unfold al at 1. ring.
    - f_equal. rewrite <- (rsum_acts (fun d => f (opp d) * al g d) _ (opp_acts S CV CC)).
      rewrite (rsum_ext (fun d => f (opp (opp d)) * al g (opp d)) (fun d => - (f d * al g d)))
        by (intros d D; rewrite opp_opp, al_opp by auto; ring).
      rewrite rsum_opp. transitivity (rsum (fun d => f d * al g d) ds); [ring|].
      transitivity (rsum (fun d => f d * g d) ds - rsum (fun d => f d * g (opp d)) ds).
      + rewrite <- rsum_opp, <- rsum_add. apply rsum_ext. intros d _. unfold al. ring.
      + rewrite <- (rsum_acts (fun d => f d * g (opp d)) _ (opp_acts S CV CC)).
        rewrite <- rsum_opp, <- rsum_add. apply rsum_ext. intros d D. rewrite opp_opp by auto. unfold al. ring. }
  transitivity (rsum (fun d => pre f d * al g d + pre g d * al f d) ds + (rsum (fun d => f d * al g d) ds + rsum (fun d => g d * al f d) ds)).
  - rewrite <- !rsum_add. apply rsum_ext. intros d _. ring.
  - rewrite <- E2. exact E1.
Qed.
Lemma before_add f g es d : before (fun x => f x + g x) es d = before f es d + before g es d.
Proof. induction es as [|e es IH]; cbn [before]; [ring|]. destruct (eqb e d); [ring|]. rewrite IH. unfold al. ring. Qed.
Lemma before_scale r f es d : before (fun x => r * f x) es d = r * before f es d.
Proof. induction es as [|e es IH]; cbn [before]; [ring|]. destruct (eqb e d); [ring|]. rewrite IH. unfold al. ring. Qed.
Lemma form_add_l f f' g : form (fun x => f x + f' x) g = form f g + form f' g.
Proof. unfold form. rewrite <- rsum_add. apply rsum_ext. intros d _. unfold pre. rewrite before_add. ring. Qed.
Lemma form_scale_l r f g : form (fun x => r * f x) g = r * form f g.
Proof. unfold form. rewrite <- rsum_scale. apply rsum_ext. intros d _. unfold pre. rewrite before_scale. ring. Qed.
Lemma form_add_r f g g' : form f (fun x => g x + g' x) = form f g + form f g'.
Proof. unfold form. rewrite <- rsum_add. apply rsum_ext. intros d _. unfold al. ring. Qed.
Lemma form_scale_r r f g : form f (fun x => r * g x) = r * form f g.
Proof. unfold form. rewrite <- rsum_scale. apply rsum_ext. intros d _. unfold al. ring. Qed.
Lemma before_ext f f' es d : (forall x, In x es -> al f x = al f' x) -> before f es d = before f' es d.
Proof. induction es as [|e es IH]; cbn [before]; intros E; auto. destruct (eqb e d); auto. rewrite (E e) by now left. rewrite IH; auto. intros x J. apply E. now right. Qed.
Lemma form_ext f f' g g' : (forall x, In x ds -> f x = f' x) -> (forall x, In x ds -> g x = g' x) -> form f g = form f' g'.
Proof.
  intros E F. assert (A : forall h h' x, (forall x, In x ds -> h x = h' x) -> In x ds -> al h x = al h' x).
  { intros h h' x H X. unfold al. rewrite !H by auto. reflexivity. }
  apply rsum_ext. intros d D. unfold pre. rewrite (E d D), (A g g') by auto. f_equal. f_equal.
  apply before_ext. intros x J. apply A; auto. destruct (point_spec S CV CC d D) as [P _].
  apply (ccw_incl S CV CC (point d)); auto. now apply vertex_dart.
Qed.
Lemma before_next f es : NoDup es -> forall i x y, nth_error es i = Some x -> nth_error es (i + 1) = Some y -> before f es y = before f es x + al f x.
Proof.
  induction es as [|e es IH]; intros N i x y X Y; [destruct i; discriminate|]. inversion N; subst. cbn [before].
  destruct i as [|i]; cbn in X, Y.
  - inversion X; subst x. rewrite eqb_refl. destruct es as [|e' es]; [discriminate|]. cbn in Y. inversion Y; subst e'.
    assert (Q : eqb e y = false). { apply eqb_neq. intros ->. apply H1. now left. } rewrite Q. cbn [before]. rewrite eqb_refl. ring.
  - assert (Qx : eqb e x = false). { apply eqb_neq. intros ->. apply H1. eapply nth_error_In; eauto. }
    assert (Qy : eqb e y = false). { apply eqb_neq. intros ->. apply H1. eapply nth_error_In; eauto. }
    rewrite Qx, Qy, (IH H2 i x y X Y). ring.
Qed.
Lemma before_last f es : NoDup es -> forall x, nth_error es (length es - 1) = Some x -> before f es x + al f x = rsum (al f) es.
Proof.
  induction es as [|e es IH]; intros N x X; [discriminate|]. inversion N; subst. cbn [before rsum].
  destruct es as [|e' es].
  - cbn in X. inversion X; subst. rewrite eqb_refl. cbn. ring.
  - cbn [length] in X. replace (Datatypes.S (Datatypes.S (length es)) - 1)%nat with (Datatypes.S (length (e' :: es) - 1)) in X by (cbn; lia).
    cbn [nth_error] in X. assert (Q : eqb e x = false). { apply eqb_neq. intros ->. apply H1. eapply nth_error_In; eauto. }
    rewrite Q, <- (IH H2 x X). ring.
Qed.
Lemma pre_sig f d : balanced f -> In d ds -> pre f (sig S d) = pre f d + al f d.
Proof.
  intros F D. unfold pre. rewrite (point_sig S CV CC d D). destruct (point_spec S CV CC d D) as [P J].
  pose proof (vertex_dart S CV CC _ P) as Dv.
  pose proof (ccw_nodup S CV CC _ Dv) as N. destruct (edges_ccw_spec S CV CC _ Dv) as (k & K & E & M & _ & Q).
  set (v := point d) in *. set (es := edges_ccw S v) in *.
  assert (Lk : length es = k) by (rewrite Q, map_length, seq_length; reflexivity).
  assert (Nth : forall i, i < k -> nth_error es i = Some (it i (sig S) v)).
  { intros i Hi. rewrite Q. rewrite nth_error_map. rewrite (nth_error_nth' (seq 0 k) 0%nat) by (rewrite seq_length; lia). rewrite seq_nth by lia. reflexivity. }
  rewrite Q in J. apply in_map_iff in J. destruct J as [i [Ei J]]. apply in_seq in J.
  destruct (Nat.eq_dec (i + 1) k) as [Z|Z].
  - assert (Ed : sig S d = v). { rewrite <- Ei. change (sig S (it i (sig S) v)) with (it (Datatypes.S i) (sig S) v). rewrite <- Nat.add_1_r, Z. exact E. }
    rewrite Ed. rewrite (before_last f es N d).
    + assert (F0 : rsum (al f) es = 0) by exact (F v P). rewrite F0. clearbody es. destruct es as [|e es'] eqn:X; [reflexivity|].
      specialize (Nth 0%nat ltac:(lia)). cbn in Nth. inversion Nth; subst e. cbn [before]. now rewrite eqb_refl.
    + rewrite Lk. rewrite <- Z. replace (i + 1 - 1)%nat with i by lia. rewrite Nth by lia. now rewrite Ei.
  - apply (before_next f es N i).
    + rewrite Nth by lia. now rewrite Ei.
    + rewrite Nth by lia. rewrite Nat.add_1_r. cbn [it]. now rewrite Ei.
Qed.
(** a cycle does not meet a boundary *)
Lemma form_boundary f c : balanced f -> faces rO S c -> form f (coef (boundary2 c)) = 0.
Proof.
  intros F C. unfold form. set (h := fun d => pre f d + f d).
  rewrite (rsum_ext _ (fun d => h d * coef c (fst d) - h d * coef c (fst (opp d)))).
  2:{ intros d D. unfold h. pose proof (boundary2_along c d C D) as E. unfold SHom.along in E. unfold al at 1. rewrite E. ring. }
  rewrite rsum_add, rsum_opp. rewrite <- (rsum_acts (fun d => h d * coef c (fst (opp d))) _ (opp_acts S CV CC)).
  set (u := fun d => coef c (fst d) * (pre f d + al f d)).
  transitivity (rsum u ds - rsum (fun d => u (dnext S d)) ds).
  - rewrite <- !rsum_opp, <- !rsum_add. apply rsum_ext. intros d D. rewrite opp_opp by auto. unfold u, h.
    rewrite <- (pre_sig f (dnext S d)) by auto. rewrite (sig_next S d D). cbn [dnext fst]. unfold al. ring.
  - rewrite (rsum_acts u _ (next_acts S)). ring.
Qed.
Lemma boundary1_vertex rel a v : ok (fun d => In d simp) a -> In v (vertices S) ->
  coef (boundary1 rel a) v = if mem v rel then 0 else - rsum (al (coef a)) (edges_ccw S v).
Proof.
  intros [N A] V. destruct (simplices_spec S CV CC) as (_ & S2 & _ & _).
  destruct (boundary1_spec rel a) as [B1 B2]; [intros x r I; apply S2; now apply (A x r)|].
  rewrite (B2 v).
  rewrite (lin_sum _ a ds); auto.
  2:{ intros x J. apply dget_keys in J. destruct J as [r J]. apply dget_In in J. apply S2. now apply (A x r). }
  assert (X : rsum (al (coef a)) (edges_ccw S v) = rsum (fun d => delta (point d) v * al (coef a) d) ds).
  { rewrite (rsum_orbits (fun d => delta (point d) v * al (coef a) d)).
    symmetry. transitivity (rsum (fun w => delta v w * rsum (al (coef a)) (edges_ccw S w)) (vertices S)).
    + apply rsum_ext. intros w W. rewrite <- rsum_scale. apply rsum_ext. intros d J. replace (point d) with w.
      * unfold SHom.delta. now rewrite (eqb_sym w v).
      * symmetry. apply point_eq; auto. apply (ccw_incl S CV CC w); auto. now apply vertex_dart.
    + rewrite (rsum_delta (fun w => rsum (al (coef a)) (edges_ccw S w))) by apply (vertices_spec S CV CC).
      apply mem_In in V. now rewrite V. }
  rewrite X. destruct (mem v rel) eqn:M.
  - apply rsum_0. intros x _.
    assert (Z : forall p, rdel rel p v = 0). { intros p. unfold rdel, SHom.delta. destruct (eqb_case p v) as [[-> Q]|[-> Q]]; [rewrite Q, M|destruct (mem p rel)]; auto. }
    rewrite !Z. ring.
  - assert (Z : forall p, rdel rel p v = delta p v). { intros p. unfold rdel, SHom.delta. destruct (eqb_case p v) as [[-> Q]|[-> Q]]; [rewrite Q, M|destruct (mem p rel)]; auto. }
    transitivity (rsum (fun d => coef a (opp d) * delta (point d) v) ds - rsum (fun d => coef a d * delta (point d) v) ds).
    + rewrite <- (rsum_acts (fun d => coef a (opp d) * delta (point d) v) _ (opp_acts S CV CC)).
      rewrite <- rsum_opp, <- rsum_add. apply rsum_ext.
      intros d D. rewrite opp_opp by auto. rewrite !Z. ring.
    + rewrite <- !rsum_opp, <- rsum_add. apply rsum_ext. intros d _. unfold al. ring.
Qed.
Lemma cycle_balanced_iff a : ok (fun d => In d simp) a -> (boundary1 nil a = nil <-> balanced (coef a)).
Proof.
  intros A. split.
  - intros Z v V. pose proof (boundary1_vertex nil a v A V) as E. rewrite Z in E. cbn in E.
    transitivity (- - rsum (al (coef a)) (edges_ccw S v)); [ring|]. rewrite <- E. unfold MHom.coef. cbn. ring.
  - intros B. destruct (simplices_spec S CV CC) as (_ & S2 & _ & _).
    destruct (boundary1_spec nil a) as [B1 _]; [intros x r I; apply S2; now apply (proj2 A x r)|].
    apply (ok_zero _ _ B1). intros v V. rewrite (boundary1_vertex nil a v A V). cbn. rewrite (B v V). ring.
Qed.
Lemma cycle_balanced a : cycle rO radd ropp S a -> balanced (coef a).
Proof. intros [A Z]. now apply cycle_balanced_iff. Qed.
Lemma around_ok a b i : algebraic_intersection rO radd rmul ropp S a b = Ok i -> balanced (coef a) /\ balanced (coef b).
Proof.
  unfold algebraic_intersection, balanced. intros H.
  assert (X : forall vs i j, incl vs (vertices S) -> around_all rO radd rmul ropp S a b vs i = Ok j ->
    forall v, In v vs -> rsum (al (coef a)) (edges_ccw S v) = 0 /\ rsum (al (coef b)) (edges_ccw S v) = 0).
  { induction vs as [|v vs IH]; intros i0 j I E w W; [destruct W|]. cbn [around_all] in E.
    assert (V : In v (vertices S)) by (apply I; now left). pose proof (vertex_dart S CV CC v V) as Dv.
    rewrite (turn_spec a b _ (ccw_nodup S CV CC v Dv)) in E.
    destruct (eqb_case (0 + rsum (al (coef a)) (edges_ccw S v)) 0) as [[Z1 Q1]|[Z1 Q1]]; rewrite Z1 in E; cbn [negb] in E; [|discriminate].
    destruct (eqb_case (0 + rsum (al (coef b)) (edges_ccw S v)) 0) as [[Z2 Q2]|[Z2 Q2]]; rewrite Z2 in E; cbn [negb] in E; [|discriminate].
    destruct W as [<-|W].
    - split; [transitivity (0 + rsum (al (coef a)) (edges_ccw S v))|transitivity (0 + rsum (al (coef b)) (edges_ccw S v))]; auto; ring.
    - eapply IH; eauto. intros z Z; apply I; now right. }
  split; intros v V; eapply (X _ _ _ (incl_refl _) H v V).
Qed.
Lemma rsum_fold (f : dart -> R) l : fold_right radd rO (map f l) = rsum f l.
Proof. induction l; cbn; congruence. Qed.
Lemma cycle_boundary c : faces rO S c -> cycle rO radd ropp S (boundary2 c).
Proof.
  intros F. split; [|now apply boundary_boundary]. apply boundary2_spec. intros x r I. now apply (proj2 F x r).
Qed.
Lemma boundary1_add rel a b : ok (fun d => In d simp) a -> ok (fun d => In d simp) b -> boundary1 rel a = nil -> boundary1 rel b = nil ->
  boundary1 rel (cadd rO radd a b) = nil.
Proof.
  intros A B Za Zb. destruct (simplices_spec S CV CC) as (_ & S2 & _ & _).
  destruct (cadd_spec _ a b A B) as [C1 C2].
  assert (I : forall c, ok (fun d => In d simp) c -> forall x r, In (x, r) c -> In x ds) by (intros c [N C] x r J; apply S2; now apply (C x r)).
  destruct (boundary1_spec rel _ (I _ C1)) as [D1 D2], (boundary1_spec rel _ (I _ A)) as [_ A2], (boundary1_spec rel _ (I _ B)) as [_ B2].
  apply (ok_zero _ _ D1). intros v _. rewrite D2.
  assert (Sm : forall f c, ok (fun d => In d simp) c -> lin f c = rsum (fun x => coef c x * f x) ds).
  { intros f c C. apply lin_sum; auto; [apply C|]. intros x J. apply dget_keys in J. destruct J as [r J]. apply dget_In in J. now apply (I c C x r). }
  specialize (A2 v). specialize (B2 v). rewrite Za in A2. rewrite Zb in B2. unfold MHom.coef at 1 in A2. unfold MHom.coef at 1 in B2. cbn [dget] in A2, B2.
  rewrite Sm in * by auto.
  match type of A2 with _ = ?X => match type of B2 with _ = ?Y => transitivity (X + Y); [|rewrite <- A2, <- B2; ring] end end. rewrite <- rsum_add. apply rsum_ext. intros x _. rewrite C2. ring.
Qed.
Lemma cycle_add a b : cycle rO radd ropp S a -> cycle rO radd ropp S b -> cycle rO radd ropp S (cadd rO radd a b).
Proof. intros [A Za] [B Zb]. split; [now apply cadd_spec|]. now apply boundary1_add. Qed.
Lemma cycle_scale r a : cycle rO radd ropp S a -> cycle rO radd ropp S (cscale rO radd rmul r a).
Proof.
  intros [A Za]. destruct (cscale_spec _ r a A) as [C1 C2]. split; auto.
  destruct (simplices_spec S CV CC) as (_ & S2 & _ & _).
  assert (I : forall c, ok (fun d => In d simp) c -> forall x r, In (x, r) c -> In x ds) by (intros c [N C] x s J; apply S2; now apply (C x s)).
  destruct (boundary1_spec nil _ (I _ C1)) as [D1 D2], (boundary1_spec nil _ (I _ A)) as [_ A2].
  apply (ok_zero _ _ D1). intros v _. rewrite D2.
  assert (Sm : forall f c, ok (fun d => In d simp) c -> lin f c = rsum (fun x => coef c x * f x) ds).
  { intros f c C. apply lin_sum; auto; [apply C|]. intros x J. apply dget_keys in J. destruct J as [s J]. apply dget_In in J. now apply (I c C x s). }
  specialize (A2 v). rewrite Za in A2. unfold MHom.coef at 1 in A2. cbn [dget] in A2.
  rewrite Sm in * by auto. match type of A2 with _ = ?X => transitivity (r * X); [|rewrite <- A2; ring] end. rewrite <- rsum_scale. apply rsum_ext. intros x _. rewrite C2. ring.
Qed.
(** ** classes of edges *)
Notation of_edge := (of_edge rO rI radd rmul ropp S).
Lemma single_ok (D : dart -> Prop) d r : D d -> ok D (acc d r nil).
Proof. intros H. apply acc_ok; auto. apply ok_nil. Qed.
Lemma single_coef (d : dart) r (x : dart) : coef (acc d r nil) x = r * delta d x.
Proof. rewrite coef_acc by constructor. unfold MHom.coef. cbn [dget]. ring. Qed.
Lemma of_edge_coef d : In d ds -> ok (fun d => In d simp) (of_edge d) /\
  forall x, coef (of_edge d) x = if mem d simp then delta d x else - delta (opp d) x.
Proof.
  intros D. unfold MHom.of_edge. destruct (mem d simp) eqn:M.
  - apply mem_In in M. split; [now apply single_ok|]. intros x. rewrite single_coef. ring.
  - apply mem_not_In in M. destruct (simplices_spec S CV CC) as (_ & _ & S3 & _). destruct (S3 d D) as [Z|Z]; [contradiction|].
    destruct (cscale_spec _ (- (1)) _ (single_ok (fun d => In d simp) (opp d) 1 Z)) as [C1 C2]. split; auto.
    intros x. rewrite C2, single_coef. ring.
Qed.
Lemma of_edge_opp d : In d ds -> opp d <> d -> ok (fun d => In d simp) (of_edge d) /\ forall x, coef (of_edge d) x = - coef (of_edge (opp d)) x.
Proof.
  intros D N. destruct (of_edge_coef d D) as [A1 A2], (of_edge_coef (opp d)) as [B1 B2]; auto. split; auto.
  intros x. rewrite A2, B2, opp_opp by auto. destruct (simplices_spec S CV CC) as (_ & _ & S3 & S4).
  destruct (mem d simp) eqn:M.
  - apply mem_In in M. specialize (S4 d D N M). apply mem_not_In in S4. rewrite S4. ring.
  - apply mem_not_In in M. destruct (S3 d D) as [Z|Z]; [contradiction|]. apply mem_In in Z. rewrite Z. ring.
Qed.
Lemma delta_opp d x : In d ds -> In x ds -> delta (opp d) x = delta d (opp x).
Proof.
  intros D X. unfold SHom.delta. destruct (eqb_case (opp d) x) as [[-> Q]|[-> Q]], (eqb_case d (opp x)) as [[-> Q']|[-> Q']]; auto; exfalso.
  - apply Q'. rewrite <- Q. symmetry. now apply opp_opp.
  - apply Q. rewrite Q'. now apply opp_opp.
Qed.
Lemma of_edge_along d x : In d ds -> In x ds -> along (of_edge d) x = delta d x - delta d (opp x).
Proof.
  intros D X. destruct (of_edge_coef d D) as [_ A]. unfold SHom.along. rewrite !A. destruct (mem d simp); [reflexivity|].
  rewrite !delta_opp, opp_opp by auto. ring.
Qed.
Lemma add_opp_unique x y : x + y = 0 -> y = - x.
Proof. intros E. transitivity (x + y - x); [ring|]. rewrite E. ring. Qed.
Lemma add_0_r x : x + 0 = x.
Proof. ring. Qed.
End H.
End R.
