(** Linear and nonlinear arithmetic over an arbitrary ordered field.

    The tactics [flra] and [fnra] translate the hypotheses about elements of an ordered field [K] into
    hypotheses about rationals (each atom [x : K] becomes an opaque rational), let the
    standard library's [lra]/[nra] find a Positivstellensatz certificate there, and replay
    that certificate in [K] with the soundness theorem [FTautoChecker_sound] of this file. *)
From Coq Require Import ZArith QArith Bool List Setoid Ring Field.
From Coq Require Import OrderedRing RingMicromega EnvRing Refl micromega.Tauto QMicromega VarMap Lqa InitialRing.
From Coq Require Import setoid_ring.Ring_theory.
From Verif Require Import OField.

Section Sound.
Context (K : OField).
Add Field KF : (of_ft K).
Local Open Scope F_scope.

Lemma Fsor : SOR (@f0 K) f1 fadd fmul fsub fopp eq fle flt.
Proof.
  constructor; intros; subst; try reflexivity; try tauto.
  - constructor; [constructor | |]; unfold RelationClasses.Symmetric, RelationClasses.Transitive; congruence.
  - apply of_ring.
  - apply fle_lteq; auto.
  - apply fle_lteq in H, H0. destruct H as [H|H], H0 as [H0|H0]; subst; auto. now elim (flt_asym _ _ H H0).
  - apply fle_lteq in H, H0. apply fle_lteq. destruct H as [H|H], H0 as [H0|H0]; subst; auto.
    left. eapply flt_trans; eauto.
  - split.
    + intros H. split; [apply fle_lteq; auto | intros ->; now apply flt_irrefl in H].
    + intros [H H']. apply fle_lteq in H. tauto.
  - destruct (fltb_total K n m) as [A|[A|A]]; auto.
  - apply fle_lteq in H. apply fle_lteq. destruct H as [H|H]; subst; auto. left. now apply fltb_add.
  - now apply fltb_mul.
  - intros E. symmetry in E. now apply (f1_neq_0 K).
Qed.

Definition Z2K : Z -> K := gen_phiZ f0 f1 fadd fmul fopp.

Lemma Fext : ring_eq_ext (@fadd K) fmul fopp eq.
Proof. constructor; congruence. Qed.

Lemma Z2K_morph : ring_morph (@f0 K) f1 fadd fmul fsub fopp eq 0%Z 1%Z Z.add Z.mul Z.sub Z.opp Zeq_bool Z2K.
Proof. apply (gen_phiZ_morph (Eqsth K) Fext (of_ring K)). Qed.

Lemma Z2K_add a b : Z2K (a + b) = Z2K a + Z2K b.
Proof. apply (morph_add Z2K_morph). Qed.
Lemma Z2K_mul a b : Z2K (a * b) = Z2K a * Z2K b.
Proof. apply (morph_mul Z2K_morph). Qed.
Lemma Z2K_sub a b : Z2K (a - b) = Z2K a - Z2K b.
Proof. apply (morph_sub Z2K_morph). Qed.
Lemma Z2K_opp a : Z2K (- a) = - Z2K a.
Proof. apply (morph_opp Z2K_morph). Qed.

Lemma flt_add x y : 0 < x -> 0 < y -> 0 < (x + y : K).
Proof.
  intros H1 H2. eapply flt_trans; [exact H1|]. apply flt_add_lt0.
  replace (x + y - x) with y by ring. exact H2.
Qed.

Lemma Z2K_pos p : 0 < Z2K (Zpos p).
Proof.
  rewrite <- positive_nat_Z.
  destruct (Pos2Nat.is_succ p) as [n ->].
  induction n as [|n IH].
  - exact flt_0_1.
  - rewrite Nat2Z.inj_succ, <- Z.add_1_l, Z2K_add. apply flt_add; auto. exact flt_0_1.
Qed.

Lemma Z2K_pos_neq p : Z2K (Zpos p) <> 0.
Proof. intros E. pose proof (Z2K_pos p) as H. rewrite E in H. now apply flt_irrefl in H. Qed.

Definition Q2K (q : Q) : K :=
  match q with
  | Qmake n xH => Z2K n
  | Qmake n d => Z2K n / Z2K (Zpos d)
  end.

Lemma Q2K_eq q : Q2K q = Z2K (Qnum q) / Z2K (Zpos (Qden q)).
Proof.
  destruct q as [n [d|d|]]; simpl; auto.
  change (Z2K 1) with (1:K). field. apply f1_neq_0.
Qed.

Lemma fmul_cancel (x y z : K) : z <> 0 -> x * z = y * z -> x = y.
Proof.
  intros Hz H. replace x with (x * z / z) by (field; auto). rewrite H. field; auto.
Qed.

Ltac nz := repeat split; apply Z2K_pos_neq.

Lemma Q2K_add a b : Q2K (a + b) = Q2K a + Q2K b.
Proof.
  rewrite !Q2K_eq. destruct a as [n d], b as [n' d']. cbn [Qnum Qden Qplus Qmult Qopp].
  rewrite Z2K_add, !Z2K_mul, Pos2Z.inj_mul, Z2K_mul. field. nz.
Qed.
Lemma Q2K_mul a b : Q2K (a * b) = Q2K a * Q2K b.
Proof.
  rewrite !Q2K_eq. destruct a as [n d], b as [n' d']. cbn [Qnum Qden Qplus Qmult Qopp].
  rewrite !Z2K_mul, Pos2Z.inj_mul, Z2K_mul. field. nz.
Qed.
Lemma Q2K_opp a : Q2K (- a) = - Q2K a.
Proof.
  rewrite !Q2K_eq. destruct a as [n d]. cbn [Qnum Qden Qplus Qmult Qopp].
  rewrite !Z2K_opp. field. nz.
Qed.
Lemma Q2K_sub a b : Q2K (a - b) = Q2K a - Q2K b.
Proof. unfold Qminus. rewrite Q2K_add, Q2K_opp. ring. Qed.

Lemma Q2K_pos a : (0 < a)%Q -> 0 < Q2K a.
Proof.
  rewrite Q2K_eq. destruct a as [n d]. unfold Qlt. cbn [Qnum Qden]. intros H.
  assert (A : exists p, n = Zpos p). { destruct n; try (simpl in H; discriminate). eexists; reflexivity. }
  destruct A as [p ->].
  assert (B : 0 < finv (Z2K (Z.pos d))).
  { destruct (fltb_total K 0 (finv (Z2K (Zpos d)))) as [A|[A|A]]; auto.
    - exfalso. pose proof (finv_l K _ (Z2K_pos_neq d)) as E. rewrite <- A in E.
      apply (f1_neq_0 K). rewrite <- E. ring.
    - exfalso. assert (C : 0 < - finv (Z2K (Z.pos d))).
      { apply flt_add_lt0 in A. replace (0 - finv (Z2K (Z.pos d))) with (- finv (Z2K (Z.pos d))) in A by ring. exact A. }
      pose proof (fltb_mul K _ _ C (Z2K_pos d)) as D.
      assert (E : - finv (Z2K (Z.pos d)) * Z2K (Z.pos d) = - (1)) by (field; nz). rewrite E in D.
      pose proof (flt_add _ _ D flt_0_1) as F. replace (- (1) + (1:K)) with (0:K) in F by ring.
      now apply flt_irrefl in F. }
  exact (fltb_mul K _ _ (Z2K_pos p) B).
Qed.

Lemma Q2K_Qeq a b : (a == b)%Q -> Q2K a = Q2K b.
Proof.
  rewrite !Q2K_eq. destruct a as [n d], b as [n' d']. unfold Qeq. cbn [Qnum Qden]. intros H.
  apply (f_equal Z2K) in H. rewrite !Z2K_mul in H.
  apply (fmul_cancel _ _ (Z2K (Zpos d) * Z2K (Zpos d'))).
  - intros E. pose proof (fltb_mul K _ _ (Z2K_pos d) (Z2K_pos d')) as F. rewrite E in F. now apply flt_irrefl in F.
  - replace (Z2K n / Z2K (Z.pos d) * (Z2K (Z.pos d) * Z2K (Z.pos d'))) with (Z2K n * Z2K (Zpos d')) by (field; nz).
    rewrite H. field; nz.
Qed.

Lemma Q2K_lt a b : (a < b)%Q -> Q2K a < Q2K b.
Proof.
  intros H. apply flt_add_lt0. rewrite <- Q2K_sub. apply Q2K_pos.
  apply -> Qlt_minus_iff. exact H.
Qed.

Lemma FSORaddon :
  SORaddon (@f0 K) f1 fadd fmul fsub fopp eq fle
  0%Q 1%Q Qplus Qmult Qminus Qopp Qeq_bool Qle_bool Q2K (fun x : N => x) (pow_N f1 fmul).
Proof.
  constructor.
  - constructor; intros; try reflexivity.
    + apply Q2K_add.
    + apply Q2K_sub.
    + apply Q2K_mul.
    + apply Q2K_opp.
    + apply Q2K_Qeq. now apply Qeq_bool_eq.
  - constructor. reflexivity.
  - intros x y H E. apply Qeq_bool_neq in H.
    destruct (Q_dec x y) as [[A|A]|A]; auto; apply Q2K_lt in A; rewrite E in A; now apply flt_irrefl in A.
  - intros x y H. apply Qle_bool_imp_le in H. apply Qle_lteq in H. apply fle_lteq.
    destruct H as [H|H]; [left; now apply Q2K_lt | right; now apply Q2K_Qeq].
Qed.

(** evaluation of reified formulas; written out so that conversion gives back the original formulas *)
Fixpoint Feval_expr (env : PolEnv K) (e : PExpr Q) : K :=
  match e with
  | PEc c => Q2K c
  | PEX j => env j
  | PEadd a b => Feval_expr env a + Feval_expr env b
  | PEsub a b => Feval_expr env a - Feval_expr env b
  | PEmul a b => Feval_expr env a * Feval_expr env b
  | PEopp a => - Feval_expr env a
  | PEpow a n => pow_N f1 fmul (Feval_expr env a) n
  end.

Lemma Feval_expr_compat env e :
  Feval_expr env e = eval_pexpr fadd fmul fsub fopp Q2K (fun x : N => x) (pow_N f1 fmul) env e.
Proof.
  induction e; simpl; try rewrite IHe1, IHe2; try rewrite IHe; reflexivity.
Qed.

Definition Feval_pop2 (o : Op2) : K -> K -> Prop :=
  match o with
  | OpEq => eq
  | OpNEq => fun x y => ~ x = y
  | OpLe => fle
  | OpGe => fun x y => fle y x
  | OpLt => flt
  | OpGt => fun x y => flt y x
  end.
Definition Feval_bop2 (o : Op2) : K -> K -> bool :=
  match o with
  | OpEq => feqb
  | OpNEq => fun x y => negb (feqb x y)
  | OpLe => fleb
  | OpGe => fun x y => fleb y x
  | OpLt => fltb
  | OpGt => fun x y => fltb y x
  end.

Definition Feval_op2 (k : Tauto.kind) : Op2 -> K -> K -> Tauto.rtyp k :=
  if k as k0 return (Op2 -> K -> K -> Tauto.rtyp k0) then Feval_pop2 else Feval_bop2.

Lemma Feval_op2_hold k op q1 q2 : Tauto.hold k (Feval_op2 k op q1 q2) <-> Feval_pop2 op q1 q2.
Proof.
  destruct k; simpl; [tauto|].
  destruct op; simpl; unfold is_true.
  - apply feqb_eq.
  - rewrite negb_true_iff. apply feqb_neq.
  - apply fleb_true.
  - apply fleb_true.
  - reflexivity.
  - reflexivity.
Qed.

Definition Feval_formula (e : PolEnv K) (k : Tauto.kind) (ff : Formula Q) :=
  let (lhs, o, rhs) := ff in Feval_op2 k o (Feval_expr e lhs) (Feval_expr e rhs).

Lemma Feval_formula_compat env b f : Tauto.hold b (Feval_formula env b f) <->
  eval_formula fadd fmul fsub fopp eq fle flt Q2K (fun x : N => x) (pow_N f1 fmul) env f.
Proof.
  unfold Feval_formula. destruct f. simpl.
  rewrite Feval_op2_hold, !Feval_expr_compat.
  destruct Fop; simpl; tauto.
Qed.

Definition Feval_nformula := eval_nformula f0 fadd fmul eq fle flt Q2K.

Lemma FTautoChecker_sound : forall f w, QTautoChecker f w = true -> forall env, eval_bf (Feval_formula env) f.
Proof.
  intros f w. unfold QTautoChecker.
  apply tauto_checker_sound with (eval := Feval_formula) (eval' := Feval_nformula).
  - exact (fun env d => eval_nformula_dec Fsor Q2K env d).
  - intros t. destruct t. intros H env. apply (check_inconsistent_sound Fsor FSORaddon _ _ H).
  - unfold qdeduce. intros. revert H.
    eapply (nformula_plus_nformula_correct Fsor FSORaddon); eauto.
  - intros. rewrite Feval_formula_compat. eapply (cnf_normalise_correct Fsor FSORaddon); eauto.
  - intros. rewrite Tauto.hold_eNOT. rewrite Feval_formula_compat.
    now eapply (cnf_negate_correct Fsor FSORaddon); eauto.
  - intros t w0. unfold eval_tt. intros H env.
    rewrite make_impl_map with (eval := Feval_nformula env); [|tauto].
    unfold Feval_nformula. apply (checker_nf_sound Fsor FSORaddon _ _ H).
Qed.
End Sound.

(** Rational placeholder of an atom; only used while searching for a certificate. *)
Definition qat {K : OField} (x : K) : Q. Proof. exact 0%Q. Qed.

Section Prep.
Context {K : OField}.
Local Open Scope F_scope.
Lemma fnle_lt (a b : K) : (fle b a -> False) -> a < b.
Proof. unfold flt, fle. destruct (fltb a b); [auto | intros H; now destruct H]. Qed.
Lemma fnlt_le (a b : K) : (flt b a -> False) -> a <= b.
Proof. unfold flt, fle. destruct (fltb b a); [intros H; now destruct H | auto]. Qed.
Lemma fle_antisym (a b : K) : a <= b -> b <= a -> a = b.
Proof. intros H H0. apply fle_lteq in H, H0. destruct H as [H|H], H0 as [H0|H0]; subst; auto. now elim (flt_asym _ _ H H0). Qed.
Lemma fneq_lt (a b : K) : a <> b -> a < b \/ b < a.
Proof. intros H. destruct (fltb_total K a b) as [A|[A|A]]; auto. contradiction. Qed.
Lemma feqb_false (a b : K) : feqb a b = false <-> a <> b.
Proof. apply feqb_neq. Qed.
End Prep.

Ltac q_tm t :=
  lazymatch t with
  | @fadd _ ?a ?b => let a' := q_tm a in let b' := q_tm b in constr:(Qplus a' b')
  | @fsub _ ?a ?b => let a' := q_tm a in let b' := q_tm b in constr:(Qminus a' b')
  | @fmul _ ?a ?b => let a' := q_tm a in let b' := q_tm b in constr:(Qmult a' b')
  | @fdiv ?K ?a ?b => let a' := q_tm a in constr:(Qmult a' (qat (@finv K b)))
  | @fopp _ ?a => let a' := q_tm a in constr:(Qopp a')
  | @f0 _ => constr:(0%Q)
  | @f1 _ => constr:(1%Q)
  | _ => constr:(qat t)
  end.

Ltac q_prop P :=
  lazymatch P with
  | @flt _ ?a ?b => let a' := q_tm a in let b' := q_tm b in constr:(Qlt a' b')
  | @fle _ ?a ?b => let a' := q_tm a in let b' := q_tm b in constr:(Qle a' b')
  | @fltb _ ?a ?b = true => let a' := q_tm a in let b' := q_tm b in constr:(Qlt a' b')
  | @fltb _ ?a ?b = false => let a' := q_tm a in let b' := q_tm b in constr:(Qle b' a')
  | @eq (car _) ?a ?b => let a' := q_tm a in let b' := q_tm b in constr:(Qeq a' b')
  end.

Definition qmark (P : Prop) := P.

Ltac q_hyps qhyp :=
  repeat match goal with
  | H : ?P |- False =>
    let Q := q_prop P in
    lazymatch goal with
    | _ : qmark Q |- _ => fail
    | _ => idtac
    end;
    let H' := fresh "qh" in
    pose proof (qhyp P H (qmark Q)) as H'
  end.

Ltac q_varmap vm :=
  lazymatch vm with
  | VarMap.Empty => fail "empty"
  | VarMap.Elt (qat ?x) => constr:(VarMap.Elt x)
  | VarMap.Branch ?l (qat ?x) ?r =>
    let l' := q_varmap' l x in let r' := q_varmap' r x in constr:(VarMap.Branch l' x r')
  end
with q_varmap' vm d :=
  lazymatch vm with
  | VarMap.Empty => let T := type of d in constr:(@VarMap.Empty T)
  | VarMap.Elt (qat ?x) => constr:(VarMap.Elt x)
  | VarMap.Branch ?l (qat ?x) ?r =>
    let l' := q_varmap' l d in let r' := q_varmap' r d in constr:(VarMap.Branch l' x r')
  end.

(** replay a certificate found over the rationals *)
Ltac q_replay K p :=
  lazymatch p with
  | QTautoChecker_sound ?ff ?wit _ (VarMap.find _ ?vm) =>
    let vm' := lazymatch vm with
      | VarMap.Empty => constr:(@VarMap.Empty (car K))
      | _ => q_varmap vm end in
    constr:(FTautoChecker_sound K ff wit (@eq_refl bool true <: QTautoChecker ff wit = true)
      (@VarMap.find (car K) (@f0 K) vm'))
  | ?p' (?qhyp ?P ?H ?Q) => let t := q_replay K p' in constr:(t H)
  end.

Ltac f_find_K :=
  match goal with
  | _ : @flt ?K _ _ |- _ => K
  | _ : @fle ?K _ _ |- _ => K
  | _ : @fltb ?K _ _ = _ |- _ => K
  | _ : @eq (car ?K) _ _ |- _ => K
  end.

Ltac f_run tac :=
  let K := f_find_K in
  let p := constr:(fun qhyp : (forall P : Prop, P -> forall Q : Prop, Q) =>
     ltac:(q_hyps qhyp; unfold qmark in *; clear qhyp; tac) : False) in
  let p := eval cbv beta zeta in p in
  lazymatch p with
  | fun qhyp => @?b qhyp =>
    let r := constr:(fun qhyp : (forall P : Prop, P -> forall Q : Prop, Q) =>
       ltac:(let b' := eval cbv beta in (b qhyp) in
             let t := q_replay K b' in exact t) : False) in
    lazymatch r with
    | fun _ => ?t => exact t
    end
  end.

Ltac f_prep :=
  repeat match goal with
  | H : _ /\ _ |- _ => destruct H
  | H : @fleb _ _ _ = true |- _ => apply fleb_true in H
  | H : @fleb _ _ _ = false |- _ => apply fleb_false in H
  | H : @feqb _ _ _ = true |- _ => apply feqb_eq in H
  | H : @feqb _ _ _ = false |- _ => apply feqb_false in H
  | H : is_true _ |- _ => unfold is_true in H
  | H : ~ (@flt _ _ _) |- _ => apply (fnlt_le _ _) in H
  | H : ~ (@fle _ _ _) |- _ => apply (fnle_lt _ _) in H
  end.

Ltac f_goal tac :=
  lazymatch goal with
  | |- False => tac
  | |- _ /\ _ => split; f_goal tac
  | |- _ <-> _ => split; intro; f_goal tac
  | |- ~ _ => let H := fresh in intro H; f_goal tac
  | |- @fltb _ _ _ = true => apply fnle_lt; let H := fresh in intro H; tac
  | |- @fltb _ _ _ = false => apply fnlt_le; let H := fresh in intro H; tac
  | |- @flt _ _ _ => apply fnle_lt; let H := fresh in intro H; tac
  | |- @fle _ _ _ => apply fnlt_le; let H := fresh in intro H; tac
  | |- @fleb _ _ _ = true => apply fleb_true; apply fnlt_le; let H := fresh in intro H; tac
  | |- @fleb _ _ _ = false => apply fleb_false; apply fnle_lt; let H := fresh in intro H; tac
  | |- @feqb _ _ _ = true => apply feqb_eq; f_goal tac
  | |- @feqb _ _ _ = false => apply feqb_false; f_goal tac
  | |- @eq (car _) _ _ => apply fle_antisym; f_goal tac
  | |- _ => exfalso; tac
  end.

(** linear arithmetic over an ordered field *)
Ltac flra := f_prep; f_goal ltac:(f_prep; f_run ltac:(xlra_Q ltac:(rchange; vm_cast_no_check (@eq_refl bool true)))).
(** nonlinear arithmetic over an ordered field *)
Ltac fnra := f_prep; f_goal ltac:(f_prep; f_run ltac:(xnra_Q ltac:(rchange; vm_cast_no_check (@eq_refl bool true)))).

Section Tests.
Context {K : OField}.
Local Open Scope F_scope.
Goal forall x y z : K, x < y -> z <= 0 -> y + 0 * x < z * 2 -> 0 < x -> False.
Proof. intros. flra. Qed.
Goal forall x y z : K, x < y -> z <= 0 -> x < y + - z /\ (x * 2 <? 2 * y) = true.
Proof. intros. flra. Qed.
Goal forall x y : K, (x <=? y) = false -> y <> x.
Proof. intros. flra. Qed.
Goal forall x y : K, 0 <= x * x + y * y.
Proof. intros. fnra. Qed.
Goal forall x y : K, x * x + y * y = 0 -> x = 0.
Proof. intros. fnra. Qed.
Goal forall x y z : K, x < y -> 0 < z -> x * z < y * z.
Proof. intros. fnra. Qed.
End Tests.
