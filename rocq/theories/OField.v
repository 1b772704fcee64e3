(** Ordered fields with decidable equality and order.

    sage-flatsurf computes with elements of exact subfields of the reals (QQ, embedded number
    fields, AA).  All geometric code is modelled over an arbitrary ordered field with Leibniz equality;
    the comparisons [==] and [<] of the Python code are the boolean functions [feqb] and [fltb].
    [finv] is not specified at zero: the Python code raises [ZeroDivisionError] there. *)
From Coq Require Import ZArith QArith Qcanon Bool Lia Field Ring Setoid.

Record OField : Type := mkOField {
  car :> Type;
  f0 : car;
  f1 : car;
  fadd : car -> car -> car;
  fmul : car -> car -> car;
  fopp : car -> car;
  finv : car -> car;
  feqb : car -> car -> bool;
  fltb : car -> car -> bool;
  fadd_comm : forall x y, fadd x y = fadd y x;
  fadd_assoc : forall x y z, fadd x (fadd y z) = fadd (fadd x y) z;
  fadd_0_l : forall x, fadd f0 x = x;
  fadd_opp_r : forall x, fadd x (fopp x) = f0;
  fmul_comm : forall x y, fmul x y = fmul y x;
  fmul_assoc : forall x y z, fmul x (fmul y z) = fmul (fmul x y) z;
  fmul_1_l : forall x, fmul f1 x = x;
  fmul_add_distr_l : forall x y z, fmul (fadd x y) z = fadd (fmul x z) (fmul y z);
  f1_neq_0 : f1 <> f0;
  finv_l : forall x, x <> f0 -> fmul (finv x) x = f1;
  feqb_eq : forall x y, feqb x y = true <-> x = y;
  fltb_irrefl : forall x, fltb x x = false;
  fltb_trans : forall x y z, fltb x y = true -> fltb y z = true -> fltb x z = true;
  fltb_total : forall x y, fltb x y = true \/ x = y \/ fltb y x = true;
  fltb_add : forall x y z, fltb x y = true -> fltb (fadd z x) (fadd z y) = true;
  fltb_mul : forall x y, fltb f0 x = true -> fltb f0 y = true -> fltb f0 (fmul x y) = true
}.

Arguments f0 {o}. Arguments f1 {o}. Arguments fadd {o}. Arguments fmul {o}.
Arguments fopp {o}. Arguments finv {o}. Arguments feqb {o}. Arguments fltb {o}.

Definition fsub {K : OField} (x y : K) : K := fadd x (fopp y).
Definition fdiv {K : OField} (x y : K) : K := fmul x (finv y).
(** [x <= y] *)
Definition fleb {K : OField} (x y : K) : bool := negb (fltb y x).
Definition flt {K : OField} (x y : K) : Prop := fltb x y = true.
Definition fle {K : OField} (x y : K) : Prop := fltb y x = false.

Declare Scope F_scope.
Delimit Scope F_scope with F.
Bind Scope F_scope with car.
Infix "+" := fadd : F_scope.
Infix "-" := fsub : F_scope.
Infix "*" := fmul : F_scope.
Infix "/" := fdiv : F_scope.
Notation "- x" := (fopp x) : F_scope.
Notation "0" := f0 : F_scope.
Notation "1" := f1 : F_scope.
Notation "2" := (fadd f1 f1) : F_scope.
Infix "<?" := fltb : F_scope.
Infix "<=?" := fleb : F_scope.
Infix "=?" := feqb : F_scope.
Infix "<" := flt : F_scope.
Infix "<=" := fle : F_scope.

Section Theory.
Context (K : OField).
Local Open Scope F_scope.

Lemma of_ring : ring_theory (@f0 K) f1 fadd fmul fsub fopp (@eq K).
Proof.
  constructor.
  - apply fadd_0_l.
  - apply fadd_comm.
  - apply fadd_assoc.
  - apply fmul_1_l.
  - apply fmul_comm.
  - apply fmul_assoc.
  - apply fmul_add_distr_l.
  - reflexivity.
  - apply fadd_opp_r.
Qed.

Lemma of_ft : field_theory (@f0 K) f1 fadd fmul fsub fopp fdiv finv (@eq K).
Proof.
  constructor.
  - apply of_ring.
  - apply f1_neq_0.
  - reflexivity.
  - apply finv_l.
Qed.
End Theory.

Section Basic.
Context {K : OField}.
Add Field KF : (of_ft K).
Local Open Scope F_scope.
Implicit Types x y z : K.

Lemma feqb_refl x : feqb x x = true.
Proof. now apply feqb_eq. Qed.
Lemma feqb_neq x y : feqb x y = false <-> x <> y.
Proof.
  rewrite <- (feqb_eq K x y). destruct (feqb x y); intuition congruence.
Qed.
Lemma feq_dec x y : {x = y} + {x <> y}.
Proof. destruct (feqb x y) eqn:E; [left; now apply feqb_eq | right; now apply feqb_neq]. Defined.

Lemma flt_irrefl x : ~ x < x.
Proof. unfold flt. rewrite fltb_irrefl. discriminate. Qed.
Lemma flt_trans x y z : x < y -> y < z -> x < z.
Proof. apply fltb_trans. Qed.
Lemma flt_asym x y : x < y -> ~ y < x.
Proof. intros H1 H2. exact (flt_irrefl _ (flt_trans _ _ _ H1 H2)). Qed.
Lemma fle_nlt x y : x <= y <-> ~ y < x.
Proof. unfold fle, flt. destruct (fltb y x); intuition congruence. Qed.
Lemma fle_lteq x y : x <= y <-> x < y \/ x = y.
Proof.
  rewrite fle_nlt. split.
  - intros H. destruct (fltb_total K x y) as [A|[A|A]]; auto. now elim H.
  - intros [H|H]; [now apply flt_asym | subst; apply flt_irrefl].
Qed.
Lemma flt_add_lt0 x y : x < y <-> 0 < y - x.
Proof.
  split; intros H.
  - apply (fltb_add K _ _ (- x)) in H. unfold flt.
    replace (- x + x) with (0:K) in H by ring. replace (- x + y) with (y - x) in H by ring. exact H.
  - apply (fltb_add K _ _ x) in H. unfold flt.
    replace (x + 0) with x in H by ring. replace (x + (y - x)) with y in H by ring. exact H.
Qed.
Lemma flt_0_1 : (0:K) < 1.
Proof.
  destruct (fltb_total K 0 1) as [A|[A|A]]; auto.
  - now elim (f1_neq_0 K).
  - assert (B : (0:K) < - (1)).
    { apply (fltb_add K _ _ (- (1))) in A. unfold flt.
      replace (- (1) + (1:K)) with (0:K) in A by ring. replace (- (1) + (0:K)) with (- (1:K)) in A by ring. exact A. }
    pose proof (fltb_mul K _ _ B B) as C. unfold flt.
    replace (1:K) with (- (1) * - (1) : K) by ring. exact C.
Qed.

(** case analysis on the comparisons *)
Lemma fltb_spec x y : BoolSpec (x < y) (y <= x) (fltb x y).
Proof. unfold flt, fle. destruct (fltb x y); now constructor. Qed.
Lemma fleb_spec x y : BoolSpec (x <= y) (y < x) (fleb x y).
Proof. unfold flt, fle, fleb. destruct (fltb y x); now constructor. Qed.
Lemma feqb_spec x y : BoolSpec (x = y) (x <> y) (feqb x y).
Proof. destruct (feqb x y) eqn:E; constructor; [now apply feqb_eq | now apply feqb_neq]. Qed.
Lemma fleb_true x y : fleb x y = true <-> x <= y.
Proof. unfold fle, fleb. rewrite negb_true_iff. reflexivity. Qed.
Lemma fleb_false x y : fleb x y = false <-> y < x.
Proof. unfold flt, fleb. rewrite negb_false_iff. reflexivity. Qed.
Lemma fltb_true x y : fltb x y = true <-> x < y.
Proof. reflexivity. Qed.
Lemma fltb_false x y : fltb x y = false <-> y <= x.
Proof. reflexivity. Qed.
End Basic.

(** The executable instance: canonical fractions.  The proof component of results computes to
    [eq_refl], so Leibniz equalities between closed terms are decided by computation. *)
Definition canonb (q : Q) : bool := (Z.gcd (Qnum q) (Zpos (Qden q)) =? 1)%Z.
Record cq : Type := mkcq { cqv : Q; cqp : canonb cqv = true }.

Lemma canonb_red (q : Q) : canonb (Qred q) = true.
Proof.
  unfold canonb. apply Z.eqb_eq.
  destruct (Qcanon.Qred_iff (Qred q)) as [H _].
  apply H. apply Qred_involutive.
Qed.

Definition true_refl (b : bool) : b = true -> b = true :=
  match b with true => fun _ => eq_refl | false => fun H => H end.

Definition Q2cq (q : Q) : cq := mkcq (Qred q) (true_refl _ (canonb_red q)).

Lemma cq_eq (x y : cq) : (cqv x == cqv y)%Q -> x = y.
Proof.
  destruct x as [x p], y as [y q]. simpl. intros H.
  assert (E : x = y).
  { rewrite <- (proj2 (Qcanon.Qred_iff x)), <- (proj2 (Qcanon.Qred_iff y)).
    - now apply Qred_complete.
    - now apply Z.eqb_eq.
    - now apply Z.eqb_eq. }
  subst y. f_equal. apply (Eqdep_dec.UIP_dec bool_dec).
Qed.

Lemma Q2cq_v q : (cqv (Q2cq q) == q)%Q.
Proof. simpl. apply Qred_correct. Qed.

Definition cq_eqb (x y : cq) : bool := Qeq_bool (cqv x) (cqv y).
Definition cq_ltb (x y : cq) : bool := (Qnum (cqv x) * QDen (cqv y) <? Qnum (cqv y) * QDen (cqv x))%Z.

Lemma cq_ltb_lt x y : cq_ltb x y = true <-> (cqv x < cqv y)%Q.
Proof. unfold cq_ltb, Qlt. apply Z.ltb_lt. Qed.

Definition cqF : OField.
Proof.
  refine (mkOField cq (Q2cq 0) (Q2cq 1)
    (fun x y => Q2cq (cqv x + cqv y)) (fun x y => Q2cq (cqv x * cqv y))
    (fun x => Q2cq (- cqv x)) (fun x => Q2cq (/ cqv x)) cq_eqb cq_ltb
    _ _ _ _ _ _ _ _ _ _ _ _ _ _ _ _).
  all: intros.
  1-8: apply cq_eq; rewrite ?Q2cq_v.
  1-8: try ring.
  - intros H. apply (f_equal cqv) in H. discriminate H.
  - apply cq_eq. rewrite ?Q2cq_v. rewrite Qmult_comm. apply Qmult_inv_r.
    intros E. apply H. apply cq_eq. now rewrite Q2cq_v.
  - unfold cq_eqb. rewrite Qeq_bool_iff. split; [apply cq_eq | intros ->; reflexivity].
  - destruct (cq_ltb x x) eqn:E; auto. apply cq_ltb_lt in E. now apply Qlt_irrefl in E.
  - rewrite cq_ltb_lt in *. eapply Qlt_trans; eauto.
  - rewrite !cq_ltb_lt. destruct (Q_dec (cqv x) (cqv y)) as [[H|H]|H]; auto. right; left. now apply cq_eq.
  - rewrite cq_ltb_lt in *. rewrite !Q2cq_v. now apply Qplus_lt_r.
  - rewrite cq_ltb_lt in *. rewrite !Q2cq_v in *. now apply Qmult_lt_0_compat.
Defined.
