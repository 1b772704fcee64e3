(** Elementary lemmas about ordered fields. *)
From Coq Require Import Bool Ring Field.
From Verif Require Import OField FMicromega.

Section F.
Context {K : OField}.
Add Field KF : (of_ft K).
Local Open Scope F_scope.
Implicit Types x y z d : K.

Lemma fdiv_mul x d : d <> 0 -> x / d * d = x.
Proof. intros; field; auto. Qed.

Lemma fmul_neq0 x y : x <> 0 -> y <> 0 -> x * y <> 0.
Proof.
  intros Hx Hy E. apply Hx. replace x with (x * y / y) by (field; auto). rewrite E.
  field; auto.
Qed.

Lemma fmul_eq0 x y : x * y = 0 -> x = 0 \/ y = 0.
Proof.
  intros E. destruct (feq_dec x 0) as [A|A]; auto. destruct (feq_dec y 0) as [B|B]; auto.
  now destruct (fmul_neq0 _ _ A B).
Qed.

Lemma fsqr_eq0 x : x * x = 0 -> x = 0.
Proof. intros H. apply fmul_eq0 in H. tauto. Qed.

Lemma fmul_pos x y : 0 < x -> 0 < y -> 0 < x * y.
Proof. apply fltb_mul. Qed.

Lemma fpos_neq0 x : 0 < x -> x <> 0.
Proof. intros H ->. now apply flt_irrefl in H. Qed.
Lemma fneg_neq0 x : x < 0 -> x <> 0.
Proof. intros H ->. now apply flt_irrefl in H. Qed.

Lemma finv_pos x : 0 < x -> 0 < finv x.
Proof.
  intros H. pose proof (finv_l K x (fpos_neq0 _ H)) as E.
  assert (0 < (1:K)) by apply flt_0_1. fnra.
Qed.

Lemma fdiv_pos x d : 0 < d -> 0 < x -> 0 < x / d.
Proof. intros. apply fmul_pos; auto. now apply finv_pos. Qed.

Lemma fdiv_nonneg x d : 0 < d -> 0 <= x -> 0 <= x / d.
Proof.
  intros Hd Hx. pose proof (fdiv_mul x d (fpos_neq0 _ Hd)). fnra.
Qed.

Lemma fdiv_le x d z : 0 < d -> x <= z * d -> x / d <= z.
Proof. intros Hd Hx. pose proof (fdiv_mul x d (fpos_neq0 _ Hd)). fnra. Qed.

Lemma fle_refl x : x <= x.
Proof. flra. Qed.

Lemma fcancel x y d : d <> 0 -> x * d = y * d -> x = y.
Proof.
  intros Hd E. replace x with (x * d / d) by (field; auto). rewrite E. field; auto.
Qed.

Lemma fsq_nonneg x : 0 <= x * x.
Proof. fnra. Qed.

Lemma fsq_pos x : x <> 0 -> 0 < x * x.
Proof. intros H. destruct (fneq_lt _ _ H); fnra. Qed.

Lemma fsum_sq_eq0 x y : x * x + y * y = 0 -> x = 0 /\ y = 0.
Proof. intros H. split; fnra. Qed.

Lemma fsum_sq_pos x y : (x <> 0 \/ y <> 0) -> 0 < x * x + y * y.
Proof.
  intros [H|H]; apply fsq_pos in H;
  [pose proof (fsq_nonneg y)|pose proof (fsq_nonneg x)]; flra.
Qed.

Lemma f2_pos : 0 < (2 : K).
Proof. pose proof (@flt_0_1 K). flra. Qed.
Lemma f2_neq0 : (2 : K) <> 0.
Proof. apply fpos_neq0, f2_pos. Qed.

Lemma fopp_inj x y : - x = - y -> x = y.
Proof. intros H. replace x with (- - x) by ring. rewrite H. ring. Qed.
Lemma fm1_neq0 : - (1 : K) <> 0.
Proof. pose proof (@flt_0_1 K). intros X. flra. Qed.
End F.

(** side conditions of [field] *)
Ltac fside := repeat split; first
  [ assumption | exact fm1_neq0 | exact (f1_neq_0 _) | exact f2_neq0
  | match goal with H : _ <> _ |- _ => let X := fresh in intros X; apply H; flra end ].

(** case analysis on all boolean comparisons of the goal *)
Ltac fbool :=
  repeat match goal with
  | |- context [@fltb ?K ?a ?b] => let E := fresh "E" in destruct (@fltb K a b) eqn:E
  | |- context [@feqb ?K ?a ?b] => let E := fresh "E" in destruct (@feqb K a b) eqn:E
  | |- context [@fleb ?K ?a ?b] => let E := fresh "E" in destruct (@fleb K a b) eqn:E
  end.
