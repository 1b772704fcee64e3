(** Equivalence relations generated by a relation. *)
From Coq Require Import Relations.
Section Clos.
Context {A : Type}.
Implicit Types (R : A -> A -> Prop) (a b x y : A).
(** ** the generated equivalence *)
Definition add_pair (R : A -> A -> Prop) (a b : A) x y := R x y \/ (x = a /\ y = b).
Notation clos := (clos_refl_sym_trans A).
Lemma clos_mono (R R' : A -> A -> Prop) x y : (forall x y, R x y -> R' x y) -> clos R x y -> clos R' x y.
Proof. intros M C. induction C; [apply rst_step; auto|apply rst_refl|apply rst_sym; auto|eapply rst_trans; eauto]. Qed.
Lemma clos_join (R R' : A -> A -> Prop) x y : (forall x y, R x y -> clos R' x y) -> clos R x y -> clos R' x y.
Proof. intros M C. induction C; [auto|apply rst_refl|apply rst_sym; auto|eapply rst_trans; eauto]. Qed.
Lemma clos_add R a b x y : clos (add_pair R a b) x y <->
  clos R x y \/ (clos R x a /\ clos R b y) \/ (clos R x b /\ clos R a y).
Proof.
  split.
  - intros C. induction C as [x y [S|[-> ->]]|x|x y C IH|x y z C1 IH1 C2 IH2].
    + left. now apply rst_step.
    + right; left. split; apply rst_refl.
    + left. apply rst_refl.
    + destruct IH as [I|[[I J]|[I J]]]; [left|right; right|right; left]; try split; now apply rst_sym.
    + assert (SY : forall u v, clos R u v -> clos R v u) by (intros; now apply rst_sym).
      assert (TR : forall u v w, clos R u v -> clos R v w -> clos R u w) by (intros; eapply rst_trans; eauto).
      destruct IH1 as [I|[[I J]|[I J]]], IH2 as [I'|[[I' J']|[I' J']]]; eauto 8.
  - assert (Mo : forall u v, clos R u v -> clos (add_pair R a b) u v) by (intros u v; apply clos_mono; unfold add_pair; auto).
    assert (AB : clos (add_pair R a b) a b) by (apply rst_step; unfold add_pair; auto).
    intros [I|[[I J]|[I J]]]; auto.
    + eapply rst_trans; [apply Mo, I|]. eapply rst_trans; [apply AB|]. auto.
    + eapply rst_trans; [apply Mo, I|]. eapply rst_trans; [apply rst_sym, AB|]. auto.
Qed.
End Clos.
