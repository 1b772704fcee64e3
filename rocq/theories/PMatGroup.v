(** Enumeration of matrix groups. *)
From Coq Require Import List Bool Arith ZArith Lia Ring Field Permutation.
From Verif Require Import OField FMicromega PField MBase MSim PSim MDict PDict MMatGroup SMatGroup PHom2 PHom3.
Import ListNotations.

Section P.
Context {K : OField}.
Add Field KF : (of_ft K).
Local Open Scope F_scope.
Implicit Types (m g p : mat K) (gens wait : list (mat K)).
Notation inv g := (mdet g <> 0).
Notation istate := (list (mat K) * list (mat K) * list (mat K))%type.
Ltac mcases := repeat match goal with m : mat K |- _ => destruct m end; unfold mmul, minv, mone, mdet in *; cbn [m00 m01 m10 m11] in *.
Lemma mmul_assoc m n p : mmul (mmul m n) p = mmul m (mmul n p).
Proof. mcases; apply mat_eq; cbn; ring. Qed.
Lemma mmul_1_l m : mmul mone m = m.
Proof. mcases; apply mat_eq; cbn; ring. Qed.
Lemma mmul_1_r m : mmul m mone = m.
Proof. mcases; apply mat_eq; cbn; ring. Qed.
Lemma minv_r m : inv m -> mmul m (minv m) = mone.
Proof. intros H. mcases; apply mat_eq; cbn; field; auto. Qed.
Lemma minv_l m : inv m -> mmul (minv m) m = mone.
Proof. intros H. mcases; apply mat_eq; cbn; field; auto. Qed.
Lemma minv_unique m n : inv m -> mmul m n = mone -> n = minv m.
Proof. intros H E. rewrite <- (mmul_1_l n), <- (minv_l m H), mmul_assoc, E, mmul_1_r. reflexivity. Qed.
Lemma mdet_mul m n : mdet (mmul m n) = mdet m * mdet n.
Proof. mcases; ring. Qed.
Lemma mdet_one : mdet (@mone K) = 1.
Proof. unfold mdet. cbn. ring. Qed.
Lemma inverse_ok g : inv g -> inverse g = Ok (minv g).
Proof. intros H. unfold inverse. apply feqb_false in H. now rewrite H. Qed.

Section G.
Variable gens : list (mat K).
Hypothesis GI : forall g, In g gens -> inv g.
Notation G := (generated gens).
Lemma gen_group : subgroup G.
Proof.
  constructor.
  - intros H S _. apply S.
  - intros x y X Y H S I. apply S; [now apply X|now apply Y].
  - intros x y X E H S I. apply (sg_inv H S x y); auto. now apply X.
Qed.
Lemma gen_in g : In g gens -> G g.
Proof. intros I H S A. auto. Qed.
Lemma gen_inv g : In g gens -> G (minv g).
Proof. intros I. apply (sg_inv G gen_group g); [now apply gen_in|]. apply minv_r; auto. Qed.
Lemma gen_det m : G m -> inv m.
Proof.
  intros A. apply (A (fun m => inv m)); auto. constructor.
  - rewrite mdet_one. apply f1_neq_0.
  - intros x y X Y. rewrite mdet_mul. now apply fmul_neq0.
  - intros x y X E Y. apply (f_equal mdet) in E. rewrite mdet_mul, Y, mdet_one in E. apply (f1_neq_0 K). rewrite <- E. ring.
Qed.

(** ** the loop *)
Record good (st : istate) : Prop := {
  gd_ys : fst (fst st) = snd (fst st);
  gd_nd : NoDup (fst (fst st));
  gd_one : In mone (fst (fst st));
  gd_grp : forall m, In m (fst (fst st)) -> G m;
  gd_wgrp : forall m, In m (snd st) -> G m }.
Definition gs := fun (m : mat K) (st : istate) => In m (snd (fst st)).
Definition gw := fun (m : mat K) (st : istate) => In m (snd st).
(** all products of [p] with the generators are known *)
Definition done (p : mat K) (hs : list (mat K)) (st : istate) := forall g, In g hs -> gs (mmul p g) st.
Lemma visit_spec st m : good st -> G m -> good (visit st m) /\ gs m (visit st m) /\
  (forall x, gs x st -> gs x (visit st m)) /\ (forall x, gw x st -> gw x (visit st m)) /\
  (forall x, gs x (visit st m) -> gs x st \/ gw x (visit st m)).
Proof.
  destruct st as [[ys s] w]. intros [A B O C D] Gm. cbn in A, B, C, D, O. subst s. unfold visit, gs, gw. destruct (mem m ys) eqn:E; cbn.
  - apply mem_In in E. split; [constructor; auto|]. auto.
  - apply mem_not_In in E. split; [constructor; cbn|].
    + reflexivity.
    + now apply NoDup_snoc.
    + rewrite in_app_iff. auto.
    + intros x I. rewrite in_app_iff in I. destruct I as [I|[<-|[]]]; auto.
    + intros x I. rewrite in_app_iff in I. destruct I as [I|[<-|[]]]; auto.
    + split; [rewrite in_app_iff; cbn; auto|]. split; [intros; rewrite in_app_iff; auto|]. split; [intros; rewrite in_app_iff; auto|].
      intros x I. rewrite in_app_iff in I. destruct I as [I|[<-|[]]]; auto. right. rewrite in_app_iff. cbn. auto.
Qed.
Lemma visits_spec ms : forall st, good st -> (forall m, In m ms -> G m) -> let st' := fold_left visit ms st in
  good st' /\ (forall m, In m ms -> gs m st') /\ (forall x, gs x st -> gs x st') /\ (forall x, gw x st -> gw x st') /\
  (forall x, gs x st' -> gs x st \/ gw x st').
Proof.
  induction ms as [|m ms IH]; intros st A I; cbn.
  - split; auto. split; [intros ? []|]. auto.
  - destruct (visit_spec st m A (I m (or_introl eq_refl))) as (B & C & D & E & F).
    destruct (IH _ B (fun x J => I x (or_intror J))) as (B' & C' & D' & E' & F'). split; auto. split.
    { intros x [<-|J]; auto. } split; auto. split; auto. intros x J. destruct (F' x J) as [J'|J']; auto. destruct (F x J'); auto.
Qed.
Lemma expand_spec p : forall hs st, incl hs gens -> G p -> good st -> exists st', expand p hs st = Ok st' /\ good st' /\ done p hs st' /\
  (forall x, gs x st -> gs x st') /\ (forall x, gw x st -> gw x st') /\ (forall x, gs x st' -> gs x st \/ gw x st').
Proof.
  induction hs as [|g hs IH]; intros st I P A; cbn [expand].
  - exists st. split; auto. split; auto. split; [intros ? []|]. auto.
  - assert (Ig : In g gens) by (apply I; now left). rewrite (inverse_ok g (GI g Ig)). cbn [bind].
    destruct (visits_spec [mmul p g; mmul p (minv g); mmul g p; mmul (minv g) p] st A) as (B & C & D & E & F).
    { pose proof (gen_in g Ig). pose proof (gen_inv g Ig). intros m [<-|[<-|[<-|[<-|[]]]]]; apply gen_group; auto. }
    destruct (IH _ (fun x J => I x (or_intror J)) P B) as (st' & E1 & B' & C' & D' & E' & F'). exists st'. split; auto. split; auto. split.
    { intros h [<-|J]; [apply D', C; now left|now apply C']. }
    split; auto. split; auto. intros x J. destruct (F' x J) as [J'|J']; auto. destruct (F x J') as [J2|J2]; auto.
Qed.
(** every known element different from one is waiting, or its products are known; generators are known or waiting *)
Definition progress (st : istate) : Prop :=
  (forall x, gs x st -> x = mone \/ gw x st \/ done x gens st) /\ (forall g, In g gens -> gs g st \/ gw g st).
Lemma loop_spec : forall n st, good st -> progress st -> exists st', loop n gens st = Ok st' /\ good st' /\ progress st'.
Proof.
  induction n as [|n IH]; intros [[ys s] w] A P; cbn [loop]; [eauto|]. destruct w as [|p w]; [eauto|].
  assert (Gp : G p) by (apply (gd_wgrp _ A); now left).
  set (st := if mem p s then (ys, s, w) else (ys ++ [p], s ++ [p], w)).
  assert (X : good st /\ gs p st /\ (forall x, gs x (ys, s, p :: w) -> gs x st) /\ (forall x, gw x (ys, s, p :: w) -> x = p \/ gw x st) /\
    (forall x, gs x st -> x = p \/ gs x (ys, s, p :: w))).
  { destruct A as [A B O C D]. cbn in A, B, C, D, O. subst s. unfold st. destruct (mem p ys) eqn:E.
    - apply mem_In in E. split; [constructor; cbn; auto|]. unfold gs, gw; cbn. split; auto. split; auto. split; auto. intros x [<-|]; auto.
    - apply mem_not_In in E. split; [constructor; cbn; auto|].
      + now apply NoDup_snoc.
      + rewrite in_app_iff. auto.
      + intros x I. rewrite in_app_iff in I. destruct I as [I|[<-|[]]]; auto.
      + unfold gs, gw; cbn. split; [rewrite in_app_iff; cbn; auto|]. split; [intros; rewrite in_app_iff; auto|]. split; [intros x [<-|]; auto|].
        intros x I. rewrite in_app_iff in I. destruct I as [I|[<-|[]]]; auto. }
  destruct X as (X1 & X2 & X3 & X4 & X5).
  destruct (expand_spec p gens st (incl_refl _) Gp X1) as (st' & E & B & C & D & F & H). rewrite E. cbn [bind].
  apply IH; auto. destruct P as [P1 P2]. split.
  - intros x J. destruct (H x J) as [J'|J']; auto. destruct (X5 x J') as [->|J2]; auto.
    destruct (P1 x J2) as [?|[J3|J3]]; auto.
    + destruct (X4 x J3) as [->|]; auto.
    + right. right. intros g Ig. apply D, X3. now apply J3.
  - intros g Ig. destruct (P2 g Ig) as [J|J]; auto. destruct (X4 g J) as [->|]; auto.
Qed.
Lemma start_good : good ([mone], [mone], gens) /\ progress ([mone], [mone], gens).
Proof.
  split.
  - constructor; cbn; auto.
    + repeat constructor. intros [].
    + intros m [<-|[]]. apply gen_group.
    + intros m I. now apply gen_in.
  - split; unfold gs, gw; cbn; auto. intros x [<-|[]]. auto.
Qed.
Lemma iter_spec n : exists st, iter n gens = Ok (fst (fst st), snd st) /\ loop n gens ([mone], [mone], gens) = Ok st /\ good st /\ progress st.
Proof.
  destruct start_good as [A P]. destruct (loop_spec n _ A P) as ([[ys s] w] & E & B & Q). exists (ys, s, w).
  unfold iter. rewrite E. cbn. auto.
Qed.
(** right multiplication with a generator permutes a finite set that it maps into itself *)
Lemma closed_finite (ys : list (mat K)) g : NoDup ys -> inv g -> (forall x, In x ys -> In (mmul x g) ys) -> Permutation (map (fun x => mmul x g) ys) ys.
Proof.
  intros N I C. assert (Inj : forall x y, mmul x g = mmul y g -> x = y).
  { intros x y E. rewrite <- (mmul_1_r x), <- (mmul_1_r y), <- (minv_r g I), <- !mmul_assoc, E. reflexivity. }
  apply NoDup_Permutation_bis.
  - apply FinFun.Injective_map_NoDup; auto.
  - now rewrite map_length.
  - intros y J. apply in_map_iff in J. destruct J as (x & <- & J). auto.
Qed.
Lemma complete ys : NoDup ys -> In mone ys -> (forall x g, In x ys -> In g gens -> In (mmul x g) ys) -> forall m, G m -> In m ys.
Proof.
  intros N O C m Gm.
  assert (X : forall y, In y ys -> In (mmul y m) ys /\ exists x, In x ys /\ mmul x m = y).
  2: { rewrite <- (mmul_1_l m). now apply X. }
  apply (Gm (fun m => forall y, In y ys -> In (mmul y m) ys /\ exists x, In x ys /\ mmul x m = y)).
  - constructor.
    + intros y J. rewrite mmul_1_r. split; auto. exists y. now rewrite mmul_1_r.
    + intros x y X Y z J. split.
      * rewrite <- mmul_assoc. apply Y. now apply X.
      * destruct (proj2 (Y z J)) as (z1 & J1 & E1). destruct (proj2 (X z1 J1)) as (z2 & J2 & E2). exists z2. split; auto.
        now rewrite <- mmul_assoc, E2.
    + intros x y X E z J. split.
      * destruct (proj2 (X z J)) as (z1 & J1 & E1). rewrite <- E1, mmul_assoc, E, mmul_1_r. auto.
      * exists (mmul z x). split; [now apply X|]. now rewrite mmul_assoc, E, mmul_1_r.
  - intros g Ig y J. split; auto. pose proof (closed_finite ys g N (GI g Ig) (fun x Jx => C x g Jx Ig)) as P.
    apply Permutation_sym in P. pose proof (Permutation_in _ P J) as J'. apply in_map_iff in J'. destruct J' as (x & Ex & Jx). eauto.
Qed.
Lemma iter_complete n ys : iter n gens = Ok (ys, nil) -> forall m, G m -> In m ys.
Proof.
  intros E. destruct (iter_spec n) as ([[ys' s] w] & E' & _ & [A B O C D] & [P1 P2]). cbn in *. rewrite E in E'. injection E' as <- <-.
  subst s. apply complete; auto. intros x g Jx Jg. destruct (P1 x Jx) as [->|[[]|Q]]; auto.
  - rewrite mmul_1_l. destruct (P2 g Jg) as [|[]]; auto.
  - now apply Q.
Qed.
(** ** termination *)
Definition size (st : istate) := (length (snd st), length (fst (fst st))).
Lemma visit_size (st : istate) m : (length (snd (visit st m)) + length (fst (fst st)) = length (snd st) + length (fst (fst (visit st m))))%nat.
Proof. destruct st as [[ys s] w]. unfold visit. destruct (mem m s); cbn; auto. rewrite !app_length. cbn. lia. Qed.
Lemma visits_size (ms : list (mat K)) : forall st : istate, (length (snd (fold_left visit ms st)) + length (fst (fst st)) = length (snd st) + length (fst (fst (fold_left visit ms st))))%nat.
Proof. induction ms as [|m ms IH]; intros st; cbn [fold_left]; auto. specialize (IH (visit st m)). pose proof (visit_size st m). lia. Qed.
Lemma expand_size p : forall hs (st st' : istate), expand p hs st = Ok st' -> (length (snd st') + length (fst (fst st)) = length (snd st) + length (fst (fst st')))%nat.
Proof.
  induction hs as [|g hs IH]; intros st st'; cbn [expand]; [injection 1 as <-; auto|].
  destruct (inverse g); cbn [bind]; [|discriminate]. intros E. apply IH in E.
  pose proof (visits_size [mmul p g; mmul p a; mmul g p; mmul a p] st). lia.
Qed.
Lemma loop_size l : (forall m, G m -> In m l) -> forall n st st', good st -> progress st -> loop n gens st = Ok st' ->
  snd st' = nil \/ (n + length (snd st') + length (fst (fst st)) <= length (snd st) + length (fst (fst st')))%nat.
Proof.
  intros Fin. induction n as [|n IH]; intros [[ys s] w] st' A P E; cbn [loop] in E; [injection E as <-; right; lia|].
  destruct w as [|p w]; [injection E as <-; now left|].
  set (st := if mem p s then (ys, s, w) else (ys ++ [p], s ++ [p], w)) in E.
  destruct (expand p gens st) as [st1|] eqn:E1; [|discriminate]. cbn [bind] in E.
  destruct (loop_spec 1 _ A P) as (st2 & E2 & B & Q). cbn [loop] in E2. fold st in E2. rewrite E1 in E2. cbn in E2. injection E2 as <-.
  destruct (IH _ _ B Q E) as [|L]; auto. right. apply expand_size in E1.
  assert (length (fst (fst st)) = length ys /\ length (snd st) = length w \/ length (fst (fst st)) = Datatypes.S (length ys) /\ length (snd st) = length w).
  { unfold st. destruct (mem p s); cbn; auto. right. rewrite app_length. cbn. lia. }
  cbn in *. lia.
Qed.
Lemma iter_stops : finite_group gens -> exists n ys, iter n gens = Ok (ys, nil).
Proof.
  intros [l F]. set (n := (length l + length gens + 1)%nat). destruct (iter_spec n) as ([[ys s] w] & E & E1 & [A B O C D] & _).
  destruct start_good as [A0 P0]. destruct (loop_size l F n _ _ A0 P0 E1) as [Z|L].
  - cbn in *. subst w. eauto.
  - exfalso. cbn in *. assert (length ys <= length l)%nat by (apply NoDup_incl_length; auto; intros x J; auto). lia.
Qed.
End G.
Lemma is_abelian_spec gens : (forall g, In g gens -> inv g) -> is_abelian gens = true <-> forall x y, generated gens x -> generated gens y -> mmul x y = mmul y x.
Proof.
  intros GI. unfold is_abelian. rewrite forallb_forall. split.
  - intros A.
    assert (C : forall h, (forall g, In g gens -> mmul g h = mmul h g) -> forall x, generated gens x -> mmul x h = mmul h x).
    { intros h Hh x X. apply (X (fun x => mmul x h = mmul h x)); auto. constructor.
      - now rewrite mmul_1_l, mmul_1_r.
      - intros a b Ea Eb. now rewrite mmul_assoc, Eb, <- mmul_assoc, Ea, mmul_assoc.
      - intros a b Ea E. assert (Da : inv a).
        { intros Z. apply (f_equal mdet) in E. rewrite mdet_mul, Z, mdet_one in E. apply (f1_neq_0 K). rewrite <- E. ring. }
        rewrite (minv_unique a b Da E). rewrite <- (mmul_1_l (mmul (minv a) h)), <- (minv_l a Da), mmul_assoc, <- (mmul_assoc a), (minv_r a Da), mmul_1_l.
        rewrite <- (mmul_1_r h) at 1. rewrite <- (minv_r a Da), <- (mmul_assoc h), <- Ea, !mmul_assoc, <- (mmul_assoc (minv a)), (minv_l a Da), mmul_1_l. reflexivity. }
    intros x y X Y. apply C; auto. intros g Ig. symmetry. apply C; auto. intros g' Ig'. 
    specialize (A g' Ig'). rewrite forallb_forall in A. specialize (A g Ig). now apply (proj1 (eqb_ok (EqB := EqB_mat) _ _)) in A.
  - intros C g Ig. apply forallb_forall. intros h Ih. apply (proj2 (eqb_ok (EqB := EqB_mat) _ _)). apply C; now apply gen_in.
Qed.
End P.
