(** Triangulations of surfaces and the images of points. *)
From Coq Require Import List Bool ZArith Arith Lia Permutation.
From Verif Require Import OField MBase MDict PDict MEuclid PEuclid SSim MPoly PPoly MMut SMut PMut PMut2 PMut3 TMut MSurf SSurf SPoint PPoint PSimple PFlip SCut MEar SEar PEar4 PEar5 MLazy SLazy PLazy PLazy2 TPoly2.
Import ListNotations.
Open Scope nat_scope.

Lemma tri_nondeg {K : OField} (p q r : vec K) : flt f0 (orient p q r) -> forall e, edge [p; q; r] e <> vzero.
Proof.
  intros H. pose proof (tri_ok p q r H) as X. apply (proj1 (C51_vertices _ _ _)) in X. apply X.
Qed.
Section L.
Context {K : OField}.
Notation nv := (@length (vec K) : polygon K -> nat).
Variables (S : surface K Z) (D : Z -> bool) (ls : option (list Z)).
Hypothesis (DP : forall l, D l = true -> exists P, s_poly S l = Ok P /\ proper P).
Notation Dp := (fun l => D l = true).
Notation D' := (fun t => lazy_label S D ls t = Ok true).
Notation Tr := (fun l => triangulated ls l = true).
Theorem lazy_over : valid Dp S -> closed Dp S -> triangulation_over Tr Dp S D' (lazy_surface S D ls).
Proof.
  intros V CL.
  assert (LP : forall t Q, D' t -> lazy_polygon S D ls t = Ok Q -> D (over t) = true /\ part S ls (over t) t Q).
  { intros t Q _ E. apply (lazy_polygon_inv S D ls DP) in E. destruct E as (l & DL & PT). rewrite (part_over S ls l t Q PT). auto. }
  assert (PL : forall l t Q, D l = true -> part S ls l t Q -> D' t /\ over t = l /\ lazy_polygon S D ls t = Ok Q).
  { intros l t Q DL PT. split; [apply (lazy_label_iff S D ls DP); now exists l, Q|]. split; [now apply (part_over S ls l t Q)|]. now apply (lazy_polygon_part S D ls l t Q). }
  assert (OV : forall t, D' t -> exists Q, D (over t) = true /\ part S ls (over t) t Q).
  { intros t H. apply (lazy_label_iff S D ls DP) in H. destruct H as (l & Q & DL & PT). exists Q. rewrite (part_over S ls l t Q PT). auto. }
  constructor; cbn [lazy_surface s_poly s_opp].
  - constructor; cbn [lazy_surface s_poly s_opp].
    + intros t H. destruct (OV t H) as (Q & DL & PT). destruct (PL _ _ _ DL PT) as (_ & _ & E). exists Q. split; auto.
      destruct (part_proper S D ls _ t Q DL PT) as (P & EP & X). destruct (triangulated ls (over t)) eqn:TL.
      * destruct (X eq_refl) as (a & b & c & _ & _ & _ & -> & O). split; [reflexivity|now apply tri_nondeg].
      * destruct PT as [(TL' & _)|(_ & _ & EQ)]; [congruence|]. destruct (DP _ DL) as (P' & EP' & PR). rewrite EQ in EP'. injection EP' as <-. destruct PR as (A & B & _). auto.
    + intros t Q e H E L. destruct (LP t Q H E) as (DL & PT). right. destruct (lazy_glued S D ls DP V CL _ t Q e DL PT L) as (t' & e' & Q' & l' & A & B & C & F & G & _).
      exists t', e', Q'. destruct (PL _ _ _ B C) as (X & _ & Y). repeat split; auto.
  - intros t Q e H E L. destruct (LP t Q H E) as (DL & PT). destruct (lazy_glued S D ls DP V CL _ t Q e DL PT L) as (t' & e' & Q' & l' & A & _). cbn. rewrite A. discriminate.
  - intros t H. destruct (OV t H) as (Q & DL & PT). exact DL.
  - intros t Q P H TL E EP. destruct (LP t Q H E) as (DL & PT). destruct (part_proper S D ls _ t Q DL PT) as (P' & EP' & X). rewrite EP in EP'. injection EP' as <-. auto.
  - intros l P q DL TL EP. destruct (image_tri S D ls DP l DL TL) as (P' & im & EP' & PR & EI & SU). rewrite EP in EP'. injection EP' as <-.
    rewrite <- (piece_cover l P im SU q). split.
    + intros (t & Q & H & <- & E & LO). destruct (LP t Q H E) as (_ & [(_ & im' & P' & E1 & E2 & _ & PC)|(F & _)]); [|congruence].
      rewrite EI in E2. injection E2 as <-. now exists t, Q.
    + intros (t & Q & PC & LO). exists t, Q. destruct (PL l t Q DL) as (A & B & C); [left; split; auto; exists im, P; auto|]. auto.
  - intros t t' Q Q' q H H' EO TL E E' A B. destruct (LP t Q H E) as (DL & [(_ & im & P & E1 & E2 & SU & PC)|(F & _)]); [|congruence].
    destruct (LP t' Q' H' E') as (_ & [(_ & im' & P' & E1' & E2' & _ & PC')|(F & _)]); [|rewrite <- EO in F; congruence].
    rewrite <- EO in E2'. rewrite E2 in E2'. injection E2' as <-. exact (piece_disjoint _ P im SU t t' Q Q' q PC PC' A B).
  - intros l P DL TL EP t. apply not_true_is_false in TL. split.
    + intros (H & <-). destruct (OV t H) as (Q & _ & [(F & _)|(_ & E & _)]); [congruence|auto].
    + intros ->. destruct (PL l (Ref l) P DL) as (A & B & C); [right; auto|auto].
  - intros t H TL. apply not_true_is_false in TL. destruct (OV t H) as (Q & DL & PT). destruct (PL _ _ _ DL PT) as (_ & _ & E). rewrite E.
    destruct PT as [(F & _)|(_ & _ & EQ)]; congruence.
  - intros l P re DL EP L. destruct (image_total S D ls DP l DL) as (P' & im & EP' & PR & EI). rewrite EP in EP'. injection EP' as <-.
    destruct (outer_edge S D ls DP l P im re DL EP EI L) as (t & Q & e & _ & _ & PT & LE & SE). exists t, Q, e. destruct (PL l t Q DL PT) as (A & B & C). auto.
  - intros t e Q t' e' Q' [H E L O E']. cbn [lazy_surface s_poly s_opp] in *. destruct (LP t Q H E) as (DL & PT).
    destruct (lazy_glued S D ls DP V CL _ t Q e DL PT L) as (t2 & e2 & Q2 & l2 & A & B & C & F & G & X). rewrite O in A. injection A as <- <-.
    destruct (PL _ _ _ B C) as (_ & EO & E2). rewrite E' in E2. injection E2 as <-. rewrite EO. destruct X as [[X1 X2]|X]; [left|right]; auto.
  - intros l re P l' re' P' GA. destruct (image_total S D ls DP l (ga_dom _ _ _ _ _ _ _ _ GA)) as (P1 & im & EP' & PR & EI). rewrite (ga_poly _ _ _ _ _ _ _ _ GA) in EP'. injection EP' as <-.
    destruct (outer_edge S D ls DP l P im re (ga_dom _ _ _ _ _ _ _ _ GA) (ga_poly _ _ _ _ _ _ _ _ GA) EI (ga_edge _ _ _ _ _ _ _ _ GA)) as (t & Q & e & A & B & PT & LE & SE).
    destruct (outer_glued S D ls DP V l re P l' re' P' GA) as (DL' & L' & H). destruct (H t Q e im PT EI B) as (t' & Q' & e' & im' & O & PT' & LE' & SE' & _).
    destruct (PL _ _ _ (ga_dom _ _ _ _ _ _ _ _ GA) PT) as (X1 & X2 & X3). destruct (PL _ _ _ DL' PT') as (Y1 & Y2 & Y3).
    exists t, e, Q, t', e', Q'. split; auto. split; auto. split; auto. constructor; auto.
Qed.
End L.
