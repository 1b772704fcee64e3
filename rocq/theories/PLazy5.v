(** Sections of the triangulation morphism. *)
From Coq Require Import List Bool ZArith Arith Lia.
From Verif Require Import OField MBase MDict PDict MEuclid PEuclid SSim MPoly PPoly MMut SMut MSurf SSurf SPoint SCut MEar SEar MLazy SLazy PLazy PLazy2 PLazy3 PLazy4.
Import ListNotations.
Open Scope nat_scope.

Section L.
Context {K : OField}.
Variables (S : surface K Z) (D : Z -> bool) (ls : option (list Z)).
Hypothesis (DP : forall l, D l = true -> exists P, s_poly S l = Ok P /\ proper P).
Notation tri := (triangulated ls).
Implicit Types (P Q : polygon K) (t : tlabel) (l : Z) (q c : vec K).

(** the triangle [t] has an edge of the polygon *)
Definition touches l t := exists re e, image_edge S ls l re = Ok (t, e).

Lemma edge_over l l' re t e Q : D l = true -> D l' = true -> part S ls l t Q -> image_edge S ls l' re = Ok (t, e) -> l' = l.
Proof.
  intros DL DL' PT H. destruct (DP l' DL') as (P' & E' & _). destruct (image_edge_inv S D ls DP l' re t e P' DL' E' H) as (_ & Q' & PT' & _).
  rewrite <- (part_over S ls l t Q PT). symmetry. now apply (part_over S ls l' t Q').
Qed.
Lemma find_edge_spec l t e es P : D l = true -> s_poly S l = Ok P -> (forall k, In k es -> k < length P) ->
  (exists re, In re es /\ image_edge S ls l re = Ok (t, e) /\ find_edge S ls l t e es = Ok (Some re)) \/
  ((forall re, In re es -> image_edge S ls l re <> Ok (t, e)) /\ find_edge S ls l t e es = Ok None).
Proof.
  intros DL E. induction es as [|k es IH]; intros H; [right; split; [intros re []|reflexivity]|].
  destruct (image_edge_ok S D ls DP l P k DL E (H k (or_introl eq_refl))) as (t' & Q' & e' & X & _). cbn [find_edge]. rewrite X. cbn [bind].
  destruct (eqb_case (t', e') (t, e)) as [[-> EQ]|[-> NE]].
  - left. exists k. injection EQ as -> ->. split; [now left|auto].
  - destruct IH as [(re & I & A & B)|[A B]]; [intros j I; apply H; now right| |].
    + left. exists re. split; [now right|auto].
    + right. split; auto. intros re [<-|I]; [rewrite X; congruence|auto].
Qed.
Lemma meets_spec l t es P : D l = true -> s_poly S l = Ok P -> (forall k, In k es -> k < length P) ->
  ((exists re e, In re es /\ image_edge S ls l re = Ok (t, e)) /\ meets S ls l t es = Ok true) \/
  ((forall re e, In re es -> image_edge S ls l re <> Ok (t, e)) /\ meets S ls l t es = Ok false).
Proof.
  intros DL E. induction es as [|k es IH]; intros H; [right; split; [intros re e []|reflexivity]|].
  destruct (image_edge_ok S D ls DP l P k DL E (H k (or_introl eq_refl))) as (t' & Q' & e' & X & _). cbn [meets]. rewrite X. cbn [bind fst].
  destruct (eqb_case t' t) as [[-> EQ]|[-> NE]].
  - left. split; auto. exists k, e'. subst t'. split; [now left|auto].
  - destruct IH as [[(re & e & I & A) B]|[A B]]; [intros j I; apply H; now right| |].
    + left. split; auto. exists re, e. split; [now right|auto].
    + right. split; auto. intros re e [<-|I]; [rewrite X; congruence|auto].
Qed.
Lemma section_edge_spec labels l t Q e : (forall k, In k labels -> D k = true) -> In l labels -> part S ls l t Q ->
  (exists re, image_edge S ls l re = Ok (t, e) /\ section_edge S ls labels t e = Ok (l, Some re)) \/
  ((forall re, image_edge S ls l re <> Ok (t, e)) /\ touches l t /\ section_edge S ls labels t e = Ok (l, None)) \/
  (~ touches l t /\ section_edge S ls labels t e = Err AssertionError).
Proof.
  intros DA IL PT. assert (DL : D l = true) by auto.
  assert (NT : ~ touches l t -> forall lb, (forall k, In k lb -> D k = true) -> section_edge S ls lb t e = Err AssertionError).
  { intros NT. induction lb as [|k lb IH]; intros H; [reflexivity|]. cbn [section_edge]. destruct (DP k (H k (or_introl eq_refl))) as (P & E & _). rewrite E. cbn [bind].
    assert (DK : D k = true) by (apply H; now left).
    destruct (find_edge_spec k t e (seq 0 (length P)) P DK E) as [(re & _ & A & B)|[A B]]; [intros j J; apply in_seq in J; lia| |].
    - exfalso. apply NT. rewrite <- (edge_over l k re t e Q DL DK PT A). now exists re, e.
    - rewrite B. cbn [bind]. destruct (meets_spec k t (seq 0 (length P)) P DK E) as [[(re & e' & _ & A') B']|[A' B']]; [intros j J; apply in_seq in J; lia| |].
      + exfalso. apply NT. rewrite <- (edge_over l k re t e' Q DL DK PT A'). now exists re, e'.
      + rewrite B'. cbn [bind]. apply IH. intros j J. apply H. now right. }
  assert (X : forall lb, (forall k, In k lb -> D k = true) -> In l lb -> touches l t ->
    (exists re, image_edge S ls l re = Ok (t, e) /\ section_edge S ls lb t e = Ok (l, Some re)) \/
    ((forall re, image_edge S ls l re <> Ok (t, e)) /\ section_edge S ls lb t e = Ok (l, None))).
  { induction lb as [|k lb IH]; intros H IN TO; [destruct IN|]. cbn [section_edge]. destruct (DP k (H k (or_introl eq_refl))) as (P & E & _). rewrite E. cbn [bind].
    assert (DK : D k = true) by (apply H; now left).
    destruct (find_edge_spec k t e (seq 0 (length P)) P DK E) as [(re & _ & A & B)|[A B]]; [intros j J; apply in_seq in J; lia| |].
    - left. exists re. rewrite B. cbn [bind]. rewrite <- (edge_over l k re t e Q DL DK PT A). auto.
    - rewrite B. cbn [bind]. destruct (meets_spec k t (seq 0 (length P)) P DK E) as [[(re & e' & _ & A') B']|[A' B']]; [intros j J; apply in_seq in J; lia| |].
      + rewrite B'. cbn [bind]. pose proof (edge_over l k re t e' Q DL DK PT A') as ->. right. split; auto.
        intros re' F. destruct (image_edge_inv S D ls DP l re' t e P DL E F) as (L & _). apply (A re'); auto. apply in_seq. lia.
      + rewrite B'. cbn [bind]. destruct (Z.eq_dec k l) as [->|NE].
        * exfalso. destruct TO as (re & e' & F). destruct (image_edge_inv S D ls DP l re t e' P DL E F) as (L & _). apply (A' re e'); auto. apply in_seq. lia.
        * apply IH; auto. intros j J. apply H. now right. destruct IN; [contradiction|auto]. }
  assert (DEC : touches l t \/ ~ touches l t).
  { destruct (DP l DL) as (P & E & _). destruct (meets_spec l t (seq 0 (length P)) P DL E) as [[(re & e' & _ & A') B']|[A' B']]; [intros j J; apply in_seq in J; lia| |].
    - left. now exists re, e'.
    - right. intros (re & e' & F). destruct (image_edge_inv S D ls DP l re t e' P DL E F) as (L & _). apply (A' re e'); auto. apply in_seq. lia. }
  destruct DEC as [TO|NO]; [|right; right; auto]. destruct (X labels DA IL TO) as [H|[H1 H2]]; auto.
Qed.
Lemma section_loop labels l t Q P c es : (forall k, In k labels -> D k = true) -> In l labels -> part S ls l t Q -> s_poly S l = Ok P ->
  left_or_on Q c \/ get_point_position P c <> Outside -> tri l = true -> left_or_on Q c ->
  (forall e, In e es -> e < length Q) ->
  (~ touches l t -> section_point_loop S ls labels t Q c es = Err AssertionError) /\
  ((exists re e, In e es /\ image_edge S ls l re = Ok (t, e)) ->
    section_point_loop S ls labels t Q c es = if is_convex false P then Ok (l, c) else Err AttributeError).
Proof.
  intros DA IL PT E _ TL LO. assert (DL : D l = true) by auto.
  assert (NO : get_point_position P c <> Outside).
  { destruct (image_tri S D ls DP l DL TL) as (P' & im & E' & PR & EI & SU). rewrite E in E'. injection E' as <-.
    destruct PT as [(_ & im' & P' & _ & E2 & _ & PC)|(F & _)]; [|congruence]. rewrite EI in E2. injection E2 as <-.
    apply (piece_cover l P im SU). now exists t, Q. }
  induction es as [|e es IH]; intros H; [split; [reflexivity|intros (re & e & [] & _)]|].
  destruct IH as [I1 I2]; [intros k I; apply H; now right|]. cbn [section_point_loop].
  destruct (section_edge_spec labels l t Q e DA IL PT) as [(re & A & B)|[(A & TO & B)|(NT & B)]]; rewrite B; cbn [bind fst snd].
  - split; [intros NT; exfalso; apply NT; now exists re, e|]. intros _. rewrite E. cbn [bind].
    destruct (image_edge_inv S D ls DP l re t e P DL E A) as (L & Q' & PT' & _ & V1 & _). destruct (part_fun S ls l l t Q Q' PT PT') as (_ & <-).
    rewrite <- V1, vadd_sub. unfold contains_point. destruct (is_convex false P); [|reflexivity]. cbn [bind]. destruct (get_point_position P c); try reflexivity. congruence.
  - split; auto. intros (re & e' & [<-|I] & F); [now apply A in F|]. apply I2. now exists re, e'.
  - split; auto. intros (re & e' & I & F). exfalso. apply NT. now exists re, e'.
Qed.
Lemma section_point_spec labels l t Q P c : (forall k, In k labels -> D k = true) -> In l labels -> part S ls l t Q -> s_poly S l = Ok P ->
  tri l = true -> left_or_on Q c ->
  (~ touches l t -> section_point S D ls labels t c = Err AssertionError) /\
  (touches l t -> section_point S D ls labels t c = if is_convex false P then Ok (l, c) else Err AttributeError).
Proof.
  intros DA IL PT E TL LO. assert (DL : D l = true) by auto. unfold section_point. rewrite (lazy_polygon_part S D ls l t Q DL PT). cbn [bind].
  destruct (section_loop labels l t Q P c (seq 0 (length Q)) DA IL PT E (or_introl LO) TL LO) as [A B]; [intros e I; apply in_seq in I; lia|].
  split; auto. intros (re & e & F). apply B. exists re, e. split; auto. destruct (image_edge_inv S D ls DP l re t e P DL E F) as (_ & Q' & PT' & L & _).
  destruct (part_fun S ls l l t Q Q' PT PT') as (_ & <-). apply in_seq. lia.
Qed.
End L.
