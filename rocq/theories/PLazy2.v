(** Lazily triangulated surfaces are surfaces. *)
From Coq Require Import List Bool ZArith Arith Lia Permutation.
From Verif Require Import OField MBase MDict PDict MEuclid PEuclid SSim MPoly PPoly MMut SMut PMut PMut2 PMut3 TMut MSurf SSurf SPoint PPoint SCut MEar SEar PEar4 PEar5 MLazy SLazy PLazy.
Import ListNotations.
Open Scope nat_scope.

Section L.
Context {K : OField}.
Notation nv := (@length (vec K) : polygon K -> nat).
Notation surf := (@surf (polygon K)).
Notation image := (@image K).
Variables (S : surface K Z) (D : Z -> bool) (ls : option (list Z)).
Hypothesis (DP : forall l, D l = true -> exists P, s_poly S l = Ok P /\ proper P).
Implicit Types (P Q : polygon K) (im : image) (t : tlabel) (l : Z).
Notation tri := (triangulated ls).
Notation image_of := (image_of S ls).

(** [Q] with the label [t] is a part of the polygon [l] *)
Definition part l t Q := (tri l = true /\ exists im P, s_poly S l = Ok P /\ image_of l = Ok im /\ split_up l P im /\ piece im t Q) \/
  (tri l = false /\ t = Ref l /\ s_poly S l = Ok Q).
Lemma image_tri l : D l = true -> tri l = true -> exists P im, s_poly S l = Ok P /\ proper P /\ image_of l = Ok im /\ split_up l P im.
Proof.
  intros DL TL. destruct (DP l DL) as (P & E & PR). destruct (triangulate_polygon_ok S l P E PR) as (im & A & B). exists P, im. split; auto. split; auto. split; auto.
  unfold MLazy.image_of. rewrite E. cbn [bind]. rewrite TL. exact A.
Qed.
Lemma image_keep l P : s_poly S l = Ok P -> tri l = false ->
  exists s, image_of l = Ok (Image s Ref (map (fun e => (e, (Ref l, e))) (seq 0 (length P)))) /\ polys s = [(0%Z, P)].
Proof.
  intros E TL. unfold MLazy.image_of. rewrite E. cbn [bind]. rewrite TL. cbn [negb].
  destruct (add_polygon_spec nv empty P None) as (s & r & EA & _ & _ & _ & _ & _ & _ & H).
  { apply (g_inv nv empty). apply intact_good. constructor. }
  destruct (H eq_refl) as [(k & -> & _ & _ & X & Y & _)|(k & X & _)]; [|discriminate]. rewrite EA.
  assert (ND : NoDup (map snd (map (fun e => (e, (Ref l, e))) (seq 0 (length P))))).
  { rewrite map_map. cbn [snd]. apply FinFun.Injective_map_NoDup; [intros a b [= ->]; auto|apply seq_NoDup]. }
  unfold bidict. rewrite (distinct_spec _ ND). cbn [bind]. exists s. split; auto. rewrite Y. cbn [polys empty app].
  specialize (X eq_refl). cbn [next_label empty polys keys map] in X. destruct X as [X1 X2].
  destruct (Z.eq_dec k 0) as [->|N]; auto. exfalso. apply (X2 0%Z). lia.
Qed.
Lemma part_over l t Q : part l t Q -> over t = l.
Proof.
  intros [(TL & im & P & E & EI & SU & PC)|(_ & -> & _)]; auto. destruct PC as (i & G & ->).
  rewrite (su_label _ _ _ SU) by (now exists Q). now destruct (length P =? 3).
Qed.
Lemma part_fun l l' t Q Q' : part l t Q -> part l' t Q' -> l = l' /\ Q = Q'.
Proof.
  intros A B. assert (E : l = l') by (rewrite <- (part_over _ _ _ A); now apply (part_over l' t Q')). subst l'. split; auto.
  destruct A as [(TL & im & P & E & EI & SU & PC)|(TL & _ & E)], B as [(TL' & im' & P' & E' & EI' & SU' & PC')|(TL' & _ & E')]; try congruence.
  rewrite EI in EI'. injection EI' as <-. now apply (piece_fun l P im SU t).
Qed.
Lemma reference_ok l t Q : D l = true -> part l t Q -> reference_label S D ls t = Ok l.
Proof.
  intros DL [(TL & im & P & E & EI & SU & PC)|(TL & -> & E)].
  - pose proof (piece_label im t Q PC) as IN. destruct PC as (i & G & ET).
    rewrite (su_label _ _ _ SU) in ET by (now exists Q). destruct (Nat.eqb_spec (length P) 3) as [N|N]; subst t; cbn [reference_label].
    + rewrite DL, TL. cbn [negb]. rewrite E. cbn [bind]. now rewrite (proj2 (Nat.eqb_eq _ _) N).
    + rewrite DL. cbn [negb]. rewrite EI. cbn [bind]. apply (proj2 (mem_In _ _)) in IN. now rewrite IN.
  - cbn [reference_label]. now rewrite DL, TL.
Qed.
Lemma reference_inv l t : reference_label S D ls t = Ok l -> D l = true /\ exists Q, part l t Q.
Proof.
  destruct t as [k|k i]; cbn [reference_label].
  - destruct (D k) eqn:DK; [|discriminate]. destruct (tri k) eqn:TK; cbn [negb].
    + destruct (image_tri k DK TK) as (P & im & E & PR & EI & SU). rewrite E. cbn [bind]. destruct (Nat.eqb_spec (length P) 3) as [N|N]; [|discriminate].
      injection 1 as <-. split; auto.
      assert (L0 : is_label (im_surf im) 0%Z).
      { destruct (su_outer0 _ _ _ SU) as (outer & T & _). apply (tr_labels _ _ _ T). lia. }
      destruct L0 as [Q G]. exists Q. left. split; auto. exists im, P. repeat split; try apply SU; auto. exists 0%Z. split; auto.
      rewrite (su_label _ _ _ SU) by (now exists Q). now rewrite (proj2 (Nat.eqb_eq _ _) N).
    + injection 1 as <-. split; auto. destruct (DP k DK) as (P & E & PR). exists P. right. auto.
  - destruct (D k) eqn:DK; cbn [negb]; [|discriminate]. destruct (tri k) eqn:TK.
    + destruct (image_tri k DK TK) as (P & im & E & PR & EI & SU). rewrite EI. cbn [bind]. destruct (mem (Part k i) (im_labels im)) eqn:M; [|discriminate].
      injection 1 as <-. split; auto. apply mem_In in M. destruct (label_piece im _ M) as [Q PC]. exists Q. left. split; auto. exists im, P. auto.
    + destruct (DP k DK) as (P & E & PR). destruct (image_keep k P E TK) as (s & EI & EP). rewrite EI. cbn [bind]. unfold im_labels. cbn [im_label im_surf]. rewrite EP.
      cbn. discriminate.
Qed.
Lemma lazy_label_iff t : lazy_label S D ls t = Ok true <-> exists l Q, D l = true /\ part l t Q.
Proof.
  unfold lazy_label. split.
  - destruct (reference_label S D ls t) as [l|[]] eqn:E; try discriminate. intros _. apply reference_inv in E. destruct E as (A & Q & B). now exists l, Q.
  - intros (l & Q & A & B). now rewrite (reference_ok l t Q A B).
Qed.
Lemma lazy_polygon_part l t Q : D l = true -> part l t Q -> lazy_polygon S D ls t = Ok Q.
Proof.
  intros DL PT. unfold lazy_polygon. rewrite (reference_ok l t Q DL PT). cbn [bind].
  destruct PT as [(TL & im & P & E & EI & SU & PC)|(TL & -> & E)]; rewrite TL; cbn [negb]; auto. rewrite EI. cbn [bind]. now apply (im_polygon_ok l P im SU).
Qed.
Lemma lazy_polygon_inv t Q : lazy_polygon S D ls t = Ok Q -> exists l, D l = true /\ part l t Q.
Proof.
  intros H. pose proof H as H'. unfold lazy_polygon in H'. destruct (reference_label S D ls t) as [l|] eqn:E; [|discriminate]. apply reference_inv in E.
  destruct E as (A & Q' & B). exists l. split; auto. pose proof (lazy_polygon_part l t Q' A B) as X. rewrite H in X. injection X as <-. auto.
Qed.
Lemma part_proper l t Q : D l = true -> part l t Q -> exists P, s_poly S l = Ok P /\ (tri l = true -> exists a b c, (a < length P) /\ (b < length P) /\ (c < length P) /\
   Q = [vertex P a; vertex P b; vertex P c] /\ flt f0 (orient (vertex P a) (vertex P b) (vertex P c))).
Proof.
  intros DL [(TL & im & P & E & EI & SU & PC)|(TL & -> & E)].
  - exists P. split; auto. intros _. apply (piece_shape l P im SU t Q PC).
  - exists Q. split; auto. congruence.
Qed.
(** outer edges *)
Lemma outer_edge l P im re : D l = true -> s_poly S l = Ok P -> image_of l = Ok im -> re < length P ->
  exists t Q e, dgetE re (im_outer im) = Ok (t, e) /\ im_inverse im (t, e) = Some re /\ part l t Q /\ e < length Q /\ same_edge Q e P re.
Proof.
  intros DL E EI L. destruct (tri l) eqn:TL.
  - destruct (image_tri l DL TL) as (P' & im' & E' & PR & EI' & SU). rewrite E in E'. injection E' as <-. rewrite EI in EI'. injection EI' as <-.
    destruct (outer_total l P im SU re L) as [[t e] H]. exists t.
    pose proof (proj1 (outer_piece l P im SU re (t, e)) H) as (_ & Q & PC & LE & V1 & V2 & _). cbn [fst snd] in *. exists Q, e.
    split; [now apply dgetE_Ok|]. split; [now apply (im_inverse_ok l P im SU)|]. split; [|split; auto; now split].
    left. split; auto. exists im, P. auto.
  - destruct (image_keep l P E TL) as (s & EI' & _). rewrite EI in EI'. injection EI' as ->. cbn [im_outer].
    assert (ND : NoDup (keys (map (fun e => (e, (Ref l, e))) (seq 0 (length P))))).
    { unfold keys. rewrite map_map. cbn [fst]. rewrite map_id. apply seq_NoDup. }
    exists (Ref l), P, re. split; [apply dgetE_Ok, In_dget; auto; apply in_map_iff; exists re; split; auto; apply in_seq; lia|]. split; [|split; [right; auto|split; auto; now split]].
    unfold im_inverse. cbn [im_outer]. destruct (find _ _) as [[k v]|] eqn:F.
    + apply find_some in F. cbn [snd] in F. destruct F as [A B]. apply (proj1 (eqb_ok _ _)) in B. apply in_map_iff in A. destruct A as (e & [= <- <-] & _). cbn. now injection B as ->.
    + exfalso. pose proof (find_none _ _ F (re, (Ref l, re))) as B. cbn [snd] in B. rewrite eqb_refl in B. discriminate B. apply in_map_iff. exists re. split; auto. apply in_seq. lia.
Qed.
(** an edge of a part is an edge of the polygon or an edge of another part *)
Lemma part_edge l t Q e : D l = true -> part l t Q -> e < length Q -> exists P im, s_poly S l = Ok P /\ image_of l = Ok im /\
  ((exists re, im_inverse im (t, e) = Some re /\ re < length P /\ same_edge Q e P re /\ dgetE re (im_outer im) = Ok (t, e)) \/
   (im_inverse im (t, e) = None /\ exists t' e' Q', im_opposite im t e = Ok (Some (t', e')) /\ part l t' Q' /\ e' < length Q' /\
    im_inverse im (t', e') = None /\ im_opposite im t' e' = Ok (Some (t, e)) /\ opposite_edges Q e Q' e')).
Proof.
  intros DL PT L. destruct PT as [(TL & im & P & E & EI & SU & PC)|(TL & -> & E)].
  - exists P, im. split; auto. split; auto. destruct (piece_edge l P im SU t Q e PC L) as [(re & A & B & C & D')|(A & t' & e' & Q' & B & C & D' & F & G & H & I)].
    + left. exists re. split; auto. split; auto. split; [now split|]. apply dgetE_Ok. now apply (im_inverse_ok l P im SU).
    + right. split; auto. exists t', e', Q'. split; auto. split; [left; split; auto; exists im, P; auto|]. split; auto. split; auto. split; auto. now split.
  - destruct (image_keep l Q E TL) as (s & EI & _). eexists. eexists. split; [exact E|]. split; [exact EI|]. left.
    destruct (outer_edge l Q _ e DL E EI L) as (t & Q' & e' & A & B & C & F & G).
    assert (X : t = Ref l /\ e' = e).
    { apply dgetE_Ok, dget_In in A. cbn [im_outer] in A. apply in_map_iff in A. destruct A as (k & A & _). injection A as -> <- <-. auto. }
    destruct X as [-> ->]. exists e. split; auto. split; auto. split; [now split|]. exact A.
Qed.
(** the gluings of the triangulation *)
Lemma lazy_inner l t Q e im : D l = true -> part l t Q -> image_of l = Ok im -> im_inverse im (t, e) = None ->
  lazy_opposite S D ls t e = im_opposite im t e.
Proof. intros DL PT EI N. unfold lazy_opposite. rewrite (reference_ok l t Q DL PT). cbn [bind]. rewrite EI. cbn [bind]. now rewrite N. Qed.
Lemma lazy_outer l t Q e im re : D l = true -> part l t Q -> image_of l = Ok im -> im_inverse im (t, e) = Some re ->
  lazy_opposite S D ls t e = bind (opp_pair S l re) (fun y => bind (image_of (fst y)) (fun im' => bind (dgetE (snd y) (im_outer im')) (fun x => Ok (Some x)))).
Proof. intros DL PT EI N. unfold lazy_opposite. rewrite (reference_ok l t Q DL PT). cbn [bind]. rewrite EI. cbn [bind]. now rewrite N. Qed.

Notation Dp := (fun l => D l = true).
Notation D' := (fun t => lazy_label S D ls t = Ok true).
Hypothesis (V : valid Dp S) (CL : closed Dp S).
Lemma image_total l : D l = true -> exists P im, s_poly S l = Ok P /\ proper P /\ image_of l = Ok im.
Proof.
  intros DL. destruct (tri l) eqn:TL.
  - destruct (image_tri l DL TL) as (P & im & A & B & C & _). now exists P, im.
  - destruct (DP l DL) as (P & A & B). destruct (image_keep l P A TL) as (s & C & _). exists P. eexists. eauto.
Qed.
Lemma outer_glued l re P l' re' P' : glued_at Dp S l re P l' re' P' ->
  D l' = true /\ re' < length P' /\ forall t Q e im, part l t Q -> image_of l = Ok im -> im_inverse im (t, e) = Some re ->
  exists t' Q' e' im', lazy_opposite S D ls t e = Ok (Some (t', e')) /\ part l' t' Q' /\ e' < length Q' /\ same_edge Q' e' P' re' /\
     image_of l' = Ok im' /\ im_inverse im' (t', e') = Some re'.
Proof.
  intros [DL E L O E']. destruct (v_opp _ _ V l P re DL E L) as [X|(l1 & e1 & P1 & X & DL1 & E1 & L1 & _)]; [congruence|].
  rewrite O in X. injection X as <- <-. rewrite E' in E1. injection E1 as <-. split; auto. split; auto.
  intros t Q e im PT EI N. destruct (image_total l' DL1) as (P2 & im' & E2 & PR2 & EI2). rewrite E' in E2. injection E2 as <-.
  destruct (outer_edge l' P' im' re' DL1 E' EI2 L1) as (t' & Q' & e' & A & B & C & F & G).
  exists t', Q', e', im'. split; auto.
  rewrite (lazy_outer l t Q e im re DL PT EI N). unfold opp_pair. rewrite O. cbn [bind fst snd]. rewrite EI2. cbn [bind]. rewrite A. reflexivity.
Qed.
Lemma glued_sym_at l re P l' re' P' : glued_at Dp S l re P l' re' P' -> glued_at Dp S l' re' P' l re P.
Proof.
  intros [DL E L O E']. destruct (v_opp _ _ V l P re DL E L) as [X|(l1 & e1 & P1 & X & DL1 & E1 & L1 & O1)]; [congruence|].
  rewrite O in X. injection X as <- <-. rewrite E' in E1. injection E1 as <-. now constructor.
Qed.
Lemma lazy_glued l t Q e : D l = true -> part l t Q -> e < length Q ->
  exists t' e' Q' l', lazy_opposite S D ls t e = Ok (Some (t', e')) /\ D l' = true /\ part l' t' Q' /\ e' < length Q' /\ lazy_opposite S D ls t' e' = Ok (Some (t, e)) /\
   ((l = l' /\ opposite_edges Q e Q' e') \/ (exists re P re' P', glued_at Dp S l re P l' re' P' /\ same_edge Q e P re /\ same_edge Q' e' P' re')).
Proof.
  intros DL PT L. destruct (part_edge l t Q e DL PT L) as (P & im & E & EI & [(re & N & LR & SE & DG)|(N & t' & e' & Q' & O & PT' & L' & N' & O' & OE)]).
  - destruct (v_opp _ _ V l P re DL E LR) as [X|(l' & re' & P' & O & DL' & E' & L' & O')]; [exfalso; exact (CL l P re DL E LR X)|].
    assert (GA : glued_at Dp S l re P l' re' P') by (now constructor).
    destruct (outer_glued _ _ _ _ _ _ GA) as (_ & _ & H). destruct (H t Q e im PT EI N) as (t' & Q' & e' & im' & A & B & C & F & G & I).
    exists t', e', Q', l'. split; auto. split; auto. split; auto. split; auto. split; [|right; exists re, P, re', P'; auto].
    destruct (outer_glued _ _ _ _ _ _ (glued_sym_at _ _ _ _ _ _ GA)) as (_ & _ & H'). destruct (H' t' Q' e' im' B G I) as (t2 & Q2 & e2 & im2 & A2 & _ & _ & _ & _ & _).
    rewrite A2. rewrite (lazy_outer l' t' Q' e' im' re' DL' B G I) in A2. unfold opp_pair in A2. rewrite O' in A2. cbn [bind fst snd] in A2. rewrite EI in A2. cbn [bind] in A2.
    rewrite DG in A2. cbn [bind] in A2. congruence.
  - exists t', e', Q', l. rewrite (lazy_inner l t Q e im DL PT EI N), (lazy_inner l t' Q' e' im DL PT' EI N').
    repeat split; auto. all: left; split; auto.
Qed.
End L.
