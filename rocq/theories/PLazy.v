(** The pieces of lazily triangulated surfaces. *)
From Coq Require Import List Bool ZArith Arith Lia Permutation.
From Verif Require Import OField MBase MDict PDict MEuclid PEuclid SSim MPoly PPoly MMut SMut PMut PMut2 PMut3 TMut MSurf SSurf SPoint PPoint SCut MEar SEar PEar4 PEar5 MLazy.
Import ListNotations.
Open Scope nat_scope.

Section L.
Context {K : OField}.
Notation nv := (@length (vec K) : polygon K -> nat).
Notation surf := (@surf (polygon K)).
Notation image := (@image K).
Implicit Types (P Q : polygon K) (s : surf) (im : image) (t : tlabel).

(** the relabelled edge *)
Definition re_edge (f : Z -> tlabel) (x : hedge) : tlabel * nat := (f (fst x), Z.to_nat (snd x)).
(** what [_image] of a triangulated polygon returns *)
Record split_up (l : Z) P im : Prop := {
  su_outer0 : exists outer, triangulation_of P (im_surf im) outer /\ im_outer im = map (fun kv => (fst kv, re_edge (im_label im) (snd kv))) outer;
  su_intact : intact nv (im_surf im);
  su_label : forall i, is_label (im_surf im) i -> im_label im i = if length P =? 3 then Ref l else Part l i }.

Lemma label_count P s outer : triangulation_of P s outer -> intact nv s -> 3 <= length P -> length (polys s) = length P - 2.
Proof.
  intros T I N. pose proof (g_inv _ _ (intact_good nv s I)) as IN.
  assert (X : Permutation (keys (polys s)) (map Z.of_nat (seq 0 (length P - 2)))).
  { apply NoDup_Permutation; [apply (i_np nv s IN)|apply FinFun.Injective_map_NoDup; [intros a b; lia|apply seq_NoDup]|].
    intros l. rewrite <- (is_label_keys s l), (tr_labels _ _ _ T l), in_map_iff. split.
    - intros H. exists (Z.to_nat l). rewrite in_seq. lia.
    - intros (k & <- & H). apply in_seq in H. lia. }
  apply Permutation_length in X. rewrite map_length, seq_length in X. unfold keys in X. now rewrite map_length in X.
Qed.
Lemma triangulate_polygon_ok (S : surface K Z) l P : s_poly S l = Ok P -> proper P -> exists im, triangulate_polygon S l = Ok im /\ split_up l P im.
Proof.
  intros E PR. destruct (triangulate_ok P PR) as (s & outer & ET & T & I & _).
  unfold triangulate_polygon. rewrite E. cbn [bind]. rewrite ET. cbn [bind fst snd].
  pose proof (label_count P s outer T I (proj1 PR)) as C.
  set (f := if length (polys s) =? 1 then fun _ => Ref l else Part l).
  assert (F : forall i, is_label s i -> f i = if length P =? 3 then Ref l else Part l i).
  { intros i _. unfold f. destruct (Nat.eqb_spec (length (polys s)) 1), (Nat.eqb_spec (length P) 3); try reflexivity; destruct PR; lia. }
  assert (ND : NoDup (map snd (map (fun kv : nat * hedge => (fst kv, (f (fst (snd kv)), Z.to_nat (snd (snd kv))))) outer))).
  { assert (NK : NoDup (keys outer)) by (eapply Permutation_NoDup; [apply Permutation_sym, (tr_keys _ _ _ T)|apply seq_NoDup]).
    assert (EX : forall kv, In kv outer -> free nv s (snd kv)).
    { intros [k x] H. apply (In_dget k x outer NK) in H. apply (tr_outer _ _ _ T) in H. tauto. }
    rewrite map_map. cbn [snd]. apply (nodup_map_on (fun kv : nat * hedge => (f (fst (snd kv)), Z.to_nat (snd (snd kv)))) outer).
    - apply NoDup_map_inv in NK. exact NK.
    - intros [k x] [k' x'] H H' X. cbn [fst snd] in X. pose proof (EX _ H) as [[Q [GQ R]] _]. pose proof (EX _ H') as [[Q' [GQ' R']] _]. cbn [snd] in *.
      apply (In_dget k x outer NK) in H. apply (In_dget k' x' outer NK) in H'.
      assert (x = x') as ->.
      { injection X as X1 X2. rewrite !F in X1 by (eexists; eassumption). destruct x as [i e], x' as [i' e']. cbn [fst snd] in *.
        assert (i = i') as ->.
        { destruct (Nat.eqb_spec (length P) 3) as [N3|N3]; [|now injection X1].
          assert (L1 : is_label s i) by (now exists Q). assert (L2 : is_label s i') by (now exists Q').
          apply (tr_labels _ _ _ T) in L1, L2. lia. }
        f_equal. lia. }
      now rewrite (tr_once _ _ _ T k k' x' H H'). }
  unfold bidict. rewrite (distinct_spec _ ND). cbn [bind]. eexists. split; [reflexivity|].
  constructor; cbn [im_surf im_label im_outer]; auto. exists outer. split; auto.
Qed.

Section One.
Variables (l : Z) (P : polygon K) (im : image).
Hypothesis (PR : proper P) (SU : split_up l P im).
(** the triangle [Q] with the label [t] *)
Definition piece t Q := exists i, get_polygon (im_surf im) i = Ok Q /\ t = im_label im i.
Let s := im_surf im.
Let f := im_label im.
Lemma su_inj i j : is_label s i -> is_label s j -> f i = f j -> i = j.
Proof.
  intros Li Lj E. unfold f in E. rewrite !(su_label _ _ _ SU) in E by auto. destruct (su_outer0 _ _ _ SU) as (outer & T & _).
  destruct (Nat.eqb_spec (length P) 3) as [N|N]; [|now injection E]. apply (tr_labels _ _ _ T) in Li, Lj. lia.
Qed.
Lemma im_find_ok i : is_label s i -> im_find im (f i) = Ok i.
Proof.
  intros Li. unfold im_find. destruct (find (fun i0 => eqb (im_label im i0) (f i)) (keys (polys (im_surf im)))) as [j|] eqn:E.
  - apply find_some in E. destruct E as [A B]. apply (proj1 (eqb_ok _ _)) in B. f_equal. apply su_inj; auto. now apply is_label_keys.
  - exfalso. apply (proj1 (is_label_keys s i)) in Li. pose proof (find_none _ _ E i Li) as B. cbn beta in B. fold (f i) in B. rewrite eqb_refl in B. discriminate.
Qed.
Lemma im_find_inv t i : im_find im t = Ok i -> is_label s i /\ t = f i.
Proof.
  unfold im_find. destruct (find _ _) as [j|] eqn:E; [|discriminate]. injection 1 as ->. apply find_some in E. destruct E as [A B].
  apply (proj1 (eqb_ok _ _)) in B. split; auto. now apply is_label_keys.
Qed.
Lemma piece_label t Q : piece t Q -> In t (im_labels im).
Proof. intros (i & E & ->). apply in_map. apply is_label_keys. now exists Q. Qed.
Lemma label_piece t : In t (im_labels im) -> exists Q, piece t Q.
Proof. intros H. apply in_map_iff in H. destruct H as (i & <- & H). apply is_label_keys in H. destruct H as [Q E]. now exists Q, i. Qed.
Lemma im_polygon_ok t Q : im_polygon im t = Ok Q <-> piece t Q.
Proof.
  unfold im_polygon. split.
  - destruct (im_find im t) as [i|] eqn:E; [|discriminate]. cbn [bind]. intros G. apply im_find_inv in E. exists i. tauto.
  - intros (i & G & ->). fold (f i). rewrite im_find_ok by (now exists Q). exact G.
Qed.
Lemma piece_fun t Q Q' : piece t Q -> piece t Q' -> Q = Q'.
Proof. intros A B. apply im_polygon_ok in A, B. congruence. Qed.
Lemma piece_shape t Q : piece t Q -> t = (if length P =? 3 then Ref l else match t with Part _ i => Part l i | Ref _ => t end) /\
  exists a b c, (a < length P) /\ (b < length P) /\ (c < length P) /\ Q = [vertex P a; vertex P b; vertex P c] /\ flt f0 (orient (vertex P a) (vertex P b) (vertex P c)).
Proof.
  intros (i & G & E). split.
  - rewrite (su_label _ _ _ SU) in E by (now exists Q). subst t. now destruct (length P =? 3).
  - destruct (su_outer0 _ _ _ SU) as (outer & T & _). exact (tr_triangles _ _ _ T i Q G).
Qed.
Lemma piece_len t Q : piece t Q -> length Q = 3.
Proof. intros H. destruct (piece_shape t Q H) as (_ & a & b & c & _ & _ & _ & -> & _). reflexivity. Qed.
(** outer edges *)
Lemma outer_piece re x : dget re (im_outer im) = Some x <-> (re < length P) /\ exists Q, piece (fst x) Q /\ snd x < length Q /\
  vertex Q (snd x) = vertex P re /\ vertex Q (S (snd x)) = vertex P (S re) /\ exists i, get_polygon s i = Ok Q /\ fst x = f i /\ free nv s (i, Z.of_nat (snd x)).
Proof.
  destruct (su_outer0 _ _ _ SU) as (outer & T & EO).
  assert (NK : NoDup (keys outer)) by (eapply Permutation_NoDup; [apply Permutation_sym, (tr_keys _ _ _ T)|apply seq_NoDup]).
  assert (X : dget re (im_outer im) = Some x <-> exists y, dget re outer = Some y /\ x = re_edge f y).
  { rewrite EO. clear. induction outer as [|[k y] o IH]; cbn; [split; [discriminate|intros (y & A & _); discriminate]|].
    destruct (Nat.eqb_spec re k) as [->|N].
    - split; [intros [= <-]; now exists y|intros (y' & [= <-] & ->); reflexivity].
    - exact IH. }
  rewrite X. clear X. split.
  - intros ([i e] & D & ->). apply (tr_outer _ _ _ T) in D. destruct D as (L & FR & Q & G & [Q' [G' R]] & V1 & V2). cbn [fst snd re_edge] in *.
    rewrite G in G'. injection G' as <-. split; auto. exists Q. split; [now exists i|]. split; [lia|]. split; auto. split; auto. exists i. split; auto. split; auto.
    rewrite Z2Nat.id by lia. exact FR.
  - intros (L & Q & _ & SN & V1 & V2 & i & G & EF & FR). exists (i, Z.of_nat (snd x)). split.
    + apply (tr_outer _ _ _ T). split; auto. split; auto. exists Q. cbn [fst snd]. rewrite Nat2Z.id. repeat split; auto. exists Q. cbn. split; auto. lia.
    + unfold re_edge. cbn [fst snd]. rewrite Nat2Z.id, <- EF. now destruct x.
Qed.
Lemma outer_total re : re < length P -> exists x, dget re (im_outer im) = Some x.
Proof.
  intros L. destruct (su_outer0 _ _ _ SU) as (outer & T & EO).
  assert (H : In re (keys outer)) by (eapply Permutation_in; [apply Permutation_sym, (tr_keys _ _ _ T)|apply in_seq; lia]).
  assert (H' : In re (keys (im_outer im))) by (rewrite EO; unfold keys in *; rewrite map_map; exact H).
  apply dget_keys in H'. exact H'.
Qed.
Lemma outer_once re re' x : dget re (im_outer im) = Some x -> dget re' (im_outer im) = Some x -> re = re'.
Proof.
  intros A B. destruct (su_outer0 _ _ _ SU) as (outer & T & EO).
  assert (X : forall r, dget r (im_outer im) = Some x -> exists y, dget r outer = Some y /\ x = re_edge f y).
  { intros r. rewrite EO. clear. induction outer as [|[k y] o IH]; cbn; [discriminate|]. destruct (Nat.eqb_spec r k) as [->|N]; [|exact IH].
    intros [= <-]. now exists y. }
  apply X in A, B. destruct A as ([i e] & A & ->), B as ([i' e'] & B & E).
  pose proof A as A'. pose proof B as B'. apply (tr_outer _ _ _ T) in A', B'. destruct A' as (_ & [[Q [G R]] _] & _), B' as (_ & [[Q' [G' R']] _] & _). cbn [fst snd] in *.
  unfold re_edge in E. cbn [fst snd] in E. injection E as E1 E2. apply su_inj in E1; [|now exists Q|now exists Q'].
  assert (e = e') by lia. subst. now apply (tr_once _ _ _ T re re' (i', e')).
Qed.
Lemma outer_nodup : NoDup (keys (im_outer im)).
Proof.
  destruct (su_outer0 _ _ _ SU) as (outer & T & EO). rewrite EO. unfold keys. rewrite map_map. cbn [fst].
  eapply Permutation_NoDup; [apply Permutation_sym, (tr_keys _ _ _ T)|apply seq_NoDup].
Qed.
Lemma im_inverse_ok x re : im_inverse im x = Some re <-> dget re (im_outer im) = Some x.
Proof.
  unfold im_inverse. split.
  - destruct (find _ _) as [[k v]|] eqn:E; [|discriminate]. cbn. injection 1 as ->. apply find_some in E. cbn [fst snd] in E. destruct E as [A B].
    apply (proj1 (eqb_ok _ _)) in B. subst v. now apply (In_dget re x _ outer_nodup).
  - intros D. destruct (find _ _) as [[k v]|] eqn:E.
    + cbn. f_equal. apply find_some in E. cbn [fst snd] in E. destruct E as [A B]. apply (proj1 (eqb_ok _ _)) in B. subst v.
      apply (In_dget k x _ outer_nodup) in A. now apply (outer_once k re x).
    + exfalso. apply dget_In in D. pose proof (find_none _ _ E _ D) as B. cbn [snd] in B. rewrite eqb_refl in B. discriminate.
Qed.
Lemma im_inverse_none x : im_inverse im x = None <-> forall re, dget re (im_outer im) <> Some x.
Proof.
  split.
  - intros E re D. apply im_inverse_ok in D. congruence.
  - intros H. destruct (im_inverse im x) as [re|] eqn:E; auto. apply im_inverse_ok in E. now apply H in E.
Qed.
(** every edge of a piece is an outer edge or glued to another one *)
Lemma piece_edge t Q e : piece t Q -> e < length Q ->
  (exists re, im_inverse im (t, e) = Some re /\ re < length P /\ vertex Q e = vertex P re /\ vertex Q (S e) = vertex P (S re)) \/
  (im_inverse im (t, e) = None /\ exists t' e' Q', im_opposite im t e = Ok (Some (t', e')) /\ piece t' Q' /\ e' < length Q' /\
    im_inverse im (t', e') = None /\ im_opposite im t' e' = Ok (Some (t, e)) /\
    vertex Q e = vertex Q' (S e') /\ vertex Q (S e) = vertex Q' e').
Proof.
  intros (i & G & ->) L. destruct (su_outer0 _ _ _ SU) as (outer & T & EO). fold s in G. fold (f i).
  assert (IE : is_edge nv s (i, Z.of_nat e)) by (exists Q; cbn; split; auto; lia).
  assert (OP : forall x y, glued nv s x y -> im_inverse im (re_edge f x) = None /\ im_opposite im (fst (re_edge f x)) (snd (re_edge f x)) = Ok (Some (re_edge f y))).
  { intros [j d] y [[R [GR DR]] GL]. unfold re_edge. cbn [fst snd] in *. split.
    - apply im_inverse_none. intros re D. apply outer_piece in D. cbn [fst snd] in D. destruct D as (_ & Q' & _ & _ & _ & _ & i' & G' & E' & FR).
      apply su_inj in E'; [|now exists R|now exists Q']. subst i'. destruct FR as [_ FR]. cbn [fst snd] in FR. rewrite Z2Nat.id in FR by lia. congruence.
    - unfold im_opposite. rewrite im_find_ok by (now exists R). cbn [bind]. rewrite Z2Nat.id by lia. fold s. rewrite GL. reflexivity. }
  destruct (C01_well_defined nv s (su_intact _ _ _ SU) _ IE) as [FR|[[i' e'] GL]].
  - left. destruct (tr_free _ _ _ T _ FR) as [re D]. exists re.
    apply (tr_outer _ _ _ T) in D. destruct D as (LR & _ & Q' & G' & _ & V1 & V2). cbn [fst snd] in *. fold s in G'. rewrite G in G'. injection G' as <-. rewrite Nat2Z.id in V1, V2.
    split; auto. apply im_inverse_ok, outer_piece. split; auto. exists Q. cbn [fst snd]. split; [now exists i|]. split; auto. split; auto. split; auto. exists i. auto.
  - right. destruct (tr_glued _ _ _ T _ _ GL) as (GL' & p & p' & NE & (Q1 & G1 & _ & V1 & V2) & (Q2 & G2 & [Q3 [G3 R3]] & V3 & V4)). cbn [fst snd] in *. fold s in G1, G2, G3.
    rewrite G in G1. injection G1 as <-. rewrite G2 in G3. injection G3 as <-. rewrite Nat2Z.id in V1, V2.
    pose proof (OP _ _ GL) as (A1 & A2). pose proof (OP _ _ GL') as (B1 & B2). unfold re_edge in *. cbn [fst snd] in *. rewrite Nat2Z.id in *. split; auto.
    exists (f i'), (Z.to_nat e'), Q2. repeat split; auto; [now exists i'|lia|congruence|congruence].
Qed.
Lemma piece_cover q : (exists t Q, piece t Q /\ left_or_on Q q) <-> get_point_position P q <> Outside.
Proof.
  destruct (su_outer0 _ _ _ SU) as (outer & T & _). rewrite <- (tr_cover _ _ _ T q). split.
  - intros (t & Q & (i & G & _) & H). now exists i, Q.
  - intros (i & Q & G & H). exists (f i), Q. split; auto. now exists i.
Qed.
Lemma piece_disjoint t t' Q Q' q : piece t Q -> piece t' Q' -> strictly_left Q q -> strictly_left Q' q -> t = t'.
Proof.
  intros (i & G & ->) (i' & G' & ->) A B. destruct (su_outer0 _ _ _ SU) as (outer & T & _). now rewrite (tr_disjoint _ _ _ T i i' Q Q' q G G' A B).
Qed.
End One.
End L.
