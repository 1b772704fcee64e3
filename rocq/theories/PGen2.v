(** Surfaces assembled from a list of polygons and a table of gluings. *)
From Coq Require Import List Bool ZArith Arith Lia Ring Field.
From Verif Require Import OField FMicromega PField MBase MDict PDict MEuclid SEuclid PEuclid MSim SSim PSim MPoly PPoly MMut SMut
  MSurf SSurf PSurf PSurf2 PSurf3 SPoint PPoint PSimple PFam PFam2 TPoly2 PGen.
Import ListNotations.

(** ** tables *)
Definition zlabels (n : nat) : list Z := map Z.of_nat (seq 0 n).
Lemma dget_table {B} (xs : list B) k l : dget l (combine (map Z.of_nat (seq k (length xs))) xs) =
  if (Z.of_nat k <=? l)%Z then nth_error xs (Z.to_nat l - k) else None.
Proof.
  revert k. induction xs as [|x xs IH]; intros k; cbn [length seq map combine dget].
  - destruct (Z.of_nat k <=? l)%Z; auto. now destruct (Z.to_nat l - k).
  - rewrite IH. cbn [eqb EqB_Z]. destruct (Z.eqb_spec l (Z.of_nat k)) as [->|N].
    + rewrite Z.leb_refl. now rewrite Nat2Z.id, Nat.sub_diag.
    + destruct (Z.leb_spec (Z.of_nat k) l) as [A|A].
      * rewrite (proj2 (Z.leb_le _ _)) by lia. replace (Z.to_nat l - k) with (S (Z.to_nat l - S k)) by lia. reflexivity.
      * now rewrite (proj2 (Z.leb_gt _ _)) by lia.
Qed.
Lemma dget_zlabels {B} (xs : list B) l : dget l (combine (zlabels (length xs)) xs) = if (0 <=? l)%Z then nth_error xs (Z.to_nat l) else None.
Proof. unfold zlabels. rewrite dget_table. now rewrite Nat.sub_0_r. Qed.
(** the edge that [x] is glued to *)
Definition hedge_eqb (x y : hedge) : bool := (fst x =? fst y)%Z && (snd x =? snd y)%Z.
Lemma hedge_eqb_eq x y : hedge_eqb x y = true <-> x = y.
Proof.
  unfold hedge_eqb. rewrite andb_true_iff, !Z.eqb_eq. destruct x, y. cbn. split; [intros [-> ->]; auto|intros [= -> ->]; auto].
Qed.
Fixpoint partner (gl : list (hedge * hedge)) (x : hedge) : option hedge :=
  match gl with
  | nil => None
  | (a, b) :: gl => if hedge_eqb x a then Some b else if hedge_eqb x b then Some a else partner gl x
  end.
Lemma partner_In gl x y : partner gl x = Some y -> In (x, y) gl \/ In (y, x) gl.
Proof.
  induction gl as [|[a b] gl IH]; [discriminate|]. cbn. destruct (hedge_eqb x a) eqn:E.
  - apply hedge_eqb_eq in E. subst. intros [= ->]. auto.
  - destruct (hedge_eqb x b) eqn:E'.
    + apply hedge_eqb_eq in E'. subst. intros [= ->]. auto.
    + intros H. destruct (IH H); auto.
Qed.
Definition gtable (gl : list (hedge * hedge)) (lens : list nat) : list (list (option hedge)) :=
  map (fun i => map (fun e => partner gl (Z.of_nat i, Z.of_nat e)) (seq 0 (nth i lens 0))) (seq 0 (length lens)).
(** every edge of the polygons is glued *)
Definition complete (gl : list (hedge * hedge)) (lens : list nat) : bool :=
  forallb (fun i => forallb (fun e =>
    match partner gl (Z.of_nat i, Z.of_nat e) with
    | None => false
    | Some (l, k) => (0 <=? l)%Z && (0 <=? k)%Z && (Z.to_nat l <? length lens) && (Z.to_nat k <? nth (Z.to_nat l) lens 0) &&
        match partner gl (l, k) with Some z => hedge_eqb z (Z.of_nat i, Z.of_nat e) | None => false end
    end) (seq 0 (nth i lens 0))) (seq 0 (length lens)).

Section P.
Context {K : OField}.
Add Field KF : (of_ft K).
Local Open Scope F_scope.
Notation nv := (@length (vec K) : polygon K -> nat).
Definition edge_at (Ps : list (polygon K)) (x : hedge) : vec K := edge (nth (Z.to_nat (fst x)) Ps nil) (Z.to_nat (snd x)).
(** the state that is computed for the polygons [Ps] and the gluings [gl] *)
Record assembled (Ps : list (polygon K)) (gl : list (hedge * hedge)) (c : @surf (polygon K)) : Prop := {
  as_polys : polys c = combine (zlabels (length Ps)) Ps;
  as_gluings : gluings c = combine (zlabels (length Ps)) (gtable gl (map (@length _) Ps));
  as_mutable : mutable c = false;
  as_connected : connected c = true }.
Section S.
Context (Ps : list (polygon K)) (gl : list (hedge * hedge)) (c : @surf (polygon K)).
Hypothesis A : assembled Ps gl c.
Lemma as_polygon l P : get_polygon c l = Ok P <-> (0 <= l)%Z /\ nth_error Ps (Z.to_nat l) = Some P.
Proof.
  unfold get_polygon. rewrite dgetE_Ok, (as_polys _ _ _ A), dget_zlabels. destruct (Z.leb_spec 0 l); split; intros H'; [auto|tauto|discriminate|lia].
Qed.
Lemma as_label l : is_label c l <-> In l (zlabels (length Ps)).
Proof.
  unfold is_label, zlabels. rewrite in_map_iff. split.
  - intros [P H]. apply as_polygon in H. destruct H as [Z H]. exists (Z.to_nat l). split; [lia|]. apply in_seq.
    assert (Z.to_nat l < length Ps)%nat by (apply nth_error_Some; congruence). lia.
  - intros [i [<- H]]. apply in_seq in H. destruct (nth_error Ps i) as [P|] eqn:E; [|apply nth_error_None in E; lia].
    exists P. apply as_polygon. rewrite Nat2Z.id. split; [lia|auto].
Qed.
Lemma as_opp i P e : nth_error Ps i = Some P -> (e < length P)%nat ->
  s_opp (mut_surface c) (Z.of_nat i) e = Ok (match partner gl (Z.of_nat i, Z.of_nat e) with Some (l', e') => Some (l', Z.to_nat e') | None => None end).
Proof.
  intros E He. assert (Hi : (i < length Ps)%nat) by (apply nth_error_Some; congruence). unfold mut_surface; cbn [s_opp].
  assert (O : opposite_edge c (Z.of_nat i) (Z.of_nat e) = Ok (partner gl (Z.of_nat i, Z.of_nat e))).
  { unfold opposite_edge, dgetE. rewrite (as_gluings _ _ _ A).
    assert (LG : length (gtable gl (map (@length _) Ps)) = length Ps) by (unfold gtable; now rewrite map_length, seq_length, map_length).
    rewrite <- LG. rewrite dget_zlabels. rewrite (proj2 (Z.leb_le _ _)) by lia. rewrite Nat2Z.id.
    assert (NL : nth i (map (@length (vec K)) Ps) 0%nat = length P).
    { apply nth_error_nth. now apply map_nth_error. }
    assert (NE : nth_error (gtable gl (map (@length _) Ps)) i = Some (map (fun e => partner gl (Z.of_nat i, Z.of_nat e)) (seq 0 (length P)))).
    { unfold gtable. rewrite <- NL. apply (map_nth_error (fun i => map (fun e => partner gl (Z.of_nat i, Z.of_nat e)) (seq 0 (nth i (map (@length (vec K)) Ps) 0%nat)))).
      rewrite map_length. rewrite (nth_error_nth' _ 0%nat) by (now rewrite seq_length). now rewrite seq_nth. }
    rewrite NE. apply lgetE_pos; [lia|]. rewrite Nat2Z.id. apply (map_nth_error (fun e => partner gl (Z.of_nat i, Z.of_nat e))).
    rewrite (nth_error_nth' _ 0%nat) by (now rewrite seq_length). now rewrite seq_nth. }
  rewrite O. now destruct (partner gl (Z.of_nat i, Z.of_nat e)) as [[l' e']|].
Qed.
Lemma complete_spec i P e : complete gl (map (@length _) Ps) = true -> nth_error Ps i = Some P -> (e < length P)%nat ->
  exists l' e' P', partner gl (Z.of_nat i, Z.of_nat e) = Some (Z.of_nat l', Z.of_nat e') /\ nth_error Ps l' = Some P' /\ (e' < length P')%nat /\
    partner gl (Z.of_nat l', Z.of_nat e') = Some (Z.of_nat i, Z.of_nat e).
Proof.
  intros C E He. assert (Hi : (i < length Ps)%nat) by (apply nth_error_Some; congruence). unfold complete in C. rewrite forallb_forall in C.
  specialize (C i). rewrite map_length, in_seq in C. specialize (C (conj (Nat.le_0_l _) Hi)). rewrite forallb_forall in C.
  specialize (C e). rewrite in_seq in C. rewrite (nth_error_nth _ _ _ (map_nth_error (@length (vec K)) _ _ E)) in C. specialize (C (conj (Nat.le_0_l _) He)).
  destruct (partner gl (Z.of_nat i, Z.of_nat e)) as [[l k]|]; [|discriminate]. rewrite !andb_true_iff in C.
  destruct C as ((((C1 & C2) & C3) & C4) & C5). apply Z.leb_le in C1, C2. apply Nat.ltb_lt in C3, C4.
  destruct (nth_error Ps (Z.to_nat l)) as [P'|] eqn:E'; [|apply nth_error_None in E'; apply Nat.lt_nge in C3; contradiction].
  rewrite (nth_error_nth _ _ _ (map_nth_error (@length (vec K)) _ _ E')) in C4.
  exists (Z.to_nat l), (Z.to_nat k), P'. rewrite !Z2Nat.id by auto. split; auto. split; auto. split; auto.
  destruct (partner gl (l, k)) as [z|] eqn:Q; [|discriminate]. apply hedge_eqb_eq in C5. rewrite <- C5. first [exact Q|reflexivity].
Qed.
Context (R : vec K -> vec K -> Prop) (kind : (vec K -> vec K) -> Prop).
Hypothesis Rsym : forall u v, R u v -> R v u.
Hypothesis Rkind : forall P e P' e', R (edge P e) (edge P' e') -> exists F, gluing_map P e P' e' F /\ kind F.
Hypothesis Kext : kind_ext kind.
Lemma assembled_good : complete gl (map (@length _) Ps) = true -> Forall fine Ps -> Forall (fun xy => R (edge_at Ps (fst xy)) (edge_at Ps (snd xy))) gl ->
  good_surface (is_label c) (mut_surface c) kind.
Proof.
  intros C F G. rewrite Forall_forall in F, G.
  assert (POL : forall l P, get_polygon c l = Ok P -> exists i, l = Z.of_nat i /\ nth_error Ps i = Some P /\ fine P).
  { intros l P H. apply as_polygon in H. destruct H as [H0 H1]. exists (Z.to_nat l). split; [lia|]. split; auto. apply F. eapply nth_error_In; eauto. }
  assert (GP : forall i P, nth_error Ps i = Some P -> get_polygon c (Z.of_nat i) = Ok P).
  { intros i P H. apply as_polygon. rewrite Nat2Z.id. split; [lia|auto]. }
  assert (V : valid (is_label c) (mut_surface c)).
  { constructor.
    - intros l [P H]. exists P. split; auto. destruct (POL l P H) as (i & _ & _ & L & N & _). auto.
    - intros l P e _ H He. right. destruct (POL l P H) as (i & -> & E & _). destruct (complete_spec i P e C E He) as (l' & e' & P' & H1 & H2 & H3 & H4).
      exists (Z.of_nat l'), e', P'. split; [etransitivity; [apply (as_opp i P e E He)|]; rewrite H1; now rewrite Nat2Z.id|]. split; [exists P'; auto|]. split; [now apply GP|]. split; auto.
      etransitivity; [apply (as_opp l' P' e' H2 H3)|]. rewrite H4. now rewrite Nat2Z.id. }
  constructor; auto.
  - intros l P e _ H He. destruct (POL l P H) as (i & -> & E & _). destruct (complete_spec i P e C E He) as (l' & e' & P' & H1 & _).
    intros X. pose proof (eq_trans (eq_sym (as_opp i P e E He)) X) as Y. rewrite H1 in Y. discriminate Y.
  - intros l P _ H. destruct (POL l P H) as (i & _ & _ & L & N & S1 & _). auto.
  - intros l P _ H. destruct (POL l P H) as (i & _ & _ & L & N & S1 & S2). auto.
  - apply all_gluings_intro; auto. intros l e P l' e' P' [_ H He HO H']. destruct (POL l P H) as (i & -> & E & _).
    destruct (complete_spec i P e C E He) as (l1 & e1 & P1 & H1 & H2 & H3 & H4).
    pose proof (eq_trans (eq_sym (as_opp i P e E He)) HO) as Y. rewrite H1 in Y. injection Y as <- Y. rewrite Nat2Z.id in Y. subst e1.
    pose proof (eq_trans (eq_sym (GP l1 P1 H2)) H') as Y. injection Y as <-.
    assert (EA : forall i P e, nth_error Ps i = Some P -> edge_at Ps (Z.of_nat i, Z.of_nat e) = edge P e).
    { intros a b d X. unfold edge_at. cbn [fst snd]. rewrite !Nat2Z.id. now rewrite (nth_error_nth _ _ _ X). }
    apply Rkind. rewrite <- (EA i P e E), <- (EA l1 P1 e' H2). destruct (partner_In _ _ _ H1) as [I|I].
    + exact (G _ I).
    + apply Rsym. exact (G _ I).
Qed.
End S.
(** gluings by translations and by dilations *)
Definition opposite (u v : vec K) := u = vopp v.
Definition antiparallel (u v : vec K) := exists k, 0 < k /\ vscale k u = vopp v.
Lemma opposite_sym u v : opposite u v -> opposite v u.
Proof. unfold opposite. intros ->. apply vec_eq; cbn; ring. Qed.
Lemma antiparallel_sym u v : antiparallel u v -> antiparallel v u.
Proof.
  intros (k & H & E). exists (1 / k). split; [apply fdiv_pos; auto; apply flt_0_1|]. assert (N : k <> 0) by (now apply fpos_neq0).
  pose proof (f_equal fst E) as E1. pose proof (f_equal snd E) as E2. cbn in E1, E2. destruct u as [a b], v as [x y]. cbn in *.
  apply vec_eq; cbn; [replace x with (- (k * a)) by flra|replace y with (- (k * b)) by flra]; field; auto.
Qed.
Lemma opposite_kind (P : polygon K) e P' e' : opposite (edge P e) (edge P' e') -> exists F, gluing_map P e P' e' F /\ map_translation F.
Proof. intros E. eexists. split; [apply gm_translation; exact E|]. eexists. reflexivity. Qed.
Lemma antiparallel_kind (P : polygon K) e P' e' : antiparallel (edge P e) (edge P' e') -> exists F, gluing_map P e P' e' F /\ map_positive_dilation F.
Proof.
  intros (k & N & Ec). assert (N0 : k <> 0) by (now apply fpos_neq0). set (u := vsub (vertex P' (Datatypes.S e')) (vscale k (vertex P e))). exists (fun p => vadd (vscale k p) u).
  destruct (affine_similarity k u (fun p => vadd (vscale k p) u) N0) as [A B]; [reflexivity|]. split; [|exists k, u; auto]. constructor; auto.
  - unfold u. apply vec_eq; cbn; ring.
  - unfold edge in Ec. unfold u. destruct (vertex P (Datatypes.S e)), (vertex P e), (vertex P' (Datatypes.S e')), (vertex P' e').
    injection Ec as A1 A2. apply vec_eq; cbn in *; flra.
Qed.
Lemma assembled_translation Ps gl c : assembled Ps gl c -> complete gl (map (@length _) Ps) = true -> Forall fine Ps ->
  Forall (fun xy => opposite (edge_at Ps (fst xy)) (edge_at Ps (snd xy))) gl -> good_surface (is_label c) (mut_surface c) map_translation.
Proof. intros A. apply (assembled_good Ps gl c A opposite); [apply opposite_sym|apply opposite_kind|apply ext_translation]. Qed.
Lemma assembled_dilation Ps gl c : assembled Ps gl c -> complete gl (map (@length _) Ps) = true -> Forall fine Ps ->
  Forall (fun xy => antiparallel (edge_at Ps (fst xy)) (edge_at Ps (snd xy))) gl -> good_surface (is_label c) (mut_surface c) map_positive_dilation.
Proof. intros A. apply (assembled_good Ps gl c A antiparallel); [apply antiparallel_sym|apply antiparallel_kind|apply ext_positive_dilation]. Qed.
End P.
