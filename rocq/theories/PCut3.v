(** Proofs about cutting polygons. *)
From Coq Require Import List Bool ZArith Arith Lia Relations.
From Coq Require Import Ring Field.
From Verif Require Import OField FMicromega PField MBase MDict PDict MEuclid SEuclid PEuclid MSim SSim PSim MPoly PPoly MMut SMut PMut PMut2 PMut3 PBuild TMut
  MSurf SSurf PSurf PSurf3 SPoint MPoint PPoint PSimple TPoly2 PSubdiv PSubdiv2 PSubdiv3 MCut SCut PCut PCut2.
Import ListNotations.

Section K.
Context {K : OField}.
Add Field KF : (of_ft K).
Local Open Scope F_scope.
Notation nv := (@length (vec K) : polygon K -> nat).
Notation surf := (@surf (polygon K)).

Lemma edge_of_edges (Q : polygon K) es j d : edges Q = es -> (j < length es)%nat -> edge Q j = nth j es d.
Proof.
  intros E H. subst es. rewrite length_edges in H. symmetry. unfold edges.
  etransitivity; [apply (nth_indep _ d (edge Q 0)); now rewrite map_length, seq_length|]. rewrite (map_nth (edge Q)). now rewrite seq_nth by lia.
Qed.

Section Pieces.
Variables (P : polygon K) (v1 w : nat).
Notation ne := (length P).
Hypotheses (H1 : (v1 < ne)%nat) (Hw : (2 <= w <= ne - 2)%nat).
Definition edges1 := vsub (vertex P (v1 + w)) (vertex P v1) :: map (edge P) (seq (v1 + w) (ne - w)).
Definition edges2 := vsub (vertex P v1) (vertex P (v1 + w)) :: map (edge P) (seq v1 w).
Variables (Q1 Q2 : polygon K).
Hypotheses (E1 : Polygon_edges edges1 = Ok Q1) (E2 : Polygon_edges edges2 = Ok Q2).
Lemma piece1_length : length Q1 = S (ne - w).
Proof. apply C51_edges in E1. destruct E1 as (E & _). rewrite <- length_edges, E. unfold edges1. cbn. now rewrite map_length, seq_length. Qed.
Lemma piece2_length : length Q2 = S w.
Proof. apply C51_edges in E2. destruct E2 as (E & _). rewrite <- length_edges, E. unfold edges2. cbn. now rewrite map_length, seq_length. Qed.
Lemma piece1_vertex0 : vertex Q1 0 = vzero.
Proof. apply C51_edges in E1. apply E1. Qed.
Lemma piece2_vertex0 : vertex Q2 0 = vzero.
Proof. apply C51_edges in E2. apply E2. Qed.
Lemma piece1_vertex j : (j <= ne - w)%nat -> vertex Q1 (S j) = vsub (vertex P (v1 + w + j)) (vertex P v1).
Proof.
  intros Hj. set (f := fun i => match i with O => vzero | S i => vsub (vertex P (v1 + w + i)) (vertex P v1) end).
  apply (vertex_steps Q1 f (S (ne - w))); [apply piece1_vertex0| |lia].
  intros i Hi. apply C51_edges in E1. destruct E1 as (E & _).
  rewrite (edge_of_edges Q1 edges1 i (edge P 0) E) by (unfold edges1; cbn; rewrite map_length, seq_length; lia).
  unfold edges1. destruct i as [|i]; cbn [nth f].
  - rewrite Nat.add_0_r. destruct (vertex P (v1 + w)), (vertex P v1). apply vec_eq; cbn; ring.
  - rewrite (map_nth (edge P)). rewrite seq_nth by lia. unfold edge. replace (S (v1 + w + i)) with (v1 + w + S i)%nat by lia.
    destruct (vertex P (v1 + w + S i)), (vertex P (v1 + w + i)), (vertex P v1). apply vec_eq; cbn; ring.
Qed.
Lemma piece2_vertex j : (j <= w)%nat -> vertex Q2 (S j) = vsub (vertex P (v1 + j)) (vertex P (v1 + w)).
Proof.
  intros Hj. set (f := fun i => match i with O => vzero | S i => vsub (vertex P (v1 + i)) (vertex P (v1 + w)) end).
  apply (vertex_steps Q2 f (S w)); [apply piece2_vertex0| |lia].
  intros i Hi. apply C51_edges in E2. destruct E2 as (E & _).
  rewrite (edge_of_edges Q2 edges2 i (edge P 0) E) by (unfold edges2; cbn; rewrite map_length, seq_length; lia).
  unfold edges2. destruct i as [|i]; cbn [nth f].
  - rewrite Nat.add_0_r. destruct (vertex P (v1 + w)), (vertex P v1). apply vec_eq; cbn; ring.
  - rewrite (map_nth (edge P)). rewrite seq_nth by lia. unfold edge. replace (S (v1 + i)) with (v1 + S i)%nat by lia.
    destruct (vertex P (v1 + w)), (vertex P (v1 + i)), (vertex P (v1 + S i)). apply vec_eq; cbn; ring.
Qed.
Lemma pieces_area : area Q1 + area Q2 = area P.
Proof.
  rewrite (area_cut_window P v1 w) by lia.
  rewrite (area_list Q1 (fun i => match i with O => vsub (vertex P v1) (vertex P v1) | S i => vsub (vertex P (v1 + w + i)) (vertex P v1) end)).
  2:{ intros [|j] Hj; [rewrite piece1_vertex0; destruct (vertex P v1); apply vec_eq; cbn; ring|]. rewrite piece1_length in Hj. apply piece1_vertex. lia. }
  rewrite (area_list Q2 (fun i => match i with O => vsub (vertex P (v1 + w)) (vertex P (v1 + w)) | S i => vsub (vertex P (v1 + i)) (vertex P (v1 + w)) end)).
  2:{ intros [|j] Hj; [rewrite piece2_vertex0; destruct (vertex P (v1 + w)); apply vec_eq; cbn; ring|]. rewrite piece2_length in Hj. apply piece2_vertex. lia. }
  rewrite piece1_length, piece2_length. 
  transitivity (area (map (vertex P) (seq (v1 + w) (S (ne - w)))) + area (map (vertex P) (seq v1 (S w)))); [|ring].
  assert (SH : forall n a, seq (S a) n = map S (seq a n)) by (intros; symmetry; apply seq_shift).
  assert (AD : forall n a, seq a n = map (fun j => (a + j)%nat) (seq 0 n)).
  { induction n as [|n IH]; intros a; cbn; auto. rewrite Nat.add_0_r. f_equal. rewrite (IH (S a)), SH, map_map. apply map_ext. intros; lia. }
  assert (LAST : forall a n, map (vertex P) (seq a (S n)) = map (vertex P) (seq a n) ++ [vertex P (a + n)]).
  { intros a n. rewrite <- Nat.add_1_r, seq_app, map_app. reflexivity. }
  f_equal.
  - rewrite LAST, (area_rot _ [_]). cbn [app]. replace (v1 + w + (ne - w))%nat with (v1 + ne)%nat by lia. rewrite vertex_plus.
    cbn [seq map]. rewrite SH, map_map.
    etransitivity; [|apply (area_shift (v1 :: seq (v1 + w) (ne - w)) (vertex P) (vertex P v1))]. f_equal. cbn [map]. f_equal.
    rewrite (AD _ (v1 + w)%nat), map_map. reflexivity.
  - rewrite LAST, (area_rot _ [_]). cbn [app].
    cbn [seq map]. rewrite SH, map_map.
    etransitivity; [|apply (area_shift ((v1 + w)%nat :: seq v1 w) (vertex P) (vertex P (v1 + w)))]. f_equal. cbn [map]. f_equal.
    rewrite (AD _ v1), map_map. reflexivity.
Qed.
End Pieces.

Section Cut.
Variables (s : surf) (p : label) (P : polygon K) (v1 v2 : nat).
Notation ne := (length P).
Hypothesis GD : good nv s.
Hypothesis Mu : mutable s = true.
Hypothesis ND : forall l P, get_polygon s l = Ok P -> nondeg P.
Hypothesis EP : get_polygon s p = Ok P.
Hypotheses (H1 : (v1 < ne)%nat) (H2 : (v2 < ne)%nat).
Definition wide : nat := off v1 ne v2.
Hypothesis Hw : (2 <= wide <= ne - 2)%nat.
Hypothesis GL : forall i, (i < ne)%nat -> exists y, gz (gluings s) (p, Z.of_nat i) = Some y.

Lemma wide_eq : (if v2 <? v1 then v2 + ne else v2)%nat = (v1 + wide)%nat.
Proof.
  unfold wide. destruct (Nat.ltb_spec v2 v1).
  - replace v2 with ((v2 + ne) mod ne)%nat at 2. 2:{ replace (v2 + ne)%nat with (v2 + 1 * ne)%nat by lia. rewrite Nat.mod_add by lia. now apply Nat.mod_small. }
    rewrite off_mod by lia. lia.
  - rewrite <- (Nat.mod_small v2 ne) at 2 by auto. rewrite off_mod by lia. lia.
Qed.
Lemma wide_checks : (((Nat.max v1 v2 - Nat.min v1 v2 <=? 1) || (ne - 1 <=? Nat.max v1 v2 - Nat.min v1 v2))%nat%bool) = false.
Proof.
  pose proof wide_eq as W. apply orb_false_iff. rewrite !Nat.leb_gt. revert W. destruct (Nat.ltb_spec v2 v1); lia.
Qed.

Section WithK.
Variable k : label.
Hypothesis NK : ~ is_label s k.
Notation psi := (cut_name p k ne v1 v2).
Lemma k_neq_p : k <> p.
Proof. intros ->. apply NK. now exists P. Qed.
Lemma edge_p i : is_edge nv s (p, i) -> exists j, i = Z.of_nat j /\ (j < ne)%nat.
Proof.
  intros [P' [E H]]. cbn [fst snd] in *. rewrite EP in E. injection E as <-. exists (Z.to_nat i). split; lia.
Qed.
Lemma psi_p j : psi (p, Z.of_nat j) = if (off v1 ne j <? wide)%nat then (k, Z.of_nat (off v1 ne j + 1)) else (p, Z.of_nat (off v1 ne j - wide + 1)).
Proof. unfold cut_name. cbn [fst snd]. rewrite Z.eqb_refl, Nat2Z.id. reflexivity. Qed.
Lemma psi_other x : fst x <> p -> psi x = x.
Proof. intros N. unfold cut_name. destruct (Z.eqb_spec (fst x) p); [contradiction|reflexivity]. Qed.
Lemma psi_cases x : is_edge nv s x -> (exists j d, x = (p, Z.of_nat j) /\ (j < ne)%nat /\ d = off v1 ne j /\ (d < wide)%nat /\ psi x = (k, Z.of_nat (d + 1))) \/
  (exists j d, x = (p, Z.of_nat j) /\ (j < ne)%nat /\ d = off v1 ne j /\ (wide <= d < ne)%nat /\ psi x = (p, Z.of_nat (d - wide + 1))) \/
  (fst x <> p /\ fst x <> k /\ psi x = x).
Proof.
  intros H. destruct x as [l i]. destruct (Z.eq_dec l p) as [->|N].
  - destruct (edge_p i H) as (j & -> & Hj). rewrite psi_p. pose proof (off_lt v1 ne j ltac:(lia)). destruct (Nat.ltb_spec (off v1 ne j) wide); [left|right; left]; exists j, (off v1 ne j); auto 8.
  - right; right. cbn [fst]. split; auto. split; [|now apply psi_other]. intros ->. apply NK. destruct H as [Q [E _]]. now exists Q.
Qed.
Lemma psi_inj x y : is_edge nv s x -> is_edge nv s y -> psi x = psi y -> x = y.
Proof.
  intros Hx Hy E. pose proof k_neq_p as KP.
  destruct (psi_cases x Hx) as [(j & d & -> & Hj & Ed & Hd & Ex)|[(j & d & -> & Hj & Ed & Hd & Ex)|(A & B & Ex)]];
  destruct (psi_cases y Hy) as [(j' & d' & -> & Hj' & Ed' & Hd' & Ey)|[(j' & d' & -> & Hj' & Ed' & Hd' & Ey)|(A' & B' & Ey)]];
  rewrite Ex, Ey in E; try (apply (f_equal fst) in E; cbn [fst] in E; congruence); auto.
  all: apply (f_equal snd) in E; cbn [snd] in E; apply Nat2Z.inj in E; do 2 f_equal; apply (off_inj v1 ne); lia.
Qed.
Lemma table_spec y : is_edge nv s y -> match dget y (cut_table p k ne v1 (v1 + wide)) with Some y' => y' | None => psi y end = psi y.
Proof.
  intros Hy. destruct (dget y (cut_table p k ne v1 (v1 + wide))) as [y'|] eqn:D; auto. apply dget_In in D. unfold cut_table in D.
  apply in_app_or in D. destruct D as [D|D]; apply in_map_iff in D; destruct D as [i [[= <- <-] Hi]]; apply in_seq in Hi; rewrite psi_p, off_mod by lia.
  - destruct (Nat.ltb_spec (i - v1) wide); [reflexivity|lia].
  - destruct (Nat.ltb_spec (i - v1) wide); [lia|]. do 2 f_equal. lia.
Qed.
Lemma table_p j : (j < ne)%nat -> exists y', dget (p, Z.of_nat j) (cut_table p k ne v1 (v1 + wide)) = Some y'.
Proof.
  intros Hj. apply dget_keys. pose proof (off_lt v1 ne j ltac:(lia)) as L. pose proof (off_add v1 ne j ltac:(lia) Hj) as O.
  unfold keys, cut_table. rewrite map_app, !map_map. cbn [fst]. apply in_app_iff.
  destruct (Nat.lt_ge_cases (off v1 ne j) wide); [left|right]; apply in_map_iff; exists (v1 + off v1 ne j)%nat; (split; [now rewrite O|apply in_seq; lia]).
Qed.
Lemma table_lookup y : is_edge nv s y -> match dget y (cut_table p k ne v1 (v1 + wide)) with Some y' => y' | None => y end = psi y.
Proof.
  intros Hy. pose proof (table_spec y Hy) as T. destruct (dget y (cut_table p k ne v1 (v1 + wide))) as [y'|] eqn:D; auto.
  symmetry. apply psi_other. intros E. destruct y as [l i]. cbn [fst] in E. subst l. destruct (edge_p i Hy) as (j & -> & Hj). destruct (table_p j Hj) as [y' X]. pose proof (eq_trans (eq_sym D) X) as X'. discriminate X'.
Qed.

Definition partner (i : nat) : hedge := match gz (gluings s) (p, Z.of_nat (i mod ne)) with Some y => y | None => (0%Z, 0%Z) end.
Lemma partner_gz i : gz (gluings s) (p, Z.of_nat (i mod ne)) = Some (partner i).
Proof.
  unfold partner. destruct (GL (i mod ne)) as [y E]; [apply Nat.mod_upper_bound; lia|]. now rewrite E.
Qed.
Definition pairs : list (hedge * hedge) :=
  [((p, 0%Z), (k, 0%Z))] ++ map (fun e => ((p, Z.of_nat e), psi (partner (v1 + wide + e - 1)))) (seq 1 (ne - wide)) ++
  map (fun e => ((k, Z.of_nat e), psi (partner (v1 + e - 1)))) (seq 1 wide).
Notation extra := [((p, 0%Z), (k, 0%Z))].
Lemma psi_first e : (1 <= e <= ne - wide)%nat -> psi (p, Z.of_nat ((v1 + wide + e - 1) mod ne)) = (p, Z.of_nat e).
Proof.
  intros He. rewrite psi_p, off_mod by lia. destruct (Nat.ltb_spec (v1 + wide + e - 1 - v1) wide); [lia|]. do 2 f_equal. lia.
Qed.
Lemma psi_second e : (1 <= e <= wide)%nat -> psi (p, Z.of_nat ((v1 + e - 1) mod ne)) = (k, Z.of_nat e).
Proof.
  intros He. rewrite psi_p, off_mod by lia. destruct (Nat.ltb_spec (v1 + e - 1 - v1) wide); [|lia]. do 2 f_equal. lia.
Qed.
Lemma pairs_spec u v : In (u, v) pairs -> In (u, v) extra \/ exists x y, gz (gluings s) x = Some y /\ True /\ u = psi x /\ v = psi y.
Proof.
  unfold pairs. rewrite !in_app_iff. intros [H|[H|H]]; [left; auto| |]; right; apply in_map_iff in H; destruct H as [e [[= <- <-] He]]; apply in_seq in He.
  - exists (p, Z.of_nat ((v1 + wide + e - 1) mod ne)), (partner (v1 + wide + e - 1)). rewrite psi_first by lia. split; [apply partner_gz|auto].
  - exists (p, Z.of_nat ((v1 + e - 1) mod ne)), (partner (v1 + e - 1)). rewrite psi_second by lia. split; [apply partner_gz|auto].
Qed.
Lemma gz_edge x y : gz (gluings s) x = Some y -> is_edge nv s x.
Proof. intros G. apply (proj2 (glued_gz nv s _ _ (g_inv nv s GD)) G). Qed.
Lemma gz_edge' x y : gz (gluings s) x = Some y -> is_edge nv s y.
Proof. intros G. apply (i_inv nv s (g_inv nv s GD)) in G. now apply gz_edge in G. Qed.
Lemma pairs_complete x y : gz (gluings s) x = Some y -> True -> (fst x =? p)%Z = true -> pair_in pairs (psi x) (psi y).
Proof.
  intros G _ D. apply Z.eqb_eq in D. destruct x as [l i]. cbn [fst] in D. subst l. destruct (edge_p i (gz_edge _ _ G)) as (j & -> & Hj).
  left. unfold pairs. rewrite !in_app_iff. right. pose proof (off_lt v1 ne j ltac:(lia)) as L. pose proof (off_add v1 ne j ltac:(lia) Hj) as O.
  assert (PA : forall i, (i mod ne = j)%nat -> partner i = y).
  { intros i E. pose proof (partner_gz i) as PG. rewrite E, G in PG. now injection PG as ->. }
  rewrite psi_p. destruct (Nat.ltb_spec (off v1 ne j) wide) as [A|A]; [right|left]; apply in_map_iff.
  - exists (off v1 ne j + 1)%nat. split; [|apply in_seq; lia]. apply (f_equal2 pair); auto. f_equal. apply PA. rewrite <- O at 2. f_equal. lia.
  - exists (off v1 ne j - wide + 1)%nat. split; [|apply in_seq; lia]. apply (f_equal2 pair); auto. f_equal. apply PA. rewrite <- O at 2. f_equal. lia.
Qed.
Lemma extra_new a b x : pair_in extra a b -> is_edge nv s x -> True -> psi x <> a.
Proof.
  intros H Hx _ E. pose proof k_neq_p as KP.
  assert (A : a = (p, 0%Z) \/ a = (k, 0%Z)). { destruct H as [[H|[]]|[H|[]]]; injection H as <- <-; auto. }
  destruct (psi_cases x Hx) as [(j & d & -> & Hj & Ed & Hd & Ex)|[(j & d & -> & Hj & Ed & Hd & Ex)|(B & C & Ex)]]; rewrite Ex in E; destruct A as [->| ->];
    try (apply (f_equal fst) in E; cbn [fst] in E; congruence); apply (f_equal snd) in E; cbn [snd] in E; lia.
Qed.
Lemma extra_functional : functional_pairs extra.
Proof.
  pose proof k_neq_p as KP. intros u v v' [[H|[]]|[H|[]]] [[H'|[]]|[H'|[]]]; congruence.
Qed.
End WithK.

Variables (Q1 Q2 : polygon K) (lab : option label).
Hypotheses (E1 : Polygon_edges (edges1 P v1 wide) = Ok Q1) (E2 : Polygon_edges (edges2 P v1 wide) = Ok Q2).
Hypothesis HL : forall l, lab = Some l -> ~ is_label s l.
Hypothesis RE : reachable nv s.

Theorem cut_main : exists t r k, subdivide_polygon p v1 v2 lab s = (t, r) /\ (r = Ok tt \/ r = Err AssertionError) /\
  ((forall x, In x (roots_ s) -> x = p) -> r = Ok tt /\ roots_ t = nil) /\
  (r = Ok tt -> reachable nv t /\ mutable t = true /\ (forall l, lab = Some l -> k = l) /\ polygon_cut s t p k P v1 v2).
Proof.
  pose proof (g_inv nv s GD) as I0. pose proof (g_tot nv s GD) as T0.
  assert (Lp : In p (keys (polys s))) by (apply is_label_keys; now exists P).
  destruct (remove_polygon_spec nv s p I0) as (sa & ra & Ea & Ia & Ma & Ca & Na & Sa & _ & _ & Ga).
  destruct (Ga (T0 p Lp)) as (Gza & Ra & _). destruct (Ra Mu) as (-> & Pa & Rta). clear Ga Ra. rewrite Mu in Ma.
  specialize (Sa (g_sep nv s GD)).
  assert (NPa : forall l, In l (keys (polys sa)) <-> In l (keys (polys s)) /\ l <> p).
  { intros l. rewrite Pa, !dget_keys, dget_ddel by apply (i_np nv s I0). change (eqb l p) with (Z.eqb l p). destruct (Z.eqb_spec l p) as [->|N].
    - split; [intros [v [=]]|tauto].
    - tauto. }
  destruct (add_polygon_spec nv sa Q1 (Some p) Ia) as (sb & rb & Eb & Ib & Mb & Cb & Sb & Gb & _ & Xb).
  rewrite Ma in Mb. specialize (Sb Sa).
  destruct (Xb Ma) as [(l & -> & _ & Lb & _ & Pb & Rb)|(l & [= <-] & H & _)]; [|exfalso; apply NPa in H; tauto]. specialize (Lb p eq_refl). subst l. clear Xb.
  destruct (add_polygon_spec nv sb Q2 lab Ib) as (sc & rc & Ec & Ic & Mc & Cc & Sc & Gc & _ & Xc).
  rewrite Mb in Mc. specialize (Sc Sb).
  assert (NPb : forall l, In l (keys (polys sb)) <-> In l (keys (polys s))).
  { intros l. rewrite Pb. unfold keys. rewrite map_app, in_app_iff. cbn [map fst In]. fold (keys (polys sa)). rewrite NPa.
    split; [intros [H|[<-|[]]]; tauto|]. intros H. destruct (Z.eq_dec p l); auto. }
  destruct (Xc Mb) as [(k & -> & Nk & Lk & _ & Pc & Rc)|(l & E & H & _)].
  2:{ exfalso. apply (HL l E). apply is_label_keys. now apply NPb. }
  clear Xc. assert (NK : ~ is_label s k) by (rewrite is_label_keys, <- NPb; exact Nk).
  pose proof (k_neq_p k NK) as KP.
  assert (POL : forall l, get_polygon sc l = if (l =? p)%Z then Ok Q1 else if (l =? k)%Z then Ok Q2 else get_polygon s l).
  { intros l. unfold get_polygon, dgetE. rewrite Pc, dget_app, Pb, dget_app, Pa, dget_ddel by apply (i_np nv s I0). cbn [dget]. change (eqb l p) with (Z.eqb l p). change (eqb l k) with (Z.eqb l k).
    destruct (Z.eqb_spec l p) as [->|N]; [reflexivity|]. destruct (dget l (polys s)) eqn:D; [|destruct (Z.eqb_spec l k); auto].
    destruct (Z.eqb_spec l k) as [->|]; auto. exfalso. apply NK. eexists. apply get_polygon_Ok. eauto. }
  assert (LQ1 := piece1_length P v1 wide Q1 E1). assert (LQ2 := piece2_length P v1 wide Q2 E2).
  assert (KE : forall x, is_edge nv s x -> is_edge nv sc (cut_name p k ne v1 v2 x)).
  { intros x Hx. unfold is_edge.
    destruct (psi_cases k NK x Hx) as [(j & d & -> & Hj & Ed & Hd & Ex)|[(j & d & -> & Hj & Ed & Hd & Ex)|(B & C & Ex)]]; rewrite Ex, POL; cbn [fst snd].
    - destruct (Z.eqb_spec k p); [contradiction|]. rewrite Z.eqb_refl. exists Q2. split; auto. change (nv Q2) with (length Q2). rewrite LQ2. lia.
    - rewrite Z.eqb_refl. exists Q1. split; auto. change (nv Q1) with (length Q1). rewrite LQ1. lia.
    - destruct (Z.eqb_spec (fst x) p); [contradiction|]. destruct (Z.eqb_spec (fst x) k); [contradiction|]. exact Hx. }
  assert (GSc : forall u v, gz (gluings sc) u = Some v <-> gz (gluings s) u = Some v /\ (fst u =? p)%Z = false /\ (fst v =? p)%Z = false).
  { intros u v. rewrite Gc, Gb, Gza. unfold rmz. destruct (fst u =? p)%Z; [split; [discriminate|intros (_ & [=] & _)]|].
    destruct (gz (gluings s) u) as [c|]; [|split; [discriminate|intros ([=] & _)]]. destruct (fst c =? p)%Z eqn:C.
    - split; [discriminate|]. intros ([= ->] & _ & Z). congruence.
    - split; [intros [= <-]; auto|]. tauto. }
  assert (TOc : total sc) by exact (i_tot nv sc Ic Mc).
  assert (RC : forall x, is_edge nv sc x -> inrange (gluings sc) x) by (intros x Hx; now apply (edge_inrange nv sc)).
  assert (D0 : is_edge nv sc (p, 0%Z)). { exists Q1. cbn [fst snd]. rewrite POL, Z.eqb_refl. split; auto. change (nv Q1) with (length Q1). rewrite LQ1. lia. }
  assert (D1 : is_edge nv sc (k, 0%Z)). { exists Q2. cbn [fst snd]. rewrite POL, Z.eqb_refl. destruct (Z.eqb_spec k p); [contradiction|]. split; auto. change (nv Q2) with (length Q2). rewrite LQ2. lia. }
  set (psi := cut_name p k ne v1 v2) in *.
  destruct (surgery nv s sc (pairs k) [((p, 0%Z), (k, 0%Z))] (fun _ => True) (fun x => (fst x =? p)%Z) psi I0 Ic Mc Sc GSc) as (t & r & Et & It & Ft & St & Ot & Gt & Nt); auto.
  { intros x D. apply psi_other. now apply Z.eqb_neq. }
  { intros x y Hx Hy _ _. now apply psi_inj. }
  { apply extra_new; auto. }
  { apply extra_functional; auto. }
  { apply pairs_spec. }
  { apply pairs_complete. }
  { intros u v [[= <- <-]|[]]. left. unfold pairs. cbn. auto. }
  { intros u v H. apply pairs_spec in H. destruct H as [[[= <- <-]|[]]|(x & y & G & _ & -> & ->)]; [auto|]. split; apply RC, KE; [eapply gz_edge|eapply gz_edge']; eauto. }
  assert (RUN : subdivide_polygon p v1 v2 lab s = (t, r)).
  { unfold subdivide_polygon.
    rewrite (mbind_ok _ _ s s P) by (unfold mread; now rewrite EP). cbv zeta.
    assert (CH : ((nv P <=? v1) || (nv P <=? v2))%nat%bool = false) by (apply orb_false_iff; rewrite !Nat.leb_gt; auto).
    rewrite CH. rewrite (mbind_ok _ _ s s tt) by reflexivity.
    change (nv P) with ne. rewrite wide_checks. rewrite (mbind_ok _ _ s s tt) by reflexivity. rewrite wide_eq.
    assert (X1 : vsub (vertex P (v1 + wide)) (vertex P v1) :: map (edge P) (seq (v1 + wide) (v1 + ne - (v1 + wide))) = edges1 P v1 wide).
    { unfold edges1. do 3 f_equal. lia. }
    rewrite X1. rewrite (mbind_ok _ _ s s Q1) by (unfold mlift; now rewrite E1).
    assert (X2 : vsub (vertex P v1) (vertex P (v1 + wide)) :: map (edge P) (seq v1 (v1 + wide - v1)) = edges2 P v1 wide).
    { unfold edges2. do 3 f_equal. lia. }
    rewrite X2. rewrite (mbind_ok _ _ s s Q2) by (unfold mlift; now rewrite E2).
    rewrite (mbind_ok _ _ s s (map (fun i => Some (partner i)) (seq 0 ne))).
    2:{ unfold mread. rewrite (rmap_map _ (fun i => Some (partner i))); auto. intros i Hi. apply in_seq in Hi.
        apply opposite_edge_Ok; [lia|]. pose proof (partner_gz i) as PG. rewrite Nat.mod_small in PG by lia. split; auto. eapply gz_range; eauto. }
    rewrite (mbind_ok _ _ _ _ _ Ea), (mbind_ok _ _ _ _ _ Eb), (mbind_ok _ _ _ _ _ Ec).
    rewrite <- Et. unfold pairs. fold psi. rewrite mfor_app.
    unfold mbind at 1. unfold mbind at 2. rewrite mfor_one. cbn [fst snd]. destruct (glue nv (p, 0%Z) (k, 0%Z) sc) as [sd [[]|e]]; [|reflexivity].
    rewrite mfor_app. unfold mbind. change (nv Q1) with (length Q1). change (nv Q2) with (length Q2). rewrite LQ1, LQ2. rewrite !mfor_map. cbn [fst snd].
    replace (S (ne - wide) - 1)%nat with (ne - wide)%nat by lia. replace (S wide - 1)%nat with wide by lia.
    assert (NT : forall i e, (i < ne + ne)%nat -> cut_glue (cut_table p k ne v1 (v1 + wide)) e (nth (i mod ne) (map (fun i => Some (partner i)) (seq 0 ne)) None) =
       glue nv e (psi (partner i))).
    { intros i e _. assert (B := Nat.mod_upper_bound i ne ltac:(lia)).
      rewrite (nth_indep _ None (Some (partner 0))) by (now rewrite map_length, seq_length). rewrite (map_nth (fun i => Some (partner i))), seq_nth by auto.
      assert (PM : partner (0 + i mod ne) = partner i) by (unfold partner; cbn [Nat.add]; now rewrite Nat.mod_mod by lia). rewrite PM. unfold cut_glue.
      rewrite table_lookup; auto. eapply gz_edge'. apply partner_gz. }
    rewrite (mfor_ext _ (fun e => glue nv (p, Z.of_nat e) (psi (partner (v1 + wide + e - 1)))) (seq 1 (ne - wide))).
    2:{ intros e st He. apply in_seq in He. rewrite NT by lia. reflexivity. }
    destruct (mfor (seq 1 (ne - wide)) (fun e => glue nv (p, Z.of_nat e) (psi (partner (v1 + wide + e - 1)))) sd) as [se [[]|e]]; [|reflexivity].
    rewrite mfor_map. cbn [fst snd]. apply mfor_ext. intros e st He. apply in_seq in He. rewrite NT by lia. reflexivity. }
  exists t, r, k. split; [exact RUN|]. split; [exact Ot|]. split.
  { intros H. apply Nt. assert (Q : roots_ sa = nil). { destruct (roots_ sa) as [|x rs] eqn:E; auto. exfalso. destruct (proj1 (Rta x)) as [A B]; [cbn; auto|]. auto. }
    rewrite Q in Rb. rewrite Rb in Rc. exact Rc. }
  intros Er. specialize (Gt Er).
  assert (Mt : mutable t = true) by (rewrite (f_mut _ _ Ft); auto).
  assert (REt : reachable nv t).
  { assert (A1 : reachable nv sa). { change sa with (fst (sa, @Ok unit tt)). rewrite <- Ea. apply pres_remove, RE. }
    assert (A2 : reachable nv sb). { change sb with (fst (sb, Ok p)). rewrite <- Eb. apply pres_add, A1. }
    assert (A3 : reachable nv sc). { change sc with (fst (sc, Ok k)). rewrite <- Ec. apply pres_add, A2. }
    change t with (fst (t, r)). rewrite <- Et. apply pres_for; auto. intros [u v] H. cbn [fst snd].
    apply pairs_spec in H. assert (NN : forall x, is_edge nv s x -> (0 <= snd (psi x))%Z) by (intros x Hx; apply KE in Hx; destruct Hx as [? [_ ?]]; lia).
    destruct H as [[[= <- <-]|[]]|(x & y & G & _ & -> & ->)]; apply pres_glue; cbn [fst snd]; try lia; apply NN; [eapply gz_edge|eapply gz_edge']; eauto. }
  assert (GT : good nv t) by (apply intact_good, reachable_intact; auto).
  assert (POLt : forall l, get_polygon t l = if (l =? p)%Z then Ok Q1 else if (l =? k)%Z then Ok Q2 else get_polygon s l).
  { intros l. rewrite <- POL. unfold get_polygon. now rewrite (f_polys _ _ Ft). }
  assert (EDt : forall x, is_edge nv t x <-> is_edge nv sc x).
  { intros x. unfold is_edge. rewrite POLt, POL. tauto. }
  assert (v2m : forall i, vertex P (v1 + wide + i) = vertex P (v2 + i)).
  { intros i. rewrite <- wide_eq. destruct (Nat.ltb_spec v2 v1); auto. replace (v2 + ne + i)%nat with (v2 + i + ne)%nat by lia. apply vertex_plus. }
  assert (v2m0 : vertex P (v1 + wide) = vertex P v2) by (rewrite <- (Nat.add_0_r (v1 + wide)), v2m, Nat.add_0_r; reflexivity).
  split; auto. split; auto. split; [exact Lk|]. constructor.
  - exact NK.
  - intros l. unfold is_label. rewrite POLt. destruct (Z.eqb_spec l p) as [->|N]; [split; [left; eauto|eauto]|]. destruct (Z.eqb_spec l k) as [->|N']; [split; [auto|eauto]|]. tauto.
  - intros l N N'. rewrite POLt. destruct (Z.eqb_spec l p); [contradiction|]. destruct (Z.eqb_spec l k); [contradiction|reflexivity].
  - exists Q1, Q2. rewrite !POLt, !Z.eqb_refl. destruct (Z.eqb_spec k p); [contradiction|]. split; auto. split; auto. split; [exact LQ2|]. split; [exact LQ1|].
    split; [eapply piece1_vertex0; eauto|]. split; [rewrite (piece1_vertex P v1 wide H1 Hw Q1 E1 0), Nat.add_0_r, v2m0 by lia; reflexivity|].
    split; [eapply piece2_vertex0; eauto|]. split; [rewrite (piece2_vertex P v1 wide H1 Hw Q2 E2 0), Nat.add_0_r, v2m0 by lia; reflexivity|].
    pose proof (proj1 (C51_edges K _ _) E1) as (_ & _ & _ & A1 & B1 & C1). pose proof (proj1 (C51_edges K _ _) E2) as (_ & _ & _ & A2 & B2 & C2).
    split; [unfold proper; rewrite LQ1; split; [lia|auto]|]. split; [unfold proper; rewrite LQ2; split; [lia|auto]|]. now apply (pieces_area P v1 wide H1 Hw).
  - apply (glued_gz nv t _ _ It). apply Gt. left. left. cbn. auto.
  - intros [l i] Hy. apply EDt in Hy. destruct Hy as [Q [EQ Hi]]. cbn [fst snd] in *. rewrite POL in EQ. destruct (Z.eqb_spec l p) as [->|N].
    + injection EQ as <-. destruct (Z.eq_dec i 0) as [->|N0]; auto. right; right.
      exists (p, Z.of_nat ((v1 + wide + Z.to_nat i - 1) mod ne)). split.
      * exists P. cbn [fst snd]. split; auto. change (nv P) with ne. pose proof (Nat.mod_upper_bound (v1 + wide + Z.to_nat i - 1) ne ltac:(lia)). lia.
      * unfold psi. rewrite psi_first; [|change (nv Q1) with (length Q1) in Hi; rewrite LQ1 in Hi; lia]. now rewrite Z2Nat.id by lia.
    + destruct (Z.eqb_spec l k) as [->|N'].
      * injection EQ as <-. destruct (Z.eq_dec i 0) as [->|N0]; auto. right; right.
        exists (p, Z.of_nat ((v1 + Z.to_nat i - 1) mod ne)). split.
        -- exists P. cbn [fst snd]. split; auto. change (nv P) with ne. pose proof (Nat.mod_upper_bound (v1 + Z.to_nat i - 1) ne ltac:(lia)). lia.
        -- unfold psi. rewrite psi_second; [|change (nv Q2) with (length Q2) in Hi; rewrite LQ2 in Hi; lia]. now rewrite Z2Nat.id by lia.
      * right; right. exists (l, i). split; [exists Q; auto|]. symmetry. now apply psi_other.
  - apply (recut_intro s t [((p, 0%Z), (k, 0%Z))]); auto.
    + intros x Hx _. apply EDt, KE, Hx.
    + intros x y Hx Hy _ _. now apply psi_inj.
    + apply extra_new; auto.
    + intros x P' Q Hx _ EP' EQ. fold psi in EQ. fold psi. rewrite POLt in EQ. unfold cut_move.
      assert (VS : forall j a, (a mod ne = j)%nat -> (j < ne)%nat -> vertex P a = vertex P j /\ vertex P (S a) = vertex P (S j)).
      { intros j a E L. rewrite <- (vertex_mod P a), E. split; auto. rewrite <- (vertex_mod P (S a)), <- (vertex_mod P (S j)). f_equal.
        rewrite <- (Nat.add_1_r a), <- Nat.add_mod_idemp_l, E by lia. f_equal. lia. }
      destruct (psi_cases k NK x Hx) as [(j & d & -> & Hj & Ed & Hd & Ex)|[(j & d & -> & Hj & Ed & Hd & Ex)|(B & C & Ex)]]; fold psi in Ex; rewrite Ex in *; cbn [fst snd] in *; rewrite ?Nat2Z.id.
      * destruct (Z.eqb_spec k p); [contradiction|]. rewrite Z.eqb_refl in *. injection EQ as <-. rewrite EP in EP'. injection EP' as <-. rewrite <- Ed.
        fold wide. destruct (Nat.ltb_spec d wide); [|lia]. rewrite Nat.add_1_r.
        destruct (VS j (v1 + d)%nat) as [V V']; [rewrite Ed; apply off_add; lia|auto|].
        rewrite !(piece2_vertex P v1 wide H1 Hw Q2 E2), v2m0 by lia. rewrite V, <- V'. split; [auto|]. do 2 f_equal. lia.
      * rewrite Z.eqb_refl in *. injection EQ as <-. rewrite EP in EP'. injection EP' as <-. rewrite <- Ed.
        fold wide. destruct (Nat.ltb_spec d wide); [lia|]. rewrite Nat.add_1_r.
        destruct (VS j (v1 + d)%nat) as [V V']; [rewrite Ed; apply off_add; lia|auto|].
        rewrite !(piece1_vertex P v1 wide H1 Hw Q1 E1) by lia. rewrite <- V, <- V'. split; do 2 f_equal; lia.
      * destruct (Z.eqb_spec (fst x) p); [contradiction|]. destruct (Z.eqb_spec (fst x) k); [contradiction|]. rewrite EP' in EQ. injection EQ as <-. auto.
    + intros x. unfold cut_move. destruct (fst x =? p)%Z; [destruct (_ <? _)%nat|]; (split; [exists 1|]).
      * apply similarity_shift, similarity_id.
      * apply (orientation_shift (fun q => q)). intros a b c; auto.
      * apply similarity_shift, similarity_id.
      * apply (orientation_shift (fun q => q)). intros a b c; auto.
      * apply similarity_id.
      * intros a b c; auto.
Qed.
End Cut.
End K.
