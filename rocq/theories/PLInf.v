(** Proofs about the cells of the L-infinity Delaunay triangulation. *)
From Coq Require Import List Bool ZArith Arith Lia Ring Field.
From Verif Require Import OField FMicromega MBase MDict PDict MEuclid MTV PTV MLInf SLInf.
Import ListNotations.

Section P.
Context {K : OField}.
Add Field KF : (of_ft K).
Local Open Scope res_scope.
Local Open Scope F_scope.

(** ** squares *)
Lemma bt_square (xL yL xR yR xB yB xT yT : K) : xL < xB -> xB < xR -> xL < xT -> xT < xR -> yB < yL -> yB < yR -> yL < yT -> yR < yT ->
  (xR - xL <= yT - yB <-> delaunay_edge (xR, yR) (xL, yL) (xB, yB) (xT, yT)).
Proof.
  intros H1 H2 H3 H4 H5 H6 H7 H8. unfold delaunay_edge, closed_square, open_square. cbn [fst snd]. split.
  - intros H.
    assert (S : exists s, xR - xL <= s /\ yL - yR <= s /\ yR - yL <= s /\ s <= yT - yB).
    { destruct (fltb (xR - xL) (yL - yR)) eqn:E1; [exists (yL - yR); repeat split; flra|].
      destruct (fltb (xR - xL) (yR - yL)) eqn:E2; [exists (yR - yL); repeat split; flra|]. exists (xR - xL). repeat split; flra. }
    destruct S as (s & S1 & S2 & S3 & S4).
    destruct (fltb (yB + s) yL) eqn:E1; destruct (fltb (yB + s) yR) eqn:E2.
    + destruct (fltb yL yR) eqn:E3; [exists (xL, yR - s), s|exists (xL, yL - s), s]; cbn [fst snd]; repeat split; try flra; intros (Q1 & Q2 & Q3 & Q4); flra.
    + exists (xL, yL - s), s; cbn [fst snd]; repeat split; try flra; intros (Q1 & Q2 & Q3 & Q4); flra.
    + exists (xL, yR - s), s; cbn [fst snd]; repeat split; try flra; intros (Q1 & Q2 & Q3 & Q4); flra.
    + exists (xL, yB), s; cbn [fst snd]; repeat split; try flra; intros (Q1 & Q2 & Q3 & Q4); flra.
  - intros ([cx cy] & s & (A1 & A2 & A3 & A4) & (B1 & B2 & B3 & B4) & C & D). cbn [fst snd] in *.
    assert (C' : yB <= cy). { destruct (fltb cy yB) eqn:E; [|exact E]. exfalso. apply C. repeat split; flra. }
    assert (D' : cy + s <= yT). { destruct (fltb yT (cy + s)) eqn:E; [|exact E]. exfalso. apply D. repeat split; flra. }
    flra.
Qed.
Lemma delaunay_swap (A B C D : vec K) : delaunay_edge A B C D <-> delaunay_edge (snd A, fst A) (snd B, fst B) (snd C, fst C) (snd D, fst D).
Proof.
  destruct A as [a a'], B as [b b'], C as [c c'], D as [d d']. unfold delaunay_edge, closed_square, open_square. cbn [fst snd].
  split; intros ([x y] & s & A & B & C & D); exists (y, x), s; cbn [fst snd] in *; tauto.
Qed.
Lemma delaunay_sym (A B C D : vec K) : delaunay_edge A B C D <-> delaunay_edge B A C D.
Proof. split; intros (c & s & Q1 & Q2 & Q3 & Q4); exists c, s; auto. Qed.
Lemma delaunay_sym' (A B C D : vec K) : delaunay_edge A B C D <-> delaunay_edge A B D C.
Proof. split; intros (c & s & Q1 & Q2 & Q3 & Q4); exists c, s; auto. Qed.
(** [R] is the right vertex, [L] the left one, the edge goes from [T] to [B] *)
Lemma rl_square (xR yR xT yT xB yB xL yL : K) : xT < xR -> xB < xR -> yB < yR -> yR < yT -> xL < xT -> xL < xB -> yB < yL -> yL < yT ->
  (yT - yB <= xR - xL <-> delaunay_edge (xT, yT) (xB, yB) (xR, yR) (xL, yL)).
Proof.
  intros. rewrite delaunay_swap, delaunay_sym'. cbn [fst snd]. apply bt_square; auto.
Qed.

(** ** linear forms *)
Definition weight (x : nat -> K) (i : nat) : K := match i with O => 1 | S j => x j end.
Definition lsum (x : nat -> K) (l : list (nat * K)) : K := fold_right (fun p a => snd p * weight x (fst p) + a) 0 l.
Lemma sumn_shift n (f : nat -> K) : sumn (S n) f = f 0%nat + sumn n (fun i => f (S i)).
Proof. induction n as [|n IH]; [cbn; ring|]. cbn [sumn] in *. rewrite IH. ring. Qed.
Lemma form_eval_sum dim (f : form) x : form_eval dim f x = sumn (S dim) (fun i => f i * weight x i).
Proof. unfold form_eval. rewrite sumn_shift. cbn [weight]. ring. Qed.
Lemma sumn_set n (f : form) x i c : (i < n)%nat -> sumn n (fun j => set_entry f i c j * weight x j) = sumn n (fun j => f j * weight x j) + (c - f i) * weight x i.
Proof.
  induction n as [|n IH]; intros H; [lia|]. cbn [sumn]. unfold set_entry at 2. destruct (Nat.eqb_spec n i) as [->|N].
  - rewrite (sumn_ext i _ (fun j => f j * weight x j)); [ring|]. intros j Hj. unfold set_entry. destruct (Nat.eqb_spec j i); [lia|auto].
  - rewrite IH by lia. ring.
Qed.
Lemma eval_set dim (f : form) x i c : (i <= dim)%nat -> form_eval dim (set_entry f i c) x = form_eval dim f x + (c - f i) * weight x i.
Proof. intros H. rewrite !form_eval_sum. apply sumn_set. lia. Qed.
Lemma linear_eval dim (l : list (nat * K)) x : NoDup (map fst l) -> (forall p, In p l -> (fst p <= dim)%nat) -> exists f, linear dim l = Ok f /\ form_eval dim f x = lsum x l.
Proof.
  intros N H. unfold linear. assert (F : forallb (fun p => (fst p <=? dim)%nat) l = true) by (apply forallb_forall; intros p Hp; apply Nat.leb_le; auto). rewrite F.
  eexists. split; [reflexivity|]. clear F.
  assert (G : forall f0, (forall p, In p l -> f0 (fst p) = 0) -> form_eval dim (fold_left (fun f p => set_entry f (fst p) (snd p)) l f0) x = form_eval dim f0 x + lsum x l).
  { induction l as [|[i c] l IH]; intros f0 Z; cbn [fold_left lsum fold_right fst snd]; [ring|]. cbn in N. inversion_clear N as [|? ? N1 N2]. rewrite IH; auto.
    - rewrite eval_set by (apply (H (i, c)); left; auto). pose proof (Z (i, c) (or_introl eq_refl)) as Z0. cbn in Z0. rewrite Z0. unfold lsum. ring.
    - intros p Hp. apply H. now right.
    - intros p Hp. unfold set_entry. destruct (Nat.eqb_spec (fst p) i) as [E|E]; [|apply Z; now right]. exfalso. apply N1. rewrite <- E. now apply in_map. }
  rewrite G by auto. rewrite form_eval_sum, sumn_0; [ring|]. intros i Hi. ring.
Qed.
Lemma NoDup2 (a b : nat) : a <> b -> NoDup [a; b].
Proof. intros. constructor; [intros [->|[]]; auto|]. constructor; [intros []|constructor]. Qed.
Lemma NoDup3 (a b c : nat) : a <> b -> a <> c -> b <> c -> NoDup [a; b; c].
Proof. intros. constructor; [intros [->|[->|[]]]; auto|]. now apply NoDup2. Qed.
Lemma linear1 dim i (c : K) x : (i < dim)%nat -> exists f, linear dim [((i + 1)%nat, c)] = Ok f /\ form_eval dim f x = c * x i.
Proof.
  intros H. destruct (linear_eval dim [((i + 1)%nat, c)] x) as (f & F1 & F2); [constructor; [intros []|constructor]|intros p [<-|[]]; cbn; lia|].
  exists f. split; auto. rewrite F2. cbn. rewrite Nat.add_1_r. cbn. ring.
Qed.
Lemma linear1c dim i (c : K) x : (i < dim)%nat -> exists f, linear dim [((i + 1)%nat, c); (0%nat, 1)] = Ok f /\ form_eval dim f x = c * x i + 1.
Proof.
  intros H. destruct (linear_eval dim [((i + 1)%nat, c); (0%nat, 1)] x) as (f & F1 & F2); [cbn [map fst]; apply NoDup2; lia|intros p [<-|[<-|[]]]; cbn; lia|].
  exists f. split; auto. rewrite F2. cbn. rewrite Nat.add_1_r. cbn. ring.
Qed.
Lemma linear2 dim i j (x : nat -> K) : (i < dim)%nat -> (j < dim)%nat -> i <> j -> exists f, linear dim [((i + 1)%nat, 1); ((j + 1)%nat, 1)] = Ok f /\ form_eval dim f x = x i + x j.
Proof.
  intros H H' N. destruct (linear_eval dim [((i + 1)%nat, 1); ((j + 1)%nat, 1)] x) as (f & F1 & F2); [cbn [map fst]; apply NoDup2; lia|intros p [<-|[<-|[]]]; cbn; lia|].
  exists f. split; auto. rewrite F2. cbn. rewrite !Nat.add_1_r. cbn. ring.
Qed.
Lemma linear3 dim i j k (c : K) x : (i < dim)%nat -> (j < dim)%nat -> (k < dim)%nat -> i <> j -> i <> k -> j <> k ->
  exists f, linear dim [((i + 1)%nat, 1); ((j + 1)%nat, 1); ((k + 1)%nat, c)] = Ok f /\ form_eval dim f x = x i + x j + c * x k.
Proof.
  intros H H' H'' N N' N''. destruct (linear_eval dim [((i + 1)%nat, 1); ((j + 1)%nat, 1); ((k + 1)%nat, c)] x) as (f & F1 & F2); [cbn [map fst]; apply NoDup3; lia|intros p [<-|[<-|[<-|[]]]]; cbn; lia|].
  exists f. split; auto. rewrite F2. cbn. rewrite !Nat.add_1_r. cbn. ring.
Qed.

(** ** the triangulation *)
Lemma In_li_edges n p e : In (p, e) (li_edges n) <-> (p < n)%nat /\ (e < 3)%nat.
Proof.
  unfold li_edges. rewrite in_flat_map. split.
  - intros (q & Q & I). apply in_seq in Q. apply in_map_iff in I. destruct I as (f & E & I). injection E as <- <-. cbn in I. lia.
  - intros [P E]. exists p. split; [apply in_seq; lia|]. apply in_map. cbn. lia.
Qed.
Variables (n : nat) (ids : dict (nat * nat) (nat * nat)) (types : list (list Z)) (t : linf).
Hypothesis MK : make_linf n ids types = Ok t.
Definition opp_of (p e : nat) : nat * nat := match dget (p, e) ids with Some q => q | None => (p, e) end.
Definition mark_of (p e : nat) : marking :=
  let v := nth e (nth p types []) 0%Z in
  if (v =? 1)%Z then MLeft else if (v =? 2)%Z then MRight else if (v =? 3)%Z then MBottom else if (v =? 4)%Z then MTop else MNone.
Definition ty (p e : nat) : Z := nth e (nth p types []) 0%Z.
Lemma check_facts : t = LI n ids types /\ Nat.even n = true /\ length types = n /\ (forall p e, (p < n)%nat -> (e < 3)%nat -> exists q, dget (p, e) ids = Some q) /\
  (forall p, (p < n)%nat -> length (nth p types []) = 3%nat /\ (forall e, (e < 3)%nat -> In (ty p e) [0; 1; 2; 3; 4]%Z) /\
    count (fun v => (v =? 1)%Z || (v =? 2)%Z) (nth p types []) = 1%nat /\ count (fun v => (v =? 3)%Z || (v =? 4)%Z) (nth p types []) = 1%nat).
Proof.
  unfold make_linf, li_check in MK. cbn [li_n li_id li_types] in MK.
  destruct (Nat.even n) eqn:E1; [|discriminate]. cbn [negb] in MK.
  destruct (_ && _) eqn:E2 in MK; [|discriminate]. cbn [negb] in MK.
  destruct (Nat.eqb_spec (length types) n) as [E3|E3]; [|discriminate]. cbn [negb] in MK.
  destruct (forallb _ types) eqn:E4 in MK; [|discriminate]. cbn [negb] in MK. destruct (forallb _ types) eqn:E5 in MK; [|discriminate]. cbn [negb bind] in MK. injection MK as <-.
  apply andb_true_iff in E2. destruct E2 as [_ E2]. rewrite forallb_forall in E2, E4, E5.
  split; auto. split; auto. split; auto. split.
  - intros p e Hp He. assert (I : In (p, e) (li_edges n)) by (now apply In_li_edges). specialize (E2 _ I). unfold dmem in E2. destruct (dget (p, e) ids); [eauto|discriminate].
  - intros p Hp. assert (I : In (nth p types []) types) by (apply nth_In; lia). specialize (E4 _ I). specialize (E5 _ I). apply andb_true_iff in E4. destruct E4 as [L4 F4]. apply Nat.eqb_eq in L4.
    apply andb_true_iff in E5. destruct E5 as [C1 C2]. apply Nat.eqb_eq in C1, C2. rewrite forallb_forall in F4. split; auto. split; [|split; auto].
    intros e He. assert (I' : In (ty p e) (nth p types [])) by (apply nth_In; lia). apply F4 in I'. apply (proj1 (mem_In _ _)) in I'. exact I'.
Qed.
Lemma typ_ok p e : (p < n)%nat -> (e < 3)%nat -> typ t p e = Ok (ty p e).
Proof.
  intros Hp He. destruct check_facts as (-> & _ & L & _ & R). destruct (R p Hp) as (LR & _). unfold typ. cbn [li_types].
  assert (E : lgetE types (Z.of_nat p) = Ok (nth p types [])) by (apply lgetE_pos; [lia|]; rewrite Nat2Z.id; apply nth_error_nth'; lia). rewrite E. cbn [bind].
  apply lgetE_pos; [lia|]. rewrite Nat2Z.id. apply nth_error_nth'. lia.
Qed.
Lemma opp_ok p e : (p < n)%nat -> (e < 3)%nat -> li_opposite t p e = Ok (opp_of p e).
Proof. intros Hp He. destruct check_facts as (-> & _ & _ & D & _). unfold li_opposite, dgetE, opp_of. cbn [li_id]. destruct (D p e Hp He) as [q ->]. reflexivity. Qed.
Lemma dim_ok : li_dim t = (6 * n)%nat.
Proof.
  destruct check_facts as (-> & E & _). unfold li_dim. cbn [li_n]. apply Nat.even_spec in E. destruct E as [k ->]. replace (3 * (2 * k))%nat with (3 * k * 2)%nat by lia. rewrite Nat.div_mul by lia. lia.
Qed.
Lemma n_ok : li_n t = n. Proof. destruct check_facts as (-> & _). reflexivity. Qed.
Variable x : nat -> K.
Definition E (p e : nat) : vec K := (x (2 * (3 * p + e))%nat, x (2 * (3 * p + e) + 1)%nat).
Notation dim := (6 * n)%nat.
Notation sat f := (form_eval dim f x = 0).
Hypothesis PR : paired n opp_of.

Lemma eqns_ok : exists l, li_eqns t = Ok l /\ ((forall f, In f l -> form_eval dim f x = 0) <->
  (forall p, (p < n)%nat -> vplus (vplus (E p 0%nat) (E p 1%nat)) (E p 2%nat) = (0, 0)) /\
  (forall p e, (p < n)%nat -> (e < 3)%nat -> vplus (E p e) (E (fst (opp_of p e)) (snd (opp_of p e))) = (0, 0))).
Proof.
  unfold li_eqns. rewrite n_ok, dim_ok.
  assert (C : forall p, (p < n)%nat -> exists l, closing_conditions dim p = Ok l /\ ((forall f, In f l -> sat f) <-> vplus (vplus (E p 0%nat) (E p 1%nat)) (E p 2%nat) = (0, 0))).
  { intros p Hp. unfold closing_conditions.
    destruct (linear3 dim (6 * p) (6 * p + 2) (6 * p + 4) 1 x) as (f & F1 & F2); try lia.
    destruct (linear3 dim (6 * p + 1) (6 * p + 3) (6 * p + 5) 1 x) as (g & G1 & G2); try lia.
    replace (6 * p + 2 + 1)%nat with (6 * p + 3)%nat in F1 by lia. replace (6 * p + 4 + 1)%nat with (6 * p + 5)%nat in F1 by lia. rewrite F1. cbn [bind].
    replace (6 * p + 1 + 1)%nat with (6 * p + 2)%nat in G1 by lia. replace (6 * p + 3 + 1)%nat with (6 * p + 4)%nat in G1 by lia. replace (6 * p + 5 + 1)%nat with (6 * p + 6)%nat in G1 by lia. rewrite G1. cbn [bind].
    eexists. split; [reflexivity|]. unfold vplus, E. cbn [fst snd].
    replace (2 * (3 * p + 0))%nat with (6 * p)%nat by lia. replace (2 * (3 * p + 1))%nat with (6 * p + 2)%nat by lia. replace (2 * (3 * p + 2))%nat with (6 * p + 4)%nat by lia.
    replace (6 * p + 2 + 1)%nat with (6 * p + 3)%nat by lia. replace (6 * p + 4 + 1)%nat with (6 * p + 5)%nat by lia. split.
    - intros H. pose proof (H f (or_introl eq_refl)) as A. pose proof (H g (or_intror (or_introl eq_refl))) as B. rewrite F2 in A. rewrite G2 in B. f_equal; [rewrite <- A|rewrite <- B]; ring.
    - intros H. apply pair_equal_spec in H. destruct H as [A B]. intros h [<-|[<-|[]]]; [rewrite F2, <- A|rewrite G2, <- B]; ring. }
  assert (O : forall p e, (p < n)%nat -> (e < 3)%nat -> exists l, opposite_conditions t dim p e = Ok l /\
    ((forall f, In f l -> sat f) <-> ((2 * (3 * p + e) < 2 * (3 * fst (opp_of p e) + snd (opp_of p e)))%nat -> vplus (E p e) (E (fst (opp_of p e)) (snd (opp_of p e))) = (0, 0)))).
  { intros p e Hp He. unfold opposite_conditions. rewrite opp_ok by auto. cbn [bind]. destruct (PR p e Hp He) as (Q1 & Q2 & Q3 & Q4). destruct (opp_of p e) as [q g] eqn:OE. cbn [fst snd] in *.
    destruct (Nat.ltb_spec (2 * (3 * p + e)) (2 * (3 * q + g))) as [LT|GE].
    - destruct (linear2 dim (2 * (3 * p + e)) (2 * (3 * q + g)) x) as (f & F1 & F2); try lia.
      destruct (linear2 dim (2 * (3 * p + e) + 1) (2 * (3 * q + g) + 1) x) as (h & G1 & G2); try lia.
      unfold opposite_condition. rewrite F1. cbn [bind]. rewrite G1. cbn [bind]. eexists. split; [reflexivity|]. unfold vplus, E. cbn [fst snd]. split.
      + intros H _. pose proof (H f (or_introl eq_refl)) as A. pose proof (H h (or_intror (or_introl eq_refl))) as B. rewrite F2 in A. rewrite G2 in B. now rewrite A, B.
      + intros H. specialize (H LT). apply pair_equal_spec in H. destruct H as [A B]. intros k [<-|[<-|[]]]; congruence.
    - exists []. split; [reflexivity|]. split; [intros _ LT; lia|intros _ f []]. }
  destruct (rmap_total (closing_conditions (K := K) dim) (seq 0 n)) as [a A].
  { intros p Hp. apply in_seq in Hp. destruct (C p ltac:(lia)) as (l & L & _). eauto. }
  destruct (rmap_total (fun pe => opposite_conditions (K := K) t dim (fst pe) (snd pe)) (li_edges n)) as [b B].
  { intros [p e] Hp. apply In_li_edges in Hp. destruct (O p e) as (l & L & _); try tauto. eauto. }
  rewrite A. cbn [bind]. rewrite B. cbn [bind]. eexists. split; [reflexivity|].
  assert (SA : (forall f, In f (concat a) -> sat f) <-> forall p, (p < n)%nat -> vplus (vplus (E p 0%nat) (E p 1%nat)) (E p 2%nat) = (0, 0)).
  { split.
    - intros H p Hp. destruct (C p Hp) as (l & L & CI). apply CI. intros f Hf. apply H. apply in_concat. exists l. split; auto.
      assert (NE : nth_error (seq 0 n) p = Some p) by (rewrite (nth_error_nth' _ 0%nat) by (now rewrite seq_length); now rewrite seq_nth).
      destruct (rmap_nth _ _ _ _ _ A NE) as (y & Y1 & Y2). rewrite L in Y2. injection Y2 as <-. now apply nth_error_In in Y1.
    - intros H f Hf. apply in_concat in Hf. destruct Hf as (l & Hl & Hf). destruct (rmap_In _ _ _ _ A Hl) as (p & Hp & L). apply in_seq in Hp. destruct (C p ltac:(lia)) as (l' & L' & CI). rewrite L in L'. injection L' as <-. apply CI; auto. apply H. lia. }
  assert (SB : (forall f, In f (concat b) -> sat f) <-> forall p e, (p < n)%nat -> (e < 3)%nat -> (2 * (3 * p + e) < 2 * (3 * fst (opp_of p e) + snd (opp_of p e)))%nat -> vplus (E p e) (E (fst (opp_of p e)) (snd (opp_of p e))) = (0, 0)).
  { split.
    - intros H p e Hp He. destruct (O p e Hp He) as (l & L & CI). apply CI. intros f Hf. apply H. apply in_concat. exists l. split; auto.
      assert (I : In (p, e) (li_edges n)) by (now apply In_li_edges). apply In_nth_error in I. destruct I as [k I].
      destruct (rmap_nth _ _ _ _ _ B I) as (y & Y1 & Y2). cbn [fst snd] in Y2. rewrite L in Y2. injection Y2 as <-. now apply nth_error_In in Y1.
    - intros H f Hf. apply in_concat in Hf. destruct Hf as (l & Hl & Hf). destruct (rmap_In _ _ _ _ B Hl) as ([p e] & Hp & L). apply In_li_edges in Hp. destruct Hp as [Hp He]. cbn [fst snd] in L.
      destruct (O p e Hp He) as (l' & L' & CI). rewrite L in L'. injection L' as <-. apply CI; auto. }
  split.
  - intros H. assert (HA : forall f, In f (concat a) -> sat f) by (intros; apply H, in_or_app; auto). assert (HB : forall f, In f (concat b) -> sat f) by (intros; apply H, in_or_app; auto).
    split; [now apply SA|]. pose proof (proj1 SB HB) as HB'. intros p e Hp He. destruct (PR p e Hp He) as (Q1 & Q2 & Q3 & Q4). pose proof (HB' p e Hp He) as W. pose proof (HB' _ _ Q1 Q2) as W'. rewrite Q3 in W'. cbn [fst snd] in W'.
    destruct (opp_of p e) as [q g]. cbn [fst snd] in *. destruct (Nat.lt_trichotomy (3 * p + e) (3 * q + g)) as [LT|[EQ|GT]]; [apply W; lia|exfalso; apply Q4; lia|].
    specialize (W' ltac:(lia)). unfold vplus in *. apply pair_equal_spec in W'. destruct W' as [W1 W2]. f_equal; [rewrite <- W1|rewrite <- W2]; ring.
  - intros [HA HB] f Hf. apply in_app_or in Hf. destruct Hf as [Hf|Hf]; [apply (proj2 SA); auto|]. apply (proj2 SB); auto.
Qed.
End P.
