(** Proofs about the cells of the L-infinity Delaunay triangulation: the inequalities. *)
From Coq Require Import List Bool ZArith Arith Lia Ring Field.
From Verif Require Import OField FMicromega MBase MDict PDict MEuclid MTV PTV MLInf SLInf PLInf.
Import ListNotations.

Section P.
Context {K : OField}.
Add Field KF : (of_ft K).
Local Open Scope res_scope.
Local Open Scope F_scope.
Variables (n : nat) (ids : dict (nat * nat) (nat * nat)) (types : list (list Z)) (t : linf).
Hypothesis MK : make_linf n ids types = Ok t.
Variable x : nat -> K.
Notation opp := (opp_of ids).
Notation mark := (mark_of types).
Notation ty := (ty types).
Notation E := (E x).
Notation dim := (6 * n)%nat.
Hypothesis PR : paired n opp.
Hypothesis CP : forall p e, (p < n)%nat -> (e < 3)%nat -> compatible (mark p e) (mark p ((e + 1) mod 3)%nat).

(** ** signs *)
Definition osign (v : Z) : option (K * K) :=
  if (v =? 3)%Z then Some (1, 1) else if (v =? 4)%Z then Some (- (1), - (1)) else if (v =? 2)%Z then Some (- (1), 1) else if (v =? 1)%Z then Some (1, - (1)) else None.
Definition isign (v : Z) : option (K * K) :=
  if (v =? 3)%Z then Some (1, - (1)) else if (v =? 4)%Z then Some (- (1), 1) else if (v =? 2)%Z then Some (1, 1) else if (v =? 1)%Z then Some (- (1), - (1)) else None.
Definition pick (b : nat) (v : K * K) : K := match b with O => fst v | _ => snd v end.
Definition over (b : nat) (o : option (K * K)) (d : option K) : option K := match o with Some v => Some (pick b v) | None => d end.
Definition idx (p e b : nat) : nat := 2 * (3 * p + e) + b.
Lemma idx_inj p e b p' e' b' : (e < 3)%nat -> (b < 2)%nat -> (e' < 3)%nat -> (b' < 2)%nat -> idx p e b = idx p' e' b' -> p = p' /\ e = e' /\ b = b'.
Proof. unfold idx. lia. Qed.
Lemma ty_case p e : (p < n)%nat -> (e < 3)%nat -> In (ty p e) [0; 1; 2; 3; 4]%Z.
Proof. intros Hp He. destruct (check_facts n ids types t MK) as (_ & _ & _ & _ & R). destruct (R p Hp) as (_ & R2 & _). auto. Qed.
Lemma set_idx (s : nat -> option K) p e b c p' e' b' : (e < 3)%nat -> (b < 2)%nat -> (e' < 3)%nat -> (b' < 2)%nat ->
  set_sign s (idx p e b) c (idx p' e' b') = if (p' =? p)%nat && (e' =? e)%nat && (b' =? b)%nat then Some c else s (idx p' e' b').
Proof.
  intros. unfold set_sign. destruct (Nat.eqb_spec (idx p' e' b') (idx p e b)) as [Q|Q].
  - apply idx_inj in Q; auto. destruct Q as (-> & -> & ->). now rewrite !Nat.eqb_refl.
  - destruct (Nat.eqb_spec p' p) as [->|]; auto. destruct (Nat.eqb_spec e' e) as [->|]; auto. destruct (Nat.eqb_spec b' b) as [->|]; auto. congruence.
Qed.
Lemma step_ok p e1 e2 s : (p < n)%nat -> (e1 < 3)%nat -> (e2 < 3)%nat -> e1 <> e2 -> exists s', sign_step t p e1 e2 s = Ok s' /\ forall q e b, (e < 3)%nat -> (b < 2)%nat ->
  s' (idx q e b) = if (q =? p)%nat then (if (e =? e2)%nat then over b (osign (ty p e2)) (s (idx q e b)) else if (e =? e1)%nat then over b (isign (ty p e2)) (s (idx q e b)) else s (idx q e b)) else s (idx q e b).
Proof.
  intros Hp H1 H2 N. unfold sign_step. rewrite (typ_ok n ids types t MK) by auto. cbn [bind]. eexists. split; [reflexivity|]. intros q e b He Hb.
  replace (2 * (3 * p + e1))%nat with (idx p e1 0) by (unfold idx; lia). replace (2 * (3 * p + e2))%nat with (idx p e2 0) by (unfold idx; lia).
  change (idx p e1 0 + 1)%nat with (2 * (3 * p + e1) + 0 + 1)%nat. change (idx p e2 0 + 1)%nat with (2 * (3 * p + e2) + 0 + 1)%nat.
  replace (2 * (3 * p + e1) + 0 + 1)%nat with (idx p e1 1) by (unfold idx; lia). replace (2 * (3 * p + e2) + 0 + 1)%nat with (idx p e2 1) by (unfold idx; lia).
  pose proof (ty_case p e2 Hp H2) as TC. cbn [In] in TC.
  destruct TC as [Q|[Q|[Q|[Q|[Q|[]]]]]]; rewrite <- Q; unfold V_BOT, V_TOP, V_RIGHT, V_LEFT, osign, isign; cbn [Z.eqb Pos.eqb over];
    try (rewrite !set_idx by (auto; lia));
    destruct (Nat.eqb_spec q p) as [->|]; cbn [andb]; auto; destruct (Nat.eqb_spec e e2) as [->|N2]; cbn [andb]; auto;
    destruct (Nat.eqb_spec e2 e1) as [|]; try congruence; try (destruct (Nat.eqb_spec e e1) as [->|N1]); cbn [andb]; auto;
    destruct b as [|[|b]]; try lia; cbn; auto.
Qed.
Definition sign_facts (p e b : nat) (v : option K) : Prop :=
  (mark p e <> MNone -> v = over b (osign (ty p e)) None) /\ (mark p ((e + 1) mod 3)%nat <> MNone -> v = over b (isign (ty p ((e + 1) mod 3)%nat)) None).
Lemma mark_ty p e : mark p e = (if (ty p e =? 1)%Z then MLeft else if (ty p e =? 2)%Z then MRight else if (ty p e =? 3)%Z then MBottom else if (ty p e =? 4)%Z then MTop else MNone).
Proof. reflexivity. Qed.
Lemma tri_ok p s : (p < n)%nat -> exists s', sign_triangle t p s = Ok s' /\ (forall e b, (e < 3)%nat -> (b < 2)%nat -> sign_facts p e b (s' (idx p e b))) /\
  forall q e b, q <> p -> (e < 3)%nat -> (b < 2)%nat -> s' (idx q e b) = s (idx q e b).
Proof.
  intros Hp. unfold sign_triangle. destruct (step_ok p 2 0 s Hp) as (s1 & S1 & F1); try lia. rewrite S1. cbn [bind]. destruct (step_ok p 0 1 s1 Hp) as (s2 & S2 & F2); try lia. rewrite S2. cbn [bind].
  destruct (step_ok p 1 2 s2 Hp) as (s3 & S3 & F3); try lia. exists s3. split; auto. split.
  - intros e b He Hb. unfold sign_facts. rewrite !F3, !F2, !F1 by auto. rewrite Nat.eqb_refl. pose proof (CP p e Hp He) as C. rewrite !mark_ty in *.
    pose proof (ty_case p 0 Hp ltac:(lia)) as T0. pose proof (ty_case p 1 Hp ltac:(lia)) as T1. pose proof (ty_case p 2 Hp ltac:(lia)) as T2. cbn in T0, T1, T2.
    destruct e as [|[|[|e]]]; [| | |lia]; cbn [Nat.add Nat.modulo Nat.divmod fst snd Nat.sub Nat.eqb] in *.
    + destruct T0 as [Q0|[Q0|[Q0|[Q0|[Q0|[]]]]]]; destruct T1 as [Q1|[Q1|[Q1|[Q1|[Q1|[]]]]]]; rewrite <- ?Q0, <- ?Q1 in *; cbn in *; try contradiction; split; intros; try congruence; auto.
    + destruct T1 as [Q0|[Q0|[Q0|[Q0|[Q0|[]]]]]]; destruct T2 as [Q1|[Q1|[Q1|[Q1|[Q1|[]]]]]]; rewrite <- ?Q0, <- ?Q1 in *; cbn in *; try contradiction; split; intros; try congruence; auto.
    + destruct T2 as [Q0|[Q0|[Q0|[Q0|[Q0|[]]]]]]; destruct T0 as [Q1|[Q1|[Q1|[Q1|[Q1|[]]]]]]; rewrite <- ?Q0, <- ?Q1 in *; cbn in *; try contradiction; split; intros; try congruence; auto.
  - intros q e b N He Hb. rewrite F3, F2, F1 by auto. destruct (Nat.eqb_spec q p); [congruence|auto].
Qed.
Lemma loop_ok ps : forall s, (forall p, In p ps -> (p < n)%nat) -> exists s', sign_loop t ps s = Ok s' /\ (forall p e b, In p ps -> (e < 3)%nat -> (b < 2)%nat -> sign_facts p e b (s' (idx p e b))) /\
  forall q e b, ~ In q ps -> (e < 3)%nat -> (b < 2)%nat -> s' (idx q e b) = s (idx q e b).
Proof.
  induction ps as [|p ps IH]; intros s H; cbn [sign_loop]; [exists s; split; auto; split; [intros ? ? ? []|auto]|].
  destruct (tri_ok p s) as (s1 & S1 & A & B); [apply H; now left|]. rewrite S1. cbn [bind]. destruct (IH s1) as (s' & S' & A' & B'); [intros; apply H; now right|]. exists s'. split; auto. split.
  - intros q e b Hq He Hb. destruct (in_dec Nat.eq_dec q ps) as [I|I]; [auto|]. destruct Hq as [->|Hq]; [|contradiction]. rewrite B' by auto. auto.
  - intros q e b N He Hb. rewrite B' by (auto; intros I; apply N; now right). apply B; auto. intros ->. apply N. now left.
Qed.
Lemma typed_end p e : (p < n)%nat -> (e < 3)%nat -> mark p e <> MNone \/ mark p ((e + 1) mod 3)%nat <> MNone.
Proof.
  intros Hp He. destruct (check_facts n ids types t MK) as (_ & _ & _ & _ & R). destruct (R p Hp) as (L & _ & C1 & C2). unfold mark_of.
  pose proof (ty_case p 0 Hp ltac:(lia)) as T0. pose proof (ty_case p 1 Hp ltac:(lia)) as T1. pose proof (ty_case p 2 Hp ltac:(lia)) as T2. unfold PLInf.ty in *. destruct (nth p types []) as [|a [|b [|c [|]]]]; try discriminate. cbn in T0, T1, T2.
  destruct e as [|[|[|e]]]; [| | |lia]; cbn [Nat.add Nat.modulo Nat.divmod fst snd Nat.sub nth];
  destruct T0 as [Q0|[Q0|[Q0|[Q0|[Q0|[]]]]]]; destruct T1 as [Q1|[Q1|[Q1|[Q1|[Q1|[]]]]]]; subst a b; cbn; try (left; discriminate); try (right; discriminate);
  destruct T2 as [Q2|[Q2|[Q2|[Q2|[Q2|[]]]]]]; subst c; cbn in C1, C2 |- *; try discriminate; try (left; discriminate); try (right; discriminate).
Qed.
Lemma idx_surj i : (i < dim)%nat -> exists p e b, (p < n)%nat /\ (e < 3)%nat /\ (b < 2)%nat /\ i = idx p e b.
Proof.
  intros H. exists (i / 6)%nat, (i mod 6 / 2)%nat, (i mod 2)%nat.
  pose proof (Nat.div_mod i 6 ltac:(lia)) as D. pose proof (Nat.mod_upper_bound i 6 ltac:(lia)). pose proof (Nat.div_mod (i mod 6) 2 ltac:(lia)) as D2. pose proof (Nat.mod_upper_bound (i mod 6) 2 ltac:(lia)).
  assert (Q : (i mod 2 = i mod 6 mod 2)%nat). { rewrite D at 1. replace (6 * (i / 6) + i mod 6)%nat with (i mod 6 + (3 * (i / 6)) * 2)%nat by lia. now rewrite Nat.mod_add. }
  unfold idx. rewrite Q. repeat split; try lia. 
Qed.
Definition bound (c y : K) : Prop := 0 <= c * y /\ 0 <= - c * y + 1.
Lemma signs_ok : exists l, li_signs t = Ok l /\ ((forall f, In f l -> 0 <= form_eval dim f x) <->
  (forall p e, (p < n)%nat -> (e < 3)%nat -> has_marking (mark p e) (E p ((e + 2) mod 3)%nat) (E p e)) /\
  (forall p e, (p < n)%nat -> (e < 3)%nat -> - (1) <= fst (E p e) /\ fst (E p e) <= 1 /\ - (1) <= snd (E p e) /\ snd (E p e) <= 1)).
Proof.
  unfold li_signs. rewrite (n_ok n ids types t MK), (dim_ok n ids types t MK).
  destruct (loop_ok (seq 0 n) (fun _ => None)) as (s & S & F & _); [intros p Hp; apply in_seq in Hp; lia|]. rewrite S. cbn [bind].
  assert (SF : forall p e b, (p < n)%nat -> (e < 3)%nat -> (b < 2)%nat -> sign_facts p e b (s (idx p e b))) by (intros; apply F; auto; apply in_seq; lia).
  assert (OS : forall p e, (p < n)%nat -> (e < 3)%nat -> mark p e <> MNone -> exists v, osign (ty p e) = Some v).
  { intros p e Hp He N. rewrite mark_ty in N. pose proof (ty_case p e Hp He) as T. cbn [In] in T. destruct T as [Q|[Q|[Q|[Q|[Q|[]]]]]]; rewrite <- Q in *; cbn in *; [congruence|eauto..]. }
  assert (IS : forall p e, (p < n)%nat -> (e < 3)%nat -> mark p e <> MNone -> exists v, isign (ty p e) = Some v).
  { intros p e Hp He N. rewrite mark_ty in N. pose proof (ty_case p e Hp He) as T. cbn [In] in T. destruct T as [Q|[Q|[Q|[Q|[Q|[]]]]]]; rewrite <- Q in *; cbn in *; [congruence|eauto..]. }
  assert (M3 : forall e, ((e + 1) mod 3 < 3)%nat) by (intros; apply Nat.mod_upper_bound; lia).
  assert (TOT : forall i, (i < dim)%nat -> exists c, s i = Some c).
  { intros i Hi. destruct (idx_surj i Hi) as (p & e & b & Hp & He & Hb & ->). destruct (SF p e b Hp He Hb) as [F1 F2].
    destruct (typed_end p e Hp He) as [N|N]; [destruct (OS p e Hp He N) as [v V]; rewrite F1, V by auto; cbn; eauto|destruct (IS p _ Hp (M3 e) N) as [v V]; rewrite F2, V by auto; cbn; eauto]. }
  assert (CO : forall i c, (i < dim)%nat -> s i = Some c -> exists l, sign_and_norm_conditions dim i (s i) = Ok l /\ ((forall f, In f l -> 0 <= form_eval dim f x) <-> bound c (x i))).
  { intros i c Hi Hc. rewrite Hc. unfold sign_and_norm_conditions. destruct (linear1 dim i c x Hi) as (f & F1 & F2). destruct (linear1c dim i (- c) x Hi) as (g & G1 & G2). rewrite F1. cbn [bind]. rewrite G1. cbn [bind].
    eexists. split; [reflexivity|]. unfold bound. split.
    - intros H. split; [rewrite <- F2; apply H; now left|rewrite <- G2; apply H; right; now left].
    - intros [H H'] h [<-|[<-|[]]]; congruence. }
  destruct (rmap_total (fun i => sign_and_norm_conditions dim i (s i)) (seq 0 dim)) as [l L].
  { intros i Hi. apply in_seq in Hi. destruct (TOT i ltac:(lia)) as [c Hc]. destruct (CO i c ltac:(lia) Hc) as (l & L & _). eauto. }
  rewrite L. cbn [bind]. eexists. split; [reflexivity|].
  assert (B : (forall f, In f (concat l) -> 0 <= form_eval dim f x) <-> forall i c, (i < dim)%nat -> s i = Some c -> bound c (x i)).
  { split.
    - intros H i c Hi Hc. destruct (CO i c Hi Hc) as (l' & L' & C). apply C. intros f Hf. apply H. apply in_concat. exists l'. split; auto.
      assert (NE : nth_error (seq 0 dim) i = Some i) by (rewrite (nth_error_nth' _ 0%nat) by (now rewrite seq_length); now rewrite seq_nth).
      destruct (rmap_nth _ _ _ _ _ L NE) as (y & Y1 & Y2). rewrite L' in Y2. injection Y2 as <-. now apply nth_error_In in Y1.
    - intros H f Hf. apply in_concat in Hf. destruct Hf as (l' & Hl & Hf). destruct (rmap_In _ _ _ _ L Hl) as (i & Hi & L'). apply in_seq in Hi. destruct (TOT i ltac:(lia)) as [c Hc].
      destruct (CO i c ltac:(lia) Hc) as (l'' & L'' & C). rewrite L' in L''. injection L'' as <-. apply C; auto. apply H; auto. lia. }
  rewrite B. clear B CO L l.
  assert (ID : forall p e b, (p < n)%nat -> (e < 3)%nat -> (b < 2)%nat -> (idx p e b < dim)%nat) by (unfold idx; lia).
  assert (E0 : forall p e, fst (E p e) = x (idx p e 0)) by (intros; unfold PLInf.E, idx; cbn [fst]; f_equal; lia).
  assert (E1 : forall p e, snd (E p e) = x (idx p e 1)) by reflexivity.
  split.
  - intros H.
    assert (HO : forall p e v, (p < n)%nat -> (e < 3)%nat -> mark p e <> MNone -> osign (ty p e) = Some v -> bound (fst v) (fst (E p e)) /\ bound (snd v) (snd (E p e))).
    { intros p e v Hp He N V. rewrite E0, E1. split; apply H; auto; [destruct (SF p e 0%nat Hp He ltac:(lia)) as [F1 _]|destruct (SF p e 1%nat Hp He ltac:(lia)) as [F1 _]]; rewrite F1, V by auto; reflexivity. }
    assert (HI : forall p e v, (p < n)%nat -> (e < 3)%nat -> mark p ((e + 1) mod 3)%nat <> MNone -> isign (ty p ((e + 1) mod 3)%nat) = Some v -> bound (fst v) (fst (E p e)) /\ bound (snd v) (snd (E p e))).
    { intros p e v Hp He N V. rewrite E0, E1. split; apply H; auto; [destruct (SF p e 0%nat Hp He ltac:(lia)) as [_ F1]|destruct (SF p e 1%nat Hp He ltac:(lia)) as [_ F1]]; rewrite F1, V by auto; reflexivity. }
    split.
    + intros p e Hp He. assert (M : (((e + 2) mod 3 + 1) mod 3 = e)%nat) by (destruct e as [|[|[|]]]; cbn; lia). assert (M' : ((e + 2) mod 3 < 3)%nat) by (apply Nat.mod_upper_bound; lia).
      pose proof (HO p e) as O. pose proof (HI p ((e + 2) mod 3)%nat) as I'. rewrite M in I'. unfold has_marking. rewrite mark_ty in *. unfold bound in *.
      pose proof (ty_case p e Hp He) as T. cbn [In] in T. destruct T as [Q|[Q|[Q|[Q|[Q|[]]]]]]; rewrite <- Q in *; cbn [Z.eqb Pos.eqb osign isign] in *; auto;
        destruct (O _ Hp He ltac:(discriminate) eq_refl) as [[O1 O2] [O3 O4]]; destruct (I' _ Hp M' ltac:(discriminate) eq_refl) as [[I1 I2] [I3 I4]]; cbn [fst snd] in *; repeat split; flra.
    + intros p e Hp He. unfold bound in *. destruct (typed_end p e Hp He) as [N|N].
      * destruct (OS p e Hp He N) as [v V]. destruct (HO p e v Hp He N V) as [[O1 O2] [O3 O4]]. unfold osign in V. repeat match type of V with context [if ?c then _ else _] => destruct c end; try discriminate; injection V as <-; cbn [fst snd] in *; repeat split; flra.
      * destruct (IS p _ Hp (M3 e) N) as [v V]. destruct (HI p e v Hp He N V) as [[O1 O2] [O3 O4]]. unfold isign in V. repeat match type of V with context [if ?c then _ else _] => destruct c end; try discriminate; injection V as <-; cbn [fst snd] in *; repeat split; flra.
  - intros [HM HB] i c Hi Hc. destruct (idx_surj i Hi) as (p & e & b & Hp & He & Hb & ->). destruct (SF p e b Hp He Hb) as [F1 F2]. destruct (HB p e Hp He) as (B1 & B2 & B3 & B4). rewrite Hc in F1, F2. clear Hc.
    assert (XB : x (idx p e b) = match b with O => fst (E p e) | _ => snd (E p e) end) by (destruct b as [|[|b]]; [now rewrite E0|now rewrite E1|lia]).
    unfold bound. rewrite XB. destruct (typed_end p e Hp He) as [N|N].
    + specialize (F1 N). pose proof (HM p e Hp He) as M. unfold has_marking in M. rewrite mark_ty in M, N. pose proof (ty_case p e Hp He) as T. cbn [In] in T.
      destruct T as [Q|[Q|[Q|[Q|[Q|[]]]]]]; rewrite <- Q in *; cbn [Z.eqb Pos.eqb osign over] in *; [congruence|..]; destruct M as (M1 & M2 & M3' & M4); injection F1 as ->; destruct b as [|[|b]]; try lia; cbn [pick fst snd]; split; flra.
    + specialize (F2 N). pose proof (HM p _ Hp (M3 e)) as M. assert (MM : (((e + 1) mod 3 + 2) mod 3 = e)%nat) by (destruct e as [|[|[|]]]; cbn; lia). rewrite MM in M. unfold has_marking in M. rewrite mark_ty in M, N. pose proof (ty_case p _ Hp (M3 e)) as T. cbn [In] in T.
      destruct T as [Q|[Q|[Q|[Q|[Q|[]]]]]]; rewrite <- Q in *; cbn [Z.eqb Pos.eqb isign over] in *; [congruence|..]; destruct M as (M1 & M2 & M3' & M4); injection F2 as ->; destruct b as [|[|b]]; try lia; cbn [pick fst snd]; split; flra.
Qed.

(** ** pairs *)
Lemma pairs_ok from to : exists l, li_pairs from to t = Ok l /\ forall p e q f, In (p, e, q, f) l <->
  (p < n)%nat /\ (e < 3)%nat /\ ty p e = from /\ (q, f) = across opp p e /\ ty q f = to.
Proof.
  unfold li_pairs. rewrite (n_ok n ids types t MK).
  set (F := fun pe : nat * nat => let '(p1, e1) := pe in _).
  assert (FO : forall p e, (p < n)%nat -> (e < 3)%nat -> F (p, e) = Ok (if (ty p e =? from)%Z then (if (ty (fst (across opp p e)) (snd (across opp p e)) =? to)%Z then [(p, e, fst (across opp p e), snd (across opp p e))] else []) else [])).
  { intros p e Hp He. unfold F. rewrite (typ_ok n ids types t MK) by auto. cbn [bind]. destruct (ty p e =? from)%Z; auto.
    assert (M : ((e + 1) mod 3 < 3)%nat) by (apply Nat.mod_upper_bound; lia). rewrite (opp_ok n ids types t MK) by auto. cbn [bind]. unfold across. destruct (PR p _ Hp M) as (Q1 & Q2 & _). destruct (opp p ((e + 1) mod 3)%nat) as [q f]. cbn [fst snd] in *.
    rewrite (typ_ok n ids types t MK) by (auto; apply Nat.mod_upper_bound; lia). reflexivity. }
  rewrite (rmap_map F (fun pe => if (ty (fst pe) (snd pe) =? from)%Z then (if (ty (fst (across opp (fst pe) (snd pe))) (snd (across opp (fst pe) (snd pe))) =? to)%Z then [(fst pe, snd pe, fst (across opp (fst pe) (snd pe)), snd (across opp (fst pe) (snd pe)))] else []) else [])).
  - cbn [bind]. eexists. split; [reflexivity|]. intros p e q f. rewrite in_concat. split.
    + intros (l & Hl & I). apply in_map_iff in Hl. destruct Hl as ([p' e'] & <- & Hl). apply In_li_edges in Hl. destruct Hl as [Hp He]. cbn [fst snd] in I.
      destruct (Z.eqb_spec (ty p' e') from); [|destruct I]. destruct (Z.eqb_spec (ty (fst (across opp p' e')) (snd (across opp p' e'))) to) as [E2|]; [|destruct I]. destruct I as [I|[]]. injection I as <- <- <- <-. destruct (across opp p' e') as [a b]. cbn [fst snd] in *. auto.
    + intros (Hp & He & T1 & A & T2). eexists. split; [apply in_map_iff; exists (p, e); split; [reflexivity|now apply In_li_edges]|]. cbn [fst snd]. rewrite <- A. cbn [fst snd]. rewrite T1, T2, !Z.eqb_refl. now left.
  - intros [p e] I. apply In_li_edges in I. destruct I as [Hp He]. now apply FO.
Qed.
Lemma across_bounds p e : (p < n)%nat -> (e < 3)%nat -> (fst (across opp p e) < n)%nat /\ (snd (across opp p e) < 3)%nat /\ fst (across opp p e) <> p.
Proof.
  intros Hp He. assert (M : ((e + 1) mod 3 < 3)%nat) by (apply Nat.mod_upper_bound; lia). destruct (PR p _ Hp M) as (Q1 & Q2 & Q3 & Q4). unfold across. destruct (opp p ((e + 1) mod 3)%nat) as [q f]. cbn [fst snd] in *.
  split; auto. split; auto. apply Nat.mod_upper_bound. lia.
Qed.
Lemma bt_ok : exists l, li_bottom_top t = Ok l /\ ((forall f, In f l -> 0 <= form_eval dim f x) <->
  forall p e, (p < n)%nat -> (e < 3)%nat -> let '(q, f) := across opp p e in ty p e = V_BOT -> ty q f = V_TOP -> fst (E q ((f + 1) mod 3)%nat) <= snd (E p e) + snd (E q ((f + 2) mod 3)%nat)).
Proof.
  unfold li_bottom_top. destruct (pairs_ok V_BOT V_TOP) as (l & L & I). unfold bottom_top_pairs. rewrite L. cbn [bind]. rewrite (dim_ok n ids types t MK).
  assert (CO : forall p e q f, In (p, e, q, f) l -> exists g, bottom_top_delaunay_condition dim p e q f = Ok g /\ form_eval dim g x = snd (E p e) + snd (E q ((f + 2) mod 3)%nat) + - (1) * fst (E q ((f + 1) mod 3)%nat)).
  { intros p e q f H. apply I in H. destruct H as (Hp & He & _ & A & _). destruct (across_bounds p e Hp He) as (B1 & B2 & B3). rewrite <- A in B1, B2, B3. cbn [fst snd] in *.
    pose proof (Nat.mod_upper_bound (f + 2) 3 ltac:(lia)). pose proof (Nat.mod_upper_bound (f + 1) 3 ltac:(lia)).
    unfold bottom_top_delaunay_condition, PLInf.E. cbn [fst snd]. apply linear3; lia. }
  destruct (rmap_total (fun q => let '(p1, e1, p2, e2) := q in bottom_top_delaunay_condition (K := K) dim p1 e1 p2 e2) l) as [fs FS].
  { intros [[[p e] q] f] H. destruct (CO _ _ _ _ H) as (g & G & _). eauto. }
  rewrite FS. eexists. split; [reflexivity|]. split.
  - intros H p e Hp He. destruct (across opp p e) as [q f] eqn:A. intros T1 T2. assert (In (p, e, q, f) l) as IN by (apply I; auto). destruct (CO _ _ _ _ IN) as (g & G1 & G2).
    apply In_nth_error in IN. destruct IN as [k IN]. destruct (rmap_nth _ _ _ _ _ FS IN) as (y & Y1 & Y2). cbn beta iota in Y2. rewrite G1 in Y2. injection Y2 as <-. apply nth_error_In in Y1. specialize (H _ Y1). rewrite G2 in H. flra.
  - intros H g Hg. destruct (rmap_In _ _ _ _ FS Hg) as ([[[p e] q] f] & IN & G). destruct (CO _ _ _ _ IN) as (g' & G1 & G2). rewrite G in G1. injection G1 as <-. rewrite G2. apply I in IN. destruct IN as (Hp & He & T1 & A & T2).
    specialize (H p e Hp He). rewrite <- A in H. specialize (H T1 T2). flra.
Qed.
Lemma rl_total : exists l : list (form (K := K)), li_right_left t = Ok l.
Proof.
  unfold li_right_left. destruct (pairs_ok V_RIGHT V_LEFT) as (l & L & I). unfold right_left_pairs. rewrite L. cbn [bind]. rewrite (dim_ok n ids types t MK).
  apply rmap_total. intros [[[p e] q] f] H. apply I in H. destruct H as (Hp & He & _ & A & _). destruct (across_bounds p e Hp He) as (B1 & B2 & B3). rewrite <- A in B1, B2, B3. cbn [fst snd] in *.
  pose proof (Nat.mod_upper_bound (e + 2) 3 ltac:(lia)). pose proof (Nat.mod_upper_bound (f + 1) 3 ltac:(lia)).
  unfold right_left_delaunay_condition, linear. match goal with |- context [if ?b then _ else _] => assert (Q : b = true) end.
  { cbn [forallb fst]. rewrite !andb_true_iff, !Nat.leb_le. repeat split; lia. }
  rewrite Q. eauto.
Qed.

(** ** the Delaunay conditions *)
Hypothesis NZ : forall i, (i < dim)%nat -> x i <> 0.
Hypothesis MS : marked_surface n opp mark E.
Lemma E_nz p e : (p < n)%nat -> (e < 3)%nat -> fst (E p e) <> 0 /\ snd (E p e) <> 0.
Proof. intros. unfold PLInf.E. cbn [fst snd]. split; apply NZ; lia. Qed.
Lemma pos_of (a : K) : 0 <= a -> a <> 0 -> 0 < a. Proof. intros H N. destruct (fneq_lt a 0 N) as [Q|Q]; auto. exfalso. unfold fle, flt in *. congruence. Qed.
Lemma neg_of (a : K) : a <= 0 -> a <> 0 -> a < 0. Proof. intros H N. destruct (fneq_lt a 0 N) as [Q|Q]; auto. exfalso. unfold fle, flt in *. congruence. Qed.
Lemma mod3 e : (e < 3)%nat -> (((e + 1) mod 3 + 1) mod 3 = (e + 2) mod 3)%nat /\ (((e + 2) mod 3 + 1) mod 3 = e)%nat /\ (((e + 2) mod 3 + 2) mod 3 = (e + 1) mod 3)%nat.
Proof. intros. destruct e as [|[|[|]]]; cbn; lia. Qed.
Lemma tri_sum p e : (p < n)%nat -> (e < 3)%nat -> fst (E p e) + fst (E p ((e + 1) mod 3)%nat) + fst (E p ((e + 2) mod 3)%nat) = 0 /\ snd (E p e) + snd (E p ((e + 1) mod 3)%nat) + snd (E p ((e + 2) mod 3)%nat) = 0.
Proof.
  intros Hp He. pose proof (ms_close _ _ _ _ MS p Hp) as C. unfold vplus in C. apply pair_equal_spec in C. destruct C as [C1 C2]. cbn [fst snd] in C1, C2.
  destruct e as [|[|[|]]]; [| | |lia]; cbn [Nat.add Nat.modulo Nat.divmod fst snd Nat.sub]; split; try (rewrite <- C1; ring); rewrite <- C2; ring.
Qed.
Lemma bt_delaunay p e : (p < n)%nat -> (e < 3)%nat -> mark p e = MBottom -> mark (fst (across opp p e)) (snd (across opp p e)) = MTop ->
  (fst (E (fst (across opp p e)) ((snd (across opp p e) + 1) mod 3)%nat) <= snd (E p e) + snd (E (fst (across opp p e)) ((snd (across opp p e) + 2) mod 3)%nat) <-> edge_is_delaunay opp E p e).
Proof.
  intros Hp He M1 M2. destruct (across_bounds p e Hp He) as (B1 & B2 & B3). pose proof (ms_marked _ _ _ _ MS p e Hp He) as K1. rewrite M1 in K1. pose proof (ms_marked _ _ _ _ MS _ _ B1 B2) as K2. rewrite M2 in K2.
  assert (M : ((e + 1) mod 3 < 3)%nat) by (apply Nat.mod_upper_bound; lia). pose proof (ms_opposite _ _ _ _ MS p _ Hp M) as OP. destruct (PR p _ Hp M) as (Q1 & Q2 & _).
  unfold edge_is_delaunay, across in *. destruct (opp p ((e + 1) mod 3)%nat) as [q f]. cbn [fst snd] in *.
  assert (MF1 : ((f + 1) mod 3 < 3)%nat) by (apply Nat.mod_upper_bound; lia). assert (MF2 : ((f + 2) mod 3 < 3)%nat) by (apply Nat.mod_upper_bound; lia). assert (ME2 : ((e + 2) mod 3 < 3)%nat) by (apply Nat.mod_upper_bound; lia).
  destruct (mod3 f Q2) as (F1 & F2 & F3). rewrite F2, F3 in *.
  destruct (tri_sum p e Hp He) as [S1 S2]. destruct (tri_sum q f B1 Q2) as [S3 S4]. unfold vplus in OP. apply pair_equal_spec in OP. destruct OP as [O1 O2].
  destruct (E_nz p e Hp He) as [N1 N2]. destruct (E_nz p _ Hp ME2) as [N3 N4]. destruct (E_nz q _ B1 MF1) as [N5 N6]. destruct (E_nz q _ B1 MF2) as [N7 N8].
  destruct K1 as (P1 & P2 & P3 & P4). destruct K2 as (R1 & R2 & R3 & R4).
  apply pos_of in P1; auto. apply neg_of in P2; auto. apply pos_of in P3; auto. apply pos_of in P4; auto. apply neg_of in R1; auto. apply pos_of in R2; auto. apply neg_of in R3; auto. apply neg_of in R4; auto.
  unfold vplus. remember (E p e) as A. destruct A as [ax ay]. cbn [fst snd] in *.
  rewrite <- bt_square by flra. split; intros; flra.
Qed.
Lemma rl_delaunay p e : (p < n)%nat -> (e < 3)%nat -> mark p e = MRight -> mark (fst (across opp p e)) (snd (across opp p e)) = MLeft ->
  (snd (E (fst (across opp p e)) ((snd (across opp p e) + 1) mod 3)%nat) <= fst (E (fst (across opp p e)) (snd (across opp p e))) + fst (E p ((e + 2) mod 3)%nat) <-> edge_is_delaunay opp E p e).
Proof.
  intros Hp He M1 M2. destruct (across_bounds p e Hp He) as (B1 & B2 & B3). pose proof (ms_marked _ _ _ _ MS p e Hp He) as K1. rewrite M1 in K1. pose proof (ms_marked _ _ _ _ MS _ _ B1 B2) as K2. rewrite M2 in K2.
  assert (M : ((e + 1) mod 3 < 3)%nat) by (apply Nat.mod_upper_bound; lia). pose proof (ms_opposite _ _ _ _ MS p _ Hp M) as OP. destruct (PR p _ Hp M) as (Q1 & Q2 & _).
  unfold edge_is_delaunay, across in *. destruct (opp p ((e + 1) mod 3)%nat) as [q f]. cbn [fst snd] in *.
  assert (MF1 : ((f + 1) mod 3 < 3)%nat) by (apply Nat.mod_upper_bound; lia). assert (MF2 : ((f + 2) mod 3 < 3)%nat) by (apply Nat.mod_upper_bound; lia). assert (ME2 : ((e + 2) mod 3 < 3)%nat) by (apply Nat.mod_upper_bound; lia).
  destruct (mod3 f Q2) as (F1 & F2 & F3). rewrite F2, F3 in *.
  destruct (tri_sum p e Hp He) as [S1 S2]. destruct (tri_sum q f B1 Q2) as [S3 S4]. unfold vplus in OP. apply pair_equal_spec in OP. destruct OP as [O1 O2].
  destruct (E_nz p e Hp He) as [N1 N2]. destruct (E_nz p _ Hp ME2) as [N3 N4]. destruct (E_nz q _ B1 MF1) as [N5 N6]. destruct (E_nz q _ B1 MF2) as [N7 N8].
  destruct K1 as (P1 & P2 & P3 & P4). destruct K2 as (R1 & R2 & R3 & R4).
  apply pos_of in P1; auto. apply pos_of in P2; auto. apply neg_of in P3; auto. apply pos_of in P4; auto. apply neg_of in R1; auto. apply neg_of in R2; auto. apply pos_of in R3; auto. apply neg_of in R4; auto.
  unfold vplus. remember (E p e) as A. destruct A as [ax ay]. cbn [fst snd] in *.
  rewrite <- rl_square by flra. split; intros; flra.
Qed.
End P.
