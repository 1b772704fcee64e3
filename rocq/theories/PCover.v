(** Proofs about covers. *)
From Coq Require Import List Bool ZArith Arith Lia Permutation.
From Verif Require Import MBase MDict PDict MMut SMut PMut PMut2 PMut3 PGlue PBuild MRelabel PRelabel MCover SCover.
Import ListNotations.

(** ** permutations *)
Section Perm.
Variable d : nat.
Lemma perm_length p : Permutation p (seq 0 d) -> length p = d.
Proof. intros H. rewrite (Permutation_length H). apply seq_length. Qed.
Lemma perm_lt p i j : Permutation p (seq 0 d) -> nth_error p i = Some j -> i < d /\ j < d.
Proof.
  intros H E. split.
  - rewrite <- (perm_length p H). apply nth_error_Some. congruence.
  - apply nth_error_In in E. apply (Permutation_in _ H), in_seq in E. lia.
Qed.
Lemma perm_NoDup p : Permutation p (seq 0 d) -> NoDup p.
Proof. intros H. apply (Permutation_NoDup (Permutation_sym H)), seq_NoDup. Qed.
Lemma perm_inj p i i' j : Permutation p (seq 0 d) -> nth_error p i = Some j -> nth_error p i' = Some j -> i = i'.
Proof.
  intros H E E'. apply (proj1 (NoDup_nth_error p) (perm_NoDup p H)); [|congruence]. apply nth_error_Some. congruence.
Qed.
Lemma perm_surj p j : Permutation p (seq 0 d) -> j < d -> exists i, nth_error p i = Some j.
Proof. intros H L. apply In_nth_error. apply (Permutation_in _ (Permutation_sym H)), in_seq. lia. Qed.
Lemma papply_nth p i : Permutation p (seq 0 d) -> i < d -> nth_error p i = Some (papply p i).
Proof. intros H L. unfold papply. apply nth_error_nth'. now rewrite (perm_length p H). Qed.
Lemma pindex_nth p j : In j p -> nth_error p (pindex j p) = Some j.
Proof.
  induction p as [|k p IH]; intros H; [destruct H|]. cbn [pindex]. destruct (Nat.eqb_spec j k) as [->|N]; [reflexivity|].
  destruct H as [->|H]; [congruence|]. cbn. auto.
Qed.
Lemma pinv_nth p i j : Permutation p (seq 0 d) -> (nth_error (pinv p) j = Some i <-> nth_error p i = Some j).
Proof.
  intros H. unfold pinv. rewrite (perm_length p H). split.
  - intros E. destruct (Nat.lt_ge_cases j d) as [L|L].
    2:{ assert (nth_error (map (fun i => pindex i p) (seq 0 d)) j = None) by (apply nth_error_None; rewrite map_length, seq_length; auto). congruence. }
    rewrite nth_error_map, nth_error_seq_lt in E by auto. cbn in E. injection E as <-. apply pindex_nth.
    apply (Permutation_in _ (Permutation_sym H)), in_seq. lia.
  - intros E. destruct (perm_lt p i j H E) as [Li Lj]. rewrite nth_error_map, nth_error_seq_lt by auto. cbn. f_equal.
    apply (perm_inj p _ _ j H); auto. apply pindex_nth. eapply nth_error_In; eauto.
Qed.
Lemma perm_of_nth p : length p = d -> (forall i j, nth_error p i = Some j -> j < d) ->
  (forall i i' j, nth_error p i = Some j -> nth_error p i' = Some j -> i = i') -> Permutation p (seq 0 d).
Proof.
  intros L R I. apply NoDup_Permutation_bis.
  - apply NoDup_nth_error. intros i j Hi E. destruct (nth_error p i) as [x|] eqn:X; [|apply nth_error_Some in X; tauto].
    now apply (I i j x).
  - rewrite seq_length. lia.
  - intros x Hx. apply In_nth_error in Hx. destruct Hx as [i Hi]. apply in_seq. specialize (R i x Hi). lia.
Qed.
Lemma pinv_perm p : Permutation p (seq 0 d) -> Permutation (pinv p) (seq 0 d).
Proof.
  intros H. apply perm_of_nth.
  - unfold pinv. now rewrite map_length, seq_length, (perm_length p H).
  - intros i j E. apply (pinv_nth p j i H) in E. now apply (perm_lt p j i H).
  - intros i i' j E E'. apply (pinv_nth p _ _ H) in E, E'. congruence.
Qed.
Lemma is_one_spec p q : Permutation p (seq 0 d) -> Permutation q (seq 0 d) ->
  (is_one d (pmul p q) = true <-> forall i j, nth_error p i = Some j -> nth_error q j = Some i).
Proof.
  intros Hp Hq. unfold is_one. rewrite forallb_forall.
  assert (X : forall i, i < d -> papply (pmul p q) i = papply q (papply p i)).
  { intros i Hi. unfold pmul, papply at 1. pose proof (papply_nth p i Hp Hi) as E.
    apply nth_error_nth. now rewrite nth_error_map, E. }
  split.
  - intros H i j E. destruct (perm_lt p i j Hp E) as [Li Lj]. specialize (H i). rewrite in_seq in H.
    assert (E' := H ltac:(lia)). apply Nat.eqb_eq in E'. rewrite X in E' by auto. rewrite (papply_nth p i Hp Li) in E. injection E as E.
    rewrite E in E'. rewrite (papply_nth q j Hq Lj). now rewrite E'.
  - intros H i Hi. apply in_seq in Hi. apply Nat.eqb_eq. rewrite X by lia.
    pose proof (papply_nth p i Hp ltac:(lia)) as E. specialize (H _ _ E).
    destruct (perm_lt p _ _ Hp E) as [_ Lj]. rewrite (papply_nth q _ Hq Lj) in H. congruence.
Qed.
End Perm.

Section C.
Context {P : Type} (nv : P -> nat).
Notation surf := (@surf P).
Local Open Scope Z_scope.

(** ** gluing pairs *)
Lemma glue_pairs ps (s : surf) : inv nv s -> mutable s = true -> sep s -> cov s ->
  (forall z, gz (gluings s) z = None) ->
  (forall x y y', In (x, y) ps \/ In (y, x) ps -> In (x, y') ps \/ In (y', x) ps -> y = y') ->
  (forall x y, In (x, y) ps -> inrange (gluings s) x /\ inrange (gluings s) y) ->
  exists s', mfor ps (fun xy => glue nv (fst xy) (snd xy)) s = (s', Ok tt) /\ inv nv s' /\ frame s s' /\ sep s' /\ cov s' /\
    (roots_ s = nil -> roots_ s' = nil) /\
    forall x y, gz (gluings s') x = Some y <-> In (x, y) ps \/ In (y, x) ps.
Proof.
  intros Iv Mu SE CO NG FU RG.
  set (qs := ps ++ map (fun xy => (snd xy, fst xy)) ps).
  assert (Hq : forall x y, In (x, y) qs <-> In (x, y) ps \/ In (y, x) ps).
  { intros x y. unfold qs. rewrite in_app_iff, in_map_iff. split; intros [H|H]; auto.
    - destruct H as [[a b] [[= <- <-] H]]. auto.
    - right. exists (y, x). auto. }
  set (h := fun x : hedge => match List.find (fun xy => eqb x (fst xy)) qs with Some xy => Some (snd xy) | None => None end).
  assert (Hh : forall x y, h x = Some y <-> In (x, y) qs).
  { intros x y. unfold h. split.
    - destruct (List.find _ qs) as [[x' y']|] eqn:F; [|discriminate]. intros [= <-]. apply find_some in F. cbn [fst snd] in *.
      destruct F as [F1 F2]. apply (eqb_ok x x') in F2. subst. auto.
    - intros X. destruct (List.find _ qs) as [[x' y']|] eqn:F.
      + apply find_some in F. cbn [fst snd] in *. destruct F as [F1 F2]. apply (eqb_ok x x') in F2. subst. f_equal.
        apply Hq in F1, X. eapply FU; eauto.
      + pose proof (find_none _ _ F _ X) as Y. cbn [fst] in Y. rewrite eqb_refl in Y. discriminate. }
  destruct (glue_list nv h ps s Iv Mu SE CO) as [s' [E [I' [F [S' [C' [R' G']]]]]]].
  { intros x y X. destruct (RG x y X) as [A B]. split; auto. split; auto. split; apply Hh, Hq; auto. }
  exists s'. split; [exact E|]. split; [exact I'|]. split; [exact F|]. split; [exact S'|]. split; [exact C'|]. split; [exact R'|].
  intros x y. rewrite G', NG. destruct (touched ps x) eqn:T; [rewrite Hh; apply Hq|]. split; [discriminate|]. intros X. exfalso.
  assert (touched ps x = true) by (apply touched_In; destruct X; eauto). congruence.
Qed.

(** ** adding the polygons *)
Lemma cover_add_spec (s : surf) ks : forall cl st, inv nv st -> mutable st = true -> sep st -> NoDup ks ->
  (forall k, In k ks -> is_label s (fst k)) ->
  exists cl' items st', cover_add nv s ks cl st = (st', Ok cl') /\ inv nv st' /\ mutable st' = true /\ connected st' = connected st /\ sep st' /\
    polys st' = polys st ++ items /\ (forall y, gz (gluings st') y = gz (gluings st) y) /\ (roots_ st = nil -> roots_ st' = nil) /\
    NoDup (map fst items) /\ (forall l, In l (map fst items) -> ~ In l (keys (polys st))) /\
    Forall2 (fun k lp => dget k cl' = Some (fst lp) /\ get_polygon s (fst k) = Ok (snd lp)) ks items /\
    (forall k, ~ In k ks -> dget k cl' = dget k cl) /\ (reachable nv st -> reachable nv st').
Proof.
  induction ks as [|k ks IH]; intros cl st Iv Mu SE ND LB; cbn [cover_add].
  - exists cl, nil, st. rewrite app_nil_r. do 8 (split; [auto|]). split; [constructor|]. split; [intros l []|]. split; [constructor|]. auto.
  - inversion ND as [|? ? Nk ND']; subst. destruct (LB k (or_introl eq_refl)) as [p Ep].
    rewrite (mbind_ok _ _ st st p) by (unfold mlift; now rewrite Ep).
    destruct (add_polygon_spec nv st p None Iv) as [s1 [r [E [I1 [M1 [C1 [S1 [G1 [_ Q]]]]]]]]].
    destruct (Q Mu) as [[l' [-> [NK [_ [_ [PE RE]]]]]]|[l' [X _]]]; [|discriminate].
    rewrite (mbind_ok _ _ _ _ _ E).
    destruct (IH (dset k l' cl) s1) as (cl' & items & st' & E' & I' & M' & C' & S' & P' & G' & R' & N' & D' & F' & O' & RE'); auto.
    { congruence. } { intros k' Hk'. apply LB. cbn. auto. }
    exists cl', ((l', p) :: items), st'. do 3 (split; [auto|]). split; [congruence|]. split; [auto|].
    split; [now rewrite P', PE, <- app_assoc|]. split; [intros y; now rewrite G', G1|].
    split. { intros X. apply R'. rewrite RE, X. reflexivity. }
    assert (KE : keys (polys s1) = keys (polys st) ++ [l']) by (rewrite PE; unfold keys; now rewrite map_app).
    split. { cbn [map fst]. constructor; auto. intros X. apply D' in X. apply X. rewrite KE. apply in_or_app. cbn. auto. }
    split. { cbn [map fst]. intros l [<-|X]; auto. apply D' in X. rewrite KE in X. intros Y. apply X, in_or_app. auto. }
    split. { constructor; auto. cbn [fst snd]. split; auto. rewrite O' by auto. rewrite dget_dset, eqb_refl. reflexivity. }
    split. { intros k' Hk'. rewrite O' by (intros X; apply Hk'; cbn; auto). rewrite dget_dset.
      destruct (eqb_case k' k) as [[Z W]|[Z W]]; rewrite Z; auto. exfalso. apply Hk'. cbn. auto. }
    intros X. apply RE'. change s1 with (fst (s1, Ok l')). rewrite <- E. apply pres_add. auto.
Qed.

(** ** the loop *)
Section Loop.
Variables (s : surf) (d : nat) (data : dict hedge perm).
Hypothesis GD : good nv s.
Notation opp x y := (gz (gluings s) x = Some y).

(** the pairs of edges with their permutations, and whether there are no permutations in the end *)
Fixpoint plan (fuel : nat) (es : list hedge) : list (hedge * hedge * perm) * bool :=
  match es, fuel with
  | x :: es, Datatypes.S fuel =>
    match gz (gluings s) x with
    | None => (nil, false)
    | Some y =>
      match cover_perm d data x y with
      | Err _ => (nil, true)
      | Ok p => let r := plan fuel (filter (fun z => negb (eqb z y)) es) in ((x, y, p) :: fst r, snd r)
      end
    end
  | _, _ => (nil, false)
  end.
Definition opens (es : list hedge) := NoDup es /\ forall x, In x es -> exists y, opp x y /\ x <> y /\ In y es /\ is_edge nv s x.
Lemma opens_step x y es : opens (x :: es) -> opp x y -> opens (filter (fun z => negb (eqb z y)) es) /\ In y es /\ x <> y /\
  (length (filter (fun z => negb (eqb z y)) es) <= length es)%nat.
Proof.
  intros [ND H] O. inversion ND as [|? ? Nx ND']; subst.
  assert (Hy : In y es /\ x <> y).
  { destruct (H x (or_introl eq_refl)) as [y' [O' [N [I' _]]]]. rewrite O in O'. injection O' as <-. destruct I' as [->|I']; [congruence|auto]. }
  split; [|split; [tauto|]; split; [tauto|]]. 2:{ clear. induction es as [|z es IH]; cbn [filter length]; auto. destruct (negb _); cbn [length]; lia. }
  split; [now apply NoDup_filter|].
  intros z Hz. apply filter_In in Hz. destruct Hz as [Hz Nz]. apply negb_true_iff, eqb_neq in Nz.
  destruct (H z (or_intror Hz)) as [w [O' [N [I' Ed]]]]. exists w. split; auto. split; auto. split; auto.
  apply filter_In. destruct I' as [<-|I'].
  - exfalso. apply Nz. apply (i_inv nv s (g_inv nv s GD)) in O'. congruence.
  - split; auto. apply negb_true_iff, eqb_neq. intros ->. apply (i_inv nv s (g_inv nv s GD)) in O', O.
    assert (z = x) by congruence. subst. apply Nx. auto.
Qed.
Lemma plan_In fuel : forall es x y p, opens es -> In (x, y, p) (fst (plan fuel es)) ->
  In x es /\ In y es /\ opp x y /\ x <> y /\ cover_perm d data x y = Ok p.
Proof.
  induction fuel as [|fuel IH]; intros [|a es] x y p OP; cbn [plan fst]; try (intros []).
  destruct (gz (gluings s) a) as [b|] eqn:O; [|intros []].
  destruct (cover_perm d data a b) as [q|] eqn:Q; [|intros []]. cbn [fst].
  destruct (opens_step a b es OP O) as [OP' [Ib [N _]]].
  intros [[= <- <- <-]|H].
  - cbn. auto.
  - apply IH in H; auto. destruct H as (A & B & C & D & E). apply filter_In in A, B. cbn. tauto.
Qed.
Lemma plan_disjoint fuel : forall es x y p x' y' p', opens es -> In (x, y, p) (fst (plan fuel es)) -> In (x', y', p') (fst (plan fuel es)) ->
  (x = x' \/ x = y' \/ y = x' \/ y = y') -> (x, y, p) = (x', y', p').
Proof.
  induction fuel as [|fuel IH]; intros [|a es] x y p x' y' p' OP; cbn [plan fst]; try (intros []).
  destruct (gz (gluings s) a) as [b|] eqn:O; [|intros []].
  destruct (cover_perm d data a b) as [q|] eqn:Q; [|intros []]. cbn [fst].
  destruct (opens_step a b es OP O) as [OP' [Ib [N _]]].
  assert (NI : forall u v r, In (u, v, r) (fst (plan fuel (filter (fun z => negb (eqb z b)) es))) -> u <> a /\ u <> b /\ v <> a /\ v <> b).
  { intros u v r H. destruct (plan_In _ _ _ _ _ OP' H) as (A & B & _). apply filter_In in A, B.
    destruct A as [A A'], B as [B B']. apply negb_true_iff, eqb_neq in A', B'. destruct OP as [ND _]. inversion ND; subst.
    split; [intros ->; tauto|]. split; auto. split; [intros ->; tauto|auto]. }
  intros [[= <- <- <-]|H] [[= <- <- <-]|H'] E; auto.
  - apply NI in H'. intuition congruence.
  - apply NI in H. intuition congruence.
  - eapply IH; eauto.
Qed.
Lemma plan_all fuel : forall es z, opens es -> (length es <= fuel)%nat -> snd (plan fuel es) = false -> In z es ->
  exists x y p, In (x, y, p) (fst (plan fuel es)) /\ (z = x \/ z = y).
Proof.
  induction fuel as [|fuel IH]; intros [|a es] z OP L F Hz; try (destruct Hz; fail).
  - cbn in L. lia.
  - cbn [plan] in *. destruct (proj2 OP a (or_introl eq_refl)) as [b [O _]]. rewrite O in *.
    destruct (cover_perm d data a b) as [q|] eqn:Q; [|discriminate]. cbn [fst snd] in *.
    destruct (opens_step a b es OP O) as [OP' [Ib [N L']]]. cbn [length] in L.
    destruct (eqb_case z b) as [[_ Zb]|[Zb' Zb]]. { exists a, b, q. cbn. auto. }
    destruct Hz as [<-|Hz]. { exists a, b, q. cbn. auto. }
    destruct (IH (filter (fun z => negb (eqb z b)) es) z) as [x [y [p [A B]]]]; auto; [lia| |].
    { apply filter_In. split; auto. now rewrite Zb'. }
    exists x, y, p. cbn. auto.
Qed.
Lemma plan_flag fuel : forall es, opens es -> snd (plan fuel es) = true ->
  exists x y e, In x es /\ opp x y /\ cover_perm d data x y = Err e.
Proof.
  induction fuel as [|fuel IH]; intros [|a es] OP F; cbn [plan snd] in F; try discriminate.
  destruct (gz (gluings s) a) as [b|] eqn:O; [|discriminate].
  destruct (cover_perm d data a b) as [q|e] eqn:Q.
  - cbn [snd] in F. destruct (opens_step a b es OP O) as [OP' _]. destruct (IH _ OP' F) as [x [y [e [A B]]]].
    apply filter_In in A. exists x, y, e. cbn. tauto.
  - exists a, b, e. cbn. auto.
Qed.

(** lifting pairs of edges *)
Definition lifts (f : label -> nat -> label) (t : hedge * hedge * perm) : list (hedge * hedge) :=
  map (fun i => ((f (fst (fst (fst t))) i, snd (fst (fst t))), (f (fst (fst (fst t))) (papply (snd t) i), snd (snd (fst t))))) (seq 0 d).
Lemma loop_plan f cl : forall fuel es st, opens es -> (length es <= fuel)%nat -> permutations d data ->
  (forall l i, is_label s l -> (i < d)%nat -> dget (l, i) cl = Some (f l i)) ->
  cover_loop nv s d data fuel cl es st =
  mbind (mfor (flat_map (lifts f) (fst (plan fuel es))) (fun xy => glue nv (fst xy) (snd xy)))
        (fun _ => if snd (plan fuel es) then mraise ValueError else mret tt) st.
Proof.
  intros fuel. induction fuel as [|fuel IH]; intros [|a es] st OP L PM CL; try (cbn; reflexivity).
  - cbn in L. lia.
  - cbn [cover_loop plan]. destruct (proj2 OP a (or_introl eq_refl)) as [b [O [N [Ib Ea]]]]. rewrite O.
    assert (OE : opposite_edge s (fst a) (snd a) = Ok (Some b)).
    { apply (glued_gz nv s a b (g_inv nv s GD)) in O. apply O. }
    rewrite (mbind_ok _ _ st st (Some b)) by (unfold mlift; now rewrite OE).
    destruct (opens_step a b es OP O) as [OP' [Ib' [_ L']]].
    rewrite (proj2 (mem_In b es) Ib'). rewrite (mbind_ok _ _ st st tt) by reflexivity.
    assert (PO : forall p, cover_perm d data a b = Ok p -> Permutation p (seq 0 d)).
    { intros p. unfold cover_perm. destruct (dget a data) as [q|] eqn:Da; destruct (dget b data) as [r|] eqn:Db.
      - destruct (is_one _ _); [|discriminate]. intros [= <-]. eauto.
      - intros [= <-]. eauto.
      - intros [= <-]. apply pinv_perm. eauto.
      - intros [= <-]. auto. }
    assert (ER : forall e, cover_perm d data a b = Err e -> e = ValueError).
    { intros e. unfold cover_perm. destruct (dget a data), (dget b data); try discriminate. destruct (is_one _ _); [discriminate|]. congruence. }
    destruct (cover_perm d data a b) as [p|e] eqn:Q.
    2:{ rewrite (mbind_err _ _ st st e) by reflexivity. cbn. rewrite (ER e eq_refl). reflexivity. }
    rewrite (mbind_ok _ _ st st p) by reflexivity. cbn [fst snd flat_map].
    assert (MF : forall st', mfor (seq 0 d) (cover_glue nv cl a b p) st' = mfor (lifts f (a, b, p)) (fun xy => glue nv (fst xy) (snd xy)) st').
    { intros st'. unfold lifts. rewrite mfor_map. apply mfor_ext. intros i s' Hi. apply in_seq in Hi. unfold cover_glue. cbn [fst snd].
      destruct Ea as [pa [Ea _]].
      assert (Hl : is_label s (fst a)) by (now exists pa).
      rewrite (mbind_ok _ _ s' s' (f (fst a) i)) by (unfold mlift, dgetE; rewrite CL by (auto; lia); reflexivity).
      rewrite (mbind_ok _ _ s' s' (f (fst a) (papply p i))); [reflexivity|]. unfold mlift, dgetE. rewrite CL; auto.
      apply (perm_lt d p i); [auto|]. apply papply_nth with (d := d); [auto|lia]. }
    unfold mbind at 1. rewrite MF. unfold mbind at 1. rewrite mfor_app. unfold mbind at 1.
    destruct (mfor (lifts f (a, b, p)) _ st) as [s1 [[]|e]]; [|reflexivity].
    rewrite IH; [reflexivity|auto|cbn [length] in L; lia|auto|auto].
Qed.
End Loop.

(** the permutation that is used for a pair of edges is the one that was asked for *)
Lemma cover_perm_moves (s : surf) d data x y p i : permutations d data -> cover_perm d data x y = Ok p -> (i < d)%nat ->
  Permutation p (seq 0 d) /\ (papply p i < d)%nat /\ moves data x y i (papply p i) /\ moves data y x (papply p i) i.
Proof.
  intros PM E Hi.
  assert (A : Permutation p (seq 0 d) /\ (forall j, nth_error p i = Some j -> moves data x y i j /\ moves data y x j i)).
  { unfold cover_perm in E. unfold moves. destruct (dget x data) as [q|] eqn:Dx; destruct (dget y data) as [r|] eqn:Dy.
    - destruct (is_one d (pmul q r)) eqn:O; [|discriminate]. injection E as <-. split; eauto.
      intros j Hj. split; auto. eapply is_one_spec with (d := d) (p := q); eauto.
    - injection E as <-. split; eauto.
    - injection E as <-. split; [apply pinv_perm; eauto|]. intros j Hj. apply (proj1 (pinv_nth d r j i (PM _ _ Dy))) in Hj. auto.
    - injection E as <-. split; auto. intros j Hj. rewrite nth_error_seq_lt in Hj by auto. injection Hj as <-. auto. }
  destruct A as [A B]. pose proof (papply_nth d p i A Hi) as N. split; auto. split; [now apply (perm_lt d p i _ A N)|]. auto.
Qed.
Lemma cover_perm_consistent (s : surf) d data x y : good nv s -> permutations d data -> glued nv s x y ->
  (forall p q i j, dget x data = Some p -> dget y data = Some q -> nth_error p i = Some j -> nth_error q j = Some i) <->
  exists p, cover_perm d data x y = Ok p.
Proof.
  intros G PM GL. unfold cover_perm. destruct (dget x data) as [q|] eqn:Dx; destruct (dget y data) as [r|] eqn:Dy.
  - destruct (is_one d (pmul q r)) eqn:O.
    + split; eauto. intros _ p' q' i j [= <-] [= <-]. apply is_one_spec with (d := d); eauto.
    + split; [|intros [p E]; discriminate]. intros H. exfalso. assert (is_one d (pmul q r) = true); [|congruence].
      apply is_one_spec; eauto.
  - split; eauto; try discriminate.
  - split; eauto; try discriminate.
  - split; eauto; try discriminate.
Qed.

Section Main.
Variables (s : surf) (d : nat) (data : dict hedge perm) (order : list hedge -> list hedge).
Hypothesis GD : good nv s.
Hypothesis PM : permutations d data.
Hypothesis OR : forall es, Permutation (order es) es.
Hypothesis HE : forall x, is_edge nv s x -> exists y, glued nv s x y /\ x <> y /\ fst x = fst y.
Variables (es : list hedge) (ls : list label).
Hypothesis EE : iter_edges nv s = Ok es.
Hypothesis EN : NoDup es.
Hypothesis EI : forall x, In x es <-> is_edge nv s x.
Hypothesis EL : iter_labels nv s = Ok ls.
Hypothesis LN : NoDup ls.
Hypothesis LI : forall l, In l ls <-> is_label s l.

Lemma glued_edge x y : glued nv s x y -> is_edge nv s y.
Proof.
  intros H. apply (glued_gz nv s _ _ (g_inv nv s GD)) in H. apply (i_inv nv s (g_inv nv s GD)) in H.
  apply (glued_gz nv s _ _ (g_inv nv s GD)) in H. apply H.
Qed.
Lemma order_opens : opens s (order es) /\ (length (order es) <= length es)%nat.
Proof.
  split; [split|].
  - apply (Permutation_NoDup (Permutation_sym (OR es))); auto.
  - intros x Hx. apply (Permutation_in _ (OR es)), EI in Hx. destruct (HE x Hx) as [y [G [N _]]]. exists y.
    split; [now apply (glued_gz nv s _ _ (g_inv nv s GD))|]. split; auto. split; auto.
    apply (Permutation_in _ (Permutation_sym (OR es))), EI. now apply glued_edge in G.
  - rewrite (Permutation_length (OR es)). auto.
Qed.
Definition sheets : list (label * nat) := flat_map (fun i => map (fun l => (l, i)) ls) (seq 0 d).
Lemma In_sheets l i : In (l, i) sheets <-> is_label s l /\ (i < d)%nat.
Proof.
  unfold sheets. rewrite in_flat_map. split.
  - intros [j [Hj H]]. apply in_map_iff in H. destruct H as [l' [[= -> ->] H]]. apply in_seq in Hj. apply LI in H. split; auto. lia.
  - intros [H Hi]. exists i. split; [apply in_seq; lia|]. apply in_map_iff. exists l. split; auto. now apply LI.
Qed.
Lemma NoDup_sheets : NoDup sheets.
Proof.
  unfold sheets. clear - LN. generalize 0%nat. induction d as [|n IH]; intros a; cbn [seq flat_map]; [constructor|].
  apply NoDup_app_intro.
  - apply FinFun.Injective_map_NoDup; auto. intros u v [= ->]. reflexivity.
  - apply IH.
  - intros [l i] H H'. apply in_map_iff in H. destruct H as [l' [[= -> <-] _]]. apply in_flat_map in H'. destruct H' as [j [Hj H']].
    apply in_map_iff in H'. destruct H' as [l'' [[= -> ->] _]]. apply in_seq in Hj. lia.
Qed.
Lemma Forall2_in_l {A B} (R : A -> B -> Prop) l m x : Forall2 R l m -> In x l -> exists y, In y m /\ R x y.
Proof. induction 1; intros []; [subst; cbn; eauto|]. destruct IHForall2 as [y' []]; cbn; eauto. Qed.
Lemma Forall2_in_r {A B} (R : A -> B -> Prop) l m y : Forall2 R l m -> In y m -> exists x, In x l /\ R x y.
Proof. induction 1; intros []; [subst; cbn; eauto|]. destruct IHForall2 as [y' []]; cbn; eauto. Qed.

Theorem cover_main : (consistent nv s data -> exists c sheet, ramified_cover nv s d data order empty = (c, Ok tt) /\ intact nv c /\ mutable c = false /\
    covering nv s c d data sheet) /\
  (~ consistent nv s data -> exists c, ramified_cover nv s d data order empty = (c, Err ValueError)).
Proof.
  unfold ramified_cover.
  pose proof (mbind_ok (mlift (iter_edges nv s)) (fun es => (let! ls := mlift (iter_labels nv s) in
     let! cl := cover_add nv s (flat_map (fun i => map (fun l => (l, i)) ls) (seq 0 d)) nil in
     cover_loop nv s d data (length es) cl (order es) ;;; set_immutable nv)%M) empty empty es) as B1.
  rewrite B1 by (unfold mlift; now rewrite EE). clear B1.
  rewrite (mbind_ok _ _ empty empty ls) by (unfold mlift; now rewrite EL). fold sheets.
  assert (I0 : inv nv (@empty P)) by (constructor; cbn; try constructor; try easy).
  assert (S0 : sep (@empty P)) by (split; [constructor|intros r r' []]).
  destruct (cover_add_spec s sheets nil empty I0 eq_refl S0 NoDup_sheets) as
    (cl & items & s1 & E1 & I1 & M1 & C1 & S1 & P1 & G1 & R1 & N1 & _ & F1 & _ & RE1).
  { intros [l i] H. now apply In_sheets in H. }
  rewrite (mbind_ok _ _ _ _ _ E1). cbn in P1, C1. specialize (R1 eq_refl).
  set (f := fun l i => match dget (l, i) cl with Some k => k | None => 0 end).
  assert (Hf : forall l i, is_label s l -> (i < d)%nat -> dget (l, i) cl = Some (f l i) /\ exists p, In (f l i, p) items /\ get_polygon s l = Ok p).
  { intros l i Hl Hi. destruct (Forall2_in_l _ _ _ (l, i) F1) as [[k p] [A [B C]]]; [now apply In_sheets|]. cbn [fst snd] in *.
    unfold f. rewrite B. split; auto. exists p. auto. }
  assert (Hp : forall l i, is_label s l -> (i < d)%nat -> get_polygon s1 (f l i) = get_polygon s l).
  { intros l i Hl Hi. destruct (Hf l i Hl Hi) as [_ [p [A ->]]]. apply get_polygon_Ok. rewrite P1. now apply In_dget. }
  assert (Hinj : forall l l' i i', is_label s l -> is_label s l' -> (i < d)%nat -> (i' < d)%nat -> f l i = f l' i' -> l = l' /\ i = i').
  { clear - F1 N1 LI Hf. intros l l' i i' Hl Hl' Hi Hi' E.
    assert (K1 := In_sheets l i). assert (K2 := In_sheets l' i').
    assert (A : In (l, i) sheets) by tauto. assert (B : In (l', i') sheets) by tauto. clear K1 K2.
    assert (A' := proj1 (Hf l i Hl Hi)). assert (B' := proj1 (Hf l' i' Hl' Hi')). rewrite <- E in B'. clear E.
    cut ((l, i) = (l', i')); [intros [= -> ->]; auto|]. revert A B A' B' N1. generalize (l, i), (l', i'), (f l i). clear - F1.
    intros u v k. induction F1 as [|a b ks items0 [Ha _] F IH]; [intros []|]. cbn [map]. intros A B A' B' ND. inversion ND as [|? ? Nb ND']; subst.
    assert (X : forall w, In w ks -> dget w cl = Some (fst b) -> False).
    { intros w Hw E. apply Nb. destruct (Forall2_in_l _ _ _ w F Hw) as [y [Hy [Ey _]]]. rewrite E in Ey. injection Ey as ->. now apply in_map. }
    destruct A as [->|A], B as [->|B]; auto.
    - rewrite A' in Ha. injection Ha as ->. exfalso. now apply (X v).
    - rewrite B' in Ha. injection Ha as ->. exfalso. now apply (X u). }
  destruct order_opens as [OP OL].
  pose proof (loop_plan s d data GD f cl (length es) (order es) s1 OP OL PM (fun l i Hl Hi => proj1 (Hf l i Hl Hi))) as LP.
  set (pl := plan s d data (length es) (order es)) in *.
  assert (PI : forall x y p, In (x, y, p) (fst pl) -> glued nv s x y /\ x <> y /\ fst x = fst y /\ cover_perm d data x y = Ok p).
  { intros x y p H. destruct (plan_In s d data GD _ _ _ _ _ OP H) as (A & B & C & D & E).
    apply (glued_gz nv s _ _ (g_inv nv s GD)) in C. split; auto. split; auto. split; auto.
    apply (Permutation_in _ (OR es)), EI in A. destruct (HE x A) as [y' [G' [_ F']]].
    destruct G' as [_ G'], C as [_ C]. rewrite G' in C. injection C as <-. auto. }
  set (ps := flat_map (lifts d f) (fst pl)) in *.
  assert (PS : forall u v, In (u, v) ps <-> exists x y p i, In (x, y, p) (fst pl) /\ (i < d)%nat /\ u = (f (fst x) i, snd x) /\ v = (f (fst y) (papply p i), snd y)).
  { intros u v. unfold ps, lifts. rewrite in_flat_map. split.
    - intros [[[x y] p] [H H']]. apply in_map_iff in H'. destruct H' as [i [[= <- <-] Hi]]. apply in_seq in Hi. cbn [fst snd].
      exists x, y, p, i. split; auto. split; [lia|]. split; auto. destruct (PI x y p H) as (_ & _ & -> & _). reflexivity.
    - intros (x & y & p & i & H & Hi & -> & ->). exists (x, y, p). split; auto. apply in_map_iff. exists i. cbn [fst snd].
      destruct (PI x y p H) as (_ & _ & -> & _). split; auto. apply in_seq. lia. }
  assert (RGE : forall x i, is_edge nv s x -> (i < d)%nat -> inrange (gluings s1) (f (fst x) i, snd x)).
  { intros x i [q [Q X]] Hi. apply edge_inrange with (nv := nv); auto; [exact (i_tot nv s1 I1 M1)|]. exists q. cbn [fst snd].
    rewrite Hp; auto. exists q; auto. }
  destruct (glue_pairs ps s1 I1 M1 S1) as [s2 [E2 [I2 [F2 [S2 [_ [R2 G2]]]]]]].
  { left; auto. }
  { intros z. rewrite G1. reflexivity. }
  { assert (HL : forall x y p, In (x, y, p) (fst pl) -> is_label s (fst x) /\ is_label s (fst y)).
    { intros x y p H. destruct (PI x y p H) as (A & _). split; [exact (edge_label nv s x (proj1 A))|]. exact (edge_label nv s y (glued_edge x y A)). }
    assert (PP : forall x y p i, In (x, y, p) (fst pl) -> (i < d)%nat -> Permutation p (seq 0 d) /\ (papply p i < d)%nat).
    { intros x y p i H Hi. destruct (PI x y p H) as (_ & _ & _ & A). destruct (cover_perm_moves s d data x y p i PM A Hi) as (B & C & _). auto. }
    intros a b b' [H|H] [H'|H']; apply PS in H, H'; destruct H as (x & y & p & i & H & Hi & Ea & Eb);
      destruct H' as (x' & y' & p' & i' & H' & Hi' & Ea' & Eb'); subst;
      destruct (HL _ _ _ H), (HL _ _ _ H'), (PP _ _ _ i H Hi), (PP _ _ _ i' H' Hi');
      match goal with H : (f _ _, _) = (f _ _, _) |- _ => injection H as U V end; apply Hinj in U; auto; destruct U as [U W].
    - assert (X : (x, y, p) = (x', y', p')) by (eapply (plan_disjoint s d data GD); eauto; left; destruct x, x'; cbn in *; congruence).
      injection X as -> -> ->. subst. reflexivity.
    - assert (X : (x, y, p) = (x', y', p')) by (eapply (plan_disjoint s d data GD); eauto; right; left; destruct x, y'; cbn in *; congruence).
      injection X as -> -> ->. exfalso. destruct (PI _ _ _ H) as (_ & N & _). apply N. destruct x', y'; cbn in *; congruence.
    - assert (X : (x, y, p) = (x', y', p')) by (eapply (plan_disjoint s d data GD); eauto; right; right; left; destruct y, x'; cbn in *; congruence).
      injection X as -> -> ->. exfalso. destruct (PI _ _ _ H) as (_ & N & _). apply N. destruct x', y'; cbn in *; congruence.
    - assert (X : (x, y, p) = (x', y', p')) by (eapply (plan_disjoint s d data GD); eauto; right; right; right; destruct y, y'; cbn in *; congruence).
      injection X as -> -> ->. f_equal. f_equal.
      assert (Pp : Permutation p' (seq 0 d)) by tauto.
      pose proof (papply_nth d p' i Pp Hi) as N1'. pose proof (papply_nth d p' i' Pp Hi') as N2'. rewrite <- W in N2'.
      exact (perm_inj d p' i i' _ Pp N1' N2'). }
  { intros u v H. apply PS in H. destruct H as (x & y & p & i & H & Hi & -> & ->). destruct (PI _ _ _ H) as (A & _ & _ & B).
    destruct (cover_perm_moves s d data x y p i PM B Hi) as (_ & C & _). split; apply RGE; auto; [apply A|]. now apply glued_edge in A. }
  unfold mbind in LP at 1. rewrite E2 in LP.
  assert (FL : snd pl = false <-> consistent nv s data).
  { split.
    - intros F x y p q i j GL Dx Dy N.
      assert (Hx : In x (order es)). { apply (Permutation_in _ (Permutation_sym (OR es))), EI. apply GL. }
      destruct (plan_all s d data GD (length es) (order es) x OP OL F Hx) as (x' & y' & p' & HI & HO).
      fold pl in HI. destruct (PI _ _ _ HI) as (GL' & _ & _ & CP). destruct HO as [<- | <-].
      + assert (y = y') by (destruct GL as [_ A], GL' as [_ B]; congruence). subst y'.
        apply (proj2 (cover_perm_consistent s d data x y GD PM GL) (ex_intro _ _ CP) p q i j Dx Dy N).
      + assert (GS : glued nv s x x').
        { apply (glued_gz nv s _ _ (g_inv nv s GD)) in GL'. apply (i_inv nv s (g_inv nv s GD)) in GL'. now apply (glued_gz nv s _ _ (g_inv nv s GD)) in GL'. }
        assert (y = x') by (destruct GL as [_ A], GS as [_ B]; congruence). subst x'.
        pose proof (proj2 (cover_perm_consistent s d data y x GD PM GL') (ex_intro _ _ CP)) as K.
        destruct (perm_surj d q i (PM _ _ Dy)) as [k Hk]; [now apply (perm_lt d p i j (PM _ _ Dx) N)|].
        pose proof (K q p k i Dy Dx Hk) as K'. rewrite N in K'. injection K' as ->. exact Hk.
    - intros CO. destruct (snd pl) eqn:F; auto. exfalso.
      destruct (plan_flag s d data GD _ _ OP F) as (x & y & e & Hx & O & E).
      apply (glued_gz nv s _ _ (g_inv nv s GD)) in O.
      destruct (proj1 (cover_perm_consistent s d data x y GD PM O) (fun p q i j => CO x y p q i j O)) as [p E']. congruence. }
  split.
  - intros CO. rewrite (proj2 FL CO) in LP. unfold mret in LP.
    rewrite (mbind_ok _ _ _ _ _ LP).
    assert (M2 : mutable s2 = true) by (rewrite (f_mut _ _ F2); auto).
    assert (GG2 : good nv s2).
    { constructor; auto; [exact (i_tot nv s2 I2 M2)|congruence|]. rewrite (f_conn _ _ F2), C1. discriminate. }
    destruct (set_immutable_spec nv s2 GG2) as (c & rs & b & E3 & _ & Ec & GC). exists c, f.
    split; [exact E3|].
    assert (RE : reachable nv s2).
    { change s2 with (fst (s2, @Ok unit tt)). rewrite <- E2. apply pres_for.
      - intros [u v] H. apply PS in H. destruct H as (x & y & p & i & H & Hi & -> & ->). destruct (PI _ _ _ H) as (A & _ & _ & B). cbn [fst snd].
        destruct (glued_edge x y A) as [p2 [_ A3]]. destruct A as [[p1 [_ A1]] A2]. apply pres_glue; cbn; lia.
      - apply RE1. exists nil. split; [constructor|reflexivity]. }
    split. { change c with (fst (c, @Ok unit tt)). rewrite <- E3. 
      apply (intact_op nv s2 OpSetImmutable); [now apply reachable_intact|exact I|intros []]. }
    split; [subst c; reflexivity|].
    assert (Pc : polys c = items) by (subst c; cbn; rewrite (f_polys _ _ F2); auto).
    assert (Gc : gluings c = gluings s2) by (subst c; reflexivity).
    assert (Hpc : forall l i, is_label s l -> (i < d)%nat -> get_polygon c (f l i) = get_polygon s l).
    { intros l i Hl Hi. rewrite <- (Hp l i Hl Hi). unfold get_polygon. now rewrite Pc, P1. }
    constructor; auto.
    + intros k [p Hk]. apply get_polygon_Ok in Hk. rewrite Pc in Hk.
      assert (X : In k (map fst items)) by (apply dget_keys; eauto). apply in_map_iff in X. destruct X as [[k' p'] [<- X]].
      destruct (Forall2_in_r _ _ _ _ F1 X) as [[l i] [A [B C]]]. apply In_sheets in A. exists l, i. split; [tauto|]. split; [tauto|].
      cbn [fst] in *. unfold f. now rewrite B.
    + intros x y i GL Hi.
      assert (Hx : In x (order es)). { apply (Permutation_in _ (Permutation_sym (OR es))), EI. apply GL. }
      destruct (plan_all s d data GD (length es) (order es) x OP OL (proj2 FL CO) Hx) as (x' & y' & p' & HI & HO).
      fold pl in HI. destruct (PI _ _ _ HI) as (GL' & _ & _ & CP). destruct HO as [<- | <-].
      * assert (y = y') by (destruct GL as [_ A], GL' as [_ B]; congruence). subst y'.
        destruct (cover_perm_moves s d data x y p' i PM CP Hi) as (_ & A & B & _). exists (papply p' i). split; auto. split; auto.
        apply (glued_gz nv c _ _ (g_inv nv c GC)). rewrite Gc. apply G2. left. apply PS. exists x, y, p', i. auto.
      * assert (GS : glued nv s x x').
        { apply (glued_gz nv s _ _ (g_inv nv s GD)) in GL'. apply (i_inv nv s (g_inv nv s GD)) in GL'. now apply (glued_gz nv s _ _ (g_inv nv s GD)) in GL'. }
        assert (y = x') by (destruct GL as [_ A], GS as [_ B]; congruence). subst x'.
        assert (Pp : Permutation p' (seq 0 d)) by (destruct (cover_perm_moves s d data y x p' i PM CP Hi); auto).
        destruct (perm_surj d p' i Pp Hi) as [k Hk]. destruct (perm_lt d p' k i Pp Hk) as [Lk _].
        destruct (cover_perm_moves s d data y x p' k PM CP Lk) as (_ & A & _ & B).
        assert (KE : papply p' k = i) by (rewrite (papply_nth d p' k Pp Lk) in Hk; congruence). rewrite KE in B.
        exists k. split; auto. split; auto.
        apply (glued_gz nv c _ _ (g_inv nv c GC)). rewrite Gc. apply G2. right. apply PS. exists y, x, p', k. rewrite KE. auto.
  - intros NC. destruct (snd pl) eqn:F; [|exfalso; apply NC, FL; auto]. unfold mraise in LP.
    exists s2. now apply mbind_err.
Qed.
End Main.

(** ** the code never glues polygons that lie over polygons with different labels *)
Definition below (cl : dict (label * nat) label) (k l : label) := exists i, dget (l, i) cl = Some k.
Definition vertical (cl : dict (label * nat) label) (st : surf) :=
  forall u v, gz (gluings st) u = Some v -> exists l, below cl (fst u) l /\ below cl (fst v) l.
Lemma bind_inv {S A B} (m : M S A) (f : A -> M S B) st st' v : mbind m f st = (st', Ok v) ->
  exists st1 a, m st = (st1, Ok a) /\ f a st1 = (st', Ok v).
Proof. unfold mbind. destruct (m st) as [st1 [a|e]]; [|discriminate]. eauto. Qed.
Lemma lift_inv {S A} (r : res A) (st st' : S) v : mlift r st = (st', Ok v) -> st = st' /\ r = Ok v.
Proof. unfold mlift. intros [= <- ->]. auto. Qed.
Lemma cover_glue_vertical cl x y p i st st' : 0 <= snd x -> 0 <= snd y -> inv nv st -> sep st -> vertical cl st ->
  cover_glue nv cl x y p i st = (st', Ok tt) -> inv nv st' /\ sep st' /\ vertical cl st' /\ frame st st'.
Proof.
  intros X Y Iv Se V E. unfold cover_glue in E. apply bind_inv in E. destruct E as [s1 [k [E1 E]]]. apply lift_inv in E1. destruct E1 as [<- E1].
  apply bind_inv in E. destruct E as [s1 [k' [E2 E]]]. apply lift_inv in E2. destruct E2 as [<- E2].
  destruct (glue_any nv st (k, snd x) (k', snd y) Iv X Y) as (s' & r & E' & I' & F' & SE' & _ & OK). rewrite E in E'. injection E' as <- <-.
  destruct (OK eq_refl) as (Mu & Rx & Ry). destruct (glue_main nv st _ _ Iv Mu Rx Ry) as (s' & r & E' & _ & _ & GZ & _).
  rewrite E in E'. injection E' as <- <-. specialize (GZ eq_refl). split; auto. split; auto. split; auto.
  unfold dgetE in E1, E2. destruct (dget (fst x, i) cl) as [k1|] eqn:K1; [|discriminate]. injection E1 as ->.
  destruct (dget (fst x, papply p i) cl) as [k2|] eqn:K2; [|discriminate]. injection E2 as ->.
  assert (B1 : below cl k (fst x)) by (exists i; auto). assert (B2 : below cl k' (fst x)) by (exists (papply p i); auto).
  intros u v. rewrite GZ. unfold glz.
  destruct (hedge_case u (k, snd x)) as [[-> ->]|[-> _]]. { intros [= <-]. cbn [fst]. eauto. }
  destruct (hedge_case u (k', snd y)) as [[-> ->]|[-> _]]. { intros [= <-]. cbn [fst]. eauto. }
  destruct (gz (gluings st) (k, snd x)) as [c|]; [destruct (eqb u c); [discriminate|]|];
    (destruct (gz (gluings st) (k', snd y)) as [c'|]; [destruct (eqb u c'); [discriminate|]|]); apply V.
Qed.
Lemma cover_loop_vertical (s : surf) d data cl : good nv s -> forall fuel es st st', (forall x, In x es -> is_edge nv s x) -> inv nv st -> sep st -> vertical cl st ->
  cover_loop nv s d data fuel cl es st = (st', Ok tt) -> inv nv st' /\ sep st' /\ vertical cl st' /\ frame st st'.
Proof.
  intros GD fuel. induction fuel as [|fuel IH]; intros [|x es] st st' HE Iv Se V E; cbn [cover_loop] in E.
  1,3: injection E as <-; split; auto; split; auto; split; auto; apply frame_refl.
  - discriminate.
  - apply bind_inv in E. destruct E as [s1 [c [E1 E]]]. apply lift_inv in E1. destruct E1 as [<- E1]. destruct c as [y|]; [|discriminate].
    apply bind_inv in E. destruct E as [s1 [[] [E2 E]]]. destruct (mem y es); [|discriminate]. injection E2 as <-.
    apply bind_inv in E. destruct E as [s1 [p [E3 E]]]. apply lift_inv in E3. destruct E3 as [<- E3].
    apply bind_inv in E. destruct E as [s1 [[] [E4 E]]].
    assert (Ex : is_edge nv s x) by (apply HE; cbn; auto).
    assert (Ey : is_edge nv s y).
    { assert (GL : glued nv s x y) by (split; auto). apply (glued_gz nv s _ _ (g_inv nv s GD)) in GL. apply (i_inv nv s (g_inv nv s GD)) in GL.
      apply (glued_gz nv s _ _ (g_inv nv s GD)) in GL. apply GL. }
    assert (ST : inv nv s1 /\ sep s1 /\ vertical cl s1 /\ frame st s1).
    { revert st Iv Se V E4. clear IH E. generalize (seq 0 d). intros is. induction is as [|i is IH']; intros st Iv Se V E4; cbn [mfor] in E4.
      - injection E4 as <-. split; auto. split; auto. split; auto. apply frame_refl.
      - apply bind_inv in E4. destruct E4 as [s2 [[] [E4 E5]]].
        destruct (cover_glue_vertical cl x y p i st s2) as (A & As & B & C); auto; [destruct Ex as [? [_ ?]]; lia|destruct Ey as [? [_ ?]]; lia|].
        destruct (IH' s2 A As B E5) as (A' & As' & B' & C'). split; auto. split; auto. split; auto. eapply frame_trans; eauto. }
    destruct ST as (A & As & B & C). destruct (IH (filter (fun z => negb (eqb z y)) es) s1 st') as (A' & As' & B' & C'); auto.
    { intros z Hz. apply filter_In in Hz. apply HE. cbn. tauto. }
    split; auto. split; auto. split; auto. eapply frame_trans; eauto.
Qed.
Theorem cover_vertical (s : surf) d data order es ls c : good nv s -> (forall es, Permutation (order es) es) ->
  iter_edges nv s = Ok es -> (forall x, In x es -> is_edge nv s x) -> iter_labels nv s = Ok ls -> NoDup ls -> (forall l, In l ls <-> is_label s l) ->
  ramified_cover nv s d data order empty = (c, Ok tt) ->
  exists over : label -> label -> Prop,
    (forall u v, glued nv c u v -> exists l, over (fst u) l /\ over (fst v) l) /\
    (d = 1%nat -> forall k k' l, over k l -> over k' l -> k = k').
Proof.
  intros GD OR EE EI EL LN LI E. unfold ramified_cover in E.
  apply bind_inv in E. destruct E as [s1 [es' [E1 E]]]. apply lift_inv in E1. destruct E1 as [<- E1]. rewrite EE in E1. injection E1 as <-.
  apply bind_inv in E. destruct E as [s1 [ls' [E1 E]]]. apply lift_inv in E1. destruct E1 as [<- E1]. rewrite EL in E1. injection E1 as <-.
  apply bind_inv in E. destruct E as [s1 [cl [E1 E]]]. fold (sheets d ls) in E1.
  apply bind_inv in E. destruct E as [s2 [[] [E2 E3]]].
  assert (I0 : inv nv (@empty P)) by (constructor; cbn; try constructor; try easy).
  assert (S0 : sep (@empty P)) by (split; [constructor|intros r r' []]).
  destruct (cover_add_spec s (sheets d ls) nil empty I0 eq_refl S0 (NoDup_sheets d ls LN)) as
    (cl' & items & s1' & E1' & I1 & M1 & C1 & S1 & P1 & G1 & R1 & N1 & _ & F1 & O1 & RE1).
  { intros [l i] H. now apply (In_sheets s d ls LI) in H. }
  rewrite E1 in E1'. injection E1' as <- <-.
  destruct (cover_loop_vertical s d data cl GD (length es) (order es) s1 s2) as (I2 & S2 & V2 & F2); auto.
  { intros x Hx. apply EI. now apply (Permutation_in _ (OR es)). }
  { intros u v. rewrite G1. discriminate. }
  exists (below cl). split.
  - assert (M2 : mutable s2 = true) by (rewrite (f_mut _ _ F2); auto).
    assert (I3 : good nv s2).
    { constructor; auto; [exact (i_tot nv s2 I2 M2)|congruence|]. rewrite (f_conn _ _ F2), C1. discriminate. }
    destruct (set_immutable_spec nv s2 I3) as (c' & rs & b & E3' & _ & Ec & GC). rewrite E3 in E3'. injection E3' as <-.
    intros u v GL. apply (glued_gz nv c _ _ (g_inv nv c GC)) in GL. rewrite Ec in GL. cbn in GL. now apply V2.
  - intros -> k k' l [i Hi] [i' Hi'].
    assert (X : forall i k, dget (l, i) cl = Some k -> i = 0%nat).
    { intros j kk H. destruct (in_dec (fun a b : label * nat => ltac:(decide equality; [apply Nat.eq_dec|apply Z.eq_dec])) (l, j) (sheets 1 ls)) as [Y|Y].
      - apply (In_sheets s 1 ls LI) in Y. lia.
      - rewrite O1 in H by auto. discriminate. }
    rewrite (X _ _ Hi) in Hi. rewrite (X _ _ Hi') in Hi'. congruence.
Qed.
End C.
