(** Proofs about exchanges of intervals. *)
From Coq Require Import List Bool ZArith Arith Lia Ring Field.
From Verif Require Import OField FMicromega PField MBase MDict PDict MIET SIET.
Import ListNotations.

Section IET.
Context {K : OField}.
Add Field KFiet : (of_ft K).
Local Open Scope F_scope.
Implicit Types (l : list K).

Lemma left_end_S l j t : nth_error l j = Some t -> left_end l (S j) = left_end l j + t.
Proof.
  revert j. induction l as [|x l IH]; intros [|j] E; try discriminate; cbn [nth_error] in E; cbn [left_end].
  - injection E as ->. destruct l; cbn; ring.
  - rewrite (IH j E). ring.
Qed.
Lemma left_end_total l j : (length l <= j)%nat -> left_end l j = lsum l.
Proof.
  revert j. induction l as [|x l IH]; intros [|j] H; cbn in *; auto; try lia. now rewrite IH by lia.
Qed.
Lemma left_end_0 l : left_end l 0 = 0. Proof. destruct l; reflexivity. Qed.
Definition positive l := forall t, In t l -> 0 < t.
Lemma left_end_mono l j k : positive l -> (j <= k)%nat -> left_end l j <= left_end l k.
Proof.
  intros P H. induction H as [|k H IH]; [apply fle_refl|].
  destruct (nth_error l k) as [t|] eqn:E.
  - rewrite (left_end_S l k t E). assert (0 < t) by (apply P; eapply nth_error_In; eauto). flra.
  - apply nth_error_None in E. rewrite (left_end_total l k), (left_end_total l (S k)) in * by lia. exact IH.
Qed.
Lemma left_end_end l j k t : positive l -> nth_error l j = Some t -> (j < k)%nat -> left_end l j + t <= left_end l k.
Proof. intros P E H. rewrite <- (left_end_S l j t E). now apply left_end_mono. Qed.
Lemma left_end_le l j : positive l -> left_end l j <= lsum l.
Proof.
  intros P. destruct (Nat.le_gt_cases j (length l)).
  - rewrite <- (left_end_total l (length l)) by lia. now apply left_end_mono.
  - rewrite left_end_total by lia. apply fle_refl.
Qed.

Lemma lsum_nonneg l : positive l -> 0 <= lsum l.
Proof.
  intros P. induction l as [|x l IH]; cbn; [apply fle_refl|]. assert (0 < x) by (apply P; now left).
  assert (0 <= lsum l) by (apply IH; intros t Ht; apply P; now right). flra.
Qed.
Lemma lsum_pos l : positive l -> l <> nil -> 0 < lsum l.
Proof.
  intros P N. destruct l as [|x l]; [congruence|]. cbn. assert (0 < x) by (apply P; now left).
  assert (0 <= lsum l) by (apply lsum_nonneg; intros t Ht; apply P; now right). flra.
Qed.

(** positions are unique, except at the ends of intervals *)
Lemma left_unique l j y j' y' X : positive l -> at_position_left l j y X -> at_position_left l j' y' X -> j = j' /\ y = y'.
Proof.
  intros P [t [E [H1 [H2 H3]]]] [t' [E' [H1' [H2' H3']]]].
  destruct (Nat.lt_trichotomy j j') as [H|[->|H]].
  - pose proof (left_end_end l j j' t P E H). exfalso. flra.
  - split; auto. flra.
  - pose proof (left_end_end l j' j t' P E' H). exfalso. flra.
Qed.
Lemma inner_unique l j y j' y' X : positive l -> at_position l j y X -> left_end l j < X -> X < left_end l (S j) ->
  at_position l j' y' X -> j = j' /\ y = y'.
Proof.
  intros P [t [E [H1 [H2 H3]]]] A B [t' [E' [H1' [H2' H3']]]]. rewrite (left_end_S l j t E) in B.
  destruct (Nat.lt_trichotomy j j') as [H|[->|H]].
  - pose proof (left_end_end l j j' t P E H). exfalso. flra.
  - split; auto. flra.
  - pose proof (left_end_end l j' j t' P E' H). exfalso. flra.
Qed.

(** *** the table of images *)
Lemma advance_spec dst (P : positive dst) : forall fuel it lt x1 len, nth_error dst it = Some lt -> 0 < x1 -> x1 <= lt -> 0 <= len ->
  left_end dst it + (lt - x1) + len <= lsum dst -> (length dst < fuel + it)%nat ->
  exists it' lt' x1' len', advance fuel dst it lt x1 len = Ok (it', lt', x1', len') /\
    let x2 := if negb (len' =? 0) then x1' - len' else x1' in
    (nth_error dst it' = Some lt' /\ 0 < x2 /\ x2 <= lt' /\ left_end dst it' + (lt' - x2) = left_end dst it + (lt - x1) + len) \/
    (left_end dst it + (lt - x1) + len = lsum dst).
Proof.
  induction fuel as [|fuel IH]; intros it lt x1 len E H1 H2 H3 H4 Hf.
  { assert (it < length dst)%nat by (apply nth_error_Some; congruence). lia. }
  cbn [advance]. destruct (negb (len =? 0) && (x1 <=? len)) eqn:C.
  - apply andb_true_iff in C. destruct C as [_ C]. unfold fleb in C. apply negb_true_iff in C. change (x1 <= len) in C.
    pose proof (left_end_S dst it lt E) as LS.
    destruct (nth_error dst (S it)) as [t|] eqn:E'.
    + assert (0 < t) by (apply P; eapply nth_error_In; eauto).
      destruct (IH (S it) t t (len - x1) E') as (it' & lt' & x1' & len' & A & B); auto; try flra; try lia.
      exists it', lt', x1', len'. split; auto. cbv zeta in *. destruct B as [[B1 [B2 [B3 B4]]]|B].
      * left. split; auto. split; auto. split; auto. flra.
      * right. flra.
    + apply nth_error_None in E'. rewrite (left_end_total dst (S it) E') in LS.
      assert (len - x1 = 0) as -> by flra.
      destruct fuel as [|fuel]; [assert (it < length dst)%nat by (apply nth_error_Some; congruence); lia|].
      cbn [advance]. replace (0 =? 0) with true by (symmetry; now apply feqb_eq). cbn [negb andb].
      exists (S it), 0, x1, 0. split; auto. right. flra.
  - exists it, lt, x1, len. split; auto. cbv zeta. left. split; auto.
    destruct (len =? 0) eqn:Z; cbn [negb andb] in *.
    + apply feqb_eq in Z. subst len. split; auto. split; auto. ring.
    + unfold fleb in C. apply negb_false_iff in C. change (len < x1) in C. split; [flra|]. split; [flra|]. ring.
Qed.

Definition image_ok dst (X : K) (p : nat * K) := at_position_left dst (fst p) (snd p) X.
Lemma images_loop_spec dst (P : positive dst) : forall src it lt x1, positive src ->
  (src <> nil -> nth_error dst it = Some lt /\ 0 < x1 /\ x1 <= lt /\ left_end dst it + (lt - x1) + lsum src = lsum dst) ->
  exists r, images_loop dst src it lt x1 = Ok r /\ length r = length src /\
    forall i p, nth_error r i = Some p -> image_ok dst (left_end dst it + (lt - x1) + left_end src i) p.
Proof.
  induction src as [|len src IH]; intros it lt x1 Ps H.
  - exists nil. split; [reflexivity|]. split; [reflexivity|]. intros [|i] p E; discriminate.
  - destruct H as [E [H1 [H2 H3]]]; [discriminate|]. cbn [lsum] in H3.
    assert (L0 : 0 < len) by (apply Ps; now left).
    assert (Ps' : positive src) by (intros t Ht; apply Ps; now right).
    pose proof (lsum_nonneg src Ps') as S0.
    destruct (advance_spec dst P (S (length dst)) it lt x1 len E H1 H2) as (it' & lt' & x1' & len' & A & B); [flra|flra|lia|].
    cbn [images_loop]. rewrite A. cbn [bind].
    set (x2 := if negb (len' =? 0) then x1' - len' else x1') in *.
    destruct (IH it' lt' x2 Ps') as [r [R1 [R2 R3]]].
    { intros N. destruct B as [[B1 [B2 [B3 B4]]]|B]; [split; auto; split; auto; split; auto; flra|].
      exfalso. pose proof (lsum_pos src Ps' N). flra. }
    rewrite R1. cbn [bind]. eexists. split; [reflexivity|]. split; [cbn; now rewrite R2|].
    intros [|i] p Ep; cbn in Ep.
    + injection Ep as <-. exists lt. cbn [fst snd]. rewrite left_end_0. split; auto. split; [flra|]. split; [flra|]. ring.
    + specialize (R3 i p Ep). cbn [left_end].
      assert (N : src <> nil) by (intros ->; destruct r; [destruct i; discriminate|discriminate]).
      destruct B as [[B1 [B2 [B3 B4]]]|B]; [|exfalso].
      * replace (left_end dst it + (lt - x1) + (len + left_end src i)) with (left_end dst it' + (lt' - x2) + left_end src i); auto.
        rewrite B4. ring.
      * pose proof (lsum_pos src Ps' N). flra.
Qed.
Lemma images_spec dst src : positive dst -> positive src -> lsum dst = lsum src -> dst <> nil ->
  exists r, images dst src = Ok r /\ length r = length src /\ forall i p, nth_error r i = Some p -> image_ok dst (left_end src i) p.
Proof.
  intros P Ps S N. unfold images. destruct dst as [|t dst]; [congruence|]. cbn [nth_error].
  destruct (images_loop_spec (t :: dst) P src 0 t t Ps) as [r [R1 [R2 R3]]].
  - intros _. split; auto. split; [apply P; now left|]. split; [apply fle_refl|]. rewrite S. rewrite left_end_0. ring.
  - exists r. split; auto. split; auto. intros i p E. specialize (R3 i p E). rewrite left_end_0 in R3.
    replace (0 + (t - t) + left_end src i) with (left_end src i) in R3 by ring. exact R3.
Qed.

(** *** images of points *)
Lemma walk_spec dst : positive dst -> forall rest pre x, dst = pre ++ rest -> 0 <= x -> left_end dst (length pre) + x <= lsum dst ->
  (rest = nil /\ walk rest (length pre) x = Err IndexError) \/
  exists k z, walk rest (length pre) x = Ok (k, z) /\ (length pre <= k)%nat /\ at_position dst k z (left_end dst (length pre) + x) /\
    (forall j, (length pre <= j < k)%nat -> left_end dst (S j) < left_end dst (length pre) + x).
Proof.
  intros P. induction rest as [|t rest IH]; intros pre x E H1 H2; [left; auto|]. right. cbn [walk].
  assert (Et : nth_error dst (length pre) = Some t) by (rewrite E, nth_error_app2, Nat.sub_diag by lia; reflexivity).
  pose proof (left_end_S dst _ t Et) as LS.
  destruct (t <? x) eqn:C.
  - change (t < x) in C. assert (E' : dst = (pre ++ [t]) ++ rest) by (rewrite <- app_assoc; exact E).
    assert (L' : length (pre ++ [t]) = S (length pre)) by (rewrite app_length; cbn; lia).
    destruct (IH (pre ++ [t]) (x - t) E') as [[Q _]|(k & z & A & B & D & F)].
    + flra.
    + rewrite L', LS. flra.
    + exfalso. subst rest. rewrite <- L' in LS. rewrite (left_end_total dst) in LS by (rewrite E', app_nil_r; lia). rewrite LS in *. flra.
    + rewrite L' in *. rewrite LS in D. exists k, z. split; auto. split; [lia|].
      replace (left_end dst (length pre) + t + (x - t)) with (left_end dst (length pre) + x) in D by ring. split; auto.
      intros j Hj. destruct (Nat.eq_dec j (length pre)) as [->|N]; [rewrite LS; flra|]. specialize (F j ltac:(lia)). rewrite LS in F. flra.
  - change (x <= t) in C. exists (length pre), x. split; auto. split; auto. split; [exists t; auto|]. intros j Hj. lia.
Qed.

(** all about the image of a point *)
Lemma image_spec src dst im i x b : positive dst -> positive src -> lsum dst = lsum src -> dst <> nil -> images dst src = Ok im ->
  nth_error src i = Some b -> 0 <= x -> x <= b ->
  let X := left_end src i + x in
  (image src dst im i x = Err IndexError /\ X = lsum dst /\ left_end dst (pred (length dst)) <= left_end src i) \/
  exists j y, image src dst im i x = Ok (j, y) /\ at_position dst j y X /\
    (at_position_left dst j y X \/ left_end dst (Datatypes.S j) = X /\ left_end src i < left_end dst j) /\
    (y = 0 -> left_end dst (pred j) <= left_end src i).
Proof.
  intros P Ps S N EI Eb H1 H2 X. destruct (images_spec dst src P Ps S N) as [r [R1 [R2 R3]]]. rewrite EI in R1. injection R1 as <-.
  unfold image. rewrite Eb. replace (x <? 0) with false by (symmetry; exact H1). replace (b <? x) with false by (symmetry; exact H2). cbn [orb].
  destruct (nth_error im i) as [[j y]|] eqn:Ei.
  2:{ apply nth_error_None in Ei. assert (i < length src)%nat by (apply nth_error_Some; congruence). lia. }
  destruct (R3 i _ Ei) as [t [Et [Y1 [Y2 Y3]]]]. cbn [fst snd] in *. rewrite Et.
  pose proof (left_end_S dst j t Et) as LS. pose proof (left_end_S src i b Eb) as LSb. pose proof (left_end_le src (Datatypes.S i) Ps) as LE.
  destruct (x + y <? t) eqn:C.
  - change (x + y < t) in C. right. exists j, (x + y). split; auto. unfold X in *.
    assert (A : at_position_left dst j (x + y) (left_end src i + x)) by (exists t; split; auto; split; [flra|]; split; auto; flra).
    split; [destruct A as [t0 [A1 [A2 [A3 A4]]]]; exists t0; split; auto; split; auto; split; auto; flra|]. split; [now left|]. intros _. pose proof (left_end_mono dst (pred j) j P ltac:(lia)). flra.
  - change (t <= x + y) in C. assert (Hj : (j < length dst)%nat) by (apply nth_error_Some; congruence).
    assert (LP : length (firstn (Datatypes.S j) dst) = Datatypes.S j) by (rewrite firstn_length; lia).
    destruct (walk_spec dst P (skipn (Datatypes.S j) dst) (firstn (Datatypes.S j) dst) (x - (t - y))) as [[W1 W2]|(k & z & W1 & W2 & W3 & W4)].
    + now rewrite firstn_skipn.
    + flra.
    + rewrite LP, LS. rewrite S. flra.
    + left. rewrite LP in W2. rewrite W2. split; auto.
      assert (Q : Datatypes.S j = length dst). { apply (f_equal (@length K)) in W1. rewrite skipn_length in W1. cbn in W1. lia. }
      rewrite Q, left_end_total in LS by lia. split; [unfold X; flra|]. rewrite <- Q. cbn [pred]. flra.
    + right. rewrite LP in *. exists k, z. split; auto.
      replace (left_end dst (Datatypes.S j) + (x - (t - y))) with X in * by (unfold X; rewrite LS, <- Y3; ring).
      split; auto. destruct W3 as [t' [T1 [T2 [T3 T4]]]]. pose proof (left_end_S dst k t' T1) as LS'.
      split.
      * destruct (z <? t') eqn:Z; [change (z < t') in Z|change (t' <= z) in Z].
        -- left. exists t'. auto.
        -- right. pose proof (left_end_mono dst (Datatypes.S j) k P W2). split; flra.
      * intros ->. destruct (Nat.eq_dec k (Datatypes.S j)) as [->|N']; [cbn [pred]; flra|].
        specialize (W4 (pred k) ltac:(lia)). replace (Datatypes.S (pred k)) with k in W4 by lia. exfalso. flra.
Qed.
Lemma image_range (src dst : list K) im i x b : nth_error src i = Some b -> x < 0 \/ b < x -> image src dst im i x = Err ValueError.
Proof.
  intros E H. unfold image. rewrite E. destruct H as [H|H]; [replace (x <? 0) with true by (symmetry; exact H)|replace (b <? x) with true by (symmetry; exact H)];
  [reflexivity|now rewrite orb_true_r].
Qed.
End IET.

(** *** labels *)
Section Labels.
Context {C : Type} `{EqB C}.
Implicit Types (ls : list C) (d : dict C nat).
Let add := fun (d : dict C nat) (p : C * nat) => dset (fst p) (snd p) d.

Lemma fold_index ls : forall n d, NoDup (keys d) -> let r := fold_left add (combine ls (seq n (length ls))) d in
  (forall c, In c (keys r) <-> In c ls \/ In c (keys d)) /\ (length r <= length d + length ls)%nat /\
  (length r = (length d + length ls)%nat <-> NoDup ls /\ forall c, In c ls -> ~ In c (keys d)) /\
  (NoDup ls -> forall k c, nth_error ls k = Some c -> dget c r = Some (n + k)%nat) /\
  (forall c, ~ In c ls -> dget c r = dget c d).
Proof.
  induction ls as [|x ls IH]; intros n d ND r.
  - cbn in r. subst r. split; [cbn; tauto|]. cbn. split; [lia|]. split; [split; [intros _; split; [constructor|tauto]|lia]|].
    split; [intros _ [|k] c E; discriminate|auto].
  - cbn [length seq combine fold_left] in r.
    assert (NDx : NoDup (keys (dset x n d))) by now apply NoDup_dset.
    destruct (IH (S n) (dset x n d) NDx) as [A [B [D [E F]]]].
    change (add d (x, n)) with (dset x n d) in r. fold r in A, B, D, E, F.
    assert (KX : forall c, In c (keys (dset x n d)) <-> c = x \/ In c (keys d)).
    { intros c. rewrite keys_dset. destruct (mem x (keys d)) eqn:M.
      - apply mem_In in M. split; [auto|intros [->|]; auto].
      - rewrite in_app_iff. cbn. split; [intros [|[|[]]]; auto|intros [|]; auto]. }
    split; [intros c; rewrite A, KX; cbn; split; intuition; subst; auto|].
    assert (LX : length (dset x n d) = if mem x (keys d) then length d else S (length d)).
    { destruct (mem x (keys d)) eqn:M; [apply mem_In in M; now apply length_dset_in|apply mem_not_In in M; rewrite dset_notin by auto; rewrite app_length; cbn; lia]. }
    split; [cbn [length]; destruct (mem x (keys d)); lia|].
    split; [|split].
    + cbn [length]. split.
      * intros L. destruct (mem x (keys d)) eqn:M; [lia|]. apply mem_not_In in M.
        destruct (proj1 D ltac:(lia)) as [D1 D2]. split.
        -- constructor; auto. intros Hx. apply (D2 x Hx), KX. now left.
        -- intros c [<-|Hc]; auto. intros Hd. apply (D2 c Hc), KX. now right.
      * intros [N1 N2]. inversion N1; subst. assert (M : mem x (keys d) = false) by (apply mem_not_In, N2; now left). rewrite M in LX.
        rewrite (proj2 D); [lia|]. split; auto. intros c Hc Hd. apply KX in Hd. destruct Hd as [->|Hd]; [contradiction|]. apply (N2 c); auto. now right.
    + intros N [|k] c Ek; inversion N; subst; cbn in Ek.
      * injection Ek as ->. rewrite F by auto. rewrite dget_dset, eqb_refl. f_equal. lia.
      * rewrite (E H3 k c Ek). f_equal. lia.
    + intros c Hc. rewrite F by (intros X; apply Hc; now right). rewrite dget_dset.
      replace (eqb c x) with false; auto. symmetry. apply eqb_neq. intros ->. apply Hc. now left.
Qed.
Lemma index_dict_length ls : (length ls = length (index_dict ls) <-> NoDup ls).
Proof.
  destruct (fold_index ls 0 nil (NoDup_nil _)) as [_ [_ [A _]]]. fold (index_dict ls) in A. cbn [length plus] in A.
  split; [intros E; symmetry in E; apply A in E; tauto|]. intros N. symmetry. apply A. split; auto.
Qed.
Lemma index_dict_nth ls k c : NoDup ls -> nth_error ls k = Some c -> dgetE c (index_dict ls) = Ok k.
Proof.
  intros N E. destruct (fold_index ls 0 nil (NoDup_nil _)) as [_ [_ [_ [A _]]]]. apply dgetE_Ok. exact (A N k c E).
Qed.
Lemma index_dict_None ls c : ~ In c ls -> dgetE c (index_dict ls) = Err KeyError.
Proof.
  intros N. destruct (fold_index ls 0 nil (NoDup_nil _)) as [_ [_ [_ [_ A]]]]. unfold dgetE. change (index_dict ls) with (fold_left add (combine ls (seq 0 (length ls))) nil).
  now rewrite (A c N).
Qed.
End Labels.

(** *** the class *)
Section Map.
Context {K : OField} {A B : Type} `{EqB A} `{EqB B}.
Add Field KFiet2 : (of_ft K).
Local Open Scope F_scope.

Lemma forallb_pos (l : list K) : forallb (fun x => 0 <? x) l = true <-> positive l.
Proof. rewrite forallb_forall. reflexivity. Qed.
Lemma total_lsum (l : list K) : left_end l (length l) = lsum l. Proof. now apply left_end_total. Qed.

Lemma flow_map_Ok (bl : list A) (bL : list K) (tl : list B) (tL : list K) T : flow_polygon_map bl bL tl tL = Ok T ->
  exchange bl bL tl tL /\ bL <> nil /\ tL <> nil /\ fm_bot_labels T = bl /\ fm_top_labels T = tl /\ fm_bot T = bL /\ fm_top T = tL /\
  images tL bL = Ok (fm_forward T) /\ images bL tL = Ok (fm_backward T).
Proof.
  unfold flow_polygon_map.
  destruct (forallb _ bL) eqn:P1; [|discriminate]. destruct (forallb _ tL) eqn:P2; [|discriminate]. cbn [negb].
  destruct (length bl =? length bL)%nat eqn:L1; [|discriminate]. destruct (length tl =? length tL)%nat eqn:L2; [|discriminate]. cbn [negb].
  destruct (lsum tL =? lsum bL) eqn:S1; [|discriminate]. cbn [negb].
  destruct (length bl =? length (index_dict bl))%nat eqn:D1; [|discriminate]. destruct (length tl =? length (index_dict tl))%nat eqn:D2; [|discriminate]. cbn [negb].
  destruct (images tL bL) as [f|] eqn:I1; [|discriminate]. destruct (images bL tL) as [b|] eqn:I2; [|discriminate]. cbn [bind].
  intros E. injection E as <-. cbn. apply Nat.eqb_eq in L1, L2, D1, D2. apply index_dict_length in D1, D2. apply feqb_eq in S1.
  split; [constructor; auto|].
  - now apply forallb_pos.
  - now apply forallb_pos.
  - now rewrite !total_lsum.
  - split; [intros ->; discriminate|]. split; [intros ->; discriminate|]. auto 10.
Qed.
Lemma flow_map_exists (bl : list A) (bL : list K) (tl : list B) (tL : list K) : exchange bl bL tl tL -> bL <> nil -> exists T, flow_polygon_map bl bL tl tL = Ok T.
Proof.
  intros [P1 P2 L1 L2 S1 D1 D2] N. unfold flow_polygon_map. rewrite !total_lsum in S1.
  rewrite (proj2 (forallb_pos bL) P1), (proj2 (forallb_pos tL) P2). cbn [negb].
  rewrite (proj2 (Nat.eqb_eq _ _) L1), (proj2 (Nat.eqb_eq _ _) L2), (proj2 (feqb_eq K _ _) (eq_sym S1)). cbn [negb].
  rewrite (proj2 (Nat.eqb_eq _ _) (proj2 (index_dict_length bl) D1)), (proj2 (Nat.eqb_eq _ _) (proj2 (index_dict_length tl) D2)). cbn [negb].
  assert (N' : tL <> nil). { intros ->. cbn in S1. pose proof (lsum_pos bL P1 N). flra. }
  destruct (images_spec tL bL P2 P1 (eq_sym S1) N') as [r [-> _]]. destruct (images_spec bL tL P1 P2 S1 N) as [r' [-> _]].
  cbn. eauto.
Qed.
Lemma flow_map_err (bl : list A) (bL : list K) (tl : list B) (tL : list K) : ~ exchange bl bL tl tL -> flow_polygon_map bl bL tl tL = Err ValueError.
Proof.
  intros N. unfold flow_polygon_map.
  destruct (forallb _ bL) eqn:P1; [|reflexivity]. destruct (forallb _ tL) eqn:P2; [|reflexivity]. cbn [negb].
  destruct (length bl =? length bL)%nat eqn:L1; [|reflexivity]. destruct (length tl =? length tL)%nat eqn:L2; [|reflexivity]. cbn [negb].
  destruct (lsum tL =? lsum bL) eqn:S1; [|reflexivity]. cbn [negb].
  destruct (length bl =? length (index_dict bl))%nat eqn:D1; [|reflexivity]. destruct (length tl =? length (index_dict tl))%nat eqn:D2; [|reflexivity].
  exfalso. apply N. apply Nat.eqb_eq in L1, L2, D1, D2. apply index_dict_length in D1, D2. apply feqb_eq in S1.
  constructor; auto.
  - now apply forallb_pos.
  - now apply forallb_pos.
  - now rewrite !total_lsum.
Qed.

Definition swap_map (T : flow_map K A B) : flow_map K B A :=
  FlowMap (fm_top_labels T) (fm_bot_labels T) (fm_top T) (fm_bot T) (fm_backward T) (fm_forward T).
Lemma forward_spec (bl : list A) (bL : list K) (tl : list B) (tL : list K) T a i b x : flow_polygon_map bl bL tl tL = Ok T ->
  nth_error bl a = Some i -> nth_error bL a = Some b -> 0 <= x -> x <= b ->
  let X := left_end bL a + x in
  (forward_image T i x = Err IndexError /\ X = left_end tL (length tL) /\ left_end tL (pred (length tL)) <= left_end bL a) \/
  exists k j y, nth_error tl k = Some j /\ forward_image T i x = Ok (j, y) /\ at_position tL k y X /\
    (at_position_left tL k y X \/ left_end tL (S k) = X /\ left_end bL a < left_end tL k) /\
    (y = 0 -> left_end tL (pred k) <= left_end bL a).
Proof.
  intros ET Ei Eb H1 H2 X. destruct (flow_map_Ok bl bL tl tL T ET) as (EX & N1 & N2 & F1 & F2 & F3 & F4 & F5 & F6).
  destruct EX as [P1 P2 L1 L2 S1 D1 D2]. rewrite !total_lsum in S1. unfold forward_image. rewrite F1, (index_dict_nth bl a i D1 Ei), F2, F3, F4. cbn [bind].
  destruct (image_spec bL tL (fm_forward T) a x b P2 P1 (eq_sym S1) N2 F5 Eb H1 H2) as [[E [Q1 Q2]]|(k & y & E & Q1 & Q2)].
  - left. rewrite E. rewrite total_lsum. auto.
  - right. rewrite E. cbn [bind fst snd]. destruct Q1 as [t [Et Q1]].
    assert (Hk : (k < length tl)%nat) by (rewrite L2; apply nth_error_Some; congruence).
    destruct (nth_error tl k) as [j|] eqn:Ej; [|apply nth_error_None in Ej; lia].
    exists k, j, y. split; auto. split; [unfold label_of; now rewrite Ej|]. split; auto. exists t; auto.
Qed.
Lemma forward_range (bl : list A) (bL : list K) (tl : list B) (tL : list K) T a i b x : flow_polygon_map bl bL tl tL = Ok T ->
  nth_error bl a = Some i -> nth_error bL a = Some b -> x < 0 \/ b < x -> forward_image T i x = Err ValueError.
Proof.
  intros ET Ei Eb Hx. destruct (flow_map_Ok bl bL tl tL T ET) as (EX & N1 & N2 & F1 & F2 & F3 & F4 & F5 & F6).
  destruct EX as [P1 P2 L1 L2 S1 D1 D2]. unfold forward_image. rewrite F1, (index_dict_nth bl a i D1 Ei), F3, F4. cbn [bind].
  now rewrite (image_range bL tL _ a x b Eb Hx).
Qed.
End Map.

Section Swap.
Context {K : OField} {A B : Type} `{EqB A} `{EqB B}.
Local Open Scope F_scope.
Lemma swap_Ok (bl : list A) (bL : list K) (tl : list B) (tL : list K) T : flow_polygon_map bl bL tl tL = Ok T -> flow_polygon_map tl tL bl bL = Ok (swap_map T).
Proof.
  intros ET. destruct (flow_map_Ok bl bL tl tL T ET) as (EX & N1 & N2 & F1 & F2 & F3 & F4 & F5 & F6).
  assert (EX' : exchange tl tL bl bL) by (destruct EX; constructor; auto).
  destruct (flow_map_exists tl tL bl bL EX' N2) as [T' E']. rewrite E'.
  destruct (flow_map_Ok tl tL bl bL T' E') as (_ & _ & _ & F1' & F2' & F3' & F4' & F5' & F6').
  f_equal. destruct T', T. cbn in *. unfold swap_map. cbn. congruence.
Qed.
Lemma backward_swap (T : flow_map K A B) j y : backward_image T j y = forward_image (swap_map T) j y. Proof. reflexivity. Qed.
End Swap.
