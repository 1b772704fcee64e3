(** The loop of [triangulate] clips ears until three vertices are left. *)
From Coq Require Import List Bool ZArith Arith Lia Ring Field Permutation.
From Verif Require Import OField FMicromega PField MBase MDict PDict MEuclid SEuclid PEuclid SSim MPoly SPoint PPoly SCut PJordan PJordan2 PJordan3 PJordan4 PJordan5 MEar PEar PEar2.
Import ListNotations.

Lemma inj_on {A B} (f : A -> B) l x y : NoDup (map f l) -> In x l -> In y l -> f x = f y -> x = y.
Proof.
  induction l as [|a l IH]; intros ND I J E; [destruct I|]. cbn [map] in ND. apply NoDup_cons_iff in ND. destruct ND as [NI ND].
  destruct I as [<-|I], J as [<-|J]; auto; exfalso; apply NI; [rewrite E|rewrite <- E]; now apply in_map.
Qed.
Lemma nodup_map {A B} (f : A -> B) l : NoDup (map f l) -> NoDup l.
Proof. apply NoDup_map_inv. Qed.
Lemma last_nth {A} (l : list A) d x : l <> [] -> last l d = nth (length l - 1) l x.
Proof.
  intros N. destruct (exists_last N) as [r [z ->]]. rewrite last_last, app_length. cbn [length]. rewrite Nat.add_sub.
  rewrite app_nth2, Nat.sub_diag by lia. reflexivity.
Qed.
Lemma hd_nth {A} (l : list A) d x : l <> [] -> hd d l = nth 0 l x.
Proof. destruct l; [congruence|reflexivity]. Qed.
Lemma corner_split (U : list nat) i : (3 <= length U)%nat -> (i < length U)%nat ->
  let j := ((i + 1) mod length U)%nat in let k := ((j + 1) mod length U)%nat in let b := nth j U 0%nat in
  exists U1 U2, U = U1 ++ b :: U2 /\ length U1 = j /\ last (U2 ++ U1) b = nth i U 0%nat /\ hd b (U2 ++ U1) = nth k U 0%nat.
Proof.
  intros N L j k b. assert (Lj : (j < length U)%nat) by (apply Nat.mod_upper_bound; lia).
  exists (firstn j U), (skipn (S j) U). assert (E : U = firstn j U ++ b :: skipn (S j) U).
  { transitivity (firstn j U ++ skipn j U); [symmetry; apply firstn_skipn|]. f_equal. unfold b. clearbody j. clear -Lj. revert j Lj.
    induction U as [|x U IH]; intros j L; [cbn in L; lia|]. destruct j; [reflexivity|]. cbn in *. apply IH. lia. }
  assert (L1 : length (firstn j U) = j) by (rewrite firstn_length; lia). split; auto. split; auto.
  set (U1 := firstn j U) in *. set (U2 := skipn (S j) U) in *. clearbody b U1 U2. assert (LU : length U = (length U1 + S (length U2))%nat) by (rewrite E, app_length; reflexivity).
  assert (Ej' : j = ((i + 1) mod (length U1 + S (length U2)))%nat) by (unfold j; now rewrite LU). assert (Ek' : k = ((j + 1) mod (length U1 + S (length U2)))%nat) by (unfold k; now rewrite LU).
  clearbody j k. subst U. rewrite app_length in *. cbn [length] in *.
  assert (NE : U2 ++ U1 <> []) by (intros X; apply (f_equal (@length nat)) in X; rewrite app_length in X; cbn in X; lia).
  rewrite (last_nth _ _ 0%nat NE), (hd_nth _ _ 0%nat NE), app_length.
  destruct (Nat.eq_dec (i + 1) (length U1 + S (length U2))) as [W|W].
  - assert (Ej : j = 0%nat) by (rewrite Ej', W; apply Nat.mod_same; lia). rewrite Ej in L1. destruct U1; [|discriminate]. cbn [app length] in *. clear L1.
    rewrite app_nil_r, Nat.add_0_r. split; [destruct i as [|i]; [lia|]; cbn; f_equal; lia|].
    assert (k = 1%nat) as -> by (rewrite Ek', Ej; apply Nat.mod_small; lia). reflexivity.
  - assert (Ej : j = (i + 1)%nat) by (rewrite Ej'; apply Nat.mod_small; lia).
    split; [rewrite app_nth2, app_nth1 by lia; f_equal; lia|].
    destruct (Nat.eq_dec (j + 1) (length U1 + S (length U2))) as [W'|W'].
    + assert (k = 0%nat) as -> by (rewrite Ek', W'; apply Nat.mod_same; lia). assert (U2 = []) as -> by (destruct U2; [auto|cbn in *; lia]).
      cbn. destruct U1; cbn in *; [lia|reflexivity].
    + assert (k = (j + 1)%nat) as -> by (rewrite Ek'; apply Nat.mod_small; lia). rewrite (app_nth1 U2) by lia.
      rewrite app_nth2 by lia. replace (j + 1 - length U1)%nat with 1%nat by lia. reflexivity.
Qed.

Lemma dset_new {A B} `{EqB A} k (x : B) (d : dict A B) : ~ In k (keys d) -> dset k x d = d ++ [(k, x)].
Proof.
  induction d as [|[k' y] d IH]; intros NI; [reflexivity|]. cbn [dset app]. cbn in NI. destruct (eqb k k') eqn:E; [apply (proj1 (eqb_ok k k')) in E; subst; exfalso; apply NI; auto|]. f_equal. apply IH. intros X. apply NI. auto.
Qed.

Section E.
Context {K : OField}.
Add Field KFear3 : (of_ft K).
Local Open Scope F_scope.
Variable vs : list (vec K).
Notation v := (pt vs).

Lemma is_ear_spec U a b c : is_ear vs U a b c = true <-> 0 < orient (v a) (v b) (v c) /\
  forall m, In m U -> in_tri (v a) (v b) (v c) (v m) -> m = a \/ m = b \/ m = c.
Proof.
  unfold is_ear. change (ccw (vsub (v b) (v a)) (vsub (v c) (v a))) with (orient (v a) (v b) (v c)).
  destruct (orient (v a) (v b) (v c) <=? 0) eqn:O.
  - split; [discriminate|]. intros [X _]. apply fleb_false in X. congruence.
  - apply fleb_false in O. rewrite negb_true_iff. split.
    + intros E. split; auto. intros m I [T1 [T2 T3]].
      destruct (mem m [a; b; c]) eqn:M; [apply mem_In in M; cbn in M; intuition|]. exfalso.
      assert (X : existsb (fun m => negb (mem m [a; b; c]) &&
        (0 <=? ccw (vsub (pt vs b) (pt vs a)) (vsub (pt vs m) (pt vs a))) &&
        (0 <=? ccw (vsub (pt vs c) (pt vs b)) (vsub (pt vs m) (pt vs b))) &&
        (0 <=? ccw (vsub (pt vs a) (pt vs c)) (vsub (pt vs m) (pt vs c)))) U = true); [|congruence].
      apply existsb_exists. exists m. split; auto. rewrite M. unfold orient, fle in T1, T2, T3. unfold fleb. now rewrite T1, T2, T3.
    + intros [_ H]. apply not_true_iff_false. intros X. apply existsb_exists in X. destruct X as [m [I X]].
      rewrite !andb_true_iff, negb_true_iff in X. destruct X as [[[M T1] T2] T3]. apply mem_not_In in M. apply M. cbn.
      unfold fleb in T1, T2, T3. rewrite negb_true_iff in T1, T2, T3. destruct (H m I) as [-> | [-> | ->]]; auto. repeat split; assumption.
Qed.
Lemma find_ear_some U is r : find_ear vs U is = Some r -> exists i, In i is /\
  let j := ((i + 1) mod length U)%nat in let k := ((j + 1) mod length U)%nat in
  r = ((nth i U 0%nat, nth j U 0%nat, nth k U 0%nat), j) /\ is_ear vs U (nth i U 0%nat) (nth j U 0%nat) (nth k U 0%nat) = true.
Proof.
  induction is as [|i is IH]; cbn [find_ear]; [discriminate|].
  destruct (is_ear vs U _ _ _) eqn:E; [intros [= <-]; exists i; split; [now left|auto]|]. intros H. destruct (IH H) as [i' [I X]]. exists i'. split; [now right|auto].
Qed.
Lemma find_ear_none U is i : find_ear vs U is = None -> In i is ->
  let j := ((i + 1) mod length U)%nat in let k := ((j + 1) mod length U)%nat in is_ear vs U (nth i U 0%nat) (nth j U 0%nat) (nth k U 0%nat) = false.
Proof.
  induction is as [|i' is IH]; cbn [find_ear]; [intros _ []|].
  destruct (is_ear vs U _ _ _) eqn:E; [discriminate|]. intros H [<-|I]; auto.
Qed.
(** the condition of the code is the geometric one *)
Lemma is_ear_corner U U1 U2 b : NoDup (map v U) -> U = U1 ++ b :: U2 -> let l := U2 ++ U1 in l <> [] ->
  is_ear vs U (last l b) b (hd b l) = true <->
  0 < orient (v (last l b)) (v b) (v (hd b l)) /\ empty_corner (v b) (map v l) (v (last l b)) (v (hd b l)).
Proof.
  intros ND EU l NL. assert (In_l : forall m, In m l <-> In m U1 \/ In m U2) by (intros m; unfold l; rewrite in_app_iff; tauto).
  assert (In_U : forall m, In m U <-> m = b \/ In m l) by (intros m; rewrite EU, In_l, in_app_iff; cbn; intuition congruence).
  assert (Nb : ~ In b l). { apply nodup_map in ND. rewrite EU in ND. apply NoDup_remove_2 in ND. rewrite In_l. now rewrite in_app_iff in ND. }
  rewrite is_ear_spec. split; intros [O H]; split; auto.
  - intros x Ix T. apply in_map_iff in Ix. destruct Ix as [m [<- Im]]. destruct (H m) as [-> | [-> | ->]]; auto; [apply In_U; auto|contradiction].
  - intros m Im T. apply In_U in Im. destruct Im as [->|Im]; auto. destruct (H (v m)) as [E|E]; auto; [now apply in_map| |].
    + left. apply (inj_on v U); auto; apply In_U; right; auto. now apply last_in.
    + right; right. apply (inj_on v U); auto; apply In_U; right; auto. now apply hd_in.
Qed.
Lemma find_ear_ok U : simpleL (map v U) -> index (map v U) = true -> (3 < length U)%nat ->
  exists b l j, find_ear vs U (seq 0 (length U)) = Some ((last l b, b, hd b l), j) /\ rot U (b :: l) /\ rot (firstn j U ++ skipn (j + 1) U) l /\
    (3 <= length l)%nat /\ 0 < orient (v (last l b)) (v b) (v (hd b l)) /\ empty_corner (v b) (map v l) (v (last l b)) (v (hd b l)).
Proof.
  intros SI IX N. assert (ND : NoDup (map v U)) by apply SI.
  destruct (find_ear vs U (seq 0 (length U))) as [r|] eqn:F.
  - destruct (find_ear_some U _ r F) as [i [Ii [-> E]]]. apply in_seq in Ii.
    destruct (corner_split U i ltac:(lia) ltac:(lia)) as [U1 [U2 [EU [L1 [La Hd]]]]]. set (j := ((i + 1) mod length U)%nat) in *. set (b := nth j U 0%nat) in *.
    assert (NL : U2 ++ U1 <> []). { intros X. rewrite EU, app_length in N. apply (f_equal (@length nat)) in X. rewrite app_length in X. cbn in X, N. lia. }
    exists b, (U2 ++ U1), j. rewrite La, Hd. split; [reflexivity|]. split; [exists U1, (b :: U2); auto|]. split.
    { exists U1, U2. split; auto. rewrite EU at 1 2. f_equal.
      - rewrite <- L1, firstn_app, Nat.sub_diag, firstn_all. cbn. apply app_nil_r.
      - rewrite <- L1, skipn_app, skipn_all2 by lia. replace (length U1 + 1 - length U1)%nat with 1%nat by lia. reflexivity. }
    split; [rewrite EU in N; rewrite app_length in *; cbn in N; lia|].
    rewrite <- La, <- Hd. apply (is_ear_corner U U1 U2 b); auto. now rewrite La, Hd.
  - exfalso. destruct (map v U) as [|u [|w Q]] eqn:EQ; try (destruct SI as [_ [X _]]; cbn in X; lia). rewrite <- EQ in *.
    destruct (ear_exists (map v U) SI IX u w) as [t [[k [R [O EM]]] _]]; [rewrite EQ; now left|].
    assert (It : In t (map v U)) by (apply (rot_in _ _ _ R); now left). apply in_map_iff in It. destruct It as [b [<- Ib]].
    apply (In_nth _ _ 0%nat) in Ib. destruct Ib as [j [Lj Ej]].
    set (i := ((j + length U - 1) mod length U)%nat).
    assert (Li : (i < length U)%nat) by (apply Nat.mod_upper_bound; lia).
    assert (Ei : ((i + 1) mod length U)%nat = j).
    { unfold i. destruct j as [|j].
      - rewrite (Nat.mod_small (0 + length U - 1)) by lia. replace (0 + length U - 1 + 1)%nat with (length U) by lia. apply Nat.mod_same. lia.
      - replace (S j + length U - 1)%nat with (j + 1 * length U)%nat by lia. rewrite Nat.mod_add, (Nat.mod_small j) by lia.
        rewrite Nat.mod_small; lia. }
    pose proof (find_ear_none U _ i F ltac:(apply in_seq; lia)) as X. cbn zeta in X.
    destruct (corner_split U i ltac:(lia) Li) as [U1 [U2 [EU [L1 [La Hd]]]]]. rewrite Ei in *. rewrite Ej in *.
    assert (k = map v (U2 ++ U1)) as ->.
    { rewrite map_app. apply (rot_unique _ _ _ (v b)); [|rewrite <- map_cons, <- map_app, <- EU; auto].
      rewrite <- map_cons, <- map_app, <- EU. auto. }
    rewrite map_last, map_hd in O, EM.
    assert (NL : U2 ++ U1 <> []). { intros Y. rewrite EU, app_length in N. apply (f_equal (@length nat)) in Y. rewrite app_length in Y. cbn in Y, N. lia. }
    rewrite <- La, <- Hd in X. assert (Y : is_ear vs U (last (U2 ++ U1) b) b (hd b (U2 ++ U1)) = true) by (apply is_ear_corner; auto). congruence.
Qed.

Definition numbered (m : nat) (T : list triple) : dict triple Z := combine T (map Z.of_nat (seq m (length T))).
Lemma clip_ears_ok fuel : forall U d, simpleL (map v U) -> index (map v U) = true -> (length U <= fuel + 3)%nat ->
  (forall t, In t (keys d) -> match t with (_, b, _) => ~ In b U end) ->
  exists T, clips v U T /\ clip_ears fuel vs U d = Ok (d ++ numbered (length d) T).
Proof.
  induction fuel as [|fuel IH]; intros U d SI IX L DU.
  - assert (N : length U = 3%nat) by (destruct SI as [_ [X _]]; rewrite map_length in X; lia).
    destruct U as [|a [|b [|c [|]]]]; try discriminate N. exists [(a, b, c)]. split; [apply clips_three; apply index_three; auto|].
    cbn. rewrite dset_new; [reflexivity|]. intros I. apply DU in I. apply I. cbn. auto.
  - destruct (Nat.ltb_spec 3 (length U)) as [N|N].
    + destruct (find_ear_ok U SI IX N) as [b [l [j [F [R [R' [N' [O EM]]]]]]]].
      set (U' := firstn j U ++ skipn (j + 1) U) in *.
      destruct (clip_facts v U U' b l) as [_ [_ [S' [I' _]]]]; auto.
      assert (LU : length U = S (length l)) by (apply rot_length in R; exact R).
      assert (NDl : ~ In b l). { destruct SI as [ND _]. apply nodup_map in ND. apply (rot_nodup _ _ R) in ND. now apply NoDup_cons_iff in ND. }
      assert (NK : ~ In (last l b, b, hd b l) (keys d)). { intros I. apply DU in I. apply I, (rot_in _ _ _ R). now left. }
      destruct (IH U' (d ++ [((last l b, b, hd b l), Z.of_nat (length d))])) as [T [C E]]; auto.
      * apply rot_length in R'. lia.
      * intros [[a b'] c] I. unfold keys in I. rewrite map_app in I. apply in_app_or in I. destruct I as [I|[I|[]]].
        -- apply DU in I. intros J. apply I, (rot_in _ _ _ R). right. now apply (rot_in _ _ _ R').
        -- cbn in I. injection I as _ -> _. intros J. apply NDl. now apply (rot_in _ _ _ R').
      * exists ((last l b, b, hd b l) :: T). split; [now apply (clips_ear v U U')|].
        cbn [clip_ears]. destruct (Nat.ltb_spec 3 (length U)); [|lia]. rewrite F, dset_new by auto. fold U'. etransitivity; [exact E|]. f_equal. rewrite app_length. cbn [length].
        rewrite <- app_assoc. unfold numbered. cbn [length seq map combine app]. now rewrite Nat.add_1_r.
    + assert (N3 : length U = 3%nat) by (destruct SI as [_ [X _]]; rewrite map_length in X; lia).
      destruct U as [|a [|b [|c [|]]]]; try discriminate N3. exists [(a, b, c)]. split; [apply clips_three; apply index_three; auto|].
      cbn. rewrite dset_new; [reflexivity|]. intros I. apply DU in I. apply I. cbn. auto.
Qed.
End E.
