(** Proofs about union-find and the Euler characteristic. *)
From Coq Require Import List Bool ZArith Arith Lia Relations QArith FinFun.
From Verif Require Import OField MBase MDict PDict MSurf MPoly MComb SComb SSurf PClos.
Import ListNotations.
Local Open Scope nat_scope.

(** ** union-find *)
Section UF.
Context {L : Type} `{EqB L}.
Notation A := (L * nat)%type.
Implicit Types (uf : dict A A) (x y r p : A).

Inductive steps uf : nat -> A -> A -> Prop :=
| st_root x : dget x uf = Some x -> steps uf 0 x x
| st_step k x p r : dget x uf = Some p -> p <> x -> steps uf k p r -> steps uf (S k) x r.
Definition root uf x r := exists k, steps uf k x r.

Lemma steps_det uf k x r : steps uf k x r -> forall k' r', steps uf k' x r' -> k = k' /\ r = r'.
Proof.
  induction 1 as [x D|k x p r D N S IH]; intros k' r' S'; inversion S' as [? D'|? ? p' ? D' N' S'']; subst; try congruence; auto.
  assert (p' = p) by congruence. subst. apply IH in S''. destruct S''. auto.
Qed.
Lemma root_det uf x r r' : root uf x r -> root uf x r' -> r = r'.
Proof. intros [k S] [k' S']. apply (steps_det _ _ _ _ S _ _ S'). Qed.
Lemma root_key uf x r : root uf x r -> In x (keys uf).
Proof. intros [k S]. apply dget_keys. inversion S; subst; eauto. Qed.
Lemma root_fix uf x r : root uf x r -> dget r uf = Some r.
Proof. intros [k S]. induction S; auto. Qed.
Lemma root_root uf x r : root uf x r -> root uf r r.
Proof. intros R. exists 0. constructor. eapply root_fix; eauto. Qed.
Lemma steps_path uf k x r : steps uf k x r -> exists path, length path = S k /\ NoDup path /\
  (forall y, In y path -> In y (keys uf)) /\ forall y, In y path -> exists j, j <= k /\ steps uf j y r.
Proof.
  induction 1 as [x D|k x p r D N S [path [P1 [P2 [P3 P4]]]]].
  - exists [x]. split; auto. split; [constructor; [intros []|constructor]|]. split.
    + intros y [<-|[]]. apply dget_keys. eauto.
    + intros y [<-|[]]. exists 0. split; auto. now constructor.
  - assert (SS : steps uf (Datatypes.S k) x r) by (econstructor; eauto).
    exists (x :: path). split; [cbn; lia|]. split; [|split].
    + constructor; auto. intros I. destruct (P4 _ I) as [j [J T]]. destruct (steps_det _ _ _ _ T _ _ SS). lia.
    + intros y [<-|I]; auto. apply dget_keys. eauto.
    + intros y [<-|I]; [exists (Datatypes.S k); auto|]. destruct (P4 _ I) as [j [J T]]. exists j. split; auto.
Qed.
Lemma steps_bound uf k x r : steps uf k x r -> k < length uf.
Proof.
  intros S. destruct (steps_path _ _ _ _ S) as [path [P1 [P2 [P3 _]]]].
  pose proof (NoDup_incl_length P2 P3) as B. unfold keys in B. rewrite map_length in B. lia.
Qed.

Lemma compress uf y r' : root uf y r' -> forall x r, root uf x r -> root (dset y r' uf) x r.
Proof.
  intros Y x r [k S].
  assert (T : forall r0, dget r0 uf = Some r0 -> dget r0 (dset y r' uf) = Some r0).
  { intros r0 D. rewrite dget_dset. destruct (eqb_case r0 y) as [[-> ->]|[-> _]]; auto. f_equal.
    apply (root_det uf y); auto. exists 0. now constructor. }
  induction S as [x D|k x p r D N S IH].
  - exists 0. constructor. auto.
  - destruct (eqb_case x y) as [[_ ->]|[E1 E2]].
    + assert (r = r') as -> by (apply (root_det uf y); auto; exists (Datatypes.S k); econstructor; eauto).
      exists 1. apply (st_step _ 0 y r' r'); [now rewrite dget_dset, eqb_refl| |].
      * intros ->. assert (steps uf 0 y y) as S0 by (constructor; eapply root_fix; eauto).
        destruct (steps_det _ _ _ _ S0 (Datatypes.S k) y) as [X _]; [econstructor; eauto|discriminate].
      * constructor. apply T. eapply root_fix. eauto.
    + destruct IH as [k' S']. exists (Datatypes.S k'). apply (st_step _ k' x p r); auto.
      rewrite dget_dset, E1. auto.
Qed.

Lemma uf_find_spec fuel : forall uf k x r, steps uf k x r -> k < fuel -> exists uf', uf_find fuel uf x = Ok (uf', r) /\
  keys uf' = keys uf /\ forall y r', root uf y r' -> root uf' y r'.
Proof.
  induction fuel as [|fuel IH]; intros uf k x r S Lk; [lia|].
  inversion S as [? D|k' ? p ? D N S']; subst; cbn [uf_find]; unfold dgetE; rewrite D; cbn [bind].
  - rewrite eqb_refl. exists uf. auto.
  - rewrite (proj2 (eqb_neq p x) N).
    destruct (IH uf k' p r S' ltac:(lia)) as [uf' [E [KK R]]]. rewrite E. cbn [bind fst snd].
    eexists. split; [reflexivity|].
    assert (RX : root uf' x r) by (apply R; exists (Datatypes.S k'); auto).
    split; [rewrite keys_dset_in; auto; now apply root_key in RX|].
    intros y r' Hy. apply compress; auto.
Qed.
Lemma find_spec uf x r : root uf x r -> exists uf', find uf x = Ok (uf', r) /\
  keys uf' = keys uf /\ forall y r', root uf y r' -> root uf' y r'.
Proof.
  intros [k S]. apply (uf_find_spec _ _ k); auto. pose proof (steps_bound _ _ _ _ S). lia.
Qed.

Lemma link uf a b : dget a uf = Some a -> dget b uf = Some b ->
  forall x r, root uf x r -> root (dset a b uf) x (if eqb r a then b else r).
Proof.
  intros Da Db x r [k S].
  assert (Rb : root (dset a b uf) b b).
  { exists 0. constructor. rewrite dget_dset. destruct (eqb_case b a) as [[-> _]|[-> _]]; auto. }
  induction S as [x D|k x p r D N S IH].
  - destruct (eqb_case x a) as [[-> ->]|[E NE]].
    + destruct (eqb_case b a) as [[_ E2]|[_ E2]].
      * now rewrite E2 in *.
      * exists 1. apply (st_step _ 0 a b b); auto; [now rewrite dget_dset, eqb_refl|].
        destruct Rb as [k S]. constructor. rewrite dget_dset. rewrite (proj2 (eqb_neq b a)) by auto. auto.
    + rewrite E. exists 0. constructor. rewrite dget_dset, E. auto.
  - assert (NE : x <> a) by congruence. destruct IH as [k' S']. exists (Datatypes.S k'). apply (st_step _ k' x p); auto.
    rewrite dget_dset, (proj2 (eqb_neq x a) NE). auto.
Qed.

Notation clos := (clos_refl_sym_trans A).
(** the dictionary [uf] represents the equivalence generated by [R] on [es] *)
Record represents (es : list A) uf (R : A -> A -> Prop) : Prop := {
  rp_keys : keys uf = es;
  rp_total : forall x, In x es -> exists r, root uf x r;
  rp_eq : forall x y r r', root uf x r -> root uf y r' -> (r = r' <-> clos R x y) }.
Lemma represents_init es : represents es (map (fun d => (d, d)) es) (fun _ _ => False).
Proof.
  assert (K : keys (map (fun d : A => (d, d)) es) = es) by (unfold keys; rewrite map_map; cbn; apply map_id).
  assert (G : forall x y, dget x (map (fun d : A => (d, d)) es) = Some y -> y = x).
  { clear K. intros x y E. apply dget_In in E. apply in_map_iff in E. destruct E as [d [[= -> ->] _]]. auto. }
  assert (RT : forall x r, root (map (fun d : A => (d, d)) es) x r -> r = x).
  { intros x r [k S]. induction S; auto. apply G in H0. congruence. }
  constructor; auto.
  - intros x I. rewrite <- K in I. apply dget_keys in I. destruct I as [v E]. exists x, 0. constructor. now rewrite E, (G _ _ E).
  - intros x y r r' R R'. apply RT in R, R'. subst. split; [intros ->; apply rst_refl|].
    intros C. induction C; [tauto|auto|auto|congruence].
Qed.
Lemma represents_ext es uf uf' R : represents es uf R -> keys uf' = keys uf ->
  (forall y r', root uf y r' -> root uf' y r') -> represents es uf' R.
Proof.
  intros [K T E] K' Ro. constructor; [congruence| |].
  - intros x I. destruct (T x I) as [r Hr]. eauto.
  - intros x y r r' Hx Hy.
    assert (Ix : In x es) by (apply root_key in Hx; congruence). assert (Iy : In y es) by (apply root_key in Hy; congruence).
    destruct (T x Ix) as [r1 H1], (T y Iy) as [r2 H2].
    rewrite (root_det _ _ _ _ Hx (Ro _ _ H1)), (root_det _ _ _ _ Hy (Ro _ _ H2)). eauto.
Qed.
Lemma represents_R es uf R R' : (forall x y, R x y <-> R' x y) -> represents es uf R -> represents es uf R'.
Proof.
  intros RR [K T E]. constructor; auto. intros x y r r' Hx Hy. rewrite (E x y r r' Hx Hy).
  split; apply clos_mono; intros; now apply RR.
Qed.
Lemma represents_union es uf R a b ra rb : represents es uf R -> root uf a ra -> root uf b rb ->
  represents es (dset ra rb uf) (add_pair R a b).
Proof.
  intros RP Ha Hb. destruct RP as [K T E].
  pose proof (link uf ra rb (root_fix _ _ _ Ha) (root_fix _ _ _ Hb)) as LK.
  constructor.
  - rewrite keys_dset_in; auto. now apply root_root, root_key in Ha.
  - intros x I. destruct (T x I) as [r Hr]. eauto.
  - intros x y r r' Hx Hy.
    assert (Ix : In x es). { apply root_key in Hx. rewrite keys_dset_in in Hx by (now apply root_root, root_key in Ha). congruence. }
    assert (Iy : In y es). { apply root_key in Hy. rewrite keys_dset_in in Hy by (now apply root_root, root_key in Ha). congruence. }
    destruct (T x Ix) as [r1 H1], (T y Iy) as [r2 H2].
    rewrite (root_det _ _ _ _ Hx (LK _ _ H1)), (root_det _ _ _ _ Hy (LK _ _ H2)).
    rewrite clos_add, <- (E x y r1 r2 H1 H2), <- (E x a r1 ra H1 Ha), <- (E b y rb r2 Hb H2), <- (E x b r1 rb H1 Hb), <- (E a y ra r2 Ha H2).
    destruct (eqb_case r1 ra) as [[-> ->]|[-> N1]], (eqb_case r2 ra) as [[-> ->]|[-> N2]]; intuition congruence.
Qed.
End UF.

(** ** counting the corners *)
Section Count.
Context {L : Type} `{EqB L}.
Notation A := (L * nat)%type.
Variable S : csurf L.

Lemma In_darts d : In d (darts S) <-> is_dart S d.
Proof.
  unfold darts, is_dart. rewrite in_concat. split.
  - intros [l [I J]]. apply in_map_iff in I. destruct I as [a [<- I]]. apply in_map_iff in J.
    destruct J as [e [<- J]]. apply in_seq in J. cbn. split; auto. lia.
  - destruct d as [l e]. cbn. intros [I J]. eexists. split; [apply in_map; eauto|]. apply in_map. apply in_seq. lia.
Qed.
Lemma NoDup_darts : NoDup (c_labels S) -> NoDup (darts S).
Proof.
  unfold darts. induction (c_labels S) as [|l ls IH]; cbn; intros N; [constructor|].
  inversion N as [|? ? N1 N2]; subst.
  assert (D : forall (xs ys : list A), NoDup xs -> NoDup ys -> (forall x, In x xs -> In x ys -> False) -> NoDup (xs ++ ys)).
  { induction xs as [|x xs IX]; cbn; auto. intros ys NX NY X. inversion NX; subst. constructor.
    - rewrite in_app_iff. intros [I|I]; eauto.
    - apply IX; eauto. }
  apply D; auto.
  - apply FinFun.Injective_map_NoDup; [intros a b; congruence|apply seq_NoDup].
  - intros [a e] I J. apply in_map_iff in I. destruct I as [e' [[= <- <-] _]].
    apply in_concat in J. destruct J as [xs [J1 J2]]. apply in_map_iff in J1. destruct J1 as [l' [<- J1]].
    apply in_map_iff in J2. destruct J2 as [e'' [[= <- _] _]]. auto.
Qed.

Lemma dart_pos d : is_dart S d -> 0 < c_nv S (fst d).
Proof. intros [_ D]. lia. Qed.
Lemma dnext_dart d : is_dart S d -> is_dart S (dnext S d).
Proof. intros D. pose proof (dart_pos _ D). destruct D. split; auto. cbn. apply Nat.mod_upper_bound. lia. Qed.
Lemma dprev_dart d : is_dart S d -> is_dart S (dprev S d).
Proof. intros D. pose proof (dart_pos _ D). destruct D. split; auto. cbn. apply Nat.mod_upper_bound. lia. Qed.
Lemma dnext_dprev d : is_dart S d -> dnext S (dprev S d) = d.
Proof.
  destruct d as [l e]. intros [_ D]. cbn in D. unfold dnext, dprev. cbn. f_equal.
  destruct e as [|e].
  - rewrite (Nat.mod_small (0 + c_nv S l - 1)) by lia. replace (0 + c_nv S l - 1 + 1) with (c_nv S l) by lia. apply Nat.mod_same. lia.
  - replace (Datatypes.S e + c_nv S l - 1) with (e + 1 * c_nv S l) by lia. rewrite Nat.mod_add by lia.
    rewrite (Nat.mod_small e) by lia. rewrite Nat.mod_small; lia.
Qed.
Lemma dprev_dnext d : is_dart S d -> dprev S (dnext S d) = d.
Proof.
  destruct d as [l e]. intros [_ D]. cbn in D. unfold dnext, dprev. cbn. f_equal.
  destruct (Nat.eq_dec (e + 1) (c_nv S l)) as [E|N].
  - rewrite E, Nat.mod_same by lia. rewrite Nat.mod_small; lia.
  - rewrite (Nat.mod_small (e + 1)) by lia. replace (e + 1 + c_nv S l - 1) with (e + 1 * c_nv S l) by lia.
    rewrite Nat.mod_add by lia. apply Nat.mod_small. lia.
Qed.

(** the pairs that are merged *)
Definition merged (ds : list A) x y := In x ds /\ c_opp S (dprev S x) = Some y.
Variable CV : cvalid S.
Notation clos := (clos_refl_sym_trans A).
Lemma same_vertex_merged x y : same_vertex S x y <-> clos (merged (darts S)) x y.
Proof.
  split; apply clos_join; clear x y; intros x y.
  - intros [l [e [l' [e' [D [O C]]]]]]. destruct (cv_opp S CV _ _ D O) as [D' O'].
    unfold same_corner in C. destruct x as [x1 x2], y as [y1 y2]. cbn [fst snd] in C.
    destruct C as [[[-> ->] [-> ->]]|[[-> ->] [-> ->]]].
    + destruct D as [D1 D2]. cbn [fst snd] in D2. rewrite Nat.mod_small by auto. apply rst_sym, rst_step.
      change (l', (e' + 1) mod c_nv S l') with (dnext S (l', e')). split; [apply In_darts, dnext_dart; auto|].
      now rewrite dprev_dnext.
    + destruct D' as [D1 D2]. cbn [fst snd] in D2. rewrite (Nat.mod_small e') by auto. apply rst_step.
      change (l, (e + 1) mod c_nv S l) with (dnext S (l, e)). split; [apply In_darts, dnext_dart; auto|].
      now rewrite dprev_dnext.
  - intros [I O]. apply In_darts in I. apply rst_step. destruct y as [l' e'].
    pose proof (dprev_dart _ I) as P. destruct (cv_opp S CV _ _ P O) as [D' _].
    destruct (dprev S x) as [l e] eqn:E. exists l, e, l', e'. split; auto. split; auto. right.
    pose proof (dnext_dprev _ I) as X. rewrite E in X. subst x. unfold same_corner, dnext. cbn. split; auto. split; auto.
    rewrite Nat.mod_small; auto. apply D'.
Qed.

Lemma uf_loop_spec ds : forall uf done, incl ds (darts S) -> represents (darts S) uf (merged done) ->
  exists uf', uf_loop S uf ds = Ok uf' /\ represents (darts S) uf' (merged (done ++ ds)).
Proof.
  induction ds as [|d ds IH]; intros uf done I R.
  - exists uf. rewrite app_nil_r. auto.
  - assert (Id : In d (darts S)) by (apply I; cbn; auto).
    assert (X : exists uf', uf_union S uf d = Ok uf' /\ represents (darts S) uf' (merged (done ++ [d]))).
    { unfold uf_union. destruct (c_opp S (dprev S d)) as [c|] eqn:O.
      - assert (Ic : In c (darts S)).
        { apply In_darts. apply In_darts in Id. apply (cv_opp S CV _ _ (dprev_dart _ Id) O). }
        destruct (rp_total _ _ _ R c Ic) as [rc Rc]. destruct (find_spec uf c rc Rc) as [uf1 [E1 [K1 M1]]].
        rewrite E1. cbn [bind fst snd]. pose proof (represents_ext _ _ _ _ R K1 M1) as R1.
        destruct (rp_total _ _ _ R1 d Id) as [rd Rd]. destruct (find_spec uf1 d rd Rd) as [uf2 [E2 [K2 M2]]].
        rewrite E2. cbn [bind fst snd]. pose proof (represents_ext _ _ _ _ R1 K2 M2) as R2.
        eexists. split; [reflexivity|].
        eapply represents_R; [|exact (represents_union _ _ _ d c rd rc R2 (M2 _ _ Rd) (M2 _ _ (M1 _ _ Rc)))].
        intros x y. unfold add_pair, merged. rewrite in_app_iff. cbn. split.
        + intros [[J1 J2]|[-> ->]]; auto.
        + intros [[J|[<-|[]]] J2]; auto. right. split; congruence.
      - exists uf. split; auto. eapply represents_R; [|exact R]. intros x y. unfold merged. rewrite in_app_iff. cbn.
        split; [tauto|]. intros [[J|[<-|[]]] J2]; auto. congruence. }
    destruct X as [uf' [E R']]. cbn [uf_loop]. rewrite E. cbn [bind].
    destruct (IH uf' (done ++ [d])) as [uf'' [E2 R2]]; auto; [intros z Hz; apply I; cbn; auto|].
    exists uf''. split; auto. rewrite <- app_assoc in R2. exact R2.
Qed.

Lemma uf_collect_spec R0 ds : forall uf found, incl ds (darts S) -> represents (darts S) uf R0 -> NoDup found ->
  (forall x, In x found -> In x (darts S) /\ root uf x x) ->
  exists vs, uf_collect uf ds found = Ok vs /\ NoDup vs /\ (forall x, In x vs -> In x (darts S) /\ root uf x x) /\
    (forall x, In x found -> In x vs) /\
    (forall x, In x ds -> exists y, In y vs /\ root uf x y).
Proof.
  induction ds as [|d ds IH]; intros uf found I R ND F.
  - exists found. cbn. split; auto. do 3 (split; auto). intros x [].
  - assert (Id : In d (darts S)) by (apply I; cbn; auto).
    destruct (rp_total _ _ _ R d Id) as [rd Rd]. destruct (find_spec uf d rd Rd) as [uf1 [E1 [K1 M1]]].
    cbn [uf_collect]. rewrite E1. cbn [bind fst snd]. pose proof (represents_ext _ _ _ _ R K1 M1) as R1.
    assert (B : forall x r, root uf1 x r -> root uf x r).
    { intros x r X. assert (Ix : In x (darts S)) by (apply root_key in X; rewrite (rp_keys _ _ _ R1) in X; auto).
      destruct (rp_total _ _ _ R x Ix) as [r' Y]. now rewrite (root_det _ _ _ _ X (M1 _ _ Y)). }
    assert (Irc : In rd (darts S)) by (apply root_root, root_key in Rd; rewrite (rp_keys _ _ _ R) in Rd; auto).
    set (found' := if mem rd found then found else rd :: found).
    assert (F1 : forall x, In x found -> In x found') by (intros x; unfold found'; destruct (mem rd found); cbn; auto).
    assert (F2 : In rd found').
    { unfold found'. destruct (mem rd found) eqn:E; cbn; auto. now apply mem_In. }
    destruct (IH uf1 found') as [vs [E2 [N2 [V2 [V3 V4]]]]]; auto.
    + intros z Hz. apply I. cbn. auto.
    + unfold found'. destruct (mem rd found) eqn:E; auto. constructor; auto. now apply mem_not_In.
    + intros x Hx. unfold found' in Hx.
      assert (Q : In x found \/ x = rd) by (destruct (mem rd found); cbn in Hx; intuition).
      destruct Q as [Q| ->]; [destruct (F x Q); auto|]. split; auto. apply M1. eapply root_root; eauto.
    + exists vs. split; auto. split; auto. split; [intros x Hx; destruct (V2 x Hx); auto|]. split; auto.
      intros x [<-|Hx]; [exists rd; auto|]. destruct (V4 x Hx) as [y [Y1 Y2]]. eauto.
Qed.

Lemma count_corners_spec : exists V, count_corners S = Ok V /\ has_classes (is_dart S) (same_vertex S) V.
Proof.
  unfold count_corners.
  destruct (uf_loop_spec (darts S) (map (fun d => (d, d)) (darts S)) []) as [uf [E R]].
  { intros x Hx. exact Hx. }
  { eapply represents_R; [|apply represents_init]. unfold merged. cbn. tauto. }
  rewrite E. cbn [bind]. cbn [app] in R.
  destruct (uf_collect_spec _ (darts S) uf [] (fun x Hx => Hx) R) as [vs [E2 [N [V1 [_ V3]]]]].
  { constructor. } { intros x []. }
  rewrite E2. cbn [bind]. exists (length vs). split; auto. exists vs. split; auto. split; auto. split; [|split].
  - intros x Hx. now apply In_darts, V1.
  - intros x Hx. apply In_darts in Hx. destruct (V3 x Hx) as [y [Y1 Y2]]. exists y. split; auto.
    apply same_vertex_merged. apply (rp_eq _ _ _ R x y y y); auto. now apply V1.
  - intros x y Hx Hy E3. apply same_vertex_merged in E3. destruct (V1 x Hx), (V1 y Hy). now apply (rp_eq _ _ _ R x y x y).
Qed.

(** ** counting the edges *)
Definition folded d := match c_opp S d with Some c => eqb c d | None => false end.
Definition single d := match c_opp S d with Some c => eqb c d | None => true end.
Lemma count_edges_spec ds : forall E V, count_edges S ds E V =
  (fold_left (fun E d => if single d then Qred (E + 1) else Qred (E + (1 # 2))) ds E, V + length (filter folded ds)).
Proof.
  induction ds as [|d ds IH]; intros E V; cbn [count_edges fold_left filter]; [cbn; f_equal; lia|].
  unfold single at 2, folded at 1. destruct (c_opp S d) as [c|]; [|now rewrite IH].
  destruct (eqb c d); rewrite IH; [|reflexivity]. cbn. f_equal. lia.
Qed.
Lemma fold_edges ds : forall E, (fold_left (fun E d => if single d then Qred (E + 1) else Qred (E + (1 # 2))) ds E ==
  E + (Z.of_nat (length ds + length (filter single ds)) # 2))%Q.
Proof.
  induction ds as [|d ds IH]; intros E; cbn [fold_left filter]; [cbn; ring|].
  rewrite IH. destruct (single d); rewrite Qred_correct; cbn [length];
  rewrite <- Qplus_assoc; apply Qplus_comp; try reflexivity; unfold Qeq, Qplus; cbn [Qnum Qden]; lia.
Qed.
Lemma fold_red ds : forall E, Qred E = E -> let E' := fold_left (fun E d => if single d then Qred (E + 1) else Qred (E + (1 # 2))) ds E in Qred E' = E'.
Proof.
  induction ds as [|d ds IH]; intros E R; cbn [fold_left]; auto. apply IH. destruct (single d); apply Qred_complete; apply Qred_correct.
Qed.
Lemma Qred_even n : Qred (Z.of_nat (2 * n) # 2) = (Z.of_nat n # 1).
Proof. transitivity (Qred (Z.of_nat n # 1)); [apply Qred_complete; unfold Qeq; cbn; lia|]. unfold Qred.
  pose proof (Z.ggcd_gcd (Z.of_nat n) 1) as G. pose proof (Z.ggcd_correct_divisors (Z.of_nat n) 1) as D.
  destruct (Z.ggcd (Z.of_nat n) 1) as [g [aa bb]]. cbn in *. rewrite Z.gcd_1_r in G. subst g. destruct D as [D1 D2].
  assert (aa = Z.of_nat n) by lia. assert (bb = 1%Z) by lia. subst. reflexivity.
Qed.
Lemma edge_classes n : forall ds, length ds <= n -> NoDup ds -> (forall d, In d ds -> is_dart S d) ->
  (forall d c, In d ds -> c_opp S d = Some c -> In c ds) ->
  exists E, has_classes (fun d => In d ds) (same_edge S) E /\ 2 * E = length ds + length (filter single ds).
Proof.
  induction n as [|n IH]; intros ds Ln ND DA CL.
  - destruct ds; [|cbn in Ln; lia]. exists 0. split; [|reflexivity]. exists []. split; auto. split; [constructor|].
    split; [intros x []|]. split; [intros x []|intros x y []].
  - destruct ds as [|d ds]; [exists 0; split; [|reflexivity]; exists []; split; auto; split; [constructor|];
    split; [intros x []|]; split; [intros x []|intros x y []]|].
    inversion ND as [|? ? Nd ND']; subst.
    destruct (single d) eqn:Sd.
    + (* d is a class of its own *)
      assert (OP : forall x, In x ds -> c_opp S x <> Some d).
      { intros x Hx O. destruct (cv_opp S CV x d) as [_ O']; auto; [apply DA; cbn; auto|].
        unfold single in Sd. rewrite O' in Sd. apply (eqb_ok x d) in Sd. subst. auto. }
      destruct (IH ds) as [E [[reps [R1 [R2 [R3 [R4 R5]]]]] HE]]; auto; [cbn in Ln; lia|intros x Hx; apply DA; cbn; auto| |].
      { intros x c Hx O. destruct (CL x c (or_intror Hx) O) as [<-|]; auto. now apply OP in O. }
      exists (Datatypes.S E). split; [|cbn [filter]; rewrite Sd; cbn [length]; lia].
      exists (d :: reps). split; [cbn; auto|]. split; [constructor; auto; intros X; apply Nd; auto|].
      split; [intros x [<-|Hx]; cbn; auto|]. split.
      * intros x [<-|Hx]; [exists d; cbn; split; auto; now left|]. destruct (R4 x Hx) as [y [Y1 Y2]]. exists y. cbn. auto.
      * assert (OD : forall y, In y ds -> c_opp S d <> Some y).
        { intros y Hy O. unfold single in Sd. rewrite O in Sd. apply (eqb_ok y d) in Sd. subst. auto. }
        intros x y [<-|Hx] [<-|Hy] Q; auto.
        -- destruct Q as [|Q]; auto. exfalso. apply (OD y); auto.
        -- destruct Q as [|Q]; auto. exfalso. apply (OP x); auto.
    + (* d is paired with another edge *)
      unfold single in Sd. destruct (c_opp S d) as [c|] eqn:O; [|discriminate]. apply eqb_neq in Sd.
      destruct (cv_opp S CV d c) as [Dc Oc]; auto; [apply DA; cbn; auto|].
      assert (Ic : In c ds) by (destruct (CL d c (or_introl eq_refl) O); [congruence|auto]).
      destruct (in_split _ _ Ic) as [l1 [l2 Hl]].
      assert (NDl : NoDup (l1 ++ l2) /\ ~ In c (l1 ++ l2)) by (rewrite Hl in ND'; apply NoDup_remove in ND'; auto).
      assert (IN : forall x, In x ds <-> x = c \/ In x (l1 ++ l2)).
      { intros x. rewrite Hl, !in_app_iff. cbn. split; intuition. }
      assert (OP : forall x y, In x (l1 ++ l2) -> c_opp S x = Some y -> In y (l1 ++ l2)).
      { intros x y Hx Oy. assert (Ix : In x ds) by (apply IN; auto).
        destruct (CL x y (or_intror Ix) Oy) as [<-|Iy].
        - destruct (cv_opp S CV x d) as [_ X]; auto; [apply DA; cbn; auto|]. rewrite O in X. injection X as ->. tauto.
        - apply IN in Iy. destruct Iy as [->|Iy]; auto.
          destruct (cv_opp S CV x c) as [_ X]; auto; [apply DA; cbn; auto|]. rewrite Oc in X. injection X as <-. contradiction. }
      destruct (IH (l1 ++ l2)) as [E [[reps [R1 [R2 [R3 [R4 R5]]]]] HE]].
      { rewrite Hl in Ln. cbn in Ln. rewrite app_length in *. cbn in Ln. lia. }
      { tauto. } { intros x Hx. apply DA. right. apply IN. auto. } { exact OP. }
      exists (Datatypes.S E). split.
      * exists (d :: reps). split; [cbn; auto|]. split; [constructor; auto; intros X; apply Nd, IN; auto|].
        split; [intros x [<-|Hx]; cbn; auto; right; apply IN; auto|]. split.
        -- intros x [<-|Hx]; [exists d; cbn; split; auto; now left|]. apply IN in Hx. destruct Hx as [->|Hx].
           ++ exists d. split; [cbn; auto|]. now right.
           ++ destruct (R4 x Hx) as [y [Y1 Y2]]. exists y. cbn. auto.
        -- intros x y [<-|Hx] [<-|Hy] Q; auto.
           ++ destruct Q as [|Q]; auto. exfalso. rewrite O in Q. injection Q as ->. apply R3 in Hy. tauto.
           ++ destruct Q as [|Q]; auto. exfalso. apply R3 in Hx. destruct (cv_opp S CV x d) as [_ X]; auto.
              { apply DA. right. apply IN. auto. } rewrite O in X. injection X as ->. tauto.
      * assert (Sc : single c = false) by (unfold single; rewrite Oc; apply eqb_neq; congruence).
        assert (Sd' : single d = false) by (unfold single; rewrite O; apply eqb_neq; congruence).
        cbn [filter]. rewrite Sd'. rewrite Hl, filter_app. cbn [filter]. rewrite Sc.
        rewrite filter_app, !app_length in HE. cbn [length]. rewrite !app_length. cbn [length]. lia.
Qed.

Lemma has_classes_ext {B} (D D' : B -> Prop) R n : (forall x, D x <-> D' x) -> has_classes D R n -> has_classes D' R n.
Proof.
  intros DD [reps [R1 [R2 [R3 [R4 R5]]]]]. exists reps. do 2 (split; auto). split; [intros; apply DD; auto|].
  split; auto. intros x Hx. apply R4, DD, Hx.
Qed.
Lemma has_count_list {B} (D : B -> Prop) (xs : list B) : NoDup xs -> (forall x, In x xs <-> D x) -> has_count D (length xs).
Proof.
  intros N I. exists xs. split; auto. split; auto. split; [intros; now apply I|]. split; auto.
  intros x Hx. exists x. split; auto. now apply I.
Qed.

Lemma euler_spec : exists chi, euler_characteristic S = Ok chi /\ euler_number S chi.
Proof.
  unfold euler_characteristic. destruct count_corners_spec as [V [E HV]]. rewrite E. cbn [bind].
  pose proof (NoDup_darts (cv_labels S CV)) as ND.
  destruct (edge_classes (length (darts S)) (darts S)) as [EE [HE H2]]; auto.
  { intros d. apply In_darts. } { intros d c Hd O. apply In_darts in Hd. apply In_darts. apply (cv_opp S CV d c Hd O). }
  rewrite count_edges_spec. cbn [fst snd].
  set (F := fold_left _ _ _).
  assert (X : F = (Z.of_nat EE # 1)).
  { rewrite <- (fold_red (darts S) 0 eq_refl : Qred F = F). unfold F.
    rewrite (Qred_complete _ _ (fold_edges (darts S) 0)). rewrite <- H2. rewrite <- (Qred_even EE).
    apply Qred_complete. ring. }
  rewrite X. cbn [Qden Qnum Pos.eqb passert bind]. eexists. split; [reflexivity|].
  exists V, (length (filter folded (darts S))), EE, (length (c_labels S)).
  split; auto. split; [|split; [|split]].
  - apply has_count_list; [now apply NoDup_filter|]. intros x. rewrite filter_In, In_darts. unfold folded.
    destruct (c_opp S x) as [c|]; [|split; intros [? X']; discriminate X']. rewrite eqb_ok. split; intros [? ?]; split; congruence.
  - eapply has_classes_ext; [|exact HE]. intros x. apply In_darts.
  - apply has_count_list; [apply CV|tauto].
  - reflexivity.
Qed.
End Count.

Lemma Qred_int z : Qred (inject_Z z) = inject_Z z.
Proof.
  unfold Qred, inject_Z. pose proof (Z.ggcd_gcd z 1) as G1. pose proof (Z.ggcd_correct_divisors z 1) as D1.
  destruct (Z.ggcd z 1) as [g [aa bb]]. cbn in *. rewrite Z.gcd_1_r in G1. subst g. destruct D1 as [D1 D2].
  rewrite Z.mul_1_l in D1, D2. subst. reflexivity.
Qed.

(** the number of classes is determined *)
Lemma has_classes_unique {B} (D : B -> Prop) (R : B -> B -> Prop) n m :
  (forall x y, R x y -> R y x) -> (forall x y z, R x y -> R y z -> R x z) ->
  has_classes D R n -> has_classes D R m -> n = m.
Proof.
  intros SY TR.
  assert (LE : forall n m, has_classes D R n -> has_classes D R m -> n <= m).
  { clear n m. intros n m [xs [<- [NX [DX [CX IX]]]]] [ys [<- [NY [DY [CY IY]]]]].
    assert (G : forall xs, NoDup xs -> (forall x, In x xs -> D x) -> (forall x y, In x xs -> In y xs -> R x y -> x = y) ->
      exists zs, length zs = length xs /\ NoDup zs /\ (forall z, In z zs -> In z ys /\ exists x, In x xs /\ R x z)).
    { clear - CY SY TR. induction xs as [|x xs IH]; intros N DX I.
      - exists []. split; auto. split; [constructor|intros z []].
      - inversion N; subst. destruct IH as [zs [Z1 [Z2 Z3]]]; auto; [intros; apply DX; cbn; auto|intros; apply I; cbn; auto|].
        destruct (CY x) as [y [Y1 Y2]]; [apply DX; cbn; auto|]. exists (y :: zs). split; [cbn; auto|]. split.
        + constructor; auto. intros Hy. destruct (Z3 y Hy) as [_ [x' [X1 X2]]].
          assert (x' = x); [|subst; auto]. apply I; cbn; auto. eapply TR; eauto.
        + intros z [<-|Hz]; [split; auto; exists x; cbn; auto|]. destruct (Z3 z Hz) as [A1 [x' [A2 A3]]].
          split; auto. exists x'. cbn. auto. }
    destruct (G xs NX DX IX) as [zs [Z1 [Z2 Z3]]]. rewrite <- Z1. apply NoDup_incl_length; auto.
    intros z Hz. now apply Z3. }
  intros A B0. apply Nat.le_antisymm; eauto.
Qed.
