(** Proofs about mutable surfaces: invariants along arbitrary histories of calls. *)
From Coq Require Import List Bool ZArith Lia Arith Relations FinFun.
From Verif Require Import MBase MDict PDict MMut SMut PMut PMut2.
Import ListNotations.
Local Open Scope Z_scope.

Lemma fresh_run {P} fuel n (d : dict label P) :
  (n <= fresh fuel n d <= n + Z.of_nat fuel) /\
  (forall k, n <= k < fresh fuel n d -> In k (keys d)) /\
  (In (fresh fuel n d) (keys d) -> fresh fuel n d = n + Z.of_nat fuel).
Proof.
  revert n. induction fuel as [|fuel IH]; intros n; cbn [fresh].
  - split; [lia|]. split; [lia|]. lia.
  - destruct (dmem n d) eqn:M.
    + apply dmem_keys in M. destruct (IH (n + 1)) as [A [B C]]. split; [lia|]. split.
      * intros k Hk. destruct (Z.eq_dec k n) as [->|N]; auto. apply B. lia.
      * intros X. apply C in X. lia.
    + apply dmem_false in M. split; [lia|]. split; [lia|]. contradiction.
Qed.
Lemma fresh_ok {P} n (d : dict label P) :
  let m := fresh (S (length d)) n d in ~ In m (keys d) /\ n <= m /\ forall k, n <= k < m -> In k (keys d).
Proof.
  cbv zeta. destruct (fresh_run (S (length d)) n d) as [A [B C]]. split; [|split; [lia|auto]].
  intros X. apply C in X.
  assert (L : (length (map (fun i : nat => (n + Z.of_nat i)%Z) (seq 0 (S (length d)))) <= length (keys d))%nat).
  { apply NoDup_incl_length.
    - apply FinFun.Injective_map_NoDup; [intros i j; lia|apply seq_NoDup].
    - intros k Hk. apply in_map_iff in Hk. destruct Hk as [i [<- Hi]]. apply in_seq in Hi. apply B. lia. }
  rewrite map_length, seq_length in L. unfold keys in L. rewrite map_length in L. lia.
Qed.

Section P.
Context {P : Type} (nv : P -> nat).
Implicit Types (s : @surf P) (l : label).
Notation inv := (@inv P nv).
Notation good := (@good P nv).

Lemma gz_none d (x : hedge) : ~ In (fst x) (keys d) -> gz d x = None.
Proof. intros N. unfold gz. apply dget_None in N. now rewrite N. Qed.
Lemma gz_dset_none d l n (y : hedge) : gz (dset l (repeat None n) d) y = if fst y =? l then None else gz d y.
Proof.
  unfold gz. rewrite dget_dset. cbn [eqb EqB_Z]. destruct (fst y =? l); auto.
  destruct (0 <=? snd y); auto. rewrite nth_error_repeat. now destruct (Z.to_nat (snd y) <? n)%nat.
Qed.
Lemma gz_ddel d l (y : hedge) : NoDup (keys d) -> gz (ddel l d) y = if fst y =? l then None else gz d y.
Proof. intros N. unfold gz. rewrite dget_ddel by auto. cbn [eqb EqB_Z]. now destruct (fst y =? l). Qed.
Lemma conn_eq (d d' : dict label (list (option hedge))) a b :
  (forall y, gz d' y = gz d y) -> conn d a b <-> conn d' a b.
Proof. intros G. split; apply conn_mono; intros x y; now rewrite G. Qed.

(** ** add_polygon *)
Lemma add_polygon_spec s p lab : inv s ->
  exists s' r, add_polygon nv p lab s = (s', r) /\ inv s' /\ mutable s' = mutable s /\ connected s' = connected s /\
   (sep s -> sep s') /\ (forall y, gz (gluings s') y = gz (gluings s) y) /\
   (mutable s = false -> s' = s /\ r = Err PyException) /\
   (mutable s = true ->
      (exists l, r = Ok l /\ ~ In l (keys (polys s)) /\ (forall l', lab = Some l' -> l = l') /\
         (lab = None -> next_label s <= l /\ forall k, next_label s <= k < l -> In k (keys (polys s))) /\
         polys s' = polys s ++ [(l, p)] /\
         roots_ s' = (match roots_ s with nil => nil | rs => rs ++ [l] end)) \/
      (exists l, lab = Some l /\ In l (keys (polys s)) /\ s' = s /\ r = Err ValueError)).
Proof.
  intros I. unfold add_polygon, mbind, check_mutable. destruct (mutable s) eqn:Mu.
  2:{ exists s, (Err PyException). split; [reflexivity|]. repeat (split; [auto|]). congruence. }
  assert (HC : exists l s1, choose_label lab s = (s1, Ok l) /\ polys s1 = polys s /\ gluings s1 = gluings s /\
      roots_ s1 = roots_ s /\ mutable s1 = true /\ connected s1 = connected s /\ (forall l', lab = Some l' -> l = l' /\ s1 = s) /\
      (lab = None -> ~ In l (keys (polys s)) /\ next_label s <= l /\ forall k, next_label s <= k < l -> In k (keys (polys s)))).
  { destruct lab as [l|]; cbn.
    - exists l, s. repeat split; auto; try congruence.
    - eexists. eexists. split; [reflexivity|]. cbn. repeat (split; [auto; discriminate|]).
      intros _. apply (fresh_ok (next_label s) (polys s)). }
  destruct HC as [l [s1 [-> [E1 [E2 [E3 [E4 [E5 [E6 E7]]]]]]]]]. unfold mget, mlift.
  rewrite E1. destruct (dmem l (polys s)) eqn:M.
  - apply dmem_keys in M. destruct lab as [l'|]; [|destruct (E7 eq_refl) as [? _]; contradiction].
    destruct (E6 _ eq_refl) as [<- ->]. exists s, (Err ValueError). split; [reflexivity|].
    split; auto. split; auto. split; auto. split; auto. split; auto. split; [congruence|]. intros _. right. eauto.
  - apply dmem_false in M. cbn [mret]. unfold mret at 1. unfold modify at 1. cbn [set_polys gluings polys].
    assert (NG : ~ In l (keys (gluings s))).
    { intros X. apply dget_keys in X. destruct X as [g D]. destruct (i_len nv s I _ _ D) as [q [Dq _]].
      apply M, dget_keys. eauto. }
    rewrite E2, (proj2 (dmem_false l (gluings s)) NG). cbn [negb massert]. unfold mret at 1. unfold modify. cbn.
    rewrite E1, E2, E3. 
    set (R' := match roots_ s with nil => nil | rs => rs ++ [l] end).
    assert (RR : forall r, In r R' -> In r (roots_ s) \/ (r = l /\ roots_ s <> nil)).
    { unfold R'. destruct (roots_ s); [intros r []|]. intros r Hr. apply in_app_or in Hr. destruct Hr as [Hr|[<-|[]]]; auto.
      right. split; auto. discriminate. }
    set (s2 := match roots_ s with nil => _ | _ => _ end).
    assert (ES : s2 = Surf (dset l p (polys s)) (dset l (repeat None (nv p)) (gluings s)) R' (next_label s1) (mutable s1) (connected s1)).
    { unfold s2, R'. destruct (roots_ s) eqn:RE; unfold set_roots_, set_gluings, set_polys; cbn; rewrite ?E3, ?RE; auto. }
    rewrite ES. clear ES s2.
    assert (GZ : forall y, gz (dset l (repeat None (nv p)) (gluings s)) y = gz (gluings s) y).
    { intros y. rewrite gz_dset_none. destruct (Z.eqb_spec (fst y) l) as [E|_]; auto. symmetry. apply gz_none. congruence. }
    eexists. eexists. split; [reflexivity|]. cbn. split; [|split; [congruence|split; [congruence|split; [|split; [auto|split; [discriminate|]]]]]].
    + constructor; cbn.
      * apply NoDup_dset, (i_np nv s I).
      * apply NoDup_dset, (i_ng nv s I).
      * intros l' g. rewrite !dget_dset. cbn [eqb EqB_Z]. destruct (Z.eqb_spec l' l) as [->|_].
        -- intros [= <-]. exists p. split; auto. apply repeat_length.
        -- apply (i_len nv s I).
      * intros _ l'. rewrite !dset_notin by auto. unfold keys. rewrite !map_app, !in_app_iff. cbn.
        intros [H|H]; [left; now apply (i_tot nv s I Mu)|auto].
      * intros x y. rewrite !GZ. apply (i_inv nv s I).
      * intros r Hr. rewrite dset_notin by auto. unfold keys. rewrite map_app, in_app_iff. cbn.
        apply RR in Hr. destruct Hr as [Hr|[-> _]]; auto. left. now apply (i_roots nv s I).
    + intros [S1 S2]. split; cbn.
      * unfold R'. destruct (roots_ s) eqn:RE; [constructor|]. rewrite <- RE in *. apply NoDup_snoc; auto.
        intros X. now apply (i_roots nv s I) in X.
      * assert (ISO : forall r, In r (roots_ s) -> ~ conn (gluings s) r l).
        { intros r Hr Co. apply M. eapply conn_label; eauto. now apply (i_roots nv s I). }
        intros r r' Hr Hr' Co. apply (conn_eq (gluings s)) in Co; [|exact GZ].
        apply RR in Hr, Hr'. destruct Hr as [Hr|[-> _]], Hr' as [Hr'|[-> _]]; auto.
        -- exfalso. eapply ISO; eauto.
        -- exfalso. apply (ISO _ Hr'). apply (conn_sym _ _ _ (i_inv nv s I)). exact Co.
    + intros _. left. exists l. split; auto. split; auto. split; [intros l' H; now apply E6|]. split; [intros H; now apply E7|].
      split; [now apply dset_notin|reflexivity].
Qed.

(** ** remove_polygon *)
Definition rmz (d : dict label (list (option hedge))) (l : label) (y : hedge) : option hedge :=
  if fst y =? l then None else match gz d y with Some c => if fst c =? l then None else Some c | None => None end.

Record unglue_inv s0 l (done : list nat) s : Prop := {
  ug_frame : frame s0 s;
  ug_roots : roots_ s = roots_ s0;
  ug_sub : forall y, gz (gluings s) y = gz (gluings s0) y \/ gz (gluings s) y = None;
  ug_out : forall y : hedge, fst y <> l -> gz (gluings s) y = gz (gluings s0) y \/
             (gz (gluings s) y = None /\ exists e, gz (gluings s0) y = Some (l, e));
  ug_done : forall (y : hedge) i, fst y <> l -> gz (gluings s0) y = Some (l, Z.of_nat i) -> In i done -> gz (gluings s) y = None;
  ug_keep : forall y e, gz (gluings s0) (l, e) = Some y -> fst y <> l -> gz (gluings s) (l, e) = Some y }.

Lemma unglue_loop s0 l (HI : inv s0) is : forall done s, unglue_inv s0 l done s ->
  (forall i, In i is -> inrange (gluings s0) (l, Z.of_nat i)) ->
  exists s', mfor is (fun i => mbind mget (fun s => mbind (mlift (opposite_edge s l (Z.of_nat i))) (fun c =>
      match c with None => mret tt | Some c => set_gluing (fst c) (snd c) None end))) s = (s', Ok tt) /\
    unglue_inv s0 l (done ++ is) s'.
Proof.
  induction is as [|i is IH]; intros done s U R; cbn [mfor].
  - exists s. split; [reflexivity|]. now rewrite app_nil_r.
  - unfold mbind at 1 2 3. unfold mget at 1. unfold mlift at 1.
    assert (Ri : inrange (gluings s) (l, Z.of_nat i)).
    { apply (frame_range s0 s); [apply (ug_frame _ _ _ _ U)|]. apply R. cbn. auto. }
    rewrite (proj2 (opposite_edge_Ok s l (Z.of_nat i) (gz (gluings s) (l, Z.of_nat i)) ltac:(lia))) by auto.
    replace (done ++ i :: is) with ((done ++ [i]) ++ is) by (now rewrite <- app_assoc).
    destruct U as [U1 U2 U3 U4 U5 U6].
    assert (R' : forall j, In j is -> inrange (gluings s0) (l, Z.of_nat j)) by (intros; apply R; cbn; auto).
    destruct (gz (gluings s) (l, Z.of_nat i)) as [c|] eqn:C.
    + assert (C0 : gz (gluings s0) (l, Z.of_nat i) = Some c) by (destruct (U3 (l, Z.of_nat i)); congruence).
      assert (C1 := i_inv nv s0 HI _ _ C0).
      destruct (set_gluing_Ok s (fst c) (snd c) None) as [s1 [-> [F1 [Q1 G1]]]].
      { rewrite he_eta. apply (frame_range s0 s c U1). eapply gz_range; eauto. }
      rewrite he_eta in G1. apply IH; auto. constructor.
      * eapply frame_trans; eassumption.
      * congruence.
      * intros y. rewrite G1. destruct (eqb y c); auto.
      * intros y Hy. rewrite G1. destruct (hedge_case y c) as [[-> ->]|[-> N]]; auto. right. split; eauto.
      * intros y j Hy Gy Hj. rewrite G1. destruct (hedge_case y c) as [[-> ->]|[-> N]]; auto.
        apply in_app_or in Hj. destruct Hj as [Hj|[<-|[]]]; [eapply U5; eauto|].
        apply (i_inv nv s0 HI) in Gy. congruence.
      * intros y e Gy Hy. rewrite G1. destruct (hedge_case (l, e) c) as [[-> E]|[-> N]]; auto.
        exfalso. rewrite <- E in C1. rewrite Gy in C1. injection C1 as ->. cbn in Hy. congruence.
    + unfold mret at 1. apply IH; auto. constructor; auto.
      intros y j Hy Gy Hj. apply in_app_or in Hj. destruct Hj as [Hj|[<-|[]]]; [eapply U5; eauto|].
      apply (i_inv nv s0 HI) in Gy. specialize (U6 _ _ Gy Hy). congruence.
Qed.

Lemma unglue_polygon_spec s l : inv s ->
  (In l (keys (gluings s)) -> exists s', unglue_polygon nv l s = (s', Ok tt) /\ frame s s' /\ roots_ s' = roots_ s /\
     (forall y, gz (gluings s') y = rmz (gluings s) l y)) /\
  (~ In l (keys (gluings s)) -> unglue_polygon nv l s = (s, Err KeyError)).
Proof.
  intros I. split; intros K.
  2:{ unfold unglue_polygon, mbind, mget, mlift, dgetE. apply dget_None in K. now rewrite K. }
  apply dget_keys in K. destruct K as [g D]. destruct (i_len nv s I _ _ D) as [p [Dp Lg]].
  unfold unglue_polygon. unfold mbind at 1 2. unfold mget at 1. unfold mlift at 1. rewrite (proj2 (dgetE_Ok l _ g) D).
  unfold mbind at 1.
  destruct (unglue_loop s l I (seq 0 (length g)) nil s) as [s1 [E1 U]].
  - constructor; auto; [apply frame_refl|intros ? ? ? ? []].
  - intros i Hi. apply in_seq in Hi. exists (length g). unfold shape. cbn. rewrite D. cbn. split; auto. lia.
  - rewrite E1. cbn [app] in U. destruct U as [U1 U2 U3 U4 U5 U6].
    unfold mbind, mget, mlift. rewrite (proj2 (get_polygon_Ok s1 l p)) by (rewrite (f_polys _ _ U1); auto).
    unfold modify. eexists. split; [reflexivity|]. cbn.
    assert (KI : In l (keys (gluings s1))). { rewrite (f_keys _ _ U1). apply dget_keys. eauto. }
    split; [|split; [auto|]].
    + constructor; cbn.
      * apply (f_polys _ _ U1).
      * apply (f_next _ _ U1).
      * apply (f_mut _ _ U1).
      * apply (f_conn _ _ U1).
      * etransitivity; [apply (keys_dset_in _ _ _ KI)|]. apply (f_keys _ _ U1).
      * intros l'. unfold shape. rewrite dget_dset. cbn [eqb EqB_Z]. destruct (Z.eqb_spec l' l) as [->|_].
        -- rewrite D. cbn. now rewrite repeat_length, Lg.
        -- apply (f_shape _ _ U1).
    + intros y. rewrite gz_dset_none. unfold rmz. destruct (Z.eqb_spec (fst y) l) as [_|N]; auto.
      destruct (gz (gluings s) y) as [[lc ec]|] eqn:G.
      * cbn [fst]. destruct (Z.eqb_spec lc l) as [->|N'].
        -- assert (G' := i_inv nv s I _ _ G). assert (Rg := gz_range _ _ _ G'). destruct Rg as [n [S E]].
           unfold shape in S. cbn [fst snd] in *. rewrite D in S. injection S as <-.
           apply (U5 y (Z.to_nat ec)); auto; [rewrite Z2Nat.id by lia; auto|]. apply in_seq. lia.
        -- destruct (U4 y N) as [->|[_ [e E]]]; [now rewrite G|]. congruence.
      * destruct (U3 y) as [->|]; auto.
Qed.

Lemma rmz_sub d l y z : rmz d l y = Some z -> gz d y = Some z /\ fst y <> l /\ fst z <> l.
Proof.
  unfold rmz. destruct (Z.eqb_spec (fst y) l); [discriminate|]. destruct (gz d y) as [c|]; [|discriminate].
  destruct (Z.eqb_spec (fst c) l); [discriminate|]. intros [= <-]. auto.
Qed.
Lemma rmz_inv d l : (forall x y, gz d x = Some y -> gz d y = Some x) ->
  forall x y, rmz d l x = Some y -> rmz d l y = Some x.
Proof.
  intros I x y H. apply rmz_sub in H. destruct H as [H [N1 N2]]. unfold rmz. rewrite (I _ _ H).
  destruct (Z.eqb_spec (fst y) l); [contradiction|]. destruct (Z.eqb_spec (fst x) l); [contradiction|]. auto.
Qed.
Lemma In_keys_ddel_iff {B} (l k : label) (d : dict label B) : NoDup (keys d) ->
  (In k (keys (ddel l d)) <-> In k (keys d) /\ k <> l).
Proof.
  intros N. rewrite !dget_keys. rewrite (dget_ddel l d k N). cbn [eqb EqB_Z]. destruct (Z.eqb_spec k l) as [->|E].
  - split; [intros [v H]; discriminate|tauto].
  - tauto.
Qed.

Lemma remove_polygon_spec s l : inv s ->
  exists s' r, remove_polygon nv l s = (s', r) /\ inv s' /\ mutable s' = mutable s /\ connected s' = connected s /\
   next_label s' = next_label s /\
   (sep s -> sep s') /\ (forall y z, gz (gluings s') y = Some z -> gz (gluings s) y = Some z) /\
   (~ In l (keys (gluings s)) -> s' = s /\ r = Err KeyError) /\
   (In l (keys (gluings s)) -> (forall y, gz (gluings s') y = rmz (gluings s) l y) /\
      (mutable s = true -> r = Ok tt /\ polys s' = ddel l (polys s) /\
         (forall k, In k (roots_ s') <-> In k (roots_ s) /\ k <> l)) /\
      (mutable s = false -> r = Err PyException /\ polys s' = polys s /\ roots_ s' = roots_ s /\ ~ In l (keys (gluings s')))).
Proof.
  intros I. destruct (unglue_polygon_spec s l I) as [U1 U2].
  unfold remove_polygon. unfold mbind at 1.
  destruct (In_dec_of l (keys (gluings s))) as [K|K].
  2:{ rewrite (U2 K). exists s, (Err KeyError). split; [reflexivity|]. do 7 (split; [auto|]). contradiction. }
  destruct (U1 K) as [s1 [-> [F [Q G]]]]. clear U1 U2.
  assert (ND : NoDup (keys (gluings s1))) by (rewrite (f_keys _ _ F); apply (i_ng nv s I)).
  assert (GZ : forall y, gz (ddel l (gluings s1)) y = rmz (gluings s) l y).
  { intros y. rewrite gz_ddel by auto. rewrite G. destruct (Z.eqb_spec (fst y) l) as [E|_]; auto.
    unfold rmz. now rewrite E, Z.eqb_refl. }
  assert (NI : forall k, In k (keys (ddel l (gluings s1))) <-> In k (keys (gluings s)) /\ k <> l).
  { intros k. rewrite In_keys_ddel_iff by auto. now rewrite (f_keys _ _ F). }
  assert (LEN : forall k g, dget k (ddel l (gluings s1)) = Some g -> k <> l /\ exists p, dget k (polys s) = Some p /\ length g = nv p).
  { intros k g D. rewrite dget_ddel in D by auto. cbn [eqb EqB_Z] in D. destruct (Z.eqb_spec k l) as [->|N]; [discriminate|].
    split; auto. assert (S := f_shape _ _ F k). unfold shape in S. rewrite D in S. cbn in S.
    destruct (dget k (gluings s)) as [g0|] eqn:D0; [|discriminate]. cbn in S. injection S as S.
    destruct (i_len nv s I _ _ D0) as [p [Dp Lp]]. exists p. split; auto. congruence. }
  assert (CM : forall a b, conn (ddel l (gluings s1)) a b -> conn (gluings s) a b).
  { intros a b. apply conn_mono. intros x y. rewrite GZ. intros H. now apply rmz_sub in H. }
  unfold mbind, modify at 1, check_mutable. cbn [set_gluings mutable polys].
  rewrite (f_mut _ _ F). destruct (mutable s) eqn:Mu.
  - unfold mget. change (polys (set_gluings (ddel l (gluings s1)) s1)) with (polys s1). rewrite (f_polys _ _ F).
    assert (KP : In l (keys (polys s))).
    { apply dget_keys in K. destruct K as [g D]. destruct (i_len nv s I _ _ D) as [p [Dp _]]. apply dget_keys. eauto. }
    rewrite (proj2 (dmem_keys l (polys s)) KP). unfold modify. cbn. rewrite (f_polys _ _ F), Q.
    eexists. eexists. split; [reflexivity|]. cbn. 
    assert (RI : forall k, In k (filter (fun r => negb (r =? l)) (roots_ s)) <-> In k (roots_ s) /\ k <> l).
    { intros k. rewrite filter_In, negb_true_iff, Z.eqb_neq. tauto. }
    split; [|split; [now rewrite (f_mut _ _ F)|split; [apply (f_conn _ _ F)|split; [apply (f_next _ _ F)|split; [|split]]]]].
    + constructor; cbn.
      * apply NoDup_ddel, (i_np nv s I).
      * apply NoDup_ddel. auto.
      * intros k g D. destruct (LEN k g D) as [N [p [Dp L]]]. exists p. split; auto.
        rewrite dget_ddel by apply (i_np nv s I). cbn [eqb EqB_Z]. now rewrite (proj2 (Z.eqb_neq k l) N).
      * intros _ k Hk. apply In_keys_ddel_iff in Hk; [|apply (i_np nv s I)]. apply NI. split; [apply (i_tot nv s I Mu)|]; tauto.
      * intros x y. rewrite !GZ. apply rmz_inv, (i_inv nv s I).
      * intros r Hr. apply RI in Hr. apply In_keys_ddel_iff; [apply (i_np nv s I)|].
        split; [apply (i_roots nv s I)|]; tauto.
    + intros [S1 S2]. split; cbn; [now apply NoDup_filter|]. intros r r' Hr Hr' Co. apply RI in Hr, Hr'.
      apply S2; try tauto. apply CM, Co.
    + intros y z. rewrite GZ. intros H. now apply rmz_sub in H.
    + split; [contradiction|]. intros _. split; [auto|]. split; [auto|discriminate].
  - eexists. eexists. split; [reflexivity|]. cbn. rewrite (f_polys _ _ F), Q.
    split; [|split; [now rewrite (f_mut _ _ F)|split; [apply (f_conn _ _ F)|split; [apply (f_next _ _ F)|split; [|split]]]]].
    + constructor; cbn.
      * rewrite (f_polys _ _ F). apply (i_np nv s I).
      * apply NoDup_ddel. auto.
      * intros k g D. destruct (LEN k g D) as [N [p [Dp L]]]. exists p. split; auto. now rewrite (f_polys _ _ F).
      * rewrite (f_mut _ _ F). congruence.
      * intros x y. rewrite !GZ. apply rmz_inv, (i_inv nv s I).
      * rewrite (f_polys _ _ F), Q. apply (i_roots nv s I).
    + intros [S1 S2]. split; cbn; rewrite Q; auto. 
    + intros y z. rewrite GZ. intros H. now apply rmz_sub in H.
    + split; [contradiction|]. intros _. split; [auto|]. split; [discriminate|]. intros _. repeat (split; [auto|]).
      rewrite NI. tauto.
Qed.

(** ** glue with arbitrary arguments that are not negative *)
Lemma inrange_dec (d : dict label (list (option hedge))) (x : hedge) : 0 <= snd x -> {inrange d x} + {~ inrange d x}.
Proof.
  intros E. unfold inrange. destruct (shape d (fst x)) as [n|].
  - destruct (Z_lt_dec (snd x) (Z.of_nat n)); [left; eauto | right; intros [m [[= <-] ?]]; lia].
  - right. intros [m [? _]]. discriminate.
Qed.
Lemma glue_any s (x y : hedge) : inv s -> 0 <= snd x -> 0 <= snd y ->
  exists s' r, glue nv x y s = (s', r) /\ inv s' /\ frame s s' /\ (sep s -> sep s') /\
    (mutable s = false -> s' = s /\ r = Err PyException) /\
    (r = Ok tt -> mutable s = true /\ inrange (gluings s) x /\ inrange (gluings s) y).
Proof.
  intros I Ex Ey. destruct (mutable s) eqn:Mu.
  2:{ exists s, (Err PyException). unfold glue, mbind, check_mutable. rewrite Mu.
      split; [reflexivity|]. split; auto. split; [apply frame_refl|]. split; auto. split; auto. discriminate. }
  destruct (inrange_dec (gluings s) x Ex) as [Rx|Rx].
  - destruct (inrange_dec (gluings s) y Ey) as [Ry|Ry].
    + destruct (glue_main nv s x y I Mu Rx Ry) as [s' [r [H1 [H2 [H3 [H4 [H5 [H6 _]]]]]]]].
      exists s', r. repeat (split; [auto; congruence|]). auto.
    + unfold glue, mbind, check_mutable. rewrite Mu. unfold mget.
      destruct (dmem (fst x) (polys s)); unfold mret, mraise.
      2:{ eexists. eexists. split; [reflexivity|]. split; auto. split; [apply frame_refl|]. split; auto. split; congruence. }
      destruct (dmem (fst y) (polys s)).
      2:{ eexists. eexists. split; [reflexivity|]. split; auto. split; [apply frame_refl|]. split; auto. split; congruence. }
      destruct (unglue_any nv s (fst x) (snd x) I Ex) as [s1 [r1 [-> [I1 [F1 [_ [S1 _]]]]]]].
      destruct r1 as [[]|err].
      2:{ eexists. eexists. split; [reflexivity|]. split; auto. split; auto. split; auto. split; congruence. }
      destruct (unglue_any nv s1 (fst y) (snd y) I1 Ey) as [s2 [r2 [-> [I2 [F2 [_ [S2 [_ [_ [_ [_ X]]]]]]]]]]].
      assert (F12 : frame s s2) by (eapply frame_trans; eauto).
      destruct X as [-> X].
      { now rewrite (f_mut _ _ F1). }
      { rewrite he_eta. intros A. apply Ry. now apply (frame_range s s1). }
      destruct r2 as [[]|err]; [congruence|].
      eexists. eexists. split; [reflexivity|]. split; auto. split; auto. split; auto. split; congruence.
  - unfold glue, mbind, check_mutable. rewrite Mu. unfold mget.
    destruct (dmem (fst x) (polys s)); unfold mret, mraise.
    2:{ eexists. eexists. split; [reflexivity|]. split; auto. split; [apply frame_refl|]. split; auto. split; congruence. }
    destruct (dmem (fst y) (polys s)).
    2:{ eexists. eexists. split; [reflexivity|]. split; auto. split; [apply frame_refl|]. split; auto. split; congruence. }
    destruct (unglue_any nv s (fst x) (snd x) I Ex) as [s1 [r1 [-> [I1 [F1 [_ [S1 [_ [_ [_ [_ X]]]]]]]]]]].
    rewrite he_eta in X. destruct (X Mu Rx) as [-> X'].
    destruct r1 as [[]|err]; [congruence|].
    eexists. eexists. split; [reflexivity|]. split; auto. split; auto. split; auto. split; congruence.
Qed.

(** ** roots *)
Lemma inv_roots s rs : inv s -> (forall r, In r rs -> In r (keys (polys s))) -> inv (set_roots_ rs s).
Proof. intros [A B C D E F] H. now constructor. Qed.

Lemma set_root_spec s r : good s -> mutable s = true ->
  exists s' x, set_root nv r s = (s', x) /\
   (~ In r (keys (polys s)) -> s' = s /\ x = Err ValueError) /\
   (In r (keys (polys s)) -> x = Ok tt /\ exists f, s' = set_roots_ (filter f (roots_ s) ++ [r]) s /\
      forall q, f q = true <-> ~ conn (gluings s) r q).
Proof.
  intros G Mu. unfold set_root, mbind, check_mutable, mread. rewrite Mu.
  destruct (iter_labels_spec nv s G) as [ls [-> [ND HL]]].
  destruct (In_dec_of r (keys (polys s))) as [K|K].
  - rewrite (filter_eq_single ls r ND) by (now apply HL).
    destruct (get_components_spec nv s G) as [rs [cs [_ [_ [-> [_ [_ [_ [_ [_ Q]]]]]]]]]].
    destruct (Q r K) as [c [-> HC]]. unfold modify. eexists. eexists. split; [reflexivity|]. split; [contradiction|].
    intros _. split; auto. eexists. split; [reflexivity|]. intros q. cbn. rewrite negb_true_iff, mem_not_In. now rewrite HC.
  - rewrite filter_eq_nil by (rewrite HL; auto). exists s, (Err ValueError). split; [reflexivity|]. split; auto. contradiction.
Qed.

Lemma pairwise_count (R : label -> label -> Prop) (cs : list (list label)) rs :
  (forall a b, R a b -> R b a) -> (forall a, R a a) ->
  (forall r, In r rs -> exists c, In c cs /\ forall b, In b c <-> R r b) ->
  (forall c, In c cs -> forall a b, In a c -> In b c -> R a b) ->
  ((forall c, In c cs -> (length (filter (fun r => mem r c) rs) <= 1)%nat) <->
   NoDup rs /\ forall r r', In r rs -> In r' rs -> R r r' -> r = r').
Proof.
  intros SY RE CC CR. split.
  - intros H. induction rs as [|a rs IH]; [split; [constructor|intros r r' []]|].
    destruct IH as [N S].
    { intros r Hr. apply CC. cbn. auto. }
    { intros c Hc. specialize (H c Hc). cbn in H. destruct (mem a c); cbn in H; lia. }
    destruct (CC a) as [c [Hc Rc]]; [cbn; auto|].
    assert (E : filter (fun r => mem r c) rs = nil).
    { specialize (H c Hc). cbn [filter] in H. rewrite (proj2 (mem_In a c)) in H by (now apply Rc). cbn in H.
      destruct (filter (fun r => mem r c) rs); auto. cbn in H. lia. }
    assert (F : forall b, In b rs -> ~ R a b).
    { intros b Hb Rb. assert (X : In b (filter (fun r => mem r c) rs)).
      - apply filter_In. split; auto. now apply mem_In, Rc.
      - rewrite E in X. destruct X. }
    split.
    + constructor; auto. intros X. apply (F a X). apply RE.
    + intros r r' [<-|Hr] [<-|Hr'] X; auto; [destruct (F _ Hr' X)|destruct (F _ Hr (SY _ _ X))].
  - intros [N S] c Hc. assert (ND : NoDup (filter (fun r => mem r c) rs)) by (now apply NoDup_filter).
    destruct (filter (fun r => mem r c) rs) as [|a [|b l]] eqn:E; cbn; try lia. exfalso.
    assert (Ia : In a (filter (fun r => mem r c) rs)) by (rewrite E; cbn; auto).
    assert (Ib : In b (filter (fun r => mem r c) rs)) by (rewrite E; cbn; auto).
    apply filter_In in Ia, Ib. destruct Ia as [Ia Ma], Ib as [Ib Mb]. apply mem_In in Ma, Mb.
    assert (a = b) by (apply S; auto; eapply CR; eauto). subst. inversion ND; subst. apply H1. cbn. auto.
Qed.

Lemma mfor_check {S A} (f : A -> bool) (cs : list A) (e : exn) (s : S) :
  mfor cs (fun c => if f c then mraise e else mret tt) s = (s, if existsb f cs then Err e else Ok tt).
Proof.
  induction cs as [|c cs IH]; cbn; auto. unfold mbind. destruct (f c); cbn; auto.
Qed.

Lemma set_roots_spec s rs : good s -> mutable s = true ->
  exists s' x, set_roots nv rs s = (s', x) /\
   ((forall r, In r rs -> In r (keys (polys s))) /\ NoDup rs /\
      (forall r r', In r rs -> In r' rs -> conn (gluings s) r r' -> r = r') ->
      x = Ok tt /\ s' = set_roots_ rs s) /\
   (~ ((forall r, In r rs -> In r (keys (polys s))) /\ NoDup rs /\
      (forall r r', In r rs -> In r' rs -> conn (gluings s) r r' -> r = r')) ->
      x = Err ValueError /\ s' = s).
Proof.
  intros G Mu. unfold set_roots, mbind, check_mutable, mread. rewrite Mu.
  destruct (iter_labels_spec nv s G) as [ls [-> [ND HL]]].
  destruct (existsb _ (map _ rs)) eqn:EX.
  - exists s, (Err ValueError). split; [reflexivity|]. split; auto. intros [H _]. exfalso.
    apply existsb_exists in EX. destruct EX as [m [Hm Lm]]. apply in_map_iff in Hm. destruct Hm as [r [<- Hr]].
    rewrite (filter_eq_single ls r ND) in Lm by (apply HL; auto). discriminate.
  - assert (K : forall r, In r rs -> In r (keys (polys s))).
    { intros r Hr. destruct (In_dec_of r (keys (polys s))) as [H|H]; auto. exfalso.
      assert (existsb (fun m => (length m =? 0)%nat) (map (fun r => filter (fun l => eqb l r) ls) rs) = true); [|congruence].
      apply existsb_exists. exists (filter (fun l => eqb l r) ls). split; [apply in_map_iff; exists r; auto|].
      now rewrite filter_eq_nil by (rewrite HL; auto). }
    assert (MS : map (fun r => filter (fun l => eqb l r) ls) rs = map (fun r => [r]) rs).
    { apply map_ext_in. intros r Hr. apply filter_eq_single; auto. now apply HL, K. }
    rewrite MS. unfold mret at 1.
    replace (forallb _ (map _ rs)) with true.
    2:{ symmetry. apply forallb_forall. intros m Hm. apply in_map_iff in Hm. destruct Hm as [r [<- _]]. reflexivity. }
    cbn [massert]. unfold mret at 1.
    rewrite map_map. cbn [hd]. rewrite map_id.
    destruct (get_components_spec nv s G) as [rs0 [cs [_ [_ [-> [_ [_ [HC [_ [_ Q]]]]]]]]]].
    rewrite mfor_check.
    assert (SY := fun a b => conn_sym (gluings s) a b (i_inv nv s (g_inv nv s G))).
    assert (PC := pairwise_count (conn (gluings s)) cs rs SY (fun a => rt_refl _ _ a)).
    destruct PC as [P1 P2].
    { intros r Hr. destruct (Q r (K r Hr)) as [c [Hc Rc]]. exists c. split; auto.
      assert (X : In c (filter (mem r) cs)) by (rewrite Hc; cbn; auto). now apply filter_In in X. }
    { intros c Hc a b Ha Hb. destruct (HC c Hc) as [r [_ [_ Rr]]]. apply Rr in Ha, Hb.
      eapply rt_trans; [apply SY; exact Ha|exact Hb]. }
    destruct (existsb _ cs) eqn:EC.
    + exists s, (Err ValueError). split; [reflexivity|]. split; auto. intros [_ H]. exfalso.
      apply existsb_exists in EC. destruct EC as [c [Hc Lc]]. apply Nat.ltb_lt in Lc. specialize (P2 H c Hc). lia.
    + eexists. eexists. split; [reflexivity|]. split; auto. intros H. exfalso. apply H. split; auto. apply P1.
      intros c Hc. destruct (1 <? length (filter (fun r => mem r c) rs))%nat eqn:Lc.
      * exfalso. assert (existsb (fun c => (1 <? length (filter (fun r => mem r c) rs))%nat) cs = true); [|congruence].
        apply existsb_exists. eauto.
      * apply Nat.ltb_ge in Lc. lia.
Qed.

Lemma is_connected_spec s : good s -> exists b, is_connected nv s = Ok b /\
  (b = true <-> forall a c, In a (keys (polys s)) -> In c (keys (polys s)) -> conn (gluings s) a c).
Proof.
  intros G. destruct (get_roots_spec nv s G) as [d [E [[T1 T2 T3 T4] _]]]. unfold is_connected. rewrite E.
  eexists. split; [reflexivity|]. rewrite Nat.leb_le.
  assert (SY := fun a b => conn_sym (gluings s) a b (i_inv nv s (g_inv nv s G))).
  set (rs := roots_ s ++ d) in *. split.
  - intros L a c Ha Hc. destruct (T4 a Ha) as [r [Hr Ca]], (T4 c Hc) as [q [Hq Cc]].
    assert (r = q). { destruct rs as [|x [|y l]]; cbn in *; try lia; destruct Hr as [|[]], Hq as [|[]]; congruence. }
    subst q. eapply rt_trans; [apply SY; exact Ca|exact Cc].
  - intros H. destruct rs as [|x [|y l]] eqn:RS; cbn; try lia. exfalso.
    assert (x = y). { apply T3; cbn; auto; apply H; apply T1; cbn; auto. }
    subst. inversion T2; subst. apply H2. cbn. auto.
Qed.

Lemma set_immutable_spec s : good s ->
  exists s' rs c, set_immutable nv s = (s', Ok tt) /\ get_roots nv s = Ok rs /\
    s' = Surf (polys s) (gluings s) rs (next_label s) false c /\ good s'.
Proof.
  intros G. destruct (get_roots_spec nv s G) as [d [E [TR [MIN DN]]]].
  assert (G' : good (Surf (polys s) (gluings s) (roots_ s ++ d) (next_label s) false (connected s))).
  { destruct G as [I T S IM CO], TR as [T1 T2 T3 T4]. constructor; cbn; auto.
    - destruct I as [A B C D E' F]. constructor; cbn; auto.
    - split; cbn; auto.
    - intros C. destruct (CO C) as [Mu L]. split; auto. rewrite (DN Mu), app_nil_r. auto. }
  assert (FIN : forall c0, good (Surf (polys s) (gluings s) (roots_ s ++ d) (next_label s) false c0) ->
     exists c, (let! c := mread (is_connected nv) in modify (fun s => set_connected (connected s || c) s))%M
        (Surf (polys s) (gluings s) (roots_ s ++ d) (next_label s) false c0) = (Surf (polys s) (gluings s) (roots_ s ++ d) (next_label s) false c, Ok tt) /\
       good (Surf (polys s) (gluings s) (roots_ s ++ d) (next_label s) false c)).
  { intros c0 G0. destruct (is_connected_spec _ G0) as [b [Eb Hb]]. unfold mbind, mread. rewrite Eb. unfold modify, set_connected. cbn.
    eexists. split; [reflexivity|]. destruct b; [|rewrite orb_false_r; auto].
    assert (G0' := G0). destruct G0 as [I T S IM CO]. constructor; auto.
    - now destruct I.
    - intros _. split; auto. unfold is_connected in Eb.
      destruct (get_roots_spec nv _ G0') as [d' [E' [_ [_ DN']]]].
      rewrite E' in Eb. injection Eb as Eb. apply Nat.leb_le in Eb. rewrite (DN' eq_refl), app_nil_r in Eb. auto. }
  unfold set_immutable. unfold mbind at 1, mget at 1. unfold mbind at 1.
  destruct (mutable s) eqn:Mu.
  - unfold mbind at 1, mread at 1. rewrite E. unfold mbind at 1.
    destruct (set_roots_spec s (roots_ s ++ d) G Mu) as [s1 [x [-> [H1 _]]]].
    destruct H1 as [-> ->]. { destruct TR as [T1 T2 T3 T4]. auto. }
    unfold modify at 1, set_mutable, set_roots_. cbn [polys gluings roots_ next_label connected].
    destruct (FIN (connected s) G') as [c [-> GC]]. eexists. exists (roots_ s ++ d), c. split; [reflexivity|]. auto.
  - unfold mret. assert (ES : Surf (polys s) (gluings s) (roots_ s ++ d) (next_label s) false (connected s) = s).
    { rewrite (DN eq_refl), app_nil_r. destruct s; cbn in *; congruence. }
    destruct (FIN (connected s) G') as [c [EF GC]]. rewrite ES in EF. rewrite EF.
    exists (Surf (polys s) (gluings s) (roots_ s ++ d) (next_label s) false c), (roots_ s ++ d), c. auto.
Qed.

(** ** replace_polygon *)
Lemma replace_polygon_spec s l p : inv s ->
  exists s' x, replace_polygon nv l p s = (s', x) /\ (s' = s \/
    (s' = set_polys (dset l p (polys s)) s /\ exists q, dget l (polys s) = Some q /\ nv q = nv p)).
Proof.
  intros I. unfold replace_polygon, mbind, mread, get_polygon, dgetE.
  destruct (dget l (polys s)) as [q|] eqn:D; [|eauto]. destruct (Nat.eqb_spec (nv q) (nv p)).
  - unfold modify. eexists. eexists. split; [reflexivity|]. right. eauto.
  - exists s, (Err ValueError). auto.
Qed.
Lemma inv_replace s l p q : inv s -> dget l (polys s) = Some q -> nv q = nv p -> inv (set_polys (dset l p (polys s)) s).
Proof.
  intros [A B C D E F] H N. assert (K : keys (dset l p (polys s)) = keys (polys s)) by (apply keys_dset_in, dget_keys; eauto).
  constructor; cbn [set_polys polys gluings roots_ mutable]; rewrite ?K; auto.
  intros k g Dk. destruct (C _ _ Dk) as [p' [Dp L]]. rewrite dget_dset. cbn [eqb EqB_Z].
  destruct (Z.eqb_spec k l) as [->|_]; [|eauto]. exists p. split; auto. congruence.
Qed.

(** ** all histories *)
Record J s : Prop := { J_inv : inv s; J_mut : mutable s = true -> sep s /\ connected s = false }.
Lemma J_good s : J s -> mutable s = true -> good s.
Proof.
  intros [I H] Mu. destruct (H Mu) as [S C]. constructor; auto; try congruence. exact (i_tot nv s I Mu).
Qed.
Lemma good_J s : good s -> J s.
Proof. intros [I T S IM CO]. constructor; auto. intros Mu. split; auto. destruct (connected s); auto. destruct CO; auto; congruence. Qed.

Lemma set_root_J s r : J s -> J (fst (set_root nv r s)) /\ (good s -> good (fst (set_root nv r s))) /\
  polys (fst (set_root nv r s)) = polys s /\ gluings (fst (set_root nv r s)) = gluings s.
Proof.
  intros HJ. destruct (mutable s) eqn:Mu.
  - pose proof (J_good s HJ Mu) as G. destruct (set_root_spec s r G Mu) as [s' [x [-> [H1 H2]]]]. cbn.
    assert (GG : good s' /\ polys s' = polys s /\ gluings s' = gluings s).
    { destruct (In_dec_of r (keys (polys s))) as [K|K]; [|destruct (H1 K) as [-> _]; auto].
      destruct (H2 K) as [_ [f [-> Hf]]]. clear H1 H2. destruct G as [I T [S1 S2] IM CO]. cbn. split; [|auto].
      constructor; cbn; auto; try congruence.
      - apply inv_roots; auto. intros q Hq. apply in_app_or in Hq. destruct Hq as [Hq|[<-|[]]]; auto.
        apply filter_In in Hq. apply (i_roots nv s I). tauto.
      - assert (SY := fun a b => conn_sym (gluings s) a b (i_inv nv s I)). split; cbn.
        + apply NoDup_snoc; [now apply NoDup_filter|]. intros Hr. apply filter_In in Hr. destruct Hr as [_ Hr].
          apply Hf in Hr. apply Hr, rt_refl.
        + intros a b Ha Hb Co. apply in_app_or in Ha, Hb.
          destruct Ha as [Ha|[<-|[]]], Hb as [Hb|[<-|[]]]; auto.
          * apply filter_In in Ha, Hb. apply S2; tauto.
          * exfalso. apply filter_In in Ha. destruct Ha as [_ Ha]. apply Hf in Ha. apply Ha, SY, Co.
          * exfalso. apply filter_In in Hb. destruct Hb as [_ Hb]. apply Hf in Hb. apply Hb, Co.
      - intros C. destruct (CO C). congruence. }
    destruct GG as [GG [E1 E2]]. split; [now apply good_J|auto].
  - unfold set_root, mbind, check_mutable. rewrite Mu. cbn. auto.
Qed.
Lemma set_roots_J s rs : J s -> J (fst (set_roots nv rs s)) /\ (good s -> good (fst (set_roots nv rs s))) /\
  polys (fst (set_roots nv rs s)) = polys s /\ gluings (fst (set_roots nv rs s)) = gluings s.
Proof.
  intros HJ. destruct (mutable s) eqn:Mu.
  - pose proof (J_good s HJ Mu) as G. destruct (set_roots_spec s rs G Mu) as [s' [x [-> [H1 H2]]]]. cbn.
    assert (GG : good s' /\ polys s' = polys s /\ gluings s' = gluings s).
    { assert (D : forall r, {In r (keys (polys s))} + {~ In r (keys (polys s))}) by (intros; apply In_dec_of).
      (* decide whether the roots were accepted *)
      assert (C : s' = s \/ (s' = set_roots_ rs s /\ (forall r, In r rs -> In r (keys (polys s))) /\ NoDup rs /\
        (forall r r', In r rs -> In r' rs -> conn (gluings s) r r' -> r = r'))).
      { destruct x as [[]|e].
        - right. assert (NN : ~ ~ ((forall r, In r rs -> In r (keys (polys s))) /\ NoDup rs /\
            (forall r r', In r rs -> In r' rs -> conn (gluings s) r r' -> r = r'))).
          { intros N. destruct (H2 N). discriminate. }
          assert (K : forall r, In r rs -> In r (keys (polys s))).
          { intros r Hr. destruct (D r); auto. exfalso. apply NN. intros [X _]. auto. }
          assert (N1 : NoDup rs).
          { assert (Dn : {NoDup rs} + {~ NoDup rs}).
            { clear. induction rs as [|a rs IH]; [left; constructor|]. destruct (In_dec_of a rs).
              - right. intros N. inversion N. auto.
              - destruct IH as [N|N]; [left; now constructor|right; intros X; inversion X; auto]. }
            destruct Dn; auto. exfalso. apply NN. tauto. }
          assert (N2 : forall r r', In r rs -> In r' rs -> conn (gluings s) r r' -> r = r').
          { intros r r' Hr Hr' Co. destruct (Z.eq_dec r r'); auto. exfalso. apply NN. intros [_ [_ X]]. auto. }
          destruct H1 as [_ ->]; auto.
        - left. destruct (H2) as [_ ->]; auto. intros H. destruct (H1 H). discriminate. }
      destruct C as [->|[-> [K [N1 N2]]]]; auto. cbn. split; [|auto]. destruct G as [I T [S1 S2] IM CO].
      constructor; cbn; auto; try congruence.
      - apply inv_roots; auto.
      - split; cbn; auto.
      - intros C. destruct (CO C). congruence. }
    destruct GG as [GG [E1 E2]]. split; [now apply good_J|auto].
  - unfold set_roots, mbind, check_mutable. rewrite Mu. cbn. auto.
Qed.

Lemma set_immutable_J s : J s -> J (fst (set_immutable nv s)) /\ (good s -> good (fst (set_immutable nv s))) /\
  polys (fst (set_immutable nv s)) = polys s /\ gluings (fst (set_immutable nv s)) = gluings s.
Proof.
  intros HJ.
  assert (GOOD : good s -> good (fst (set_immutable nv s)) /\ polys (fst (set_immutable nv s)) = polys s /\ gluings (fst (set_immutable nv s)) = gluings s).
  { intros G. destruct (set_immutable_spec s G) as [s' [rs [c [-> [_ [-> G']]]]]]. cbn. auto. }
  destruct (mutable s) eqn:Mu.
  - destruct (GOOD (J_good s HJ Mu)) as [A [B C]]. split; [now apply good_J|auto].
  - split; [|split; [intros G; now destruct (GOOD G)|]].
    + unfold set_immutable, mbind, mget. rewrite Mu. cbn. unfold mread. destruct (is_connected nv s) as [b|]; cbn; auto.
      destruct HJ as [[A B C D E F] M]. constructor; cbn; [constructor; auto|congruence].
    + unfold set_immutable, mbind, mget. rewrite Mu. cbn. unfold mread. destruct (is_connected nv s); cbn; auto.
Qed.

Lemma good_frame s s' : good s -> mutable s = true -> inv s' -> mutable s' = true -> connected s' = connected s -> sep s' -> good s'.
Proof.
  intros G Mu I M C S. constructor; auto; try congruence.
  - exact (i_tot nv s' I M).
  - rewrite C. intros X. destruct (g_con nv s G X). congruence.
Qed.

(** every call keeps the invariants; [good] is only lost when [remove_polygon] is called on an immutable surface *)
Lemma run_op_J o s : op_nonneg o -> J s -> J (fst (run_op nv o s)) /\ (good s -> ~ damaging s o -> good (fst (run_op nv o s))).
Proof.
  intros NN HJ. pose proof (J_inv s HJ) as I.
  assert (MM : forall s', inv s' -> mutable s' = mutable s -> connected s' = connected s -> (sep s -> sep s') -> J s').
  { intros s' I' M C S. constructor; auto. rewrite M, C. intros Mu. destruct (J_mut s HJ Mu). auto. }
  destruct o as [p lab|l|x y|l e|r|rs| |l p]; cbn [run_op op_nonneg damaging] in *.
  - destruct (add_polygon_spec s p lab I) as [s' [r [-> [I' [M [C [S [_ [IM _]]]]]]]]].
    assert (X : J s' /\ (good s -> good s')).
    { split; [auto|]. intros G. destruct (mutable s) eqn:Mu; [|destruct (IM eq_refl) as [-> _]; auto].
      apply (good_frame s); auto. apply S, (g_sep nv s G). }
    destruct r; cbn; tauto.
  - destruct (remove_polygon_spec s l I) as [s' [r [-> [I' [M [C [_ [S _]]]]]]]]. cbn. split; [auto|].
    intros G ND. destruct (mutable s) eqn:Mu; [|tauto]. apply (good_frame s); auto. apply S, (g_sep nv s G).
  - destruct (glue_any s x y I (proj1 NN) (proj2 NN)) as [s' [r [-> [I' [F [S [IM _]]]]]]]. cbn. split.
    + apply MM; auto; [apply (f_mut _ _ F)|apply (f_conn _ _ F)].
    + intros G _. destruct (mutable s) eqn:Mu; [|destruct (IM eq_refl) as [-> _]; auto].
      apply (good_frame s); auto; [rewrite (f_mut _ _ F); auto|apply (f_conn _ _ F)|apply S, (g_sep nv s G)].
  - destruct (unglue_any nv s l e I NN) as [s' [r [-> [I' [F [_ [S [_ [_ [IM _]]]]]]]]]]. cbn. split.
    + apply MM; auto; [apply (f_mut _ _ F)|apply (f_conn _ _ F)].
    + intros G _. destruct (mutable s) eqn:Mu; [|destruct (IM eq_refl) as [-> _]; auto].
      apply (good_frame s); auto; [rewrite (f_mut _ _ F); auto|apply (f_conn _ _ F)|apply S, (g_sep nv s G)].
  - destruct (set_root_J s r HJ) as [A [B _]]. auto.
  - destruct (set_roots_J s rs HJ) as [A [B _]]. auto.
  - destruct (set_immutable_J s HJ) as [A [B _]]. auto.
  - destruct (replace_polygon_spec s l p I) as [s' [r [-> [->|[-> [q [D N]]]]]]]; cbn; auto. split.
    + apply MM; cbn; auto. eapply inv_replace; eauto.
    + intros [I0 T S IM CO] _. constructor; cbn; auto; [eapply inv_replace; eauto| | ].
      * unfold total. cbn [set_polys polys gluings]. rewrite keys_dset_in by (apply dget_keys; eauto). exact T.
      * intros Mu. unfold cover. cbn [set_polys polys gluings roots_]. rewrite keys_dset_in by (apply dget_keys; eauto). exact (IM Mu).
Qed.

Lemma J_empty : J empty.
Proof. constructor; [constructor; cbn; try constructor; try easy|intros _; split; [split; [constructor|intros r r' []]|auto]]. Qed.
Lemma run_app ops ops' s : run nv (ops ++ ops') s = run nv ops' (run nv ops s).
Proof. apply fold_left_app. Qed.
Lemma run_J ops s : Forall op_nonneg ops -> J s -> J (run nv ops s).
Proof.
  revert s. induction ops as [|o ops IH]; intros s F HJ; cbn; auto.
  inversion F; subst. apply IH; auto. now apply run_op_J.
Qed.

Lemma reachable_J s : reachable nv s -> J s.
Proof. intros [ops [F ->]]. apply run_J; auto. apply J_empty. Qed.
Lemma good_empty : good empty.
Proof. apply J_good; [apply J_empty|reflexivity]. Qed.
Lemma intact_good s : intact nv s -> good s.
Proof.
  induction 1 as [|s o H IH N D]; [apply good_empty|]. apply run_op_J; auto. now apply good_J.
Qed.
Lemma intact_reachable s : intact nv s -> reachable nv s.
Proof.
  induction 1 as [|s o H [ops [F ->]] N D].
  - exists nil. split; [constructor|reflexivity].
  - exists (ops ++ [o]). split; [apply Forall_app; auto|]. now rewrite run_app.
Qed.
Lemma run_mutable_false o s : mutable s = false -> mutable (fst (run_op nv o s)) = false.
Proof.
  intros Mu. destruct o as [p lab|l|x y|l e|r|rs| |l p]; cbn [run_op].
  - unfold add_polygon, mbind, check_mutable. rewrite Mu. cbn. auto.
  - unfold remove_polygon.
    assert (SG : forall l e v s, mutable (fst (set_gluing l e v s)) = mutable (P := P) s).
    { clear. intros l e v s. unfold set_gluing. destruct (dgetE l (gluings s)); cbn; auto. destruct (lsetE _ e v); cbn; auto. }
    assert (U : mutable (fst (unglue_polygon nv l s)) = false).
    { unfold unglue_polygon, mbind, mget, mlift. destruct (dgetE l (gluings s)) as [g|]; cbn; auto.
      assert (L : forall is s, mutable s = false -> mutable (P := P) (fst (mfor is (fun i s0 => match opposite_edge s0 l (Z.of_nat i) with
         | Ok a => match a with Some c => set_gluing (fst c) (snd c) None | None => mret tt end s0 | Err e => (s0, Err e) end) s)) = false).
      { clear - SG. induction is as [|i is IH]; intros s Mu; cbn [mfor]; auto. unfold mbind.
        destruct (opposite_edge s l (Z.of_nat i)) as [[c|]|]; cbn; auto.
        specialize (SG (fst c) (snd c) None s). destruct (set_gluing (fst c) (snd c) None s) as [s' [u|e]]; cbn in *.
        - apply IH. congruence.
        - congruence. }
      specialize (L (seq 0 (length g)) s Mu).
      match goal with |- mutable (fst (let (_, _) := ?m in _)) = _ => match type of L with mutable (fst ?m') = _ =>
        change m with m'; destruct m' as [s1 [u|e]]; cbn in *; auto end end.
      destruct (get_polygon s1 l); cbn; auto. }
    unfold mbind at 1. destruct (unglue_polygon nv l s) as [s1 [u|e]]; cbn in *; auto.
    unfold mbind, modify, check_mutable. cbn. rewrite U. cbn. auto.
  - unfold glue, mbind, check_mutable. rewrite Mu. auto.
  - unfold unglue, mbind, check_mutable. rewrite Mu. auto.
  - unfold set_root, mbind, check_mutable. rewrite Mu. auto.
  - unfold set_roots, mbind, check_mutable. rewrite Mu. auto.
  - unfold set_immutable, mbind, mget. rewrite Mu. cbn. unfold mread. destruct (is_connected nv s); cbn; auto.
  - unfold replace_polygon, mbind, mread. destruct (get_polygon s l); cbn; auto. destruct (nv a =? nv p)%nat; cbn; auto.
Qed.
(** as long as a reachable surface is mutable, it is intact *)
Lemma reachable_intact s : reachable nv s -> mutable s = true -> intact nv s.
Proof.
  intros [ops [F ->]]. induction ops as [|o ops IH] using rev_ind; intros Mu; [constructor|].
  apply Forall_app in F. destruct F as [F1 F2]. inversion F2; subst.
  rewrite run_app in *. cbn in *. destruct (mutable (run nv ops empty)) eqn:M.
  - constructor; auto. unfold damaging. destruct o; auto. congruence.
  - rewrite run_mutable_false in Mu by auto. discriminate.
Qed.
End P.
