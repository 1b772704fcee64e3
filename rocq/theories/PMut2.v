(** Proofs about mutable surfaces: roots and components. *)
From Coq Require Import List Bool ZArith Lia Arith Relations.
From Verif Require Import MBase MDict PDict MMut SMut PMut.
Import ListNotations.
Local Open Scope Z_scope.

Lemma NoDup_app_intro {A} (l m : list A) : NoDup l -> NoDup m -> (forall x, In x l -> ~ In x m) -> NoDup (l ++ m).
Proof.
  induction l as [|a l IH]; cbn; auto. intros N M D. inversion N; subst. constructor.
  - rewrite in_app_iff. intros [H|H]; [contradiction|]. apply (D a); auto.
  - apply IH; auto.
Qed.
Lemma filter_length_le {A} (f : A -> bool) l : (length (filter f l) <= length l)%nat.
Proof. induction l; cbn; auto. destruct (f a); cbn; lia. Qed.
Lemma filter_length_lt {A} (f : A -> bool) l x : In x l -> f x = false -> (length (filter f l) < length l)%nat.
Proof.
  intros I F. induction l as [|a l IH]; [destruct I|]. cbn. destruct I as [->|I].
  - rewrite F. pose proof (filter_length_le f l). lia.
  - specialize (IH I). destruct (f a); cbn; lia.
Qed.
Lemma filter_eq_single (l : list label) r : NoDup l -> In r l -> filter (fun x => eqb x r) l = [r].
Proof.
  intros N I. induction l as [|a l IH]; [destruct I|]. inversion N as [|? ? N1 N2]; subst. cbn.
  destruct (Z.eqb_spec a r) as [->|NE].
  - f_equal. assert (Q : forall l, ~ In r l -> filter (fun x => Z.eqb x r) l = nil); [|now apply Q].
    clear. induction l as [|b l IH]; cbn; auto. intros H. destruct (Z.eqb_spec b r) as [->|_]; [exfalso; apply H; auto|].
    apply IH. tauto.
  - apply IH; auto. destruct I as [->|I]; congruence.
Qed.
Lemma filter_eq_nil (l : list label) r : ~ In r l -> filter (fun x => eqb x r) l = nil.
Proof.
  induction l as [|b l IH]; cbn; auto. intros H. destruct (Z.eqb_spec b r) as [->|_]; [exfalso; apply H; auto|].
  apply IH. tauto.
Qed.

Lemma set_remove_all_spec c : forall ls : list label, NoDup c -> incl c ls ->
  exists ls', set_remove_all c ls = Ok ls' /\ (forall y, In y ls' <-> In y ls /\ ~ In y c) /\
    (NoDup ls -> NoDup ls') /\ (length ls' <= length ls)%nat /\ (c <> nil -> (length ls' < length ls)%nat).
Proof.
  induction c as [|x c IH]; intros ls N I; cbn [set_remove_all].
  - exists ls. split; auto. repeat split; auto; [tauto|congruence].
  - inversion N as [|? ? N1 N2]; subst.
    assert (Hx : In x ls) by (apply I; cbn; auto). rewrite (proj2 (mem_In x ls) Hx).
    assert (FI : forall y, In y (filter (fun y => negb (eqb x y)) ls) <-> In y ls /\ y <> x).
    { intros y. rewrite filter_In, negb_true_iff. cbn [eqb EqB_Z]. rewrite Z.eqb_neq. firstorder. }
    destruct (IH (filter (fun y => negb (eqb x y)) ls) N2) as [ls' [E [H1 [H2 [H3 _]]]]].
    { intros y Hy. apply FI. split; [apply I; cbn; auto|]. intros ->. contradiction. }
    assert (L : (length (filter (fun y => negb (eqb x y)) ls) < length ls)%nat).
    { apply (filter_length_lt _ _ x Hx). now rewrite eqb_refl. }
    exists ls'. split; auto. split; [|split; [|split]].
    + intros y. rewrite H1, FI. cbn. firstorder.
    + intros D. apply H2. now apply NoDup_filter.
    + lia.
    + lia.
Qed.

Section P.
Context {P : Type} (nv : P -> nat).
Implicit Types (s : @surf P) (l : label).
Notation inv := (@inv P nv).

Definition cover s := forall l, In l (keys (polys s)) -> exists r, In r (roots_ s) /\ conn (gluings s) r l.

(** [rs] has exactly one label of each class of [X] *)
Record transversal s (X : label -> Prop) (rs : list label) : Prop := {
  t_in : forall r, In r rs -> X r;
  t_nd : NoDup rs;
  t_sep : forall r r', In r rs -> In r' rs -> conn (gluings s) r r' -> r = r';
  t_cov : forall l, X l -> exists r, In r rs /\ conn (gluings s) r l }.

Lemma transversal_nil s X : (forall l, ~ X l) -> transversal s X nil.
Proof. intros H. constructor; [intros r []|constructor|intros r r' []|intros l Hl; destruct (H l Hl)]. Qed.

Lemma default_roots_spec s fuel : inv s -> total s -> connected s = false -> forall ls,
  NoDup ls -> incl ls (keys (polys s)) -> (forall a b, In a ls -> conn (gluings s) a b -> In b ls) ->
  (length ls <= fuel)%nat ->
  exists rs, default_roots nv s fuel ls = Ok rs /\ transversal s (fun l => In l ls) rs /\
    forall r l, In r rs -> conn (gluings s) r l -> r <= l.
Proof.
  intros I T C. induction fuel as [|fuel IH]; intros ls N L CL LE.
  - destruct ls; [|cbn in LE; lia]. exists nil. split; [reflexivity|]. split; [apply transversal_nil; intros l []|intros r l []].
  - destruct ls as [|a ls0] eqn:LS.
    { exists nil. split; [reflexivity|]. split; [apply transversal_nil; intros l []|intros r l []]. }
    rewrite <- LS in *. cbn [default_roots]. rewrite LS. rewrite <- LS.
    destruct (lmin_spec ls) as [r [-> [Hr MIN]]]; [congruence|]. rewrite C.
    destruct (component_spec nv s r I T (L _ Hr)) as [c [-> [NC HC]]].
    destruct (set_remove_all_spec c ls NC) as [ls' [-> [H1 [H2 [_ H4]]]]].
    { intros b Hb. apply HC in Hb. eauto. }
    assert (SY := fun a b => conn_sym (gluings s) a b (i_inv nv s I)).
    destruct (IH ls') as [rs [-> [TR MI]]].
    + auto.
    + intros b Hb. apply H1 in Hb. now apply L.
    + intros x y Hx Co. apply H1 in Hx. apply H1. destruct Hx as [Hx Nx]. split; [eauto|].
      intros Hy. apply Nx. apply HC. apply HC in Hy. eapply rt_trans; [exact Hy|]. now apply SY.
    + assert (c <> nil) by (intros ->; apply (HC r), rt_refl). specialize (H4 H). lia.
    + exists (r :: rs). split; auto. destruct TR as [T1 T2 T3 T4]. split.
      { constructor.
        - intros x [<-|Hx]; auto. apply T1, H1 in Hx. tauto.
        - constructor; auto. intros Hx. apply T1, H1 in Hx. apply Hx, HC, rt_refl.
        - intros x y [<-|Hx] [<-|Hy] Co; auto.
          + exfalso. apply T1, H1 in Hy. apply Hy, HC, Co.
          + exfalso. apply T1, H1 in Hx. apply Hx, HC, SY, Co.
        - intros l Hl. destruct (In_dec_of l c) as [Hc|Hc].
          + exists r. split; cbn; auto. now apply HC.
          + destruct (T4 l) as [q [Hq Co]]; [now apply H1|]. exists q. cbn. auto. }
      intros q l [<-|Hq] Co; [|eauto]. apply MIN. eauto.
Qed.

Lemma remove_components_spec s : inv s -> total s -> forall rs ls,
  incl rs (keys (polys s)) -> NoDup rs ->
  (forall r r', In r rs -> In r' rs -> conn (gluings s) r r' -> r = r') ->
  NoDup ls -> incl ls (keys (polys s)) -> (forall a b, In a ls -> conn (gluings s) a b -> In b ls) -> incl rs ls ->
  exists ls', remove_components nv s rs ls = Ok ls' /\ NoDup ls' /\ (length ls' <= length ls)%nat /\
    forall y, In y ls' <-> In y ls /\ forall r, In r rs -> ~ conn (gluings s) r y.
Proof.
  intros I T. assert (SY := fun a b => conn_sym (gluings s) a b (i_inv nv s I)).
  induction rs as [|r rs IH]; intros ls L N SE NL LL CL RL; cbn [remove_components].
  - exists ls. split; auto. repeat split; auto; try easy.
  - inversion N as [|? ? N1 N2]; subst.
    destruct (component_spec nv s r I T) as [c [-> [NC HC]]]; [apply L; cbn; auto|].
    assert (CI : incl c ls). { intros b Hb. apply HC in Hb. apply (CL r); auto. apply RL. cbn. auto. }
    destruct (set_remove_all_spec c ls NC CI) as [ls' [-> [H1 [H2 [H3 _]]]]].
    destruct (IH ls') as [ls'' [-> [K1 [K2 K3]]]]; auto.
    + intros x Hx. apply L. cbn. auto.
    + intros x y Hx Hy. apply SE; cbn; auto.
    + intros x Hx. apply H1 in Hx. now apply LL.
    + intros x y Hx Co. apply H1 in Hx. apply H1. destruct Hx as [Hx Nx]. split; [eauto|].
      intros Hy. apply Nx. apply HC. apply HC in Hy. eapply rt_trans; [exact Hy|]. now apply SY.
    + intros x Hx. apply H1. split; [apply RL; cbn; auto|]. intros Hc. apply HC in Hc.
      apply N1. rewrite (SE r x); cbn; auto.
    + exists ls''. split; auto. split; auto. split; [lia|]. intros y. rewrite K3, H1. cbn. rewrite HC. split.
      * intros [[A B] C]. split; auto. intros q [<-|Hq]; auto.
      * intros [A B]. split; [split|]; auto.
Qed.

(** states of mutable surfaces and of immutable surfaces that have not been damaged *)
Record good s : Prop := {
  g_inv : inv s;
  g_tot : total s;
  g_sep : sep s;
  g_imm : mutable s = false -> cover s;
  g_con : connected s = true -> mutable s = false /\ (length (roots_ s) <= 1)%nat }.

Lemma get_roots_spec s : good s ->
  exists d, get_roots nv s = Ok (roots_ s ++ d) /\ transversal s (fun l => In l (keys (polys s))) (roots_ s ++ d) /\
    (forall r l, In r d -> conn (gluings s) r l -> r <= l) /\ (mutable s = false -> d = nil).
Proof.
  intros [I T [ND SE] IM CO]. assert (SY := fun a b => conn_sym (gluings s) a b (i_inv nv s I)).
  assert (CL : forall a b, In a (keys (polys s)) -> conn (gluings s) a b -> In b (keys (polys s))).
  { intros a b Ha Hc. eapply conn_label; eauto. }
  unfold get_roots. destruct (connected s) eqn:C.
  - destruct (CO eq_refl) as [Mu LE]. exists nil. rewrite app_nil_r. 
    assert (TR : transversal s (fun l => In l (keys (polys s))) (roots_ s)).
    { constructor; auto. apply (i_roots nv s I). apply (IM Mu). }
    destruct (roots_ s) as [|r [|r' rs]] eqn:R.
    + assert (E : keys (polys s) = nil).
      { destruct (keys (polys s)) as [|k ks] eqn:KE; auto. exfalso. specialize (IM Mu). unfold cover in IM. rewrite R in IM.
        destruct (IM k) as [r [[] _]]. rewrite KE. cbn. auto. }
      rewrite E. split; [destruct (length (polys s)); reflexivity|].
      split; [apply transversal_nil; intros l []|]. split; [intros r l []|reflexivity].
    + split; [reflexivity|]. split; [exact TR|]. split; [intros ? ? []|reflexivity].
    + cbn in LE. lia.
  - destruct (roots_ s) as [|r rs] eqn:R.
    + destruct (default_roots_spec s (length (polys s)) I T C (keys (polys s))) as [d [E [TR MI]]]; auto.
      * apply (i_np nv s I).
      * apply incl_refl.
      * unfold keys. now rewrite map_length.
      * exists d. rewrite E. cbn. split; auto. split; auto. split; auto.
        intros Mu. destruct d as [|q d]; auto. exfalso. specialize (IM Mu). unfold cover in IM. rewrite R in IM.
        destruct (IM q) as [r [[] _]]. apply (t_in _ _ _ TR). cbn. auto.
    + rewrite <- R in *. clear r rs R.
      destruct (remove_components_spec s I T (roots_ s) (keys (polys s))) as [ls [-> [H1 [H2 H3]]]]; auto.
      * intros r Hr. now apply (i_roots nv s I).
      * apply (i_np nv s I).
      * apply incl_refl.
      * intros r Hr. now apply (i_roots nv s I).
      * destruct (default_roots_spec s (length (polys s)) I T C ls) as [d [-> [[T1 T2 T3 T4] MI]]]; auto.
        -- intros x Hx. now apply H3 in Hx.
        -- intros a b Ha Co. apply H3 in Ha. apply H3. destruct Ha as [Ha Na]. split; [eauto|].
           intros r Hr Cr. apply (Na r Hr). eapply rt_trans; [exact Cr|]. now apply SY.
        -- unfold keys in H2. now rewrite map_length in H2.
        -- exists d. split; auto. split.
           { constructor.
             - intros r Hr. apply in_app_or in Hr. destruct Hr as [Hr|Hr]; [now apply (i_roots nv s I)|].
               apply T1, H3 in Hr. tauto.
             - apply NoDup_app_intro; auto. intros r Hr Hd. apply T1, H3 in Hd. apply (proj2 Hd r Hr). apply rt_refl.
             - intros r r' Hr Hr' Co. apply in_app_or in Hr, Hr'. destruct Hr as [Hr|Hr], Hr' as [Hr'|Hr']; auto.
               + exfalso. apply T1, H3 in Hr'. apply (proj2 Hr' r Hr Co).
               + exfalso. apply T1, H3 in Hr. apply (proj2 Hr r' Hr'). now apply SY.
             - intros l Hl. destruct (In_dec_of l ls) as [Hs|Hs].
               + destruct (T4 l Hs) as [r [Hr Co]]. exists r. split; auto. apply in_or_app. auto.
               + (* some explicit root *)
                 assert (X : exists r, In r (roots_ s) /\ conn (gluings s) r l).
                 { destruct (component_spec nv s l I T Hl) as [c [_ [_ HC]]].
                   destruct (existsb (fun r => mem r c) (roots_ s)) eqn:EX.
                   - apply existsb_exists in EX. destruct EX as [r [Hr Hm]]. apply mem_In, HC in Hm. exists r. split; auto.
                   - exfalso. apply Hs, H3. split; auto. intros r Hr Co.
                     assert (F : existsb (fun r => mem r c) (roots_ s) = true); [|congruence].
                     apply existsb_exists. exists r. split; auto. apply mem_In, HC. now apply SY. }
                 destruct X as [r [Hr Co]]. exists r. split; auto. apply in_or_app. auto. }
           split; auto. intros Mu. destruct d as [|q d]; auto. exfalso.
           assert (Hq : In q ls) by (apply T1; cbn; auto). apply H3 in Hq.
           destruct (IM Mu q) as [r [Hr Co]]; [tauto|]. apply (proj2 Hq r Hr Co).
Qed.

Lemma get_components_spec s : good s ->
  exists rs cs, get_roots nv s = Ok rs /\ transversal s (fun l => In l (keys (polys s))) rs /\
    get_components nv s = Ok cs /\ length cs = length rs /\
    (forall k r, nth_error rs k = Some r -> exists c, nth_error cs k = Some c /\ NoDup c /\ forall b, In b c <-> conn (gluings s) r b) /\
    (forall c, In c cs -> exists r, In r rs /\ NoDup c /\ forall b, In b c <-> conn (gluings s) r b) /\
    NoDup (concat cs) /\ (forall l, In l (concat cs) <-> In l (keys (polys s))) /\
    (forall l, In l (keys (polys s)) -> exists c, filter (mem l) cs = [c] /\ forall b, In b c <-> conn (gluings s) l b).
Proof.
  intros G. destruct (get_roots_spec s G) as [d [E [TR _]]]. set (rs := roots_ s ++ d) in *.
  destruct G as [I T _ _ _]. assert (SY := fun a b => conn_sym (gluings s) a b (i_inv nv s I)).
  exists rs. unfold get_components. rewrite E.
  destruct (rmap_total (component nv s) rs) as [cs RC].
  { intros r Hr. destruct (component_spec nv s r I T) as [c [-> _]]; [now apply (t_in _ _ _ TR)|eauto]. }
  rewrite RC. exists cs. split; auto. split; auto. split; auto.
  destruct (rmap_Ok _ _ _ RC) as [LEN _]. split; auto.
  assert (K : forall k r, nth_error rs k = Some r -> exists c, nth_error cs k = Some c /\ NoDup c /\ forall b, In b c <-> conn (gluings s) r b).
  { intros k r Hk. destruct (rmap_nth _ _ _ _ _ RC Hk) as [c [H1 H2]]. exists c. split; auto.
    destruct (component_spec nv s r I T) as [c' [H3 [H4 H5]]]; [apply (t_in _ _ _ TR); eapply nth_error_In; eauto|].
    rewrite H2 in H3. injection H3 as <-. auto. }
  split; auto.
  assert (K2 : forall c, In c cs -> exists r, In r rs /\ NoDup c /\ forall b, In b c <-> conn (gluings s) r b).
  { intros c Hc. destruct (rmap_In _ _ _ _ RC Hc) as [r [Hr H2]]. exists r. split; auto.
    destruct (component_spec nv s r I T) as [c' [H3 [H4 H5]]]; [apply (t_in _ _ _ TR); auto|].
    rewrite H2 in H3. injection H3 as <-. auto. }
  split; auto. destruct TR as [T1 T2 T3 T4].
  clear K K2 E LEN. split; [|split].
  - clear T4. revert cs RC. induction rs as [|r rs0 IH]; cbn [rmap]; intros cs.
    + intros [= <-]. constructor.
    + destruct (component_spec nv s r I T) as [c [-> [H4 H5]]]; [apply T1; cbn; auto|].
      destruct (rmap (component nv s) rs0) as [cs0|] eqn:RC0; [|discriminate]. intros [= <-]. cbn.
      inversion T2 as [|? ? N1 N2]; subst. apply NoDup_app_intro; auto.
      * apply IH; auto. { intros x Hx. apply T1. cbn. auto. } { intros x y Hx Hy. apply T3; cbn; auto. }
      * intros b Hb Hb'. apply in_concat in Hb'. destruct Hb' as [c' [Hc' Hb']].
        destruct (rmap_In _ _ _ _ RC0 Hc') as [r' [Hr' E']].
        destruct (component_spec nv s r' I T) as [c2 [H7 [_ H8]]]; [apply T1; cbn; auto|].
        rewrite E' in H7. injection H7 as <-. apply H5 in Hb. apply H8 in Hb'.
        apply N1. rewrite (T3 r r'); cbn; auto. eapply rt_trans; [exact Hb|]. now apply SY.
  - intros l. split.
    + intros H. apply in_concat in H. destruct H as [c [Hc Hl]]. destruct (rmap_In _ _ _ _ RC Hc) as [r [Hr E]].
      apply (component_labels nv s r c E l Hl).
    + intros H. destruct (T4 l H) as [r [Hr Co]]. destruct (rmap_Ok _ _ _ RC) as [_ Q]. destruct (Q r Hr) as [c [E Hc]].
      apply in_concat. exists c. split; auto. destruct (component_spec nv s r I T) as [c' [H3 [_ H5]]]; [auto|].
      rewrite E in H3. injection H3 as <-. now apply H5.
  - intros l H. destruct (T4 l H) as [r [Hr Co]].
    assert (U : forall r', In r' rs -> conn (gluings s) r' l -> r' = r).
    { intros r' Hr' Co'. apply T3; auto. eapply rt_trans; [exact Co'|]. now apply SY. }
    clear T4. revert cs RC. induction rs as [|a rs0 IH]; cbn [rmap]; intros cs; [destruct Hr|].
    destruct (component_spec nv s a I T) as [c [-> [H4 H5]]]; [apply T1; cbn; auto|].
    destruct (rmap (component nv s) rs0) as [cs0|] eqn:RC0; [|discriminate]. intros [= <-]. cbn [filter].
    inversion T2 as [|? ? N1 N2]; subst.
    destruct (mem l c) eqn:ML.
    + apply mem_In, H5 in ML. exists c. split.
      * f_equal. assert (Z : forall c', In c' cs0 -> mem l c' = false).
        { intros c' Hc'. apply mem_not_In. intros Hl. destruct (rmap_In _ _ _ _ RC0 Hc') as [r' [Hr' E']].
          destruct (component_spec nv s r' I T) as [c2 [H7 [_ H8]]]; [apply T1; cbn; auto|].
          rewrite E' in H7. injection H7 as <-. apply H8 in Hl.
          apply N1. rewrite (U a); cbn; auto. rewrite <- (U r'); cbn; auto. }
        clear RC0 IH. induction cs0 as [|c0 cs0 IHc]; cbn; auto. rewrite Z by (cbn; auto). apply IHc. intros c' Hc'. apply Z. cbn. auto.
      * intros b. rewrite H5. split; intros X; [|eapply rt_trans; [exact ML|exact X]].
        eapply rt_trans; [apply SY; exact ML|exact X].
    + apply mem_not_In in ML. rewrite H5 in ML. apply IH; auto.
      * intros x Hx. apply T1. cbn. auto.
      * intros x y Hx Hy. apply T3; cbn; auto.
      * destruct Hr as [->|Hr]; [contradiction|auto].
      * intros x Hx. apply U. cbn. auto.
Qed.

Lemma iter_labels_spec s : good s ->
  exists ls, iter_labels nv s = Ok ls /\ NoDup ls /\ forall l, In l ls <-> In l (keys (polys s)).
Proof.
  intros G. destruct (get_components_spec s G) as [rs [cs [_ [_ [E [_ [_ [_ [H1 [H2 _]]]]]]]]]].
  exists (concat cs). unfold iter_labels. rewrite E. auto.
Qed.
End P.
