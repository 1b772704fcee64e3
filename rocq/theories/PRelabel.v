(** Proofs about relabelling and copying. *)
From Coq Require Import List Bool ZArith Lia Relations.
From Verif Require Import MBase MDict PDict MMut SMut PMut PMut2 PMut3 PGlue PBuild MRelabel SRelabel MEq PEq.
Import ListNotations.
Local Open Scope Z_scope.

(** ** lists *)
Lemma In_combine_rmap {A B} (f : A -> res B) l ys x y : rmap f l = Ok ys -> (In (x, y) (combine l ys) <-> In x l /\ f x = Ok y).
Proof.
  revert ys. induction l as [|a l IH]; intros ys E; cbn in E.
  - injection E as <-. cbn. tauto.
  - destruct (f a) as [b|] eqn:F; [|discriminate]. destruct (rmap f l) as [bs|] eqn:R; [|discriminate]. injection E as <-.
    cbn. rewrite (IH bs eq_refl). split.
    + intros [[= <- <-]|[X Y]]; auto.
    + intros [[->|X] Y]; [left; congruence|auto].
Qed.
Lemma combine_rmap_fst {A B} (f : A -> res B) l ys : rmap f l = Ok ys -> map fst (combine l ys) = l.
Proof.
  revert ys. induction l as [|a l IH]; intros ys E; cbn in E; [reflexivity|].
  destruct (f a) as [b|] eqn:F; [|discriminate]. destruct (rmap f l) as [bs|] eqn:R; [|discriminate]. injection E as <-.
  cbn. f_equal. now apply IH.
Qed.
Lemma In_enumerate {A} (l : list A) e x : In (e, x) (enumerate l) <-> 0 <= e /\ nth_error l (Z.to_nat e) = Some x.
Proof.
  unfold enumerate.
  assert (G : forall k, In (e, x) (combine (map Z.of_nat (seq k (length l))) l) <-> Z.of_nat k <= e /\ nth_error l (Z.to_nat e - k) = Some x).
  { induction l as [|a l IH]; intros k; cbn [length seq map combine In].
    - split; [intros []|]. intros [_ X]. destruct (Z.to_nat e - k)%nat; discriminate.
    - rewrite IH. split.
      + intros [[= <- <-]|[X Y]]; [split; [lia|]; replace (Z.to_nat (Z.of_nat k) - k)%nat with 0%nat by lia; reflexivity|].
        split; [lia|]. replace (Z.to_nat e - k)%nat with (S (Z.to_nat e - S k)) by lia. exact Y.
      + intros [X Y]. destruct (Z.eq_dec e (Z.of_nat k)) as [->|N].
        * left. replace (Z.to_nat (Z.of_nat k) - k)%nat with 0%nat in Y by lia. cbn in Y. congruence.
        * right. split; [lia|]. replace (Z.to_nat e - k)%nat with (S (Z.to_nat e - S k)) in Y by lia. exact Y. }
  rewrite G. rewrite Nat.sub_0_r. split; intros [X Y]; split; auto; lia.
Qed.

Lemma nth_error_seq_lt a n k : (k < n)%nat -> nth_error (seq a n) k = Some (a + k)%nat.
Proof.
  revert a k. induction n as [|n IH]; intros a k Hk; [lia|]. destruct k; cbn; [f_equal; lia|]. rewrite IH by lia. f_equal. lia.
Qed.

Section R.
Context {P : Type} (nv : P -> nat).
Notation surf := (@surf P).

(** ** building from scratch *)
Lemma build_pairs items ps (s0 : surf) : polys s0 = nil -> gluings s0 = nil -> roots_ s0 = nil -> mutable s0 = true -> connected s0 = false ->
  NoDup (map fst items) ->
  (forall x y, In (x, y) ps -> In (y, x) ps) ->
  (forall x y y', In (x, y) ps -> In (x, y') ps -> y = y') ->
  (forall x y, In (x, y) ps -> exists p, In (fst x, p) items /\ 0 <= snd x < Z.of_nat (nv p)) ->
  exists s1 s2, mfor items (add_item nv) s0 = (s1, Ok tt) /\ mfor ps (fun xy => glue nv (fst xy) (snd xy)) s1 = (s2, Ok tt) /\
    good nv s2 /\ mutable s2 = true /\ polys s2 = items /\ roots_ s2 = nil /\ (reachable nv s0 -> reachable nv s2) /\
    forall x y, gz (gluings s2) x = Some y <-> In (x, y) ps.
Proof.
  intros P0 G0 R0 M0 C0 ND SY FU RG.
  assert (I0 : inv nv s0).
  { constructor; rewrite ?P0, ?G0, ?R0; cbn; try constructor; try easy. }
  assert (S0 : sep s0) by (unfold sep; rewrite R0; split; [constructor|intros r r' []]).
  destruct (add_list nv items s0 I0 M0 S0 ND) as [s1 [E1 [I1 [M1 [C1 [S1 [P1 [G1 R1]]]]]]]].
  { rewrite P0. cbn. tauto. }
  rewrite P0 in P1. cbn in P1. rewrite R0 in R1.
  assert (NG : forall z, gz (gluings s1) z = None) by (intros z; rewrite G1, G0; reflexivity).
  destruct (glue_sym nv ps s1 I1 M1 S1) as [s2 [E2 [I2 [F2 [S2 [_ [R2 G2]]]]]]]; auto.
  { now left. }
  { intros x y X. apply edge_inrange with (nv := nv); auto; [exact (i_tot nv s1 I1 M1)|].
    destruct (RG x y X) as [p [Hp R]]. exists p. split; auto. apply get_polygon_Ok. rewrite P1. apply In_dget; auto. }
  exists s1, s2. split; auto. split; auto.
  assert (M2 : mutable s2 = true) by (rewrite (f_mut _ _ F2); auto).
  split. { constructor; auto; [exact (i_tot nv s2 I2 M2)|congruence|]. rewrite (f_conn _ _ F2), C1, C0. discriminate. }
  split; auto. split; [now rewrite (f_polys _ _ F2)|]. split; auto. split; auto.
  intros RE. change s2 with (fst (s2, Ok tt)). rewrite <- E2. apply pres_for.
  - intros [x y] X. cbn [fst snd]. destruct (RG _ _ X) as [p [_ A]]. destruct (RG _ _ (SY _ _ X)) as [q [_ B]]. apply pres_glue; lia.
  - change s1 with (fst (s1, @Ok unit tt)). rewrite <- E1. apply pres_for; auto. intros lp _. apply pres_bind; [apply pres_add|intros; apply pres_ret].
Qed.

(** ** the pairs that are glued when labels are changed by [f] *)
Definition moved (f : label -> label) (x : hedge) : hedge := (f (fst x), snd x).
Definition pair_list (f : label -> label) (lgs : list (label * list (option hedge))) : list (hedge * hedge) :=
  flat_map (fun lg => flat_map (fun eg => match snd eg with None => nil | Some c => [((f (fst lg), fst eg), moved f c)] end)
    (enumerate (snd lg))) lgs.
Lemma In_pair_list f lgs x' y' : In (x', y') (pair_list f lgs) <->
  exists l g e c, In (l, g) lgs /\ In (e, Some c) (enumerate g) /\ x' = (f l, e) /\ y' = moved f c.
Proof.
  unfold pair_list. rewrite in_flat_map. split.
  - intros [[l g] [X Y]]. apply in_flat_map in Y as [[e [c|]] [Y Z]]; cbn [fst snd] in Z; [|destruct Z].
    destruct Z as [[= <- <-]|[]]. exists l, g, e, c. auto.
  - intros (l & g & e & c & X & Y & -> & ->). exists (l, g). split; auto. apply in_flat_map. exists (e, Some c). split; auto. now left.
Qed.
Lemma gluings_of_spec s l g : gluings_of nv s l = Ok g ->
  forall e c, In (e, c) (enumerate g) <-> is_edge nv s (l, e) /\ opposite_edge s l e = Ok c.
Proof.
  unfold gluings_of. destruct (get_polygon s l) as [p|] eqn:GP; [|discriminate]. intros R e c. rewrite In_enumerate. unfold is_edge. cbn [fst snd].
  pose proof (rmap_Ok _ _ _ R) as RO. assert (L : length g = nv p).
  { destruct RO as [L _]. rewrite L. unfold edge_range. now rewrite map_length, seq_length. }
  assert (N : forall k, (k < nv p)%nat -> nth_error (edge_range nv p) k = Some (Z.of_nat k)).
  { intros k Hk. unfold edge_range. rewrite nth_error_map, nth_error_seq_lt by auto. reflexivity. }
  split.
  - intros [X Y]. assert (Z.to_nat e < nv p)%nat by (rewrite <- L; now apply nth_error_lt in Y).
    pose proof (rmap_nth _ _ _ _ _ R (N _ H)) as [y [Y1 Y2]]. rewrite Z2Nat.id in * by lia.
    split; [exists p; split; auto; lia|]. congruence.
  - intros [[p' [Q1 Q2]] O]. rewrite GP in Q1. injection Q1 as <-. split; [lia|].
    assert (Hk : (Z.to_nat e < nv p)%nat) by lia. pose proof (rmap_nth _ _ _ _ _ R (N _ Hk)) as [y [Y1 Y2]].
    rewrite Z2Nat.id in * by lia. congruence.
Qed.

(** ** relabelling *)
Lemma gluings_total s l : good nv s -> is_label s l -> exists g, gluings_of nv s l = Ok g.
Proof.
  intros G [p E]. unfold gluings_of. rewrite E. apply rmap_total. intros e He.
  unfold edge_range in He. apply in_map_iff in He as [k [<- Hk]]. apply in_seq in Hk.
  eexists. apply opposite_edge_Ok; [lia|]. split; [|reflexivity].
  apply (edge_inrange nv); auto; [apply (g_inv nv s G)|apply (g_tot nv s G)|]. exists p. split; auto. cbn. lia.
Qed.
Lemma edge_label s x : is_edge nv s x -> is_label s (fst x).
Proof. intros [p [E _]]. now exists p. Qed.
Lemma map_eq_NoDup {A B} (f : A -> B) l : (forall x y, In x l -> In y l -> f x = f y -> x = y) -> NoDup l -> NoDup (map f l).
Proof.
  intros J. induction 1 as [|x l N ND IH]; cbn; constructor.
  - intros X. apply in_map_iff in X as [y [E Hy]]. apply J in E; cbn; auto. subst. auto.
  - apply IH. intros; apply J; cbn; auto.
Qed.
Lemma NoDup_map_inj {A B} (f : A -> B) l x y : NoDup (map f l) -> In x l -> In y l -> f x = f y -> x = y.
Proof.
  induction l as [|a l IH]; cbn; intros N X Y E; [destruct X|]. inversion N; subst.
  destruct X as [<-|X], Y as [<-|Y]; auto.
  - exfalso. apply H1. rewrite E. now apply in_map.
  - exfalso. apply H1. rewrite <- E. now apply in_map.
Qed.

Lemma transport_conn (s s' : surf) f : (forall l l', is_label s l -> is_label s l' -> f l = f l' -> l = l') ->
  (forall x y, gz (gluings s') x = Some y -> exists x0 y0, glued nv s x0 y0 /\ is_label s (fst y0) /\ x = moved f x0 /\ y = moved f y0) ->
  forall a' b', conn (gluings s') a' b' -> forall a, is_label s a -> a' = f a -> exists b, is_label s b /\ b' = f b /\ linked nv s a b.
Proof.
  intros J G a' b' C. apply clos_rt_rt1n in C. induction C as [a'|a' c' b' [e [e' A]] _ IH]; intros a La ->.
  - exists a. split; auto. split; auto. apply rt_refl.
  - destruct (G _ _ A) as [[l0 e0] [[l1 e1] [Gl [L1 [X Y]]]]]. unfold moved in X, Y. cbn [fst snd] in *.
    injection X as X ->. injection Y as -> ->. pose proof (edge_label s _ (proj1 Gl)) as L0. cbn in L0.
    apply J in X; auto. subst l0. destruct (IH l1 L1 eq_refl) as [b [Lb [-> Lk]]].
    exists b. split; auto. split; auto. eapply rt_trans; [apply rt_step|exact Lk]. exists e0, e1. exact Gl.
Qed.
Lemma conn_transport (s s' : surf) f : (forall x y, glued nv s x y -> gz (gluings s') (moved f x) = Some (moved f y)) ->
  forall a b, linked nv s a b -> conn (gluings s') (f a) (f b).
Proof.
  intros G a b L. induction L as [a b [e [e' A]]| |]; [|apply rt_refl|eapply rt_trans; eauto].
  apply rt_step. exists e, e'. exact (G _ _ A).
Qed.

Lemma roots_explicit (s : surf) : good nv s -> cover s -> get_roots nv s = Ok (roots_ s).
Proof.
  intros G C. destruct (get_roots_spec nv s G) as [d [E [[T1 T2 T3 T4] _]]]. rewrite E. f_equal.
  destruct d as [|r d]; [apply app_nil_r|]. exfalso.
  assert (Hr : In r (roots_ s ++ r :: d)) by (apply in_or_app; right; cbn; auto).
  destruct (C r (T1 r Hr)) as [r' [Hr' Co]].
  assert (X : r' = r) by (apply T3; auto; apply in_or_app; auto). subst r'.
  apply NoDup_remove_2 in T2. apply T2. apply in_or_app. auto.
Qed.

Theorem relabel_main (s : surf) d : good nv s -> mutable s = true ->
  (forall l l', is_label s l -> is_label s l' -> relabel_get d l = relabel_get d l' -> l = l') ->
  exists s', relabel nv d s = (s', Ok tt) /\ good nv s' /\ mutable s' = true /\ (reachable nv s -> reachable nv s') /\
    relabelled nv s (relabel_get d) (get_polygon s') (opposite_edge s') (get_roots nv s') /\
    (exists ls, iter_labels nv s = Ok ls /\ keys (polys s') = map (relabel_get d) ls) /\
    (exists rs, get_roots nv s = Ok rs /\ roots_ s' = map (relabel_get d) rs).
Proof.
  intros G Mu J. pose proof (g_inv nv s G) as Iv. pose proof (g_tot nv s G) as To. set (f := relabel_get d) in *.
  destruct (iter_labels_spec nv s G) as [ls [EL [ND LI]]].
  assert (LL : forall l, In l ls <-> is_label s l) by (intros l; rewrite LI; symmetry; apply is_label_keys).
  destruct (rmap_total (get_polygon s) ls) as [pols EP]; [intros l Hl; apply LL in Hl; exact Hl|].
  destruct (rmap_total (gluings_of nv s) ls) as [gls EG]; [intros l Hl; apply gluings_total; auto; now apply LL|].
  destruct (get_roots_spec nv s G) as [dr [ER [TR _]]]. set (rs := roots_ s ++ dr) in *.
  assert (Co0 : connected s = false) by (destruct (connected s) eqn:C; auto; destruct (g_con nv s G C); congruence).
  set (items := map (fun lp => (f (fst lp), snd lp)) (combine ls pols)).
  set (ps := pair_list f (combine ls gls)).
  assert (KI : map fst items = map f ls).
  { unfold items. rewrite map_map. cbn. rewrite <- (combine_rmap_fst _ _ _ EP) at 2. now rewrite map_map. }
  assert (NDI : NoDup (map fst items)).
  { rewrite KI. apply map_eq_NoDup; auto. intros x y Hx Hy. apply J; now apply LL. }
  assert (II : forall l' p, In (l', p) items <-> exists l, l' = f l /\ get_polygon s l = Ok p).
  { intros l' p. unfold items. rewrite in_map_iff. split.
    - intros [[l q] [[= <- <-] X]]. cbn [fst snd] in *. apply (In_combine_rmap _ _ _ _ _ EP) in X. exists l. tauto.
    - intros [l [-> E]]. exists (l, p). split; auto. apply (In_combine_rmap _ _ _ _ _ EP). split; auto. apply LL. now exists p. }
  assert (PI : forall x' y', In (x', y') ps <-> exists x y, glued nv s x y /\ x' = moved f x /\ y' = moved f y).
  { intros x' y'. unfold ps. rewrite In_pair_list. split.
    - intros (l & g & e & c & X & Y & -> & ->). apply (In_combine_rmap _ _ _ _ _ EG) in X as [X1 X2].
      apply (gluings_of_spec s l g X2) in Y as [Y1 Y2]. exists (l, e), c. split; auto. split; auto.
    - intros ([l e] & c & [Ed O] & -> & ->). cbn [fst snd] in O. destruct (gluings_total s l G (edge_label s _ Ed)) as [g Hg].
      exists l, g, e, c. split; [|split; [|auto]].
      + apply (In_combine_rmap _ _ _ _ _ EG). split; auto. apply LL. exact (edge_label s _ Ed).
      + apply (gluings_of_spec s l g Hg). auto. }
  assert (GS : forall x y, glued nv s x y -> glued nv s y x).
  { intros x y X. apply (glued_gz nv s _ _ Iv). apply (i_inv nv s Iv). now apply (glued_gz nv s _ _ Iv). }
  assert (MI : forall x x', is_edge nv s x -> is_edge nv s x' -> moved f x = moved f x' -> x = x').
  { intros [l e] [l' e'] X Y [= E ->]. cbn in E. f_equal. apply J; auto; [exact (edge_label s _ X)|exact (edge_label s _ Y)]. }
  destruct (build_pairs items ps (Surf nil nil nil (next_label s) true (connected s)) eq_refl eq_refl eq_refl eq_refl) as (s1 & s2 & E1 & E2 & G2 & M2 & P2 & R2 & RE2 & Q2); auto.
  { intros x' y' X. apply PI in X as (x & y & A & -> & ->). apply PI. exists y, x. auto. }
  { intros x' y' y'' X Y. apply PI in X as (x & y & A & -> & ->). apply PI in Y as (x0 & y0 & B & EX & ->).
    apply MI in EX; [|apply A|apply B]. subst x0. destruct A as [_ A], B as [_ B]. congruence. }
  { intros x' y' X. apply PI in X as (x & y & [[p [A1 A2]] _] & -> & ->). exists p. cbn [moved fst snd]. split; auto. apply II. eauto. }
  assert (I2 := g_inv nv s2 G2).
  assert (FW : forall x y, gz (gluings s2) x = Some y -> exists x0 y0, glued nv s x0 y0 /\ is_label s (fst y0) /\ x = moved f x0 /\ y = moved f y0).
  { intros x' y' X. apply Q2, PI in X as (x & y & A & -> & ->). exists x, y. split; auto. split; auto. apply (edge_label s y), (GS _ _ A). }
  assert (BW : forall x y, glued nv s x y -> gz (gluings s2) (moved f x) = Some (moved f y)) by (intros x y A; apply Q2, PI; eauto).
  assert (KP : forall l', In l' (keys (polys s2)) <-> exists l, is_label s l /\ l' = f l).
  { intros l'. rewrite P2. unfold keys. rewrite KI, in_map_iff. split; intros [l [A B]]; exists l; [split; [now apply LL|auto]|].
    split; [auto|now apply LL]. }
  destruct TR as [T1 T2 T3 T4].
  destruct (set_roots_spec nv s2 (map f rs) G2 M2) as [s3 [x3 [E3 [H3 _]]]].
  assert (ADM : (forall r, In r (map f rs) -> In r (keys (polys s2))) /\ NoDup (map f rs) /\
      (forall r r', In r (map f rs) -> In r' (map f rs) -> conn (gluings s2) r r' -> r = r')).
  { split; [|split].
    - intros r Hr. apply in_map_iff in Hr as [r0 [<- Hr]]. apply KP. exists r0. split; auto. apply is_label_keys. now apply T1.
    - apply map_eq_NoDup; auto. intros a b Ha Hb. apply J; apply is_label_keys; now apply T1.
    - intros r r' Hr Hr' C. apply in_map_iff in Hr as [a [<- Ha]]. apply in_map_iff in Hr' as [b [<- Hb]].
      assert (La : is_label s a) by (apply is_label_keys; now apply T1). assert (Lb : is_label s b) by (apply is_label_keys; now apply T1).
      destruct (transport_conn s s2 f J FW _ _ C a La eq_refl) as [b' [Lb' [EB LK]]]. apply J in EB; auto. subst b'.
      f_equal. apply T3; auto. now apply (linked_conn nv). }
  destruct (H3 ADM) as [-> ->]. clear H3.
  assert (G3 : good nv (set_roots_ (map f rs) s2)).
  { destruct G2 as [A B C D E]. constructor; cbn; auto; [apply inv_roots; auto; apply ADM|split; apply ADM|congruence|].
    intros X. destruct (E X). congruence. }
  assert (CV : cover (set_roots_ (map f rs) s2)).
  { intros l' Hl'. cbn [polys set_roots_] in Hl'. apply KP in Hl' as [l [Hl ->]]. apply is_label_keys in Hl. destruct (T4 l Hl) as [r [Hr C]].
    exists (f r). split; [cbn; now apply in_map|]. cbn. apply (conn_transport s s2 f BW). now apply (linked_conn nv). }
  exists (set_roots_ (map f rs) s2). split; [|split; [|split; [|split; [|split; [|split]]]]]; auto.
  - unfold relabel. rewrite (mbind_ok (mread (iter_labels nv)) _ s s ls) by (unfold mread; now rewrite EL).
    rewrite (mbind_ok (mread (fun s => rmap (get_polygon s) ls)) _ s s pols) by (unfold mread; now rewrite EP).
    rewrite (mbind_ok (mread (fun s => rmap (gluings_of nv s) ls)) _ s s gls) by (unfold mread; now rewrite EG).
    rewrite (mbind_ok (mread (get_roots nv)) _ s s rs) by (unfold mread; now rewrite ER).
    rewrite (mbind_ok _ _ _ _ _ (remove_all nv ls s G Mu ND LI)).
    assert (A1 : mfor (combine ls pols) (fun lp => mbind (add_polygon nv (snd lp) (Some (f (fst lp)))) (fun _ => mret tt))
      (Surf nil nil nil (next_label s) true (connected s)) = (s1, Ok tt)).
    { rewrite <- E1. unfold items. rewrite mfor_map. reflexivity. }
    rewrite (mbind_ok _ _ _ _ _ A1).
    assert (A2 : mfor (combine ls gls) (fun lg => mfor (enumerate (snd lg)) (fun eg =>
      match snd eg with None => mret tt | Some c => glue nv (f (fst lg), fst eg) (f (fst c), snd c) end)) s1 = (s2, Ok tt)).
    { rewrite <- E2. unfold ps, pair_list. rewrite <- (mfor_flat _ (fun xy => glue nv (fst xy) (snd xy))). apply mfor_ext. intros [l g] t _. cbn [fst snd].
      rewrite <- (mfor_flat _ (fun xy => glue nv (fst xy) (snd xy))). apply mfor_ext. intros [e [c|]] t' _; cbn [fst snd]; [|reflexivity].
      rewrite mfor_one. reflexivity. }
    rewrite (mbind_ok _ _ _ _ _ A2). exact E3.
  - intros RE. change (set_roots_ (map f rs) s2) with (fst (set_roots_ (map f rs) s2, @Ok unit tt)). rewrite <- E3. apply pres_set_roots, RE2.
    change (Surf (P := P) nil nil nil (next_label s) true (connected s)) with (fst (Surf (P := P) nil nil nil (next_label s) true (connected s), @Ok unit tt)).
    rewrite <- (remove_all nv ls s G Mu ND LI). apply pres_for; auto. intros; apply pres_remove.
  - constructor; auto.
    + intros l p E. apply get_polygon_Ok. cbn. rewrite P2. apply In_dget; auto. apply II. eauto.
    + intros l' p E. apply KP. apply is_label_keys. now exists p.
    + intros [l e] y A. cbn [fst snd]. apply opposite_edge_Ok; [exact (is_edge_pos nv s _ (proj1 A))|]. split.
      * cbn. apply (gz_range _ (f l, e) (moved f y)). exact (BW _ _ A).
      * exact (BW _ _ A).
    + intros [l e] [A O]. cbn [fst snd] in *. apply opposite_edge_Ok; [exact (is_edge_pos nv s _ A)|]. cbn [gluings set_roots_].
      assert (A' : is_edge nv s2 (f l, e)).
      { destruct A as [p [A1 A2]]. exists p. split; auto. apply get_polygon_Ok. rewrite P2. apply In_dget; auto. apply II. cbn. eauto. }
      split; [now apply (edge_inrange nv s2 _ I2 (g_tot nv s2 G2))|].
      destruct (gz (gluings s2) (f l, e)) as [y|] eqn:E; auto. destruct (FW _ _ E) as (x0 & y0 & Gl & _ & EX & _).
      assert (X : (l, e) = x0) by (apply MI; auto; apply Gl). subst x0. destruct Gl as [_ Gl]. cbn in Gl. congruence.
    + intros rs' E. rewrite ER in E. injection E as <-. now rewrite (roots_explicit _ G3 CV).
  - exists ls. split; auto. cbn. rewrite P2. exact KI.
  - exists rs. split; auto.
Qed.
(** a relabelling that is not injective *)
Theorem relabel_clash (s : surf) d l l' : good nv s -> mutable s = true -> is_label s l -> is_label s l' -> l <> l' ->
  relabel_get d l = relabel_get d l' -> exists s', relabel nv d s = (s', Err ValueError).
Proof.
  intros G Mu Hl Hl' N E. set (f := relabel_get d) in *.
  destruct (iter_labels_spec nv s G) as [ls [EL [ND LI]]].
  assert (LL : forall l, In l ls <-> is_label s l) by (intros k; rewrite LI; symmetry; apply is_label_keys).
  destruct (rmap_total (get_polygon s) ls) as [pols EP]; [intros k Hk; apply LL in Hk; exact Hk|].
  destruct (rmap_total (gluings_of nv s) ls) as [gls EG]; [intros k Hk; apply gluings_total; auto; now apply LL|].
  destruct (get_roots_spec nv s G) as [dr [ER [TR _]]]. set (rs := roots_ s ++ dr) in *.
  set (s0 := Surf (P := P) nil nil nil (next_label s) true (connected s)).
  set (items := map (fun lp => (f (fst lp), snd lp)) (combine ls pols)).
  assert (KI : map fst items = map f ls).
  { unfold items. rewrite map_map. cbn. rewrite <- (combine_rmap_fst _ _ _ EP) at 2. now rewrite map_map. }
  destruct (add_list_clash nv items s0) as [s1 E1]; auto.
  { constructor; cbn; try constructor; try easy. }
  { split; [constructor|intros r r' []]. }
  { constructor. }
  { cbn. rewrite KI. intros X. apply N. apply (NoDup_map_inj f ls); auto; now apply LL. }
  exists s1. unfold relabel. rewrite (mbind_ok (mread (iter_labels nv)) _ s s ls) by (unfold mread; now rewrite EL).
  rewrite (mbind_ok (mread (fun s => rmap (get_polygon s) ls)) _ s s pols) by (unfold mread; now rewrite EP).
  rewrite (mbind_ok (mread (fun s => rmap (gluings_of nv s) ls)) _ s s gls) by (unfold mread; now rewrite EG).
  rewrite (mbind_ok (mread (get_roots nv)) _ s s rs) by (unfold mread; now rewrite ER).
  rewrite (mbind_ok _ _ _ _ _ (remove_all nv ls s G Mu ND LI)).
  assert (A1 : mfor (combine ls pols) (fun lp => mbind (add_polygon nv (snd lp) (Some (f (fst lp)))) (fun _ => mret tt)) s0 = (s1, Err ValueError)).
  { rewrite <- E1. unfold items. rewrite mfor_map. reflexivity. }
  now rewrite (mbind_err _ _ _ _ _ A1).
Qed.

(** ** copying *)
Lemma rmap_combine_for {A B S} (r : A -> res B) (f : A -> B -> M S unit) l ys s : rmap r l = Ok ys ->
  mfor l (fun x => mbind (mlift (r x)) (f x)) s = mfor (combine l ys) (fun xy => f (fst xy) (snd xy)) s.
Proof.
  revert ys s. induction l as [|a l IH]; intros ys s E; cbn in E.
  - injection E as <-. reflexivity.
  - destruct (r a) as [b|] eqn:F; [|discriminate]. destruct (rmap r l) as [bs|] eqn:R; [|discriminate]. injection E as <-.
    cbn [mfor combine fst snd]. assert (Q : mbind (mlift (r a)) (f a) s = f a b s) by (unfold mbind, mlift; now rewrite F).
    destruct (f a b s) as [s1 [u|e]] eqn:Ef.
    + rewrite (mbind_ok _ _ _ _ _ Q), (mbind_ok _ _ _ _ _ Ef). now apply IH.
    + now rewrite (mbind_err _ _ _ _ _ Q), (mbind_err _ _ _ _ _ Ef).
Qed.
Lemma rmap_opposite s l p : good nv s -> get_polygon s l = Ok p -> exists g, rmap (opposite_edge s l) (edge_range nv p) = Ok g /\ gluings_of nv s l = Ok g.
Proof.
  intros G E. destruct (gluings_total s l G) as [g Hg]; [now exists p|]. exists g. split; auto. unfold gluings_of in Hg. now rewrite E in Hg.
Qed.
Lemma combine_enumerate (p : P) {A} (g : list A) : length g = nv p -> combine (edge_range nv p) g = enumerate g.
Proof. intros L. unfold enumerate, edge_range. now rewrite L. Qed.

Definition kept (ls : list label) (c : option hedge) : option hedge :=
  match c with Some c => if mem (fst c) ls then Some c else None | None => None end.
Definition sub_pairs (ls : list label) (lgs : list (label * list (option hedge))) : list (hedge * hedge) :=
  flat_map (fun lg => flat_map (fun eg => match kept ls (snd eg) with None => nil | Some c => [((fst lg, fst eg), c)] end)
    (enumerate (snd lg))) lgs.
Lemma In_sub_pairs ls lgs x' y' : In (x', y') (sub_pairs ls lgs) <->
  exists l g e, In (l, g) lgs /\ In (e, Some y') (enumerate g) /\ In (fst y') ls /\ x' = (l, e).
Proof.
  unfold sub_pairs. rewrite in_flat_map. split.
  - intros [[l g] [X Y]]. apply in_flat_map in Y as [[e [c|]] [Y Z]]; cbn [fst snd kept] in Z; [|destruct Z].
    destruct (mem (fst c) ls) eqn:Me; [|destruct Z]. destruct Z as [[= <- <-]|[]]. exists l, g, e. apply mem_In in Me. auto.
  - intros (l & g & e & X & Y & Z & ->). exists (l, g). split; auto. apply in_flat_map. exists (e, Some y'). split; auto. cbn [fst snd kept].
    apply mem_In in Z. rewrite Z. now left.
Qed.

Theorem from_surface_main (s : surf) ls : good nv s -> NoDup ls -> (forall l, In l ls -> is_label s l) ->
  exists s', from_surface nv s (Some ls) empty = (s', Ok tt) /\ good nv s' /\ mutable s' = true /\ reachable nv s' /\
    (forall l, get_polygon s' l = if mem l ls then get_polygon s l else Err KeyError) /\
    (forall x y, glued nv s' x y <-> glued nv s x y /\ In (fst x) ls /\ In (fst y) ls) /\
    roots_ s' = filter (fun r => mem r ls) (roots_ s).
Proof.
  intros G ND LL. pose proof (g_inv nv s G) as Iv.
  destruct (rmap_total (get_polygon s) ls) as [pols EP]; [intros l Hl; apply LL in Hl; exact Hl|].
  destruct (rmap_total (gluings_of nv s) ls) as [gls EG]; [intros l Hl; apply gluings_total; auto|].
  set (items := combine ls pols). set (ps := sub_pairs ls (combine ls gls)).
  assert (KI : map fst items = ls) by (unfold items; now apply (combine_rmap_fst (get_polygon s))).
  assert (II : forall l p, In (l, p) items <-> In l ls /\ get_polygon s l = Ok p).
  { intros l p. unfold items. apply (In_combine_rmap _ _ _ _ _ EP). }
  assert (PI : forall x y, In (x, y) ps <-> glued nv s x y /\ In (fst x) ls /\ In (fst y) ls).
  { intros x y. unfold ps. rewrite In_sub_pairs. split.
    - intros (l & g & e & X & Y & Z & ->). apply (In_combine_rmap _ _ _ _ _ EG) in X as [X1 X2].
      apply (gluings_of_spec s l g X2) in Y as [Y1 Y2]. split; [split|]; auto.
    - intros ([Ed O] & X & Y). destruct x as [l e]. cbn [fst snd] in *. destruct (gluings_total s l G (edge_label s _ Ed)) as [g Hg].
      exists l, g, e. split; [|split; [|auto]].
      + apply (In_combine_rmap _ _ _ _ _ EG). auto.
      + apply (gluings_of_spec s l g Hg). auto. }
  assert (GS : forall x y, glued nv s x y -> glued nv s y x).
  { intros x y X. apply (glued_gz nv s _ _ Iv). apply (i_inv nv s Iv). now apply (glued_gz nv s _ _ Iv). }
  destruct (build_pairs items ps empty eq_refl eq_refl eq_refl eq_refl eq_refl) as (s1 & s2 & E1 & E2 & G2 & M2 & P2 & R2 & RE2 & Q2); auto.
  { now rewrite KI. }
  { intros x y X. apply PI in X as (X & A & B). apply PI. auto. }
  { intros x y y' X Y. apply PI in X as ([_ X] & _ & _). apply PI in Y as ([_ Y] & _ & _). congruence. }
  { intros x y X. apply PI in X as ([[p [A1 A2]] _] & A & B). exists p. split; auto. apply II. auto. }
  assert (I2 := g_inv nv s2 G2).
  assert (GP : forall l, get_polygon s2 l = if mem l ls then get_polygon s l else Err KeyError).
  { intros l. destruct (mem l ls) eqn:Me.
    - apply mem_In in Me. destruct (LL l Me) as [p Hp]. rewrite Hp. apply get_polygon_Ok. rewrite P2. apply In_dget; [unfold keys; now rewrite KI|]. apply II. auto.
    - apply mem_not_In in Me. unfold get_polygon, dgetE. rewrite P2. rewrite (proj2 (dget_None l items)); auto. unfold keys. now rewrite KI. }
  assert (GL : forall x y, glued nv s2 x y <-> glued nv s x y /\ In (fst x) ls /\ In (fst y) ls).
  { intros x y. rewrite (glued_gz nv s2 _ _ I2), Q2. apply PI. }
  assert (EX : (let! labels := mlift (Ok ls) in
      mfor labels (fun l => let! p := mlift (get_polygon s l) in add_polygon nv p (Some l) ;;; mret tt) ;;;
      mfor labels (fun l => let! p := mlift (get_polygon s l) in
        mfor (edge_range nv p) (fun e => let! c := mlift (opposite_edge s l e) in
          match c with None => mret tt | Some c => if mem (fst c) labels then glue nv (l, e) c else mret tt end)))%M empty = (s2, Ok tt)).
  { rewrite (mbind_ok (mlift (Ok ls)) _ empty empty ls) by reflexivity.
    assert (A1 : mfor ls (fun l => mbind (mlift (get_polygon s l)) (fun p => mbind (add_polygon nv p (Some l)) (fun _ => mret tt))) empty = (s1, Ok tt)).
    { rewrite (rmap_combine_for _ (fun l p => mbind (add_polygon nv p (Some l)) (fun _ => mret tt)) _ _ _ EP). exact E1. }
    rewrite (mbind_ok _ _ _ _ _ A1). rewrite <- E2. unfold ps, sub_pairs. rewrite <- (mfor_flat _ (fun xy => glue nv (fst xy) (snd xy))).
    assert (A2 : forall t, mfor ls (fun l => mbind (mlift (get_polygon s l)) (fun p => mfor (edge_range nv p) (fun e =>
        mbind (mlift (opposite_edge s l e)) (fun c => match c with None => mret tt | Some c => if mem (fst c) ls then glue nv (l, e) c else mret tt end)))) t =
      mfor ls (fun l => mbind (mlift (gluings_of nv s l)) (fun g => mfor (flat_map (fun eg => match kept ls (snd eg) with None => nil | Some c => [((l, fst eg), c)] end) (enumerate g))
         (fun xy => glue nv (fst xy) (snd xy)))) t).
    { intros t. apply mfor_ext. intros l t' Hl. destruct (LL l Hl) as [p Hp]. destruct (rmap_opposite s l p G Hp) as [g [Hg Hg']].
      rewrite Hp, Hg'. unfold mbind at 1 3. unfold mlift at 1 3.
      rewrite (rmap_combine_for _ (fun e c => match c with None => mret tt | Some c => if mem (fst c) ls then glue nv (l, e) c else mret tt end) _ _ _ Hg).
      rewrite combine_enumerate. 2:{ destruct (rmap_Ok _ _ _ Hg) as [L _]. etransitivity; [exact L|]. unfold edge_range. now rewrite map_length, seq_length. }
      rewrite <- (mfor_flat _ (fun xy => glue nv (fst xy) (snd xy))). apply mfor_ext. intros [e [c|]] t'' _; cbn [fst snd kept]; [|reflexivity].
      destruct (mem (fst c) ls); [now rewrite mfor_one|reflexivity]. }
    rewrite A2. rewrite (rmap_combine_for _ (fun l g => mfor (flat_map (fun eg => match kept ls (snd eg) with None => nil | Some c => [((l, fst eg), c)] end) (enumerate g))
         (fun xy => glue nv (fst xy) (snd xy))) _ _ _ EG). reflexivity. }
  assert (EX' : forall k, (let! labels := mlift (Ok ls) in
      mfor labels (fun l => let! p := mlift (get_polygon s l) in add_polygon nv p (Some l) ;;; mret tt) ;;;
      mfor labels (fun l => let! p := mlift (get_polygon s l) in
        mfor (edge_range nv p) (fun e => let! c := mlift (opposite_edge s l e) in
          match c with None => mret tt | Some c => if mem (fst c) labels then glue nv (l, e) c else mret tt end)) ;;; k labels)%M empty = k ls s2 :> surf * res unit).
  { intros k. unfold mbind at 1, mlift at 1 in EX. unfold mbind at 1, mlift at 1. unfold mbind at 1 in EX. unfold mbind at 1.
    destruct (mfor ls _ empty) as [s1' [u|e]]; [|congruence]. now rewrite (mbind_ok _ _ _ _ _ EX). }
  unfold from_surface. rewrite EX'.
  assert (RE3 : reachable nv s2) by (apply RE2; exists nil; split; [constructor|reflexivity]).
  destruct (roots_ s) as [|r0 rs0] eqn:ER.
  - exists s2. split; [reflexivity|]. do 5 (split; [assumption|]). exact R2.
  - set (rs := filter (fun r => mem r ls) (r0 :: rs0)).
    assert (RI : forall r, In r rs <-> In r (roots_ s) /\ In r ls).
    { intros r. unfold rs. rewrite <- ER, filter_In, mem_In. tauto. }
    destruct (set_roots_spec nv s2 rs G2 M2) as [s3 [x3 [E3 [H3 _]]]].
    assert (ADM : (forall r, In r rs -> In r (keys (polys s2))) /\ NoDup rs /\
      (forall r r', In r rs -> In r' rs -> conn (gluings s2) r r' -> r = r')).
    { destruct (g_sep nv s G) as [S1 S2]. split; [|split].
      - intros r Hr. apply RI in Hr as [_ Hr]. rewrite P2. unfold keys. now rewrite KI.
      - unfold rs. rewrite <- ER. now apply NoDup_filter.
      - intros r r' Hr Hr' C. apply RI in Hr as [A1 A2]. apply RI in Hr' as [B1 B2]. apply S2; auto.
        clear - C GL I2 Iv. induction C as [a b [e [e' A]]| |]; [|apply rt_refl|eapply rt_trans; eauto]. apply rt_step. exists e, e'.
        apply (glued_gz nv s _ _ Iv). apply (glued_gz nv s2 _ _ I2) in A. now apply GL in A. }
    destruct (H3 ADM) as [-> ->]. clear H3. exists (set_roots_ rs s2). split; [exact E3|]. split; [|split; [|split; [|split; [|split]]]]; auto.
    2:{ change (set_roots_ rs s2) with (fst (set_roots_ rs s2, @Ok unit tt)). rewrite <- E3. now apply pres_set_roots. }
    destruct G2 as [A B C D E]. constructor; cbn; auto; [apply inv_roots; auto; apply ADM|split; apply ADM|congruence|].
    intros X. destruct (E X). congruence.
Qed.

Theorem copy_main (s : surf) : good nv s ->
  exists s', from_surface nv s None empty = (s', Ok tt) /\ good nv s' /\ mutable s' = true /\ reachable nv s' /\
    same_view nv s s' /\ roots_ s' = roots_ s /\ deq (polys s) (polys s') /\ deq (gluings s) (gluings s').
Proof.
  intros G. destruct (iter_labels_spec nv s G) as [ls [EL [ND LI]]]. pose proof (g_inv nv s G) as Iv.
  assert (LL : forall l, In l ls <-> is_label s l) by (intros l; rewrite LI; symmetry; apply is_label_keys).
  destruct (from_surface_main s ls G ND (fun l => proj1 (LL l))) as (s' & E & G' & M' & RE & GP & GL & RO).
  assert (Iv' := g_inv nv s' G').
  assert (GP' : forall l, get_polygon s' l = get_polygon s l).
  { intros l. rewrite GP. destruct (mem l ls) eqn:Me; auto. apply mem_not_In in Me. rewrite LI in Me. symmetry.
    unfold get_polygon, dgetE. now rewrite (proj2 (dget_None l (polys s)) Me). }
  assert (DP : deq (polys s) (polys s')).
  { intros k. specialize (GP' k). unfold get_polygon, dgetE in GP'. destruct (dget k (polys s)), (dget k (polys s')); congruence. }
  assert (IE : forall x, is_edge nv s' x <-> is_edge nv s x) by (intros x; unfold is_edge; now rewrite GP').
  assert (GLU : forall x y, glued nv s' x y <-> glued nv s x y).
  { intros x y. rewrite GL. split; [tauto|]. intros X. split; auto. split; apply LL.
    - exact (edge_label s x (proj1 X)).
    - apply (edge_label s y). apply (glued_gz nv s _ _ Iv) in X. apply (i_inv nv s Iv) in X. apply (glued_gz nv s _ _ Iv) in X. apply X. }
  assert (GZ : forall x, gz (gluings s') x = gz (gluings s) x).
  { intros x. destruct (gz (gluings s) x) as [y|] eqn:X.
    - apply (glued_gz nv s' _ _ Iv'), GLU, (glued_gz nv s _ _ Iv), X.
    - destruct (gz (gluings s') x) as [y|] eqn:Y; auto. apply (glued_gz nv s' _ _ Iv'), GLU, (glued_gz nv s _ _ Iv) in Y. congruence. }
  assert (DG : deq (gluings s) (gluings s')).
  { intros k. destruct (dget k (polys s)) as [p|] eqn:K.
    - assert (K' := K). rewrite DP in K'.
      assert (exists g, dget k (gluings s) = Some g) as [g Hg] by (apply dget_keys, (g_tot nv s G), dget_keys; eauto).
      assert (exists g, dget k (gluings s') = Some g) as [g' Hg'] by (apply dget_keys, (g_tot nv s' G'), dget_keys; eauto).
      rewrite Hg, Hg'. f_equal.
      destruct (i_len nv s Iv _ _ Hg) as [p1 [K1 L1]]. destruct (i_len nv s' Iv' _ _ Hg') as [p2 [K2 L2]].
      assert (Ln : length g = length g') by congruence.
      assert (X : forall n, nth_error g n = nth_error g' n).
      { intros n. destruct (Nat.lt_ge_cases n (length g)) as [Hn|Hn].
        - specialize (GZ (k, Z.of_nat n)). unfold gz in GZ. cbn [fst snd] in GZ. rewrite Hg, Hg' in GZ.
          rewrite (proj2 (Z.leb_le 0 (Z.of_nat n))), !Nat2Z.id in GZ by lia.
          destruct (nth_error g n) eqn:N1; [|apply nth_error_None in N1; lia]. destruct (nth_error g' n) eqn:N2; [|apply nth_error_None in N2; lia]. congruence.
        - rewrite (proj2 (nth_error_None g n) Hn). symmetry. apply nth_error_None. lia. }
      clear - X. revert g' X. induction g as [|a g IH]; intros [|b g'] X; auto.
      + specialize (X 0%nat). discriminate.
      + specialize (X 0%nat). discriminate.
      + f_equal; [specialize (X 0%nat); now injection X|]. apply IH. intros n. apply (X (Datatypes.S n)).
    - assert (TK : forall u k, good nv u -> dget k (polys u) = None -> dget k (gluings u) = None).
      { intros u k' Gu N. destruct (dget k' (gluings u)) eqn:X; auto. apply (i_len nv u (g_inv nv u Gu)) in X as [p [X _]]. congruence. }
      rewrite (TK s k G K). symmetry. apply (TK s' k G'). now rewrite <- DP. }
  assert (RO' : roots_ s' = roots_ s).
  { rewrite RO. clear - Iv LI. assert (X : forall r, In r (roots_ s) -> mem r ls = true) by (intros r Hr; apply mem_In, LI, (i_roots nv s Iv r Hr)).
    induction (roots_ s) as [|r rs IH]; cbn; auto. rewrite X by (cbn; auto). f_equal. apply IH. intros; apply X; cbn; auto. }
  exists s'. split; [unfold from_surface in *; rewrite EL; exact E|]. split; auto. split; auto. split; auto. split; [|auto].
  constructor; auto.
  - intros l e. unfold opposite_edge, dgetE. now rewrite DG.
  - destruct (mutable s) eqn:Mu.
    + apply same_roots; auto. constructor; auto. congruence.
    + assert (Co : cover s') by (intros l Hl; rewrite <- LI in * || idtac; assert (Hl' : In l (keys (polys s))) by (apply (deq_keys _ _ DP); exact Hl);
        destruct (g_imm nv s G Mu l Hl') as [r [Hr C]]; exists r; rewrite RO'; split; auto;
        clear - C GZ; induction C as [a b [e [e' A]]| |]; [apply rt_step; exists e, e'; now rewrite GZ|apply rt_refl|eapply rt_trans; eauto]).
      rewrite (roots_explicit s' G' Co), RO'. symmetry. now apply roots_explicit, (g_imm nv s G Mu).
Qed.

(** ** LazyRelabeledSurface *)
Lemma index_in_spec ls l : forall k0, NoDup ls -> In l ls -> exists k, index_in ls l k0 = Ok k /\ k0 <= k /\ nth_error ls (Z.to_nat (k - k0)) = Some l.
Proof.
  induction ls as [|a ls IH]; intros k0 ND Hl; [destruct Hl|]. cbn [index_in]. inversion ND; subst.
  destruct (eqb_case a l) as [[Q ->]|[Q N]]; rewrite Q.
  - exists k0. rewrite Z.sub_diag. cbn. repeat split; auto. lia.
  - destruct Hl as [->|Hl]; [congruence|]. destruct (IH (k0 + 1)) as [k [E [L X]]]; auto. exists k. split; auto. split; [lia|].
    replace (Z.to_nat (k - k0)) with (Datatypes.S (Z.to_nat (k - (k0 + 1)))) by lia. exact X.
Qed.
Definition position (ls : list label) (l : label) : label := match index_in ls l 0 with Ok k => k | Err _ => 0 end.
Lemma position_spec ls l : NoDup ls -> In l ls -> index_in ls l 0 = Ok (position ls l) /\ 0 <= position ls l /\ nth_error ls (Z.to_nat (position ls l)) = Some l.
Proof. intros ND H. destruct (index_in_spec ls l 0 ND H) as [k [E [L X]]]. unfold position. rewrite E. rewrite Z.sub_0_r in X. auto. Qed.
Lemma position_nth ls k l : NoDup ls -> 0 <= k -> nth_error ls (Z.to_nat k) = Some l -> position ls l = k.
Proof.
  intros ND Hk E. assert (Hl : In l ls) by (now apply nth_error_In in E). destruct (position_spec ls l ND Hl) as [_ [A B]].
  rewrite NoDup_nth_error in ND. specialize (ND (Z.to_nat (position ls l)) (Z.to_nat k)). 
  assert (Z.to_nat (position ls l) = Z.to_nat k); [|lia]. apply ND; [|congruence]. apply nth_error_Some. congruence.
Qed.
Theorem lazy_main (s : surf) : good nv s -> exists ls, iter_labels nv s = Ok ls /\
  relabelled nv s (position ls) (lazy_polygon nv s) (lazy_opposite nv s) (lazy_roots nv s) /\
  (forall k, (exists p, lazy_polygon nv s k = Ok p) <-> 0 <= k < Z.of_nat (length ls)).
Proof.
  intros G. destruct (iter_labels_spec nv s G) as [ls [EL [ND LI]]]. pose proof (g_inv nv s G) as Iv. exists ls. split; auto.
  assert (LL : forall l, In l ls <-> is_label s l) by (intros l; rewrite LI; symmetry; apply is_label_keys).
  assert (TR : forall l, In l ls -> to_reference nv s (position ls l) = Ok l).
  { intros l Hl. destruct (position_spec ls l ND Hl) as [_ [A B]]. unfold to_reference. rewrite EL, (proj2 (Z.leb_le _ _) A). now apply lgetE_pos. }
  assert (FR : forall l, In l ls -> from_reference nv s l = Ok (position ls l)).
  { intros l Hl. unfold from_reference. rewrite EL. now apply position_spec. }
  assert (TK : forall k l, to_reference nv s k = Ok l <-> 0 <= k /\ nth_error ls (Z.to_nat k) = Some l).
  { intros k l. unfold to_reference. rewrite EL. destruct (Z.leb_spec 0 k) as [Hk|Hk]; [rewrite lgetE_pos by auto; tauto|]. split; [discriminate|lia]. }
  split.
  - constructor.
    + intros l l' Hl Hl' E. apply LL in Hl, Hl'. pose proof (TR l Hl) as A. rewrite E, (TR l' Hl') in A. congruence.
    + intros l p E. unfold lazy_polygon. rewrite TR; auto. apply LL. now exists p.
    + intros k p E. unfold lazy_polygon in E. destruct (to_reference nv s k) as [l|] eqn:T; [|discriminate]. apply TK in T as [A B].
      exists l. split; [now exists p|]. symmetry. now apply position_nth.
    + intros [l e] [l' e'] A. cbn [fst snd]. assert (Hl : In l ls) by (apply LL, (edge_label s _ (proj1 A))).
      assert (Hl' : In l' ls).
      { apply LL. apply (edge_label s (l', e')). apply (glued_gz nv s _ _ Iv) in A. apply (i_inv nv s Iv) in A. apply (glued_gz nv s _ _ Iv) in A. apply A. }
      unfold lazy_opposite. rewrite (TR l Hl). destruct A as [_ A]. cbn [fst snd] in A. rewrite A. cbn [fst snd]. now rewrite (FR l' Hl').
    + intros [l e] A. cbn [fst snd]. assert (Hl : In l ls) by (apply LL, (edge_label s _ (proj1 A))).
      unfold lazy_opposite. rewrite (TR l Hl). destruct A as [_ A]. cbn [fst snd] in A. now rewrite A.
    + intros rs E. unfold lazy_roots. rewrite E. apply rmap_map. intros r Hr. apply FR. apply LI.
      destruct (get_roots_spec nv s G) as [d [E' [[T1 _ _ _] _]]]. rewrite E in E'. injection E' as ->. now apply T1.
  - intros k. split.
    + intros [p E]. unfold lazy_polygon in E. destruct (to_reference nv s k) as [l|] eqn:T; [|discriminate]. apply TK in T as [A B].
      apply nth_error_lt in B. lia.
    + intros [A B]. destruct (nth_error ls (Z.to_nat k)) as [l|] eqn:N; [|apply nth_error_None in N; lia].
      destruct (proj1 (LL l)) as [p Hp]; [now apply nth_error_In in N|]. exists p. unfold lazy_polygon. rewrite (proj2 (TK k l)); auto.
Qed.
End R.
