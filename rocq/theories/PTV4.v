(** Proofs about the Thurston-Veech construction: gluing the rectangles. *)
From Coq Require Import List Bool ZArith Arith Lia Ring Field.
From Verif Require Import OField FMicromega PField MBase MDict PDict MEuclid SEuclid PEuclid MPoly PPoly MMut SMut PMut PMut2 PMut3 PGlue PBuild PCover
  MSim SSim PSim MSurf SSurf PSurf PSurf3 SPoint PSimple PFam PFam2 MTV STV PTV PTV2 PTV3.
Import ListNotations.

(** inverses of permutations *)
Definition inverse_ (n : nat) (p : list nat) (k : nat) : nat := hd 0%nat (filter (fun i => (at_ p i =? k)%nat) (seq 0 n)).
Lemma inverse_ok n p labels m k : permutes n p -> cycle_labels n p labels m -> (k < n)%nat -> (inverse_ n p k < n)%nat /\ at_ p (inverse_ n p k) = k.
Proof.
  intros P C Hk. destruct (period_exists n p labels m k P C Hk) as [s [S0 [S1 _]]]. destruct s as [|s]; [lia|].
  change (Nat.iter (S s) (at_ p) k) with (at_ p (Nat.iter s (at_ p) k)) in S1. set (i := Nat.iter s (at_ p) k) in *.
  assert (Hi : (i < n)%nat) by now apply iter_lt. unfold inverse_.
  assert (X : In i (filter (fun i => (at_ p i =? k)%nat) (seq 0 n))) by (apply filter_In; split; [apply in_seq; lia|now apply Nat.eqb_eq]).
  destruct (filter _ _) as [|k' l] eqn:F; [destruct X|]. cbn [hd]. assert (Y : In k' (k' :: l)) by now left. rewrite <- F in Y. apply filter_In in Y. destruct Y as [Y1 Y2].
  apply in_seq in Y1. apply Nat.eqb_eq in Y2. split; [lia|auto].
Qed.
Lemma inverse_at n p labels m k : permutes n p -> cycle_labels n p labels m -> (k < n)%nat -> inverse_ n p (at_ p k) = k.
Proof. intros P C Hk. pose proof P as (A & B & I). destruct (inverse_ok n p labels m (at_ p k) P C (B k Hk)) as [X Y]. now apply I in Y. Qed.

Section P.
Context {K : OField}.
Add Field KF : (of_ft K).
Local Open Scope F_scope.
Notation nv := (@length (vec K) : polygon K -> nat).
Notation surf := (@surf (polygon K)).

Lemma add_next (s : surf) p s' l : add_polygon nv p None s = (s', Ok l) -> next_label s' = l.
Proof.
  unfold add_polygon, mbind, check_mutable, mget, mret, mraise, massert, modify. destruct (mutable s) eqn:Mu; [|discriminate]. cbn [choose_label].
  set (n := fresh _ _ _). match goal with |- context [if ?b then _ else _] => destruct b end; cbv beta iota; [intros H; discriminate H|].
  match goal with |- context [if ?b then _ else _] => destruct b end; unfold mraise, mret; cbv beta iota; [|intros H; discriminate H].
  destruct s as [a b c d e f]. cbn. intros H. destruct c; injection H as <- <-; reflexivity.
Qed.
(** the polygons have been added with labels 0, 1, ... *)
Record stacked (Ps : list (polygon K)) (s : surf) : Prop := {
  st_reach : reachable nv s; st_mut : mutable s = true; st_roots : roots_ s = [];
  st_keys : forall l, In l (keys (polys s)) <-> (0 <= l < Z.of_nat (length Ps))%Z;
  st_poly : forall k p, nth_error Ps k = Some p -> get_polygon s (Z.of_nat k) = Ok p;
  st_next : (0 <= next_label s <= Z.of_nat (length Ps))%Z;
  st_free : forall z, gz (gluings s) z = None }.
Lemma stacked_empty : stacked [] empty.
Proof. constructor; cbn; auto; try lia; try (intros [|k]; discriminate). exists []. split; [constructor|reflexivity]. Qed.
Lemma stacked_add Ps s p : stacked Ps s -> exists s', add_polygon nv p None s = (s', Ok (Z.of_nat (length Ps))) /\ stacked (Ps ++ [p]) s'.
Proof.
  intros [R M RO KE PO NX FR]. pose proof (intact_good nv s (reachable_intact nv s R M)) as G.
  destruct (add_polygon_spec nv s p None (g_inv nv s G)) as (s' & r & E & I' & M' & C' & SE & GZ & _ & X). destruct (X M) as [(l & -> & NL & _ & LN & PS & RS)|(l & D & _)]; [|discriminate].
  destruct (LN eq_refl) as [L1 L2]. assert (EL : l = Z.of_nat (length Ps)).
  { rewrite KE in NL. destruct (Z.lt_trichotomy l (Z.of_nat (length Ps))) as [H|[H|H]]; auto; [lia|]. exfalso. specialize (L2 (Z.of_nat (length Ps))). rewrite KE in L2. lia. }
  subst l. exists s'. split; auto. constructor.
  - pose proof (pres_add nv p None s R) as X'. rewrite E in X'. exact X'.
  - congruence.
  - rewrite RS, RO. reflexivity.
  - intros l. rewrite PS. unfold keys in *. rewrite map_app, in_app_iff, app_length. cbn. rewrite KE. lia.
  - intros k q Hk. apply get_polygon_Ok. rewrite PS, dget_app. destruct (Nat.lt_ge_cases k (length Ps)) as [H|H].
    + rewrite nth_error_app1 in Hk by auto. apply PO, get_polygon_Ok in Hk. now rewrite Hk.
    + rewrite nth_error_app2 in Hk by auto. destruct (k - length Ps)%nat as [|j] eqn:J; [|now destruct j]. cbn in Hk. injection Hk as <-. assert (k = length Ps) by lia. subst k.
      replace (dget (Z.of_nat (length Ps)) (polys s)) with (@None (polygon K)); [cbn; now rewrite Z.eqb_refl|]. symmetry. now apply dget_None.
  - rewrite (add_next _ _ _ _ E), app_length. cbn. lia.
  - intros z. now rewrite GZ.
Qed.
Lemma stacked_all Qs : forall Ps s, stacked Ps s -> exists s', add_polygons Qs s = (s', Ok tt) /\ stacked (Ps ++ Qs) s'.
Proof.
  induction Qs as [|q Qs IH]; intros Ps s ST; cbn [add_polygons].
  - exists s. rewrite app_nil_r. auto.
  - destruct (stacked_add Ps s q ST) as (s1 & E1 & S1). rewrite (mbind_ok _ _ _ _ _ E1). destruct (IH _ _ S1) as (s2 & E2 & S2). exists s2. split; auto. now rewrite <- app_assoc in S2.
Qed.
Lemma rectangles_ok t (h v : list K) l : (forall k, In k l -> 0 < row h (at_ (tv_h t) k) /\ 0 < row v (at_ (tv_v t) k)) ->
  exists Ps, rectangles t h v l = Ok Ps /\ length Ps = length l /\
    forall i k, nth_error l i = Some k -> exists P, nth_error Ps i = Some P /\ edges P = rect (row v (at_ (tv_v t) k)) (row h (at_ (tv_h t) k)) /\ length P = 4%nat /\ simple_polygon P /\ 0 < area P.
Proof.
  induction l as [|k l IH]; intros H.
  - exists []. do 2 (split; auto). intros [|i] k; discriminate.
  - destruct IH as (Ps & E & L & N); [intros; apply H; now right|]. destruct (H k (or_introl eq_refl)) as [H1 H2].
    destruct (rect_ok _ _ H2 H1) as (P & E1 & _ & E2 & E3 & E4 & E5). exists (P :: Ps). cbn [rectangles].
    fold (at_ (tv_h t) k) (at_ (tv_v t) k). fold (row h (at_ (tv_h t) k)) (row v (at_ (tv_v t) k)). fold (rect (row v (at_ (tv_v t) k)) (row h (at_ (tv_h t) k))).
    rewrite E1, E. cbn [bind]. split; auto. split; [cbn; now rewrite L|]. intros [|i] k' Hk; cbn in *; [injection Hk as <-; exists P; auto|now apply N].
Qed.

Definition tv_pairs (n : nat) (r u : list nat) : list (hedge * hedge) :=
  flat_map (fun i => [((Z.of_nat i, 1%Z), (Z.of_nat (at_ r i), 3%Z)); ((Z.of_nat i, 0%Z), (Z.of_nat (at_ u i), 2%Z))]) (seq 0 n).
Lemma In_tv_pairs n r u x y : In (x, y) (tv_pairs n r u) <-> exists i, (i < n)%nat /\
  ((x = (Z.of_nat i, 1%Z) /\ y = (Z.of_nat (at_ r i), 3%Z)) \/ (x = (Z.of_nat i, 0%Z) /\ y = (Z.of_nat (at_ u i), 2%Z))).
Proof.
  unfold tv_pairs. rewrite in_flat_map. split.
  - intros [i [Hi H]]. apply in_seq in Hi. exists i. split; [lia|]. destruct H as [H|[H|[]]]; injection H as <- <-; auto.
  - intros [i [Hi H]]. exists i. split; [apply in_seq; lia|]. destruct H as [[-> ->]|[-> ->]]; cbn; auto.
Qed.
Record built (n : nat) (r u : list nat) (Ps : list (polygon K)) (c : surf) : Prop := {
  bu_immutable : mutable c = false;
  bu_poly : forall k p, nth_error Ps k = Some p -> get_polygon c (Z.of_nat k) = Ok p;
  bu_labels : forall l, is_label c l <-> (0 <= l < Z.of_nat n)%Z;
  bu_r : forall k, (k < n)%nat -> glued nv c (Z.of_nat k, 1%Z) (Z.of_nat (at_ r k), 3%Z) /\ glued nv c (Z.of_nat (at_ r k), 3%Z) (Z.of_nat k, 1%Z);
  bu_u : forall k, (k < n)%nat -> glued nv c (Z.of_nat k, 0%Z) (Z.of_nat (at_ u k), 2%Z) /\ glued nv c (Z.of_nat (at_ u k), 2%Z) (Z.of_nat k, 0%Z) }.
Lemma glue_built n r u Ps s1 : permutes n r -> permutes n u -> length Ps = n -> (forall P, In P Ps -> length P = 4%nat) -> stacked Ps s1 ->
  exists c, mbind (mfor (seq 0 n) (fun i => mbind (glue nv (Z.of_nat i, 1%Z) (Z.of_nat (nth i r 0%nat), 3%Z)) (fun _ => glue nv (Z.of_nat i, 0%Z) (Z.of_nat (nth i u 0%nat), 2%Z))))
    (fun _ => set_immutable nv) s1 = (c, Ok tt) /\ built n r u Ps c.
Proof.
  intros PR PU LP L4 [RE Mu RO KE PO NX FR]. pose proof (intact_good nv s1 (reachable_intact nv s1 RE Mu)) as G. pose proof (g_inv nv s1 G) as Iv.
  destruct PR as (_ & RL & RI), PU as (_ & UL & UI).
  assert (IE : forall k e, (k < n)%nat -> (0 <= e < 4)%Z -> inrange (gluings s1) (Z.of_nat k, e)).
  { intros k e Hk He. apply edge_inrange with (nv := nv); auto; [exact (i_tot nv s1 Iv Mu)|]. destruct (nth_error Ps k) as [P|] eqn:N; [|apply nth_error_None in N; lia].
    exists P. split; [now apply PO|]. rewrite (L4 P) by (now apply nth_error_In in N). exact He. }
  destruct (glue_pairs nv (tv_pairs n r u) s1 Iv Mu (g_sep nv s1 G)) as [s2 [E2 [I2 [F2 [S2 [_ [R2 G2]]]]]]]; auto.
  { now left. }
  { intros x y y' [H|H] [H'|H']; apply In_tv_pairs in H, H'; destruct H as (i & Hi & [[E1 E2]|[E1 E2]]), H' as (i' & Hi' & [[E1' E2']|[E1' E2']]); subst;
      match goal with H : (_, _) = (_, _) |- _ => injection H; intros; try discriminate end; try (assert (i = i') by lia; subst; auto).
    - f_equal. f_equal. apply RI; auto. lia.
    - f_equal. f_equal. apply UI; auto. lia. }
  { intros x y H. apply In_tv_pairs in H. destruct H as (i & Hi & [[-> ->]|[-> ->]]); split; apply IE; auto; lia. }
  assert (E2' : mfor (seq 0 n) (fun i => mbind (glue nv (Z.of_nat i, 1%Z) (Z.of_nat (nth i r 0%nat), 3%Z)) (fun _ => glue nv (Z.of_nat i, 0%Z) (Z.of_nat (nth i u 0%nat), 2%Z))) s1 = (s2, Ok tt)).
  { rewrite <- E2. unfold tv_pairs. rewrite <- (mfor_flat (fun i => [((Z.of_nat i, 1%Z), (Z.of_nat (at_ r i), 3%Z)); ((Z.of_nat i, 0%Z), (Z.of_nat (at_ u i), 2%Z))])).
    apply mfor_ext. intros i s _. cbn [mfor fst snd]. unfold mbind, at_. destruct (glue nv (Z.of_nat i, 1%Z) _ s) as [s' [[]|]]; auto. destruct (glue nv (Z.of_nat i, 0%Z) _ s') as [s'' [[]|]]; auto. }
  rewrite (mbind_ok _ _ _ _ _ E2').
  assert (M2 : mutable s2 = true) by (rewrite (f_mut _ _ F2); auto).
  assert (R2' : reachable nv s2).
  { change s2 with (fst (s2, @Ok unit tt)). rewrite <- E2. apply pres_for; auto. intros [x y] H. apply In_tv_pairs in H.
    destruct H as (i & Hi & [[-> ->]|[-> ->]]); apply pres_glue; cbn; lia. }
  pose proof (reachable_intact nv s2 R2' M2) as IN2. pose proof (intact_good nv s2 IN2) as GG2.
  destruct (set_immutable_spec nv s2 GG2) as (c & rs & b & E3 & _ & Ec & GC). exists c. split; auto.
  assert (GP : forall l, get_polygon c l = get_polygon s1 l) by (intros l; subst c; unfold get_polygon; cbn; now rewrite (f_polys _ _ F2)).
  constructor.
  - subst c. reflexivity.
  - intros k p H. rewrite GP. now apply PO.
  - intros l. rewrite is_label_keys. subst c. cbn [polys]. rewrite (f_polys _ _ F2), <- LP. apply KE.
  - intros i Hi. split; apply (glued_gz nv c _ _ (g_inv nv c GC)); subst c; cbn [gluings]; apply G2; [left|right]; apply In_tv_pairs; exists i; auto.
  - intros i Hi. split; apply (glued_gz nv c _ _ (g_inv nv c GC)); subst c; cbn [gluings]; apply G2; [left|right]; apply In_tv_pairs; exists i; auto.
Qed.
Lemma mut_opp (c : surf) k e k' e' : (0 <= e')%Z -> glued nv c (Z.of_nat k, Z.of_nat e) (Z.of_nat k', e') -> s_opp (mut_surface c) (Z.of_nat k) e = Ok (Some (Z.of_nat k', Z.to_nat e')).
Proof. intros He [_ H]. cbn [fst snd] in H. unfold mut_surface; cbn [s_opp]. destruct (opposite_edge c (Z.of_nat k) (Z.of_nat e)); [|discriminate]. injection H as ->. reflexivity. Qed.
Lemma built_good n t (Ps : list (polygon K)) c (w h : nat -> K) : tv_ok n t -> built n (tv_r t) (tv_u t) Ps c -> length Ps = n -> positive n w -> positive n h ->
  (forall k, (k < n)%nat -> w (at_ (tv_u t) k) = w k /\ h (at_ (tv_r t) k) = h k) ->
  (forall k, (k < n)%nat -> exists P, nth_error Ps k = Some P /\ edges P = rect (w k) (h k) /\ length P = 4%nat /\ simple_polygon P /\ 0 < area P) ->
  rectangles_glued n (at_ (tv_r t)) (inverse_ n (tv_u t)) w h (mut_surface c) /\ good_surface (is_label c) (mut_surface c) map_translation.
Proof.
  intros T [IM BP BL BR BU] LP WP HP WH HH.
  pose proof (to_r n t T) as PR. pose proof (to_u n t T) as PU. pose proof (to_h n t T) as TH. pose proof (to_v n t T) as TW.
  set (r := at_ (tv_r t)) in *. set (u := at_ (tv_u t)) in *. set (r' := inverse_ n (tv_r t)). set (u' := inverse_ n (tv_u t)).
  assert (Lr : forall k, (k < n)%nat -> (r k < n)%nat) by apply PR. assert (Lu : forall k, (k < n)%nat -> (u k < n)%nat) by apply PU.
  assert (Lr' : forall k, (k < n)%nat -> (r' k < n)%nat /\ r (r' k) = k) by (intros; now apply (inverse_ok n (tv_r t) (tv_h t) (tv_nh t))).
  assert (Lu' : forall k, (k < n)%nat -> (u' k < n)%nat /\ u (u' k) = k) by (intros; now apply (inverse_ok n (tv_u t) (tv_v t) (tv_nv t))).
  assert (rr : forall k, (k < n)%nat -> r' (r k) = k) by (intros; now apply (inverse_at n (tv_r t) (tv_h t) (tv_nh t))).
  assert (uu : forall k, (k < n)%nat -> u' (u k) = k) by (intros; now apply (inverse_at n (tv_u t) (tv_v t) (tv_nv t))).
  assert (O1 : forall k, (k < n)%nat -> s_opp (mut_surface c) (Z.of_nat k) 1 = Ok (Some (Z.of_nat (r k), 3%nat))) by (intros k Hk; apply (mut_opp c k 1 (r k) 3%Z); [lia|now apply BR]).
  assert (O3 : forall k, (k < n)%nat -> s_opp (mut_surface c) (Z.of_nat k) 3 = Ok (Some (Z.of_nat (r' k), 1%nat))).
  { intros k Hk. destruct (Lr' k Hk) as [A B]. apply (mut_opp c k 3 (r' k) 1%Z); [lia|]. rewrite <- B at 1. now apply BR. }
  assert (O0 : forall k, (k < n)%nat -> s_opp (mut_surface c) (Z.of_nat k) 0 = Ok (Some (Z.of_nat (u k), 2%nat))) by (intros k Hk; apply (mut_opp c k 0 (u k) 2%Z); [lia|now apply BU]).
  assert (O2 : forall k, (k < n)%nat -> s_opp (mut_surface c) (Z.of_nat k) 2 = Ok (Some (Z.of_nat (u' k), 0%nat))).
  { intros k Hk. destruct (Lu' k Hk) as [A B]. apply (mut_opp c k 2 (u' k) 0%Z); [lia|]. rewrite <- B at 1. now apply BU. }
  split.
  - constructor.
    + intros l. change (s_poly (mut_surface c) l) with (get_polygon c l). fold (is_label c l). rewrite BL. split; [intros H; exists (Z.to_nat l); lia|intros (k & Hk & ->); lia].
    + intros k Hk. destruct (HH k Hk) as (P & N & E & _). exists P. split; auto. exact (BP k P N).
    + intros k Hk. split; auto. rewrite O3 by auto. now rewrite rr.
    + intros k Hk. split; auto. rewrite O0 by now apply Lu'. destruct (Lu' k Hk) as [_ ->]. reflexivity.
  - assert (DL : forall l, is_label c l -> (Z.to_nat l < n)%nat /\ l = Z.of_nat (Z.to_nat l)) by (intros l H; apply BL in H; lia).
    assert (LD : forall k, (k < n)%nat -> is_label c (Z.of_nat k)) by (intros k H; apply BL; lia).
    set (ev := fun (l : Z) e => nth e (rect (w (Z.to_nat l)) (h (Z.to_nat l))) vzero).
    set (g := fun (l : Z) e => (Z.of_nat (nth e [u; r; u'; r'] u (Z.to_nat l)), ((e + 2) mod 4)%nat)).
    assert (AP : forall l, is_label c l -> exists P, s_poly (mut_surface c) l = Ok P /\ length P = 4%nat /\ (forall e, (e < 4)%nat -> edge P e = ev l e) /\ simple_polygon P /\ 0 < area P).
    { intros l Dl. destruct (DL l Dl) as [Hk ->]. destruct (HH _ Hk) as (P & N & E & L & Sm & Ar). exists P. split; [exact (BP _ P N)|]. split; auto. split; auto.
      intros e He. unfold ev. rewrite Nat2Z.id, <- E. symmetry. unfold edges. rewrite (nth_indep _ vzero (edge P 0)) by (rewrite map_length, seq_length; lia). rewrite map_nth, seq_nth; auto. lia. }
    assert (Hnz : forall l e, is_label c l -> (e < 4)%nat -> ev l e <> vzero) by (intros l e Dl He; destruct (DL l Dl) as [Hk _]; apply rect_nz; auto).
    assert (Hop : forall l e, is_label c l -> (e < 4)%nat -> s_opp (mut_surface c) l e = Ok (Some (g l e)) /\ is_label c (fst (g l e)) /\ (snd (g l e) < 4)%nat /\ g (fst (g l e)) (snd (g l e)) = (l, e)).
    { intros l e Dl He. destruct (DL l Dl) as [Hk El]. set (k := Z.to_nat l) in *. clearbody k. subst l. destruct (Lr' k Hk), (Lu' k Hk).
      clearbody r u r' u'. clear - O0 O1 O2 O3 LD Lr Lu Lr' Lu' rr uu Hk He H H0 H1 H2. unfold g. clear g. rewrite !Nat2Z.id.
      set (so := s_opp (mut_surface c)) in *. clearbody so.
      destruct e as [|[|[|[|e]]]]; try lia; cbn; rewrite !Nat2Z.id; (split; [solve [auto]|]); (split; [solve [auto]|]); (split; [lia|]); repeat f_equal; auto. }
    destruct (quads_valid _ _ ev g AP Hnz Hop) as (V1 & V2 & V3 & V4). constructor; auto.
    apply (quads_translation _ _ ev g AP Hnz Hop). intros l e Dl He. destruct (DL l Dl) as [Hk El]. set (k := Z.to_nat l) in *.
    destruct (Lr' k Hk) as [A1 A2], (Lu' k Hk) as [B1 B2]. destruct (WH k Hk) as [C1 C2]. destruct (WH _ A1) as [_ C4]. destruct (WH _ B1) as [C5 _]. fold r in C2, C4. fold u in C1, C5. rewrite A2 in C4. rewrite B2 in C5.
    unfold ev, g. fold k. cbn [fst snd]. rewrite Nat2Z.id. destruct e as [|[|[|[|e]]]]; try lia; cbn; unfold vopp; cbn; f_equal; rewrite ?C1, ?C2, <- ?C4, <- ?C5; ring.
Qed.
End P.
