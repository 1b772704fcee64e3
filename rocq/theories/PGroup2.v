(** The generators of the fundamental group. *)
From Coq Require Import List Bool ZArith Arith Lia.
From Verif Require Import MBase MDict PDict MGroup SGroup PGroup.
Import ListNotations.

Section G.
Context {L : Type} `{EL : EqB L}.
Variables (sides : L -> res nat) (opp : L -> nat -> res (option (L * nat))).
Variables (base : L) (ls : list L) (gtb : L * nat -> L * nat -> bool).
Hypothesis CS : closed_surface sides opp ls.
Hypothesis Base : In base ls.
Hypothesis Gt : forall a b, gtb a b = true -> gtb b a = false.
Notation step := ((L * nat) * (L * nat))%type.
Notation walk := (walk opp).
Notation glued := (glued opp).
Let Sym := cs_sym _ _ _ CS.

Lemma glued_in a b : In (fst a) ls -> glued a b -> In (fst b) ls.
Proof.
  intros A G. destruct a as [p e]. destruct (cs_range _ _ _ CS p e b A G) as (n & N & E).
  destruct (cs_glued _ _ _ CS p n e A N E) as (c & C & I). now rewrite (glued_fun _ _ _ _ G C).
Qed.

Inductive rooted (t : @tree L) : L -> list step -> Prop :=
| ro_base : dget base t = Some None -> rooted t base nil
| ro_step p q e eb w : dget p t = Some (Some (q, e, eb)) -> glued (p, e) (q, eb) -> rooted t q w ->
  rooted t p (((p, e), (q, eb)) :: w).
Lemma rooted_walk t p w : rooted t p w -> walk p w base.
Proof. induction 1; cbn; auto. Qed.
Lemma rooted_fun t p w v : rooted t p w -> rooted t p v -> w = v.
Proof.
  intros A. revert v. induction A as [A|p q e eb w A G R IH]; intros v B; inversion B; subst; try congruence.
  rewrite A in H. inversion H; subst. f_equal. now apply IH.
Qed.
Lemma rooted_in t p w : rooted t p w -> In p (keys t).
Proof. intros [A|? ? ? ? ? A]; apply dget_keys; eauto. Qed.
Lemma rooted_mono t p w k v : rooted t p w -> ~ In k (keys t) -> rooted (dset k v t) p w.
Proof.
  intros A N. assert (X : forall q x, dget q t = Some x -> dget q (dset k v t) = Some x).
  { intros q x E. rewrite dget_dset. destruct (eqb q k) eqn:Q; [|exact E]. apply (proj1 (eqb_ok _ _)) in Q. subst q.
    exfalso. apply N. apply dget_keys. eauto. }
  induction A; [now apply ro_base, X | apply ro_step; auto].
Qed.
Definition triple (l : step) : L * nat * nat := (fst (snd l), snd (fst l), snd (snd l)).
Lemma climb_rooted t p w fuel : rooted t p w -> length w < fuel -> climb fuel t p = Ok (map triple w).
Proof.
  intros A. revert fuel. induction A as [A|p q e eb w A G R IH]; intros [|fuel] F; cbn in F; try lia; cbn [climb].
  - now rewrite A.
  - rewrite A. rewrite IH by lia. reflexivity.
Qed.

Lemma cycle_word t a b w1 w2 : glued a b -> rooted t (fst a) w1 -> rooted t (fst b) w2 ->
  length w1 < length t -> length w2 < length t ->
  walk base (winv w1 ++ (a, b) :: w2) base /\ cycle base t a b = Ok (of_word base (winv w1 ++ (a, b) :: w2)).
Proof.
  intros G A B La Lb.
  assert (W : walk base (winv w1 ++ (a, b) :: w2) base).
  { apply walk_app. exists (fst a). split; [apply walk_winv; auto; now apply rooted_walk in A|].
    cbn. repeat split; auto. now apply rooted_walk in B. }
  split; [exact W|]. unfold cycle. rewrite (climb_rooted _ _ _ _ A La), (climb_rooted _ _ _ _ B Lb).
  apply make_word with (opp := opp); [exact W|]. unfold of_word. rewrite !map_app, !map_map. cbn [map fst snd].
  unfold t_par, t_edge, t_back, triple. cbn [fst snd rev].
  rewrite (rev_polys _ _ _ _ (rooted_walk _ _ _ A)). unfold winv. now rewrite !map_map, <- !map_rev.
Qed.

Definition tree_edge (t : @tree L) (a b : L * nat) : Prop := dget (fst a) t = Some (Some (fst b, snd a, snd b)).
Definition gen (t : @tree L) (basis : list (@path L)) (a b : L * nat) : Prop :=
  exists x w1 w2, In x basis /\ rooted t (fst a) w1 /\ rooted t (fst b) w2 /\
    walk base (winv w1 ++ (a, b) :: w2) base /\ x = of_word base (winv w1 ++ (a, b) :: w2).
Record inv (t : @tree L) (wait : list step) (basis : list (@path L)) : Prop := {
  v_base : dget base t = Some None;
  v_nodup : NoDup (keys t);
  v_in : incl (keys t) ls;
  v_root : forall p, In p (keys t) -> exists w, rooted t p w /\ length w < length t;
  v_wait : forall a b, In (a, b) wait -> glued b a /\ In (fst b) (keys t);
  v_cov : forall a b, glued a b -> In (fst a) (keys t) ->
    tree_edge t a b \/ tree_edge t b a \/ gen t basis a b \/ gen t basis b a \/
    In (b, a) wait \/ (In (a, b) wait /\ gtb b a = true);
  v_gen : forall x, In x basis -> exists a b, gen t basis a b /\ In x basis /\ exists w, is_loop opp base x w }.

Lemma push_spec p es wait : (forall e, In e es -> exists b, glued (p, e) b) ->
  exists wait', push opp p es wait = Ok wait' /\ length wait' = length es + length wait /\
    (forall a b, In (a, b) wait' <-> In (a, b) wait \/ (fst b = p /\ In (snd b) es /\ glued b a)).
Proof.
  revert wait. induction es as [|e es IH]; intros wait H.
  - exists wait. cbn. split; auto. split; auto. intros a b. split; auto. intros [A|(_ & [] & _)]; auto.
  - destruct (H e) as (b & B); [now left|]. destruct (IH ((b, (p, e)) :: wait)) as (w & P & Lw & I).
    { intros e' E. apply H. now right. }
    exists w. cbn [push]. unfold SGroup.glued in B. cbn [fst snd] in B. rewrite B. split; [exact P|].
    split; [rewrite Lw; cbn; lia|]. intros a c. rewrite I. cbn [In]. split.
    + intros [[E|A]|(A1 & A2 & A3)]; auto. inversion E; subst. right. cbn. auto.
    + intros [A|(A1 & [A2|A2] & A3)]; auto. left. left. destruct c as [p' e']. cbn in A1, A2. subst.
      now rewrite (glued_fun _ _ _ _ A3 B).
Qed.
Lemma edge_count_in p l n : In p l -> sides p = Ok n -> n <= edge_count sides l.
Proof.
  intros I S. induction l as [|q l IH]; [destruct I|]. cbn. destruct I as [->|I]; [rewrite S; lia | specialize (IH I); lia].
Qed.
Definition fresh (t : @tree L) := filter (fun p => negb (dmem p t)) ls.
Lemma edge_count_filter (f g : L -> bool) p n l : NoDup l -> In p l -> sides p = Ok n -> f p = true -> g p = false ->
  (forall q, q <> p -> g q = f q) -> edge_count sides (filter f l) = n + edge_count sides (filter g l).
Proof.
  intros N I S F G E. induction l as [|q l IH]; [destruct I|]. inversion N; subst. cbn [filter].
  destruct I as [->|I].
  - rewrite F, G. cbn [edge_count]. rewrite S. f_equal. f_equal.
    apply filter_ext_in. intros q Q. symmetry. apply E. congruence.
  - specialize (IH H2 I). rewrite (E q) by congruence. destruct (f q); cbn [edge_count]; lia.
Qed.
Lemma filter_le f (l : list nat) : length (filter f l) <= length l.
Proof. induction l as [|x l IH]; cbn; [lia|]. destruct (f x); cbn; lia. Qed.

Lemma gen_mono t basis a b k v basis' : gen t basis a b -> ~ In k (keys t) -> incl basis basis' -> gen (dset k v t) basis' a b.
Proof.
  intros (x & w1 & w2 & X & A & B & C & D) N I. exists x, w1, w2. repeat split; auto; now apply rooted_mono.
Qed.
Lemma gen_basis t basis a b basis' : gen t basis a b -> incl basis basis' -> gen t basis' a b.
Proof. intros (x & w1 & w2 & X & A & B & C & D) I. exists x, w1, w2. repeat split; auto. Qed.

Lemma inv_skip t a b wait basis : inv t ((a, b) :: wait) basis -> In (fst a) (keys t) -> gtb a b = true -> inv t wait basis.
Proof.
  intros [V1 V2 V3 V4 V5 V6 V7] A G. constructor; auto.
  - intros c d I. apply V5. now right.
  - destruct (V5 a b (or_introl eq_refl)) as [Gba _].
    assert (K : forall c d, glued c d -> In (fst c) (keys t) -> (c, d) <> (b, a) ->
      tree_edge t c d \/ tree_edge t d c \/ gen t basis c d \/ gen t basis d c \/ In (d, c) wait \/ (In (c, d) wait /\ gtb d c = true)).
    { intros c d C I N. destruct (V6 c d C I) as [X|[X|[X|[X|[[X|X]|[[X|X] Y]]]]]]; auto 7.
      - inversion X; congruence.
      - inversion X; subst. apply Gt in G. congruence. }
    intros c d C I. destruct (eq_dec_of (c, d) (b, a)) as [E|N]; [|now apply K].
    inversion E; subst c d.
    assert (N : (a, b) <> (b, a)). { intros X. inversion X; subst. now rewrite (Gt _ _ G) in G. }
    destruct (K a b (Sym _ _ Gba) A N) as [X|[X|[X|[X|[X|[X Y]]]]]]; auto 7.
Qed.
Lemma inv_keep t a b wait basis : inv t ((a, b) :: wait) basis -> In (fst a) (keys t) ->
  exists x, cycle base t a b = Ok x /\ inv t wait (basis ++ [x]).
Proof.
  intros [V1 V2 V3 V4 V5 V6 V7] A. destruct (V5 a b (or_introl eq_refl)) as [Gba B].
  destruct (V4 _ A) as (w1 & R1 & L1), (V4 _ B) as (w2 & R2 & L2).
  destruct (cycle_word t a b w1 w2 (Sym _ _ Gba) R1 R2 L1 L2) as [W C].
  eexists. split; [exact C|].
  set (x := of_word base (winv w1 ++ (a, b) :: w2)) in *.
  assert (I : incl basis (basis ++ [x])) by (intros y Y; apply in_or_app; now left).
  assert (Gx : gen t (basis ++ [x]) a b). { exists x, w1, w2. split; [apply in_or_app; right; now left|]. auto. }
  constructor; auto.
  - intros c d D. apply V5. now right.
  - intros c d D D'. destruct (V6 c d D D') as [X|[X|[X|[X|[[X|X]|[[X|X] Y]]]]]]; auto 7.
    + right. right. left. eapply gen_basis; eauto.
    + right. right. right. left. eapply gen_basis; eauto.
    + inversion X; subst. auto.
    + inversion X; subst. auto.
  - intros y Y. apply in_app_or in Y. destruct Y as [Y|[<-|[]]].
    + destruct (V7 y Y) as (c & d & D & _ & w & Hw). exists c, d. split; [eapply gen_basis; eauto|].
      split; [now apply I|]. now exists w.
    + exists a, b. split; [exact Gx|]. split; [apply in_or_app; right; now left|]. eexists. split; [exact W|reflexivity].
Qed.
Lemma inv_branch t a b wait basis n : inv t ((a, b) :: wait) basis -> ~ In (fst a) (keys t) -> sides (fst a) = Ok n ->
  exists wait', push opp (fst a) (filter (fun e => negb (e =? snd a)%nat) (seq 0 n)) wait = Ok wait' /\
    length wait' <= n + length wait /\ inv (dset (fst a) (Some (fst b, snd a, snd b)) t) wait' basis.
Proof.
  intros [V1 V2 V3 V4 V5 V6 V7] A Sa. destruct (V5 a b (or_introl eq_refl)) as [Gba B].
  pose proof (Sym _ _ Gba) as Gab.
  assert (Ia : In (fst a) ls) by (apply (glued_in b a); auto).
  destruct (push_spec (fst a) (filter (fun e => negb (e =? snd a)%nat) (seq 0 n)) wait) as (wait' & P & Lw & I).
  { intros e E. apply filter_In in E. destruct E as [E _]. apply in_seq in E.
    destruct (cs_glued _ _ _ CS _ _ e Ia Sa) as (c & C & _); [lia|]. now exists c. }
  exists wait'. split; [exact P|]. split; [rewrite Lw; pose proof (filter_le (fun e => negb (e =? snd a)%nat) (seq 0 n)); rewrite seq_length in *; lia|].
  set (t' := dset (fst a) (Some (fst b, snd a, snd b)) t).
  assert (Kt : keys t' = keys t ++ [fst a]).
  { unfold t'. rewrite keys_dset. apply mem_not_In in A. now rewrite A. }
  assert (Lt : length t' = S (length t)).
  { unfold keys in Kt. apply (f_equal (@length _)) in Kt. rewrite app_length, !map_length in Kt. cbn in Kt. lia. }
  assert (Old : forall p x, dget p t = Some x -> dget p t' = Some x).
  { intros p x E. unfold t'. rewrite dget_dset. destruct (eqb p (fst a)) eqn:Q; [|exact E].
    apply (proj1 (eqb_ok _ _)) in Q. subst p. exfalso. apply A, dget_keys. eauto. }
  assert (New : tree_edge t' a b). { unfold tree_edge, t'. rewrite dget_dset, eqb_refl. reflexivity. }
  constructor.
  - now apply Old.
  - unfold t'. now apply NoDup_dset.
  - rewrite Kt. intros p Q. apply in_app_or in Q. destruct Q as [Q|[<-|[]]]; auto.
  - intros p Q. rewrite Kt in Q. apply in_app_or in Q. destruct Q as [Q|[<-|[]]].
    + destruct (V4 p Q) as (w & R & Lw'). exists w. split; [now apply rooted_mono|]. lia.
    + destruct (V4 _ B) as (w & R & Lw'). exists ((a, b) :: w). split; [|cbn; lia].
      destruct a as [p e], b as [q eb]. apply ro_step; [exact New | exact Gab | now apply rooted_mono].
  - intros c d D. apply I in D. rewrite Kt. destruct D as [D|(D1 & D2 & D3)].
    + destruct (V5 c d (or_intror D)). split; auto. apply in_or_app. now left.
    + split; auto. apply in_or_app. right. left. congruence.
  - intros c d D Q. rewrite Kt in Q. apply in_app_or in Q. destruct Q as [Q|[Q|[]]].
    + destruct (V6 c d D Q) as [X|[X|[X|[X|[[X|X]|[[X|X] Y]]]]]].
      * left. now apply Old.
      * right. left. now apply Old.
      * right. right. left. eapply gen_mono; eauto. apply incl_refl.
      * right. right. right. left. eapply gen_mono; eauto. apply incl_refl.
      * inversion X; subst. auto.
      * do 4 right. left. apply I. now left.
      * inversion X; subst. auto.
      * do 5 right. split; [|exact Y]. apply I. now left.
    + destruct (Nat.eq_dec (snd c) (snd a)) as [E|N].
      * assert (c = a) by (destruct c, a; cbn in *; congruence). subst c.
        rewrite (glued_fun _ _ _ _ D Gab). auto.
      * do 4 right. left. apply I. right. split; [now symmetry|]. split; [|exact D].
        apply filter_In. destruct c as [p e]. cbn in *. subst p.
        destruct (cs_range _ _ _ CS _ _ _ Ia D) as (n' & S' & R). rewrite Sa in S'. inversion S'; subst n'.
        split; [apply in_seq; lia|]. apply Nat.eqb_neq in N. now rewrite N.
  - intros x X. destruct (V7 x X) as (c & d & D & _ & w & Hw). exists c, d. split; [|split; eauto].
    eapply gen_mono; eauto. apply incl_refl.
Qed.

Lemma loop_inv fuel : forall t wait basis, inv t wait basis -> length wait + edge_count sides (fresh t) <= fuel ->
  exists t' basis', gens_loop sides opp base gtb fuel t wait basis = Ok basis' /\ inv t' nil basis'.
Proof.
  induction fuel as [|fuel IH]; intros t [|[a b] wait] basis V F; cbn [gens_loop]; eauto; cbn in F; try lia.
  destruct (v_wait _ _ _ V a b (or_introl eq_refl)) as [Gba B].
  rewrite (proj2 (dmem_keys _ _) B). cbn [negb].
  destruct (dmem (fst a) t) eqn:A.
  - apply dmem_keys in A. destruct (gtb a b) eqn:Q.
    + apply IH; [now apply (inv_skip t a b)|lia].
    + destruct (inv_keep _ _ _ _ _ V A) as (x & -> & V'). apply IH; [exact V'|lia].
  - pose proof A as A'. apply dmem_false in A.
    assert (Ia : In (fst a) ls) by (apply (glued_in b a); auto; now apply (v_in _ _ _ V)).
    destruct (cs_sides _ _ _ CS _ Ia) as (n & Sa). rewrite Sa.
    destruct (inv_branch _ _ _ _ _ _ V A Sa) as (wait' & -> & Lw & V'). apply IH; [exact V'|].
    unfold fresh in *. rewrite (edge_count_filter _ (fun p => negb (dmem p (dset (fst a) (Some (fst b, snd a, snd b)) t))) (fst a) n) in F; auto; try lia.
    + apply (cs_nodup _ _ _ CS).
    + now rewrite A'.
    + unfold dmem. now rewrite dget_dset, eqb_refl.
    + intros q Q. unfold dmem. rewrite dget_dset. apply eqb_neq in Q. now rewrite Q.
Qed.
Lemma inv_start n wait : sides base = Ok n -> push opp base (seq 0 n) nil = Ok wait -> inv [(base, None)] wait nil /\ length wait = n.
Proof.
  intros Sb P. destruct (push_spec base (seq 0 n) nil) as (wait' & P' & Lw & I).
  { intros e E. apply in_seq in E. destruct (cs_glued _ _ _ CS _ _ e Base Sb) as (c & C & _); [lia|]. now exists c. }
  rewrite P in P'. inversion P'; subst wait'. clear P'. rewrite seq_length in Lw. cbn in Lw. split; [|lia].
  constructor.
  - cbn. now rewrite eqb_refl.
  - repeat constructor. intros [].
  - intros p [<-|[]]. exact Base.
  - intros p [<-|[]]. exists nil. split; [|cbn; lia]. apply ro_base. cbn. now rewrite eqb_refl.
  - intros a b D. apply I in D. destruct D as [[]|(D1 & _ & D3)]. split; [exact D3|]. left. symmetry. exact D1.
  - intros a b D [Q|[]]. do 4 right. left. apply I. right. split; [now symmetry|]. split; [|exact D].
    destruct a as [p e]. cbn in *. subst p. destruct (cs_range _ _ _ CS _ _ _ Base D) as (n' & S' & R).
    rewrite Sb in S'. inversion S'; subst. apply in_seq. lia.
  - intros x [].
Qed.

Lemma generation t basis : inv t nil basis -> forall w p q u v, rooted t p u -> rooted t q v -> walk p w q ->
  exists gs, Forall (letter_of opp base basis) gs /\ homotopic (winv u ++ w ++ v) (concat gs).
Proof.
  intros V. induction w as [|[a b] w IH]; intros p q u v U Vq W; cbn in W.
  - subst q. rewrite (rooted_fun _ _ _ _ U Vq). exists nil. split; auto. cbn. apply ho_winv_l.
  - destruct W as (<- & G & W). pose proof (rooted_in _ _ _ U) as Ia.
    assert (X : exists u' gs, rooted t (fst b) u' /\ Forall (letter_of opp base basis) gs /\ homotopic (winv u ++ (a, b) :: u') (concat gs)).
    { destruct (v_cov _ _ _ V a b G Ia) as [X|[X|[X|[X|[[]|[[] _]]]]]].
      - inversion U as [E H|p q' e eb u' E G' R E1 E2]; subst.
        + unfold tree_edge in X. congruence.
        + unfold tree_edge in X. rewrite E in X. inversion X; subst. exists u', nil. split; [exact R|]. split; auto.
          assert (Ea : a = (fst a, snd a)) by now destruct a.
          assert (Eb : b = (fst b, snd b)) by now destruct b.
          rewrite <- Ea, <- Eb in *. apply (ho_winv_l ((a, b) :: u')).
      - exists ((b, a) :: u), nil. split; [|split; auto].
        + destruct a, b. apply ro_step; auto.
        + eapply ho_trans; [apply (ho_back (winv u) (a, b) u)|]. apply ho_winv_l.
      - destruct X as (x & w1 & w2 & X & R1 & R2 & Wx & E). rewrite (rooted_fun _ _ _ _ U R1).
        exists w2, [winv w1 ++ (a, b) :: w2]. split; [exact R2|]. split.
        + constructor; [|constructor]. exists x. split; [exact X|]. left. now split.
        + cbn. rewrite app_nil_r. apply ho_refl.
      - destruct X as (x & w1 & w2 & X & R1 & R2 & Wx & E). rewrite (rooted_fun _ _ _ _ U R2).
        exists w1, [winv w2 ++ (a, b) :: w1]. split; [exact R1|]. split.
        + constructor; [|constructor]. exists x. split; [exact X|]. right. split.
          * change (walk base (winv (winv w2 ++ (a, b) :: w1)) base).
            rewrite winv_app, winv_cons, winv_winv, <- app_assoc. exact Wx.
          * change (map back (rev (winv w2 ++ (a, b) :: w1))) with (winv (winv w2 ++ (a, b) :: w1)).
            rewrite winv_app, winv_cons, winv_winv, <- app_assoc. exact E.
        + cbn. rewrite app_nil_r. apply ho_refl. }
    destruct X as (u' & gs & U' & F & H1). destruct (IH _ _ _ _ U' Vq W) as (gs' & F' & H2).
    exists (gs ++ gs'). split; [apply Forall_app; auto|]. rewrite concat_app.
    eapply ho_trans; [|apply ho_app2; eassumption].
    rewrite <- app_assoc. apply ho_app. cbn. apply (ho_app [(a, b)]).
    rewrite app_assoc. rewrite <- (app_nil_l (w ++ v)) at 1. apply ho_app_r, ho_sym, ho_winv.
Qed.

Lemma gens_main fuel : edge_count sides ls <= fuel ->
  exists gs, gens sides opp base gtb fuel = Ok gs /\
    (forall g, In g gs -> exists w, is_loop opp base g w) /\
    (forall w, walk base w base -> exists ws, Forall (letter_of opp base gs) ws /\ homotopic w (concat ws)).
Proof.
  intros F. unfold gens. destruct (cs_sides _ _ _ CS _ Base) as (n & Sb). rewrite Sb.
  destruct (push opp base (seq 0 n) nil) as [wait|e] eqn:P.
  2:{ destruct (push_spec base (seq 0 n) nil) as (wait' & P' & _); [|congruence].
      intros k E. apply in_seq in E. destruct (cs_glued _ _ _ CS _ _ k Base Sb) as (c & C & _); [lia|]. now exists c. }
  destruct (inv_start _ _ Sb P) as [V Lw].
  destruct (loop_inv fuel _ _ _ V) as (t & gs & E & V').
  { unfold fresh. rewrite Lw. etransitivity; [|exact F].
    rewrite <- (edge_count_filter (fun _ => true) _ base n ls (cs_nodup _ _ _ CS) Base Sb); auto.
    - clear. induction ls; cbn; auto. lia.
    - unfold dmem. cbn. now rewrite eqb_refl.
    - intros q Q. unfold dmem. cbn. apply eqb_neq in Q. now rewrite Q. }
  exists gs. split; [exact E|]. split.
  - intros g I. destruct (v_gen _ _ _ V' g I) as (_ & _ & _ & _ & w & Hw). now exists w.
  - intros w W. assert (R : rooted t base nil) by (apply ro_base; apply (v_base _ _ _ V')).
    destruct (generation t gs V' w base base nil nil R R W) as (ws & Fw & Hw). exists ws. split; auto.
    cbn in Hw. now rewrite app_nil_r in Hw.
Qed.
End G.
