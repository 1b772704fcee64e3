(** Proofs about mutable surfaces. *)
From Coq Require Import List Bool ZArith Lia Arith Relations.
From Verif Require Import MBase MDict PDict MMut SMut.
Import ListNotations.
Local Open Scope Z_scope.

Notation gdict := (dict label (list (option hedge))).

(** the partner of an edge as stored *)
Definition gz (d : gdict) (x : hedge) : option hedge :=
  match dget (fst x) d with
  | Some g => if 0 <=? snd x then match nth_error g (Z.to_nat (snd x)) with Some y => y | None => None end else None
  | None => None
  end.
Definition shape (d : gdict) (l : label) : option nat := option_map (@length _) (dget l d).
Definition inrange (d : gdict) (x : hedge) := exists n, shape d (fst x) = Some n /\ 0 <= snd x < Z.of_nat n.

Lemma hedge_case (x y : hedge) : (eqb x y = true /\ x = y) \/ (eqb x y = false /\ x <> y).
Proof. apply eqb_case. Qed.
Lemma he_eta (x : hedge) : (fst x, snd x) = x.
Proof. now destruct x. Qed.
Lemma he_dec (x y : hedge) : {x = y} + {x <> y}.
Proof. apply eq_dec_of. Qed.

Lemma gz_range d x y : gz d x = Some y -> inrange d x.
Proof.
  unfold gz, inrange, shape. destruct (dget (fst x) d) as [g|]; [|discriminate].
  destruct (0 <=? snd x) eqn:E; [|discriminate]. apply Z.leb_le in E.
  destruct (nth_error g (Z.to_nat (snd x))) eqn:N; [|discriminate]. intros _.
  apply nth_error_lt in N. exists (length g). cbn. split; auto. lia.
Qed.

Lemma gz_update d l g e v y : dget l d = Some g -> 0 <= e < Z.of_nat (length g) ->
  gz (dset l (nth_set g (Z.to_nat e) v) d) y = if eqb y (l, e) then v else gz d y.
Proof.
  intros D E. destruct y as [l' e']. unfold gz. cbn [fst snd eqb EqB_prod EqB_Z].
  rewrite dget_dset. cbn [eqb EqB_Z]. destruct (Z.eqb_spec l' l) as [->|N]; cbn [andb]; auto.
  rewrite D. destruct (0 <=? e') eqn:E'.
  - apply Z.leb_le in E'. rewrite nth_error_nth_set.
    destruct (Z.eqb_spec e' e) as [->|N].
    + rewrite Nat.eqb_refl. rewrite (proj2 (Nat.ltb_lt _ _)) by lia. auto.
    + rewrite (proj2 (Nat.eqb_neq _ _)) by lia. auto.
  - apply Z.leb_gt in E'. destruct (Z.eqb_spec e' e) as [->|N]; auto. lia.
Qed.
Lemma shape_update d l g k v l' : dget l d = Some g -> shape (dset l (nth_set g k v) d) l' = shape d l'.
Proof.
  intros D. unfold shape. rewrite dget_dset. cbn [eqb EqB_Z]. destruct (Z.eqb_spec l' l) as [->|N]; auto.
  rewrite D. cbn. now rewrite nth_set_length.
Qed.

(** breadth first search *)
Section BFS.
Variable nb : label -> res (list label).
Definition step (a b : label) := exists ls, nb a = Ok ls /\ In b ls.
Definition reach := clos_refl_trans label step.

Lemma bfs_spec fuel : forall seen pending out, NoDup seen ->
  bfs nb fuel seen pending = Ok out ->
  NoDup out /\ incl seen out /\ incl pending out /\
  (forall x, In x out -> In x seen \/ exists p, In p pending /\ reach p x) /\
  (forall x, In x out -> ~ In x seen -> exists ls, nb x = Ok ls /\ incl ls out).
Proof.
  induction fuel as [|fuel IH]; intros seen pending out N H.
  - destruct pending; [|discriminate]. injection H as <-. repeat split; auto; easy.
  - destruct pending as [|l pending]; cbn in H.
    { injection H as <-. repeat split; auto; easy. }
    destruct (mem l seen) eqn:M.
    + apply mem_In in M. destruct (IH _ _ _ N H) as [A [B [C [D E]]]]. repeat split; auto.
      * intros x [<-|Hx]; auto.
      * intros x Hx. destruct (D x Hx) as [?|[p [? ?]]]; auto. right. exists p. split; cbn; auto.
    + apply mem_not_In in M. destruct (nb l) as [ls|] eqn:L; [|discriminate].
      assert (N' : NoDup (seen ++ [l])) by (now apply NoDup_snoc).
      destruct (IH _ _ _ N' H) as [A [B [C [D E]]]]. repeat split; auto.
      * intros x Hx. apply B, in_or_app. auto.
      * intros x [<-|Hx]; [apply B, in_or_app; cbn; auto | apply C, in_or_app; auto].
      * intros x Hx. destruct (D x Hx) as [X|[p [X Y]]].
        -- apply in_app_or in X. destruct X as [X|[<-|[]]]; auto. right. exists l. split; cbn; auto. apply rt_refl.
        -- right. apply in_app_or in X. destruct X as [X|X].
           ++ exists p. split; cbn; auto.
           ++ exists l. split; cbn; auto. eapply rt_trans; [|exact Y]. apply rt_step. exists ls. auto.
      * intros x Hx Nx. destruct (Z.eq_dec x l) as [->|NE].
        -- exists ls. split; auto. intros y Hy. apply C, in_or_app. auto.
        -- apply E; auto. intros X. apply in_app_or in X. destruct X as [X|[X|[]]]; congruence.
Qed.

Lemma bfs_reach fuel l out : bfs nb fuel nil [l] = Ok out ->
  NoDup out /\ forall x, In x out <-> reach l x.
Proof.
  intros H. destruct (bfs_spec fuel nil [l] out (NoDup_nil _) H) as [A [B [C [D E]]]]. split; auto.
  intros x. split.
  - intros Hx. destruct (D x Hx) as [[]|[p [[<-|[]] R]]]. auto.
  - intros R. apply clos_rt_rtn1 in R. induction R as [|y z [ls [S1 S2]] _ IHR].
    + apply C. cbn. auto.
    + destruct (E y IHR ltac:(easy)) as [ls' [S3 S4]]. rewrite S1 in S3. injection S3 as <-. auto.
Qed.
Lemma bfs_nb fuel l out x : bfs nb fuel nil [l] = Ok out -> In x out -> exists ls, nb x = Ok ls.
Proof.
  intros H Hx. destruct (bfs_spec fuel nil [l] out (NoDup_nil _) H) as [A [B [C [D E]]]].
  destruct (E x Hx ltac:(easy)) as [ls [? ?]]. eauto.
Qed.

(** termination *)
Variable cost : list (label * nat).
Definition rest (seen : list label) : nat :=
  fold_right (fun kp n => if mem (fst kp) seen then n else (snd kp + n)%nat) 0%nat cost.
Lemma rest_notin l seen : ~ In l (keys cost) -> rest (seen ++ [l]) = rest seen.
Proof.
  unfold rest. induction cost as [|[k c] cs IH]; cbn; auto. intros N.
  rewrite IH by tauto. replace (mem k (seen ++ [l])) with (mem k seen); auto.
  unfold mem. rewrite existsb_app. cbn [existsb]. rewrite (proj2 (eqb_neq k l)) by (intros ->; tauto).
  now rewrite !orb_false_r.
Qed.
Lemma rest_step l seen c : NoDup (keys cost) -> dget l cost = Some c -> ~ In l seen ->
  rest seen = (c + rest (seen ++ [l]))%nat.
Proof.
  intros N D M. assert (H := rest_notin l seen). unfold rest in *.
  induction cost as [|[k c'] cs IH]; [discriminate|]. cbn in N, D. inversion N as [|? ? N1 N2]; subst.
  cbn [fold_right fst snd].
  destruct (eqb_case l k) as [[X ->]|[X NE]].
  - cbn [eqb EqB_Z] in D, X. rewrite X in D. injection D as ->.
    rewrite (proj2 (mem_not_In k seen)) by auto.
    rewrite (proj2 (mem_In k (seen ++ [k]))) by (apply in_or_app; cbn; auto).
    f_equal. symmetry. 
    revert N1. clear. induction cs as [|[a b] cs IH]; cbn; auto. intros N.
    rewrite IH by tauto. replace (mem a (seen ++ [k])) with (mem a seen); auto.
    unfold mem. rewrite existsb_app. cbn [existsb]. rewrite (proj2 (eqb_neq a k)) by (intros ->; tauto).
    now rewrite !orb_false_r.
  - cbn [eqb EqB_Z] in D, X. rewrite X in D.
    assert (Y : mem k (seen ++ [l]) = mem k seen).
    { unfold mem. rewrite existsb_app. cbn [existsb]. rewrite (proj2 (eqb_neq k l)) by congruence. now rewrite !orb_false_r. }
    rewrite Y. specialize (IH N2 D).
    assert (Z : ~ In l (keys cs) -> fold_right (fun kp n => if mem (fst kp) (seen ++ [l]) then n else (snd kp + n)%nat) 0%nat cs =
       fold_right (fun kp n => if mem (fst kp) seen then n else (snd kp + n)%nat) 0%nat cs).
    { intros Q. exfalso. apply Q. apply dget_keys. eauto. }
    specialize (IH Z). rewrite IH. destruct (mem k seen); lia.
Qed.

Lemma bfs_total fuel : forall seen pending, NoDup (keys cost) ->
  (forall l, In l (keys cost) -> exists ls, nb l = Ok ls /\ incl ls (keys cost) /\ exists c, dget l cost = Some c /\ (length ls <= c)%nat) ->
  incl pending (keys cost) -> (length pending + rest seen <= fuel)%nat ->
  exists out, bfs nb fuel seen pending = Ok out.
Proof.
  induction fuel as [|fuel IH]; intros seen pending N T I F.
  - destruct pending; cbn in *; [eauto | lia].
  - destruct pending as [|l pending]; cbn [bfs]; [eauto|].
    destruct (mem l seen) eqn:M.
    + apply IH; auto. { intros x Hx. apply I. cbn. auto. } cbn in F. lia.
    + destruct (T l) as [ls [E [J [c [C L]]]]]; [apply I; cbn; auto|]. rewrite E.
      apply IH; auto.
      * intros x Hx. apply in_app_or in Hx. destruct Hx; [apply I; cbn; auto | auto].
      * apply mem_not_In in M. rewrite (rest_step l seen c) in F by auto.
        rewrite app_length. cbn in F. lia.
Qed.
End BFS.

Lemma lmin_spec (l : list label) : l <> nil -> exists m, lmin l = Ok m /\ In m l /\ forall x, In x l -> m <= x.
Proof.
  destruct l as [|a l]; [congruence|]. intros _. cbn [lmin].
  assert (H : forall l a, (fold_left Z.min l a = a \/ In (fold_left Z.min l a) l) /\ fold_left Z.min l a <= a /\
            forall x, In x l -> fold_left Z.min l a <= x).
  { clear. induction l as [|b l IH]; intros a; cbn.
    - split; [auto|split; [lia|intros x []]].
    - destruct (IH (Z.min a b)) as [H1 [H2 H3]]. split; [|split].
      + destruct H1 as [H1|H1]; auto. rewrite H1. destruct (Z.min_spec a b) as [[_ E]|[_ E]]; rewrite E; auto.
      + lia.
      + intros x [<-|Hx]; [lia|auto]. }
  destruct (H l a) as [H1 [H2 H3]]. eexists. split; [reflexivity|]. split.
  - destruct H1 as [E|E]; [rewrite E; cbn; auto | cbn; auto].
  - intros x [<-|Hx]; auto.
Qed.

Lemma split_root_spec rs comp cross : comp <> nil -> cross <> nil ->
  (exists r0 r, In r0 rs /\ split_root rs comp cross = Ok r /\
      ((In r0 comp /\ In r cross) \/ (In r0 cross /\ In r comp))) \/
  (split_root rs comp cross = Err AssertionError /\ forall r, In r rs -> ~ In r comp /\ ~ In r cross).
Proof.
  intros A B. induction rs as [|r rs IH]; cbn.
  - right. split; auto.
  - destruct (mem r comp) eqn:M1.
    + apply mem_In in M1. left. destruct (lmin_spec cross B) as [m [E [Hm _]]]. exists r, m. rewrite E. auto.
    + destruct (mem r cross) eqn:M2.
      * apply mem_In in M2. left. destruct (lmin_spec comp A) as [m [E [Hm _]]]. exists r, m. rewrite E. auto.
      * apply mem_not_In in M1, M2. destruct IH as [[r0 [r1 [H1 [H2 H3]]]]|[H1 H2]].
        -- left. exists r0, r1. auto.
        -- right. split; auto. intros r' [<-|Hr]; auto.
Qed.
Lemma merge_root_spec rs comp cross :
  (exists r, In r rs /\ merge_root rs comp cross = Ok r /\ (In r comp \/ In r cross)) \/
  (merge_root rs comp cross = Err AssertionError /\ forall r, In r rs -> ~ In r comp /\ ~ In r cross).
Proof.
  induction rs as [|r rs IH]; cbn.
  - right. split; auto.
  - destruct (mem r comp || mem r cross) eqn:M.
    + apply orb_true_iff in M. rewrite !mem_In in M. left. exists r. auto.
    + apply orb_false_iff in M. rewrite !mem_not_In in M. destruct IH as [[r0 [H1 [H2 H3]]]|[H1 H2]].
      * left. exists r0. auto.
      * right. split; auto. intros r' [<-|Hr]; auto.
Qed.

Section P.
Context {P : Type} (nv : P -> nat).
Implicit Types (s : @surf P) (x y : hedge) (l : label).

(** what mutations of gluings leave alone *)
Record frame s s' : Prop := {
  f_polys : polys s' = polys s;
  f_next : next_label s' = next_label s;
  f_mut : mutable s' = mutable s;
  f_conn : connected s' = connected s;
  f_keys : keys (gluings s') = keys (gluings s);
  f_shape : forall l, shape (gluings s') l = shape (gluings s) l }.
Lemma frame_refl s : frame s s.
Proof. now constructor. Qed.
Lemma frame_trans s1 s2 s3 : frame s1 s2 -> frame s2 s3 -> frame s1 s3.
Proof. intros [] []. constructor; congruence. Qed.
Lemma frame_range s s' x : frame s s' -> inrange (gluings s) x <-> inrange (gluings s') x.
Proof. intros []. unfold inrange. rewrite f_shape0. tauto. Qed.

Record inv s : Prop := {
  i_np : NoDup (keys (polys s));
  i_ng : NoDup (keys (gluings s));
  i_len : forall l g, dget l (gluings s) = Some g -> exists p, dget l (polys s) = Some p /\ length g = nv p;
  i_tot : mutable s = true -> forall l, In l (keys (polys s)) -> In l (keys (gluings s));
  i_inv : forall x y, gz (gluings s) x = Some y -> gz (gluings s) y = Some x;
  i_roots : forall r, In r (roots_ s) -> In r (keys (polys s)) }.

Lemma inv_frame s s' : inv s -> frame s s' ->
  (forall x y, gz (gluings s') x = Some y -> gz (gluings s') y = Some x) ->
  (forall r, In r (roots_ s') -> In r (keys (polys s))) -> inv s'.
Proof.
  intros I F G R. destruct I, F. constructor; try congruence; auto.
  - intros l g D. rewrite f_polys0.
    assert (X := f_shape0 l). unfold shape in X. rewrite D in X. cbn in X.
    destruct (dget l (gluings s)) as [g'|] eqn:D'; [|discriminate]. injection X as X.
    destruct (i_len0 l g' D') as [p [? ?]]. exists p. split; auto. congruence.
  - intros M l. rewrite f_polys0, f_keys0. apply i_tot0. congruence.
  - intros r Hr. rewrite f_polys0. auto.
Qed.

(** reading *)
Lemma opposite_edge_Ok s l e c : 0 <= e ->
  (opposite_edge s l e = Ok c <-> inrange (gluings s) (l, e) /\ gz (gluings s) (l, e) = c).
Proof.
  intros E. unfold opposite_edge, gz, inrange, shape, dgetE. cbn [fst snd].
  destruct (dget l (gluings s)) as [g|]; cbn.
  - rewrite lgetE_pos by auto. rewrite (proj2 (Z.leb_le _ _) E). split.
    + intros N. rewrite N. split; auto. exists (length g). split; auto. apply nth_error_lt in N. lia.
    + intros [[n [[= <-] L]] N].
      assert (X : nth_error g (Z.to_nat e) <> None) by (apply nth_error_Some; lia).
      destruct (nth_error g (Z.to_nat e)); congruence.
  - split; [discriminate|]. intros [[n [X _]] _]. discriminate.
Qed.
Lemma opposite_edge_error s l e : 0 <= e -> ~ inrange (gluings s) (l, e) ->
  exists err, opposite_edge s l e = Err err.
Proof.
  intros E N. destruct (opposite_edge s l e) as [c|err] eqn:O; [|eauto].
  apply opposite_edge_Ok in O; tauto.
Qed.

(** writing *)
Lemma set_gluing_Ok s l e v : inrange (gluings s) (l, e) ->
  exists s', set_gluing l e v s = (s', Ok tt) /\ frame s s' /\ roots_ s' = roots_ s /\
    forall y, gz (gluings s') y = if eqb y (l, e) then v else gz (gluings s) y.
Proof.
  intros [n [S E]]. unfold shape in S. cbn [fst snd] in *. unfold set_gluing, dgetE.
  destruct (dget l (gluings s)) as [g|] eqn:D; [|discriminate]. cbn in S. injection S as <-.
  rewrite lsetE_pos by auto. eexists. split; [reflexivity|]. split; [|split].
  - constructor; cbn; auto.
    + apply keys_dset_in. apply dget_keys. eauto.
    + intros l'. now apply shape_update.
  - reflexivity.
  - intros y. cbn. now apply gz_update.
Qed.


(** ** observations *)
Lemma get_polygon_Ok s l p : get_polygon s l = Ok p <-> dget l (polys s) = Some p.
Proof. apply dgetE_Ok. Qed.
Lemma is_label_keys s l : is_label s l <-> In l (keys (polys s)).
Proof. unfold is_label. rewrite dget_keys. split; intros [p E]; exists p; now apply get_polygon_Ok. Qed.
Lemma is_edge_pos s x : is_edge nv s x -> 0 <= snd x.
Proof. intros [p [_ H]]. lia. Qed.

Lemma inrange_edge s x : inv s -> inrange (gluings s) x -> is_edge nv s x.
Proof.
  intros I [n [E R]]. unfold shape in E. destruct (dget (fst x) (gluings s)) as [g|] eqn:D; [|discriminate].
  injection E as <-. destruct (i_len s I _ _ D) as [p [Dp L]]. exists p. split; [now apply get_polygon_Ok|].
  rewrite L in R. exact R.
Qed.
Definition total s := forall l, In l (keys (polys s)) -> In l (keys (gluings s)).
Lemma edge_inrange s x : inv s -> total s -> is_edge nv s x -> inrange (gluings s) x.
Proof.
  intros I T [p [G R]]. apply get_polygon_Ok in G.
  assert (X : In (fst x) (keys (gluings s))) by (apply T, dget_keys; eauto).
  apply dget_keys in X. destruct X as [g D]. destruct (i_len s I _ _ D) as [p' [Dp L]].
  rewrite G in Dp. injection Dp as <-. exists (length g). unfold shape. rewrite D, L. cbn. rewrite L. auto.
Qed.
Lemma glued_gz s x y : inv s -> (glued nv s x y <-> gz (gluings s) x = Some y).
Proof.
  intros I. split.
  - intros [E O]. apply opposite_edge_Ok in O; [|now apply (is_edge_pos s)]. rewrite he_eta in O. tauto.
  - intros G. pose proof (gz_range _ _ _ G) as R. pose proof (inrange_edge s x I R) as E. split; auto.
    apply opposite_edge_Ok; [now apply (is_edge_pos s)|]. now rewrite he_eta.
Qed.
Lemma free_gz s x : inv s -> total s -> (free nv s x <-> is_edge nv s x /\ gz (gluings s) x = None).
Proof.
  intros I T. split.
  - intros [E O]. split; auto. apply opposite_edge_Ok in O; [|now apply (is_edge_pos s)]. rewrite he_eta in O. tauto.
  - intros [E O]. split; auto. apply opposite_edge_Ok; [now apply (is_edge_pos s)|]. rewrite he_eta. split; auto.
    now apply edge_inrange.
Qed.
Lemma gz_label s x y : inv s -> gz (gluings s) x = Some y -> In (fst x) (keys (polys s)).
Proof.
  intros I G. apply (glued_gz s x y I) in G. destruct G as [[p [E _]] _]. apply is_label_keys. now exists p.
Qed.

(** ** connectedness *)
Definition adj (d : gdict) (a b : label) := exists e e', gz d (a, e) = Some (b, e').
Definition conn (d : gdict) := clos_refl_trans label (adj d).
Lemma linked_conn s a b : inv s -> (linked nv s a b <-> conn (gluings s) a b).
Proof.
  intros I. unfold linked, conn. split; induction 1 as [a b [e [e' G]]| |]; try apply rt_refl; try (eapply rt_trans; eassumption);
    apply rt_step; exists e, e'; now apply (glued_gz s _ _ I).
Qed.
Lemma adj_sym d a b : (forall x y, gz d x = Some y -> gz d y = Some x) -> adj d a b -> adj d b a.
Proof. intros I [e [e' G]]. exists e', e. auto. Qed.
Lemma conn_sym d a b : (forall x y, gz d x = Some y -> gz d y = Some x) -> conn d a b -> conn d b a.
Proof.
  intros I. induction 1 as [a b A| |].
  - apply rt_step. now apply adj_sym.
  - apply rt_refl.
  - eapply rt_trans; eassumption.
Qed.
Lemma conn_trans d a b c : conn d a b -> conn d b c -> conn d a c.
Proof. apply rt_trans. Qed.
Lemma conn_label s a b : inv s -> conn (gluings s) a b -> In a (keys (polys s)) -> In b (keys (polys s)).
Proof.
  intros I. induction 1 as [a b [e [e' G]]| |]; auto. intros _.
  apply (i_inv s I) in G. now apply (gz_label s _ _ I) in G.
Qed.

Lemma edge_range_In p e : In e (edge_range nv p) <-> 0 <= e < Z.of_nat (nv p).
Proof.
  unfold edge_range. rewrite in_map_iff. split.
  - intros [k [<- H]]. apply in_seq in H. lia.
  - intros H. exists (Z.to_nat e). split; [lia|]. apply in_seq. lia.
Qed.

Lemma crosses_spec s l : inv s -> total s -> In l (keys (polys s)) ->
  exists p ls, dget l (polys s) = Some p /\ crosses nv s l = Ok ls /\ (length ls <= nv p)%nat /\
    forall b, In b ls <-> adj (gluings s) l b.
Proof.
  intros I T L. apply dget_keys in L. destruct L as [p D]. exists p. unfold crosses.
  rewrite (proj2 (get_polygon_Ok s l p) D).
  assert (E : forall e, 0 <= e < Z.of_nat (nv p) -> opposite_edge s l e = Ok (gz (gluings s) (l, e))).
  { intros e R. apply opposite_edge_Ok; [lia|]. split; auto. apply edge_inrange; auto. exists p. split; auto.
    now apply get_polygon_Ok. }
  rewrite (rmap_map _ (fun e => gz (gluings s) (l, e))).
  2:{ intros e He. apply edge_range_In in He. now apply E. }
  eexists. split; auto. split; [reflexivity|]. split.
  - unfold edge_range. rewrite !map_map. rewrite <- (seq_length (nv p) 0) at 2. generalize (seq 0 (nv p)) as r.
    clear. induction r as [|a r IH]; cbn; auto. destruct (gz _ _); cbn; rewrite ?app_length; cbn; lia.
  - intros b. rewrite in_flat_map. split.
    + intros [c [Hc Hb]]. apply in_map_iff in Hc. destruct Hc as [e [G He]].
      destruct c as [[b' e']|]; [|destruct Hb]. destruct Hb as [<-|[]]. exists e, e'. exact G.
    + intros [e [e' G]]. exists (Some (b, e')). split; [|cbn; auto]. apply in_map_iff. exists e. split; auto.
      apply edge_range_In. apply (glued_gz s _ _ I) in G. destruct G as [[p' [Q R]] _]. cbn in *.
      apply get_polygon_Ok in Q. congruence.
Qed.

Lemma reach_conn s a b : inv s -> total s -> In a (keys (polys s)) ->
  (reach (crosses nv s) a b <-> conn (gluings s) a b).
Proof.
  intros I T L. split.
  - intros R. apply clos_rt_rtn1 in R. induction R as [|y z [ls [E H]] R IH]; [apply rt_refl|].
    specialize (conn_label s a y I IH L) as Ly. destruct (crosses_spec s y I T Ly) as [p [ls' [_ [E' [_ Q]]]]].
    rewrite E in E'. injection E' as <-. eapply rt_trans; [exact IH|]. apply rt_step. now apply Q.
  - intros R. apply clos_rt_rtn1 in R. induction R as [|y z A R IH]; [apply rt_refl|].
    assert (Ly : In y (keys (polys s))) by (apply (conn_label s a y I); auto; now apply clos_rtn1_rt).
    destruct (crosses_spec s y I T Ly) as [p [ls' [_ [E' [_ Q]]]]].
    eapply rt_trans; [exact IH|]. apply rt_step. exists ls'. split; auto. now apply Q.
Qed.

Lemma component_spec s l : inv s -> total s -> In l (keys (polys s)) ->
  exists c, component nv s l = Ok c /\ NoDup c /\ forall b, In b c <-> conn (gluings s) l b.
Proof.
  intros I T L.
  assert (X : exists c, component nv s l = Ok c).
  { unfold component. set (cost := map (fun kp => (fst kp, nv (snd kp))) (polys s)).
    assert (K : keys cost = keys (polys s)) by (unfold cost, keys; rewrite map_map; reflexivity).
    assert (DC : forall k p, dget k (polys s) = Some p -> dget k cost = Some (nv p)).
    { intros k p. unfold cost. clear. induction (polys s) as [|[a b] d IH]; cbn; [discriminate|].
      destruct (Z.eqb k a); [congruence|auto]. }
    apply (bfs_total _ cost).
    - rewrite K. apply (i_np s I).
    - rewrite K. intros k Hk. destruct (crosses_spec s k I T Hk) as [p [ls [D [E [Len Q]]]]].
      exists ls. split; auto. split.
      + intros b Hb. apply Q in Hb. apply (conn_label s k b I); auto. now apply rt_step.
      + exists (nv p). split; auto.
    - rewrite K. intros x [<-|[]]. auto.
    - cbn [length]. unfold bfs_fuel, rest, cost. cbn [Nat.add]. apply le_n_S.
      clear. induction (polys s) as [|[a b] d IH]; cbn in *; lia. }
  destruct X as [c E]. exists c. split; auto. destruct (bfs_reach _ _ _ _ E) as [N Q]. split; auto.
  intros b. rewrite Q. now apply reach_conn.
Qed.

Lemma component_labels s l c : component nv s l = Ok c -> incl c (keys (polys s)).
Proof.
  intros E x Hx. destruct (bfs_nb _ _ _ _ x E Hx) as [ls N]. unfold crosses in N.
  destruct (get_polygon s x) as [p|] eqn:G; [|discriminate]. apply get_polygon_Ok in G. apply dget_keys. eauto.
Qed.

(** ** effect of mutations on connectedness *)
Lemma conn_mono d d' a b : (forall x y, gz d' x = Some y -> gz d x = Some y) -> conn d' a b -> conn d a b.
Proof.
  intros S. induction 1 as [a b [e [e' G]]| |].
  - apply rt_step. exists e, e'. auto.
  - apply rt_refl.
  - eapply rt_trans; eassumption.
Qed.
Lemma conn_add d d' l1 l2 a b :
  (forall a b, adj d' a b -> adj d a b \/ (a = l1 /\ b = l2) \/ (a = l2 /\ b = l1)) ->
  conn d' a b -> conn d a b \/ (conn d a l1 /\ conn d l2 b) \/ (conn d a l2 /\ conn d l1 b).
Proof.
  intros S R. apply clos_rt_rtn1 in R. induction R as [|y z A R IH].
  - left. apply rt_refl.
  - apply S in A. destruct A as [A|[[-> ->]|[-> ->]]].
    + apply rt_step in A. destruct IH as [IH|[[I1 I2]|[I1 I2]]].
      * left. eapply rt_trans; eassumption.
      * right. left. split; auto. eapply rt_trans; eassumption.
      * right. right. split; auto. eapply rt_trans; eassumption.
    + destruct IH as [IH|[[I1 I2]|[I1 I2]]].
      * right. left. split; auto. apply rt_refl.
      * right. left. split; auto. apply rt_refl.
      * left. auto.
    + destruct IH as [IH|[[I1 I2]|[I1 I2]]].
      * right. right. split; auto. apply rt_refl.
      * left. auto.
      * right. right. split; auto. apply rt_refl.
Qed.

Definition sep s := NoDup (roots_ s) /\
  forall r r', In r (roots_ s) -> In r' (roots_ s) -> conn (gluings s) r r' -> r = r'.
Definition cov s := roots_ s = nil \/
  forall l, In l (keys (polys s)) -> exists r, In r (roots_ s) /\ conn (gluings s) r l.

Definition ungz (d : gdict) (x y : hedge) : option hedge :=
  if eqb y x then None else match gz d x with Some c => if eqb y c then None else gz d y | None => gz d y end.
Lemma ungz_sub d x y z : ungz d x y = Some z -> gz d y = Some z.
Proof.
  unfold ungz. destruct (eqb y x); [discriminate|]. destruct (gz d x); auto. destruct (eqb y h); [discriminate|auto].
Qed.
Lemma ungz_inv d x : (forall x y, gz d x = Some y -> gz d y = Some x) ->
  forall y z, ungz d x y = Some z -> ungz d x z = Some y.
Proof.
  intros I y z U. pose proof (ungz_sub d x y z U) as G. pose proof (I _ _ G) as G'.
  unfold ungz in *. destruct (hedge_case y x) as [[E1 E2]|[E1 E2]]; rewrite E1 in U; [discriminate|].
  destruct (hedge_case z x) as [[E3 E4]|[E3 E4]]; rewrite E3.
  - subst z. rewrite G' in U. rewrite eqb_refl in U. discriminate.
  - destruct (gz d x) as [c|] eqn:C; auto.
    destruct (hedge_case z c) as [[E5 E6]|[E5 E6]]; rewrite E5; auto.
    subst z. apply I in C. congruence.
Qed.

Lemma unglue_main s l e : inv s -> mutable s = true -> inrange (gluings s) (l, e) ->
  exists s' r, unglue nv l e s = (s', r) /\ inv s' /\ frame s s' /\
    (forall y, gz (gluings s') y = ungz (gluings s) (l, e) y) /\
    (sep s -> sep s') /\ (cov s -> cov s' /\ r = Ok tt) /\ (r = Ok tt \/ r = Err AssertionError) /\
    (roots_ s = nil -> roots_ s' = nil /\ r = Ok tt) /\ incl (roots_ s) (roots_ s').
Proof.
  intros I Mu R. assert (E : 0 <= e) by (destruct R as [n [_ ?]]; cbn in *; lia).
  assert (T : total s) by exact (i_tot s I Mu).
  unfold unglue, mbind, check_mutable. rewrite Mu. unfold mget, mlift.
  rewrite (proj2 (opposite_edge_Ok s l e (gz (gluings s) (l, e)) E)) by auto.
  set (x := (l, e)) in *.
  destruct (gz (gluings s) x) as [c|] eqn:C.
  - (* glued *)
    assert (C' := i_inv s I _ _ C). assert (Rc := gz_range _ _ _ C').
    destruct (set_gluing_Ok s (fst c) (snd c) None) as [s1 [-> [F1 [Q1 G1]]]]; [now rewrite he_eta|].
    rewrite he_eta in G1.
    destruct (set_gluing_Ok s1 l e None) as [s2 [-> [F2 [Q2 G2]]]]; [now apply (frame_range s s1)|].
    fold x in G2.
    assert (F : frame s s2) by (eapply frame_trans; eassumption).
    assert (G : forall y, gz (gluings s2) y = ungz (gluings s) x y).
    { intros y. rewrite G2, G1. unfold ungz. rewrite C. reflexivity. }
    assert (Q : roots_ s2 = roots_ s) by congruence.
    assert (I2 : inv s2).
    { apply (inv_frame s); auto.
      - intros y z. rewrite !G. apply ungz_inv, I.
      - rewrite Q. apply (i_roots s I). }
    assert (T2 : total s2). { intros k. destruct F as [-> _ _ _ -> _]. apply T. }
    assert (S2 : forall y z, gz (gluings s2) y = Some z -> gz (gluings s) y = Some z).
    { intros y z. rewrite G. apply ungz_sub. }
    assert (Ll : In l (keys (polys s))) by (apply (gz_label s x c I C)).
    assert (Lc : In (fst c) (keys (polys s))) by (apply (gz_label s c x I C')).
    assert (Ll2 : In l (keys (polys s2))) by (destruct F as [-> _ _ _ _ _]; auto).
    assert (Lc2 : In (fst c) (keys (polys s2))) by (destruct F as [-> _ _ _ _ _]; auto).
    assert (A : forall a b, adj (gluings s) a b -> adj (gluings s2) a b \/ (a = l /\ b = fst c) \/ (a = fst c /\ b = l)).
    { intros a b [e1 [e2 H]].
      destruct (he_dec (a, e1) x) as [X|X].
      { right. left. rewrite X in H. rewrite C in H. injection H as ->. unfold x in X. injection X as -> ->. auto. }
      destruct (he_dec (a, e1) c) as [Y|Y].
      { right. right. rewrite Y in H. rewrite C' in H. unfold x in H. injection H as -> ->. rewrite <- Y. auto. }
      left. exists e1, e2. rewrite G. unfold ungz. rewrite C.
      destruct (hedge_case (a, e1) x) as [[_ Z]|[-> _]]; [contradiction|].
      destruct (hedge_case (a, e1) c) as [[_ Z]|[-> _]]; [contradiction|]. auto. }
    assert (AC : forall a b, conn (gluings s) a b -> conn (gluings s2) a b \/
        (conn (gluings s2) a l /\ conn (gluings s2) (fst c) b) \/ (conn (gluings s2) a (fst c) /\ conn (gluings s2) l b)).
    { intros a b. apply conn_add. auto. }
    assert (SY := fun a b => conn_sym (gluings s2) a b (i_inv s2 I2)).
    assert (SY0 := fun a b => conn_sym (gluings s) a b (i_inv s I)).
    assert (MO := fun a b => conn_mono (gluings s) (gluings s2) a b S2).
    assert (X0 : sep s -> sep s2).
    { intros [N H]. split; [now rewrite Q|]. rewrite Q. intros r r' Hr Hr' Co. apply H; auto. }
    destruct (roots_ s2) as [|r0 rs0] eqn:RS.
    { exists s2, (Ok tt). split; [reflexivity|]. split; auto. split; auto. split; auto. split; auto.
      split; [intros _; split; auto; left; auto|]. split; auto. split; [auto|]. rewrite <- Q, RS. apply incl_refl. }
    assert (NR : roots_ s2 <> nil) by congruence. rewrite <- RS in *. clear r0 rs0 RS.
    destruct (component_spec s2 l I2 T2 Ll2) as [comp [-> [_ HC]]].
    destruct (mem (fst c) comp) eqn:MC.
    { apply mem_In, HC in MC.
      exists s2, (Ok tt). split; [reflexivity|]. split; auto. split; auto. split; auto. split; auto.
      split; [|split; [auto|split; [rewrite Q; auto | rewrite Q; apply incl_refl]]].
      intros [H|H]; (split; auto); [left; congruence|right]. intros m Hm. rewrite Q.
      destruct F as [FP _ _ _ _ _]. rewrite FP in Hm. destruct (H m Hm) as [r [Hr Co]]. exists r. split; auto.
      destruct (AC _ _ Co) as [K|[[K1 K2]|[K1 K2]]]; auto.
      - eapply rt_trans; [exact K1|]. eapply rt_trans; [exact MC|]. exact K2.
      - eapply rt_trans; [exact K1|]. eapply rt_trans; [apply SY; exact MC|]. exact K2. }
    apply mem_not_In in MC. rewrite HC in MC.
    destruct (component_spec s2 (fst c) I2 T2 Lc2) as [cross [-> [_ HX]]].
    assert (NL : mem l cross = false) by (apply mem_not_In; rewrite HX; intros Z; apply MC, SY, Z).
    rewrite NL. cbn [negb massert mret].
    assert (Cn : comp <> nil) by (intros ->; apply (HC l), rt_refl).
    assert (Xn : cross <> nil) by (intros ->; apply (HX (fst c)), rt_refl).
    destruct (split_root_spec (roots_ s2) comp cross Cn Xn) as [[r0 [r [H1 [-> H3]]]]|[-> H2]].
    + unfold modify. exists (set_roots_ (roots_ s2 ++ [r]) s2), (Ok tt). split; [reflexivity|].
      rewrite !HC, !HX in H3.
      assert (Lr : In r (keys (polys s))).
      { destruct F as [FP _ _ _ _ _]. rewrite <- FP. destruct H3 as [[_ H3]|[_ H3]]; eapply conn_label; eauto. }
      split; [|split; [|split; [|split; [|split; [|split; [|split]]]]]].
      * apply (inv_frame s2); auto.
        -- now constructor.
        -- intros y z. cbn. apply (i_inv s2 I2).
        -- cbn. intros q Hq. apply in_app_or in Hq. destruct F as [FP _ _ _ _ _]. rewrite FP.
           destruct Hq as [Hq|[<-|[]]]; auto. rewrite Q in Hq. now apply (i_roots s I).
      * destruct F. now constructor.
      * cbn. exact G.
      * intros [N H]. rewrite Q in *. split; cbn.
        -- apply NoDup_snoc; auto. intros Hr. 
           destruct H3 as [[H3 H4]|[H3 H4]].
           ++ assert (r = r0).
              { apply H; auto. eapply rt_trans; [apply SY0, MO; exact H4|]. eapply rt_trans; [|apply MO; exact H3].
                apply rt_step. exists (snd c), e. rewrite he_eta. exact C'. }
              subst r0. apply MC. eapply rt_trans; [exact H3|]. now apply SY.
           ++ assert (r = r0).
              { apply H; auto. eapply rt_trans; [apply SY0, MO; exact H4|]. eapply rt_trans; [|apply MO; exact H3].
                apply rt_step. exists e, (snd c). rewrite he_eta. exact C. }
              subst r0. apply MC. eapply rt_trans; [exact H4|]. now apply SY.
        -- assert (K : forall q, In q (roots_ s) -> conn (gluings s2) q r -> False).
           { intros q Hq Co. destruct H3 as [[H3 H4]|[H3 H4]].
             - assert (q = r0).
               { apply H; auto. eapply rt_trans; [apply MO, Co|]. eapply rt_trans; [apply SY0, MO; exact H4|].
                 eapply rt_trans; [|apply MO; exact H3].
                 apply rt_step. exists (snd c), e. rewrite he_eta. exact C'. }
               subst r0. apply MC. eapply rt_trans; [exact H3|]. eapply rt_trans; [exact Co|]. now apply SY.
             - assert (q = r0).
               { apply H; auto. eapply rt_trans; [apply MO, Co|]. eapply rt_trans; [apply SY0, MO; exact H4|].
                 eapply rt_trans; [|apply MO; exact H3].
                 apply rt_step. exists e, (snd c). rewrite he_eta. exact C. }
               subst r0. apply MC. eapply rt_trans; [exact H4|]. eapply rt_trans; [apply SY, Co|]. now apply SY. }
           intros q q' Hq Hq' Co. apply in_app_or in Hq, Hq'.
           destruct Hq as [Hq|[<-|[]]], Hq' as [Hq'|[<-|[]]]; auto.
           ++ exfalso. eauto.
           ++ exfalso. eapply K; eauto.
      * intros [H|H]; (split; auto); [exfalso; rewrite Q, H in H1; destruct H1|right]. cbn. intros m Hm.
        rewrite (f_polys _ _ F) in Hm.
        destruct (H m Hm) as [r1 [Hr1 Co]]. destruct (AC _ _ Co) as [K|[[K1 K2]|[K1 K2]]].
        -- exists r1. rewrite Q. split; auto. apply in_or_app. auto.
        -- destruct H3 as [[H3 H4]|[H3 H4]].
           ++ exists r. split; [apply in_or_app; cbn; auto|]. eapply rt_trans; [apply SY; exact H4|]. exact K2.
           ++ exists r0. split; [apply in_or_app; auto|]. eapply rt_trans; [apply SY; exact H3|]. exact K2.
        -- destruct H3 as [[H3 H4]|[H3 H4]].
           ++ exists r0. split; [apply in_or_app; auto|]. eapply rt_trans; [apply SY; exact H3|]. exact K2.
           ++ exists r. split; [apply in_or_app; cbn; auto|]. eapply rt_trans; [apply SY; exact H4|]. exact K2.
      * auto.
      * intros Z. rewrite Q, Z in H1. destruct H1.
      * cbn. rewrite Q. intros q Hq. apply in_or_app. auto.
    + exists s2, (Err AssertionError). split; [reflexivity|].
      split; auto. split; auto. split; auto. split; auto. split; [|split; [auto|split]].
      * intros [H|H].
        -- congruence.
        -- exfalso. destruct (H l Ll) as [r [Hr Co]]. rewrite <- Q in Hr. destruct (H2 r Hr) as [N1 N2].
           destruct (AC _ _ Co) as [K|[[K1 K2]|[K1 K2]]].
           ++ apply N1, HC, SY, K.
           ++ apply N1, HC, SY, K1.
           ++ apply N2, HX, SY, K1.
      * congruence.
      * rewrite Q. apply incl_refl.
  - (* free *)
    cbn [mret]. unfold mret at 1.
    destruct (set_gluing_Ok s l e None) as [s2 [-> [F2 [Q2 G2]]]]; [auto|]. fold x in G2.
    exists s2, (Ok tt). split; [reflexivity|].
    assert (G : forall y, gz (gluings s2) y = gz (gluings s) y).
    { intros y. rewrite G2. destruct (hedge_case y x) as [[-> ->]|[-> _]]; auto. }
    assert (CE : forall a b, conn (gluings s2) a b <-> conn (gluings s) a b).
    { intros a b. split; apply conn_mono; intros u v; rewrite G; auto. }
    split; [|split; [|split; [|split; [|split; [|split; [|split]]]]]].
    + apply (inv_frame s); auto.
      * intros y z. rewrite !G. apply (i_inv s I).
      * rewrite Q2. apply (i_roots s I).
    + auto.
    + intros y. rewrite G2. unfold ungz. now rewrite C.
    + intros [N H]. split; rewrite Q2; auto. intros r r' Hr Hr' Co. apply H; auto. now apply CE.
    + intros [H|H]; split; auto; [left; congruence|right]. rewrite (f_polys _ _ F2). intros m Hm.
      destruct (H m Hm) as [r [Hr Co]]. exists r. rewrite Q2. split; auto. now apply CE.
    + auto.
    + rewrite Q2. auto.
    + rewrite Q2. apply incl_refl.
Qed.

Lemma total_frame s s' : total s -> frame s s' -> total s'.
Proof. intros T F l. rewrite (f_polys _ _ F), (f_keys _ _ F). apply T. Qed.
Lemma label_inrange s x : inrange (gluings s) x -> inv s -> In (fst x) (keys (polys s)).
Proof.
  intros [n [E _]] I. unfold shape in E. destruct (dget (fst x) (gluings s)) as [g|] eqn:D; [|discriminate].
  destruct (i_len s I _ _ D) as [p [Dp _]]. apply dget_keys. eauto.
Qed.

(** outcome of an operation that may fail half way *)
Definition shrinks s s' := forall y z, gz (gluings s') y = Some z -> gz (gluings s) y = Some z.

Lemma unglue_any s l e : inv s -> 0 <= e ->
  exists s' r, unglue nv l e s = (s', r) /\ inv s' /\ frame s s' /\ shrinks s s' /\ (sep s -> sep s') /\
    (cov s -> cov s') /\
    (r = Ok tt -> mutable s = true /\ inrange (gluings s) (l, e) /\ forall y, gz (gluings s') y = ungz (gluings s) (l, e) y) /\
    (mutable s = false -> s' = s /\ r = Err PyException) /\
    (mutable s = true -> inrange (gluings s) (l, e) -> (cov s -> r = Ok tt) /\
       (forall y, gz (gluings s') y = ungz (gluings s) (l, e) y)) /\
    (mutable s = true -> ~ inrange (gluings s) (l, e) -> s' = s /\ r <> Ok tt).
Proof.
  intros I E. destruct (mutable s) eqn:Mu.
  - assert (D : {inrange (gluings s) (l, e)} + {~ inrange (gluings s) (l, e)}).
    { unfold inrange. cbn [fst snd]. destruct (shape (gluings s) l) as [n|].
      - destruct (Z_lt_dec e (Z.of_nat n)); [left; eauto | right; intros [m [[= <-] ?]]; lia].
      - right. intros [m [? _]]. discriminate. }
    destruct D as [R|R].
    + destruct (unglue_main s l e I Mu R) as [s' [r [H1 [H2 [H3 [H4 [H5 [H6 [H7 _]]]]]]]]].
      exists s', r. split; auto. split; auto. split; auto. split.
      { intros y z. rewrite H4. apply ungz_sub. }
      split; auto. split; [intros C; now apply H6|]. split; [auto|]. split; [congruence|]. split; [|tauto].
      intros _ _. split; auto. intros C. now apply H6.
    + unfold unglue, mbind, check_mutable. rewrite Mu. unfold mget, mlift.
      destruct (opposite_edge_error s l e E R) as [err ->].
      exists s, (Err err). split; [reflexivity|]. split; auto. split; [apply frame_refl|]. split; [now intros ? ?|].
      split; [auto|]. split; [auto|]. split; [discriminate|]. split; [discriminate|]. split; [tauto|]. split; congruence.
  - exists s, (Err PyException). unfold unglue, mbind, check_mutable. rewrite Mu. split; [reflexivity|].
    split; auto. split; [apply frame_refl|]. split; [now intros ? ?|].
    split; [auto|]. split; [auto|]. split; [discriminate|]. split; [auto|]. split; congruence.
Qed.

Definition glz (d : gdict) (x y z : hedge) : option hedge :=
  if eqb z x then Some y else if eqb z y then Some x else
  match gz d x with Some c => if eqb z c then None else
     match gz d y with Some c => if eqb z c then None else gz d z | None => gz d z end
  | None => match gz d y with Some c => if eqb z c then None else gz d z | None => gz d z end end.

Lemma glue_main s x y : inv s -> mutable s = true -> inrange (gluings s) x -> inrange (gluings s) y ->
  exists s' r, glue nv x y s = (s', r) /\ inv s' /\ frame s s' /\
    (r = Ok tt -> forall z, gz (gluings s') z = glz (gluings s) x y z) /\
    (r <> Ok tt -> r = Err AssertionError /\ shrinks s s') /\
    (sep s -> sep s') /\ (sep s -> cov s -> cov s' /\ r = Ok tt) /\
    (roots_ s = nil -> roots_ s' = nil /\ r = Ok tt).
Proof.
  intros I Mu Rx Ry. destruct x as [lx ex], y as [ly ey].
  assert (Lx := label_inrange s _ Rx I). assert (Ly := label_inrange s _ Ry I). cbn [fst snd] in *.
  unfold glue, mbind, check_mutable. rewrite Mu. unfold mget, mlift. cbn [fst snd].
  rewrite (proj2 (dmem_keys lx (polys s)) Lx), (proj2 (dmem_keys ly (polys s)) Ly). cbn [mret]. unfold mret at 1. unfold mret at 1.
  destruct (unglue_main s lx ex I Mu Rx) as [s1 [r1 [-> [I1 [F1 [G1 [P1 [C1 [O1 [N1 _]]]]]]]]]].
  assert (Mu1 : mutable s1 = true) by (rewrite (f_mut _ _ F1); auto).
  assert (Ry1 : inrange (gluings s1) (ly, ey)) by (now apply (frame_range s s1)).
  destruct O1 as [->| ->].
  2:{ exists s1, (Err AssertionError). split; [reflexivity|]. split; auto. split; auto. split; [discriminate|].
      split; [intros _; split; auto; intros u v; rewrite G1; apply ungz_sub|].
      split; [exact P1|]. split; [intros _ C; now destruct (C1 C) | intros R; now destruct (N1 R)]. }
  destruct (unglue_main s1 ly ey I1 Mu1 Ry1) as [s2 [r2 [-> [I2 [F2 [G2 [P2 [C2 [O2 [N2 _]]]]]]]]]].
  assert (F12 : frame s s2) by (eapply frame_trans; eassumption).
  assert (SH : shrinks s s2). { intros u v. rewrite G2. intros H. apply ungz_sub in H. rewrite G1 in H. now apply ungz_sub in H. }
  destruct O2 as [->| ->].
  2:{ exists s2, (Err AssertionError). split; [reflexivity|]. split; auto. split; auto. split; [discriminate|].
      split; [auto|].
      split; [intros S; apply P2, P1, S|]. split; [intros _ C; now destruct (C2 (proj1 (C1 C))) | intros R; now destruct (N2 (proj1 (N1 R)))]. }
  assert (Mu2 : mutable s2 = true) by (rewrite (f_mut _ _ F2); auto).
  assert (T2 : total s2) by exact (i_tot s2 I2 Mu2).
  assert (Rx2 : inrange (gluings s2) (lx, ex)) by (now apply (frame_range s s2)).
  assert (Ry2 : inrange (gluings s2) (ly, ey)) by (now apply (frame_range s s2)).
  assert (Lx2 := label_inrange s2 _ Rx2 I2). assert (Ly2 := label_inrange s2 _ Ry2 I2). cbn [fst snd] in *.
  set (x := (lx, ex)) in *. set (y := (ly, ey)) in *.
  (* both edges are free now *)
  assert (FY : gz (gluings s2) y = None). { rewrite G2. unfold ungz. now rewrite eqb_refl. }
  assert (FX : gz (gluings s2) x = None).
  { rewrite G2. unfold ungz.
    assert (X1 : gz (gluings s1) x = None) by (rewrite G1; unfold ungz; now rewrite eqb_refl).
    rewrite X1. destruct (gz (gluings s1) y); repeat match goal with |- context [if ?b then _ else _] => destruct b end; auto. }
  assert (SY := fun a b => conn_sym (gluings s2) a b (i_inv s2 I2)).
  (* the final assignments, from a state s3 that differs from s2 in its roots only *)
  assert (FIN : forall s3, gluings s3 = gluings s2 -> frame s2 s3 ->
     exists s', mbind (set_gluing lx ex (Some y)) (fun _ => set_gluing ly ey (Some x)) s3 = (s', Ok tt) /\
       frame s s' /\ roots_ s' = roots_ s3 /\ (forall z, gz (gluings s') z = if eqb z y then Some x else if eqb z x then Some y else gz (gluings s2) z) /\
       (forall z, gz (gluings s') z = glz (gluings s) x y z)).
  { intros s3 E3 F3. unfold mbind.
    destruct (set_gluing_Ok s3 lx ex (Some y)) as [s4 [-> [F4 [Q4 G4]]]]; [now rewrite E3|].
    destruct (set_gluing_Ok s4 ly ey (Some x)) as [s5 [-> [F5 [Q5 G5]]]]; [apply (frame_range s3 s4); auto; now rewrite E3|].
    fold x in G4. fold y in G5. exists s5. split; [reflexivity|].
    assert (GZ : forall z, gz (gluings s5) z = if eqb z y then Some x else if eqb z x then Some y else gz (gluings s2) z).
    { intros z. rewrite G5, G4, E3. reflexivity. }
    split; [exact (frame_trans _ _ _ F12 (frame_trans _ _ _ F3 (frame_trans _ _ _ F4 F5)))|]. split; [congruence|]. split; [exact GZ|].
    intros z. rewrite GZ, G2. unfold glz, ungz. rewrite !G1. unfold ungz.
    destruct (hedge_case z x) as [[A1 A2]|[A1 A2]]; rewrite A1.
    { destruct (hedge_case z y) as [[B1 B2]|[B1 B2]]; rewrite B1; auto. f_equal. now rewrite <- A2, <- B2. }
    destruct (hedge_case z y) as [[B1 B2]|[B1 B2]]; rewrite B1; auto.
    destruct (hedge_case y x) as [[D1 D2]|[D1 D2]]; rewrite D1.
    { rewrite D2. destruct (gz (gluings s) x); [now destruct (eqb z h)|auto]. }
    destruct (gz (gluings s) x) as [c|] eqn:GX.
    - destruct (hedge_case y c) as [[E1 E2]|[E1 E2]]; rewrite E1.
      + subst c. rewrite B1. apply (i_inv s I) in GX. rewrite GX, A1. auto.
      + destruct (gz (gluings s) y) as [c'|] eqn:GY; destruct (eqb z c); auto. now destruct (eqb z c').
    - auto. }
  (* invariants of the final state *)
  assert (INV : forall s', frame s s' -> (forall z, gz (gluings s') z = if eqb z y then Some x else if eqb z x then Some y else gz (gluings s2) z) ->
      (forall r, In r (roots_ s') -> In r (roots_ s2)) -> inv s').
  { intros s' F G R. apply (inv_frame s); auto.
    - intros u v. rewrite !G.
      destruct (hedge_case u y) as [[A1 A2]|[A1 A2]]; rewrite A1.
      { intros [= <-]. rewrite eqb_refl. destruct (hedge_case x y) as [[C3 B2]|[C3 B2]]; rewrite C3; f_equal; [rewrite B2|]; now rewrite A2. }
      destruct (hedge_case u x) as [[B1 B2]|[B1 B2]]; rewrite B1.
      { intros [= <-]. rewrite eqb_refl. now rewrite B2. }
      intros H. apply (i_inv s2 I2) in H.
      destruct (hedge_case v y) as [[D1 D2]|[D1 D2]]; rewrite D1; [rewrite D2, FY in H; discriminate|].
      destruct (hedge_case v x) as [[E1 E2]|[E1 E2]]; rewrite E1; [rewrite E2, FX in H; discriminate|]. auto.
    - intros r Hr. rewrite <- (f_polys _ _ F12). apply (i_roots s2 I2). auto. }
  assert (ADJ : forall s', (forall z, gz (gluings s') z = if eqb z y then Some x else if eqb z x then Some y else gz (gluings s2) z) ->
     forall a b, adj (gluings s') a b -> adj (gluings s2) a b \/ (a = lx /\ b = ly) \/ (a = ly /\ b = lx)).
  { intros s' G a b [e [e' H]]. rewrite G in H.
    destruct (hedge_case (a, e) y) as [[A1 A2]|[A1 A2]]; rewrite A1 in H.
    { right. right. unfold x, y in *. injection H as <- <-. injection A2 as -> ->. auto. }
    destruct (hedge_case (a, e) x) as [[B1 B2]|[B1 B2]]; rewrite B1 in H.
    { right. left. unfold x, y in *. injection H as <- <-. injection B2 as -> ->. auto. }
    left. exists e, e'. auto. }
  assert (SUP : forall s', (forall z, gz (gluings s') z = if eqb z y then Some x else if eqb z x then Some y else gz (gluings s2) z) ->
     forall a b, conn (gluings s2) a b -> conn (gluings s') a b).
  { intros s' G a b. apply conn_mono. intros u v H. rewrite G.
    destruct (hedge_case u y) as [[A1 A2]|[A1 A2]]; rewrite A1; [rewrite A2, FY in H; discriminate|].
    destruct (hedge_case u x) as [[B1 B2]|[B1 B2]]; rewrite B1; [rewrite B2, FX in H; discriminate|]. auto. }
  (* case: no change of roots *)
  assert (SAME : (roots_ s2 = nil \/ conn (gluings s2) lx ly) -> exists s' r,
     mbind (set_gluing lx ex (Some y)) (fun _ => set_gluing ly ey (Some x)) s2 = (s', r) /\ inv s' /\ frame s s' /\
    (r = Ok tt -> forall z, gz (gluings s') z = glz (gluings s) x y z) /\
    (r <> Ok tt -> r = Err AssertionError /\ shrinks s s') /\
    (sep s -> sep s') /\ (sep s -> cov s -> cov s' /\ r = Ok tt) /\
    (roots_ s = nil -> roots_ s' = nil /\ r = Ok tt)).
  { intros H. destruct (FIN s2 eq_refl (frame_refl s2)) as [s' [E [F [Q [G1' G2']]]]].
    exists s', (Ok tt). split; auto. split; [apply INV; auto; now rewrite Q|]. split; auto. split; auto. split; [congruence|].
    split; [|split].
    - intros S. apply P1, P2 in S. destruct S as [S1 S2]. split; rewrite Q; auto.
      intros r r' Hr Hr' Co. destruct H as [H|H]; [rewrite H in Hr; destruct Hr|].
      apply S2; auto. apply (conn_add (gluings s2)  (gluings s') lx ly) in Co; [|apply ADJ; auto].
      destruct Co as [Co|[[K1 K2]|[K1 K2]]]; auto.
      + eapply rt_trans; [exact K1|]. eapply rt_trans; [exact H|]. auto.
      + eapply rt_trans; [exact K1|]. eapply rt_trans; [apply SY, H|]. auto.
    - intros _ C. split; auto. destruct (C1 C) as [C' _]. destruct (C2 C') as [C'' _].
      destruct C'' as [C''|C'']; [left; congruence|right]. rewrite Q. rewrite (f_polys _ _ F). rewrite (f_polys _ _ F12) in C''.
      intros m Hm. destruct (C'' m Hm) as [r [Hr Co]]. exists r. split; [exact Hr|]. apply SUP; auto.
    - intros R. split; auto. rewrite Q. apply N2, N1, R. }
  destruct (roots_ s2) as [|r0 rs0] eqn:RS.
  { apply SAME. auto. }
  rewrite <- RS in *.
  assert (NR : roots_ s2 <> nil) by congruence. clear RS r0 rs0.
  destruct (component_spec s2 lx I2 T2 Lx2) as [comp [-> [_ HC]]].
  destruct (mem ly comp) eqn:MC.
  { apply SAME. right. now apply HC, mem_In. }
  apply mem_not_In in MC. rewrite HC in MC. clear SAME.
  destruct (component_spec s2 ly I2 T2 Ly2) as [cross [-> [_ HX]]].
  destruct (merge_root_spec (rev (roots_ s2)) comp cross) as [[r [M1 [-> M3]]]|[-> M2]].
  - unfold modify. set (s3 := set_roots_ (filter (fun r' => negb (eqb r' r)) (roots_ s2)) s2).
    apply in_rev in M1. rewrite HC, HX in M3.
    destruct (FIN s3 eq_refl) as [s' [E [F [Q [G1' G2']]]]]; [now constructor|].
    cbn in Q. assert (QI : forall q, In q (roots_ s') <-> In q (roots_ s2) /\ q <> r).
    { intros q. rewrite Q, filter_In, negb_true_iff. change (eqb q r = false) with (@eqb Z EqB_Z q r = false). cbn [eqb EqB_Z]. now rewrite Z.eqb_neq. }
    exists s', (Ok tt). split; auto. split; [apply INV; auto; intros q Hq; now apply QI in Hq|].
    split; auto. split; auto. split; [congruence|]. 
    assert (RN : roots_ s <> nil) by (intros R; apply NR, N2, N1, R).
    split; [|split; [|tauto]].
    + intros S. apply P1, P2 in S. destruct S as [S1 S2]. split; [rewrite Q; now apply NoDup_filter|].
      intros q q' Hq Hq' Co. apply QI in Hq, Hq'. destruct Hq as [Hq Nq], Hq' as [Hq' Nq'].
      apply (conn_add (gluings s2)  (gluings s') lx ly) in Co; [|apply ADJ; auto].
      destruct Co as [Co|[[K1 K2]|[K1 K2]]]; auto.
      * exfalso. destruct M3 as [M3|M3].
        -- apply Nq. apply S2; auto. eapply rt_trans; eassumption.
        -- apply Nq'. apply S2; auto. eapply rt_trans; [apply SY, K2|exact M3].
      * exfalso. destruct M3 as [M3|M3].
        -- apply Nq'. apply S2; auto. eapply rt_trans; [apply SY, K2|exact M3].
        -- apply Nq. apply S2; auto. eapply rt_trans; eassumption.
    + intros S C. split; auto. apply P1, P2 in S. destruct S as [S1 S2].
      destruct (C1 C) as [C' _]. destruct (C2 C') as [[C''|C''] _]; [congruence|]. right.
      rewrite (f_polys _ _ F). rewrite (f_polys _ _ F12) in C''.
      assert (J : adj (gluings s') lx ly).
      { exists ex, ey. rewrite G1'. fold x. destruct (hedge_case x y) as [[-> B2]|[-> B2]]; [rewrite B2; auto|].
        now rewrite eqb_refl. }
      assert (J' : adj (gluings s') ly lx). { exists ey, ex. rewrite G1'. fold y. now rewrite eqb_refl. }
      apply rt_step in J, J'.
      intros m Hm. destruct (C'' m Hm) as [q [Hq Co]].
      destruct (Z.eq_dec q r) as [->|NE].
      * (* the root of the other component takes over *)
        destruct M3 as [M3|M3].
        -- destruct (C'' ly Ly) as [q [Hq' Co']]. exists q. split.
           ++ apply QI. split; auto. intros ->. apply MC. eapply rt_trans; eassumption.
           ++ eapply rt_trans; [apply SUP; eauto|]. eapply rt_trans; [exact J'|].
              apply SUP; auto. eapply rt_trans; [exact M3|exact Co].
        -- destruct (C'' lx Lx) as [q [Hq' Co']]. exists q. split.
           ++ apply QI. split; auto. intros ->. apply MC. eapply rt_trans; [apply SY, Co'|apply SY, M3].
           ++ eapply rt_trans; [apply SUP; eauto|]. eapply rt_trans; [exact J|].
              apply SUP; auto. eapply rt_trans; [exact M3|exact Co].
      * exists q. split; [apply QI; auto|]. apply SUP; auto.
  - exists s2, (Err AssertionError). split; [reflexivity|]. split; auto. split; auto. split; [discriminate|].
    split; [auto|]. split; auto. split; [|intros R; exfalso; apply NR, N2, N1, R].
    intros _ C. exfalso. destruct (C1 C) as [C' _]. destruct (C2 C') as [[C''|C''] _]; [congruence|].
    destruct (C'' lx Lx2) as [q [Hq Co]]. apply in_rev in Hq. apply (proj1 (M2 q Hq)). apply HC, SY, Co.
Qed.
End P.
