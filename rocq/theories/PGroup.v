(** Words of crossed edges: reduction, products and inverses. *)
From Coq Require Import List Bool ZArith Arith Lia.
From Verif Require Import MBase MDict PDict MGroup SGroup.
Import ListNotations.

Section G.
Context {L : Type} `{EL : EqB L}.
Variable (opp : L -> nat -> res (option (L * nat))).
Variable base : L.
Notation step := ((L * nat) * (L * nat))%type.
Notation walk := (walk opp).
Notation glued := (glued opp).

Lemma back_back (l : step) : back (back l) = l.
Proof. now destruct l. Qed.
Lemma back_inj (l m : step) : back l = back m -> l = m.
Proof. intros E. rewrite <- (back_back l), E. apply back_back. Qed.

(** ** homotopy *)
Lemma ho_app (u v w : list step) : homotopic v w -> homotopic (u ++ v) (u ++ w).
Proof.
  induction 1; [apply ho_refl | now apply ho_sym | eapply ho_trans; eauto |].
  rewrite !app_assoc. apply ho_back.
Qed.
Lemma ho_app_r (u v w : list step) : homotopic v w -> homotopic (v ++ u) (w ++ u).
Proof.
  induction 1; [apply ho_refl | now apply ho_sym | eapply ho_trans; eauto |].
  rewrite <- !app_assoc. cbn. apply ho_back.
Qed.
Lemma ho_app2 (u v u' v' : list step) : homotopic u u' -> homotopic v v' -> homotopic (u ++ v) (u' ++ v').
Proof. intros A B. eapply ho_trans; [apply ho_app; exact B | apply ho_app_r; exact A]. Qed.
Definition winv (w : list step) : list step := map back (rev w).
Lemma winv_app u v : winv (u ++ v) = winv v ++ winv u.
Proof. unfold winv. now rewrite rev_app_distr, map_app. Qed.
Lemma winv_cons l v : winv (l :: v) = winv v ++ [back l].
Proof. change (l :: v) with ([l] ++ v). now rewrite winv_app. Qed.
Lemma winv_winv w : winv (winv w) = w.
Proof.
  unfold winv. rewrite <- map_rev, rev_involutive, map_map. rewrite <- (map_id w) at 2.
  apply map_ext. intros. apply back_back.
Qed.
Lemma ho_winv w : homotopic (w ++ winv w) nil.
Proof.
  induction w as [|l w IH] using rev_ind; [apply ho_refl|].
  rewrite winv_app. cbn. rewrite <- app_assoc. cbn.
  eapply ho_trans; [|exact IH]. apply ho_back.
Qed.
Lemma ho_winv_l w : homotopic (winv w ++ w) nil.
Proof. rewrite <- (winv_winv w) at 2. apply ho_winv. Qed.
Lemma ho_inv_compat u v : homotopic u v -> homotopic (winv u) (winv v).
Proof.
  induction 1; [apply ho_refl | now apply ho_sym | eapply ho_trans; eauto |].
  rewrite !winv_app, !winv_cons, <- !app_assoc, back_back. cbn.
  pose proof (ho_back (winv v) l (winv u)) as A. exact A.
Qed.

(** ** the product of words *)
Fixpoint mulw (rw v : list step) : list step :=
  match rw, v with
  | l :: rw', m :: v' => if eqb m (back l) then mulw rw' v' else rev rw ++ v
  | _, _ => rev rw ++ v
  end.
Fixpoint ncan (rw v : list step) : nat :=
  match rw, v with
  | l :: rw', m :: v' => if eqb m (back l) then S (ncan rw' v') else 0
  | _, _ => 0
  end.
Lemma mulw_skip rw v : mulw rw v = rev (skipn (ncan rw v) rw) ++ skipn (ncan rw v) v.
Proof.
  revert v. induction rw as [|l rw IH]; intros [|m v]; cbn [mulw ncan skipn]; auto.
  destruct (eqb m (back l)); cbn [skipn]; auto.
Qed.
Lemma ncan_le rw v : ncan rw v <= length rw /\ ncan rw v <= length v.
Proof.
  revert v. induction rw as [|l rw IH]; intros [|m v]; cbn [ncan length]; try lia.
  destruct (eqb m (back l)); [|lia]. specialize (IH v). lia.
Qed.
Lemma mulw_ho rw v : homotopic (mulw rw v) (rev rw ++ v).
Proof.
  revert v. induction rw as [|l rw IH]; intros [|m v]; cbn [mulw]; try apply ho_refl.
  destruct (eqb m (back l)) eqn:E; [|apply ho_refl]. apply (eqb_ok m) in E. subst m.
  eapply ho_trans; [apply IH|]. cbn [rev]. rewrite <- app_assoc. cbn. apply ho_sym, ho_back.
Qed.
Lemma mulw_nil_r rw : mulw rw nil = rev rw.
Proof. destruct rw; cbn [mulw]; now rewrite app_nil_r. Qed.
Lemma mulw_winv w : mulw (rev w) (winv w) = nil.
Proof.
  unfold winv. induction (rev w) as [|l r IH]; [reflexivity|].
  cbn [map mulw]. now rewrite eqb_refl.
Qed.

(** ** reduced words *)
Definition act (l : step) (v : list step) : list step :=
  match v with m :: v' => if eqb m (back l) then v' else l :: v | nil => [l] end.
Definition actw (w v : list step) : list step := fold_right act v w.
Lemma reduced_tl (l : step) w : reduced (l :: w) -> reduced w.
Proof. intros H (u & m & v & ->). apply H. now exists (l :: u), m, v. Qed.
Lemma reduced_cons (l : step) w : reduced w -> (forall v, w <> back l :: v) -> reduced (l :: w).
Proof.
  intros H N (u & m & v & E). destruct u as [|x u]; cbn in E; inversion E; subst.
  - now apply (N v).
  - apply H. now exists u, m, v.
Qed.
Lemma reduced_head (l : step) v : ~ reduced (l :: back l :: v).
Proof. intros H. apply H. now exists nil, l, v. Qed.
Lemma reduced_nil : @reduced L nil.
Proof. intros (u & l & v & E). destruct u; discriminate. Qed.
Lemma reduced_app_l (u v : list step) : reduced (u ++ v) -> reduced u.
Proof. intros H (a & l & b & ->). apply H. exists a, l, (b ++ v). now rewrite <- !app_assoc. Qed.
Lemma act_reduced l v : reduced v -> reduced (act l v).
Proof.
  intros H. unfold act. destruct v as [|m v].
  - apply reduced_cons; [exact H | discriminate].
  - destruct (eqb m (back l)) eqn:E; [now apply reduced_tl in H|].
    apply reduced_cons; [exact H|]. intros v' X. inversion X. subst. now rewrite eqb_refl in E.
Qed.
Lemma actw_reduced w v : reduced v -> reduced (actw w v).
Proof. intros H. induction w; cbn; auto using act_reduced. Qed.
Lemma act_back l v : reduced v -> act l (act (back l) v) = v.
Proof.
  intros H. unfold act at 2. destruct v as [|m v].
  - cbn [act]. now rewrite eqb_refl.
  - rewrite back_back. destruct (eqb m l) eqn:E.
    + apply (eqb_ok m) in E. subst m. unfold act. destruct v as [|m v]; [reflexivity|].
      destruct (eqb m (back l)) eqn:E; [|reflexivity]. apply (eqb_ok m) in E. subst m.
      now apply reduced_head in H.
    + cbn [act]. now rewrite eqb_refl.
Qed.
Lemma actw_act l u z : reduced z -> actw (act l u) z = act l (actw u z).
Proof.
  intros H. unfold act at 1. destruct u as [|m u]; [reflexivity|].
  destruct (eqb m (back l)) eqn:E; [|reflexivity]. apply (eqb_ok m) in E. subst m.
  cbn [actw fold_right]. symmetry. apply act_back. now apply actw_reduced.
Qed.
Lemma actw_assoc x y z : reduced z -> actw (actw x y) z = actw x (actw y z).
Proof.
  intros H. induction x as [|l x IH]; [reflexivity|].
  cbn [actw fold_right] in *. etransitivity; [apply actw_act; exact H|]. f_equal. exact IH.
Qed.
Lemma actw_app u v z : actw (u ++ v) z = actw u (actw v z).
Proof. unfold actw. apply fold_right_app. Qed.
Lemma actw_plain u v : reduced (u ++ v) -> actw u v = u ++ v.
Proof.
  induction u as [|l u IH]; intros H; [reflexivity|].
  cbn [actw fold_right app] in *. change (act l (actw u v) = l :: u ++ v).
  rewrite IH by now apply reduced_tl in H. unfold act. destruct (u ++ v) as [|m t] eqn:E; [reflexivity|].
  destruct (eqb m (back l)) eqn:X; [|reflexivity]. apply (eqb_ok m) in X. subst m. now apply reduced_head in H.
Qed.
Lemma reduced_snoc_app u (l m : step) v : reduced (u ++ [l]) -> reduced (m :: v) -> m <> back l -> reduced (u ++ l :: m :: v).
Proof.
  induction u as [|x u IH]; intros A B N.
  - cbn. apply reduced_cons; [exact B|]. intros t E. now inversion E.
  - cbn in *. apply reduced_cons; [apply IH; auto; now apply reduced_tl in A|].
    intros t E. destruct u as [|y u]; cbn in E; inversion E; subst; now apply reduced_head in A.
Qed.
Lemma mulw_actw rw v : reduced (rev rw) -> reduced v -> mulw rw v = actw (rev rw) v.
Proof.
  revert v. induction rw as [|l rw IH]; intros v A B; [reflexivity|].
  destruct v as [|m v].
  - rewrite mulw_nil_r. symmetry. etransitivity; [apply actw_plain; now rewrite app_nil_r|]. apply app_nil_r.
  - cbn [mulw rev] in *. rewrite actw_app. cbn [actw fold_right act].
    destruct (eqb m (back l)) eqn:E.
    + apply IH; [now apply reduced_app_l in A | now apply reduced_tl in B].
    + symmetry. rewrite <- app_assoc. cbn [app].
      apply actw_plain. apply reduced_snoc_app; auto. now apply eqb_neq.
Qed.
(** normal forms *)
Lemma ho_actw u v : homotopic u v -> forall z, reduced z -> actw u z = actw v z.
Proof.
  induction 1; intros z Z; [reflexivity | symmetry; now apply IHhomotopic | rewrite IHhomotopic1, IHhomotopic2; auto |].
  rewrite !actw_app. f_equal. cbn [actw fold_right]. apply act_back. now apply actw_reduced.
Qed.
Lemma ho_reduced_eq (u v : list step) : homotopic u v -> reduced u -> reduced v -> u = v.
Proof.
  intros Ho A B. pose proof (ho_actw _ _ Ho nil reduced_nil) as E.
  rewrite !actw_plain in E by now rewrite app_nil_r. now rewrite !app_nil_r in E.
Qed.
Lemma act_ho l v : homotopic (act l v) (l :: v).
Proof.
  unfold act. destruct v as [|m v]; [apply ho_refl|]. destruct (eqb m (back l)) eqn:E; [|apply ho_refl].
  apply (eqb_ok m) in E. subst m. apply ho_sym. apply (ho_back nil l v).
Qed.
Lemma actw_ho w v : homotopic (actw w v) (w ++ v).
Proof.
  induction w as [|l w IH]; [apply ho_refl|]. cbn [actw fold_right app].
  eapply ho_trans; [apply act_ho|]. apply (ho_app [l]). exact IH.
Qed.

(** ** walks *)
Lemma walk_app p u v r : walk p (u ++ v) r <-> exists q, walk p u q /\ walk q v r.
Proof.
  revert p. induction u as [|[a b] u IH]; intros p; cbn.
  - split; [intros W; now exists p | intros (q & -> & W); exact W].
  - rewrite IH. split; [intros (A & B & q & C & D) | intros (q & (A & B & C) & D)]; eauto 6.
Qed.
Lemma walk_end p w q q' : walk p w q -> walk p w q' -> q = q'.
Proof. revert p. induction w as [|[a b] w IH]; cbn; intros p A B; [congruence|]. now apply (IH (fst b)). Qed.
Hypothesis Sym : symmetric opp.
Lemma walk_winv p w q : walk p w q -> walk q (winv w) p.
Proof.
  revert p. induction w as [|[a b] w IH]; intros p A; [cbn in *; congruence|].
  cbn in A. destruct A as (<- & G & A). rewrite winv_cons. apply walk_app. exists (fst b). split; [now apply IH|].
  cbn. repeat split. now apply Sym.
Qed.
Lemma glued_fun a b c : glued a b -> glued a c -> b = c.
Proof. unfold SGroup.glued. intros A B. rewrite A in B. now inversion B. Qed.

(** ** paths *)
Lemma final_word p w q : walk p w q -> final (p :: map (fun l => fst (snd l)) w) = Ok q.
Proof.
  unfold final. revert p q. induction w as [|[a b] w IH] using rev_ind; intros p q W; cbn in *.
  - now rewrite W.
  - apply walk_app in W. destruct W as (r & W & A & B & C). cbn in C.
    rewrite map_app, rev_app_distr. cbn. now rewrite C.
Qed.
Lemma check_word w : walk base w base -> path_check base (of_word base w) = Ok tt.
Proof.
  intros W. unfold path_check, of_word. cbn [polys_ edges_ edges_rev length].
  rewrite !map_length. cbn [Nat.sub]. rewrite Nat.sub_0_r, Nat.eqb_refl. cbn [andb negb first].
  rewrite (final_word _ _ _ W). now rewrite !eqb_refl.
Qed.
Lemma make_word w ps es rs : walk base w base -> Path ps es rs = of_word base w -> make_path base ps es rs = Ok (of_word base w).
Proof. intros W E. unfold make_path. now rewrite E, (check_word _ W). Qed.

Lemma is_loop_fun x w v : is_loop opp base x w -> is_loop opp base x v -> w = v.
Proof.
  intros [A E] [B E']. rewrite E in E'. clear E x. unfold of_word in E'. injection E' as E1 E2 _.
  revert v A B E1 E2. generalize base at 1 3. induction w as [|[a b] w IH]; intros p [|[c d] v] A B E1 E2; try discriminate; auto.
  cbn in *. destruct A as (A1 & A2 & A3), B as (B1 & B2 & B3).
  assert (E : a = c). { inversion E2. destruct a, c. cbn in *. congruence. }
  subst c. pose proof (glued_fun _ _ _ A2 B2). subst d. f_equal. apply (IH (fst b)); auto; congruence.
Qed.

Lemma firstn_map {A B} (f : A -> B) n l : firstn n (map f l) = map f (firstn n l).
Proof. revert n. induction l; intros [|n]; cbn; congruence. Qed.
Lemma skipn_map {A B} (f : A -> B) n l : skipn n (map f l) = map f (skipn n l).
Proof. revert n. induction l; intros [|n]; cbn; congruence. Qed.
Lemma rev_skip {A} (w : list A) i : rev (skipn i (rev w)) = firstn (length w - i) w.
Proof. rewrite skipn_rev, rev_involutive. reflexivity. Qed.

Lemma mul_word w v : walk base w base -> walk base v base ->
  cancelled (rev (map (fun l => snd (fst l)) w)) (map (fun l => snd (snd l)) v) = ncan (rev w) v ->
  mul base (of_word base w) (of_word base v) =
  make_path base (polys_ (of_word base (mulw (rev w) v))) (edges_ (of_word base (mulw (rev w) v))) (edges_rev (of_word base (mulw (rev w) v))).
Proof.
  intros W V C. unfold mul, of_word at 1 2. rewrite (final_word _ _ _ W). cbn [first]. rewrite eqb_refl. cbn [negb].
  rewrite C. rewrite mulw_skip, rev_skip. set (i := ncan (rev w) v).
  assert (I : i <= length w). { pose proof (ncan_le (rev w) v). rewrite rev_length in *. fold i in H. lia. }
  unfold of_word. cbn [polys_ edges_ edges_rev length]. rewrite !map_length.
  rewrite (Nat.sub_succ_l _ _ I), Nat.add_1_r. cbn [firstn skipn].
  now rewrite !firstn_map, !skipn_map, !map_app.
Qed.
Lemma walk_mulw rw v p q r : walk p (rev rw) q -> walk q v r -> walk p (mulw rw v) r.
Proof.
  revert q v. induction rw as [|l rw IH]; intros q v A B.
  - cbn in *. now rewrite A.
  - assert (X : walk p (rev (l :: rw) ++ v) r) by (apply walk_app; now exists q).
    destruct v as [|m v]; [exact X|]. cbn [mulw]. destruct (eqb m (back l)) eqn:E; [|exact X].
    apply (eqb_ok m) in E. subst m. cbn [rev] in A. apply walk_app in A. destruct A as (q' & A & A').
    destruct l as [a b]. cbn in A', B. apply (IH q'); auto. now destruct A' as (<- & _), B as (_ & _ & B).
Qed.
Lemma cancel_dist rw v p q r : distinguishing opp -> walk p (rev rw) q -> walk q v r ->
  cancelled (map (fun l => snd (fst l)) rw) (map (fun l => snd (snd l)) v) = ncan rw v.
Proof.
  intros D. revert q v. induction rw as [|[[a e] [b j]] rw IH]; intros q [|[[b' j'] [a' e']] v] A B; try reflexivity.
  cbn [map cancelled ncan rev fst snd back] in *. apply walk_app in A. destruct A as (q' & A & A').
  cbn [SGroup.walk fst snd] in A', B. destruct A' as (-> & G & Q), B as (B1 & G' & B). subst q b'.
  destruct (Nat.eqb_spec e e') as [<-|N].
  - assert (a' = q') by (eapply (D a' q' e b j' j); [apply Sym|]; eauto). subst a'.
    pose proof (glued_fun _ _ _ G (Sym _ _ G')) as E. inversion E. subst j'.
    rewrite eqb_refl. f_equal. now apply (IH q').
  - destruct (eqb _ _) eqn:E; [|reflexivity]. apply (proj1 (eqb_ok _ _)) in E. inversion E. congruence.
Qed.
Lemma cancel_rev w : cancelled (rev (map (fun l : step => snd (fst l)) w)) (map (fun l : step => snd (snd l)) (winv w)) = ncan (rev w) (winv w).
Proof.
  rewrite <- map_rev. unfold winv. induction (rev w) as [|l r IH]; [reflexivity|].
  cbn [map cancelled ncan back snd fst]. rewrite eqb_refl, Nat.eqb_refl. now f_equal.
Qed.
Lemma rev_polys w p q : walk p w q ->
  rev (map (fun l : step => fst (snd l)) w) ++ [p] = q :: map (fun l : step => fst (fst l)) (rev w).
Proof.
  revert p. induction w as [|[a b] w IH]; intros p V; cbn in *; [now rewrite V|].
  destruct V as (<- & _ & V). now rewrite (IH _ V), map_app.
Qed.
Lemma invert_word w : walk base w base -> invert base (of_word base w) = Ok (of_word base (winv w)).
Proof.
  intros W. apply make_word; [now apply walk_winv|].
  unfold of_word. cbn [polys_ edges_ edges_rev rev]. rewrite (rev_polys _ _ _ W). unfold winv.
  rewrite !map_map, <- !map_rev. reflexivity.
Qed.
Lemma mul_inverse w : walk base w base -> mul base (of_word base w) (of_word base (winv w)) = Ok (one base).
Proof.
  intros W. rewrite mul_word; auto using walk_winv, cancel_rev. rewrite mulw_winv. change (one base) with (of_word base nil). now apply make_word.
Qed.
Lemma mul_dist w v : distinguishing opp -> walk base w base -> walk base v base ->
  mul base (of_word base w) (of_word base v) = Ok (of_word base (mulw (rev w) v)) /\ walk base (mulw (rev w) v) base.
Proof.
  intros D W V. rewrite <- (rev_involutive w) in W. pose proof (walk_mulw _ _ _ _ _ W V) as X. split; [|exact X].
  rewrite mul_word; auto; [|now rewrite rev_involutive in W|].
  - apply make_word; [exact X|reflexivity].
  - rewrite <- map_rev. eapply cancel_dist; eauto.
Qed.
End G.
