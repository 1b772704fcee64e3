(** Theorems C38: cached methods of surfaces. *)
From Coq Require Import List Bool ZArith Lia.
From Verif Require Import MBase MDict PDict MMut SMut PMut PMut2 PMut3 TMut MCache.
Import ListNotations.

Section T.
Context {P : Type} (nv : P -> nat) {Args Key R : Type} `{EqB Key}.
Variable f : @surf P -> Args -> res R.
Variable key : Args -> Key.

(** the answers of the method without decorator in the same history *)
Fixpoint uncached (es : list (@event P Args)) (s : @surf P) : @surf P * list (res R) :=
  match es with
  | nil => (s, nil)
  | Mutate o :: es => uncached es (fst (run_op nv o s))
  | Call a :: es => (fst (uncached es s), f s a :: snd (uncached es s))
  end.
(** the answer is determined by polygons, gluings and roots *)
Definition depends_on_view := forall s s' a, same_view nv s s' -> f s' a = f s a.
(** arguments with the same key give the same answer *)
Definition key_sound := forall s a b, key a = key b -> f s a = f s b.
(** edge numbers are not negative, and [remove_polygon], [replace_polygon] are not called on an immutable surface *)
Fixpoint admissible (es : list (@event P Args)) (s : @surf P) : Prop :=
  match es with
  | nil => True
  | Mutate o :: es => op_nonneg o /\ (mutable s = false -> no_remove_replace o) /\ admissible es (fst (run_op nv o s))
  | Call a :: es => admissible es s
  end.

Record ok (i : @inst P Key R) : Prop := {
  ok_intact : intact nv (i_surf i);
  ok_mutable : mutable (i_surf i) = true -> i_cache i = nil /\ i_attr i <> CachedCaller;
  ok_cache : mutable (i_surf i) = false -> forall a v, dget (key a) (i_cache i) = Some v -> f (i_surf i) a = Ok v }.

Lemma cached_ok a i : key_sound -> ok i -> mutable (i_surf i) = false -> snd (cached_call f key a i) = f (i_surf i) a /\
  ok (fst (cached_call f key a i)) /\ i_surf (fst (cached_call f key a i)) = i_surf i.
Proof.
  intros KS [I1 I2 I3] Mu. unfold cached_call. destruct (dget (key a) (i_cache i)) as [v|] eqn:E.
  - cbn. split; [symmetry; now apply I3|]. split; [constructor; auto|reflexivity].
  - destruct (f (i_surf i) a) as [v|x] eqn:Ef; cbn; (split; [reflexivity|]; split; [|reflexivity]).
    + constructor; cbn; auto; [congruence|]. intros _ b w Hb. rewrite dget_dset in Hb. destruct (eqb (key b) (key a)) eqn:K; [|now apply I3].
      apply (eqb_ok (key b) (key a)) in K. injection Hb as <-. rewrite (KS _ _ _ K). exact Ef.
    + constructor; auto.
Qed.
Lemma call_ok a i : key_sound -> ok i -> snd (call_method f key a i) = f (i_surf i) a /\ ok (fst (call_method f key a i)) /\
  i_surf (fst (call_method f key a i)) = i_surf i.
Proof.
  intros KS O. pose proof O as [I1 I2 I3]. destruct i as [s at_ c]. cbn [i_surf i_attr i_cache] in *.
  destruct (mutable s) eqn:Mu.
  - destruct (I2 eq_refl) as [-> N].
    assert (O' : ok (Inst s SurfaceCaller nil)) by (constructor; cbn; auto; [split; auto; discriminate|congruence]).
    unfold call_method, descriptor_get, surface_call. destruct at_; cbn [i_attr i_surf i_cache]; rewrite ?Mu; cbn [i_attr i_surf i_cache]; rewrite ?Mu; auto. congruence.
  - assert (O' : ok (Inst s CachedCaller c)) by (constructor; cbn; auto; congruence).
    destruct (cached_ok a _ KS O' Mu) as [A [B C]]. cbn [i_surf] in *.
    unfold call_method, descriptor_get, surface_call. destruct at_; cbn [i_attr i_surf i_cache]; rewrite ?Mu; cbn [i_attr i_surf i_cache]; rewrite ?Mu; auto.
Qed.
Lemma mutate_ok o i : depends_on_view -> ok i -> op_nonneg o -> (mutable (i_surf i) = false -> no_remove_replace o) ->
  ok (Inst (fst (run_op nv o (i_surf i))) (i_attr i) (i_cache i)).
Proof.
  intros DV [I1 I2 I3] NN NR. assert (I' : intact nv (fst (run_op nv o (i_surf i)))).
  { apply intact_op; auto. destruct o; cbn in *; tauto. }
  destruct (mutable (i_surf i)) eqn:Mu.
  - destruct (I2 eq_refl) as [E N]. constructor; cbn; auto. intros _ a v X. rewrite E in X. discriminate.
  - destruct (immutable_step nv (i_surf i) o I1 Mu (NR eq_refl)) as [V [_ Mu']].
    constructor; cbn; auto; [congruence|]. intros _ a v X. rewrite (DV _ _ a V). now apply I3.
Qed.

Lemma history_ok es : depends_on_view -> key_sound -> forall i, ok i -> admissible es (i_surf i) ->
  snd (history nv f key es i) = snd (uncached es (i_surf i)) /\ i_surf (fst (history nv f key es i)) = fst (uncached es (i_surf i)) /\
  ok (fst (history nv f key es i)).
Proof.
  intros DV KS. induction es as [|[o|a] es IH]; intros i O A; cbn [history uncached step].
  - auto.
  - cbn [admissible] in A. destruct A as [A1 [A2 A3]]. pose proof (mutate_ok o i DV O A1 A2) as O'.
    destruct (IH _ O' A3) as [B [C D]]. destruct (history nv f key es _) as [i' rs]. cbn in *. auto.
  - cbn [admissible] in A. destruct (call_ok a i KS O) as [B [O' C]]. destruct (call_method f key a i) as [i' r]. cbn [fst snd] in *. subst r.
    rewrite <- C in A. destruct (IH i' O' A) as [D [E F]]. destruct (history nv f key es i') as [i'' rs]. cbn in *. rewrite C in D, E. split; [congruence|auto].
Qed.
Lemma fresh_ok s : intact nv s -> ok (Inst s NoCaller nil).
Proof. intros I. constructor; cbn; auto; [split; auto; discriminate|discriminate]. Qed.

(** In every history of mutations and calls, every call of the cached method gives the answer that the undecorated method
    gives for the current state of the surface. Missing: histories in which [remove_polygon] or [replace_polygon] is called
    on the surface after it was made immutable, see the refutation below. *)
Theorem C38_cache_partial es s : depends_on_view -> key_sound -> intact nv s -> admissible es s ->
  snd (history nv f key es (Inst s NoCaller nil)) = snd (uncached es s) /\
  i_surf (fst (history nv f key es (Inst s NoCaller nil))) = fst (uncached es s).
Proof. intros DV KS I A. destruct (history_ok es DV KS _ (fresh_ok s I) A) as [B [C _]]. auto. Qed.
(** while the surface is mutable nothing is stored *)
Theorem C38_mutable_not_cached es s : depends_on_view -> key_sound -> intact nv s -> admissible es s ->
  let i := fst (history nv f key es (Inst s NoCaller nil)) in mutable (i_surf i) = true -> i_cache i = nil.
Proof. intros DV KS I A i Mu. destruct (history_ok es DV KS _ (fresh_ok s I) A) as [_ [_ [_ X _]]]. now apply X. Qed.
End T.
Print Assumptions C38_cache_partial.
Print Assumptions C38_mutable_not_cached.

(** *** examples: polygons are pairs of a number of edges and a name *)
Definition ex_opposite (s : @surf (nat * nat)) (x : hedge) : res (option hedge) := opposite_edge s (fst x) (snd x).
Lemma ex_opposite_view : depends_on_view fst ex_opposite.
Proof. intros s s' a [_ V _]. apply V. Qed.
Definition ex_events : list (@event (nat * nat) hedge) :=
  [Mutate (OpAdd (4, 7)%nat None); Call (0, 1)%Z; Mutate (OpGlue (0, 1)%Z (0, 3)%Z); Call (0, 1)%Z; Mutate OpSetImmutable;
   Call (0, 1)%Z; Mutate (OpUnglue 0%Z 1%Z); Call (0, 1)%Z; Call (0, 0)%Z].
Example ex_events_ok : key_sound ex_opposite (fun x => x) /\ admissible fst ex_events empty /\
  snd (history fst ex_opposite (fun x => x) ex_events (Inst empty NoCaller nil)) =
    [Ok None; Ok (Some (0, 3)%Z); Ok (Some (0, 3)%Z); Ok (Some (0, 3)%Z); Ok None] /\
  length (i_cache (fst (history fst ex_opposite (fun x => x) ex_events (Inst empty NoCaller nil)))) = 2%nat.
Proof.
  split; [intros s a b ->; reflexivity|]. split; [|split; vm_compute; reflexivity].
  cbn. repeat split; try lia; try discriminate.
Qed.
(** stale answers: both mutators that work on immutable surfaces *)
Theorem C38_stale_replace_refuted : exists es : list (@event (nat * nat) label),
  snd (history fst get_polygon (fun x => x) es (Inst empty NoCaller nil)) <> snd (uncached fst get_polygon es empty).
Proof.
  exists [Mutate (OpAdd (4, 0)%nat None); Mutate OpSetImmutable; Call 0%Z; Mutate (OpReplace 0%Z (4, 1)%nat); Call 0%Z].
  vm_compute. discriminate.
Qed.
Print Assumptions C38_stale_replace_refuted.
Theorem C38_stale_remove_refuted : exists es : list (@event (nat * nat) hedge),
  snd (history fst ex_opposite (fun x => x) es (Inst empty NoCaller nil)) <> snd (uncached fst ex_opposite es empty).
Proof.
  exists [Mutate (OpAdd (4, 0)%nat None); Mutate OpSetImmutable; Call (0, 0)%Z; Mutate (OpRemove 0%Z); Call (0, 0)%Z].
  vm_compute. discriminate.
Qed.
Print Assumptions C38_stale_remove_refuted.
