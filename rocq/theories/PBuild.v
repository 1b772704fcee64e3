(** Building surfaces by adding polygons and gluing edges. *)
From Coq Require Import List Bool ZArith Lia Relations.
From Verif Require Import MBase MDict PDict MMut SMut PMut PMut2 PMut3 PGlue.
Import ListNotations.
Local Open Scope Z_scope.

(** ** loops *)
Lemma mfor_app {S A} (f : A -> M S unit) l l' s : mfor (l ++ l') f s = mbind (mfor l f) (fun _ => mfor l' f) s.
Proof.
  revert s. induction l as [|x l IH]; intros s; cbn [app mfor]; [reflexivity|].
  unfold mbind. destruct (f x s) as [s1 [u|e]]; auto. rewrite IH. reflexivity.
Qed.
Lemma mfor_flat {S A B} (g : A -> list B) (f : B -> M S unit) l s : mfor l (fun x => mfor (g x) f) s = mfor (flat_map g l) f s.
Proof.
  revert s. induction l as [|x l IH]; intros s; cbn [mfor flat_map]; [reflexivity|].
  rewrite mfor_app. unfold mbind. destruct (mfor (g x) f s) as [s1 [u|e]]; auto.
Qed.
Lemma mfor_ext {S A} (f g : A -> M S unit) l s : (forall x s, In x l -> f x s = g x s) -> mfor l f s = mfor l g s.
Proof.
  revert s. induction l as [|x l IH]; intros s E; cbn [mfor]; [reflexivity|].
  unfold mbind. rewrite E by (cbn; auto). destruct (g x s) as [s1 [u|e]]; auto. apply IH. intros; apply E; cbn; auto.
Qed.
Lemma mfor_one {S A} (f : A -> M S unit) x s : mfor [x] f s = f x s.
Proof. cbn [mfor]. unfold mbind. destruct (f x s) as [s1 [[]|e]]; reflexivity. Qed.
Lemma mfor_map {S A B} (g : A -> B) (f : B -> M S unit) l s : mfor (map g l) f s = mfor l (fun x => f (g x)) s.
Proof. revert s. induction l as [|x l IH]; intros s; cbn [map mfor]; [reflexivity|]. unfold mbind. destruct (f (g x) s) as [s1 [u|e]]; auto. Qed.
Lemma mfor_opt {S A B} (o : A -> option B) (f : B -> M S unit) l s :
  mfor l (fun x => match o x with None => mret tt | Some y => f y end) s =
  mfor (flat_map (fun x => match o x with None => nil | Some y => [y] end) l) f s.
Proof.
  rewrite <- (mfor_flat (fun x => match o x with None => nil | Some y => [y] end)). apply mfor_ext. intros x s1 _. destruct (o x); [now rewrite mfor_one|reflexivity].
Qed.
Lemma mbind_ok {S A B} (m : M S A) (f : A -> M S B) st st1 v : m st = (st1, Ok v) -> mbind m f st = f v st1.
Proof. intros E. unfold mbind. now rewrite E. Qed.
Lemma mbind_err {S A B} (m : M S A) (f : A -> M S B) st st1 x : m st = (st1, Err x) -> mbind m f st = (st1, Err x).
Proof. intros E. unfold mbind. now rewrite E. Qed.

Section Build.
Context {P : Type} (nv : P -> nat).
Notation surf := (@surf P).

(** ** programs that only call the public mutators *)
Definition preserves {A} (m : M surf A) := forall s, reachable nv s -> reachable nv (fst (m s)).
Lemma pres_bind {A B} (m : M surf A) (f : A -> M surf B) : preserves m -> (forall a, preserves (f a)) -> preserves (mbind m f).
Proof. intros X Y s R. unfold mbind. specialize (X s R). destruct (m s) as [s1 [a|e]]; cbn in *; auto. apply Y, X. Qed.
Lemma pres_ret {A} (a : A) : preserves (mret a). Proof. intros s R; exact R. Qed.
Lemma pres_raise {A} e : preserves (@mraise surf A e). Proof. intros s R; exact R. Qed.
Lemma pres_lift {A} (r : res A) : preserves (mlift r). Proof. intros s R; exact R. Qed.
Lemma pres_get : preserves mget. Proof. intros s R; exact R. Qed.
Lemma pres_read {A} (f : surf -> res A) : preserves (mread f). Proof. intros s R; exact R. Qed.
Lemma pres_assert b : preserves (@massert surf b). Proof. intros s R. destruct b; exact R. Qed.
Lemma pres_for {A} (f : A -> M surf unit) l : (forall x, In x l -> preserves (f x)) -> preserves (mfor l f).
Proof.
  induction l as [|x l IH]; intros X; cbn [mfor]; [apply pres_ret|]. apply pres_bind; [apply X; cbn; auto|].
  intros _. apply IH. intros; apply X; cbn; auto.
Qed.
Lemma pres_op o : op_nonneg o -> preserves (run_op nv o).
Proof.
  intros N s [ops [F ->]]. exists (ops ++ [o]). split; [apply Forall_app; auto|]. now rewrite run_app.
Qed.
Lemma pres_add p lab : preserves (add_polygon nv p lab).
Proof.
  intros s R. pose proof (pres_op (OpAdd p lab) I s R) as X. cbn in X. destruct (add_polygon nv p lab s) as [s1 [a|e]]; exact X.
Qed.
Lemma pres_remove l : preserves (remove_polygon nv l). Proof. exact (pres_op (OpRemove l) I). Qed.
Lemma pres_glue x y : 0 <= snd x -> 0 <= snd y -> preserves (glue nv x y). Proof. intros X Y. exact (pres_op (OpGlue x y) (conj X Y)). Qed.
Lemma pres_unglue l e : 0 <= e -> preserves (unglue nv l e). Proof. intros X. exact (pres_op (OpUnglue l e) X). Qed.
Lemma pres_set_root r : preserves (set_root nv r). Proof. exact (pres_op (OpSetRoot r) I). Qed.
Lemma pres_set_roots rs : preserves (set_roots nv rs). Proof. exact (pres_op (OpSetRoots rs) I). Qed.
Lemma pres_replace l p : preserves (replace_polygon nv l p). Proof. exact (pres_op (OpReplace l p) I). Qed.
Lemma pres_immutable : preserves (set_immutable nv). Proof. exact (pres_op OpSetImmutable I). Qed.

(** ** removing all polygons *)
Lemma remove_all ls : forall s, good nv s -> mutable s = true -> NoDup ls -> (forall l, In l ls <-> In l (keys (polys s))) ->
  mfor ls (remove_polygon nv) s = (Surf nil nil nil (next_label s) true (connected s), Ok tt).
Proof.
  induction ls as [|l ls IH]; intros s G Mu ND K.
  - cbn. destruct (g_inv nv s G) as [_ _ A _ _ B]. destruct s as [ps gs rs n mu c]. cbn in *. subst mu.
    assert (ps = nil) as -> by (destruct ps as [|[k p] ps]; auto; destruct (proj2 (K k)); cbn; auto).
    assert (gs = nil) as ->.
    { destruct gs as [|[k g] gs]; auto. destruct (A k g) as [p [X _]]; [cbn; now rewrite Z.eqb_refl|discriminate]. }
    assert (rs = nil) as -> by (destruct rs as [|r rs]; auto; destruct (B r); cbn; auto).
    reflexivity.
  - cbn [mfor]. pose proof (g_inv nv s G) as Iv.
    destruct (remove_polygon_spec nv s l Iv) as [s1 [r [E [I1 [M1 [C1 [N1 [S1 [_ [_ L1]]]]]]]]]].
    assert (Kl : In l (keys (gluings s))) by (apply (g_tot nv s G), K; cbn; auto).
    destruct (L1 Kl) as [_ [L2 _]]. destruct (L2 Mu) as [-> [PE _]].
    rewrite (mbind_ok _ _ _ _ _ E).
    assert (G1 : good nv s1).
    { apply (good_frame nv s); auto; [congruence|apply S1, (g_sep nv s G)]. }
    inversion ND; subst. rewrite IH; auto; [congruence|congruence|].
    intros k. rewrite PE. split.
    + intros Hk. assert (k <> l) by (intros ->; auto). apply dget_keys. rewrite dget_ddel by apply (i_np nv s Iv).
      rewrite (proj2 (eqb_neq k l)) by auto. apply dget_keys, K. cbn. auto.
    + intros Hk. apply dget_keys in Hk. rewrite dget_ddel in Hk by apply (i_np nv s Iv).
      destruct (eqb_case k l) as [[Q ->]|[Q NQ]]; rewrite Q in Hk; [destruct Hk; discriminate|].
      apply dget_keys, K in Hk. destruct Hk; congruence.
Qed.

(** ** adding polygons with given labels *)
Definition add_item (lp : label * P) : M surf unit := mbind (add_polygon nv (snd lp) (Some (fst lp))) (fun _ => mret tt).
Lemma add_list items : forall s, inv nv s -> mutable s = true -> sep s -> NoDup (map fst items) ->
  (forall l, In l (map fst items) -> ~ In l (keys (polys s))) ->
  exists s', mfor items add_item s = (s', Ok tt) /\ inv nv s' /\ mutable s' = true /\ connected s' = connected s /\ sep s' /\
    polys s' = polys s ++ items /\ (forall y, gz (gluings s') y = gz (gluings s) y) /\
    roots_ s' = match roots_ s with nil => nil | rs => rs ++ map fst items end.
Proof.
  induction items as [|[l p] items IH]; intros s Iv Mu SE ND FR.
  - exists s. cbn. split; [reflexivity|]. do 4 (split; [auto|]). split; [now rewrite app_nil_r|]. split; [auto|].
    destruct (roots_ s); auto. now rewrite app_nil_r.
  - cbn [mfor map fst] in *. inversion ND as [|? ? Nl ND']; subst.
    destruct (add_polygon_spec nv s p (Some l) Iv) as [s1 [r [E [I1 [M1 [C1 [S1 [G1 [_ Q]]]]]]]]].
    destruct (Q Mu) as [[l' [-> [NK [El [_ [PE RE]]]]]]|[l' [[= <-] [X _]]]].
    2:{ exfalso. apply (FR l); cbn; auto. }
    rewrite (El l eq_refl) in *. clear El.
    assert (EI : add_item (l, p) s = (s1, Ok tt)) by (unfold add_item; cbn [fst snd]; rewrite (mbind_ok _ _ _ _ _ E); reflexivity).
    destruct (IH s1) as [s2 [E2 [I2 [M2 [C2 [S2 [P2 [G2 R2]]]]]]]]; auto; [congruence| |].
    { intros k Hk. rewrite PE. unfold keys. rewrite map_app, in_app_iff. cbn. intros [X|[<-|[]]]; [apply (FR k); cbn; auto|auto]. }
    exists s2. split; [now rewrite (mbind_ok _ _ _ _ _ EI)|].
    split; [auto|]. split; [auto|]. split; [congruence|]. split; [auto|].
    split; [now rewrite P2, PE, <- app_assoc|]. split; [intros y; now rewrite G2|].
    rewrite R2, RE. destruct (roots_ s); auto. cbn. now rewrite <- app_assoc.
Qed.
(** ... a label that is used twice is an error *)
Lemma add_list_clash items : forall s, inv nv s -> mutable s = true -> sep s -> NoDup (keys (polys s)) ->
  ~ NoDup (keys (polys s) ++ map fst items) ->
  exists s', mfor items add_item s = (s', Err ValueError).
Proof.
  induction items as [|[l p] items IH]; intros s Iv Mu SE NK ND; cbn [map fst mfor] in *.
  - rewrite app_nil_r in ND. tauto.
  - destruct (add_polygon_spec nv s p (Some l) Iv) as [s1 [r [E [I1 [M1 [C1 [S1 [G1 [_ Q]]]]]]]]].
    destruct (Q Mu) as [[l' [-> [Nl [El [_ [PE RE]]]]]]|[l' [[= <-] [X [-> ->]]]]].
    2:{ exists s. rewrite (mbind_err _ _ s s ValueError); auto. unfold add_item. cbn [fst snd]. now apply mbind_err. }
    rewrite (El l eq_refl) in *. clear El.
    assert (EI : add_item (l, p) s = (s1, Ok tt)) by (unfold add_item; cbn [fst snd]; rewrite (mbind_ok _ _ _ _ _ E); reflexivity).
    assert (KE : keys (polys s1) = keys (polys s) ++ [l]) by (rewrite PE; unfold keys; now rewrite map_app).
    destruct (IH s1) as [s2 E2]; auto; [congruence|apply (i_np nv s1 I1)| |].
    + rewrite KE, <- app_assoc. exact ND.
    + exists s2. now rewrite (mbind_ok _ _ _ _ _ EI).
Qed.

(** ** gluing a symmetric list of pairs *)
Lemma glue_sym ps (s : surf) : inv nv s -> mutable s = true -> sep s -> cov s ->
  (forall z, gz (gluings s) z = None) ->
  (forall x y, In (x, y) ps -> In (y, x) ps) ->
  (forall x y y', In (x, y) ps -> In (x, y') ps -> y = y') ->
  (forall x y, In (x, y) ps -> inrange (gluings s) x) ->
  exists s', mfor ps (fun xy => glue nv (fst xy) (snd xy)) s = (s', Ok tt) /\ inv nv s' /\ frame s s' /\ sep s' /\ cov s' /\
    (roots_ s = nil -> roots_ s' = nil) /\
    forall x y, gz (gluings s') x = Some y <-> In (x, y) ps.
Proof.
  intros Iv Mu SE CO NG SY FU RG.
  set (h := fun x : hedge => match List.find (fun xy => eqb x (fst xy)) ps with Some xy => Some (snd xy) | None => None end).
  assert (Hh : forall x y, h x = Some y <-> In (x, y) ps).
  { intros x y. unfold h. split.
    - destruct (List.find _ ps) as [[x' y']|] eqn:F; [|discriminate]. intros [= <-]. apply find_some in F. cbn [fst snd] in *.
      destruct F as [F1 F2]. apply (eqb_ok x x') in F2. subst. auto.
    - intros X. destruct (List.find _ ps) as [[x' y']|] eqn:F.
      + apply find_some in F. cbn [fst snd] in *. destruct F as [F1 F2]. apply (eqb_ok x x') in F2. subst. f_equal. eapply FU; eauto.
      + pose proof (find_none _ _ F _ X) as Y. cbn [fst] in Y. rewrite eqb_refl in Y. discriminate. }
  destruct (glue_list nv h ps s Iv Mu SE CO) as [s' [E [I' [F [S' [C' [R' G']]]]]]].
  { intros x y X. split; [now apply (RG x y)|]. split; [apply (RG y x); auto|]. split; apply Hh; auto. }
  exists s'. split; [exact E|]. split; [exact I'|]. split; [exact F|]. split; [exact S'|]. split; [exact C'|]. split; [exact R'|].
  intros x y. rewrite G', NG. destruct (touched ps x) eqn:T; [apply Hh|]. split; [discriminate|]. intros X. exfalso.
  assert (touched ps x = true) by (apply touched_In; exists x, y; auto). congruence.
Qed.
End Build.
