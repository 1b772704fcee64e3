(** The surface and the bidict that [triangulate] builds. *)
From Coq Require Import List Bool ZArith Arith Lia Ring Field Permutation.
From Verif Require Import OField FMicromega PField MBase MDict PDict MEuclid SEuclid PEuclid MSim SSim MPoly SPoint PPoly PPoint MMut SMut PMut PMut2 PMut3
  PBuild PCover SCut PSimple PFlip PJordan PJordan2 PJordan3 PJordan4 PJordan5 MEar SEar PEar PEar2 PEar3.
Import ListNotations.

Lemma dupdate_app {A B} `{EqB A} (items d : dict A B) : NoDup (keys d ++ keys items) -> dupdate d items = d ++ items.
Proof.
  revert d. induction items as [|[k x] items IH]; intros d ND; cbn [dupdate fold_left]; [now rewrite app_nil_r|].
  cbn [fst snd]. assert (NI : ~ In k (keys d)) by (intros I; cbn in ND; apply NoDup_remove_2 in ND; apply ND, in_or_app; auto).
  rewrite dset_new by auto. unfold dupdate in IH. rewrite IH, <- app_assoc; auto.
  unfold keys in *. rewrite map_app, <- app_assoc. exact ND.
Qed.
Lemma nodup_app_l {A} (l r : list A) : NoDup (l ++ r) -> NoDup l.
Proof.
  induction l as [|x l IH]; intros N; [constructor|]. cbn in N. apply NoDup_cons_iff in N. destruct N as [NI N]. constructor; auto.
  intros I. apply NI, in_or_app. auto.
Qed.
Lemma distinct_spec {A} `{EqB A} (l : list A) : NoDup l -> distinct l = true.
Proof.
  induction 1 as [|x l NI ND IH]; [reflexivity|]. cbn. rewrite IH, andb_true_r, negb_true_iff. now apply mem_not_In.
Qed.
Lemma nodup_map_on {A B} (f : A -> B) l : NoDup l -> (forall x y, In x l -> In y l -> f x = f y -> x = y) -> NoDup (map f l).
Proof.
  induction 1 as [|x l NI ND IH]; intros H; [constructor|]. cbn. constructor.
  - intros I. apply in_map_iff in I. destruct I as [y [E I]]. apply NI. rewrite <- (H y x); cbn; auto.
  - apply IH. intros y z Iy Iz. apply H; cbn; auto.
Qed.
Lemma dget_nodup {A B} `{EqB A} (d : dict A B) k x : NoDup (keys d) -> (dget k d = Some x <-> In (k, x) d).
Proof. intros ND. split; [apply dget_In|]. now apply In_dget. Qed.

(** the edges of a triangle *)
Definition tedge (t : triple) (e : nat) : nat * nat := match t with (a, b, c) => match e with 0 => (a, b) | 1 => (b, c) | _ => (c, a) end end.
Definition swap2 (g : nat * nat) : nat * nat := (snd g, fst g).
Lemma In_numbered m T t l : In (t, l) (numbered m T) <-> exists i, nth_error T i = Some t /\ l = Z.of_nat (m + i).
Proof.
  unfold numbered. revert m. induction T as [|t' T IH]; intros m; cbn [length seq map combine In].
  - split; [intros []|]. intros [[|i] [E _]]; discriminate.
  - rewrite IH. split.
    + intros [E|[i [E ->]]]; [injection E as -> <-; exists 0%nat; split; [reflexivity|f_equal; lia]|exists (S i); split; [exact E|f_equal; lia]].
    + intros [[|i] [E ->]]; [left; cbn in E; injection E as ->; f_equal; f_equal; lia|right; exists i; split; [exact E|f_equal; lia]].
Qed.
Lemma map_fst_combine {A B} (l : list A) (r : list B) : length l = length r -> map fst (combine l r) = l.
Proof. revert r. induction l as [|x l IH]; intros [|y r] E; try discriminate E; cbn; [auto|]. f_equal. apply IH. now injection E. Qed.
Lemma numbered_keys m T : map fst (numbered m T) = T.
Proof. apply map_fst_combine. now rewrite map_length, seq_length. Qed.

Definition tedges_of (D : dict triple Z) : dict (nat * nat) hedge :=
  (map (fun tl => match tl with ((a, b, c), l) => ((a, b), (l, 0%Z)) end) D ++
   map (fun tl => match tl with ((a, b, c), l) => ((b, c), (l, 1%Z)) end) D) ++
   map (fun tl => match tl with ((a, b, c), l) => ((c, a), (l, 2%Z)) end) D.
Lemma tedges_keys D : Permutation (keys (tedges_of D)) (dedges (map fst D)).
Proof.
  unfold keys, tedges_of. rewrite !map_app, !map_map. induction D as [|[[[a b] c] l] D IH]; [reflexivity|].
  cbn [map fst dedges flat_map tri_edges app]. apply perm_skip. rewrite <- app_assoc. cbn [app].
  eapply perm_trans; [apply Permutation_sym, Permutation_middle|]. apply perm_skip.
  rewrite app_assoc. eapply perm_trans; [apply Permutation_sym, Permutation_middle|]. apply perm_skip. exact IH.
Qed.
Lemma triangle_edges_eq D : NoDup (dedges (map fst D)) -> triangle_edges D = tedges_of D.
Proof.
  intros ND. apply (Permutation_NoDup (Permutation_sym (tedges_keys D))) in ND. unfold triangle_edges, tedges_of in *.
  match goal with |- dupdate (dupdate (dupdate nil ?a) ?b) ?c = _ => generalize dependent c; generalize dependent b; generalize dependent a end. intros A B C ND.
  unfold keys in ND. rewrite !map_app in ND. assert (ND1 : NoDup (map fst A ++ map fst B)) by now apply nodup_app_l in ND.
  assert (ND2 : NoDup (map fst A)) by now apply nodup_app_l in ND1.
  rewrite (dupdate_app A), (dupdate_app B), (dupdate_app C); auto.
  unfold keys. cbn [app]. now rewrite map_app.
Qed.
Lemma tedges_In T g x : In (g, x) (tedges_of (numbered 0 T)) <->
  exists i e t, nth_error T i = Some t /\ (e < 3)%nat /\ g = tedge t e /\ x = (Z.of_nat i, Z.of_nat e).
Proof.
  unfold tedges_of. rewrite !in_app_iff, !in_map_iff. split.
  - intros [[H|H]|H]; destruct H as [[[[a b] c] l] [[= <- <-] I]]; apply In_numbered in I; destruct I as [i [E ->]].
    + exists i, 0%nat, (a, b, c). auto with arith.
    + exists i, 1%nat, (a, b, c). auto with arith.
    + exists i, 2%nat, (a, b, c). auto with arith.
  - intros [i [e [[[a b] c] [E [L [-> ->]]]]]].
    assert (I : In ((a, b, c), Z.of_nat i) (numbered 0 T)) by (apply In_numbered; exists i; auto).
    destruct e as [|[|[|e]]]; [left; left|left; right|right|lia]; exists ((a, b, c), Z.of_nat i); auto.
Qed.

Section G.
Context {K : OField}.
Add Field KFear4 : (of_ft K).
Local Open Scope F_scope.
Notation nv := (@length (vec K) : polygon K -> nat).
Notation surf := (@surf (polygon K)).
Notation gl := (fun xy : hedge * hedge => glue nv (fst xy) (snd xy)).

Definition pairs_of (E : dict (nat * nat) hedge) (g : nat * nat) : list (hedge * hedge) :=
  match dget g E, dget (swap2 g) E with Some x, Some y => [(x, y)] | _, _ => [] end.
Definition outer_of (E : dict (nat * nat) hedge) (g : nat * nat) : dict nat hedge :=
  match dget g E, dget (swap2 g) E with Some x, None => [(fst g, x)] | _, _ => [] end.
Lemma glue_run n (E : dict (nat * nat) hedge) ks : forall outer (s : surf),
  (forall a b, In (a, b) ks -> (exists x, dget (a, b) E = Some x) /\
    (dmem (b, a) E = true <-> ~ (b = (a + 1) mod n \/ a = (b + 1) mod n)%nat)) ->
  NoDup (keys outer ++ keys (flat_map (outer_of E) ks)) ->
  glue_triangles n E ks outer s = mbind (mfor (flat_map (pairs_of E) ks) gl) (fun _ => mret (outer ++ flat_map (outer_of E) ks)) s.
Proof.
  induction ks as [|[a b] ks IH]; intros outer s H ND; [cbn; now rewrite app_nil_r|].
  destruct (H a b (or_introl eq_refl)) as [[x Ex] HA]. cbn [glue_triangles].
  set (adj := ((b =? (a + 1) mod n)%nat || (a =? (b + 1) mod n)%nat)).
  assert (HB : dmem (b, a) E = negb adj).
  { apply eq_true_iff_eq. rewrite HA, negb_true_iff. unfold adj. rewrite orb_false_iff, !Nat.eqb_neq. tauto. }
  assert (HC : negb (eqb (dmem (b, a) E) adj) = true) by (rewrite HB; now destruct adj). rewrite HC. unfold massert.
  rewrite (mbind_ok _ _ s s tt) by reflexivity. rewrite (mbind_ok _ _ s s x) by (unfold mlift; now rewrite (proj2 (dgetE_Ok _ _ _) Ex)).
  cbn [flat_map]. unfold pairs_of at 1, outer_of at 1. unfold swap2. cbn [fst snd]. rewrite Ex.
  assert (HK : forall a b, In (a, b) ks -> (exists x, dget (a, b) E = Some x) /\
    (dmem (b, a) E = true <-> ~ (b = (a + 1) mod n \/ a = (b + 1) mod n)%nat)) by (intros; apply H; now right).
  unfold dmem in HB |- *. destruct (dget (b, a) E) as [y|] eqn:Ey.
  - rewrite (mbind_ok _ _ s s y) by (unfold mlift; now rewrite (proj2 (dgetE_Ok _ _ _) Ey)). cbn [app mfor]. unfold mbind at 1 2 3. cbn [fst snd].
    destruct (glue nv x y s) as [s1 [[]|e]] eqn:G; auto. rewrite IH; auto. cbn [flat_map] in ND. unfold outer_of at 1, swap2 in ND. cbn [fst snd] in ND. now rewrite Ex, Ey in ND.
  - cbn [app]. cbn [flat_map] in ND. unfold outer_of at 1, swap2 in ND. cbn [fst snd] in ND. rewrite Ex, Ey in ND. cbn [app] in ND. 
    assert (NI : ~ In a (keys outer)) by (intros I; cbn in ND; apply NoDup_remove_2 in ND; apply ND, in_or_app; auto).
    rewrite dset_new by auto. rewrite IH; auto.
    + unfold mbind. destruct (mfor _ _ s) as [s1 [u|e]]; auto. now rewrite <- app_assoc.
    + unfold keys in *. rewrite map_app, <- app_assoc. exact ND.
Qed.
End G.
