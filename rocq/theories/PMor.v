(** Proofs about the composition of morphisms. *)
From Coq Require Import List Bool Lia.
From Verif Require Import MBase MDict PDict MMor.
Import ListNotations.
Local Open Scope res_scope.

Section Mor.
Context {S : Type} `{ES : EqB S} {Pt : Type} (par : Pt -> S).
Context {A : Type} (adom acod : A -> S) (own : A -> option A) (img sec : A -> Pt -> res Pt).
Notation simple := (simple S A).
Notation morphism := (morphism S A).
Notation send := (send adom acod).
Notation domain := (domain adom acod).
Notation codomain := (codomain adom acod).
Notation compose := (compose adom acod).
Notation section := (section adom acod own).
Notation ssection := (ssection own).
Notation smap := (smap img sec).
Notation run_all := (run_all img sec).
Notation call := (call par adom acod img sec).

(** the morphisms that a program can get hold of *)
Inductive made : morphism -> Prop :=
| made_id s : made (Simple (IdM s))
| made_atom a : made (Simple (Atom a))
| made_compose f g h : made f -> made g -> compose f g = Ok h -> made h
| made_section f g : made f -> section f = Ok g -> made g.

(** a chain of morphisms from [x] to [y] *)
Fixpoint path (x : S) (ms : list simple) (y : S) : Prop :=
  match ms with nil => x = y | m :: ms => send true m = x /\ path (send false m) ms y end.
(** neither an identity nor a section that [section()] does not build *)
Definition noid (m : simple) : bool :=
  match m with Atom _ => true | Sect (Atom a) => match own a with None => true | Some _ => false end | _ => false end.
Definition good (m : morphism) : Prop :=
  match m with
  | Simple (IdM s) => True
  | Simple m => noid m = true
  | Comp d c ms => path d ms c /\ 2 <= length ms /\ Forall (fun m => noid m = true) ms
  end.
Lemma path_app x ms y ms' z : path x ms y -> path y ms' z -> path x (ms ++ ms') z.
Proof. revert x. induction ms as [|m ms IH]; cbn; intros x; [now intros ->|]. intros [E P] Q. split; auto. Qed.
Lemma path_first x m ms y : path x (m :: ms) y -> send true m = x.
Proof. now intros [E _]. Qed.
Lemma path_last x ms m y : path x (ms ++ [m]) y -> send false m = y.
Proof. revert x. induction ms as [|m' ms IH]; cbn; intros x [E P]; eauto. Qed.

Definition strict (f : morphism) : Prop := path (domain f) (pieces f) (codomain f) /\ pieces f <> nil /\ Forall (fun m => noid m = true) (pieces f).
Lemma good_cases f : good f -> (exists s, f = Simple (IdM s)) \/ (is_id f = false /\ strict f).
Proof.
  destruct f as [[s|a|m]|d c ms]; cbn; intros G; eauto; right; (split; [reflexivity|]).
  - repeat split; cbn; auto; discriminate.
  - repeat split; cbn [pieces]; auto; discriminate.
  - destruct G as (P & L & F). repeat split; cbn; auto. intros ->. cbn in L. lia.
Qed.
Lemma compose_strict f g : strict f -> strict g -> is_id f = false -> is_id g = false -> codomain g = domain f ->
  compose f g = Ok (Comp (domain g) (codomain f) (pieces g ++ pieces f)).
Proof.
  intros (P & N & _) (P' & N' & _) I I' E. unfold MMor.compose. rewrite E, eqb_refl, I, I'. cbn [negb]. unfold composition.
  destruct (pieces g ++ pieces f) as [|m ms] eqn:X; [destruct (pieces g); [congruence|discriminate]|].
  destruct (pieces g) as [|m0 ms0] eqn:Y; [congruence|]. cbn in X. injection X as <- X.
  destruct (exists_last N) as (ms1 & m1 & Z). assert (R : rev (m0 :: ms) = m1 :: rev ((m0 :: ms0) ++ ms1)).
  { rewrite <- X, Z. change (m0 :: ms0 ++ ms1 ++ [m1]) with ((m0 :: ms0) ++ ms1 ++ [m1]). rewrite app_assoc, rev_app_distr. reflexivity. }
  rewrite R. rewrite (path_first _ _ _ _ P'), eqb_refl. rewrite Z in P. rewrite (path_last _ _ _ _ P), eqb_refl. reflexivity.
Qed.
Lemma strict_comp f g : strict f -> strict g -> codomain g = domain f -> strict (Comp (domain g) (codomain f) (pieces g ++ pieces f)).
Proof.
  intros (P & N & F) (P' & N' & F') E. repeat split; cbn.
  - eapply path_app; eauto. now rewrite E.
  - destruct (pieces g); [congruence|discriminate].
  - apply Forall_app; auto.
Qed.
Lemma compose_good f g h : good f -> good g -> compose f g = Ok h -> good h.
Proof.
  intros F G E. unfold MMor.compose in E. destruct (eqb_case (codomain g) (domain f)) as [[Q Q']|[Q Q']]; rewrite Q in E; [|discriminate]. cbn [negb] in E.
  destruct (is_id g) eqn:Ig; [injection E as <-; auto|]. destruct (is_id f) eqn:If; [injection E as <-; auto|].
  destruct (good_cases f F) as [[s ->]|[_ Sf]]; [discriminate|]. destruct (good_cases g G) as [[s ->]|[_ Sg]]; [discriminate|].
  pose proof (compose_strict f g Sf Sg If Ig Q') as C. unfold MMor.compose in C. rewrite Q, Ig, If in C. cbn [negb] in C. rewrite C in E. injection E as <-.
  destruct (strict_comp f g Sf Sg Q') as (P & _ & X). cbn in *. split; auto. split; auto. destruct Sf as (_ & N & _), Sg as (_ & N' & _).
  rewrite app_length. destruct (pieces f), (pieces g); cbn; try congruence. lia.
Qed.
(** sections *)
Hypothesis own_ok : forall a b, own a = Some b -> adom b = acod a /\ acod b = adom a.
Lemma ssection_end b m : send b (ssection m) = send (negb b) m.
Proof.
  destruct m as [s|a|m]; cbn; auto.
  - destruct (own a) as [a'|] eqn:E; cbn; [|now destruct b]. destruct (own_ok _ _ E). destruct b; auto.
  - now rewrite negb_involutive.
Qed.
Lemma ssection_noid m : noid m = true -> noid (ssection m) = true.
Proof.
  destruct m as [s|a|[s|a|m]]; cbn; auto; try discriminate. destruct (own a) eqn:E; cbn; auto. now rewrite E.
Qed.
Lemma path_rev x ms y : path x ms y -> path y (rev (map ssection ms)) x.
Proof.
  revert x. induction ms as [|m ms IH]; cbn; intros x; [auto|]. intros [E P]. eapply path_app; [apply IH, P|]. cbn.
  rewrite !ssection_end. cbn. auto.
Qed.
Lemma simple_strict m : noid m = true -> strict (Simple m) /\ is_id (Simple m) = false.
Proof. intros N. split; [|now destruct m]. split; [cbn; auto|]. split; [discriminate|]. cbn. auto. Qed.
Lemma prod_spec ms : forall f x, strict f -> is_id f = false -> ms <> nil -> path x (rev ms) (domain f) -> Forall (fun m => noid m = true) ms ->
  prod_from adom acod f (map Simple ms) = Ok (Comp x (codomain f) (rev ms ++ pieces f)).
Proof.
  induction ms as [|m ms IH]; intros f x Sf If N P F; [congruence|]. cbn [map prod_from]. inversion F as [|? ? Nm F']; subst.
  destruct (simple_strict m Nm) as [Sm Im]. cbn [rev] in P.
  assert (E : codomain (Simple m) = domain f) by (cbn; now apply path_last in P).
  rewrite (compose_strict f (Simple m) Sf Sm If Im E). cbn [bind]. cbn [pieces app].
  destruct ms as [|m' ms].
  - cbn in *. destruct P as [<- P]. reflexivity.
  - rewrite (IH (Comp (domain (Simple m)) (codomain f) (m :: pieces f)) x); auto; try discriminate.
    + cbn [rev pieces MMor.codomain]. rewrite <- !app_assoc. reflexivity.
    + apply (strict_comp f (Simple m)); auto.
    + cbn [MMor.domain]. clear - P. revert P. generalize (rev (m' :: ms)). intros l. revert x.
      induction l as [|a l IHl]; cbn; intros x; [now intros [-> _]|]. intros [E P]. split; auto.
Qed.
Lemma section_comp d c ms : good (Comp d c ms) -> section (Comp d c ms) = Ok (Comp c d (rev (map ssection ms))).
Proof.
  intros (P & L & F). destruct ms as [|m ms]; [cbn in L; lia|]. cbn [MMor.section].
  rewrite <- map_map with (f := ssection) (g := Simple). inversion F as [|? ? Nm F']; subst.
  assert (Nm' : noid (ssection m) = true) by now apply ssection_noid.
  destruct (simple_strict _ Nm') as [Sm Im]. pose proof (path_rev _ _ _ P) as P'. cbn [map rev] in P'.
  rewrite (prod_spec (map ssection ms) (Simple (ssection m)) c); auto.
  - cbn [MMor.codomain pieces]. rewrite ssection_end. cbn [negb]. destruct P as [<- _]. reflexivity.
  - destruct ms; [cbn in L; lia|discriminate].
  - cbn [MMor.domain]. clear - P'. revert P'. generalize (rev (map ssection ms)). intros l. revert c.
    induction l as [|a l IHl]; cbn; intros x; [now intros [-> _]|]. intros [E P]. split; auto.
  - clear - F'. induction F'; cbn; constructor; auto. now apply ssection_noid.
Qed.
Lemma section_good f g : good f -> section f = Ok g -> good g.
Proof.
  intros G E. destruct f as [m|d c ms].
  - cbn in E. injection E as <-. destruct m as [s|a|m]; cbn in *; auto.
    + destruct (own a) eqn:E; cbn; auto. now rewrite E.
    + destruct m; auto; discriminate.
  - rewrite section_comp in E by auto. injection E as <-. destruct G as (P & L & F). cbn. split; [now apply path_rev|].
    rewrite rev_length, map_length. split; auto. apply Forall_rev. clear - F. induction F; cbn; constructor; auto. now apply ssection_noid.
Qed.
Lemma section_defined f : good f -> exists g, section f = Ok g /\ domain g = codomain f /\ codomain g = domain f.
Proof.
  destruct f as [m|d c ms]; intros G.
  - cbn. eexists. split; [reflexivity|]. cbn. now rewrite !ssection_end.
  - rewrite section_comp by auto. eexists. split; [reflexivity|]. auto.
Qed.
Lemma made_good f : made f -> good f.
Proof.
  intros M. induction M as [s|a|f g h _ F _ G E|f g _ F E]; try exact I; [reflexivity| |].
  - apply (compose_good f g h); auto.
  - apply (section_good f g); auto.
Qed.

Lemma compose_err f g : codomain g <> domain f -> compose f g = Err ValueError.
Proof. intros N. unfold MMor.compose. apply eqb_neq in N. now rewrite N. Qed.
Lemma compose_ok f g : good f -> good g -> codomain g = domain f ->
  exists h, compose f g = Ok h /\ domain h = domain g /\ codomain h = codomain f /\
    (h = if is_id g then f else if is_id f then g else Comp (domain g) (codomain f) (pieces g ++ pieces f)).
Proof.
  intros F G E. unfold MMor.compose. rewrite E, eqb_refl. cbn [negb].
  destruct (is_id g) eqn:Ig.
  - exists f. repeat split; auto. destruct g as [[s|a|m]|]; try discriminate. cbn in *. now rewrite E.
  - destruct (is_id f) eqn:If.
    + exists g. repeat split; auto. destruct f as [[s|a|m]|]; try discriminate. cbn in *. now rewrite <- E.
    + destruct (good_cases f F) as [[s ->]|[_ Sf]]; [discriminate|]. destruct (good_cases g G) as [[s ->]|[_ Sg]]; [discriminate|].
      pose proof (compose_strict f g Sf Sg If Ig E) as C. unfold MMor.compose in C. rewrite E, eqb_refl, If, Ig in C. cbn [negb] in C.
      rewrite C. eexists. repeat split; reflexivity.
Qed.
Lemma assoc f g h fg gh : good f -> good g -> good h -> compose f g = Ok fg -> compose g h = Ok gh -> compose fg h = compose f gh.
Proof.
  intros F G H E1 E2. assert (Q1 : codomain g = domain f).
  { unfold MMor.compose in E1. destruct (eqb_case (codomain g) (domain f)) as [[Q ?]|[Q ?]]; auto. rewrite Q in E1. discriminate. }
  assert (Q2 : codomain h = domain g).
  { unfold MMor.compose in E2. destruct (eqb_case (codomain h) (domain g)) as [[Q ?]|[Q ?]]; auto. rewrite Q in E2. discriminate. }
  pose proof (compose_good _ _ _ F G E1) as Gfg. pose proof (compose_good _ _ _ G H E2) as Ggh.
  destruct (compose_ok f g F G Q1) as (x & X1 & X2 & X3 & X4). rewrite E1 in X1. injection X1 as <-.
  destruct (compose_ok g h G H Q2) as (y & Y1 & Y2 & Y3 & Y4). rewrite E2 in Y1. injection Y1 as <-.
  destruct (compose_ok fg h Gfg H) as (u & U1 & _ & _ & U4); [congruence|].
  destruct (compose_ok f gh F Ggh) as (v & V1 & _ & _ & V4); [congruence|].
  rewrite U1, V1. f_equal. rewrite U4, V4, X3, Y2. clear U1 U4 V1 V4 E1 E2 Gfg Ggh.
  destruct (is_id f) eqn:If, (is_id g) eqn:Ig, (is_id h) eqn:Ih; subst fg gh; rewrite ?If, ?Ig, ?Ih; auto.
  - (* f and g *) destruct f as [[]|], g as [[]|]; try discriminate; cbn in *; congruence.
  - rewrite Y2. reflexivity.
  - cbn [pieces is_id]. rewrite app_assoc. reflexivity.
Qed.
Lemma section_compose f g h : good f -> good g -> compose f g = Ok h ->
  exists sf sg, section f = Ok sf /\ section g = Ok sg /\ section h = compose sg sf.
Proof.
  intros F G E. assert (Q : codomain g = domain f).
  { unfold MMor.compose in E. destruct (eqb_case (codomain g) (domain f)) as [[Z ?]|[Z ?]]; auto. rewrite Z in E. discriminate. }
  pose proof (compose_good _ _ _ F G E) as Gh.
  destruct (section_defined f F) as (sf & S1 & S2 & S3), (section_defined g G) as (sg & T1 & T2 & T3).
  exists sf, sg. do 2 (split; auto). destruct (compose_ok f g F G Q) as (x & X1 & X2 & X3 & X4). rewrite E in X1. injection X1 as <-.
  pose proof (section_good _ _ F S1) as Gsf. pose proof (section_good _ _ G T1) as Gsg.
  destruct (compose_ok sg sf Gsg Gsf) as (y & Y1 & Y2 & Y3 & Y4); [congruence|]. rewrite Y1.
  assert (Id : forall f g, good f -> section f = Ok g -> is_id g = is_id f).
  { clear - own_ok. intros f g Gf X. destruct f as [[s|a|m]|d c ms].
    - cbn in X. now injection X as <-.
    - cbn in X. injection X as <-. now destruct (own a).
    - cbn in X. injection X as <-. destruct m; auto; discriminate.
    - rewrite section_comp in X by auto. now injection X as <-. }
  assert (Pc : forall f g, good f -> section f = Ok g -> pieces g = rev (map ssection (pieces f))).
  { clear - own_ok. intros f g Gf X. destruct f as [m|d c ms].
    - cbn in X. now injection X as <-.
    - rewrite section_comp in X by auto. now injection X as <-. }
  rewrite (Id _ _ F S1), (Id _ _ G T1) in Y4. destruct (is_id g) eqn:Ig.
  - subst h. rewrite S1. f_equal. destruct (is_id f) eqn:If; subst y; auto.
    destruct f as [[]|], g as [[]|]; try discriminate. cbn in *. injection S1 as <-. injection T1 as <-. congruence.
  - destruct (is_id f) eqn:If; subst h y; [now rewrite T1|].
    rewrite section_comp by auto. f_equal. rewrite (Pc _ _ F S1), (Pc _ _ G T1), map_app, rev_app_distr. congruence.
Qed.
Lemma section_section f g : good f -> (forall a b, own a = Some b -> own b = Some a) -> section f = Ok g -> section g = Ok f.
Proof.
  intros G O E. assert (J : forall m, noid m = true -> ssection (ssection m) = m).
  { intros [s|a|[s|a|m]]; try discriminate; cbn.
    - intros _. destruct (own a) as [b|] eqn:X; cbn; [rewrite (O _ _ X)|]; auto.
    - destruct (own a); [discriminate|auto]. }
  destruct f as [m|d c ms].
  - cbn in E. injection E as <-. cbn. do 2 f_equal. destruct m; auto; apply J; auto.
  - pose proof (section_good _ _ G E) as G'. rewrite section_comp in E by auto. injection E as <-. rewrite section_comp by auto.
    do 2 f_equal. rewrite <- map_rev, rev_involutive, map_map. destruct G as (_ & _ & F). rewrite <- (map_id ms) at 2. apply map_ext_in.
    intros m I. rewrite Forall_forall in F. auto.
Qed.

(** points *)
Hypothesis img_par : forall a p q, par p = adom a -> img a p = Ok q -> par q = acod a.
Hypothesis sec_par : forall a p q, par p = acod a -> sec a p = Ok q -> par q = adom a.
Lemma smap_par m : forall b p q, par p = send b m -> smap b m p = Ok q -> par q = send (negb b) m.
Proof.
  induction m as [s|a|m IH]; intros b p q P E; cbn in *.
  - destruct b; [injection E as <-; auto|discriminate].
  - destruct b; cbn; eauto.
  - apply (IH (negb b) p q); auto.
Qed.
Lemma run_par ms : forall x y p q, path x ms y -> Forall (fun m => noid m = true) ms -> par p = x -> run_all ms p = Ok q -> par q = y.
Proof.
  induction ms as [|m ms IH]; cbn; intros x y p q P F X E.
  - injection E as <-. congruence.
  - destruct P as [P1 P2]. inversion F as [|? ? F1 F2]; subst. destruct (smap true m p) as [r|] eqn:M; [|discriminate]. cbn in E.
    apply (IH _ _ r q P2 F2); auto. apply (smap_par m true p r); auto.
Qed.
Lemma run_app (ms ms' : list simple) p : run_all (ms ++ ms') p = (q <- run_all ms p ;; run_all ms' q).
Proof. revert p. induction ms as [|m ms IH]; cbn; intros p; auto. destruct (smap true m p); cbn; auto. Qed.
Lemma image_pieces (f : morphism) p : image_point img sec f p = run_all (pieces f) p.
Proof. destruct f as [m|d c ms]; cbn; auto. destruct (smap true m p); reflexivity. Qed.
Lemma call_good f p : good f -> par p = domain f -> call f p = run_all (pieces f) p.
Proof.
  intros G P. unfold MMor.call. rewrite P, eqb_refl. cbn [negb]. rewrite image_pieces.
  destruct (run_all (pieces f) p) as [q|] eqn:R; auto. cbn [bind].
  assert (Q : par q = codomain f).
  { destruct (good_cases f G) as [[s ->]|[_ (X & _ & Y)]].
    - cbn in *. injection R as <-. auto.
    - eapply run_par; eauto. }
  now rewrite Q, eqb_refl.
Qed.
Lemma call_par f p q : good f -> call f p = Ok q -> par p = domain f /\ par q = codomain f.
Proof.
  intros G E. unfold MMor.call in E. destruct (eqb_case (par p) (domain f)) as [[Q Q']|[Q Q']]; rewrite Q in E; cbn [negb] in E; [|discriminate].
  split; auto. destruct (image_point img sec f p) as [r|]; [|discriminate]. cbn [bind] in E.
  destruct (eqb_case (par r) (codomain f)) as [[Z Z']|[Z Z']]; rewrite Z in E; cbn in E; [|discriminate]. now injection E as <-.
Qed.
Lemma call_compose f g h p : good f -> good g -> compose f g = Ok h -> call h p = (q <- call g p ;; call f q).
Proof.
  intros F G E. assert (Q : codomain g = domain f).
  { unfold MMor.compose in E. destruct (eqb_case (codomain g) (domain f)) as [[Z ?]|[Z ?]]; auto. rewrite Z in E. discriminate. }
  pose proof (compose_good _ _ _ F G E) as Gh. destruct (compose_ok f g F G Q) as (x & X1 & X2 & X3 & X4). rewrite E in X1. injection X1 as <-.
  destruct (eq_dec_of (par p) (domain g)) as [P|P].
  - rewrite (call_good g p G P). rewrite call_good by (auto; congruence).
    assert (R : run_all (pieces h) p = (q <- run_all (pieces g) p ;; run_all (pieces f) q)).
    { rewrite X4. destruct (is_id g) eqn:Ig.
      - destruct g as [[]|]; try discriminate. reflexivity.
      - destruct (is_id f) eqn:If.
        + destruct f as [[]|]; try discriminate. destruct (run_all (pieces g) p); reflexivity.
        + apply run_app. }
    rewrite R. destruct (run_all (pieces g) p) as [q|] eqn:Z; auto. cbn [bind]. symmetry. apply call_good; auto.
    rewrite <- (call_good g p G P) in Z. apply call_par in Z; auto. destruct Z. congruence.
  - unfold MMor.call. rewrite X2. apply eqb_neq in P. now rewrite P.
Qed.
(** homology *)
Context {Mat : Type} (mone : S -> Mat) (mmul : Mat -> Mat -> Mat) (himg hsec : A -> Mat).
Notation hom := (homology_matrix mone mmul himg hsec).
(** [typ M x y]: the matrix is one of a map from the homology of [x] to the one of [y]; for such matrices the usual laws hold *)
Variable typ : Mat -> S -> S -> Prop.
Hypothesis typ_one : forall x, typ (mone x) x x.
Hypothesis typ_mul : forall M N x y z, typ N x y -> typ M y z -> typ (mmul M N) x z.
Hypothesis mul_one_l : forall M x y, typ M x y -> mmul (mone y) M = M.
Hypothesis mul_one_r : forall M x y, typ M x y -> mmul M (mone x) = M.
Hypothesis mul_assoc : forall M N R w x y z, typ R w x -> typ N x y -> typ M y z -> mmul M (mmul N R) = mmul (mmul M N) R.
Hypothesis typ_img : forall a, typ (himg a) (adom a) (acod a).
Hypothesis typ_sec : forall a, typ (hsec a) (acod a) (adom a).
Notation hmat := (hmat mone himg hsec).
Lemma typ_hmat b m : typ (hmat b m) (send b m) (send (negb b) m).
Proof. revert b. induction m as [s|a|m IH]; intros b; cbn; auto. destruct b; cbn; auto. Qed.
Lemma fold_typ ms : forall x y z M, path x ms y -> typ M y z -> typ (fold_left (fun M m => mmul M (hmat true m)) (rev ms) M) x z.
Proof.
  induction ms as [|m ms IH]; intros x y z M P T; cbn in *; [now subst|]. destruct P as [<- P].
  rewrite fold_left_app. cbn. eapply typ_mul; [apply (typ_hmat true)|]. eapply IH; eauto.
Qed.
Lemma fold_mul ms : forall x y z M, path x ms y -> typ M y z ->
  fold_left (fun M m => mmul M (hmat true m)) (rev ms) M = mmul M (fold_left (fun M m => mmul M (hmat true m)) (rev ms) (mone y)).
Proof.
  induction ms as [|m ms IH]; intros x y z M P T; cbn in *.
  - symmetry. eapply mul_one_r; eauto.
  - destruct P as [<- P]. rewrite !fold_left_app. cbn. rewrite (IH _ _ _ _ P T).
    symmetry. eapply mul_assoc; [apply (typ_hmat true)|eapply fold_typ; eauto|eauto].
Qed.
Lemma hom_pieces f : good f -> hom f = fold_left (fun M m => mmul M (hmat true m)) (rev (pieces f)) (mone (codomain f)).
Proof. destruct f as [m|d c ms]; intros G; auto. cbn. symmetry. eapply mul_one_l. apply (typ_hmat true). Qed.
Lemma good_path f : good f -> path (domain f) (pieces f) (codomain f).
Proof. intros G. destruct (good_cases f G) as [[s ->]|[_ [P _]]]; [cbn; auto|exact P]. Qed.
Lemma hom_compose f g h : good f -> good g -> compose f g = Ok h -> hom h = mmul (hom f) (hom g).
Proof.
  intros F G E. assert (Q : codomain g = domain f).
  { unfold MMor.compose in E. destruct (eqb_case (codomain g) (domain f)) as [[Z ?]|[Z ?]]; auto. rewrite Z in E. discriminate. }
  destruct (compose_ok f g F G Q) as (x & X1 & X2 & X3 & X4). rewrite E in X1. injection X1 as <-.
  assert (Tf : typ (hom f) (domain f) (codomain f)). { rewrite hom_pieces by auto. eapply fold_typ; [now apply good_path|auto]. }
  assert (Tg : typ (hom g) (domain g) (codomain g)). { rewrite hom_pieces by auto. eapply fold_typ; [now apply good_path|auto]. }
  rewrite X4. destruct (is_id g) eqn:Ig.
  - destruct g as [[s|a|m]|]; try discriminate. cbn in *. symmetry. rewrite Q. eapply mul_one_r; eauto.
  - destruct (is_id f) eqn:If.
    + destruct f as [[s|a|m]|]; try discriminate. cbn in *. symmetry. rewrite <- Q. eapply mul_one_l; eauto.
    + rewrite (hom_pieces f F), (hom_pieces g G). cbn [homology_matrix]. rewrite rev_app_distr, fold_left_app.
      rewrite (fold_mul (pieces g) (domain g) (codomain g) (codomain f)); [reflexivity|now apply good_path|].
      rewrite Q. eapply fold_typ; [now apply good_path|auto].
Qed.
End Mor.
