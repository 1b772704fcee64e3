(** C37: composition of morphisms. *)
From Coq Require Import List Bool ZArith Lia.
From Verif Require Import MBase MDict PDict MMor PMor.
Import ListNotations.
Local Open Scope res_scope.

Section T.
Context {S : Type} `{ES : EqB S} {Pt : Type} (par : Pt -> S).
Context {A : Type} (adom acod : A -> S) (own : A -> option A) (img sec : A -> Pt -> res Pt).
Notation domain := (domain adom acod).
Notation codomain := (codomain adom acod).
Notation compose := (compose adom acod).
Notation section := (section adom acod own).
Notation call := (call par adom acod img sec).
Notation made := (made adom acod own).
(** a section that a class implements itself goes the other way; images and preimages lie on the right surfaces *)
Hypothesis own_ok : forall a b, own a = Some b -> adom b = acod a /\ acod b = adom a.
Hypothesis img_par : forall a p q, par p = adom a -> img a p = Ok q -> par q = acod a.
Hypothesis sec_par : forall a p q, par p = acod a -> sec a p = Ok q -> par q = adom a.

(** morphisms can be composed exactly if they fit *)
Theorem C37_defined f g : made f -> made g ->
  (codomain g = domain f -> exists h, compose f g = Ok h /\ domain h = domain g /\ codomain h = codomain f) /\
  (codomain g <> domain f -> compose f g = Err ValueError).
Proof.
  intros F G. split; [|apply compose_err]. intros E.
  destruct (compose_ok adom acod own f g (made_good _ _ _ own_ok f F) (made_good _ _ _ own_ok g G) E) as (h & X & Y & Z & _). eauto.
Qed.
(** composition is associative: both bracketings give the same object *)
Theorem C37_associative f g h fg gh : made f -> made g -> made h ->
  compose f g = Ok fg -> compose g h = Ok gh -> exists k, compose fg h = Ok k /\ compose f gh = Ok k.
Proof.
  intros F G H E1 E2. pose proof (assoc adom acod own f g h fg gh) as X.
  assert (M : forall m, made m -> good adom acod own m) by (intros; now apply made_good). specialize (X (M _ F) (M _ G) (M _ H) E1 E2).
  assert (Q : forall f g h, compose f g = Ok h -> codomain g = domain f).
  { intros a b c E. unfold MMor.compose in E. destruct (eqb_case (codomain b) (domain a)) as [[Z ?]|[Z ?]]; auto. rewrite Z in E. discriminate. }
  destruct (compose_ok adom acod own f g (M _ F) (M _ G) (Q _ _ _ E1)) as (x & X1 & X2 & _). rewrite E1 in X1. injection X1 as <-.
  pose proof (made_compose _ _ _ _ _ _ F G E1) as FG.
  destruct (compose_ok adom acod own fg h (M _ FG) (M _ H)) as (k & K & _); [rewrite X2; eauto|].
  exists k. rewrite <- X. auto.
Qed.
(** identities are neutral *)
Theorem C37_identity f : made f ->
  compose f (Simple (IdM (domain f))) = Ok f /\ compose (Simple (IdM (codomain f))) f = Ok f /\
  forall p, par p = domain f -> call (Simple (IdM (domain f))) p = Ok p.
Proof.
  intros F. split; [|split].
  - unfold MMor.compose. cbn. now rewrite eqb_refl.
  - unfold MMor.compose. cbn. rewrite eqb_refl. cbn. destruct (is_id f) eqn:I; auto. destruct f as [[]|]; try discriminate. reflexivity.
  - intros p P. unfold MMor.call. cbn. now rewrite P, eqb_refl.
Qed.
(** the composition maps points by applying first the right, then the left morphism, whatever the result is *)
Theorem C37_points f g h p : made f -> made g -> compose f g = Ok h -> call h p = (q <- call g p ;; call f q).
Proof.
  intros F G E. apply (call_compose par adom acod own img sec img_par sec_par f g h p); auto; now apply made_good.
Qed.
(** the section of a composition is the composition of the sections in the other order *)
Theorem C37_section f g h : made f -> made g -> compose f g = Ok h ->
  exists sf sg, section f = Ok sf /\ section g = Ok sg /\ section h = compose sg sf /\
    exists sh, section h = Ok sh /\ domain sh = codomain h /\ codomain sh = domain h /\
      forall q, call sh q = (p <- call sf q ;; call sg p).
Proof.
  intros F G E. assert (M : forall m, made m -> good adom acod own m) by (intros; now apply made_good).
  destruct (section_compose adom acod own own_ok f g h (M _ F) (M _ G) E) as (sf & sg & X & Y & Z).
  exists sf, sg. do 3 (split; auto). pose proof (made_compose _ _ _ _ _ _ F G E) as H.
  destruct (section_defined adom acod own own_ok h (M _ H)) as (sh & U & V & W). exists sh. do 3 (split; auto).
  intros q. rewrite Z in U. apply (call_compose par adom acod own img sec img_par sec_par sg sf sh q); auto; apply M; [apply (made_section _ _ _ g)|apply (made_section _ _ _ f)]; auto.
Qed.
(** the section of the section is the morphism, if this is so for the sections that classes implement themselves *)
Theorem C37_section_section f : (forall a b, own a = Some b -> own b = Some a) -> made f ->
  exists g, section f = Ok g /\ section g = Ok f.
Proof.
  intros O F. assert (M : forall m, made m -> good adom acod own m) by (intros; now apply made_good).
  destruct (section_defined adom acod own own_ok f (M _ F)) as (g & X & _). exists g. split; auto.
  eapply section_section; eauto.
Qed.
(** the action on homology of the composition is the product *)
Theorem C37_homology {Mat : Type} (mone : S -> Mat) mmul (himg hsec : A -> Mat) (typ : Mat -> S -> S -> Prop) f g h :
  (forall x, typ (mone x) x x) ->
  (forall M N x y z, typ N x y -> typ M y z -> typ (mmul M N) x z) ->
  (forall M x y, typ M x y -> mmul (mone y) M = M) ->
  (forall M x y, typ M x y -> mmul M (mone x) = M) ->
  (forall M N R w x y z, typ R w x -> typ N x y -> typ M y z -> mmul M (mmul N R) = mmul (mmul M N) R) ->
  (forall a, typ (himg a) (adom a) (acod a)) -> (forall a, typ (hsec a) (acod a) (adom a)) ->
  made f -> made g -> compose f g = Ok h ->
  homology_matrix mone mmul himg hsec h = mmul (homology_matrix mone mmul himg hsec f) (homology_matrix mone mmul himg hsec g).
Proof.
  intros T1 T2 T3 T4 T5 T6 T7 F G E.
  apply (hom_compose adom acod own mone mmul himg hsec typ T1 T2 T3 T4 T5 T6 T7 f g h); auto; now apply made_good.
Qed.
End T.
Print Assumptions C37_defined.
Print Assumptions C37_associative.
Print Assumptions C37_identity.
Print Assumptions C37_points.
Print Assumptions C37_section.
Print Assumptions C37_section_section.
Print Assumptions C37_homology.

(** ** Example: surfaces and points are numbers, [Atom k] adds [k] to the coordinate and goes from the surface [k] to the
    surface [k + 1]; there is no preimage of the coordinate 7; [Atom 5] and [Atom 6] are sections of each other *)
Local Open Scope Z_scope.
Definition e_dom (a : Z) : Z := if a =? 6 then 6 else a.
Definition e_cod (a : Z) : Z := if a =? 6 then 5 else a + 1.
Definition e_own (a : Z) : option Z := if a =? 5 then Some 6 else if a =? 6 then Some 5 else None.
Definition e_img (a : Z) (p : Z * Z) : res (Z * Z) := Ok (e_cod a, if a =? 6 then snd p - 5 else snd p + a).
Definition e_sec (a : Z) (q : Z * Z) : res (Z * Z) := if snd q =? 7 then Err NotImplementedError else Ok (e_dom a, if a =? 6 then snd q + 5 else snd q - a).
Notation e_compose := (compose e_dom e_cod).
Notation e_call := (call (fst (A := Z) (B := Z)) e_dom e_cod e_img e_sec).
Notation e_section := (section e_dom e_cod e_own).
Lemma e_own_ok : forall a b, e_own a = Some b -> e_dom b = e_cod a /\ e_cod b = e_dom a.
Proof.
  unfold e_own, e_dom, e_cod. intros a b. destruct (Z.eqb_spec a 5); [intros [= <-]; subst; auto|].
  destruct (Z.eqb_spec a 6); [intros [= <-]; subst; auto|discriminate].
Qed.
Lemma e_img_par : forall a p q, fst p = e_dom a -> e_img a p = Ok q -> fst q = e_cod a.
Proof. intros a p q _ [= <-]. reflexivity. Qed.
Lemma e_sec_par : forall a p q, fst p = e_cod a -> e_sec a p = Ok q -> fst q = e_dom a.
Proof. unfold e_sec. intros a p q _. destruct (snd p =? 7); [discriminate|intros [= <-]]. reflexivity. Qed.
Lemma e_own_inv : forall a b, e_own a = Some b -> e_own b = Some a.
Proof.
  unfold e_own. intros a b. destruct (Z.eqb_spec a 5); [intros [= <-]; subst; auto|].
  destruct (Z.eqb_spec a 6); [intros [= <-]; subst; auto|discriminate].
Qed.
Example ex_compose : exists f g h,
  e_compose (Simple (Atom 4)) (Simple (Atom 3)) = Ok f /\ e_compose (Simple (Atom 5)) f = Ok g /\
  g = Comp 3 6 [Atom 3; Atom 4; Atom 5] /\ made e_dom e_cod e_own g /\
  e_call g (3, 10) = Ok (6, 22) /\ e_call g (4, 10) = Err ValueError /\
  e_section g = Ok h /\ h = Comp 6 3 [Atom 6; Sect (Atom 4); Sect (Atom 3)] /\ e_section h = Ok g /\
  e_call h (6, 22) = Ok (3, 10) /\ e_call h (6, 12) = Err NotImplementedError /\
  e_compose f (Simple (Atom 5)) = Err ValueError.
Proof.
  do 3 eexists. split; [vm_compute; reflexivity|]. split; [vm_compute; reflexivity|]. split; [reflexivity|]. split.
  - apply (made_compose _ _ _ (Simple (Atom 5)) (Comp 3 5 [Atom 3; Atom 4])); [apply made_atom| |vm_compute; reflexivity].
    apply (made_compose _ _ _ (Simple (Atom 4)) (Simple (Atom 3))); [apply made_atom|apply made_atom|vm_compute; reflexivity].
  - vm_compute. repeat split; reflexivity.
Qed.
