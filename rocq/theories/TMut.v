(** Theorems about mutable surfaces (C01 - C08). Polygons are elements of an arbitrary type with a number of
    vertices; in the examples a polygon is its number of vertices. *)
From Coq Require Import List Bool ZArith Lia Arith Relations.
From Verif Require Import MBase MDict PDict MMut SMut PMut PMut2 PMut3.
Import ListNotations.
Local Open Scope Z_scope.

(** a square torus, and a history with repeated gluings, failing calls and removals *)
Definition ex_torus : list (@op nat) :=
  [OpAdd 4%nat None; OpGlue (0, 0) (0, 2); OpGlue (0, 1) (0, 3)].
Definition ex_history : list (@op nat) :=
  [OpAdd 4%nat None; OpAdd 3%nat (Some 7); OpAdd 3%nat None; OpAdd 4%nat (Some 7); OpGlue (0, 0) (7, 1); OpGlue (7, 1) (1, 2);
   OpGlue (0, 1) (0, 1); OpGlue (0, 2) (1, 0); OpUnglue 1 0; OpSetRoots [1; 0]; OpGlue (0, 3) (9, 0); OpRemove 7;
   OpGlue (0, 0) (1, 1); OpAdd 5%nat None].
Notation qrun := (run (fun n : nat => n)).

Lemma rmap_concat_In {A B} (f : A -> res (list B)) l ys : rmap f l = Ok ys ->
  forall b, In b (concat ys) <-> exists a bs, In a l /\ f a = Ok bs /\ In b bs.
Proof.
  intros H b. rewrite in_concat. split.
  - intros [bs [Hbs Hb]]. destruct (rmap_In _ _ _ _ H Hbs) as [a [Ha E]]. eauto.
  - intros [a [bs [Ha [E Hb]]]]. destruct (rmap_Ok _ _ _ H) as [_ Q]. destruct (Q a Ha) as [bs' [E' I]].
    rewrite E in E'. injection E' as <-. eauto.
Qed.
Lemma rmap_concat_NoDup {A B} (f : A -> res (list B)) (g : B -> A) : forall l ys, rmap f l = Ok ys -> NoDup l ->
  (forall a bs, f a = Ok bs -> NoDup bs /\ forall b, In b bs -> g b = a) -> NoDup (concat ys).
Proof.
  induction l as [|a l IH]; cbn [rmap]; intros ys H N F.
  - injection H as <-. constructor.
  - destruct (f a) as [bs|] eqn:E; [|discriminate]. destruct (rmap f l) as [zs|] eqn:Er; [|discriminate].
    injection H as <-. inversion N; subst. cbn. apply NoDup_app_intro.
    + now apply (F a).
    + now apply IH.
    + intros b Hb Hz. apply (rmap_concat_In f l zs Er) in Hz. destruct Hz as [a' [bs' [Ha' [E' Hb']]]].
      destruct (F a bs E) as [_ G1], (F a' bs' E') as [_ G2]. specialize (G2 b Hb').
      rewrite (G1 b Hb) in G2. subst. contradiction.
Qed.

Section T.
Context {P : Type} (nv : P -> nat).
Implicit Types (s : @surf P) (x y z : hedge) (l : label).
Notation good := (@good P nv).
Notation inv := (@inv P nv).

Lemma good_linked s a b : good s -> (linked nv s a b <-> conn (gluings s) a b).
Proof. intros G. apply linked_conn, (g_inv nv s G). Qed.
Lemma frame_edge s s' x : frame s s' -> (is_edge nv s' x <-> is_edge nv s x).
Proof. intros F. unfold is_edge, get_polygon. now rewrite (f_polys _ _ F). Qed.

(** ** C01 *)
Theorem C01_involution s : reachable nv s -> involutive nv s /\ (mutable s = true -> well_defined nv s).
Proof.
  intros R. pose proof (reachable_J nv s R) as HJ. pose proof (J_inv nv s HJ) as I. split.
  - intros x y H. apply (glued_gz nv s x y I) in H. apply (glued_gz nv s y x I). now apply (i_inv nv s I).
  - intros Mu x E. assert (T : total s) by exact (i_tot nv s I Mu).
    destruct (gz (gluings s) x) as [y|] eqn:G.
    + right. exists y. now apply (glued_gz nv s x y I).
    + left. now apply (free_gz nv s x I T).
Qed.
(** immutable surfaces that are not damaged by [remove_polygon] are total, too *)
Theorem C01_well_defined s : intact nv s -> well_defined nv s.
Proof.
  intros R x E. pose proof (intact_good nv s R) as G. pose proof (g_inv nv s G) as I.
  destruct (gz (gluings s) x) as [y|] eqn:Gx.
  - right. exists y. now apply (glued_gz nv s x y I).
  - left. apply (free_gz nv s x I (g_tot nv s G)). auto.
Qed.

(** ** C02 *)
Theorem C02_glue s s' x y : reachable nv s -> is_edge nv s x -> is_edge nv s y -> glue nv x y s = (s', Ok tt) ->
  same_polygons s s' /\ glued nv s' x y /\ glued nv s' y x /\
  (forall z, glued nv s x z \/ glued nv s y z -> z <> x -> z <> y -> free nv s' z) /\
  (forall z, z <> x -> z <> y -> ~ glued nv s x z -> ~ glued nv s y z ->
     (free nv s' z <-> free nv s z) /\ forall w, glued nv s' z w <-> glued nv s z w).
Proof.
  intros R Ex Ey H. pose proof (reachable_J nv s R) as HJ. pose proof (J_inv nv s HJ) as I.
  assert (Mu : mutable s = true).
  { unfold glue, mbind, check_mutable in H. destruct (mutable s); auto. discriminate. }
  assert (T : total s) by exact (i_tot nv s I Mu).
  pose proof (edge_inrange nv s x I T Ex) as Rx. pose proof (edge_inrange nv s y I T Ey) as Ry.
  destruct (glue_main nv s x y I Mu Rx Ry) as [s1 [r [H1 [I' [F [G [_ _]]]]]]].
  rewrite H in H1. injection H1 as <- <-. specialize (G eq_refl).
  assert (T' : total s') by (eapply total_frame; eauto).
  assert (GX : gz (gluings s') x = Some y) by (rewrite G; unfold glz; now rewrite eqb_refl).
  assert (Gxy : glued nv s' x y) by now apply (glued_gz nv s' x y I').
  split; [intros k; unfold get_polygon; now rewrite (f_polys _ _ F)|].
  split; auto. split; [apply (glued_gz nv s' y x I'), (i_inv nv s' I' _ _ GX)|]. split.
  - intros z Hz Nx Ny. apply (free_gz nv s' z I' T').
    assert (Ez : is_edge nv s z).
    { destruct Hz as [Hz|Hz]; apply (glued_gz nv s _ _ I) in Hz; apply (i_inv nv s I) in Hz; apply (glued_gz nv s _ _ I) in Hz; apply Hz. }
    split; [now apply (frame_edge s s')|]. rewrite G. unfold glz.
    rewrite (proj2 (eqb_neq z x) Nx), (proj2 (eqb_neq z y) Ny).
    destruct Hz as [Hz|Hz]; apply (glued_gz nv s _ _ I) in Hz; rewrite Hz.
    + now rewrite eqb_refl.
    + rewrite eqb_refl. destruct (gz (gluings s) x); auto. now destruct (eqb z h).
  - intros z Nx Ny Gx Gy.
    assert (E : gz (gluings s') z = gz (gluings s) z).
    { rewrite G. unfold glz. rewrite (proj2 (eqb_neq z x) Nx), (proj2 (eqb_neq z y) Ny).
      rewrite (glued_gz nv s x z I) in Gx. rewrite (glued_gz nv s y z I) in Gy.
      destruct (gz (gluings s) x) as [c|].
      - rewrite (proj2 (eqb_neq z c)) by congruence. destruct (gz (gluings s) y) as [c'|]; auto.
        now rewrite (proj2 (eqb_neq z c')) by congruence.
      - destruct (gz (gluings s) y) as [c'|]; auto. now rewrite (proj2 (eqb_neq z c')) by congruence. }
    split.
    + rewrite (free_gz nv s' z I' T'), (free_gz nv s z I T), E. now rewrite (frame_edge s s' z F).
    + intros w. rewrite (glued_gz nv s' z w I'), (glued_gz nv s z w I). now rewrite E.
Qed.
Theorem C02_unglue s s' x : reachable nv s -> is_edge nv s x -> unglue nv (fst x) (snd x) s = (s', Ok tt) ->
  same_polygons s s' /\ free nv s' x /\
  (forall z, glued nv s x z -> free nv s' z) /\
  (forall z, z <> x -> ~ glued nv s x z ->
     (free nv s' z <-> free nv s z) /\ forall w, glued nv s' z w <-> glued nv s z w).
Proof.
  intros R Ex H. pose proof (reachable_J nv s R) as HJ. pose proof (J_inv nv s HJ) as I.
  assert (Mu : mutable s = true).
  { unfold unglue, mbind, check_mutable in H. destruct (mutable s); auto. discriminate. }
  assert (T : total s) by exact (i_tot nv s I Mu).
  pose proof (edge_inrange nv s x I T Ex) as Rx.
  destruct (unglue_main nv s (fst x) (snd x) I Mu) as [s1 [r [H1 [I' [F [G _]]]]]]; [now rewrite he_eta|].
  rewrite he_eta in G.
  rewrite H in H1. injection H1 as <- <-.
  assert (T' : total s') by (eapply total_frame; eauto).
  split; [intros k; unfold get_polygon; now rewrite (f_polys _ _ F)|].
  split; [|split].
  - apply (free_gz nv s' x I' T'). split; [now apply (frame_edge s s')|]. rewrite G. unfold ungz. now rewrite eqb_refl.
  - intros z Hz. apply (glued_gz nv s _ _ I) in Hz.
    assert (Ez : is_edge nv s z).
    { apply (i_inv nv s I) in Hz. apply (glued_gz nv s _ _ I) in Hz. apply Hz. }
    apply (free_gz nv s' z I' T'). split; [now apply (frame_edge s s')|]. rewrite G. unfold ungz. rewrite Hz, eqb_refl.
    now destruct (eqb z x).
  - intros z Nx Gx.
    assert (E : gz (gluings s') z = gz (gluings s) z).
    { rewrite G. unfold ungz. rewrite (proj2 (eqb_neq z x) Nx). rewrite (glued_gz nv s x z I) in Gx.
      destruct (gz (gluings s) x) as [c|]; auto. now rewrite (proj2 (eqb_neq z c)) by congruence. }
    split.
    + rewrite (free_gz nv s' z I' T'), (free_gz nv s z I T), E. now rewrite (frame_edge s s' z F).
    + intros w. rewrite (glued_gz nv s' z w I'), (glued_gz nv s z w I). now rewrite E.
Qed.
(** without explicit roots both calls succeed on all existing edges *)
Theorem C02_success s x y : reachable nv s -> mutable s = true -> roots_ s = nil -> is_edge nv s x -> is_edge nv s y ->
  snd (glue nv x y s) = Ok tt /\ snd (unglue nv (fst x) (snd x) s) = Ok tt /\
  roots_ (fst (glue nv x y s)) = nil /\ roots_ (fst (unglue nv (fst x) (snd x) s)) = nil.
Proof.
  intros R Mu RN Ex Ey. pose proof (reachable_J nv s R) as HJ. pose proof (J_inv nv s HJ) as I.
  assert (T : total s) by exact (i_tot nv s I Mu).
  pose proof (edge_inrange nv s x I T Ex) as Rx. pose proof (edge_inrange nv s y I T Ey) as Ry.
  destruct (glue_main nv s x y I Mu Rx Ry) as [s1 [r [-> [_ [_ [_ [_ [_ [_ N]]]]]]]]].
  destruct (unglue_main nv s (fst x) (snd x) I Mu) as [s2 [r2 [-> [_ [_ [_ [_ [_ [_ [N2 _]]]]]]]]]]; [now rewrite he_eta|].
  destruct (N RN) as [A ->], (N2 RN) as [B ->]. cbn. auto.
Qed.

(** ** C03 *)
Theorem C03_add_polygon s p lab s' r : reachable nv s -> mutable s = true -> add_polygon nv p lab s = (s', r) ->
  (exists l, r = Ok l /\ ~ is_label s l /\ (forall l', lab = Some l' -> l = l') /\
     (lab = None -> forall k, next_label s <= k < l -> is_label s k) /\
     get_polygon s' l = Ok p /\ (forall k, k <> l -> get_polygon s' k = get_polygon s k) /\
     (forall e, is_edge nv s' (l, e) -> free nv s' (l, e)) /\
     (forall x y, glued nv s' x y <-> glued nv s x y)) \/
  (exists l, lab = Some l /\ is_label s l /\ r = Err ValueError /\ s' = s).
Proof.
  intros R Mu H. pose proof (reachable_J nv s R) as HJ. pose proof (J_inv nv s HJ) as I.
  destruct (add_polygon_spec nv s p lab I) as [s1 [r1 [H1 [I' [M [_ [_ [G [_ C]]]]]]]]].
  rewrite H in H1. injection H1 as <- <-. destruct (C Mu) as [[l [-> [N [L1 [L2 [PP _]]]]]]|[l [-> [K [-> ->]]]]].
  - left. exists l. split; auto. rewrite is_label_keys. split; auto. split; auto.
    assert (T' : total s') by (exact (i_tot nv s' I' (eq_trans M Mu))).
    split. { intros E k Hk. apply is_label_keys. now apply L2. }
    assert (GP : forall k, get_polygon s' k = if k =? l then Ok p else get_polygon s k).
    { intros k. unfold get_polygon, dgetE. rewrite PP, dget_app. destruct (Z.eqb_spec k l) as [->|NE].
      - apply dget_None in N. rewrite N. cbn. now rewrite Z.eqb_refl.
      - cbn. rewrite (proj2 (Z.eqb_neq k l) NE). destruct (dget k (polys s)); auto. }
    split; [now rewrite GP, Z.eqb_refl|]. split; [intros k NE; now rewrite GP, (proj2 (Z.eqb_neq k l) NE)|]. split.
    + intros e E. apply (free_gz nv s' _ I' T'). split; auto. rewrite G.
      destruct (gz (gluings s) (l, e)) eqn:Gl; auto. exfalso. apply N. apply (gz_label nv s _ _ I Gl).
    + intros x y. rewrite (glued_gz nv s' x y I'), (glued_gz nv s x y I). now rewrite G.
  - right. exists l. rewrite is_label_keys. auto.
Qed.
Theorem C03_remove_polygon s l s' r : reachable nv s -> mutable s = true -> remove_polygon nv l s = (s', r) ->
  (is_label s l -> r = Ok tt /\ ~ is_label s' l /\ (forall k, k <> l -> get_polygon s' k = get_polygon s k) /\
     (forall x y, glued nv s' x y <-> glued nv s x y /\ fst x <> l /\ fst y <> l) /\
     (forall x e, glued nv s x (l, e) -> fst x <> l -> free nv s' x)) /\
  (~ is_label s l -> r = Err KeyError /\ s' = s).
Proof.
  intros R Mu H. pose proof (reachable_J nv s R) as HJ. pose proof (J_inv nv s HJ) as I.
  destruct (remove_polygon_spec nv s l I) as [s1 [r1 [H1 [I' [M [_ [_ [_ [_ [H2 H3]]]]]]]]]].
  rewrite H in H1. injection H1 as <- <-.
  assert (KK : is_label s l <-> In l (keys (gluings s))).
  { rewrite is_label_keys. split; [apply (i_tot nv s I Mu)|]. intros K. apply dget_keys in K. destruct K as [g D].
    destruct (i_len nv s I _ _ D) as [q [Dq _]]. apply dget_keys. eauto. }
  split.
  - intros K. apply KK in K. destruct (H3 K) as [G [H4 _]]. destruct (H4 Mu) as [-> [PP _]]. split; auto.
    assert (T' : total s') by (exact (i_tot nv s' I' (eq_trans M Mu))).
    assert (GP : forall k, get_polygon s' k = if k =? l then Err KeyError else get_polygon s k).
    { intros k. unfold get_polygon, dgetE. rewrite PP, dget_ddel by apply (i_np nv s I). cbn [eqb EqB_Z].
      now destruct (k =? l). }
    split. { intros [q Hq]. rewrite GP, Z.eqb_refl in Hq. discriminate. }
    split; [intros k NE; now rewrite GP, (proj2 (Z.eqb_neq k l) NE)|].
    assert (GG : forall x y, glued nv s' x y <-> glued nv s x y /\ fst x <> l /\ fst y <> l).
    { intros x y. rewrite (glued_gz nv s' x y I'), (glued_gz nv s x y I), G. split; [apply rmz_sub|].
      intros [A [B C]]. unfold rmz. rewrite A, (proj2 (Z.eqb_neq _ _) B), (proj2 (Z.eqb_neq _ _) C). auto. }
    split; auto. intros x e Hx NE. apply (free_gz nv s' x I' T'). destruct Hx as [[q [Hq Rq]] Hx]. split.
    + exists q. rewrite GP, (proj2 (Z.eqb_neq _ _) NE). auto.
    + rewrite G. unfold rmz. rewrite (proj2 (Z.eqb_neq _ _) NE).
      apply opposite_edge_Ok in Hx; [|lia]. rewrite he_eta in Hx. destruct Hx as [_ ->]. cbn. now rewrite Z.eqb_refl.
  - rewrite KK. intros K. destruct (H2 K). auto.
Qed.

(** ** C04 *)
Theorem C04_component s l : intact nv s -> is_label s l -> exists c, component nv s l = Ok c /\ is_component nv s l c.
Proof.
  intros R L. pose proof (intact_good nv s R) as G. apply is_label_keys in L.
  destruct (component_spec nv s l (g_inv nv s G) (g_tot nv s G) L) as [c [E [N H]]]. exists c. split; auto. split; auto.
  intros b. rewrite H. symmetry. now apply good_linked.
Qed.

(** ** C05 *)
Lemma transversal_one s rs : good s -> transversal s (fun l => In l (keys (polys s))) rs -> one_per_component nv s rs.
Proof.
  intros G [T1 T2 T3 T4]. split; auto. split; [intros r Hr; now apply is_label_keys, T1|].
  intros l L. apply is_label_keys in L. destruct (T4 l L) as [r [Hr Co]]. exists r. split; auto.
  rewrite good_linked by auto. split; auto. intros r' Hr' Co'. apply T3; auto. rewrite good_linked in Co' by auto.
  eapply rt_trans; [exact Co'|]. apply (conn_sym _ _ _ (i_inv nv s (g_inv nv s G))), Co.
Qed.
Theorem C05_roots s : intact nv s ->
  exists rs cs ls b, get_roots nv s = Ok rs /\ get_components nv s = Ok cs /\ iter_labels nv s = Ok ls /\ is_connected nv s = Ok b /\
    one_per_component nv s rs /\
    length cs = length rs /\ (forall k r, nth_error rs k = Some r -> exists c, nth_error cs k = Some c /\ is_component nv s r c) /\
    ls = concat cs /\ NoDup ls /\ (forall l, In l ls <-> is_label s l) /\
    (b = true <-> forall l l', is_label s l -> is_label s l' -> linked nv s l l').
Proof.
  intros R. pose proof (intact_good nv s R) as G.
  destruct (get_components_spec nv s G) as [rs [cs [E1 [TR [E2 [L [K [_ [ND [LI _]]]]]]]]]].
  destruct (is_connected_spec nv s G) as [b [E3 Hb]].
  exists rs, cs, (concat cs), b. split; auto. split; auto. split; [unfold iter_labels; now rewrite E2|]. split; auto.
  split; [now apply transversal_one|]. split; auto. split.
  { intros k r Hk. destruct (K k r Hk) as [c [Hc [Nc Hc']]]. exists c. split; auto. split; auto.
    intros b'. rewrite Hc'. symmetry. now apply good_linked. }
  split; auto. split; auto. split; [intros l; rewrite LI; symmetry; apply is_label_keys|].
  rewrite Hb. split.
  - intros H l l' Hl Hl'. apply good_linked; auto. apply H; now apply is_label_keys.
  - intros H l l' Hl Hl'. apply good_linked; auto. apply H; now apply is_label_keys.
Qed.
(** explicit roots come first, the roots of the other components are the minimal labels *)
Theorem C05_explicit_roots s : intact nv s ->
  exists d, get_roots nv s = Ok (roots_ s ++ d) /\ forall r l, In r d -> linked nv s r l -> r <= l.
Proof.
  intros R. pose proof (intact_good nv s R) as G. destruct (get_roots_spec nv s G) as [d [E [_ [M _]]]].
  exists d. split; auto. intros r l Hr Hl. apply M; auto. now apply good_linked.
Qed.
(** [set_roots] accepts exactly the admissible choices, and these are then the explicit roots *)
Theorem C05_set_roots s rs : intact nv s -> mutable s = true ->
  (admissible_roots nv s rs -> exists d, snd (set_roots nv rs s) = Ok tt /\ get_roots nv (fst (set_roots nv rs s)) = Ok (rs ++ d)) /\
  (~ admissible_roots nv s rs -> set_roots nv rs s = (s, Err ValueError)).
Proof.
  intros R Mu. pose proof (intact_good nv s R) as G.
  assert (AE : admissible_roots nv s rs <-> (forall r, In r rs -> In r (keys (polys s))) /\ NoDup rs /\
      (forall r r', In r rs -> In r' rs -> conn (gluings s) r r' -> r = r')).
  { unfold admissible_roots. split.
    - intros [A [B C]]. split; [intros r Hr; now apply is_label_keys, B|]. split; auto.
      intros r r' Hr Hr' Co. apply C; auto. now apply good_linked.
    - intros [A [B C]]. split; auto. split; [intros r Hr; now apply is_label_keys, A|].
      intros r r' Hr Hr' Co. apply C; auto. now apply good_linked. }
  destruct (set_roots_spec nv s rs G Mu) as [s' [x [E [H1 H2]]]]. rewrite E. cbn. split.
  - intros A. apply AE in A. destruct (H1 A) as [-> ->].
    destruct (set_roots_J nv s rs (good_J nv s G)) as [_ [G' _]]. specialize (G' G). rewrite E in G'. cbn in G'.
    destruct (get_roots_spec nv _ G') as [d [Ed _]]. exists d. split; auto.
  - intros A. rewrite AE in A. destruct (H2 A) as [-> ->]. auto.
Qed.
Theorem C05_set_root s r : intact nv s -> mutable s = true ->
  (is_label s r -> exists rs d, snd (set_root nv r s) = Ok tt /\ get_roots nv (fst (set_root nv r s)) = Ok (rs ++ [r] ++ d) /\
      forall q, In q rs <-> In q (roots_ s) /\ ~ linked nv s r q) /\
  (~ is_label s r -> set_root nv r s = (s, Err ValueError)).
Proof.
  intros R Mu. pose proof (intact_good nv s R) as G. rewrite is_label_keys.
  destruct (set_root_spec nv s r G Mu) as [s' [x [E [H1 H2]]]]. rewrite E. cbn. split.
  - intros K. destruct (H2 K) as [-> [f [-> Hf]]].
    destruct (set_root_J nv s r (good_J nv s G)) as [_ [G' _]]. specialize (G' G). rewrite E in G'. cbn in G'.
    destruct (get_roots_spec nv _ G') as [d [Ed _]]. exists (filter f (roots_ s)), d. split; auto. split.
    + rewrite Ed. cbn. now rewrite <- app_assoc.
    + intros q. rewrite filter_In. rewrite Hf. now rewrite good_linked.
  - intros K. destruct (H1 K) as [-> ->]. auto.
Qed.

(** ** C06 *)
(** what holds: if every component has an explicit root (or there are no explicit roots), then gluing succeeds and
    keeps it so. Missing: surfaces with explicit roots in some components only, for which the claim is refuted below. *)
Definition fully_rooted s := roots_ s = nil \/ forall l, is_label s l -> exists r, In r (roots_ s) /\ linked nv s r l.
Theorem C06_glue_roots_partial s x y : intact nv s -> mutable s = true -> fully_rooted s -> is_edge nv s x -> is_edge nv s y ->
  exists s', glue nv x y s = (s', Ok tt) /\ fully_rooted s' /\ admissible_roots nv s' (roots_ s') /\
    (roots_ s = nil -> roots_ s' = nil).
Proof.
  intros R Mu FR Ex Ey. pose proof (intact_good nv s R) as G. pose proof (g_inv nv s G) as I.
  assert (C : cov s).
  { destruct FR as [FR|FR]; [left; auto|right]. intros l Hl. apply is_label_keys in Hl. destruct (FR l Hl) as [r [Hr Co]].
    exists r. split; auto. now apply good_linked. }
  pose proof (edge_inrange nv s x I (g_tot nv s G) Ex) as Rx. pose proof (edge_inrange nv s y I (g_tot nv s G) Ey) as Ry.
  destruct (glue_main nv s x y I Mu Rx Ry) as [s' [r [H1 [I' [F [_ [_ [S [CC N]]]]]]]]].
  destruct (CC (g_sep nv s G) C) as [C' ->]. exists s'. split; auto.
  assert (LC : forall a b, linked nv s' a b <-> conn (gluings s') a b) by (intros; now apply linked_conn).
  split; [|split].
  - destruct C' as [C'|C']; [left; auto|right]. intros l Hl. apply is_label_keys in Hl. destruct (C' l Hl) as [q [Hq Co]].
    exists q. split; auto. now apply LC.
  - destruct (S (g_sep nv s G)) as [S1 S2]. split; auto. split; [intros q Hq; now apply is_label_keys, (i_roots nv s' I')|].
    intros q q' Hq Hq' Co. apply S2; auto. now apply LC.
  - intros RN. apply N, RN.
Qed.
(** in all cases: at most one explicit root in each component *)
Theorem C06_roots_separated s : intact nv s -> admissible_roots nv s (roots_ s).
Proof.
  intros R. pose proof (intact_good nv s R) as G. destruct (g_sep nv s G) as [S1 S2]. split; auto.
  split; [intros q Hq; now apply is_label_keys, (i_roots nv s (g_inv nv s G))|].
  intros q q' Hq Hq' Co. apply S2; auto. now apply good_linked.
Qed.

(** ** C07 *)
(** what holds: all mutators except [remove_polygon] and [replace_polygon] raise and change nothing, and the surface looks
    the same after any sequence of such calls. Missing: these two mutators, for which the claim is refuted below. *)
Theorem C07_immutable_raises s o : mutable s = false -> no_remove_replace o ->
  (o = OpSetImmutable \/ run_op nv o s = (s, Err PyException)).
Proof.
  intros Mu N. destruct o; cbn in *; try tauto; right.
  - unfold add_polygon, mbind, check_mutable. now rewrite Mu.
  - unfold glue, mbind, check_mutable. now rewrite Mu.
  - unfold unglue, mbind, check_mutable. now rewrite Mu.
  - unfold set_root, mbind, check_mutable. now rewrite Mu.
  - unfold set_roots, mbind, check_mutable. now rewrite Mu.
Qed.
Lemma view_refl s : same_view nv s s.
Proof. constructor; auto. Qed.
Lemma immutable_step s o : intact nv s -> mutable s = false -> no_remove_replace o ->
  same_view nv s (fst (run_op nv o s)) /\ intact nv (fst (run_op nv o s)) /\ mutable (fst (run_op nv o s)) = false.
Proof.
  intros R Mu N. destruct (C07_immutable_raises s o Mu N) as [->|E].
  - cbn [run_op]. pose proof (intact_good nv s R) as G.
    assert (R' : intact nv (fst (run_op nv OpSetImmutable s))) by (constructor; cbn; auto).
    cbn [run_op] in R'. destruct (set_immutable_spec nv s G) as [s' [rs [c [E [ER [-> G']]]]]]. rewrite E in *. cbn in *.
    split; [|auto]. constructor; auto. rewrite ER.
    destruct (get_roots_spec nv _ G') as [d [E' [_ [_ D]]]]. rewrite (D eq_refl), app_nil_r in E'. cbn in E'. exact E'.
  - rewrite E. cbn. split; [apply view_refl|]. auto.
Qed.
Theorem C07_immutable_partial s ops : intact nv s -> mutable s = false -> Forall no_remove_replace ops ->
  same_view nv s (run nv ops s) /\ mutable (run nv ops s) = false.
Proof.
  intros R Mu F. revert s R Mu. induction ops as [|o ops IH]; intros s R Mu; cbn.
  - split; [apply view_refl|auto].
  - inversion F; subst. destruct (immutable_step s o R Mu H1) as [[V1 V2 V3] [R' Mu']].
    destruct (IH H2 _ R' Mu') as [[W1 W2 W3] Mu'']. split; [|exact Mu'']. change (fold_left _ ops _) with (run nv ops (fst (run_op nv o s))).
    constructor; intros; congruence.
Qed.
(** nothing makes a surface mutable again, and [set_immutable] always succeeds *)
Theorem C07_never_mutable s ops : mutable s = false -> mutable (run nv ops s) = false.
Proof.
  revert s. induction ops as [|o ops IH]; intros s Mu; cbn; auto. apply IH. now apply run_mutable_false.
Qed.
Theorem C07_set_immutable s : intact nv s -> exists s', set_immutable nv s = (s', Ok tt) /\ mutable s' = false /\ same_view nv s s'.
Proof.
  intros R. pose proof (intact_good nv s R) as G. destruct (set_immutable_spec nv s G) as [s' [rs [c [E [ER [-> G']]]]]].
  eexists. split; [exact E|]. split; auto. constructor; auto. rewrite ER.
  destruct (get_roots_spec nv _ G') as [d [E' [_ [_ D]]]]. rewrite (D eq_refl), app_nil_r in E'. cbn in E'. exact E'.
Qed.

(** ** C08 *)
Lemma iter_edges_spec s : good s -> exists es, iter_edges nv s = Ok es /\ NoDup es /\ forall x, In x es <-> is_edge nv s x.
Proof.
  intros G. destruct (iter_labels_spec nv s G) as [ls [E [ND LI]]]. unfold iter_edges. rewrite E.
  set (f := fun l => match get_polygon s l with Ok p => Ok (map (fun e => (l, e)) (edge_range nv p)) | Err x => Err x end).
  destruct (rmap_total f ls) as [es HE].
  { intros l Hl. apply LI, dget_keys in Hl. destruct Hl as [p D]. unfold f.
    rewrite (proj2 (get_polygon_Ok s l p) D). eauto. }
  rewrite HE. exists (concat es). split; auto. split.
  - apply (rmap_concat_NoDup f fst ls es HE ND). intros l bs. unfold f. destruct (get_polygon s l) as [p|]; [|discriminate].
    intros [= <-]. split.
    + apply FinFun.Injective_map_NoDup; [intros a b [=]; auto|]. unfold edge_range.
      apply FinFun.Injective_map_NoDup; [intros a b; lia|apply seq_NoDup].
    + intros b Hb. apply in_map_iff in Hb. destruct Hb as [e [<- _]]. auto.
  - intros x. rewrite (rmap_concat_In f ls es HE). unfold f, is_edge. split.
    + intros [l [bs [Hl [Ef Hx]]]]. destruct (get_polygon s l) as [p|] eqn:Gp; [|discriminate]. injection Ef as <-.
      apply in_map_iff in Hx. destruct Hx as [e [<- He]]. apply edge_range_In in He. exists p. auto.
    + intros [p [Gp Rx]]. exists (fst x). rewrite Gp. eexists. split; [|split; [reflexivity|]].
      * apply LI, dget_keys. exists p. now apply get_polygon_Ok.
      * apply in_map_iff. exists (snd x). rewrite he_eta. split; auto. now apply edge_range_In.
Qed.
(** iteration over edges() and gluings() yields exactly the edges and the pairs of glued edges *)
Theorem C08_iteration s : intact nv s -> exists es gs, iter_edges nv s = Ok es /\ iter_gluings nv s = Ok gs /\
  NoDup es /\ (forall x, In x es <-> is_edge nv s x) /\ NoDup gs /\ forall x y, In (x, y) gs <-> glued nv s x y.
Proof.
  intros R. pose proof (intact_good nv s R) as G. destruct (iter_edges_spec s G) as [es [E [ND HI]]].
  unfold iter_gluings. rewrite E.
  set (f := fun e : hedge => match opposite_edge s (fst e) (snd e) with
     | Ok (Some c) => Ok [(e, c)] | Ok None => Ok nil | Err x => Err x end).
  destruct (rmap_total f es) as [gs HG].
  { intros x Hx. apply HI in Hx. pose proof (C01_well_defined s R x Hx) as W. unfold f.
    destruct W as [[_ ->]|[y [_ ->]]]; eauto. }
  match goal with |- context [rmap ?g es] => change (rmap g es) with (rmap f es) end. rewrite HG. exists es, (concat gs). split; auto. split; auto. split; auto. split; auto. split.
  - apply (rmap_concat_NoDup f fst es gs HG ND). intros x bs. unfold f.
    destruct (opposite_edge s (fst x) (snd x)) as [[c|]|]; [| |discriminate]; intros [= <-].
    + split; [constructor; [intros []|constructor]|]. intros b [<-|[]]. auto.
    + split; [constructor|]. intros b [].
  - intros x y. rewrite (rmap_concat_In f es gs HG). unfold glued. split.
    + intros [z [bs [Hz [Ef Hb]]]]. unfold f in Ef. destruct (opposite_edge s (fst z) (snd z)) as [[c|]|] eqn:O; [| |discriminate]; injection Ef as <-.
      * destruct Hb as [Hb|[]]. injection Hb as -> ->. split; auto. now apply HI.
      * destruct Hb.
    + intros [Ex O]. exists x. unfold f. rewrite O. eexists. split; [now apply HI|]. split; [reflexivity|]. cbn. auto.
Qed.
(** the in-test is wrong for every edge of every surface, and for every gluing *)
Theorem C08_contains_refuted s : intact nv s ->
  (forall x, is_edge nv s x -> contains_edge nv s x = Ok false) /\
  (forall x y, glued nv s x y -> contains_gluing nv s (x, y) = Ok false).
Proof.
  intros R. assert (H : forall x, is_edge nv s x -> contains_edge nv s x = Ok false).
  { intros x [p [Gp Rx]]. unfold contains_edge. rewrite Gp. destruct (dmem (fst x) (polys s)); cbn; auto.
    rewrite (proj2 (Z.ltb_ge (Z.of_nat (nv p)) (snd x))) by lia. now rewrite andb_false_r. }
  split; auto. intros x y [E _]. unfold contains_gluing. cbn [fst]. now rewrite (H x E).
Qed.
(** it answers True exactly for the numbers that are larger than the number of vertices *)
Theorem C08_contains_edge_partial s x : contains_edge nv s x = Ok true <->
  exists p, get_polygon s (fst x) = Ok p /\ Z.of_nat (nv p) < snd x.
Proof.
  unfold contains_edge, get_polygon, dmem, dgetE. destruct (dget (fst x) (polys s)) as [p|]; cbn.
  - rewrite (proj2 (Z.leb_le 0 (Z.of_nat (nv p)))) by lia. cbn. split.
    + intros [= H]. exists p. split; auto. now apply Z.ltb_lt.
    + intros [q [[= <-] H]]. f_equal. now apply Z.ltb_lt.
  - split; [discriminate|]. intros [q [H _]]. discriminate.
Qed.
End T.

(** ** refutations and examples *)
Notation qv4 := (fun n : nat => n).

(** C01 with negative edge numbers *)
Theorem C01_negative_index_refuted : ~ forall ops : list (@op nat), involutive qv4 (qrun ops empty).
Proof.
  intros H. specialize (H [OpAdd 4%nat None; OpGlue (0, -1) (0, 1)] (0, 1) (0, -1)).
  destruct H as [H _].
  - split; [|vm_compute; reflexivity]. exists 4%nat. split; [vm_compute; reflexivity|]. cbn. lia.
  - destruct H as [p [_ H]]. cbn in H. lia.
Qed.
(** C06: gluing fails when neither of the merged components has an explicit root *)
Theorem C06_glue_fails_refuted : exists (ops : list (@op nat)) x y, let s := qrun ops empty in
  Forall op_nonneg ops /\ is_edge qv4 s x /\ is_edge qv4 s y /\ snd (glue qv4 x y s) = Err AssertionError.
Proof.
  exists [OpAdd 4%nat None; OpAdd 4%nat None; OpAdd 4%nat None; OpSetRoots [0]], (1, 0), (2, 0). cbv zeta.
  split; [repeat constructor|]. split; [|split; [|vm_compute; reflexivity]].
  - exists 4%nat. split; [vm_compute; reflexivity|cbn; lia].
  - exists 4%nat. split; [vm_compute; reflexivity|cbn; lia].
Qed.
(** ... the same after a history that never calls [set_roots] but removes a polygon *)
Theorem C06_glue_after_remove_refuted : exists (ops : list (@op nat)) x y, let s := qrun ops empty in
  Forall op_nonneg ops /\ is_edge qv4 s x /\ is_edge qv4 s y /\ snd (glue qv4 x y s) = Err AssertionError.
Proof.
  exists [OpAdd 4%nat None; OpAdd 4%nat None; OpAdd 4%nat None; OpAdd 4%nat None; OpGlue (0, 0) (1, 0); OpGlue (1, 1) (2, 1);
          OpGlue (1, 2) (3, 2); OpSetRoot 0; OpRemove 1], (2, 0), (3, 0). cbv zeta.
  split; [repeat constructor; cbn; lia|]. split; [|split; [|vm_compute; reflexivity]].
  - exists 4%nat. split; [vm_compute; reflexivity|cbn; lia].
  - exists 4%nat. split; [vm_compute; reflexivity|cbn; lia].
Qed.
(** ... and a component with an explicit root loses it when it is glued to one without *)
Theorem C06_root_lost_refuted : exists (ops : list (@op nat)) x y s', let s := qrun ops empty in
  Forall op_nonneg ops /\ roots_ s = [1] /\ glue qv4 x y s = (s', Ok tt) /\ roots_ s' = nil /\ get_roots qv4 s' = Ok [0].
Proof.
  exists [OpAdd 4%nat None; OpAdd 4%nat None; OpSetRoots [1]], (0, 0), (1, 0). eexists. cbv zeta.
  split; [repeat constructor|]. split; [vm_compute; reflexivity|]. split; [vm_compute; reflexivity|]. split; vm_compute; reflexivity.
Qed.
(** C07: remove_polygon raises on an immutable surface but destroys its gluings; replace_polygon does not even raise *)
Theorem C07_remove_refuted : exists ops : list (@op nat), let s := qrun ops empty in
  mutable s = false /\ exists s', remove_polygon qv4 0 s = (s', Err PyException) /\
    opposite_edge s 0 0 = Ok (Some (0, 2)) /\ opposite_edge s' 0 0 = Err KeyError.
Proof.
  exists (ex_torus ++ [OpSetImmutable]). cbv zeta. split; [vm_compute; reflexivity|]. eexists.
  split; [vm_compute; reflexivity|]. split; vm_compute; reflexivity.
Qed.
Theorem C07_replace_refuted : exists (ops : list (@op (nat * nat))) p, let s := run fst ops empty in
  mutable s = false /\ exists s', replace_polygon fst 0 p s = (s', Ok tt) /\ get_polygon s' 0 <> get_polygon s 0.
Proof.
  exists [OpAdd (4, 0)%nat None; OpSetImmutable], (4, 1)%nat. cbv zeta. split; [vm_compute; reflexivity|]. eexists.
  split; [vm_compute; reflexivity|]. vm_compute. discriminate.
Qed.

Example ex_history_reachable : reachable qv4 (qrun ex_history empty).
Proof. exists ex_history. split; [|reflexivity]. repeat constructor; cbn; lia. Qed.
Example ex_history_value :
  keys (polys (qrun ex_history empty)) = [0; 1; 2] /\ mutable (qrun ex_history empty) = true /\
  opposite_edge (qrun ex_history empty) 0 0 = Ok (Some (1, 1)) /\ opposite_edge (qrun ex_history empty) 0 1 = Ok (Some (0, 1)) /\
  roots_ (qrun ex_history empty) = [1; 2] /\ get_roots qv4 (qrun ex_history empty) = Ok [1; 2] /\
  get_components qv4 (qrun ex_history empty) = Ok [[1; 0]; [2]] /\ is_connected qv4 (qrun ex_history empty) = Ok false.
Proof. vm_compute. repeat split. Qed.
Example ex_history_intact : intact qv4 (qrun ex_history empty).
Proof. apply reachable_intact; [apply ex_history_reachable|vm_compute; reflexivity]. Qed.
Example ex_glue : exists s', glue qv4 (0, 0) (2, 3) (qrun ex_history empty) = (s', Ok tt) /\ opposite_edge s' 1 1 = Ok None /\
  roots_ s' = [1; 2].
Proof. eexists. split; [vm_compute; reflexivity|]. split; vm_compute; reflexivity. Qed.
Example ex_torus_immutable : mutable (qrun (ex_torus ++ [OpSetImmutable]) empty) = false /\
  connected (qrun (ex_torus ++ [OpSetImmutable]) empty) = true /\
  iter_gluings qv4 (qrun (ex_torus ++ [OpSetImmutable]) empty) =
    Ok [((0, 0), (0, 2)); ((0, 1), (0, 3)); ((0, 2), (0, 0)); ((0, 3), (0, 1))].
Proof. vm_compute. repeat split. Qed.

Print Assumptions C01_involution.
Print Assumptions C01_well_defined.
Print Assumptions C01_negative_index_refuted.
Print Assumptions C02_glue.
Print Assumptions C02_unglue.
Print Assumptions C02_success.
Print Assumptions C03_add_polygon.
Print Assumptions C03_remove_polygon.
Print Assumptions C04_component.
Print Assumptions C05_roots.
Print Assumptions C05_explicit_roots.
Print Assumptions C05_set_roots.
Print Assumptions C05_set_root.
Print Assumptions C06_glue_roots_partial.
Print Assumptions C06_roots_separated.
Print Assumptions C06_glue_fails_refuted.
Print Assumptions C06_glue_after_remove_refuted.
Print Assumptions C06_root_lost_refuted.
Print Assumptions C07_immutable_raises.
Print Assumptions C07_immutable_partial.
Print Assumptions C07_never_mutable.
Print Assumptions C07_set_immutable.
Print Assumptions C07_remove_refuted.
Print Assumptions C07_replace_refuted.
Print Assumptions C08_iteration.
Print Assumptions C08_contains_refuted.
Print Assumptions C08_contains_edge_partial.
