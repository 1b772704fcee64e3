(** Theorems C63 and C64: the enumeration of saddle connections and the class [SaddleConnection]. *)
From Coq Require Import List Bool ZArith Arith Lia QArith Ring Field.
From Verif Require Import OField FMicromega PField MBase MDict MEuclid PEuclid SEuclid MSim SSim MPoly SPoint SCut TEuclid MSurf SSurf PSurf PSurf3 ExTab MTangent STangent PInward PTangent3 SRotate MSaddle SSaddle PSaddle PSaddle2 PSaddle3 PSaddle4 PSaddle5 PSaddle6 PSaddle7 TLazy TTangent TRotate.
Import ListNotations.
Open Scope nat_scope.

Section Saddle.
Variables (K : OField) (L : Type) (EL : EqB L) (D : L -> Prop) (S : surface K L) (Cat : categories).
Hypothesis V : valid D S.
Hypothesis PRS : forall l P, D l -> s_poly S l = Ok P -> proper P.

(** the attributes describe a saddle connection *)
Definition correct (c : saddle K L) := is_saddle D S (sc_start c) (sc_holonomy c) (sc_end c) (sc_end_holonomy c) /\
  direction_of (sc_holonomy c) (sc_direction c) /\ direction_of (sc_end_holonomy c) (sc_end_direction c).

(** ** C64: the class *)
(** [==] compares the starts and the directions, this is enough. *)
Theorem C64_equal c d : correct c -> correct d -> saddle_eqb c d = true <-> c = d.
Proof.
  intros [A1 [A2 A3]] [B1 [B2 B3]]. unfold saddle_eqb. split.
  - intros E. apply andb_true_iff in E. destruct E as [E1 E2]. apply (proj1 (veqb_eq _ _)) in E1. apply (proj1 (eqb_ok _ _)) in E2.
    destruct c as [x dir y dir' h h'], d as [x2 dir2 y2 dir2' h2 h2']. cbn [sc_start sc_direction sc_end sc_end_direction sc_holonomy sc_end_holonomy] in *. subst x2 dir2.
    destruct (direction_multiple h h2 dir A2 B2) as [t [T E]]. destruct x as [l0 k0]. rewrite E in B1. destruct (saddle_unique D S V PRS l0 k0 h y h' y2 h2' t T A1 B1) as [E1 [-> ->]]. rewrite E1 in E. subst h2.
    f_equal. apply (direction_unique h'); auto.
  - intros ->. apply andb_true_iff. split; [now apply veqb_eq|now apply eqb_ok].
Qed.
(** [invert()] is the same saddle connection in the other direction. *)
Theorem C64_invert c : correct c -> exists d, saddle_invert S Cat c = Ok d /\ correct d /\ saddle_invert S Cat d = Ok c /\
  sc_start d = sc_end c /\ sc_end d = sc_start c /\ sc_holonomy d = sc_end_holonomy c /\ sc_end_holonomy d = sc_holonomy c.
Proof.
  intros [A1 [A2 A3]]. pose proof (saddle_sym D S V PRS _ _ _ _ A1) as A1'. pose proof (saddle_nonzero D S PRS _ _ _ _ A1) as N. pose proof (saddle_nonzero D S PRS _ _ _ _ A1') as N'.
  destruct c as [x dir y dir' h h']. cbn [sc_start sc_direction sc_end sc_end_direction sc_holonomy sc_end_holonomy] in *.
  exists (Saddle y dir' x dir h' h). unfold saddle_invert. cbn [sc_start sc_direction sc_end sc_end_direction sc_holonomy sc_end_holonomy].
  rewrite !new_given by (apply direction_nz with (1 := A2) || apply direction_nz with (1 := A3)). rewrite !(canonical_unit h dir), !(canonical_unit h' dir') by auto. split; auto. split; [split; auto|]. auto.
Qed.
(** The saddle connection of an edge is found. *)
Theorem C64_edge l k P n : closed D S -> (c_positive Cat = true -> positive_dilations D S) -> D l -> s_poly S l = Ok P -> k < length P -> 0 < n ->
  exists c, saddle_new S Cat (l, k) (edge P k) None None None None true n = Ok c /\ correct c /\ sc_start c = (l, k) /\ sc_holonomy c = edge P k.
Proof.
  intros C PD Dl GP Lk N0. destruct (glue_ex D S V C l P k Dl GP Lk) as [l' [e' [P' G]]]. destruct n as [|n]; [lia|]. rewrite (new_edge D S Cat V PRS _ _ _ _ _ _ n PD G). eexists. split; [reflexivity|].
  cbn [sc_start sc_holonomy]. split; auto. split; [left; exists P, P'; auto|]. pose proof (glued_sym _ _ _ _ _ _ _ _ V G) as G'.
  split; apply canonical_direction; apply edge_nz; apply (PRS _ _ (ga_dom _ _ _ _ _ _ _ _ G) GP) || apply (PRS _ _ (ga_dom _ _ _ _ _ _ _ _ G') (ga_poly' _ _ _ _ _ _ _ _ G)).
Qed.

(** ** C63: the enumeration *)
Hypothesis C : closed D S.
Hypothesis CV : forall l P, D l -> s_poly S l = Ok P -> is_convex false P = true.
Hypothesis PD : c_positive Cat = true -> positive_dilations D S.

(** The saddle connections that start at the vertex [k] of the polygon [l]: each of them is one, and none is listed twice. *)
Theorem C63_vertex fuel bound l k P out : D l -> s_poly S l = Ok P -> k < length P -> saddle_connections_vertex S Cat fuel bound l k = Ok out ->
  (forall c, In c out -> correct c /\ sc_start c = (l, k) /\ fle (length2 (sc_holonomy c)) bound) /\ NoDup (map sc_holonomy out).
Proof.
  intros Dl GP Lk E. assert (B0 : flt f0 bound) by (unfold saddle_connections_vertex in E; destruct (fleb bound f0) eqn:T; [discriminate|]; now apply fleb_false).
  destruct (vertex_unfold D S Cat V C PRS l k bound PD fuel P B0 Dl GP Lk) as [cs [E1 CS]]. rewrite E1 in E. apply search_explore in E. destruct E as [outs [F ->]]. inversion F as [|b o1 ch os X F']; subst. inversion F'; subst. cbn [concat]. rewrite app_nil_r.
  pose proof (start_inv D S PRS CV l k P Dl GP Lk) as I. pose proof (start_verts D S V l k P Dl GP Lk) as VO.
  assert (CC : forall c, In c cs -> correct c /\ sc_start c = (l, k) /\ fle (length2 (sc_holonomy c)) bound /\ sc_holonomy c = edge P k).
  { destruct CS as [[LB [l' [e' [P' [G ->]]]]]|[_ ->]]; [|intros c []]. intros c [<-|[]]. cbn. split; [|auto]. split; [left; exists P, P'; auto|]. pose proof (glued_sym _ _ _ _ _ _ _ _ V G) as G'.
    split; apply canonical_direction; apply edge_nz; apply (PRS _ _ (ga_dom _ _ _ _ _ _ _ _ G) GP) || apply (PRS _ _ (ga_dom _ _ _ _ _ _ _ _ G') (ga_poly' _ _ _ _ _ _ _ _ G)). }
  assert (XX : forall c, In c o1 -> correct c /\ sc_start c = (l, k) /\ fle (length2 (sc_holonomy c)) bound /\ flt f0 (ccw (edge P k) (sc_holonomy c))).
  { intros c IN. destruct (explore_sound D S Cat V C PRS CV l k bound _ _ X None P I VO c IN) as [[S1 [S2 [S3 [S4 S5]]]] [W _]]. unfold correct. rewrite S1. split; [auto|]. split; auto. split; auto.
    destruct W as [W _]. now rewrite start_w0_edge in W. }
  split.
  - intros c IN. apply in_app_or in IN. destruct IN as [IN|IN]; [destruct (CC c IN) as [A1 [A2 [A3 _]]]|destruct (XX c IN) as [A1 [A2 [A3 _]]]]; auto.
  - rewrite map_app. apply nodup_app.
    + destruct CS as [[_ [l' [e' [P' [_ ->]]]]]|[_ ->]]; cbn; repeat constructor. intros [].
    + exact (explore_nodup D S Cat V C PRS CV l k bound _ _ X None P I VO).
    + intros h I1 I2. apply in_map_iff in I1. apply in_map_iff in I2. destruct I1 as [c1 [E1' I1]], I2 as [c2 [E2' I2]]. destruct (CC c1 I1) as [_ [_ [_ H1]]]. destruct (XX c2 I2) as [_ [_ [_ H2]]].
      rewrite E2', <- E1', H1, ccw_self in H2. now apply flt_irrefl in H2.
Qed.
(** All saddle connections are listed if the angle at the vertex is less than 180 degrees. Missing: angles of 180 degrees, see
    C63_flat_refuted, and polygons that are not convex, see C63_nonconvex_refuted. *)
Theorem C63_vertex_complete_partial fuel bound l k P out : D l -> s_poly S l = Ok P -> k < length P -> sharp D S (l, k) -> saddle_connections_vertex S Cat fuel bound l k = Ok out ->
  forall h y h', is_saddle D S (l, k) h y h' -> fle (length2 h) bound -> exists c, In c out /\ sc_holonomy c = h /\ sc_end c = y /\ sc_end_holonomy c = h'.
Proof.
  intros Dl GP Lk SH E h y h' IS LB. assert (B0 : flt f0 bound) by (unfold saddle_connections_vertex in E; destruct (fleb bound f0) eqn:T; [discriminate|]; now apply fleb_false).
  destruct (vertex_unfold D S Cat V C PRS l k bound PD fuel P B0 Dl GP Lk) as [cs [E1 CS]]. rewrite E1 in E. apply search_explore in E. destruct E as [outs [F ->]]. inversion F as [|b o1 ch os X F']; subst. inversion F'; subst. cbn [concat]. rewrite app_nil_r.
  assert (W : flt f0 (ccw (fst (bm_wedge (start_beam l k P))) (snd (bm_wedge (start_beam l k P))))).
  { rewrite start_w0_edge, start_w1_edge by auto. apply SH. exists P. cbn [fst snd]. split; auto. split; auto. split; auto. split; auto. unfold pred0. now rewrite edge_mod. }
  destruct (complete_search D S Cat V C PRS CV l k bound P Dl GP Lk o1 W X h y h' IS LB) as [->|[c [IN Ec]]]; [|exists c; split; auto; apply in_or_app; now right].
  destruct CS as [[_ [l' [e' [P' [G ->]]]]]|[NB _]]; [|contradiction]. eexists. split; [left; reflexivity|]. cbn [sc_holonomy sc_end sc_end_holonomy]. split; auto.
  assert (IE : is_saddle D S (l, k) (edge P k) (l', e') (edge P' e')) by (left; exists P, P'; auto).
  destruct (saddle_same D S V PRS l k (edge P k) (l', e') (edge P' e') y h' IE IS) as [-> ->]. auto.
Qed.
(** The search does not fail, it may however not end. Then nothing is returned. *)
Theorem C63_error fuel bound l k P : D l -> s_poly S l = Ok P -> k < length P ->
  (fle bound f0 -> saddle_connections_vertex S Cat fuel bound l k = Err ValueError) /\
  (flt f0 bound -> (exists out, saddle_connections_vertex S Cat fuel bound l k = Ok out) \/ saddle_connections_vertex S Cat fuel bound l k = Err Diverge) /\
  (forall out m, saddle_connections_vertex S Cat fuel bound l k = Ok out -> fuel <= m -> saddle_connections_vertex S Cat m bound l k = Ok out).
Proof.
  intros Dl GP Lk. split; [|split].
  - intros B. unfold saddle_connections_vertex. apply fleb_true in B. now rewrite B.
  - intros B0. destruct (vertex_unfold D S Cat V C PRS l k bound PD fuel P B0 Dl GP Lk) as [cs [-> _]]. apply (search_no_error D S Cat V C PRS CV l k bound). intros b [<-|[]].
    exists None, P. split; [now apply start_inv|now apply (start_verts D S V)].
  - intros out m E LE. unfold saddle_connections_vertex in *. destruct (fleb bound f0); [discriminate|]. rewrite GP in *. cbn [bind] in *.
    match type of E with bind ?x _ = _ => destruct x as [cs|] end; [|discriminate]. cbn [bind] in *. now apply (search_more S Cat fuel).
Qed.

(** The saddle connections of the surface. *)
Definition listed (bound : K) (start : L * nat -> Prop) (out : list (saddle K L)) :=
  (forall c, In c out -> correct c /\ start (sc_start c) /\ fle (length2 (sc_holonomy c)) bound) /\ NoDup out.
Definition complete (bound : K) (start : L * nat -> Prop) (out : list (saddle K L)) :=
  forall x h y h', start x -> is_saddle D S x h y h' -> fle (length2 h) bound -> exists c, In c out /\ sc_start c = x /\ sc_holonomy c = h /\ sc_end c = y /\ sc_end_holonomy c = h'.
Lemma listed_app bound (s1 s2 : L * nat -> Prop) o1 o2 : (forall x, s1 x -> s2 x -> False) -> listed bound s1 o1 -> listed bound s2 o2 -> listed bound (fun x => s1 x \/ s2 x) (o1 ++ o2).
Proof.
  intros X [A1 A2] [B1 B2]. split; [|apply nodup_app; auto].
  - intros c IN. apply in_app_or in IN. destruct IN as [IN|IN]; [destruct (A1 c IN) as [? [? ?]]|destruct (B1 c IN) as [? [? ?]]]; auto.
  - intros c I1 I2. apply (X (sc_start c)); [now apply A1|now apply B1].
Qed.
Lemma complete_app bound (s1 s2 : L * nat -> Prop) o1 o2 : complete bound s1 o1 -> complete bound s2 o2 -> complete bound (fun x => s1 x \/ s2 x) (o1 ++ o2).
Proof.
  intros A B x h y h' [H|H] IS LB; [destruct (A x h y h' H IS LB) as [c [IN E]]|destruct (B x h y h' H IS LB) as [c [IN E]]]; exists c; (split; [apply in_or_app; auto|auto]).
Qed.
Lemma nodup_of_map {A B} (f : A -> B) l : NoDup (map f l) -> NoDup l.
Proof. induction l as [|a l IH]; intros N; constructor; inversion N; subst; auto. intros I. apply H1. now apply in_map. Qed.
Lemma vertices_listed fuel bound l P ks out : D l -> s_poly S l = Ok P -> (forall k, In k ks -> k < length P) -> NoDup ks -> saddle_connections_vertices S Cat fuel bound l ks = Ok out ->
  listed bound (fun x => fst x = l /\ In (snd x) ks) out /\ ((forall k, In k ks -> sharp D S (l, k)) -> complete bound (fun x => fst x = l /\ In (snd x) ks) out).
Proof.
  intros Dl GP. revert out. induction ks as [|k ks IH]; intros out LK ND E; cbn [saddle_connections_vertices] in E.
  - injection E as <-. split; [split; [intros c []|constructor]|]. intros _ x h y h' [_ []].
  - destruct (saddle_connections_vertex S Cat fuel bound l k) as [cs|] eqn:E1; [|discriminate]. cbn [bind] in E. destruct (saddle_connections_vertices S Cat fuel bound l ks) as [ds|] eqn:E2; [|discriminate]. injection E as <-.
    inversion ND as [|k' ks' NI ND']; subst. destruct (IH ds) as [A1 A2]; auto; [intros; apply LK; now right|]. assert (Lk : k < length P) by (apply LK; now left).
    destruct (C63_vertex fuel bound l k P cs Dl GP Lk E1) as [B1 B2].
    assert (X : listed bound (fun x => x = (l, k)) cs) by (split; [exact B1|now apply nodup_of_map in B2]).
    assert (EQ : forall x : L * nat, fst x = l /\ In (snd x) (k :: ks) <-> x = (l, k) \/ fst x = l /\ In (snd x) ks).
    { intros [l2 k2]. cbn. split; [intros [-> [->|H]]; auto|intros [H|[-> H]]; [injection H as -> ->|]; auto]. }
    split.
    + destruct (listed_app bound _ _ _ _ (fun x (H : x = (l, k)) (H' : fst x = l /\ In (snd x) ks) => NI ltac:(subst x; apply H')) X A1) as [Y1 Y2]. split; auto. intros c IN. destruct (Y1 c IN) as [? [? ?]]. rewrite EQ. auto.
    + intros SH x h y h' Hx. rewrite EQ in Hx. revert x h y h' Hx. apply (complete_app bound (fun x => x = (l, k))); [|apply A2; intros; apply SH; now right].
      intros x h y h' -> IS LB. assert (SHk : sharp D S (l, k)) by (apply SH; now left). destruct (C63_vertex_complete_partial fuel bound l k P cs Dl GP Lk SHk E1 h y h' IS LB) as [c [IN Ec]]. exists c. split; auto. split; [apply B1; auto|auto].
Qed.
Lemma labels_listed fuel bound ls out : (forall l, In l ls -> D l) -> NoDup ls -> saddle_connections_labels S Cat fuel bound ls = Ok out ->
  listed bound (fun x => In (fst x) ls) out /\ ((forall l k P, In l ls -> s_poly S l = Ok P -> k < length P -> sharp D S (l, k)) -> complete bound (fun x => In (fst x) ls) out).
Proof.
  revert out. induction ls as [|l ls IH]; intros out DL ND E; cbn [saddle_connections_labels] in E.
  - injection E as <-. split; [split; [intros c []|constructor]|]. intros _ x h y h' [].
  - destruct (saddle_connections_label S Cat fuel bound l) as [cs|] eqn:E1; [|discriminate]. cbn [bind] in E. destruct (saddle_connections_labels S Cat fuel bound ls) as [ds|] eqn:E2; [|discriminate]. injection E as <-.
    inversion ND as [|l' ls' NI ND']; subst. destruct (IH ds) as [A1 A2]; auto; [intros; apply DL; now right|]. assert (Dl : D l) by (apply DL; now left).
    unfold saddle_connections_label in E1. destruct (fleb bound f0); [discriminate|]. destruct (s_poly S l) as [P|] eqn:GP; [|discriminate]. cbn [bind] in E1.
    destruct (vertices_listed fuel bound l P (seq 0 (length P)) cs Dl GP) as [B1 B2]; auto; [intros k Ik; apply in_seq in Ik; lia|apply seq_NoDup|].
    split.
    + assert (XX : forall x : L * nat, fst x = l /\ In (snd x) (seq 0 (length P)) -> In (fst x) ls -> False) by (intros x [<- _] H'; auto).
      destruct (listed_app bound _ _ _ _ XX B1 A1) as [Y1 Y2]. split; auto. intros c IN. destruct (Y1 c IN) as [Z1 [Z2 Z3]]. split; auto. split; auto. destruct Z2 as [[<- _]|Z2]; [now left|now right].
    + intros SH x h y h' Hx IS LB. apply (complete_app bound (fun x => fst x = l /\ In (snd x) (seq 0 (length P))) (fun x => In (fst x) ls) cs ds) with (x := x) (h := h) (y := y) (h' := h'); auto.
      * apply B2. intros k Ik. apply in_seq in Ik. apply (SH l k P); auto; [now left|lia].
      * apply A2. intros; apply (SH l0 k P0); auto; now right.
      * destruct Hx as [Hx|Hx]; [left|now right]. split; auto. destruct (saddle_start D S x h y h' IS) as [P0 [GP0 Lk]]. rewrite <- Hx in GP0. assert (P0 = P) by congruence. subst P0. apply in_seq. lia.
Qed.
Theorem C63_surface fuel bound ls out : (forall l, In l ls -> D l) -> NoDup ls -> saddle_connections S Cat fuel bound ls = Ok out ->
  (forall c, In c out -> correct c /\ In (fst (sc_start c)) ls /\ fle (length2 (sc_holonomy c)) bound) /\ NoDup out.
Proof. unfold saddle_connections. destruct (fleb bound f0); [discriminate|]. intros DL ND E. exact (proj1 (labels_listed fuel bound ls out DL ND E)). Qed.
(** see C63_vertex_complete_partial *)
Theorem C63_complete_partial fuel bound ls out : (forall l, In l ls -> D l) -> NoDup ls -> (forall x, sharp D S x) -> saddle_connections S Cat fuel bound ls = Ok out ->
  forall x h y h', In (fst x) ls -> is_saddle D S x h y h' -> fle (length2 h) bound ->
  exists c, In c out /\ sc_start c = x /\ sc_holonomy c = h /\ sc_end c = y /\ sc_end_holonomy c = h'.
Proof. unfold saddle_connections. destruct (fleb bound f0); [discriminate|]. intros DL ND SH E. apply (proj2 (labels_listed fuel bound ls out DL ND E)). intros; apply SH. Qed.
End Saddle.
Print Assumptions C63_vertex.
Print Assumptions C63_vertex_complete_partial.
Print Assumptions C63_error.
Print Assumptions C63_surface.
Print Assumptions C63_complete_partial.
Print Assumptions C64_equal.
Print Assumptions C64_invert.
Print Assumptions C64_edge.

Section Scale.
Context {K : OField}.
Add Field KF1 : (of_ft K).
Lemma scale_div (t a : K) v : a <> f0 -> vscale (fdiv t a) (vscale a v) = vscale t v.
Proof. intros N. destruct v; apply vec_eq; cbn; field; auto. Qed.
Lemma div_le (t r a : K) : flt f0 a -> fle t (fmul r a) -> fle (fdiv t a) r.
Proof.
  intros A0 T. assert (N : a <> f0) by (intros Z; rewrite Z in A0; now apply flt_irrefl in A0). assert (E : t = fmul (fdiv t a) a) by (field; auto).
  generalize dependent (fdiv t a). intros q E. subst t. destruct (tri q r) as [X|[X|X]]; [flra|flra|]. assert (Y : flt f0 (fsub q r)) by flra. pose proof (fmul_pos _ _ Y A0). flra.
Qed.
End Scale.
Section Flow.
Variables (K : OField) (L : Type) (EL : EqB L) (D : L -> Prop) (S : surface K L) (Cat : categories).
Hypothesis V : valid D S.
Hypothesis PRS : forall l P, D l -> s_poly S l = Ok P -> proper P.
Hypothesis C : closed D S.
(** The constructor follows the straight line flow when it checks its arguments or does not know the end: if it
    succeeds then the attributes are those of the saddle connection in the given direction, for all simple polygons and all corners.
    The arguments that have been given are those of this saddle connection. *)
Theorem C64_flow l k P v od oe oh oh' check limit c : D l -> s_poly S l = Ok P -> k < length P -> normal P (vertex P k) v -> check = true \/ od = None ->
  saddle_new S Cat (l, k) v od oe oh oh' check limit = Ok c ->
  correct K L D S c /\ sc_start c = (l, k) /\ pos_multiple v (sc_direction c) /\ (forall y, od = Some y -> sc_end c = y) /\ (forall w, oe = Some w -> w <> vzero -> pos_multiple w (sc_end_direction c)) /\
  (forall h, oh = Some h -> sc_holonomy c = h) /\ (forall h', oh' = Some h' -> sc_end_holonomy c = h').
Proof.
  intros Dl GP Lk NM CH E. destruct (new_sound D S Cat V C PRS l k P Dl GP Lk v od oe oh oh' check limit c NM CH E) as [A1 [A2 [A3 [A4 [A5 [A6 A7]]]]]].
  split; [exact A1|]. split; auto. split; auto. split; auto. split; [|split; auto]. intros w Ew N. rewrite <- (A5 w Ew). apply canonical_direction. exact N.
Qed.
(** Every saddle connection is found from its start and its direction if the limit is large enough. *)
Theorem C64_find x h y h' v : (c_positive Cat = true -> positive_dilations D S) -> D (fst x) -> is_saddle D S x h y h' -> pos_multiple h v ->
  exists n c, correct K L D S c /\ sc_start c = x /\ sc_holonomy c = h /\ sc_end c = y /\ sc_end_holonomy c = h' /\
    forall check limit, n <= limit -> saddle_new S Cat x v None None None None check limit = Ok c.
Proof.
  intros PD Dl IS PM. destruct (saddle_start D S x h y h' IS) as [P [GP Lk]]. destruct x as [l k]. cbn [fst snd] in *.
  destruct (new_complete D S Cat V C PRS l k P Dl GP Lk h y h' v PD IS PM) as [n X]. exists n. eexists. split; [|split; [|split; [|split; [|split]]]]; [..|exact X]; auto.
  pose proof (saddle_normal D S PRS l k P Dl GP Lk h y h' IS) as NH. assert (NM : normal P (vertex P k) v) by (apply (normal_pos D S PRS l k P Dl GP h); auto).
  exact (proj1 (C64_flow l k P v _ _ _ _ true n _ Dl GP Lk NM (or_introl eq_refl) (X true n (le_n n)))).
Qed.
(** There is no saddle connection that starts with a vector that points out of the polygon. *)
Theorem C64_reject l k P v oe oh oh' check limit : D l -> s_poly S l = Ok P -> k < length P -> ~ points_into P (vertex P k) v -> saddle_new S Cat (l, k) v None oe oh oh' check limit = Err ValueError.
Proof.
  intros Dl GP Lk NI. unfold saddle_new. destruct (veqb v vzero) eqn:E; [reflexivity|]. assert (N : v <> vzero) by now apply veqb_neq.
  assert (NC : ~ points_into P (vertex P k) (canonical v)).
  { intros PI. apply NI. destruct (canonical_direction v N) as [_ [_ [a [A0 Ea]]]]. rewrite Ea in PI. destruct PI as [r [R0 X]]. exists (fmul r a). split; [now apply fmul_pos|]. intros t T0 T1.
    assert (NA : a <> f0) by (intros Z; rewrite Z in A0; now apply flt_irrefl in A0). specialize (X (fdiv t a) (fdiv_pos t a A0 T0) (div_le t r a A0 T1)). unfold moved in *. rewrite scale_div in X; auto. }
  assert (ST : start_tangent_vector S (l, k) (canonical v) = Err ValueError).
  { unfold start_tangent_vector. cbn [fst snd]. rewrite GP. cbn [bind]. apply (tangent_reject D S PRS l P); auto; [now apply canonical_nz|]. right. split; [now exists k|exact NC]. }
  destruct (infer_end_direction S Cat (canonical v) None (option_map canonical oe)) as [oe'|] eqn:IE; [cbn [bind]; now rewrite ST|]. exfalso. destruct oe; cbn in IE; [discriminate IE|]. destruct (c_positive Cat); discriminate IE.
Qed.
End Flow.
Print Assumptions C64_flow.
Print Assumptions C64_find.
Print Assumptions C64_reject.

(** ** Examples and counterexamples *)
Section Help.
Context {K : OField}.
Add Field KF : (of_ft K).
Lemma scale_opp (x y : K) : vopp (x, y) = vscale (fopp f1) (x, y).
Proof. apply vec_eq; cbn; ring. Qed.
Lemma one_zero (t : K) : f0 <> fmul t f1 \/ f1 <> fmul t f0.
Proof. right. intros E. assert (Z : f1 = (f0 : K)) by (rewrite E; ring). pose proof (@flt_0_1 K) as H. rewrite Z in H. now apply flt_irrefl in H. Qed.
End Help.
Lemma not_true_of (b : bool) : b = false -> b <> true. Proof. congruence. Qed.
Lemma neq_of {K : OField} (u v : vec K) : veqb u v = false -> u <> v. Proof. intros E ->. assert (X : veqb v v = true) by now apply veqb_eq. congruence. Qed.
Lemma one_in {A} (r : res A) f : match r with Ok c => f c | Err _ => false end = true -> exists c, r = Ok c /\ f c = true.
Proof. destruct r as [c|]; [|discriminate]. eauto. Qed.
Lemma into_test {K : OField} (P : polygon K) k v : get_point_position P (vertex P k) = AtVertex k -> match get_point_position P (vertex P k) with
  | Outside => ~ points_into P (vertex P k) v | Interior => points_into P (vertex P k) v | EdgeInterior e => points_into P (vertex P k) v <-> fle f0 (ccw (edge P e) v)
  | AtVertex j => points_into P (vertex P k) v <-> ~ sector (vopp (edge P (j + length P - 1))) (edge P j) v end -> points_into P (vertex P k) v <-> ~ sector (vopp (edge P (k + length P - 1))) (edge P k) v.
Proof. intros ->. auto. Qed.
Lemma nth_twice {A} (eq : A -> A -> bool) (OK : forall x y, eq x y = true -> x = y) (l : list A) i j : (match nth_error l i, nth_error l j with Some x, Some y => eq x y | _, _ => false end) = true -> i <> j -> ~ NoDup l.
Proof.
  intros E N ND. destruct (nth_error l i) as [x|] eqn:Ei; [|discriminate]. destruct (nth_error l j) as [y|] eqn:Ej; [|discriminate]. apply OK in E. subst y. apply N. apply (proj1 (NoDup_nth_error l) ND); [apply nth_error_Some; congruence|congruence].
Qed.
Lemma list_ok {A} (r : res (list A)) n : match r with Ok out => length out =? n | Err _ => false end = true -> exists out, r = Ok out /\ length out = n.
Proof. destruct r as [out|]; [|discriminate]. intros E. exists out. split; auto. now apply Nat.eqb_eq. Qed.
Lemma convex_of (T : table cqF) : forallb (fun P => is_convex false P) (fst T) = true -> forall l P, zdom T l = true -> s_poly (ztab T) l = Ok P -> is_convex false P = true.
Proof.
  intros A l P Dl E. apply zdom_iff in Dl as [X _]. rewrite (zpoly T l X) in E. cbn [tab_surface s_poly] in E. destruct (nth_error (fst T) (Z.to_nat l)) as [Q|] eqn:N; [|discriminate E]. assert (Q = P) by congruence. subst Q.
  rewrite forallb_forall in A. apply A. now apply nth_error_In in N.
Qed.
Lemma sharp_of (P : polygon cqF) gs : forallb (fun k => fltb f0 (ccw (edge P k) (vopp (edge P (k + length P - 1))))) (seq 0 (length P)) = true -> forall c, sharp (fun l => zdom ([P], gs) l = true) (ztab ([P], gs)) c.
Proof.
  intros A [l k] u v [Q [Dl [E [Lk [-> ->]]]]]. cbn [fst snd] in *. apply (one_label ([P], gs)) in Dl; [|reflexivity]. subst l. cbn in E. injection E as <-. rewrite forallb_forall in A. apply A. apply in_seq. lia.
Qed.
Definition translation_category := Categories true true true true.
Definition saddle_report (c : saddle cqF Z) := (sc_start c, (Qred (cqv (fst (sc_holonomy c))), Qred (cqv (snd (sc_holonomy c)))), sc_end c).
Lemma found_in (r : res (list (saddle cqF Z))) f : match r with Ok out => existsb f out | Err _ => false end = true -> exists out c, r = Ok out /\ In c out /\ f c = true.
Proof. destruct r as [out|]; [|discriminate]. intros E. apply existsb_exists in E. destruct E as [c [I F]]. exists out, c. auto. Qed.
Lemma not_found_in (r : res (list (saddle cqF Z))) f : match r with Ok out => negb (existsb f out) | Err _ => false end = true -> exists out, r = Ok out /\ forall c, In c out -> f c = false.
Proof.
  destruct r as [out|]; [|discriminate]. intros E. exists out. split; auto. intros c I. destruct (f c) eqn:F; auto. apply negb_true_iff in E. rewrite <- E. symmetry. apply existsb_exists. now exists c.
Qed.
Lemma twice_in (r : res (list (saddle cqF Z))) i j : match r with Ok out => match nth_error (map sc_holonomy out) i, nth_error (map sc_holonomy out) j with Some x, Some y => veqb x y | _, _ => false end && negb (i =? j) | Err _ => false end = true ->
  exists out, r = Ok out /\ ~ NoDup (map sc_holonomy out).
Proof.
  destruct r as [out|]; [|discriminate]. intros E. apply andb_true_iff in E. destruct E as [E N]. exists out. split; auto. apply (nth_twice (@veqb cqF)) with (i := i) (j := j); [intros x y; apply veqb_eq|exact E|]. apply negb_true_iff in N. now apply Nat.eqb_neq.
Qed.
Lemma no_multiple (t : cqF) : qv 0 1 <> vscale t (qv 1 0).
Proof. intros E. destruct (one_zero t) as [N|N]; apply N; [exact (f_equal fst E)|exact (f_equal snd E)]. Qed.
Lemma positive_of D (S : surface cqF Z) : translations D S -> positive_dilations D S.
Proof.
  intros T l e P l' e' P' G. exists f1. split; [apply flt_0_1|]. rewrite (T _ _ _ _ _ _ G). generalize (edge P e). clear. intros [x y]. apply scale_opp.
Qed.

(** The torus from a parallelogram: its saddle connections with squared length at most 20 are these and no others. *)
Example C63_ex : exists out, saddle_connections parS translation_category 1000 (Q2cq 20) [0%Z] = Ok out /\
  (forall c, In c out -> correct cqF Z parD parS c /\ In (fst (sc_start c)) [0%Z] /\ fle (length2 (sc_holonomy c)) (Q2cq 20)) /\ NoDup out /\
  (forall x h y h', In (fst x) [0%Z] -> is_saddle parD parS x h y h' -> fle (length2 h) (Q2cq 20) -> exists c, In c out /\ sc_start c = x /\ sc_holonomy c = h /\ sc_end c = y /\ sc_end_holonomy c = h') /\
  map saddle_report out = map saddle_report (match saddle_connections parS translation_category 1000 (Q2cq 20) [0%Z] with Ok o => o | Err _ => nil end) /\ length out = 24.
Proof.
  assert (E : exists out, saddle_connections parS translation_category 1000 (Q2cq 20) [0%Z] = Ok out /\ length out = 24).
  { apply list_ok. vm_compute. reflexivity. }
  destruct E as [out [E EL]]. exists out. split; auto.
  assert (CV : forall l P, parD l -> s_poly parS l = Ok P -> is_convex false P = true) by (apply (convex_of parT); vm_compute; reflexivity).
  assert (SH : forall x, sharp parD parS x) by (apply (sharp_of (hd nil (fst parT)) (snd parT)); vm_compute; reflexivity).
  assert (PD : c_positive translation_category = true -> positive_dilations parD parS) by (intros _; apply positive_of; exact par_translations).
  assert (DL : forall l, In l [0%Z] -> parD l) by (intros l [<-|[]]; vm_compute; reflexivity).
  assert (ND : NoDup [0%Z]) by (repeat constructor; intros []).
  destruct (C63_surface cqF Z _ parD parS translation_category par_valid par_proper par_closed CV PD 1000 (Q2cq 20) [0%Z] out DL ND E) as [A B]. split; [exact A|]. split; [exact B|].
  split; [exact (C63_complete_partial cqF Z _ parD parS translation_category par_valid par_proper par_closed CV PD 1000 (Q2cq 20) [0%Z] out DL ND SH E)|]. split; [now rewrite E|exact EL].
Qed.
(** The first edge of this torus as a saddle connection. *)
Example C64_ex : exists c d, saddle_new parS translation_category (0%Z, 0) (qv 2 0) None None None None true 1000 = Ok c /\ correct cqF Z parD parS c /\
  saddle_invert parS translation_category c = Ok d /\ correct cqF Z parD parS d /\ saddle_invert parS translation_category d = Ok c /\ saddle_eqb c d = false.
Proof.
  set (P := hd nil (fst parT)). assert (PD : c_positive translation_category = true -> positive_dilations parD parS) by (intros _; apply positive_of; exact par_translations).
  assert (Dl : parD 0%Z) by (vm_compute; reflexivity). assert (GP : s_poly parS 0%Z = Ok P) by reflexivity.
  destruct (C64_edge cqF Z _ parD parS translation_category par_valid par_proper 0%Z 0 P 1000 par_closed PD Dl GP ltac:(cbn; lia) ltac:(lia)) as [c [E [CC [ST _]]]].
  assert (EE : edge P 0 = qv 2 0) by (apply veqb_eq; vm_compute; reflexivity). rewrite EE in E.
  destruct (C64_invert cqF Z _ parD parS translation_category par_valid par_proper c CC) as [d [I1 [CD [I2 _]]]]. exists c, d. split; auto. split; auto. split; auto. split; auto. split; auto.
  destruct (saddle_eqb c d) eqn:Q; auto. exfalso. apply (C64_equal cqF Z _ parD parS par_valid par_proper c d CC CD) in Q. subst d.
  assert (X : match saddle_new parS translation_category (0%Z, 0) (qv 2 0) None None None None true 1000 with Ok c => match saddle_invert parS translation_category c with Ok d => snd (sc_start d) =? 2 | Err _ => false end | Err _ => false end = true) by (vm_compute; reflexivity).
  rewrite E, I1, ST in X. discriminate X.
Qed.

(** The claim of C63_vertex_complete_partial without the hypothesis that the angle is less than 180 degrees is false: on the torus from a
    rectangle with vertices in the middle of two edges, the saddle connection with holonomy (3, 1) is not found as the
    search does not cross the edges next to the neighbours of the start. *)
Definition flatT : table cqF := ([[qv 0 0; qv 1 0; qv 2 0; qv 2 1; qv 1 1; qv 0 1]], [((0, 0), (0, 4)); ((0, 1), (0, 3)); ((0, 2), (0, 5))]).
Definition flatS : surface cqF Z := ztab flatT.
Definition flatD (l : Z) : Prop := zdom flatT l = true.
Lemma flat_valid : valid flatD flatS.
Proof. apply ztab_valid. vm_compute. reflexivity. Qed.
Lemma flat_closed : closed flatD flatS.
Proof. apply ztab_closed. vm_compute. reflexivity. Qed.
Lemma flat_proper : forall l P, flatD l -> s_poly flatS l = Ok P -> proper P.
Proof. apply proper_of. vm_compute. reflexivity. Qed.
Lemma flat_convex : forall l P, flatD l -> s_poly flatS l = Ok P -> is_convex false P = true.
Proof. apply convex_of. vm_compute. reflexivity. Qed.
Lemma flat_translations : translations flatD flatS.
Proof. apply one_translations. vm_compute. reflexivity. Qed.
Definition ends_at (c : saddle cqF Z) (y : Z * nat) : bool := eqb (sc_end c) y.
Theorem C63_flat_refuted : ~ (forall (K : OField) (L : Type) (EL : EqB L) (D : L -> Prop) (S : surface K L) Cat, valid D S -> closed D S -> translations D S -> (forall l P, D l -> s_poly S l = Ok P -> proper P) ->
  (forall l P, D l -> s_poly S l = Ok P -> is_convex false P = true) -> forall fuel bound l k P out, D l -> s_poly S l = Ok P -> k < length P -> saddle_connections_vertex S Cat fuel bound l k = Ok out ->
  forall h y h', is_saddle D S (l, k) h y h' -> fle (length2 h) bound -> exists c, In c out /\ sc_holonomy c = h).
Proof.
  intros X.
  destruct (found_in (saddle_connections_vertex flatS translation_category 1000 (Q2cq 10) 0%Z 3) (fun c => veqb (sc_end_holonomy c) (qv 3 1) && ends_at c (0%Z, 1)) ltac:(vm_compute; reflexivity)) as [out [c [E [I F]]]].
  destruct (not_found_in (saddle_connections_vertex flatS translation_category 1000 (Q2cq 10) 0%Z 1) (fun c => veqb (sc_holonomy c) (qv 3 1)) ltac:(vm_compute; reflexivity)) as [out1 [E1 N]].
  set (P := hd nil (fst flatT)). assert (PD : c_positive translation_category = true -> positive_dilations flatD flatS) by (intros _; apply positive_of; exact flat_translations).
  assert (Dl : flatD 0%Z) by (vm_compute; reflexivity). assert (GP : s_poly flatS 0%Z = Ok P) by reflexivity.
  destruct (C63_vertex cqF Z _ flatD flatS translation_category flat_valid flat_proper flat_closed flat_convex PD 1000 (Q2cq 10) 0%Z 3 P out Dl GP ltac:(cbn; lia) E) as [A _].
  destruct (A c I) as [[IS _] [ST _]]. apply (saddle_sym flatD flatS flat_valid flat_proper) in IS. cbv beta in F. apply andb_true_iff in F. destruct F as [F1 F2]. apply (proj1 (veqb_eq _ _)) in F1. apply (proj1 (eqb_ok _ _)) in F2. rewrite F1, F2, ST in IS.
  destruct (X cqF Z _ flatD flatS translation_category flat_valid flat_closed flat_translations flat_proper flat_convex 1000%nat (Q2cq 10) 0%Z 1%nat P out1 Dl GP ltac:(cbn; lia) E1 _ _ _ IS ltac:(vm_compute; reflexivity)) as [c' [I' Ec]].
  specialize (N c' I'). apply veqb_eq in Ec. congruence.
Qed.
Print Assumptions C63_flat_refuted.
(** For polygons that are not convex, the claim of C63_vertex is false: on the translation surface from the L-shaped polygon, a
    holonomy is listed twice as the polygon is seen through its outside. *)
Theorem C63_nonconvex_refuted : ~ (forall (K : OField) (L : Type) (EL : EqB L) (D : L -> Prop) (S : surface K L) Cat, valid D S -> closed D S -> translations D S -> (forall l P, D l -> s_poly S l = Ok P -> proper P) ->
  forall fuel bound l k P out, D l -> s_poly S l = Ok P -> k < length P -> saddle_connections_vertex S Cat fuel bound l k = Ok out -> NoDup (map sc_holonomy out)).
Proof.
  intros X.
  destruct (twice_in (saddle_connections_vertex ellS translation_category 1000 (Q2cq 5) 0%Z 2) 1 3 ltac:(vm_compute; reflexivity)) as [out [E N]].
  apply N. apply (X cqF Z _ ellD ellS translation_category ell_valid ell_closed ell_translations ell_proper 1000 (Q2cq 5) 0%Z 2 (hd nil (fst ell)) out); [vm_compute; reflexivity|reflexivity|cbn; lia|exact E].
Qed.
Print Assumptions C63_nonconvex_refuted.
(** The claim of C63_vertex_complete_partial is also false at a corner with an angle of more than 180 degrees: on this surface, the saddle
    connection of holonomy (-1, 0) that starts there is not found. The constructor finds it in the opposite direction. *)
Theorem C63_reflex_refuted : ~ (forall (K : OField) (L : Type) (EL : EqB L) (D : L -> Prop) (S : surface K L) Cat, valid D S -> closed D S -> translations D S -> (forall l P, D l -> s_poly S l = Ok P -> proper P) ->
  forall fuel bound l k P out, D l -> s_poly S l = Ok P -> k < length P -> saddle_connections_vertex S Cat fuel bound l k = Ok out ->
  forall h y h', is_saddle D S (l, k) h y h' -> fle (length2 h) bound -> exists c, In c out /\ sc_holonomy c = h).
Proof.
  intros X. set (P := hd nil (fst ell)). assert (Dl : ellD 0%Z) by (vm_compute; reflexivity). assert (GP : s_poly ellS 0%Z = Ok P) by reflexivity.
  destruct (not_found_in (saddle_connections_vertex ellS translation_category 1000 (Q2cq 2) 0%Z 4) (fun c => veqb (sc_holonomy c) (qv (-1) 0)) ltac:(vm_compute; reflexivity)) as [out [E N]].
  assert (NM : normal P (vertex P 7) (qv 1 0)).
  { destruct (ell_make (TVec 0%Z (vertex P 7) (qv 1 0) (AtVertex 7)) 0%Z (vertex P 7) (qv 1 0) Dl ltac:(vm_compute; reflexivity)) as [_ [_ [Q [GQ [_ NM]]]]]. cbn [tv_label tv_point tv_vector] in *. assert (Q = P) by congruence. now subst Q. }
  destruct (one_in (saddle_new ellS translation_category (0%Z, 7) (qv 1 0) None None None None true 1000) (fun c => ends_at c (0%Z, 4) && veqb (sc_end_holonomy c) (qv (-1) 0)) ltac:(vm_compute; reflexivity)) as [c [Ec F]].
  destruct (C64_flow cqF Z _ ellD ellS translation_category ell_valid ell_proper ell_closed 0%Z 7 P (qv 1 0) None None None None true 1000 c Dl GP ltac:(cbn; lia) NM (or_introl eq_refl) Ec) as [[IS _] [ST _]].
  apply andb_true_iff in F. destruct F as [F1 F2]. apply (proj1 (veqb_eq _ _)) in F2. apply (proj1 (eqb_ok _ _)) in F1. apply (saddle_sym ellD ellS ell_valid ell_proper) in IS. rewrite F1, F2, ST in IS.
  destruct (X cqF Z _ ellD ellS translation_category ell_valid ell_closed ell_translations ell_proper 1000%nat (Q2cq 2) 0%Z 4%nat P out Dl GP ltac:(cbn; lia) E _ _ _ IS ltac:(vm_compute; reflexivity)) as [c' [I' Ec']].
  specialize (N c' I'). apply veqb_eq in Ec'. congruence.
Qed.
Print Assumptions C63_reflex_refuted.
(** The first direction that is tried for [SaddleConnection(S, (0, 0), (0, 1))] on the torus from a square is the one of the edge that ends
    at the vertex 0. Its holonomy is (0, 1); the one that is returned is (1, 0). *)
Definition squareT : table cqF := ([[qv 0 0; qv 1 0; qv 1 1; qv 0 1]], [((0, 0), (0, 2)); ((0, 1), (0, 3))]).
Theorem C64_clockwise_refuted : ~ (forall (K : OField) (L : Type) (EL : EqB L) (D : L -> Prop) (S : surface K L) Cat, valid D S -> closed D S -> translations D S -> (forall l P, D l -> s_poly S l = Ok P -> proper P) ->
  forall l k P v c, D l -> s_poly S l = Ok P -> k < length P -> points_into P (vertex P k) v -> saddle_new S Cat (l, k) v None None None None true 1000 = Ok c -> direction_of (sc_holonomy c) (sc_direction c)).
Proof.
  intros X. set (S := ztab squareT). set (D := fun l => zdom squareT l = true). set (P := hd nil (fst squareT)).
  assert (V : valid D S) by (apply ztab_valid; vm_compute; reflexivity). assert (C : closed D S) by (apply ztab_closed; vm_compute; reflexivity).
  assert (T : translations D S) by (apply one_translations; vm_compute; reflexivity). assert (PRS : forall l P, D l -> s_poly S l = Ok P -> proper P) by (apply proper_of; vm_compute; reflexivity).
  assert (IN : points_into P (vertex P 0) (qv 0 1)).
  { assert (NZ : qv 0 1 <> vzero) by (apply neq_of; vm_compute; reflexivity). assert (PR : proper P) by (apply (PRS 0%Z); [vm_compute; reflexivity|reflexivity]).
    assert (AV : get_point_position P (vertex P 0) = AtVertex 0) by (vm_compute; reflexivity).
    apply (proj2 (into_test P 0 (qv 0 1) AV (C58_points_into cqF P PR (vertex P 0) (qv 0 1) NZ))).
    assert (N1 : vopp (edge P (0 + length P - 1)) <> vzero) by (apply neq_of; vm_compute; reflexivity). assert (N2 : edge P 0 <> vzero) by (apply neq_of; vm_compute; reflexivity).
    intros SE. apply (is_between_spec _ _ _ N1 N2) in SE. revert SE. apply not_true_of. vm_compute. reflexivity. }
  destruct (one_in (saddle_new S translation_category (0%Z, 0) (qv 0 1) None None None None true 1000) (fun c => veqb (sc_holonomy c) (qv 1 0) && veqb (sc_direction c) (qv 0 1)) ltac:(vm_compute; reflexivity)) as [c [E F]].
  apply andb_true_iff in F. destruct F as [F1 F2]. apply veqb_eq in F1, F2.
  destruct (X cqF Z _ D S translation_category V C T PRS 0%Z 0 P (qv 0 1) c ltac:(vm_compute; reflexivity) eq_refl ltac:(cbn; lia) IN E) as [_ [_ [t [_ Z]]]]. rewrite F1, F2 in Z. revert Z. apply no_multiple.
Qed.
Print Assumptions C64_clockwise_refuted.
(** On half-translation surfaces the end holonomy is inferred by comparing the direction of the argument, which has not been
    normalised, with the normalised direction at the end. On the sphere from a triangle whose edges are glued to themselves, the
    inferred end holonomy of an edge is wrong if its direction is given by another vector. *)
Definition half_translations {K : OField} {L : Type} (D : L -> Prop) (S : surface K L) := forall l e P l' e' P', glued_at D S l e P l' e' P' -> edge P' e' = edge P e \/ edge P' e' = vopp (edge P e).
Definition half_translation_category := Categories false true false true.
Definition foldT : table cqF := ([[qv 0 0; qv 1 0; qv 0 1]], [((0, 0), (0, 0)); ((0, 1), (0, 1)); ((0, 2), (0, 2))]).
Theorem C64_half_translation_refuted : ~ (forall (K : OField) (L : Type) (EL : EqB L) (D : L -> Prop) (S : surface K L), valid D S -> closed D S -> half_translations D S -> (forall l P, D l -> s_poly S l = Ok P -> proper P) ->
  forall x h y h' d d' c, is_saddle D S x h y h' -> pos_multiple h d -> pos_multiple h' d' -> saddle_new S half_translation_category x d (Some y) (Some d') (Some h) None false 1000 = Ok c -> sc_end_holonomy c = h').
Proof.
  intros X. set (S := ztab foldT). set (D := fun l => zdom foldT l = true). set (P := hd nil (fst foldT)).
  assert (V : valid D S) by (apply ztab_valid; vm_compute; reflexivity). assert (C : closed D S) by (apply ztab_closed; vm_compute; reflexivity).
  assert (PRS : forall l P, D l -> s_poly S l = Ok P -> proper P) by (apply proper_of; vm_compute; reflexivity).
  assert (T : half_translations D S).
  { intros l e Q l' e' Q' G. pose proof (ga_dom _ _ _ _ _ _ _ _ G) as Dl. apply one_label in Dl; [|reflexivity]. subst l. pose proof (ga_poly _ _ _ _ _ _ _ _ G) as GP. change (Ok P = Ok Q) in GP. assert (EQ : Q = P) by congruence. clear GP. subst Q.
    pose proof (ga_edge _ _ _ _ _ _ _ _ G) as Le. pose proof (ga_opp _ _ _ _ _ _ _ _ G) as O. pose proof (ga_poly' _ _ _ _ _ _ _ _ G) as GQ. cbn [P foldT fst hd length] in Le. left.
    assert (EE : l' = 0%Z /\ e' = e).
    { destruct e as [|[|[|e]]]; [| | |lia]; [change (s_opp S 0%Z 0) with (Ok (A := option (Z * nat)) (Some (0%Z, 0))) in O|change (s_opp S 0%Z 1) with (Ok (A := option (Z * nat)) (Some (0%Z, 1))) in O|change (s_opp S 0%Z 2) with (Ok (A := option (Z * nat)) (Some (0%Z, 2))) in O]; split; congruence. }
    destruct EE as [-> ->]. change (Ok P = Ok Q') in GQ. assert (EQ : Q' = P) by congruence. now subst Q'. }
  assert (G : glued_at D S 0%Z 0 P 0%Z 0 P) by (constructor; [vm_compute; reflexivity|reflexivity|cbn; lia|vm_compute; reflexivity|reflexivity]).
  assert (NZ : edge P 0 <> vzero) by (apply neq_of; vm_compute; reflexivity).
  assert (PM : pos_multiple (edge P 0) (vscale (fadd f1 f1) (edge P 0))) by (split; [exact NZ|]; exists (fadd f1 f1); split; [vm_compute; reflexivity|reflexivity]).
  destruct (one_in (saddle_new S half_translation_category (0%Z, 0) (vscale (fadd f1 f1) (edge P 0)) (Some (0%Z, 0)) (Some (vscale (fadd f1 f1) (edge P 0))) (Some (edge P 0)) None false 1000) (fun c => negb (veqb (sc_end_holonomy c) (edge P 0))) ltac:(vm_compute; reflexivity)) as [c [E F]].
  assert (IS : is_saddle D S (0%Z, 0) (edge P 0) (0%Z, 0) (edge P 0)) by (left; exists P, P; auto).
  pose proof (X cqF Z _ D S V C T PRS _ _ _ _ _ _ c IS PM PM E) as R. apply (proj2 (veqb_eq _ _)) in R. cbv beta in F. rewrite R in F. discriminate F.
Qed.
Print Assumptions C64_half_translation_refuted.
