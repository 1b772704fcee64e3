(** Infinite families of surfaces. *)
From Coq Require Import List Bool ZArith Arith Lia Ring Field.
From Verif Require Import OField FMicromega PField MBase MEuclid SEuclid PEuclid MSim SSim PSim MPoly PPoly MSurf SSurf PSurf PSurf2 PSurf3 MPoint SPoint PPoint PTurn PSimple MFam.
Import ListNotations.

Section P.
Context {K : OField}.
Add Field KF : (of_ft K).
Local Open Scope F_scope.

(** ** quadrilaterals *)
Lemma seg_orient (a b p : vec K) : on_segment (a, b) p -> orient a b p = 0.
Proof. intros (t & _ & _ & ->). unfold orient, ccw. cbn. ring. Qed.
Lemma opp_disjoint (a b c d p : vec K) : 0 < orient a b c -> 0 < orient a b d -> on_segment (a, b) p -> on_segment (c, d) p -> False.
Proof.
  intros A B S1 S2. apply seg_orient in S1. destruct S2 as (t & T0 & T1 & ->). cbn [fst snd] in S1.
  assert (X : (1 - t) * orient a b c + t * orient a b d = 0) by (rewrite <- S1; unfold orient, ccw; cbn; ring). clear S1.
  generalize dependent (orient a b c). generalize dependent (orient a b d). intros y Hy z Hz X.
  destruct (flt_total t) as [Z|[Z|Z]]; [flra| |fnra]. subst. flra.
Qed.
Lemma adj_common (a b c p : vec K) : 0 < orient a b c -> on_segment (a, b) p -> on_segment (b, c) p -> p = b.
Proof.
  intros A S1 S2. apply seg_orient in S1. destruct S2 as (t & T0 & T1 & ->). cbn [fst snd] in *.
  assert (X : t * orient a b c = 0) by (rewrite <- S1; unfold orient, ccw; cbn; ring). apply fmul_eq0 in X. destruct X as [->|X].
  - apply vec_eq; cbn; ring.
  - rewrite X in A. exfalso. flra.
Qed.
Lemma orient_rotl (a b c : vec K) : orient b c a = orient a b c.
Proof. unfold orient, ccw. cbn. ring. Qed.
Lemma orient_nz (a b c : vec K) : 0 < orient a b c -> vsub b a <> vzero.
Proof. intros H E. unfold orient in H. rewrite E in H. unfold ccw, vzero in H. cbn in H. apply (flt_irrefl (0 : K)). match goal with H : 0 < ?x |- _ => replace x with (0 : K) in H by ring end. exact H. Qed.
Lemma quad_ok (a b c d : vec K) : 0 < orient a b c -> 0 < orient b c d -> 0 < orient c d a -> 0 < orient d a b ->
  nondeg [a; b; c; d] /\ simple_polygon [a; b; c; d] /\ 0 < area [a; b; c; d].
Proof.
  intros A B C D. split; [|split].
  - split; [cbn; lia|]. apply edges_nz; [cbn; lia|]. intros [|[|[|[|e]]]] H; cbn in H; try lia; cbv [edge vertex]; cbn [length Nat.modulo nth]; cbn -[vsub vzero]; eapply orient_nz; eauto.
  - assert (A' : 0 < orient a b d) by (rewrite <- orient_rotl, <- orient_rotl; exact D).
    assert (B' : 0 < orient b c a) by (rewrite orient_rotl; exact A).
    assert (C' : 0 < orient c d b) by (rewrite orient_rotl; exact B).
    assert (D' : 0 < orient d a c) by (rewrite orient_rotl; exact C).
    intros i j p Hi Hj N S1 S2.
    destruct i as [|[|[|[|i]]]], j as [|[|[|[|j]]]]; cbn in Hi, Hj; try lia; try congruence;
    unfold side, vertex in S1, S2; cbn [length nth Nat.modulo] in S1, S2; cbn in S1, S2;
    try (exfalso; solve [apply (opp_disjoint a b c d p A A'); assumption|apply (opp_disjoint b c d a p B B'); assumption|apply (opp_disjoint a b c d p A A'); assumption|apply (opp_disjoint b c d a p B B'); assumption]);
    try (left; split; [reflexivity|]; cbn; solve [apply (adj_common a b c p A); assumption|apply (adj_common b c d p B); assumption|apply (adj_common c d a p C); assumption|apply (adj_common d a b p D); assumption]);
    try (right; split; [reflexivity|]; cbn; solve [apply (adj_common a b c p A); assumption|apply (adj_common b c d p B); assumption|apply (adj_common c d a p C); assumption|apply (adj_common d a b p D); assumption]).
  - assert (E : area [a; b; c; d] = (orient a b c + orient c d a) / (1 + 1)) by (unfold area, orient, ccw, vertex; cbn; field; apply f2_neq0).
    rewrite E. apply fdiv_pos; [apply f2_pos|flra].
Qed.
Lemma quad_polygon (e0 e1 e2 e3 : vec K) : vadd (vadd (vadd e0 e1) e2) e3 = vzero -> 0 < ccw e0 e1 -> 0 < ccw e1 e2 -> 0 < ccw e2 e3 -> 0 < ccw e3 e0 ->
  exists P, Polygon_edges [e0; e1; e2; e3] = Ok P /\ edges P = [e0; e1; e2; e3] /\ length P = 4%nat /\ simple_polygon P /\ 0 < area P.
Proof.
  intros E A B C D. set (a := vzero : vec K). set (b := vadd a e0). set (c := vadd b e1). set (d := vadd c e2).
  assert (E4 : vadd d e3 = vzero). { transitivity (vadd (vadd (vadd e0 e1) e2) e3); [unfold d, c, b, a; apply vec_eq; cbn; ring|exact E]. }
  assert (X : exists P, vertices_of_edges [e0; e1; e2; e3] = Ok P /\ P = [a; b; c; d]).
  { unfold vertices_of_edges. cbn [partial_sums last]. fold a. fold b. fold c. fold d. rewrite E4. rewrite (proj2 (veqb_eq _ _) eq_refl). cbn. eexists. split; reflexivity. }
  destruct X as (P & XP & EP). destruct (vertices_of_edges_spec _ _ XP) as (Ed & Ln & V0); [cbn; lia|].
  assert (O : forall p u v : vec K, orient p (vadd p u) (vadd (vadd p u) v) = ccw u v) by (intros; unfold orient, ccw; cbn; ring).
  destruct (quad_ok a b c d) as (Nd & Sm & Ar).
  - unfold c, b. rewrite O. exact A.
  - unfold d, c. rewrite O. exact B.
  - unfold d. fold (vadd c e2). replace a with (vadd (vadd c e2) e3) by exact E4. rewrite O. exact C.
  - replace b with (vadd (vadd d e3) e0) by (rewrite E4; reflexivity). replace a with (vadd d e3) by exact E4. rewrite O. exact D.
  - exists P. subst P. split; [|repeat split; auto]. unfold Polygon_edges. cbn [length Nat.ltb Nat.leb]. rewrite XP. unfold Polygon_vertices.
    rewrite (proj2 (polygon_check_spec _)); auto.
Qed.
Definition rect (w h : K) : list (vec K) := [(w, 0); (0, h); (- w, 0); (0, - h)].
Lemma rect_ok w h : 0 < w -> 0 < h -> exists P, Polygon_edges (rect w h) = Ok P /\ rectangle w h = Ok P /\ edges P = rect w h /\ length P = 4%nat /\ simple_polygon P /\ 0 < area P.
Proof.
  intros W H. assert (WH : 0 < w * h) by (now apply fmul_pos). destruct (quad_polygon (w, 0) (0, h) (- w, 0) (0, - h)) as (P & E1 & E2 & E3 & E4 & E5);
    try (unfold ccw; cbn [fst snd]; flra); [apply vec_eq; cbn; ring|].
  exists P. split; auto. split; [|auto]. unfold rectangle. assert (W' : (w <=? 0) = false) by (apply fleb_false; exact W). assert (H' : (h <=? 0) = false) by (apply fleb_false; exact H). rewrite W', H'.
  unfold Polygon_edges in E1. cbn [length Nat.ltb Nat.leb] in E1. match type of E1 with (match ?x with _ => _ end) = _ => destruct x as [Q|] eqn:V end; [|discriminate E1].
  unfold Polygon_vertices in E1. destruct (polygon_check Q); [|discriminate E1]. injection E1 as <-. exact V.
Qed.
Lemma rect_edge w h e : (e < 4)%nat -> nth ((e + 2) mod 4) (rect w h) vzero = vopp (nth e (rect w h) vzero).
Proof. intros H. destruct e as [|[|[|[|e]]]]; try lia; cbn; unfold vopp; cbn; f_equal; ring. Qed.
Lemma rect_nz w h e : 0 < w -> 0 < h -> (e < 4)%nat -> nth e (rect w h) vzero <> vzero.
Proof.
  intros W H L. destruct e as [|[|[|[|e]]]]; try lia; cbn; intros E; injection E; intros; subst; try flra.
Qed.

(** ** surfaces built from quadrilaterals *)
Section S.
Context {L : Type} (D : L -> Prop) (S : surface K L) (ev : L -> nat -> vec K) (g : L -> nat -> L * nat).
Hypothesis HP : forall l, D l -> exists P, s_poly S l = Ok P /\ length P = 4%nat /\ (forall e, (e < 4)%nat -> edge P e = ev l e) /\ simple_polygon P /\ 0 < area P.
Hypothesis Hnz : forall l e, D l -> (e < 4)%nat -> ev l e <> vzero.
Hypothesis Hop : forall l e, D l -> (e < 4)%nat -> s_opp S l e = Ok (Some (g l e)) /\ D (fst (g l e)) /\ (snd (g l e) < 4)%nat /\ g (fst (g l e)) (snd (g l e)) = (l, e).
Lemma quads_valid : valid D S /\ closed D S /\ simple_polygons D S /\ (forall l P, D l -> s_poly S l = Ok P -> 0 < area P).
Proof.
  split; [|split; [|split]].
  - constructor.
    + intros l Dl. destruct (HP l Dl) as (P & E & N & Ed & _). exists P. split; auto. split; [lia|]. apply edges_nz; [lia|]. intros e He. rewrite Ed by lia. apply Hnz; auto. lia.
    + intros l P e Dl E He. right. destruct (HP l Dl) as (P1 & E1 & N & _). rewrite E in E1. injection E1 as <-. rewrite N in He.
      destruct (Hop l e Dl He) as (O & Dg & Lg & Gg). destruct (HP _ Dg) as (P' & E' & N' & _). destruct (g l e) as [l' e'] eqn:G. cbn in *.
      exists l', e', P'. do 3 (split; auto). split; [lia|]. destruct (Hop l' e' Dg Lg) as (O' & _). rewrite O', Gg. reflexivity.
  - intros l P e Dl E He. destruct (HP l Dl) as (P1 & E1 & N & _). rewrite E in E1. injection E1 as <-. rewrite N in He. destruct (Hop l e Dl He) as (O & _). rewrite O. discriminate.
  - intros l P Dl E. destruct (HP l Dl) as (P1 & E1 & N & _ & Sm & _). rewrite E in E1. injection E1 as <-. auto.
  - intros l P Dl E. destruct (HP l Dl) as (P1 & E1 & N & _ & _ & Ar). rewrite E in E1. injection E1 as <-. auto.
Qed.
Lemma quads_glued l e P l' e' P' : glued_at D S l e P l' e' P' -> (e < 4)%nat /\ D l /\ (l', e') = g l e /\ edge P e = ev l e /\ edge P' e' = ev l' e'.
Proof.
  intros [Dl E He O E']. destruct (HP l Dl) as (P1 & E1 & N & Ed & _). rewrite E in E1. injection E1 as <-. rewrite N in He.
  destruct (Hop l e Dl He) as (O' & Dg & Lg & _). rewrite O in O'. injection O' as O'. split; auto. split; auto. split; auto. rewrite <- O' in Dg, Lg. cbn in Dg, Lg.
  destruct (HP l' Dg) as (P2 & E2 & N2 & Ed2 & _). rewrite E' in E2. injection E2 as <-. auto.
Qed.
Lemma quads_translation : (forall l e, D l -> (e < 4)%nat -> ev l e = vopp (ev (fst (g l e)) (snd (g l e)))) -> all_gluings D S map_translation.
Proof.
  intros H. destruct quads_valid as [V _]. apply all_gluings_intro; auto.
  - intros F G E [u U]. exists u. intros p. rewrite <- E. apply U.
  - intros l e P l' e' P' G. destruct (quads_glued _ _ _ _ _ _ G) as (He & Dl & Eg & E1 & E2). eexists. split; [apply gm_translation|eexists; reflexivity].
    rewrite E1, E2, (H l e Dl He), <- Eg. reflexivity.
Qed.
Lemma quads_dilation : (forall l e, D l -> (e < 4)%nat -> exists c, c <> 0 /\ vscale c (ev l e) = vopp (ev (fst (g l e)) (snd (g l e)))) -> all_gluings D S map_dilation.
Proof.
  intros H. destruct quads_valid as [V _]. apply all_gluings_intro; auto.
  - intros F G E (c & u & N & U). exists c, u. split; auto. intros p. rewrite <- E. apply U.
  - intros l e P l' e' P' G. destruct (quads_glued _ _ _ _ _ _ G) as (He & Dl & Eg & E1 & E2). destruct (H l e Dl He) as (c & N & Ec). rewrite <- Eg in Ec. cbn [fst snd] in Ec.
    rewrite <- E1, <- E2 in Ec. set (u := vsub (vertex P' (Datatypes.S e')) (vscale c (vertex P e))). exists (fun p => vadd (vscale c p) u).
    destruct (affine_similarity c u (fun p => vadd (vscale c p) u) N) as [A B]; [reflexivity|]. split; [|exists c, u; auto]. constructor; auto.
    + unfold u. apply vec_eq; cbn; ring.
    + unfold edge in Ec. unfold u. destruct (vertex P (Datatypes.S e)), (vertex P e), (vertex P' (Datatypes.S e')), (vertex P' e').
      injection Ec as A1 A2. apply vec_eq; cbn in *; flra.
Qed.
End S.
End P.
