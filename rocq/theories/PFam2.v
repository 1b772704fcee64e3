(** The infinite families. *)
From Coq Require Import List Bool ZArith Arith Lia Ring Field.
From Verif Require Import OField FMicromega PField MBase MEuclid SEuclid PEuclid MSim SSim PSim MPoly PPoly MSurf SSurf PSurf PSurf2 PSurf3 MPoint SPoint PPoint PTurn PSimple MFam PFam.
Import ListNotations.

Section P.
Context {K : OField}.
Add Field KF : (of_ft K).
Local Open Scope F_scope.

Lemma fneq_div (a b : K) : a <> 0 -> b <> 0 -> a / b <> 0.
Proof. intros A B E. apply A. transitivity (a / b * b); [field; auto|rewrite E; ring]. Qed.
(** everything about a surface without boundary that is glued by a kind of maps *)
Record good_surface {L} (D : L -> Prop) (S : surface K L) (kind : (vec K -> vec K) -> Prop) : Prop := {
  gs_valid : valid D S;
  gs_closed : closed D S;
  gs_simple : simple_polygons D S;
  gs_area : forall l P, D l -> s_poly S l = Ok P -> 0 < area P;
  gs_gluings : all_gluings D S kind }.

Lemma square_ok : exists P : polygon K, square = Ok P /\ length P = 4%nat /\ (forall e, (e < 4)%nat -> edge P e = nth e (rect 1 1) vzero) /\ simple_polygon P /\ 0 < area P.
Proof.
  destruct (rect_ok (1 : K) 1 flt_0_1 flt_0_1) as (P & _ & E & Ed & Ln & Sm & Ar). exists P. do 2 (split; auto). split; auto.
  intros e He. rewrite <- Ed. symmetry. unfold edges. rewrite (nth_indep _ vzero (edge P 0)) by (rewrite map_length, seq_length; lia). rewrite map_nth, seq_nth; auto. lia.
Qed.
Lemma edges_nth (P : polygon K) es e : edges P = es -> length P = 4%nat -> (e < 4)%nat -> edge P e = nth e es vzero.
Proof.
  intros <- Ln He. symmetry. unfold edges. rewrite (nth_indep _ vzero (edge P 0)) by (rewrite map_length, seq_length; lia). rewrite map_nth, seq_nth; auto. lia.
Qed.
(** ** origamis *)
Section O.
Context {L : Type} (dom : L -> bool).
Implicit Types f : L -> L.
Definition inverse_on f f' := forall l, dom l = true -> dom (f l) = true /\ f' (f l) = l.
Lemma origami_ok (r u rr uu : L -> L) : inverse_on r rr -> inverse_on rr r -> inverse_on u uu -> inverse_on uu u ->
  good_surface (fun l => dom l = true) (origami dom r u rr uu) map_translation.
Proof.
  intros R R' U U'. destruct square_ok as (P & E & Ln & Ed & Sm & Ar).
  set (ev := fun (_ : L) e => nth e (rect (1 : K) 1) vzero). set (g := fun l e => (nth e [uu; r; u; rr] uu l, ((e + 2) mod 4)%nat)).
  assert (HP : forall l, dom l = true -> exists P, s_poly (@origami K L dom r u rr uu) l = Ok P /\ length P = 4%nat /\ (forall e, (e < 4)%nat -> edge P e = ev l e) /\ simple_polygon P /\ 0 < area P).
  { intros l Dl. exists P. cbn [s_poly origami]. rewrite Dl. auto. }
  assert (Hnz : forall l e, dom l = true -> (e < 4)%nat -> ev l e <> vzero) by (intros l e _ He; apply rect_nz; auto; apply flt_0_1).
  assert (Hop : forall l e, dom l = true -> (e < 4)%nat -> s_opp (@origami K L dom r u rr uu) l e = Ok (Some (g l e)) /\ dom (fst (g l e)) = true /\ (snd (g l e) < 4)%nat /\ g (fst (g l e)) (snd (g l e)) = (l, e)).
  { intros l e Dl He. cbn [s_opp origami]. rewrite Dl. cbn [negb]. rewrite (proj2 (Nat.ltb_ge 3 e)) by lia. split; [reflexivity|].
    specialize (R l Dl). specialize (R' l Dl). specialize (U l Dl). specialize (U' l Dl).
    destruct R, R', U, U'. destruct e as [|[|[|[|e]]]]; try lia; unfold g; cbn; (split; [assumption|]); (split; [lia|]); congruence. }
  destruct (quads_valid _ _ ev g HP Hnz Hop) as (V & C & Si & A). constructor; auto.
  apply (quads_translation _ _ ev g HP Hnz Hop). intros l e Dl He. unfold ev, g. cbn [snd]. rewrite rect_edge by auto. unfold vopp. destruct (nth e (rect 1 1) vzero). cbn. f_equal; ring.
Qed.
(** conversely the permutations are needed *)
Lemma origami_needs (r u rr uu : L -> L) : valid (fun l => dom l = true) (@origami K L dom r u rr uu) -> inverse_on r rr /\ inverse_on rr r /\ inverse_on u uu /\ inverse_on uu u.
Proof.
  intros V. destruct square_ok as (P & E & Ln & _).
  assert (X : forall l e, dom l = true -> (e < 4)%nat -> dom (nth e [uu; r; u; rr] uu l) = true /\ nth ((e + 2) mod 4) [uu; r; u; rr] uu (nth e [uu; r; u; rr] uu l) = l).
  { intros l e Dl He. assert (Ep : s_poly (@origami K L dom r u rr uu) l = Ok P) by (cbn [s_poly origami]; rewrite Dl; exact E).
    destruct (v_opp _ _ V l P e Dl Ep) as [N|(l' & e' & P' & O & D' & _ & _ & O')]; [lia| |].
    - cbn [s_opp origami] in N. rewrite Dl in N. cbn [negb] in N. rewrite (proj2 (Nat.ltb_ge 3 e)) in N by lia. discriminate.
    - unfold origami in O, O'. cbn [s_opp] in O, O'. rewrite Dl in O. rewrite D' in O'. destruct e as [|[|[|[|e]]]]; try lia; cbn in O; injection O as <- <-; cbn in O'; injection O' as O'; auto. }
  split; [|split; [|split]]; intros l Dl.
  - apply (X l 1%nat Dl). lia.
  - apply (X l 3%nat Dl). lia.
  - apply (X l 2%nat Dl). lia.
  - apply (X l 0%nat Dl). lia.
Qed.
End O.
Lemma stair_inv : (forall x, stair_vertical (stair_vertical x) = x) /\ forall x, stair_horizontal (stair_horizontal x) = x.
Proof.
  assert (A : forall x, (x mod 2 = 0)%Z -> ((x + 1) mod 2 = 1 /\ (x - 1) mod 2 = 1)%Z). { intros x H. split; [rewrite Z.add_mod, H by lia|rewrite Zminus_mod, H by lia]; reflexivity. }
  assert (B : forall x, (x mod 2 <> 0)%Z -> ((x + 1) mod 2 = 0 /\ (x - 1) mod 2 = 0)%Z).
  { intros x H. pose proof (Z.mod_pos_bound x 2). assert (x mod 2 = 1)%Z by lia. split; [rewrite Z.add_mod by lia|rewrite Zminus_mod by lia]; rewrite H1; reflexivity. }
  split; intros x; unfold stair_vertical, stair_horizontal; destruct (Z.eqb_spec (x mod 2) 0) as [E|E].
  - rewrite (proj2 (A x E)). cbn. lia.
  - rewrite (proj1 (B x E)). cbn. lia.
  - rewrite (proj1 (A x E)). cbn. lia.
  - rewrite (proj2 (B x E)). cbn. lia.
Qed.
Lemma staircase_ok : good_surface (fun _ => True) infinite_staircase map_translation.
Proof.
  destruct stair_inv as [A B]. assert (G : good_surface (fun l : Z => (fun _ => true) l = true) infinite_staircase map_translation) by (apply origami_ok; intros l _; auto).
  destruct G as [G1 G2 G3 G4 G5]. constructor.
  - destruct G1 as [a b]. constructor; [intros l _; now apply a|]. intros l P e _ HP He. destruct (b l P e eq_refl HP He) as [N|(l' & e' & P' & X1 & X2 & X3 & X4)]; auto. right. exists l', e', P'. auto.
  - intros l P e _. now apply G2.
  - intros l P _. now apply G3.
  - intros l P _. now apply G4.
  - intros l e P l' e' P' F [a b c d f]. apply (G5 l e P l' e' P' F). now constructor.
Qed.
(** ** the Chamanara surface *)
Lemma chamanara_ok alpha : 0 < alpha -> alpha < 1 -> exists S, chamanara alpha = Ok S /\ good_surface (fun _ => True) S map_dilation.
Proof.
  intros A0 A1. set (x := 1 / (1 - alpha)). assert (N : 1 - alpha <> 0) by (intros Z; flra).
  assert (X : 0 < x - 1). { replace (x - 1) with (alpha / (1 - alpha)) by (unfold x; field; auto). apply fdiv_pos; flra. }
  destruct (quad_polygon (1, 0) (- x, x) (0, - (1)) (x - 1, 1 - x)) as (P & EP & Ed & Ln & Sm & Ar); try (unfold ccw; cbn [fst snd]; pose proof (@flt_0_1 K); flra).
  { apply vec_eq; cbn; ring. }
  unfold chamanara, chamanara_polygon. rewrite (proj2 (feqb_false (1 - alpha) 0) N). fold x. match goal with |- context [Polygon_edges ?y] => replace (Polygon_edges y) with (Ok P) by (symmetry; exact EP) end. cbn [bind]. eexists. split; [reflexivity|].
  match goal with |- good_surface _ ?s _ => set (S := s) end.
  set (ev := fun (_ : Z) e => nth e [(1, 0); (- x, x); (0, - (1)); (x - 1, 1 - x)] (vzero : vec K)).
  assert (HP : forall l : Z, True -> exists P, s_poly S l = Ok P /\ length P = 4%nat /\ (forall e, (e < 4)%nat -> edge P e = ev l e) /\ simple_polygon P /\ 0 < area P).
  { intros l _. exists P. do 2 (split; auto). split; auto. intros e He. unfold ev. now apply edges_nth. }
  assert (Hnz : forall l e, True -> (e < 4)%nat -> ev l e <> vzero).
  { intros l e _ He E. pose proof (@flt_0_1 K). destruct e as [|[|[|[|e]]]]; try lia; pose proof (f_equal fst E) as E1; pose proof (f_equal snd E) as E2; cbn in E1, E2; clear E; clearbody x; flra. }
  assert (Hop : forall l e, True -> (e < 4)%nat -> s_opp S l e = Ok (Some (chamanara_opposite l e)) /\ True /\ (snd (chamanara_opposite l e) < 4)%nat /\
    chamanara_opposite (fst (chamanara_opposite l e)) (snd (chamanara_opposite l e)) = (l, e)).
  { intros l e _ He. split; [reflexivity|]. split; auto. unfold chamanara_opposite. destruct e as [|[|[|[|e]]]]; try lia; cbn [Nat.eqb orb fst snd].
    - split; [lia|]. f_equal. lia.
    - destruct (Z.ltb_spec l 0); cbn [fst snd Nat.eqb orb]; [destruct (Z.leb_spec (l + 1) 0); try lia; split; [lia|]; f_equal; lia|].
      destruct (Z.ltb_spec 1 l); cbn [fst snd Nat.eqb orb]; [destruct (Z.leb_spec (l - 1) 0); try lia; split; [lia|]; f_equal; lia|].
      destruct (Z.ltb_spec (1 - l) 0); try lia. destruct (Z.ltb_spec 1 (1 - l)); try lia. split; [lia|]. f_equal. lia.
    - split; [lia|]. f_equal. lia.
    - destruct (Z.leb_spec l 0); cbn [fst snd Nat.eqb orb].
      + destruct (Z.ltb_spec (l - 1) 0); try lia. split; [lia|]. f_equal; lia.
      + destruct (Z.ltb_spec (l + 1) 0); try lia. destruct (Z.ltb_spec 1 (l + 1)); try lia. split; [lia|]. f_equal; lia. }
  destruct (quads_valid _ _ ev chamanara_opposite HP Hnz Hop) as (V & C & Si & Aa). constructor; auto.
  apply (quads_dilation _ _ ev chamanara_opposite HP Hnz Hop). intros l e _ He. pose proof (@flt_0_1 K).
  assert (M1 : - (1) <> (0 : K)) by (intros Z; flra). assert (X0 : x <> 0) by (intros Z; flra). assert (X1 : x - 1 <> 0) by (intros Z; flra).
  assert (half : forall u : vec K, exists c, c <> 0 /\ vscale c u = vopp u) by (intros u; exists (- (1)); split; auto; apply vec_eq; cbn; ring).
  unfold chamanara_opposite. destruct e as [|[|[|[|e]]]]; try lia; cbn [Nat.eqb orb fst snd]; auto.
  - destruct (Z.ltb_spec l 0); cbn [snd]; [|destruct (Z.ltb_spec 1 l); cbn [snd]; [|apply half]].
    + exists ((x - 1) / x). split; [apply fneq_div; auto|]. cbn. apply vec_eq; cbn; field; auto.
    + exists ((x - 1) / x). split; [apply fneq_div; auto|]. cbn. apply vec_eq; cbn; field; auto.
  - destruct (Z.leb_spec l 0); cbn [snd]; exists (x / (x - 1)); (split; [apply fneq_div; auto|]); cbn; apply vec_eq; cbn; field; auto.
Qed.
End P.
