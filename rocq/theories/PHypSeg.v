(** Proofs about the equality of segments. *)
From Coq Require Import Bool List Ring Field.
From Verif Require Import OField FMicromega MBase MEuclid SEuclid PEuclid PField MHyp SHyp PHyp PHyp2 PHyp3 PHyp4 PHyp6 MHypSet SHypSet PHypSet7.
Import ListNotations.

Section P.
Context {K : OField}.
Add Field KF : (of_ft K).
Local Open Scope res_scope. Local Open Scope F_scope.
Implicit Types p q x y z : vec K.
Implicit Types f g h : geo K.

Lemma before_start g p q : line g -> start_of g p -> after g q p -> ~ in_disk q.
Proof.
  intros L S A F. destruct S as (r & _ & _ & I1 & I2 & A'). destruct A as (t & T & ->). destruct A' as (s & S & ->). destruct q as [qx qy]. unfold ideal, in_disk, vadd, vscale in *. cbn [fst snd] in *.
    set (b := g_b g) in *. set (c := g_c g) in *. assert (V : 0 < b * b + c * c) by (now apply line_pos).
    assert (D : 2 * ((qx + t * c) * c - (qy + t * - b) * b) = - s * (b * b + c * c)).
    { apply (fcancel _ _ s); [now apply fpos_neq0|]. flra. }
    assert (Q : qx * qx + qy * qy = 1 + t * s * (b * b + c * c) + t * t * (b * b + c * c)).
    { replace (qx * qx + qy * qy) with ((qx + t * c) * (qx + t * c) + (qy + t * - b) * (qy + t * - b) - t * (2 * ((qx + t * c) * c - (qy + t * - b) * b)) + t * t * (b * b + c * c)) by ring. rewrite D, I1. ring. }
    assert (0 < t * s) by (now apply fmul_pos). assert (0 < t * t) by (now apply fmul_pos). assert (0 < t * s * (b * b + c * c)) by (now apply fmul_pos). assert (0 < t * t * (b * b + c * c)) by (now apply fmul_pos). flra.
Qed.
Lemma start_first g p q : line g -> start_of g p -> in_disk q -> on g q -> q = p \/ after g p q.
Proof.
  intros L S F O. destruct (after_total g p q L (start_on g p S) O) as [->|[A|A]]; auto. exfalso. now apply (before_start g p q).
Qed.
Lemma start_finite g p q : line g -> start_of g p -> finite q -> on g q -> after g p q.
Proof.
  intros L S F O. destruct (start_first g p q L S) as [->|]; auto; [unfold finite, in_disk in *; flra|]. apply start_ideal in S. unfold ideal, finite in *. flra.
Qed.
Lemma veq (p q : vec K) : fst p = fst q -> snd p = snd q -> p = q.
Proof. destruct p, q. cbn. now intros -> ->. Qed.
Lemma vec_lt_asym p q : vec_lt p q = true -> vec_lt q p = false.
Proof.
  unfold vec_lt. rewrite orb_true_iff, andb_true_iff. intros [H|[H1 H2]].
  - apply orb_false_iff. split; [flra|]. apply andb_false_iff. left. destruct (fst q =? fst p) eqn:Q; auto. apply feqb_eq in Q. rewrite Q in H. flra.
  - apply feqb_eq in H1. rewrite H1. apply orb_false_iff. split; [flra|]. apply andb_false_iff. right. flra.
Qed.
Lemma vec_lt_total p q : vec_lt p q = false -> vec_lt q p = false -> p = q.
Proof.
  unfold vec_lt. rewrite !orb_false_iff, !andb_false_iff. intros [A A'] [B B']. assert (E : fst p = fst q) by flra. apply veq; auto. rewrite E in *.
  assert (F : (fst q =? fst q) = true) by (now apply feqb_eq). rewrite F in *. destruct A' as [A'|A']; [discriminate|]. destruct B' as [B'|B']; [discriminate|]. flra.
Qed.
Definition sorted_pair p q : vec K * vec K := if vec_lt q p then (q, p) else (p, q).
Lemma sorted_sym p q : sorted_pair p q = sorted_pair q p.
Proof.
  unfold sorted_pair. destruct (vec_lt q p) eqn:A, (vec_lt p q) eqn:B; auto.
  - apply vec_lt_asym in A. congruence.
  - rewrite (vec_lt_total p q B A). reflexivity.
Qed.
Lemma sorted_inj p q p' q' : sorted_pair p q = sorted_pair p' q' -> (p = p' /\ q = q') \/ (p = q' /\ q = p').
Proof. unfold sorted_pair. destruct (vec_lt q p), (vec_lt q' p'); intros H; apply pair_equal_spec in H; destruct H; auto. Qed.

(** ** Equality *)
Variable B0 : K -> Prop.
Variable sqrt : K -> option K.
Hypothesis SB : subfield B0.
Hypothesis SQ : sqrt_in B0 sqrt.
(** the point is the given finite one, or the starting point of the geodesic *)
Definition start_pt g (s : option (vec K)) p : Prop := match s with Some q => p = q /\ finite q /\ on g q | None => start_of g p end.
Lemma start_pt_ok g s : chord g -> geo_over B0 g -> (forall p, s = Some p -> finite p /\ on g p) ->
  match match s with Some p => Ok p | None => coordinates_klein sqrt (Start g) end with
  | Ok p => start_pt g s p
  | Err e => e = ValueError /\ s = None /\ forall q, start_of g q -> B0 (fst q) -> B0 (snd q) -> False
  end.
Proof.
  intros C O H. destruct s as [p|]; [destruct (H p eq_refl); now repeat split|]. pose proof (coordinates_start B0 sqrt SB SQ g C O) as S. destruct (coordinates_klein sqrt (Start g)); cbn; tauto.
Qed.
Lemma vertices_ok g s e : normal_seg (SegSegment g s e) -> geo_over B0 g ->
  match segment_vertices sqrt g s e with
  | Ok v => exists p q, v = sorted_pair p q /\ start_pt g s p /\ start_pt (geo_neg g) e q /\ after g p q
  | Err x => x = ValueError /\ exists h, (h = g /\ s = None \/ h = geo_neg g /\ e = None) /\ forall q, start_of h q -> B0 (fst q) -> B0 (snd q) -> False
  end.
Proof.
  intros (C & N & S & E & A) O. unfold segment_vertices. pose proof (start_pt_ok g s C O S) as P1.
  assert (E' : forall p, e = Some p -> finite p /\ on (geo_neg g) p) by (intros p Q; destruct (E p Q); split; auto; now apply on_neg).
  pose proof (start_pt_ok (geo_neg g) e (chord_neg _ C) (over_neg B0 SB _ O) E') as P2.
  destruct (match s with Some p => Ok p | None => coordinates_klein sqrt (Start g) end) as [p|x]; cbn [bind]; [|destruct P1 as (-> & -> & P1); split; auto; exists g; split; auto].
  destruct (match e with Some p => Ok p | None => coordinates_klein sqrt (Start (geo_neg g)) end) as [q|x]; cbn [bind]; [|destruct P2 as (-> & -> & P2); split; auto; exists (geo_neg g); split; auto].
  exists p, q. split; [reflexivity|]. split; auto. split; auto. pose proof (chord_line _ C) as L. pose proof (chord_line _ (chord_neg _ C)) as L'.
  destruct s as [p'|], e as [q'|]; cbn [start_pt] in P1, P2.
  - destruct P1 as (-> & _), P2 as (-> & _). auto.
  - destruct P1 as (-> & F & O'). apply after_neg. apply start_finite; auto. now apply on_neg.
  - destruct P2 as (-> & F & O'). apply start_finite; auto. now apply on_neg.
  - destruct N; congruence.
Qed.
Lemma start_pt_same f g s s' p : line f -> line g -> same_oriented f g -> start_pt f s p -> start_pt g s' p -> s = s'.
Proof.
  intros L L' SO H H'. destruct s as [q|], s' as [q'|]; cbn [start_pt] in *; auto.
  - destruct H as (<- & _), H' as (<- & _). reflexivity.
  - destruct H as (<- & F & _). apply start_ideal in H'. unfold finite, ideal in *. flra.
  - destruct H' as (<- & F & _). apply start_ideal in H. unfold finite, ideal in *. flra.
Qed.
Lemma start_pt_unique f g s p q : line f -> line g -> same_oriented f g -> start_pt f s p -> start_pt g s q -> p = q.
Proof.
  intros L L' SO H H'. destruct s as [r|]; cbn [start_pt] in *; [destruct H as (-> & _), H' as (-> & _); auto|]. apply (start_unique g); auto. now apply (start_same f g).
Qed.
Lemma same_neg f g : line f -> line g -> same_oriented f g -> same_oriented (geo_neg f) (geo_neg g).
Proof.
  intros L L' H. destruct (same_scale f g L L' H) as (k & P & ->). replace (geo_neg (scale_geo k f)) with (scale_geo k (geo_neg f)); [now apply scale_same|]. unfold geo_neg, scale_geo. cbn. f_equal; ring.
Qed.
Definition geo_of (r : segment_set K) (d : geo K) : geo K := match r with SegGeodesic g | SegSegment g _ _ => g | _ => d end.
Lemma segments_equal f s e g s' e' b : normal_seg (SegSegment f s e) -> normal_seg (SegSegment g s' e') -> geo_over B0 f -> geo_over B0 g ->
  seg_eqb sqrt (SegSegment f s e) (SegSegment g s' e') = Ok b -> (b = true <-> same_oriented f g /\ forall x, in_segment f s e x <-> in_segment g s' e' x).
Proof.
  intros N N' O O' H. pose proof (chord_line _ (proj1 N)) as L. pose proof (chord_line _ (proj1 N')) as L'. pose proof (chord_line _ (chord_neg _ (proj1 N))) as M. pose proof (chord_line _ (chord_neg _ (proj1 N'))) as M'. cbn [seg_eqb] in H. pose proof (eqb_oriented f g L L') as EO.
  destruct (geo_eqb true f g); [|injection H as <-; split; [discriminate|intros [A _]; now apply EO in A]].
  assert (SO : same_oriented f g) by (now apply EO). pose proof (same_neg f g L L' SO) as SO'. clear EO. pose proof (vertices_ok f s e N O) as V. pose proof (vertices_ok g s' e' N' O') as V'.
  destruct (segment_vertices sqrt f s e) as [v|]; [|discriminate]. destruct (segment_vertices sqrt g s' e') as [v'|]; [|discriminate]. cbn [bind] in H. injection H as <-.
  destruct V as (p & q & -> & P & Q & A). destruct V' as (p' & q' & -> & P' & Q' & A'). destruct (same_scale f g L L' SO) as (k & Pk & G).
  rewrite andb_true_iff, !veqb_eq. split.
  - intros [E1 E2]. split; auto. assert (E : sorted_pair p q = sorted_pair p' q') by (rewrite (surjective_pairing (sorted_pair p q)), (surjective_pairing (sorted_pair p' q')); now f_equal). apply sorted_inj in E. destruct E as [[-> ->]|[-> ->]].
    + rewrite (start_pt_same f g s s' p' L L' SO P P'), (start_pt_same (geo_neg f) (geo_neg g) e e' q' M M' SO' Q Q'). intros x. rewrite G. symmetry. now apply in_segment_scale.
    + exfalso. rewrite G in A'. apply (after_scale f k p' q' Pk) in A'. apply (after_irrefl f p' L). now apply (after_trans f p' q' p').
  - intros [_ E]. rewrite G in E. destruct (same_ends f k s e s' e' Pk (normal_valid _ _ _ N)) as [-> ->]; auto; [rewrite <- G; now apply normal_valid|].
    rewrite (start_pt_unique f g s' p p' L L' SO P P'), (start_pt_unique (geo_neg f) (geo_neg g) e' q q' M M' SO' Q Q'). auto.
Qed.
Lemma start_extreme g s e p x : line g -> start_pt g s p -> in_segment g s e x -> x = p \/ after g p x.
Proof.
  intros L P (D & O & NB & _). destruct s as [q|]; cbn [start_pt not_before] in *; [destruct P as (-> & _); auto|]. now apply start_first.
Qed.
Lemma start_in g s e p q : line g -> start_pt g s p -> start_pt (geo_neg g) e q -> after g p q -> in_segment g s e p.
Proof.
  intros L P Q A. assert (D : in_disk p /\ on g p). { destruct s as [r|]; cbn [start_pt] in P; [destruct P as (-> & F & O); split; auto; unfold in_disk, finite in *; flra|]. split; [apply start_ideal in P; unfold in_disk, ideal in *; flra|now apply start_on]. }
  destruct D as [D O]. split; auto. split; auto. split; [destruct s as [r|]; cbn in *; [destruct P as (-> & _); auto|auto]|]. destruct e as [r|]; cbn in *; [destruct Q as (-> & _); auto|auto].
Qed.
Lemma in_neg g s e x : in_segment (geo_neg g) e s x <-> in_segment g s e x.
Proof. apply in_segment_neg. Qed.
Lemma vertices_extreme g s e v : normal_seg (SegSegment g s e) -> geo_over B0 g -> segment_vertices sqrt g s e = Ok v ->
  forall p, (p = fst v \/ p = snd v) <-> in_segment g s e p /\ forall q r, in_segment g s e q -> in_segment g s e r -> after g q p -> after g p r -> False.
Proof.
  intros N O H. pose proof (vertices_ok g s e N O) as V. rewrite H in V. destruct V as (a & b & -> & P & Q & A). pose proof (chord_line _ (proj1 N)) as L. pose proof (chord_line _ (chord_neg _ (proj1 N))) as M.
  assert (A' : after (geo_neg g) b a) by (now apply after_neg).
  assert (S : forall p, (p = fst (sorted_pair a b) \/ p = snd (sorted_pair a b)) <-> (p = a \/ p = b)) by (intros p; unfold sorted_pair; destruct (vec_lt b a); cbn; tauto).
  intros p. rewrite S. split.
  - intros [->| ->].
    + split; [now apply (start_in g s e a b)|]. intros q r Iq _ A1 _. destruct (start_extreme g s e a q L P Iq) as [->|A2]; [now apply (after_irrefl g a L)|]. apply (after_irrefl g a L). now apply (after_trans g a q a).
    + split; [apply in_neg; apply (start_in (geo_neg g) e s b a); auto; now rewrite neg_neg|]. intros q r _ Ir _ A1. apply in_neg in Ir. destruct (start_extreme (geo_neg g) e s b r M Q Ir) as [->|A2]; [now apply (after_irrefl g b L)|]. apply (proj1 (after_neg g b r)) in A2. apply (after_irrefl g b L). now apply (after_trans g b r b).
  - intros [I E]. destruct (start_extreme g s e a p L P I) as [->|A1]; auto. pose proof (proj2 (in_neg g s e p) I) as I'. destruct (start_extreme (geo_neg g) e s b p M Q I') as [->|A2]; auto. apply (proj1 (after_neg g b p)) in A2. exfalso. apply (E a b); auto.
    + now apply (start_in g s e a b).
    + apply in_neg. apply (start_in (geo_neg g) e s b a); auto. now rewrite neg_neg.
Qed.
Lemma vertices_distinct g s e v : normal_seg (SegSegment g s e) -> geo_over B0 g -> segment_vertices sqrt g s e = Ok v -> fst v <> snd v.
Proof.
  intros N O H. pose proof (vertices_ok g s e N O) as V. rewrite H in V. destruct V as (a & b & -> & P & Q & A). pose proof (chord_line _ (proj1 N)) as L. assert (a <> b) by (intros ->; now apply (after_irrefl g b L)).
  unfold sorted_pair. destruct (vec_lt b a); cbn; auto.
Qed.
Lemma neg_vertices g s e v : segment_vertices sqrt g s e = Ok v -> segment_vertices sqrt (geo_neg g) e s = Ok v.
Proof.
  unfold segment_vertices. rewrite neg_neg. destruct (match s with Some p => Ok p | None => coordinates_klein sqrt (Start g) end) as [p|]; cbn [bind]; [|discriminate].
  destruct (match e with Some p => Ok p | None => coordinates_klein sqrt (Start (geo_neg g)) end) as [q|]; cbn [bind]; [|discriminate]. intros H. injection H as <-. f_equal. fold (sorted_pair q p). fold (sorted_pair p q). apply sorted_sym.
Qed.
End P.
