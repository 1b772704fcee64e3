(** C70: equality of segments of the hyperbolic plane. *)
From Coq Require Import List Bool ZArith QArith Lia Ring Field.
From Verif Require Import OField FMicromega PField MBase MEuclid PEuclid SEuclid MHyp SHyp PHyp PHyp2 MHypSet SHypSet PHypSet7 PHypSeg TEuclid ExTab THyp THypSet.
Import ListNotations.

Section T.
Context {K : OField}.
Local Open Scope res_scope. Local Open Scope F_scope.
Variable B : K -> Prop.
Variable sqrt : K -> option K.
Hypothesis SB : subfield B.
Hypothesis SQ : sqrt_in B sqrt.
(** Equal segments are those with the same points and the same orientation; comparing them only fails if the coordinates of
    an ideal end point are not in the base ring. *)
Theorem C70_segment_equal f s e g s' e' : normal_seg (SegSegment f s e) -> normal_seg (SegSegment g s' e') -> geo_over B f -> geo_over B g ->
  match seg_eqb sqrt (SegSegment f s e) (SegSegment g s' e') with
  | Ok b => b = true <-> same_oriented f g /\ forall x, in_segment f s e x <-> in_segment g s' e' x
  | Err x => x = ValueError /\ exists h, (h = f \/ h = geo_neg f \/ h = g \/ h = geo_neg g) /\ forall q, start_of h q -> B (fst q) -> B (snd q) -> False
  end.
Proof.
  intros N N' O O'. destruct (seg_eqb sqrt (SegSegment f s e) (SegSegment g s' e')) as [b|x] eqn:H; [now apply (segments_equal B sqrt SB SQ)|]. cbn [seg_eqb] in H.
  destruct (geo_eqb true f g); [|discriminate]. pose proof (vertices_ok B sqrt SB SQ f s e N O) as V. pose proof (vertices_ok B sqrt SB SQ g s' e' N' O') as V'.
  destruct (segment_vertices sqrt f s e) as [v|y]; cbn [bind] in H; [|injection H as ->; destruct V as (-> & h & [[-> _]|[-> _]] & V); split; auto; eauto 6].
  destruct (segment_vertices sqrt g s' e') as [v'|y]; cbn [bind] in H; [discriminate|]. injection H as ->. destruct V' as (-> & h & [[-> _]|[-> _]] & V'); split; auto; eauto 8.
Qed.
(** The vertices of a segment are its two end points; a segment and its reversal have the same vertices. *)
Theorem C70_segment_vertices g s e v : normal_seg (SegSegment g s e) -> geo_over B g -> segment_vertices sqrt g s e = Ok v ->
  segment_vertices sqrt (geo_neg g) e s = Ok v /\ fst v <> snd v /\
  forall p, (p = fst v \/ p = snd v) <-> in_segment g s e p /\ forall q r, in_segment g s e q -> in_segment g s e r -> after g q p -> after g p r -> False.
Proof.
  intros N O H. split; [now apply neg_vertices|]. split; [now apply (vertices_distinct B sqrt SB SQ g s e)|now apply (vertices_extreme B sqrt SB SQ)].
Qed.
End T.
Local Open Scope res_scope.
(** the ray from infinity to i, also with scaled coefficients; a segment of the same geodesic; the reversed ray *)
Example C70_segment_ex :
  (let a := SegSegment (g_ 0 1 0) None (Some (qv 0 0)) in let b := SegSegment (g_ 0 2 0) None (Some (qv 0 0)) in let c := SegSegment (g_ 0 1 0) (Some (qv 0 (1#2))) (Some (qv 0 0)) in let d := SegSegment (g_ 0 (-1) 0) (Some (qv 0 0)) None in
   [seg_eqb qsqrt a b; seg_eqb qsqrt a c; seg_eqb qsqrt a d; seg_eqb qsqrt (seg_neg a) d; seg_eqb qsqrt c (seg_neg (seg_neg c))] = [Ok true; Ok false; Ok false; Ok true; Ok true]) /\
  segment_vertices qsqrt (g_ 0 1 0) None (Some (qv 0 0)) = Ok (qv 0 0, qv 0 1) /\ segment_vertices qsqrt (g_ 0 (-1) 0) (Some (qv 0 0)) None = Ok (qv 0 0, qv 0 1).
Proof. repeat match goal with |- _ /\ _ => split end; vm_compute; reflexivity. Qed.
Print Assumptions C70_segment_equal.
Print Assumptions C70_segment_vertices.
