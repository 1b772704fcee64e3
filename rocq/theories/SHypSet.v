(** Specification of convex sets of the hyperbolic plane as intersections of half spaces. *)
From Coq Require Import Bool List Sorted.
From Verif Require Import OField MBase MEuclid SEuclid MHyp SHyp MHypSet.
Import ListNotations.

Section S.
Context {K : OField}.
Local Open Scope F_scope.
Implicit Types p q : vec K.
Implicit Types g h : geo K.
Implicit Types l m : list (geo K).
Implicit Types X : vec K -> Prop.

(** the points (including ideal points) of all the half spaces *)
Definition common l p : Prop := in_disk p /\ forall h, In h l -> left_of h p.
(** the points that are described by a set *)
Definition denotes (x : hyp_set K) p : Prop :=
  match x with
  | HEmpty => False
  | HPoint q => p = q
  | HSegment r => set_of r p
  | HHalfSpace h => in_disk p /\ left_of h p
  | HPolygon l => common l p
  end.
(** every half space is given by some half space of [m] *)
Definition represented l m : Prop := forall h, In h l -> exists g, In g m /\ same_oriented h g.
(** strictly ascending *)
Definition increasing (lt : geo K -> geo K -> bool) l : Prop := StronglySorted (fun g h => lt g h = true) l.
(** the boundary of the half space contains more than one point of the set *)
Definition edge_of X h : Prop := exists p q, p <> q /\ X p /\ X q /\ on h p /\ on h q.
(** there is a point in the interior of all the half spaces *)
Definition solid l : Prop := exists p, finite p /\ forall h, In h l -> left_of h p /\ ~ on h p.
(** the sets are not degenerate, and no half space of a polygon is redundant *)
Definition proper_set (lt : geo K -> geo K -> bool) (x : hyp_set K) : Prop :=
  match x with
  | HEmpty => True
  | HPoint p => in_disk p
  | HSegment (SegGeodesic _ as r) | HSegment (SegSegment _ _ _ as r) => normal_seg r
  | HSegment _ => False
  | HHalfSpace h => chord h
  | HPolygon l => Forall chord l /\ (2 <= length l)%nat /\ increasing lt l /\ solid l /\ forall h, In h l -> edge_of (common l) h
  end.
(** the coefficients and coordinates are in the base ring *)
Definition opt_over (B : K -> Prop) (o : option (vec K)) : Prop := forall p, o = Some p -> B (fst p) /\ B (snd p).
Definition set_over (B : K -> Prop) (x : hyp_set K) : Prop :=
  match x with
  | HPoint p | HSegment (SegPoint p) => B (fst p) /\ B (snd p)
  | HSegment (SegGeodesic g) | HHalfSpace g => geo_over B g
  | HSegment (SegSegment g s e) => geo_over B g /\ opt_over B s /\ opt_over B e
  | HPolygon l => Forall (geo_over B) l
  | _ => True
  end.
(** the set is a ray from an ideal point to the finite point [p], and the coordinates of the ideal point are not in the base ring *)
Definition irrational_ray (B : K -> Prop) X : Prop :=
  exists g p, chord g /\ finite p /\ on g p /\ (forall q, X q <-> in_segment g None (Some p) q) /\
    forall q, start_of g q -> B (fst q) -> B (snd q) -> False.
(** an element of a (possibly unbounded) interval, if the interval is not empty *)
Definition element (lo hi : option K) (x : K) : Prop :=
  match lo with Some a => a <= x | None => True end /\ match hi with Some b => x <= b | None => True end.
Definition chooses (pick : option K -> option K -> K) : Prop := forall lo hi x, element lo hi x -> element lo hi (pick lo hi).
End S.
