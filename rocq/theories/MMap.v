(** Model of the mappings of surfaces by linear maps: flatsurf/geometry/mappings.py 902-945 ([GL2RMapping]) and of the
    composition of mappings, 60-92. Base rings and categories are not modelled. *)
From Coq Require Import List Bool ZArith Arith.
From Verif Require Import OField MBase MDict MEuclid MSim MPoly MSurf MTangent.

Section Map.
Context {K : OField}.
Local Open Scope F_scope.
Local Open Scope res_scope.

(** mappings.py 25-50 and 60-92: a mapping is given by its two methods [push_vector_forward] and [pull_vector_back]
    (tangent vectors of the domain and of the codomain); the check that the codomain of the first factor equals the
    domain of the second (69-72) is left out *)
Record mapping (L L' : Type) := Mapping { push : tvec K L -> res (tvec K L'); pull : tvec K L' -> res (tvec K L) }.
Arguments Mapping {L L'}. Arguments push {L L'}. Arguments pull {L L'}.
(** mappings.py 77-85 *)
Definition composition {L1 L2 L3 : Type} (m1 : mapping L1 L2) (m2 : mapping L2 L3) : mapping L1 L3 :=
  Mapping (fun t => u <- push m1 t ;; push m2 u) (fun t => u <- pull m2 t ;; pull m1 u).

(** mappings.py 920-945; inverting a singular matrix is a ZeroDivisionError *)
Definition GL2RMapping {L : Type} `{EqB L} (S : surface K L) (M : mat K) : res (mapping L L) :=
  if mdet M =? 0 then Err ZeroDivisionError else
  Ok (Mapping
    (fun t => tangent_vector (gl2r S M) (tv_label t) (mapply M (tv_point t)) (mapply M (tv_vector t)))
    (fun t => tangent_vector S (tv_label t) (mapply (minv M) (tv_point t)) (mapply (minv M) (tv_vector t)))).
End Map.
Arguments Mapping {K L L'}. Arguments push {K L L'}. Arguments pull {K L L'}.
