(** Specification of the action of linear maps on tangent vectors. *)
From Verif Require Import OField MEuclid MSim STangent.

Section S.
Context {K : OField} {L : Type}.
(** the image of the coordinates of a tangent vector *)
Definition linear_image_coords (N : mat K) (x : coords (K := K) (L := L)) : coords := (fst (fst x), mapply N (snd (fst x)), mapply N (snd x)).
End S.
