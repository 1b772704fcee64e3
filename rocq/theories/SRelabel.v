(** Specification of relabelling: the surface given by [poly], [opp] and [roots] is the surface [s] with each label [l]
    replaced by [f l]. *)
From Coq Require Import List Bool ZArith.
From Verif Require Import MBase MDict MMut SMut.

Section S.
Context {P : Type} (nv : P -> nat).
Record relabelled (s : @surf P) (f : label -> label) (poly : label -> res P) (opp : label -> Z -> res (option hedge))
    (roots : res (list label)) : Prop := {
  rl_injective : forall l l', is_label s l -> is_label s l' -> f l = f l' -> l = l';
  rl_polygon : forall l p, get_polygon s l = Ok p -> poly (f l) = Ok p;
  rl_onto : forall l' p, poly l' = Ok p -> exists l, is_label s l /\ l' = f l;
  rl_glued : forall x y, glued nv s x y -> opp (f (fst x)) (snd x) = Ok (Some (f (fst y), snd y));
  rl_free : forall x, free nv s x -> opp (f (fst x)) (snd x) = Ok None;
  rl_roots : forall rs, get_roots nv s = Ok rs -> roots = Ok (map f rs) }.
End S.
