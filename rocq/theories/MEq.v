(** Model of comparison and hashing of surfaces: flatsurf/geometry/surface.py 492-573 and 2172-2231.
    The test [isinstance] and the comparison of base rings are left out: both surfaces are of the same class and over
    the same field. Polygons are compared with an equality [eqb] (polygon.py [__eq__] compares the vertices). *)
From Coq Require Import List Bool ZArith.
From Verif Require Import MBase MDict MMut.
Import ListNotations.

(** Python's [==] on tuples and lists *)
Fixpoint list_eqb {A} (e : A -> A -> bool) (l l' : list A) : bool :=
  match l, l' with
  | nil, nil => true
  | x :: l, y :: l' => e x y && list_eqb e l l'
  | _, _ => false
  end.
(** Python's [==] with [None] *)
Definition opt_eqb {A} (e : A -> A -> bool) (x y : option A) : bool :=
  match x, y with None, None => true | Some x, Some y => e x y | _, _ => false end.
(** Python's [==] on dictionaries: as many items, and each item of the first is an item of the second *)
Definition dict_eqb {A B} `{EqB A} (e : B -> B -> bool) (d d' : dict A B) : bool :=
  (length d =? length d')%nat &&
  forallb (fun kv => match dget (fst kv) d' with Some v => e (snd kv) v | None => false end) d.

Section Eq.
Context {P : Type} `{EqB P} (nv : P -> nat).

(** surface.py 531-547 *)
Definition polygonal_eqb (s t : @surf P) : bool :=
  if negb (dict_eqb eqb (polys s) (polys t)) then false
  else if negb (list_eqb eqb (roots_ s) (roots_ t)) then false
  else if negb (Bool.eqb (mutable s) (mutable t)) then false
  else true.
(** surface.py 2194-2203 *)
Definition surf_eqb (s t : @surf P) : bool :=
  if negb (polygonal_eqb s t) then false
  else if negb (dict_eqb (list_eqb (opt_eqb eqb)) (gluings s) (gluings t)) then false
  else true.

(** [tuple(self.polygons())], surface.py 2983-2985: the polygons in the order of the labels *)
Definition iter_polygons (s : @surf P) : res (list P) :=
  match iter_labels nv s with Err x => Err x | Ok ls => rmap (get_polygon s) ls end.

(** the builtin [hash] on the two tuples that occur is arbitrary *)
Context {H1 H2 : Type} (h1 : list label * list P * list label -> H1) (h2 : H1 * list (hedge * hedge) -> H2).
(** surface.py 570-573 *)
Definition polygonal_hash (s : @surf P) : res H1 :=
  if mutable s then Err TypeError else
  match iter_labels nv s with
  | Err x => Err x
  | Ok ls => match iter_polygons s with Err x => Err x | Ok ps => Ok (h1 (ls, ps, roots_ s)) end
  end.
(** surface.py 2228-2231 *)
Definition surf_hash (s : @surf P) : res H2 :=
  if mutable s then Err TypeError else
  match polygonal_hash s with
  | Err x => Err x
  | Ok h => match iter_gluings nv s with Err x => Err x | Ok gs => Ok (h2 (h, gs)) end
  end.
End Eq.
