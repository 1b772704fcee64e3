(** Model of the composition of morphisms of surfaces: flatsurf/geometry/morphism.py 1044-1114, 1521-1559, 1626-1769,
    1875-2126, 2176-2228.
    Surfaces are objects that are compared by identity ([is]); only immutable surfaces are considered (a mutable domain
    is replaced by an unknown surface, 938-943). Sage's [Map.__mul__] tests equality of the surfaces before it calls
    [_composition]; this test follows from identity and is left out. *)
From Coq Require Import List Bool.
From Verif Require Import MBase MDict.
Import ListNotations.
Local Open Scope res_scope.

Section Mor.
Context {S : Type} `{ES : EqB S}.
(** the points of all surfaces and the surface to which they belong *)
Context {Pt : Type} (par : Pt -> S).
(** all other morphisms (triangulations, linear maps, ...): domain, codomain, [_image_point] and [_section_point]; the
    class GL2RMorphism has a [section] of its own (3873-3890), the others inherit 1044-1061 *)
Context {A : Type} (adom acod : A -> S) (own : A -> option A) (img sec : A -> Pt -> res Pt).

(** morphisms that are not compositions: IdentityMorphism, the given ones, SectionMorphism *)
Inductive simple : Type := IdM (s : S) | Atom (a : A) | Sect (m : simple).
(** the domain and the codomain of a composition are stored in the parent, 1910 *)
Inductive morphism : Type := Simple (m : simple) | Comp (d c : S) (ms : list simple).

(** [domain()] if [fwd], [codomain()] otherwise; 1667-1669: those of a section are exchanged *)
Fixpoint send (fwd : bool) (m : simple) : S :=
  match m with
  | IdM s => s
  | Atom a => if fwd then adom a else acod a
  | Sect m => send (negb fwd) m
  end.
Definition domain (m : morphism) : S := match m with Simple m => send true m | Comp d _ _ => d end.
Definition codomain (m : morphism) : S := match m with Simple m => send false m | Comp _ c _ => c end.
(** [isinstance(morphism, IdentityMorphism)] *)
Definition is_id (m : morphism) : bool := match m with Simple (IdM _) => true | _ => false end.
(** 1880-1884 *)
Definition pieces (m : morphism) : list simple := match m with Simple m => [m] | Comp _ _ ms => ms end.
(** 1875-1888: CompositionMorphism._create_morphism(lhs, rhs); the list is in chronological order *)
Definition composition (lhs rhs : morphism) : res morphism :=
  let ms := pieces rhs ++ pieces lhs in
  match ms, rev ms with
  | m :: _, m' :: _ =>
    _ <- passert (eqb (send true m) (domain rhs)) ;;
    _ <- passert (eqb (send false m') (codomain lhs)) ;;
    Ok (Comp (domain rhs) (codomain lhs) ms)
  | _, _ => Err AssertionError
  end.
(** 1548-1559: [self * other] *)
Definition compose (self other : morphism) : res morphism :=
  if negb (eqb (codomain other) (domain self)) then Err ValueError
  else if is_id other then Ok self
  else if is_id self then Ok other
  else composition self other.

(** 1061, 1644, 2213, 3890 *)
Definition ssection (m : simple) : simple :=
  match m with
  | IdM s => IdM s
  | Atom a => match own a with Some b => Atom b | None => Sect (Atom a) end
  | Sect m => m
  end.
(** Sage's [prod], from left to right (the result does not depend on the bracketing, see C37_associative) *)
Fixpoint prod_from (m : morphism) (ms : list morphism) : res morphism :=
  match ms with nil => Ok m | m' :: ms => mm <- compose m m' ;; prod_from mm ms end.
(** 2101-2103; the product over an empty list is the number one and not a morphism *)
Definition section (m : morphism) : res morphism :=
  match m with
  | Simple m => Ok (Simple (ssection m))
  | Comp _ _ nil => Err AttributeError
  | Comp _ _ (m :: ms) => prod_from (Simple (ssection m)) (map (fun m => Simple (ssection m)) ms)
  end.

(** [_image_point] if [fwd], [_section_point] otherwise; 1141-1163, 1671-1683, 2215-2228 *)
Fixpoint smap (fwd : bool) (m : simple) (p : Pt) : res Pt :=
  match m with
  | IdM _ => if fwd then Ok p else Err NotImplementedError
  | Atom a => if fwd then img a p else sec a p
  | Sect m => smap (negb fwd) m p
  end.
(** 1933-1935 *)
Fixpoint run_all (ms : list simple) (p : Pt) : res Pt :=
  match ms with nil => Ok p | m :: ms => q <- smap true m p ;; run_all ms q end.
Definition image_point (m : morphism) (p : Pt) : res Pt :=
  match m with Simple m => smap true m p | Comp _ _ ms => run_all ms p end.
(** 1105-1112: a morphism applied to a point *)
Definition call (m : morphism) (p : Pt) : res Pt :=
  if negb (eqb (par p) (domain m)) then Err ValueError
  else
    q <- image_point m p ;;
    _ <- passert (eqb (par q) (codomain m)) ;;
    Ok q.

(** 1962-2007 with the default homology groups of the surfaces; the matrices of the given morphisms ([himg]) and of their
    sections ([hsec]) are arbitrary elements of a monoid *)
Context {Mat : Type} (mone : S -> Mat) (mmul : Mat -> Mat -> Mat) (himg hsec : A -> Mat).
Fixpoint hmat (fwd : bool) (m : simple) : Mat :=
  match m with
  | IdM s => mone s
  | Atom a => if fwd then himg a else hsec a
  | Sect m => hmat (negb fwd) m
  end.
(** [for morphism in self._morphisms\[:0:-1\]] and then the first one: all of them, the last one first *)
Definition homology_matrix (m : morphism) : Mat :=
  match m with
  | Simple m => hmat true m
  | Comp _ c ms => fold_left (fun M m => mmul M (hmat true m)) (rev ms) (mone c)
  end.
End Mor.
Arguments simple S A : clear implicits. Arguments morphism S A : clear implicits.
Arguments IdM {S A}. Arguments Atom {S A}. Arguments Sect {S A}. Arguments Simple {S A}. Arguments Comp {S A}.
