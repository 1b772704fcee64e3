(** Model of the triangulation of polygons by ear clipping: [triangulate] of
    flatsurf/geometry/categories/euclidean_polygons.py 1391-1591.

    The vertices of the polygon are numbered by natural numbers. *)
From Coq Require Import List Bool ZArith Arith.
From Verif Require Import OField MBase MDict MEuclid MPoly MMut.
Import ListNotations.

(** [{**d, **items}] for the items of a dictionary comprehension *)
Definition dupdate {A B} `{EqB A} (d items : dict A B) : dict A B := fold_left (fun d kv => dset (fst kv) (snd kv) d) items d.
(** [bidict(d)] raises a DuplicationError if a value occurs twice *)
Fixpoint distinct {A} `{EqB A} (l : list A) : bool :=
  match l with nil => true | x :: l => negb (mem x l) && distinct l end.
Definition bidict {A B} `{EqB A} `{EqB B} (d : dict A B) : res (dict A B) :=
  if distinct (map snd d) then Ok d else Err PyException.

(** a triangle is named by the numbers of its three vertices, e.g. [(a, b, c)] in line 1535 *)
Definition triple : Type := nat * nat * nat.

Section Ear.
Context {K : OField}.
Local Open Scope F_scope.
Notation nv := (@length (vec K) : polygon K -> nat).
Notation surf := (@surf (polygon K)).

(** [vertices\[i\]], line 1475; the index is always in range *)
Definition pt (vs : list (vec K)) (i : nat) : vec K := nth i vs vzero.
(** euclidean_polygons.py 1513-1533 *)
Definition is_ear (vs : list (vec K)) (untriangulated : list nat) (a b c : nat) : bool :=
  if ccw (vsub (pt vs b) (pt vs a)) (vsub (pt vs c) (pt vs a)) <=? 0 then false else
  negb (existsb (fun m => negb (mem m [a; b; c]) &&
    (0 <=? ccw (vsub (pt vs b) (pt vs a)) (vsub (pt vs m) (pt vs a))) &&
    (0 <=? ccw (vsub (pt vs c) (pt vs b)) (vsub (pt vs m) (pt vs b))) &&
    (0 <=? ccw (vsub (pt vs a) (pt vs c)) (vsub (pt vs m) (pt vs c)))) untriangulated).
(** euclidean_polygons.py 1503-1537: the first ear and the position of its tip among the untriangulated vertices *)
Fixpoint find_ear (vs : list (vec K)) (untriangulated : list nat) (is : list nat) : option (triple * nat) :=
  match is with
  | nil => None
  | i :: is =>
    let j := ((i + 1) mod length untriangulated)%nat in
    let k := ((j + 1) mod length untriangulated)%nat in
    let a := nth i untriangulated 0%nat in
    let b := nth j untriangulated 0%nat in
    let c := nth k untriangulated 0%nat in
    if is_ear vs untriangulated a b c then Some ((a, b, c), j) else find_ear vs untriangulated is
  end.
(** euclidean_polygons.py 1502-1541: one round of the [while] loop consumes one unit of fuel. In line 1541 there are
    three vertices left (a shorter or longer tuple could not be indexed as a triangle below). *)
Fixpoint clip_ears (fuel : nat) (vs : list (vec K)) (untriangulated : list nat) (triangles : dict triple Z) : res (dict triple Z) :=
  if (3 <? length untriangulated)%nat then
    match fuel with
    | O => Err Diverge
    | S fuel =>
      match find_ear vs untriangulated (seq 0 (length untriangulated)) with
      | None => Err AssertionError
      | Some (t, j) =>
        clip_ears fuel vs (firstn j untriangulated ++ skipn (j + 1) untriangulated) (dset t (Z.of_nat (length triangles)) triangles)
      end
    end
  else
    match untriangulated with
    | [a; b; c] => Ok (dset (a, b, c) (Z.of_nat (length triangles)) triangles)
    | _ => Err IndexError
    end.
(** euclidean_polygons.py 1558-1571 *)
Definition triangle_edges (triangles : dict triple Z) : dict (nat * nat) hedge :=
  dupdate (dupdate (dupdate nil
    (map (fun tl => match tl with ((a, b, c), l) => ((a, b), (l, 0%Z)) end) triangles))
    (map (fun tl => match tl with ((a, b, c), l) => ((b, c), (l, 1%Z)) end) triangles))
    (map (fun tl => match tl with ((a, b, c), l) => ((c, a), (l, 2%Z)) end) triangles).
Local Open Scope M_scope.
(** euclidean_polygons.py 1544-1556 *)
Definition add_triangle (vs : list (vec K)) (tl : triple * Z) : M surf unit :=
  match tl with ((a, b, c), l) =>
    let! Q := mlift (Polygon_vertices [pt vs a; pt vs b; pt vs c]) in
    add_polygon nv Q (Some l) ;;; mret tt
  end.
(** euclidean_polygons.py 1573-1584 *)
Fixpoint glue_triangles (n : nat) (edges : dict (nat * nat) hedge) (ks : list (nat * nat)) (outer : dict nat hedge) : M surf (dict nat hedge) :=
  match ks with
  | nil => mret outer
  | (a, b) :: ks =>
    let glued := dmem (b, a) edges in
    massert (negb (eqb glued ((b =? (a + 1) mod n)%nat || (a =? (b + 1) mod n)%nat))) ;;;
    let! x := mlift (dgetE (a, b) edges) in
    if glued then
      let! y := mlift (dgetE (b, a) edges) in
      glue nv x y ;;; glue_triangles n edges ks outer
    else glue_triangles n edges ks (dset a x outer)
  end.
(** euclidean_polygons.py 1470-1588 *)
Definition triangulate_in (P : polygon K) : M surf (dict nat hedge) :=
  let n := nv P in
  if (n <? 3)%nat then mraise ValueError
  else if (n =? 3)%nat then
    let! l := add_polygon nv P None in
    mlift (bidict [(0%nat, (l, 0%Z)); (1%nat, (l, 1%Z)); (2%nat, (l, 2%Z))])
  else
    let! triangles := mlift (clip_ears n P (seq 0 n) nil) in
    mfor triangles (add_triangle P) ;;;
    let edges := triangle_edges triangles in
    let! outer := glue_triangles n edges (keys edges) nil in
    mlift (bidict outer).
Definition triangulate (P : polygon K) : res (surf * dict nat hedge) :=
  match triangulate_in P empty with (s, Ok outer) => Ok (s, outer) | (_, Err e) => Err e end.
End Ear.
