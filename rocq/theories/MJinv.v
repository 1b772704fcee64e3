(** Model of the Kenyon-Smillie J-invariant: flatsurf/geometry/categories/euclidean_polygons.py (j_invariant,
    _wedge_product, _tensor_product) and flatsurf/geometry/categories/translation_surfaces.py (j_invariant).

    The number field and the isomorphism [to_V] to its vector space over QQ are parameters. Of [to_V] only the number of
    coordinates and that they are additive functions is used. The rational coordinates are numbers of the field itself:
    the code collects the results in a module and matrix over K (2286-2288). The exceptions raised when the base ring is
    QQ or not a number field (2274-2283) are not modelled, nor is that the method only exists on convex polygons. *)
From Coq Require Import List Bool ZArith Arith.
From Verif Require Import OField MBase MDict MEuclid MSim MPoly MMut.
Import ListNotations.

Section J.
Context {K : OField}.
Local Open Scope F_scope.

(** [V, from_V, to_V = K.vector_space()], euclidean_polygons.py 2279: coordinate [i] of [x] *)
Record vspace : Type := {
  vs_dim : nat;
  vs_coord : nat -> K -> K;
  vs_add : forall i x y, vs_coord i (x + y) = vs_coord i x + vs_coord i y }.
Definition to_V (V : vspace) (x : K) : list K := map (fun i => vs_coord V i x) (seq 0 (vs_dim V)).

(** the index pairs of the list comprehension 2337-2341 *)
Definition wedge_pairs (d : nat) : list (nat * nat) :=
  flat_map (fun i => map (fun j => (i, j)) (seq (i + 1) (d - (i + 1)))) (seq 0 (d - 1)).
(** euclidean_polygons.py 2307-2342 *)
Definition wedge_product (v w : list K) : list K :=
  map (fun ij => nth (fst ij) v 0 * nth (snd ij) w 0 - nth (snd ij) v 0 * nth (fst ij) w 0) (wedge_pairs (length v)).
(** euclidean_polygons.py 2344-2373: entries row by row, [u[i] * v[j]] in row [j] *)
Definition tensor_product (u v : list K) : list (list K) :=
  map (fun j => map (fun i => nth i u 0 * nth j v 0) (seq 0 (length u))) (seq 0 (length u)).

(** addition and subtraction of vectors and matrices *)
Definition zip {A B C : Type} (f : A -> B -> C) (l : list A) (l' : list B) : list C :=
  map (fun ab => f (fst ab) (snd ab)) (combine l l').
Definition v_add : list K -> list K -> list K := zip fadd.
Definition v_sub : list K -> list K -> list K := zip fsub.
Definition m_add : list (list K) -> list (list K) -> list (list K) := zip v_add.
Definition m_sub : list (list K) -> list (list K) -> list (list K) := zip v_sub.

Definition jinv : Type := list K * list K * list (list K).
Definition j_add (x y : jinv) : jinv :=
  let '(xx, yy, xy) := x in let '(xx', yy', xy') := y in (v_add xx xx', v_add yy yy', m_add xy xy').

(** euclidean_polygons.py 2285-2305: the list of vertices with the first one appended *)
Definition polygon_j (V : vspace) (P : @polygon K) : jinv :=
  let d := vs_dim V in
  let vertices := P ++ firstn 1 P in
  let z := repeat 0 (d * (d - 1) / 2) in
  fold_left (fun J i =>
    let '(Jxx, Jyy, Jxy) := J in
    let a := to_V V (fst (nth i vertices vzero)) in
    let b := to_V V (snd (nth i vertices vzero)) in
    let c := to_V V (fst (nth (i + 1) vertices vzero)) in
    let e := to_V V (snd (nth (i + 1) vertices vzero)) in
    (v_add Jxx (wedge_product a c), v_add Jyy (wedge_product b e),
     m_sub (m_add Jxy (tensor_product a e)) (tensor_product c b)))
    (seq 0 (length vertices - 1)) (z, z, repeat (repeat 0 d) d).

(** translation_surfaces.py 479-506: the sum over the labels; [next] of an empty iterator raises StopIteration, here
    KeyError *)
Local Open Scope res_scope.
Definition surface_j (V : vspace) (s : @surf (@polygon K)) : res jinv :=
  ls <- iter_labels (@length (vec K)) s ;;
  match ls with
  | nil => Err KeyError
  | l :: ls =>
    P <- get_polygon s l ;;
    fold_left (fun J l => J <- J ;; P <- get_polygon s l ;; Ok (j_add J (polygon_j V P))) ls (Ok (polygon_j V P))
  end.
End J.
Arguments vspace : clear implicits.
