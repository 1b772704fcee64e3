(** Model of the action of flips on chains: LazyDelaunayTriangulatedSurface._certify_flip of flatsurf/geometry/lazy.py and
    DelaunayTriangulationMorphism._image_homology_edge of flatsurf/geometry/morphism.py. *)
From Coq Require Import List Bool ZArith Arith.
From Verif Require Import OField MBase MDict MEuclid MSim MPoly MMut MSurf MFlip.
Import ListNotations.

Section Flips.
Context {K : OField}.
Notation surf := (@surf (polygon K)).
Local Open Scope M_scope.
(** lazy.py 1310-1314: the flip is recorded, then performed; which edges are flipped is decided by [_certify_walk], here it
    is a parameter. The asserts about certified labels are left out. *)
Definition certify_flip (x : label * nat) : M surf (hedge * hedge) :=
  let! y := mread (fun s => opposite_edge s (fst x) (Z.of_nat (snd x))) in
  triangle_flip (fst x) (snd x) ;;;
  match y with Some y => mret ((fst x, Z.of_nat (snd x)), y) | None => mraise TypeError end.
(** lazy.py 1180 and 1313: [self._flips] after flipping these edges *)
Fixpoint certify_flips (xs : list (label * nat)) : M surf (list (hedge * hedge)) :=
  match xs with
  | nil => mret nil
  | x :: xs => let! f := certify_flip x in let! fs := certify_flips xs in mret (f :: fs)
  end.
End Flips.

Local Open Scope Z_scope.
(** Sage's integer matrices; the matrix has size [n] *)
Definition mtx := nat -> nat -> Z.
Definition mzero : mtx := fun _ _ => 0.
Definition midentity : mtx := fun i j => if (i =? j)%nat then 1 else 0.
Definition mset (m : mtx) (i j : nat) (v : Z) : mtx := fun i' j' => if ((i' =? i) && (j' =? j))%nat%bool then v else m i' j'.
Definition mmul (n : nat) (a b : mtx) : mtx := fun i j => fold_right Z.add 0 (map (fun k => a i k * b k j) (seq 0 n)).

(** [gens.index(x)] *)
Fixpoint index (x : hedge) (gens : list hedge) : res nat :=
  match gens with
  | nil => Err ValueError
  | y :: gens => if eqb y x then Ok 0%nat else match index x gens with Ok i => Ok (S i) | Err e => Err e end
  end.
Local Open Scope res_scope.
(** morphism.py 3360-3365 *)
Definition denormalize (flip : hedge * hedge) (x : hedge) : res hedge :=
  let '((l, e), (l', e')) := flip in
  if fst x =? l then Ok (fst x, (snd x + e) mod 3)
  else if fst x =? l' then Ok (fst x, (snd x + e') mod 3)
  else Err AssertionError.
(** morphism.py 3359-3370: the function [image], it modifies [matrix] *)
Fixpoint set_images (flip : hedge * hedge) (gens : list hedge) (preimage : hedge) (images : list hedge) (m : mtx) : res mtx :=
  match images with
  | nil => Ok m
  | y :: images =>
    y <- denormalize flip y ;;
    i <- index y gens ;;
    j <- index preimage gens ;;
    set_images flip gens preimage images (mset m i j 1)
  end.
Definition set_image (flip : hedge * hedge) (gens : list hedge) (preimage : hedge) (images : list hedge) (m : mtx) : res mtx :=
  x <- denormalize flip preimage ;; set_images flip gens x images m.
(** morphism.py 3348-3380 *)
Definition flip_matrix (flip : hedge * hedge) (gens : list hedge) : res mtx :=
  let l := fst (fst flip) in
  let l' := fst (snd flip) in
  let m := fold_left (fun m ig => if negb (fst (snd ig) =? l) && negb (fst (snd ig) =? l') then mset m (fst ig) (fst ig) 1 else m)
    (combine (seq 0 (length gens)) gens) mzero in
  m <- set_image flip gens (l, 0) [(l', 1); (l, 2)] m ;;
  m <- set_image flip gens (l, 1) [(l', 2)] m ;;
  m <- set_image flip gens (l, 2) [(l, 1)] m ;;
  m <- set_image flip gens (l', 0) [(l, 1); (l', 2)] m ;;
  m <- set_image flip gens (l', 1) [(l, 2)] m ;;
  set_image flip gens (l', 2) [(l', 1)] m.
(** morphism.py 3309-3316 *)
Fixpoint chain_loop (gens : list hedge) (flips : list (hedge * hedge)) (m : mtx) : res mtx :=
  match flips with
  | nil => Ok m
  | f :: flips => a <- flip_matrix f gens ;; chain_loop gens flips (mmul (length gens) m a)
  end.
Definition chain_matrix (gens : list hedge) (flips : list (hedge * hedge)) : res mtx := chain_loop gens (rev flips) midentity.
(** morphism.py 3270-3277: the edges of the image with their coefficients; [gens] are the edges of the surface *)
Definition image_edge (gens : list hedge) (flips : list (hedge * hedge)) (x : hedge) : res (list (hedge * Z)) :=
  m <- chain_matrix gens flips ;;
  j <- index x gens ;;
  Ok (map (fun i => (nth i gens (0, 0), m i j)) (filter (fun i => negb (m i j =? 0)) (seq 0 (length gens)))).
