(** Model of normalized coordinates and of the holonomy field:
    flatsurf/geometry/categories/half_translation_surfaces.py 239-265 ([holonomy_field]) and 324-459
    ([normalized_coordinates]) for finite surfaces.

    The fields returned by [subfield_from_elements] and [number_field_elements_from_algebraics] (subfield.py 45-231) are
    not constructed: a subfield is given by a list of elements that generate it. The elements of the subfield are
    identified with elements of the base ring (in the code there is an embedding). *)
From Coq Require Import List Bool ZArith Arith.
From Verif Require Import OField MBase MDict MEuclid MSim MPoly MMut MRelabel.
Import ListNotations.

Section Norm.
Context {K : OField}.
Local Open Scope F_scope.
Notation nv := (@length (vec K) : polygon K -> nat).
Notation surf := (@surf (polygon K)).

(** the base ring of the surface, as far as it is inspected in 380-388 *)
Inductive base := BaseQQ | BaseField | BaseRing.

(** 391-400: the loop looks for a vertex at which the polygon turns; [fuel] bounds its rounds *)
Fixpoint first_turn (P : polygon K) (fuel i : nat) : res (vec K * vec K) :=
  let u := edge P i in
  let v := vopp (edge P (i - 1)) in
  if ccw u v =? 0 then match fuel with O => Err Diverge | S fuel => first_turn P fuel (S i) end else Ok (u, v).
(** 401-402 *)
Definition norm_matrix (P : polygon K) : res (mat K) :=
  match first_turn P (nv P) 1 with
  | Err x => Err x
  | Ok (u, v) =>
    let M := minv (Mat (fst u) (fst v) (snd u) (snd v)) in
    if 0 <? mdet M then Ok M else Err AssertionError
  end.
(** 404-409: the holonomies of the edges of a polygon *)
Definition norm_edges (M : mat K) (P : polygon K) : list (vec K) := map (mapply M) (edges P).
(** [hols.append(w\[0\])], [hols.append(w\[1\])] *)
Definition norm_hols (es : list (vec K)) : list K := flat_map (fun w => [fst w; snd w]) es.

Local Open Scope M_scope.
(** 427-440: the polygons get new labels, [relabelling] is in the order in which it is filled *)
Fixpoint norm_polygons (M : mat K) (lps : list (label * polygon K)) : MDict.M surf (dict label label) :=
  match lps with
  | nil => mret nil
  | (l, P) :: lps =>
    let! Q := mlift (Polygon_edges (norm_edges M P)) in
    let! l' := add_polygon nv Q None in
    let! d := norm_polygons M lps in
    mret ((l, l') :: d)
  end.
(** 442-443 *)
Definition norm_glue (d : dict label label) (xy : hedge * hedge) : MDict.M surf unit :=
  let! l := mlift (dgetE (fst (fst xy)) d) in
  let! l' := mlift (dgetE (fst (snd xy)) d) in
  glue nv (l, snd (fst xy)) (l', snd (snd xy)).
(** 378-446; the state is the returned surface, the result is the matrix with the generators of the base ring of the
    new surface. [next(iter(self.labels()))] raises for the surface without polygons. *)
Definition normalized_coordinates (b : base) (s : surf) : MDict.M surf (mat K * list K) :=
  match b with
  | BaseQQ => modify (fun _ => s) ;;; mret (mone, nil)
  | BaseRing => mraise NotImplementedError
  | BaseField =>
    let! ls := mlift (iter_labels nv s) in
    let! l0 := mlift (match ls with nil => Err StopIteration | l :: _ => Ok l end) in
    let! p := mlift (get_polygon s l0) in
    let! M := mlift (norm_matrix p) in
    let! ps := mlift (rmap (get_polygon s) ls) in
    let! d := norm_polygons M (combine ls ps) in
    let! gs := mlift (iter_gluings nv s) in
    mfor gs (norm_glue d) ;;;
    mret (M, norm_hols (flat_map (norm_edges M) ps))
  end.
(** 265: generators of the field *)
Definition holonomy_field (b : base) (s : surf) : res (list K) :=
  match snd (normalized_coordinates b s empty) with Err x => Err x | Ok (_, hs) => Ok hs end.
End Norm.
