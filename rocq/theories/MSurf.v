(** Model of (possibly infinite) oriented similarity surfaces: the two methods every surface provides, and what
    flatsurf/geometry/categories/similarity_surfaces.py, cone_surfaces.py, dilation_surfaces.py,
    translation_surfaces.py, flatsurf/geometry/lazy.py and flatsurf/geometry/minimal_cover.py derive from them.

    Categories (and answers that are only read off a category), caching, base rings and the checks of the
    constructors are not modelled. *)
From Coq Require Import List Bool ZArith Arith.
From Verif Require Import OField MBase MDict MEuclid MSim MPoly MMut.
Import ListNotations.

Section Surface.
Context {K : OField}.
Local Open Scope F_scope.
Local Open Scope res_scope.

(** polygonal_surfaces.py: [polygon(label)] and [opposite_edge(label, edge)]; the latter returns None on the
    boundary. Edges are numbered from 0. *)
Record surface (L : Type) := Surface {
  s_poly : L -> res (polygon K);
  s_opp : L -> nat -> res (option (L * nat)) }.
Arguments Surface {L}. Arguments s_poly {L}. Arguments s_opp {L}.

(** surface.py 379-404 and 1630-1676: a mutable surface (see MMut) as a surface *)
Definition mut_surface (s : @surf (polygon K)) : surface Z :=
  Surface (get_polygon s)
    (fun l e => match opposite_edge s l (Z.of_nat e) with
                | Err x => Err x
                | Ok None => Ok None
                | Ok (Some (l', e')) => Ok (Some (l', Z.to_nat e'))
                end).

Section Any.
Context {L : Type} `{EqB L}.
Variable S : surface L.

(** [pp, ee = self.opposite_edge(p, e)]: unpacking None is a TypeError *)
Definition opp_pair (l : L) (e : nat) : res (L * nat) :=
  o <- s_opp S l e ;; match o with Some x => Ok x | None => Err TypeError end.

(** similarity_surfaces.py 1324-1367 *)
Definition edge_matrix (p : L) (e : nat) : res (mat K) :=
  q <- s_poly S p ;;
  'y <- opp_pair p e ;;
  qq <- s_poly S (fst y) ;;
  Ok (similarity_from_vectors (edge q e) (vopp (edge qq (snd y)))).

(** similarity_surfaces.py 1392-1431 *)
Definition edge_transformation (p : L) (e : nat) : res (sim K) :=
  q <- s_poly S p ;;
  let a := vertex q e in
  let b := vertex q (e + 1) in
  g <- sim_make (fst b - fst a) (snd b - snd a) (fst a) (snd a) true ;;
  'y <- opp_pair p e ;;
  qq <- s_poly S (fst y) ;;
  let aa := vertex qq (snd y + 1) in
  let bb := vertex qq (snd y) in
  gg <- sim_make (fst bb - fst aa) (snd bb - snd aa) (fst aa) (snd aa) true ;;
  Ok (sim_div gg g).

(** the common loop of translation_surfaces.py 176-221, dilation_surfaces.py 258-296 and cone_surfaces.py
    184-217; [test] is what each of them does with the matrix, [labels] is [surface.labels()] in its order *)
Fixpoint scan_edges (test : mat K -> bool) (l : L) (es : list nat) (checked : list (L * nat))
  : res (bool * list (L * nat)) :=
  match es with
  | nil => Ok (true, checked)
  | e :: es =>
    cross <- s_opp S l e ;;
    match cross with
    | None => scan_edges test l es checked
    | Some c =>
      if mem c checked then scan_edges test l es checked
      else m <- edge_matrix l e ;;
           if test m then scan_edges test l es ((l, e) :: checked) else Ok (false, checked)
    end
  end.
Fixpoint scan_labels (test : mat K -> bool) (labels : list L) (checked : list (L * nat)) : res bool :=
  match labels with
  | nil => Ok true
  | l :: labels =>
    P <- s_poly S l ;;
    r <- scan_edges test l (seq 0 (length P)) checked ;;
    if fst r then scan_labels test labels (snd r) else Ok false
  end.

Definition mat_is_diagonal (m : mat K) : bool := (m01 m =? 0) && (m10 m =? 0).
(** translation_surfaces.py 205-219 *)
Definition translation_test (positive : bool) (m : mat K) : bool :=
  mat_is_diagonal m &&
  (((m00 m =? 1) && (m11 m =? 1)) || ((m00 m =? - (1)) && (m11 m =? - (1)) && negb positive)).
(** dilation_surfaces.py 287-293 *)
Definition dilation_test (positive : bool) (m : mat K) : bool :=
  mat_is_diagonal m && negb (positive && ((m00 m <? 0) || (m11 m <? 0))).
(** cone_surfaces.py 213-214 *)
Definition cone_test (m : mat K) : bool := mat_eqb (mmul m (mtrans m)) mone.

(** translation_surfaces.py 117-221 through similarity_surfaces.py 321-367 *)
Definition is_translation_surface (labels : list L) (positive : bool) : res bool :=
  scan_labels (translation_test positive) labels nil.
(** dilation_surfaces.py 200-296 through similarity_surfaces.py 280-319 *)
Definition is_dilation_surface (labels : list L) (positive : bool) : res bool :=
  b <- is_translation_surface labels positive ;;
  if b then Ok true else scan_labels (dilation_test positive) labels nil.
(** cone_surfaces.py 131-217 through similarity_surfaces.py 249-278 *)
Definition is_cone_surface (labels : list L) : res bool := scan_labels cone_test labels nil.

(** lazy.py 704-722 and 724-756: GL2RImageSurface *)
Definition gl2r (M : mat K) : surface L :=
  let poly l := P <- s_poly S l ;; poly_mul M P in
  Surface poly
    (fun l e =>
       let neg := mdet M <? 0 in
       e1 <- (if neg then Q <- poly l ;; Ok (length Q - 1 - e)%nat else Ok e) ;;
       'y <- opp_pair l e1 ;;
       if neg then Q <- s_poly S (fst y) ;; Ok (Some (fst y, (length Q - 1 - snd y)%nat)) else Ok (Some y)).

(** the matrix [[a, -b], [b, a]] *)
Definition rot_mat (a b : K) : mat K := Mat a (- b) b a.

(** minimal_cover.py 223-246 and 248-269: MinimalTranslationCover *)
Definition translation_cover : surface (L * K * K) :=
  Surface
    (fun '(l, a, b) => P <- s_poly S l ;; poly_mul (rot_mat a b) P)
    (fun '(pp, a, b) e =>
       'y <- opp_pair pp e ;;
       m <- edge_matrix (fst y) (snd y) ;;
       let aa := a * m00 m - b * m10 m in
       let bb := b * m00 m + a * m10 m in
       Ok (Some ((fst y, aa, bb), snd y))).

(** minimal_cover.py 468-489 and 491-517: MinimalHalfTranslationCover *)
Definition half_translation_cover : surface (L * K * K) :=
  Surface
    (fun '(l, a, b) => P <- s_poly S l ;; poly_mul (rot_mat a b) P)
    (fun '(pp, a, b) e =>
       'y <- opp_pair pp e ;;
       m <- edge_matrix pp e ;;
       let aa := a * m00 m + b * m10 m in
       let bb := b * m00 m - a * m10 m in
       if (0 <? aa) || ((aa =? 0) && (0 <? bb)) then Ok (Some ((fst y, aa, bb), snd y))
       else Ok (Some ((fst y, - aa, - bb), snd y))).

(** minimal_cover.py 715-734 and 736-760: MinimalPlanarCover *)
Definition planar_cover : surface (L * sim K) :=
  Surface
    (fun '(l, m) => P <- s_poly S l ;; Ok (sim_polygon m P))
    (fun '(pp, m) e =>
       'y <- opp_pair pp e ;;
       me <- edge_transformation pp e ;;
       Ok (Some ((fst y, sim_mul m (sim_inv me)), snd y))).
End Any.
End Surface.
Arguments surface : clear implicits.
Arguments Surface {K L}. Arguments s_poly {K L}. Arguments s_opp {K L}.
