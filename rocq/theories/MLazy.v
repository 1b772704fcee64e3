(** Model of lazily triangulated surfaces, flatsurf/geometry/lazy.py 53-471 and flatsurf/geometry/surface.py 2033-2062, and
    of the triangulation morphism, flatsurf/geometry/morphism.py 2874-3111.

    The labels of the triangulated (reference) surface are integers. Not modelled: caching, base rings and categories. *)
From Coq Require Import List Bool ZArith Arith.
From Verif Require Import OField MBase MDict MEuclid MPoly MMut MSurf MEar.
Import ListNotations.

(** a label of the triangulation: a label of the reference surface or a pair of such a label and the number of a triangle,
    surface.py 2050-2053 *)
Inductive tlabel : Type := Ref (l : Z) | Part (l i : Z).
Definition tlabel_eqb (x y : tlabel) : bool :=
  match x with
  | Ref l => match y with Ref l' => Z.eqb l l' | Part _ _ => false end
  | Part l i => match y with Ref _ => false | Part l' i' => Z.eqb l l' && Z.eqb i i' end
  end.
#[global] Program Instance EqB_tlabel : EqB tlabel := {| eqb := tlabel_eqb |}.
Next Obligation.
  destruct x as [l|l i], y as [l'|l' i']; cbn; rewrite ?andb_true_iff, ?Z.eqb_eq; split; try discriminate.
  - now intros ->. - now injection 1. - now intros [-> ->]. - now injection 1.
Qed.

Section Lazy.
Context {K : OField}.
Local Open Scope F_scope.
Local Open Scope res_scope.
Notation nv := (@length (vec K) : polygon K -> nat).
Notation surf := (@surf (polygon K)).

(** what [_image] returns: a surface whose labels are replaced by others, and a bidict of its outer edges. The relabelling
    is a renaming of the labels (see C42 for [relabel]). *)
Record image := Image { im_surf : surf; im_label : Z -> tlabel; im_outer : dict nat (tlabel * nat) }.
(** the labels of the relabelled surface *)
Definition im_labels (im : image) : list tlabel := map (im_label im) (keys (polys (im_surf im))).
(** the label before it was replaced *)
Definition im_find (im : image) (t : tlabel) : res Z :=
  match find (fun i => eqb (im_label im i) t) (keys (polys (im_surf im))) with Some i => Ok i | None => Err KeyError end.
(** [polygon(label)] and [opposite_edge(label, edge)] of the relabelled surface *)
Definition im_polygon (im : image) (t : tlabel) : res (polygon K) := i <- im_find im t ;; get_polygon (im_surf im) i.
Definition im_opposite (im : image) (t : tlabel) (e : nat) : res (option (tlabel * nat)) :=
  i <- im_find im t ;;
  o <- opposite_edge (im_surf im) i (Z.of_nat e) ;;
  match o with None => Ok None | Some y => Ok (Some (im_label im (fst y), Z.to_nat (snd y))) end.
(** polygonal_surfaces.py 284-298: [root()] *)
Definition im_root (im : image) : res tlabel :=
  rs <- get_roots nv (im_surf im) ;; match rs with [r] => Ok (im_label im r) | _ => Err PyException end.
(** [outer_edges.inverse\[x\]] if [x] is in [outer_edges.values()] *)
Definition im_inverse (im : image) (x : tlabel * nat) : option nat :=
  match find (fun kv => eqb (snd kv) x) (im_outer im) with Some kv => Some (fst kv) | None => None end.

(** surface.py 2049-2062 *)
Definition triangulate_polygon (S : surface K Z) (l : Z) : res image :=
  P <- s_poly S l ;;
  r <- triangulate P ;;
  let s := fst r in
  let f := if (length (polys s) =? 1)%nat then (fun _ => Ref l) else Part l in
  outer <- bidict (map (fun kv => (fst kv, (f (fst (snd kv)), Z.to_nat (snd (snd kv))))) (snd r)) ;;
  Ok (Image s f outer).

(** the reference surface, [label in reference.labels()], the labels that are triangulated *)
Variables (S : surface K Z) (D : Z -> bool) (ls : option (list Z)).
(** lazy.py 104-128 *)
Definition triangulated (l : Z) : bool := match ls with None => true | Some ls => mem l ls end.
(** lazy.py 185-239 *)
Definition image_of (l : Z) : res image :=
  P <- s_poly S l ;;
  if negb (triangulated l) then
    (** the polygon is added without a label, it gets the label 0 *)
    match add_polygon nv P None empty with
    | (s, Ok _) =>
      outer <- bidict (map (fun e => (e, (Ref l, e))) (seq 0 (length P))) ;;
      Ok (Image s Ref outer)
    | (_, Err e) => Err e
    end
  else triangulate_polygon S l.
(** lazy.py 241-272; a number is not a tuple and a pair is not a label of the reference surface *)
Definition reference_label (t : tlabel) : res Z :=
  match t with
  | Ref l =>
    if D l then
      if negb (triangulated l) then Ok l else
      P <- s_poly S l ;; if (length P =? 3)%nat then Ok l else Err KeyError
    else Err KeyError
  | Part l i =>
    if negb (D l) then Err KeyError else
    im <- image_of l ;; if mem t (im_labels im) then Ok l else Err KeyError
  end.
(** lazy.py 274-296 *)
Definition lazy_polygon (t : tlabel) : res (polygon K) :=
  l <- reference_label t ;;
  if negb (triangulated l) then s_poly S l else im <- image_of l ;; im_polygon im t.
(** lazy.py 298-330; the boundary of the reference surface cannot be unpacked *)
Definition lazy_opposite (t : tlabel) (e : nat) : res (option (tlabel * nat)) :=
  l <- reference_label t ;;
  im <- image_of l ;;
  match im_inverse im (t, e) with
  | Some re =>
    y <- opp_pair S l re ;;
    im' <- image_of (fst y) ;;
    x <- dgetE (snd y) (im_outer im') ;; Ok (Some x)
  | None => im_opposite im t e
  end.
Definition lazy_surface : surface K tlabel := Surface lazy_polygon lazy_opposite.
(** lazy.py 165-183 *)
Definition lazy_roots (roots : list Z) : res (list tlabel) := rmap (fun r => im <- image_of r ;; im_root im) roots.
(** lazy.py 453-471 *)
Definition lazy_label (t : tlabel) : res bool :=
  match reference_label t with Ok _ => Ok true | Err KeyError => Ok false | Err e => Err e end.

(** euclidean_polygons.py 1884-1890: the method only exists for convex polygons *)
Definition contains_point (P : polygon K) (q : vec K) : res bool :=
  if is_convex false P then Ok (match get_point_position P q with Outside => false | _ => true end) else Err AttributeError.
(** morphism.py 3082-3095 *)
Definition image_edge (l : Z) (e : nat) : res (tlabel * nat) := im <- image_of l ;; dgetE e (im_outer im).
(** morphism.py 2967-3005 for the representative [(l, q)] of a point; the point [codomain()(label, coordinates)] is given
    by its label and coordinates *)
Fixpoint image_point_loop (l : Z) (P : polygon K) (q : vec K) (es : list nat) : res (tlabel * vec K) :=
  match es with
  | nil => Err AssertionError
  | e :: es =>
    y <- image_edge l e ;;
    Q <- lazy_polygon (fst y) ;;
    let c := vadd (vertex Q (snd y)) (vsub q (vertex P e)) in
    b <- contains_point Q c ;;
    if b : bool then Ok (fst y, c) else image_point_loop l P q es
  end.
Definition image_point (l : Z) (q : vec K) : res (tlabel * vec K) :=
  P <- s_poly S l ;; image_point_loop l P q (seq 0 (length P)).
(** morphism.py 2922-2953; [labels] are the labels of the reference surface *)
Fixpoint find_edge (l : Z) (t : tlabel) (e : nat) (es : list nat) : res (option nat) :=
  match es with
  | nil => Ok None
  | e' :: es => y <- image_edge l e' ;; if eqb y (t, e) then Ok (Some e') else find_edge l t e es
  end.
Fixpoint meets (l : Z) (t : tlabel) (es : list nat) : res bool :=
  match es with
  | nil => Ok false
  | e' :: es => y <- image_edge l e' ;; if eqb (fst y) t then Ok true else meets l t es
  end.
Fixpoint section_edge (labels : list Z) (t : tlabel) (e : nat) : res (Z * option nat) :=
  match labels with
  | nil => Err AssertionError
  | l :: labels =>
    P <- s_poly S l ;;
    o <- find_edge l t e (seq 0 (length P)) ;;
    match o with
    | Some e' => Ok (l, Some e')
    | None =>
      b <- meets l t (seq 0 (length P)) ;;
      if b : bool then Ok (l, None) else section_edge labels t e
    end
  end.
(** morphism.py 3007-3048 *)
Fixpoint section_point_loop (labels : list Z) (t : tlabel) (Q : polygon K) (c : vec K) (es : list nat) : res (Z * vec K) :=
  match es with
  | nil => Err AssertionError
  | e :: es =>
    y <- section_edge labels t e ;;
    match snd y with
    | None => section_point_loop labels t Q c es
    | Some e' =>
      P <- s_poly S (fst y) ;;
      let q := vadd (vertex P e') (vsub c (vertex Q e)) in
      b <- contains_point P q ;;
      _ <- passert b ;; Ok (fst y, q)
    end
  end.
Definition section_point (labels : list Z) (t : tlabel) (c : vec K) : res (Z * vec K) :=
  Q <- lazy_polygon t ;; section_point_loop labels t Q c (seq 0 (length Q)).
End Lazy.
