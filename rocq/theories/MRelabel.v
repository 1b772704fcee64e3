(** Model of relabelling and copying: flatsurf/geometry/surface.py 1205-1275 ([from_surface]) and 1717-1765 ([relabel]
    with [in_place=True]), flatsurf/geometry/lazy.py 1888-2059 ([LazyRelabeledSurface] of a finite surface). *)
From Coq Require Import List Bool ZArith.
From Verif Require Import MBase MDict MMut.
Import ListNotations.
Local Open Scope Z_scope.
Local Open Scope M_scope.

Section R.
Context {P : Type} (nv : P -> nat).
Notation surf := (@surf P).

(** [relabeling.get(label, label)] *)
Definition relabel_get (d : dict label label) (l : label) : label := match dget l d with Some x => x | None => l end.
(** [\[opposite_edge(label, e) for e in range(len(polygon(label).vertices()))\]], surface.py 1734-1737 *)
Definition gluings_of (s : surf) (l : label) : res (list (option hedge)) :=
  match get_polygon s l with Err x => Err x | Ok p => rmap (opposite_edge s l) (edge_range nv p) end.
(** [enumerate(l)] *)
Definition enumerate {A} (l : list A) : list (Z * A) := combine (map Z.of_nat (seq 0 (length l))) l.
(** surface.py 1732-1765; [self.labels()] is evaluated once instead of three times *)
Definition relabel (d : dict label label) : M surf unit :=
  let! labels := mread (iter_labels nv) in
  let! polygons := mread (fun s => rmap (get_polygon s) labels) in
  let! old_gluings := mread (fun s => rmap (gluings_of s) labels) in
  let! roots := mread (get_roots nv) in
  mfor labels (remove_polygon nv) ;;;
  mfor (combine labels polygons) (fun lp => add_polygon nv (snd lp) (Some (relabel_get d (fst lp))) ;;; mret tt) ;;;
  mfor (combine labels old_gluings) (fun lg =>
    mfor (enumerate (snd lg)) (fun eg =>
      match snd eg with
      | None => mret tt
      | Some c => glue nv (relabel_get d (fst lg), fst eg) (relabel_get d (fst c), snd c)
      end)) ;;;
  set_roots nv (map (relabel_get d) roots).
(** surface.py 1729-1730: the relabelling is a function *)
Definition relabel_fun (f : label -> label) : M surf unit :=
  let! labels := mread (iter_labels nv) in relabel (map (fun l => (l, f l)) labels).
(** surface.py 1726-1727: the labels become numbers *)
Definition relabel_none : M surf unit :=
  let! labels := mread (iter_labels nv) in relabel (map (fun il => (snd il, fst il)) (enumerate labels)).

(** surface.py 1252-1275 for a surface that is a MutablePolygonalSurface; the new surface is the state *)
Definition from_surface (s : surf) (labels : option (list label)) : M surf unit :=
  let! labels := mlift (match labels with Some ls => Ok ls | None => iter_labels nv s end) in
  mfor labels (fun l => let! p := mlift (get_polygon s l) in add_polygon nv p (Some l) ;;; mret tt) ;;;
  mfor labels (fun l =>
    let! p := mlift (get_polygon s l) in
    mfor (edge_range nv p) (fun e =>
      let! c := mlift (opposite_edge s l e) in
      match c with
      | None => mret tt
      | Some c => if mem (fst c) labels then glue nv (l, e) c else mret tt
      end)) ;;;
  match roots_ s with nil => mret tt | rs => set_roots nv (filter (fun r => mem r labels) rs) end.

(** ** LazyRelabeledSurface *)
(** lazy.py 1929; labels are not negative (they come from [range], 1997) *)
Definition to_reference (s : surf) (k : label) : res label :=
  match iter_labels nv s with Err x => Err x | Ok ls => if 0 <=? k then lgetE ls k else Err IndexError end.
(** lazy.py 1943-1949 *)
Fixpoint index_in (ls : list label) (l : label) (k : Z) : res label :=
  match ls with nil => Err ValueError | l' :: ls => if eqb l' l then Ok k else index_in ls l (k + 1) end.
Definition from_reference (s : surf) (l : label) : res label :=
  match iter_labels nv s with Err x => Err x | Ok ls => index_in ls l 0 end.
(** lazy.py 2015 *)
Definition lazy_polygon (s : surf) (k : label) : res P :=
  match to_reference s k with Err x => Err x | Ok l => get_polygon s l end.
(** lazy.py 2034-2043 *)
Definition lazy_opposite (s : surf) (k : label) (e : Z) : res (option hedge) :=
  match to_reference s k with
  | Err x => Err x
  | Ok l =>
    match opposite_edge s l e with
    | Err x => Err x
    | Ok None => Ok None
    | Ok (Some c) => match from_reference s (fst c) with Err x => Err x | Ok k' => Ok (Some (k', snd c)) end
    end
  end.
(** lazy.py 2057-2059 *)
Definition lazy_roots (s : surf) : res (list label) :=
  match get_roots nv s with Err x => Err x | Ok rs => rmap (from_reference s) rs end.
End R.
