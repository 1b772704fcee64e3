(** Model of [ramified_cover]: flatsurf/geometry/categories/similarity_surfaces.py 3277-3342. The surface and its cover
    are mutable surfaces in the sense of MMut; sheets are numbered from 0 rather than from 1. *)
From Coq Require Import List Bool ZArith Arith.
From Verif Require Import MBase MDict MMut.
Import ListNotations.
Local Open Scope M_scope.

(** Elements of [SymmetricGroup(d)] are the lists of the images of 0, ..., d - 1. The conversion [G(data\[k\])] in
    3313-3314, which raises for anything that is not a permutation, is not modelled. *)
Notation perm := (list nat).
(** [p(i)] *)
Definition papply (p : perm) (i : nat) : nat := nth i p i.
(** [p * q]: first p, then q *)
Definition pmul (p q : perm) : perm := map (papply q) p.
Fixpoint pindex (i : nat) (p : perm) : nat :=
  match p with nil => 0 | j :: p => if i =? j then 0 else S (pindex i p) end.
(** [~p] *)
Definition pinv (p : perm) : perm := map (fun i => pindex i p) (seq 0 (length p)).
(** [p.is_one()] *)
Definition is_one (d : nat) (p : perm) : bool := forallb (fun i => papply p i =? i) (seq 0 d).

Section C.
Context {P : Type} (nv : P -> nat).
Notation surf := (@surf P).
(** the surface that is covered, the degree, the permutations *)
Variables (s : surf) (d : nat) (data : dict hedge perm).

(** 3320-3322: [cover_labels\[(lab, i)\] = cover.add_polygon(self.polygon(lab))] for the given pairs (lab, i) *)
Fixpoint cover_add (ks : list (label * nat)) (cl : dict (label * nat) label) : M surf (dict (label * nat) label) :=
  match ks with
  | nil => mret cl
  | k :: ks =>
    let! p := mlift (get_polygon s (fst k)) in
    let! l := add_polygon nv p None in
    cover_add ks (dset k l cl)
  end.
(** 3327-3335 *)
Definition cover_perm (x y : hedge) : res perm :=
  match dget x data with
  | Some p => match dget y data with
              | Some q => if is_one d (pmul p q) then Ok p else Err ValueError
              | None => Ok p
              end
  | None => match dget y data with Some q => Ok (pinv q) | None => Ok (seq 0 d) end
  end.
(** 3337-3340 *)
Definition cover_glue (cl : dict (label * nat) label) (x y : hedge) (p : perm) (i : nat) : M surf unit :=
  let! p0 := mlift (dgetE (fst x, i) cl) in
  let! p1 := mlift (dgetE (fst x, papply p i) cl) in
  glue nv (p0, snd x) (p1, snd y).
(** 3323-3340; the set of edges is a list, in the order in which edges are going to be popped; one round of the loop
    consumes one unit of fuel *)
Fixpoint cover_loop (fuel : nat) (cl : dict (label * nat) label) (es : list hedge) : M surf unit :=
  match es with
  | nil => mret tt
  | x :: es =>
    match fuel with
    | O => mraise Diverge
    | S fuel =>
      let! c := mlift (opposite_edge s (fst x) (snd x)) in
      match c with
      | None => mraise TypeError
      | Some y =>
        (if mem y es then mret tt else mraise KeyError) ;;;
        let! p := mlift (cover_perm x y) in
        mfor (seq 0 d) (cover_glue cl x y p) ;;;
        cover_loop fuel cl (filter (fun z => negb (eqb z y)) es)
      end
    end
  end.
(** 3277-3342; [order] is the order in which the set of edges is popped, the state is the cover *)
Definition ramified_cover (order : list hedge -> list hedge) : M surf unit :=
  let! es := mlift (iter_edges nv s) in
  let! ls := mlift (iter_labels nv s) in
  let! cl := cover_add (flat_map (fun i => map (fun l => (l, i)) ls) (seq 0 d)) nil in
  cover_loop (length es) cl (order es) ;;;
  set_immutable nv.
End C.
