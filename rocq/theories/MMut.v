(** Model of mutable surfaces: flatsurf/geometry/surface.py, classes MutablePolygonalSurface (138-906) and
    MutableOrientedSimilaritySurface (1160-1720), and of the views on labels (2438-3127).

    Labels are integers (in Python: any hashable objects; [LabeledView.min] uses [repr] for labels that cannot be
    ordered). A polygon is an element of a type [P] of which only the number of vertices is used here.
    Base rings, printing and deprecated aliases are not modelled; [connected] is the flag
    ["Connected" in category().axioms()] that [set_immutable] may set. *)
From Coq Require Import List Bool ZArith.
From Verif Require Import MBase MDict.
Import ListNotations.
Local Open Scope Z_scope.

Definition label := Z.
Definition hedge : Type := label * Z.

Section Mut.
Context {P : Type} (nv : P -> nat).

(** surface.py 153-163, 1193-1203 *)
Record surf := Surf {
  polys : dict label P;
  gluings : dict label (list (option hedge));
  roots_ : list label;
  next_label : Z;
  mutable : bool;
  connected : bool }.

Definition empty : surf := Surf nil nil nil 0 true false.
Definition set_polys d s := Surf d (gluings s) (roots_ s) (next_label s) (mutable s) (connected s).
Definition set_gluings g s := Surf (polys s) g (roots_ s) (next_label s) (mutable s) (connected s).
Definition set_roots_ r s := Surf (polys s) (gluings s) r (next_label s) (mutable s) (connected s).
Definition set_next n s := Surf (polys s) (gluings s) (roots_ s) n (mutable s) (connected s).
Definition set_mutable b s := Surf (polys s) (gluings s) (roots_ s) (next_label s) b (connected s).
Definition set_connected b s := Surf (polys s) (gluings s) (roots_ s) (next_label s) (mutable s) b.

(** surface.py 379-404 *)
Definition get_polygon (s : surf) (l : label) : res P := dgetE l (polys s).
(** surface.py 1630-1676 *)
Definition opposite_edge (s : surf) (l : label) (e : Z) : res (option hedge) :=
  match dgetE l (gluings s) with Err x => Err x | Ok g => lgetE g e end.
(** [range(len(self.polygon(label).vertices()))] *)
Definition edge_range (p : P) : list Z := map Z.of_nat (seq 0 (nv p)).

(** surface.py 2861-2864: the labels that are appended to [pending] *)
Definition crosses (s : surf) (l : label) : res (list label) :=
  match get_polygon s l with
  | Err x => Err x
  | Ok p =>
    match rmap (opposite_edge s l) (edge_range p) with
    | Err x => Err x
    | Ok cs => Ok (flat_map (fun c => match c with None => nil | Some c => [fst c] end) cs)
    end
  end.

(** surface.py 2834-2864, one round of the loop consumes one unit of fuel; [seen] is in order of insertion, which
    is the order in which labels are yielded *)
Fixpoint bfs (nb : label -> res (list label)) (fuel : nat) (seen pending : list label) : res (list label) :=
  match pending with
  | nil => Ok seen
  | l :: pending =>
    match fuel with
    | O => Err Diverge
    | S fuel =>
      if mem l seen then bfs nb fuel seen pending
      else match nb l with Err x => Err x | Ok ls => bfs nb fuel (seen ++ [l]) (pending ++ ls) end
    end
  end.

(** enough fuel for every finite surface *)
Definition bfs_fuel (s : surf) : nat :=
  S (fold_right (fun kp n => nv (snd kp) + n)%nat 0%nat (polys s)).

(** polygonal_surfaces.py 814-830 with surface.py 2834-2864 *)
Definition component (s : surf) (l : label) : res (list label) := bfs (crosses s) (bfs_fuel s) nil [l].

(** surface.py 2744-2799 for labels that are integers *)
Definition lmin (l : list label) : res label :=
  match l with nil => Err ValueError | x :: l => Ok (fold_left Z.min l x) end.

(** [labels.remove(label)] for all labels of a component, surface.py 2525-2526 and 2534-2535 *)
Fixpoint set_remove_all (xs s : list label) : res (list label) :=
  match xs with
  | nil => Ok s
  | x :: xs => if mem x s then set_remove_all xs (filter (fun y => negb (eqb x y)) s) else Err KeyError
  end.

Fixpoint remove_components (s : surf) (rs ls : list label) : res (list label) :=
  match rs with
  | nil => Ok ls
  | r :: rs =>
    match component s r with
    | Err x => Err x
    | Ok c => match set_remove_all c ls with Err x => Err x | Ok ls => remove_components s rs ls end
    end
  end.

(** surface.py 2528-2535 *)
Fixpoint default_roots (s : surf) (fuel : nat) (ls : list label) : res (list label) :=
  match ls with
  | nil => Ok nil
  | _ =>
    match fuel with
    | O => Err Diverge
    | S fuel =>
      match lmin ls with
      | Err x => Err x
      | Ok r =>
        if connected s then Ok [r] else
        match component s r with
        | Err x => Err x
        | Ok c =>
          match set_remove_all c ls with
          | Err x => Err x
          | Ok ls' => match default_roots s fuel ls' with Err x => Err x | Ok rs => Ok (r :: rs) end
          end
        end
      end
    end
  end.

(** surface.py 302-341 with 2492-2535; all roots are produced (the generator is exhausted) *)
Definition get_roots (s : surf) : res (list label) :=
  match roots_ s with
  | r :: _ => if connected s then Ok [r] else
    match remove_components s (roots_ s) (keys (polys s)) with
    | Err x => Err x
    | Ok ls => match default_roots s (length (polys s)) ls with Err x => Err x | Ok rs => Ok (roots_ s ++ rs) end
    end
  | nil =>
    default_roots s (length (polys s)) (keys (polys s))
  end.

(** surface.py 343-377 with 2467-2490 *)
Definition get_components (s : surf) : res (list (list label)) :=
  match get_roots s with Err x => Err x | Ok rs => rmap (component s) rs end.

(** surface.py 868 with 2904-2906 *)
Definition iter_labels (s : surf) : res (list label) :=
  match get_components s with Err x => Err x | Ok cs => Ok (concat cs) end.

(** polygonal_surfaces.py 799-812 *)
Definition is_connected (s : surf) : res bool :=
  match get_roots s with Err x => Err x | Ok rs => Ok (length rs <=? 1)%nat end.

(** surface.py 3071-3074 *)
Definition iter_edges (s : surf) : res (list hedge) :=
  match iter_labels s with
  | Err x => Err x
  | Ok ls =>
    match rmap (fun l => match get_polygon s l with Err x => Err x | Ok p => Ok (map (fun e => (l, e)) (edge_range p)) end) ls with
    | Err x => Err x
    | Ok es => Ok (concat es)
    end
  end.
(** surface.py 3110-3115 *)
Definition iter_gluings (s : surf) : res (list (hedge * hedge)) :=
  match iter_edges s with
  | Err x => Err x
  | Ok es =>
    match rmap (fun e => match opposite_edge s (fst e) (snd e) with
                         | Err x => Err x | Ok None => Ok nil | Ok (Some c) => Ok [(e, c)] end) es with
    | Err x => Err x
    | Ok gs => Ok (concat gs)
    end
  end.
(** surface.py 3076-3082; [label in self._surface.labels()] is decided by the dictionary (2738-2739) *)
Definition contains_edge (s : surf) (x : hedge) : res bool :=
  if negb (dmem (fst x) (polys s)) then Ok false else
  match get_polygon s (fst x) with
  | Err e => Err e
  | Ok p => Ok ((0 <=? Z.of_nat (nv p)) && (Z.of_nat (nv p) <? snd x))
  end.
(** surface.py 3117-3127 *)
Definition contains_gluing (s : surf) (xy : hedge * hedge) : res bool :=
  match contains_edge s (fst xy) with
  | Err e => Err e
  | Ok false => Ok false
  | Ok true =>
    match opposite_edge s (fst (fst xy)) (snd (fst xy)) with
    | Err e => Err e
    | Ok None => Ok false
    | Ok (Some c) => Ok (eqb (snd xy) c)
    end
  end.

(** ** mutators *)
Local Open Scope M_scope.
Definition check_mutable : M surf unit := fun s => if mutable s then (s, Ok tt) else (s, Err PyException).
Definition modify (f : surf -> surf) : M surf unit := fun s => (f s, Ok tt).

(** [self._gluings[l][e] = v] *)
Definition set_gluing (l : label) (e : Z) (v : option hedge) : M surf unit := fun s =>
  match dgetE l (gluings s) with
  | Err x => (s, Err x)
  | Ok g => match lsetE g e v with Err x => (s, Err x) | Ok g => (set_gluings (dset l g (gluings s)) s, Ok tt) end
  end.

(** surface.py 222-225 *)
Fixpoint fresh (fuel : nat) (n : Z) (d : dict label P) : Z :=
  match fuel with O => n | S fuel => if dmem n d then fresh fuel (n + 1) d else n end.
Definition choose_label (lab : option label) : M surf label := fun s =>
  match lab with
  | Some l => (s, Ok l)
  | None => let n := fresh (S (length (polys s))) (next_label s) (polys s) in (set_next n s, Ok n)
  end.

(** surface.py 190-231 and 1277-1286 *)
Definition add_polygon (p : P) (lab : option label) : M surf label :=
  check_mutable ;;;
  let! l := choose_label lab in
  let! s := mget in
  (if dmem l (polys s) then mraise ValueError else mret tt) ;;;
  modify (fun s => set_polys (dset l p (polys s)) s) ;;;
  let! s := mget in
  massert (negb (dmem l (gluings s))) ;;;
  modify (fun s => set_gluings (dset l (repeat None (nv p)) (gluings s)) s) ;;;
  modify (fun s => match roots_ s with nil => s | r => set_roots_ (r ++ [l]) s end) ;;;
  mret l.

(** surface.py 1420-1444; the list is enumerated while it is modified *)
Definition unglue_polygon (l : label) : M surf unit :=
  let! s := mget in
  let! g := mlift (dgetE l (gluings s)) in
  mfor (seq 0 (length g)) (fun i =>
    let! s := mget in
    let! c := mlift (opposite_edge s l (Z.of_nat i)) in
    match c with None => mret tt | Some c => set_gluing (fst c) (snd c) None end) ;;;
  let! s := mget in
  let! p := mlift (get_polygon s l) in
  modify (fun s => set_gluings (dset l (repeat None (nv p)) (gluings s)) s).

(** surface.py 1288-1293 and 276-300: mutability is only checked after the gluings have been removed *)
Definition remove_polygon (l : label) : M surf unit :=
  unglue_polygon l ;;;
  modify (fun s => set_gluings (ddel l (gluings s)) s) ;;;
  check_mutable ;;;
  let! s := mget in
  (if dmem l (polys s) then modify (fun s => set_polys (ddel l (polys s)) s) else mraise KeyError) ;;;
  modify (fun s => set_roots_ (filter (fun r => negb (eqb r l)) (roots_ s)) s).

(** surface.py 1402-1418: the first root that lies in one of the two components *)
Fixpoint split_root (rs component cross : list label) : res label :=
  match rs with
  | nil => Err AssertionError
  | r :: rs =>
    if mem r component then lmin cross else if mem r cross then lmin component else split_root rs component cross
  end.
(** surface.py 1363-1418 *)
Definition unglue (l : label) (e : Z) : M surf unit :=
  check_mutable ;;;
  let! s := mget in
  let! c := mlift (opposite_edge s l e) in
  (match c with None => mret tt | Some c => set_gluing (fst c) (snd c) None end) ;;;
  set_gluing l e None ;;;
  match c with
  | None => mret tt
  | Some c =>
    let! s := mget in
    match roots_ s with
    | nil => mret tt
    | rs =>
      let! comp := mlift (component s l) in
      if mem (fst c) comp then mret tt else
      let! cross := mlift (component s (fst c)) in
      massert (negb (mem l cross)) ;;;
      let! r := mlift (split_root rs comp cross) in
      modify (set_roots_ (rs ++ [r]))
    end
  end.

(** surface.py 1353-1358 *)
Fixpoint merge_root (rev_rs component cross : list label) : res label :=
  match rev_rs with
  | nil => Err AssertionError
  | r :: rs => if mem r component || mem r cross then Ok r else merge_root rs component cross
  end.
(** surface.py 1295-1361 *)
Definition glue (x y : hedge) : M surf unit :=
  check_mutable ;;;
  let! s := mget in
  (if dmem (fst x) (polys s) then mret tt else mraise ValueError) ;;;
  (if dmem (fst y) (polys s) then mret tt else mraise ValueError) ;;;
  unglue (fst x) (snd x) ;;;
  unglue (fst y) (snd y) ;;;
  let! s := mget in
  (match roots_ s with
   | nil => mret tt
   | rs =>
     let! comp := mlift (component s (fst x)) in
     if mem (fst y) comp then mret tt else
     let! cross := mlift (component s (fst y)) in
     let! r := mlift (merge_root (rev rs) comp cross) in
     modify (set_roots_ (filter (fun r' => negb (eqb r' r)) rs))
   end) ;;;
  set_gluing (fst x) (snd x) (Some y) ;;;
  set_gluing (fst y) (snd y) (Some x).

(** surface.py 661-739 *)
Definition set_root (r : label) : M surf unit :=
  check_mutable ;;;
  let! ls := mread iter_labels in
  match filter (fun l => eqb l r) ls with
  | nil => mraise ValueError
  | _ :: _ :: _ => mraise AssertionError
  | [r] =>
    let! cs := mread get_components in
    match filter (mem r) cs with
    | [c] => modify (fun s => set_roots_ (filter (fun r' => negb (mem r' c)) (roots_ s) ++ [r]) s)
    | _ => mraise AssertionError
    end
  end.

(** surface.py 741-808 *)
Definition set_roots (rs : list label) : M surf unit :=
  check_mutable ;;;
  let! ls := mread iter_labels in
  let ms := map (fun r => filter (fun l => eqb l r) ls) rs in
  (if existsb (fun m => (length m =? 0)%nat) ms then mraise ValueError else mret tt) ;;;
  massert (forallb (fun m => (length m =? 1)%nat) ms) ;;;
  let rs := map (fun m => hd 0 m) ms in
  let! cs := mread get_components in
  mfor cs (fun c => if (1 <? length (filter (fun r => mem r c) rs))%nat then mraise ValueError else mret tt) ;;;
  modify (set_roots_ rs).

(** surface.py 406-468; of the refined category only connectedness is recorded *)
Definition set_immutable : M surf unit :=
  let! s := mget in
  (if mutable s then
     let! rs := mread get_roots in
     set_roots rs ;;;
     modify (set_mutable false)
   else mret tt) ;;;
  let! c := mread is_connected in
  modify (fun s => set_connected (connected s || c) s).

(** surface.py 1583-1628: there is no check for mutability *)
Definition replace_polygon (l : label) (p : P) : M surf unit :=
  let! old := mread (fun s => get_polygon s l) in
  if (nv old =? nv p)%nat then modify (fun s => set_polys (dset l p (polys s)) s) else mraise ValueError.

(** ** histories of calls *)
Inductive op :=
| OpAdd (p : P) (lab : option label)
| OpRemove (l : label)
| OpGlue (x y : hedge)
| OpUnglue (l : label) (e : Z)
| OpSetRoot (r : label)
| OpSetRoots (rs : list label)
| OpSetImmutable
| OpReplace (l : label) (p : P).

Definition run_op (o : op) (s : surf) : surf * res unit :=
  match o with
  | OpAdd p lab => match add_polygon p lab s with (s, Ok _) => (s, Ok tt) | (s, Err x) => (s, Err x) end
  | OpRemove l => remove_polygon l s
  | OpGlue x y => glue x y s
  | OpUnglue l e => unglue l e s
  | OpSetRoot r => set_root r s
  | OpSetRoots rs => set_roots rs s
  | OpSetImmutable => set_immutable s
  | OpReplace l p => replace_polygon l p s
  end.

(** calls one after the other; exceptions are caught and the surface is used further *)
Definition run (ops : list op) (s : surf) : surf := fold_left (fun s o => fst (run_op o s)) ops s.
End Mut.
