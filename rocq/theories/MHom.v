(** Model of simplicial homology: flatsurf/geometry/homology.py.

    The surface is a finite surface without boundary in the combinatorial form of MComb (the class refuses all others,
    homology.py 563-572). The module of chains is Sage's free module on the simplices: a chain is the dictionary of its
    non-zero coefficients. Kernels, images and quotients of matrices ([_chain_complex], [_homology], 800-922) are Sage's;
    here cycles are the chains with boundary zero and two of them are equal in homology if they differ by a boundary. *)
From Coq Require Import List Bool ZArith Arith.
From Verif Require Import MBase MDict MComb.
Import ListNotations.

Section H.
Context {L : Type} `{EL : EqB L}.
Notation dart := (L * nat)%type.
(** the ring of coefficients *)
Context {R : Type} `{ER : EqB R}.
Variables (rO rI : R) (radd rmul : R -> R -> R) (ropp : R -> R).

(** elements of free modules *)
Section Chain.
Context {X : Type} `{EX : EqB X}.
Definition chain := dict X R.
Definition coef (c : chain) (x : X) : R := match dget x c with Some r => r | None => rO end.
(** [c + r * x] *)
Definition acc (x : X) (r : R) (c : chain) : chain :=
  let r' := radd (coef c x) r in if eqb r' rO then ddel x c else dset x r' c.
(** sum, difference and multiples of chains *)
Definition cadd (c d : chain) : chain := fold_left (fun c t => acc (fst t) (snd t) c) d c.
Definition copp (c : chain) : chain := fold_left (fun c t => acc (fst t) (ropp (snd t)) c) c nil.
Definition cscale (r : R) (c : chain) : chain := fold_left (fun c t => acc (fst t) (rmul r (snd t)) c) c nil.
(** [bool(chain)] *)
Definition cbool (c : chain) : bool := match c with nil => false | _ => true end.
End Chain.
Arguments chain : clear implicits.

Variable S : csurf L.
(** [opposite_edge]; there is no boundary *)
Definition opp (d : dart) : dart := match c_opp S d with Some c => c | None => d end.

(** similarity_surfaces.py 1090-1120, the outgoing edges only, that is, [edges_ccw()\[::2\]]: the next one is found by
    crossing the edge before the current one *)
Fixpoint around (fuel : nat) (start d : dart) : list dart :=
  match fuel with
  | O => nil
  | Datatypes.S fuel => let d' := opp (dprev S d) in if eqb d' start then [d] else d :: around fuel start d'
  end.
Definition edges_ccw (d : dart) : list dart := around (length (darts S)) d d.
(** polygonal_surfaces.py 1282-1305: the set of the vertices. A vertex is represented by the first corner at which it has
    been seen; equality of points is MPoint's: one corner lies in the walk around the other *)
Definition vertices : list dart :=
  fold_left (fun vs d => if existsb (fun v => mem d (edges_ccw v)) vs then vs else vs ++ [d]) (darts S) nil.
(** [surface.point(label, vertex)] *)
Definition point (d : dart) : dart := match List.find (fun v => mem d (edges_ccw v)) vertices with Some v => v | None => d end.

(** homology.py 690-695: the order of the set is irrelevant *)
Definition simplices1 : list dart := fold_left (fun s d => if mem (opp d) s then s else s ++ [d]) (darts S) nil.
(** homology.py 684-689 *)
Definition simplices0 (relative : list dart) : list dart := filter (fun v => negb (mem v relative)) vertices.

(** homology.py 771-774 *)
Definition to_C0 (relative : list dart) (p : dart) (r : R) (c : chain dart) : chain dart :=
  if mem p relative then c else acc p r c.
(** homology.py 768-782 *)
Definition boundary1 (relative : list dart) (c : chain dart) : chain dart :=
  fold_left (fun b t => to_C0 relative (point (fst t)) (ropp (snd t)) (to_C0 relative (point (opp (fst t))) (snd t) b)) c nil.
(** homology.py 784-795 *)
Definition boundary2 (c : chain L) : chain dart :=
  fold_left (fun b t =>
    fold_left (fun b e => if mem (fst t, e) simplices1 then acc (fst t, e) (snd t) b
                          else acc (opp (fst t, e)) (ropp (snd t)) b) (seq 0 (c_nv S (fst t))) b) c nil.

(** homology.py 1032-1038: the class of a single edge *)
Definition of_edge (d : dart) : chain dart :=
  if mem d simplices1 then acc d rI nil else cscale (ropp rI) (acc (opp d) rI nil).

(** homology.py 209-218: the loop around a vertex; [cn], [ocn], [i] are counter, other_counter and intersection *)
Fixpoint turn_round (a b : chain dart) (es : list dart) (cn ocn i : R) : R * R * R :=
  match es with
  | nil => (cn, ocn, i)
  | e :: es =>
    let o := opp e in
    let cn := radd cn (coef a e) in
    let i := radd i (rmul cn (coef b e)) in
    let i := radd i (ropp (rmul cn (coef b o))) in
    let cn := radd cn (ropp (coef a o)) in
    let ocn := radd ocn (coef b e) in
    let ocn := radd ocn (ropp (coef b o)) in
    turn_round a b es cn ocn i
  end.
(** homology.py 205-223 *)
Fixpoint around_all (a b : chain dart) (vs : list dart) (i : R) : res R :=
  match vs with
  | nil => Ok i
  | v :: vs =>
    let '(cn, ocn, i) := turn_round a b (edges_ccw v) rO rO i in
    if negb (eqb cn rO) then Err TypeError
    else if negb (eqb ocn rO) then Err ValueError
    else around_all a b vs i
  end.
(** homology.py 147-225 for classes of absolute homology in degree 1 *)
Definition algebraic_intersection (a b : chain dart) : res R := around_all a b vertices rO.
End H.

(** homology.py 540-582: a homology group; the surface, the ring of coefficients, the set of relative points, the
    implementation and the category are kept as opaque values that can be compared *)
Record hgroup (T C P I Ca : Type) := HGroup {
  h_surface : T; h_k : Z; h_coefficients : C; h_relative : P; h_implementation : I; h_category : Ca }.
Arguments HGroup {T C P I Ca}. Arguments h_surface {T C P I Ca}. Arguments h_k {T C P I Ca}.
Arguments h_coefficients {T C P I Ca}. Arguments h_relative {T C P I Ca}. Arguments h_implementation {T C P I Ca}.
Arguments h_category {T C P I Ca}.
(** homology.py 1296-1328; the first test is about other types *)
Definition hgroup_eqb {T C P I Ca} `{EqB T} `{EqB C} `{EqB P} `{EqB I} `{EqB Ca} (x y : hgroup T C P I Ca) : bool :=
  eqb (h_surface x) (h_surface y) && eqb (h_coefficients x) (h_coefficients y) && eqb (h_relative x) (h_relative y) &&
  eqb (h_implementation x) (h_implementation y) && eqb (h_category x) (h_category y).
