(** Model of flatsurf/geometry/surface_objects.py, class SurfacePoint, and of the methods of points in
    flatsurf/geometry/categories/similarity_surfaces.py.

    Not modelled: base rings, caching, warnings, printing. A frozenset of representatives is the list of its
    elements; [limit] is the deprecated bound on the number of steps around a vertex. *)
From Coq Require Import List Bool ZArith Arith.
From Verif Require Import OField MBase MDict MEuclid MSim MPoly MSurf.
Import ListNotations.

#[global] Program Instance EqB_vec {K : OField} : EqB (vec K) := {| eqb := veqb |}.
Next Obligation.
  destruct x as [x1 x2], y as [y1 y2]. unfold veqb. rewrite andb_true_iff. cbn. split.
  - intros [E F]. apply feqb_eq in E, F. now subst.
  - injection 1 as -> ->. split; now apply feqb_eq.
Qed.

Section Point.
Context {K : OField} {L : Type} `{EqB L}.
Variable S : surface K L.
Local Open Scope res_scope.
Local Open Scope nat_scope.

(** [s.add(x)] *)
Definition set_add {A} `{EqB A} (x : A) (s : list A) : list A := if mem x s then s else s ++ [x].
(** [s == t] for sets *)
Definition set_eqb {A} `{EqB A} (s t : list A) : bool := forallb (fun x => mem x t) s && forallb (fun x => mem x s) t.

(** surface_objects.py 212-227: [rotate]; [forward] is [direction == 1] *)
Definition rotate (forward : bool) (x : L * nat) : res (option (L * nat)) :=
  e <- (if forward then Ok (snd x)
        else P <- s_poly S (fst x) ;; Ok ((snd x + length P - 1) mod length P)) ;;
  o <- s_opp S (fst x) e ;;
  match o with
  | None => Ok None
  | Some y => if forward then P <- s_poly S (fst y) ;; Ok (Some (fst y, (snd y + 1) mod length P)) else Ok (Some y)
  end.
(** surface_objects.py 211-247: [collect_representatives]; the fuel replaces the unbounded loop *)
Fixpoint collect (fuel : nat) (rot : L * nat -> res (option (L * nat))) (reps : list (L * nat)) (x : L * nat)
  (limit : option nat) : res (list (L * nat)) :=
  match fuel with
  | O => Err Diverge
  | Datatypes.S fuel =>
    let reps := set_add x reps in
    rotated <- rot x ;;
    match rotated with
    | None => Ok reps
    | Some y =>
      limit <- (match limit with None => Ok None | Some O => Err ValueError | Some (Datatypes.S k) => Ok (Some k) end) ;;
      if mem y reps then Ok reps else collect fuel rot reps y limit
    end
  end.
(** surface_objects.py 154-258 *)
Definition surface_point (fuel : nat) (l : L) (p : vec K) (limit : option nat) : res (list (L * vec K)) :=
  P <- s_poly S l ;;
  match get_point_position P p with
  | Outside => Err NotImplementedError
  | Interior => Ok [(l, p)]
  | EdgeInterior e =>
    o <- s_opp S l e ;;
    match o with
    | None => Ok [(l, p)]
    | Some y => f <- edge_transformation S l e ;; Ok (set_add (fst y, sim_apply f p) [(l, p)])
    end
  | AtVertex k =>
    r1 <- collect fuel (rotate true) nil (l, k) limit ;;
    r2 <- collect fuel (rotate false) r1 (l, k) limit ;;
    rmap (fun x => P <- s_poly S (fst x) ;; Ok (fst x, vertex P (snd x))) r2
  end.
(** surface_objects.py 178-179: a point given by the number of a vertex *)
Definition vertex_point (fuel : nat) (l : L) (k : nat) (limit : option nat) : res (list (L * vec K)) :=
  P <- s_poly S l ;; surface_point fuel l (vertex P k) limit.
(** surface_objects.py 613-619 for points of the same surface *)
Definition point_eqb (r r' : list (L * vec K)) : bool := set_eqb r r'.

(** similarity_surfaces.py 1066-1075: walk clockwise to the boundary, or all the way around *)
Fixpoint most_clockwise (fuel : nat) (initial x : L * nat) : res (L * nat) :=
  match fuel with
  | O => Err Diverge
  | Datatypes.S fuel =>
    o <- s_opp S (fst x) (snd x) ;;
    match o with
    | None => Ok x
    | Some y =>
      P <- s_poly S (fst y) ;;
      let x' := (fst y, (snd y + 1) mod length P) in
      if eqb x' initial then Ok x' else most_clockwise fuel initial x'
    end
  end.
(** similarity_surfaces.py 1090-1120; [x] is the edge of [edges[-1]] at the beginning of a round *)
Fixpoint ccw_loop (fuel : nat) (start x : L * nat) (m : mat K) : res (list ((L * nat) * vec K)) :=
  match fuel with
  | O => Err Diverge
  | Datatypes.S fuel =>
    P <- s_poly S (fst x) ;;
    let exit := (fst x, (snd x + length P - 1) mod length P) in
    let out := (exit, mapply (mopp m) (edge P (snd exit))) in
    o <- s_opp S (fst exit) (snd exit) ;;
    match o with
    | None =>
      o' <- s_opp S (fst start) (snd start) ;;
      match o' with Some _ => Err ValueError | None => Ok [out] end
    | Some enter =>
      f <- edge_transformation S (fst enter) (snd enter) ;;
      let m' := mmul m (sim_derivative f) in
      if eqb enter start then Ok [out]
      else P' <- s_poly S (fst enter) ;;
           rest <- ccw_loop fuel start enter m' ;;
           Ok (out :: (enter, mapply m' (edge P' (snd enter))) :: rest)
    end
  end.
(** similarity_surfaces.py 1033-1122; [initial] is the corner of the chosen representative *)
Definition edges_ccw_vertex (fuel : nat) (initial : L * nat) (start_edge : option (L * nat))
  (start_holonomy : option (vec K)) : res (list ((L * nat) * vec K)) :=
  start <- (match start_edge with Some x => Ok x | None => most_clockwise fuel initial initial end) ;;
  P <- s_poly S (fst start) ;;
  let h := match start_holonomy with Some h => h | None => edge P (snd start) end in
  let m := similarity_from_vectors (edge P (snd start)) h in
  rest <- ccw_loop fuel start start m ;;
  Ok ((start, h) :: rest).
End Point.

(** similarity_surfaces.py 859-883: [half_turns] and the last vector *)
Section Turns.
Context {K : OField}.
Local Open Scope F_scope.
Definition turn_step (start : vec K) (h : Z) (previous vector : vec K) : Z :=
  let h := if ccw previous vector <? 0 then (h + 1)%Z else h in
  let c := ccw start vector in
  let side := if c =? 0 then is_parallel start vector else 0 <? c in
  if Bool.eqb side (Z.even h) then h else (h + 1)%Z.
Fixpoint turn_loop (start : vec K) (h : Z) (previous : vec K) (vectors : list (vec K)) : Z :=
  match vectors with
  | nil => h
  | v :: vs => turn_loop start (turn_step start h previous v) v vs
  end.
Definition turns (start : vec K) (vectors : list (vec K)) : Z := (turn_loop start 0%Z start vectors / 2)%Z.
End Turns.

(** similarity_surfaces.py 795-883, after the check that the point is a vertex: the number of turns, the first vector
    and the last vector *)
Section PointTurns.
Context {K : OField} {L : Type} `{EqB L}.
Local Open Scope res_scope.
Fixpoint odd_entries {A} (l : list A) : list A :=
  match l with _ :: b :: l => b :: odd_entries l | _ => nil end.
Definition point_turns (S : surface K L) (fuel : nat) (initial : L * nat) (start_edge : option (L * nat))
  (start_holonomy : option (vec K)) : res (Z * vec K * vec K) :=
  edges <- edges_ccw_vertex S fuel initial start_edge start_holonomy ;;
  match edges with
  | nil => Err IndexError
  | (_, start) :: _ =>
    let vectors := map snd (odd_entries edges) in
    Ok (turns start vectors, start, last vectors start)
  end.
End PointTurns.
