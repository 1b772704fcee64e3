(** Model of the straight line flow: [flow_to_exit] of flatsurf/geometry/categories/euclidean_polygons.py,
    flatsurf/geometry/tangent_bundle.py and flatsurf/geometry/straight_line_trajectory.py (without plotting,
    [coding], [cylinder], [intersections] and [StraightLineTrajectoryTranslation]).

    Conversions between base rings and the warnings about them are not modelled: all coordinates are in the same
    ordered field. Hashing and [__repr__] are not modelled. *)
From Coq Require Import List Bool ZArith Arith.
From Verif Require Import OField MBase MDict MEuclid MSim MPoly MSurf.
Import ListNotations.

Section Tangent.
Context {K : OField}.
Local Open Scope F_scope.
Local Open Scope res_scope.

(** euclidean_polygons.py 1653-1702: what the side from [a] (vertex number [v]) to [b] contributes to the list
    [intersections]: at most one pair of a point and either its position or None *)
Definition exit_candidate (P : polygon K) (point direction : vec K) (v : nat) : list (vec K * option position) :=
  let n := length P in
  let segment := (vertex P v, vertex P ((v + 1) mod n)) in
  match ray_segment_intersection point direction segment with
  | RNone => nil
  | RSegment p q =>
    let intersection := if veqb p point then q else p in
    [(intersection, Some (AtVertex (if veqb intersection (vertex P v) then v else ((v + 1) mod n)%nat)))]
  | RPoint p => if veqb p point then nil else [(p, None)]
  end.

(** euclidean_polygons.py 1710-1717: [Quotient.__lt__] *)
Definition quotient_lt (x y : K * K) : bool := (fst x * snd y) <? (fst y * snd x).
(** Python's [min(iterable, key=...)]: the first element whose key is minimal; [m] is the best one so far *)
Fixpoint min_by {A B : Type} (lt : B -> B -> bool) (key : A -> B) (m : A) (l : list A) : A :=
  match l with
  | nil => m
  | x :: l => min_by lt key (if lt (key x) (key m) then x else m) l
  end.

(** euclidean_polygons.py 1593-1726 *)
Definition flow_to_exit (P : polygon K) (point direction : vec K) : res (vec K * position) :=
  if veqb direction vzero then Err ValueError else
  match flat_map (exit_candidate P point direction) (seq 0 (length P)) with
  | nil => Err ValueError
  | i :: is =>
    let '(intersection, position) :=
      min_by quotient_lt (fun i => time_on_ray point direction (fst i)) i is in
    Ok (intersection, match position with Some p => p | None => get_point_position P intersection end)
  end.

Section Surface.
Context {L : Type} `{EqB L}.
Variable S : surface K L.

(** tangent_bundle.py 86-155: the attributes of a tangent vector *)
Record tvec := TVec { tv_label : L; tv_point : vec K; tv_vector : vec K; tv_position : position }.

(** tangent_bundle.py 103-113 and 132-146: the tangent vector at the opposite edge *)
Definition tv_move (l : L) (e : nat) (point vector : vec K) : res tvec :=
  'y <- opp_pair S l e ;;
  similarity <- edge_transformation S l e ;;
  let point2 := sim_apply similarity point in
  let vector2 := mapply (sim_derivative similarity) vector in
  Q <- s_poly S (fst y) ;;
  Ok (TVec (fst y) point2 vector2 (get_point_position Q point2)).

(** tangent_bundle.py 86-155 *)
Definition tangent_vector (l : L) (point vector : vec K) : res tvec :=
  P <- s_poly S l ;;
  let pos := get_point_position P point in
  if veqb vector vzero then Err NotImplementedError else
  match pos with
  | Interior => Ok (TVec l point vector pos)
  | EdgeInterior e =>
    let edge_v := edge P e in
    if (ccw edge_v vector <? 0) || is_anti_parallel edge_v vector then tv_move l e point vector
    else Ok (TVec l point vector pos)
  | AtVertex v =>
    let prev := ((v + length P - 1) mod length P)%nat in
    if is_between (vopp (edge P prev)) (edge P v) vector then Err ValueError
    else if is_anti_parallel (edge P prev) vector then tv_move l prev point vector
    else Ok (TVec l point vector pos)
  | Outside => Err ValueError
  end.

(** tangent_bundle.py 168-176; the surfaces of both are the same *)
Definition tv_eqb (v w : tvec) : bool :=
  eqb (tv_label v) (tv_label w) && veqb (tv_point v) (tv_point w) && veqb (tv_vector v) (tv_vector w).
(** tangent_bundle.py 197-201 *)
Definition is_based_at_singularity (v : tvec) : bool := match tv_position v with AtVertex _ => true | _ => false end.
(** tangent_bundle.py 281-292 *)
Definition differs_by_scaling (v w : tvec) : bool :=
  eqb (tv_label v) (tv_label w) && veqb (tv_point v) (tv_point w) && is_parallel (tv_vector v) (tv_vector w).
(** tangent_bundle.py 294-303 *)
Definition tv_invert (v : tvec) : res tvec :=
  if is_based_at_singularity v then Err ValueError
  else tangent_vector (tv_label v) (tv_point v) (vopp (tv_vector v)).
(** tangent_bundle.py 305-342 *)
Definition forward_to_polygon_boundary (v : tvec) : res tvec :=
  P <- s_poly S (tv_label v) ;;
  r <- flow_to_exit P (tv_point v) (tv_vector v) ;;
  tangent_vector (tv_label v) (fst r) (vopp (tv_vector v)).
(** tangent_bundle.py 269-279 *)
Definition edge_pointing_along (v : tvec) : res (option (L * nat)) :=
  match tv_position v with
  | AtVertex e => P <- s_poly S (tv_label v) ;;
    Ok (if veqb (tv_vector v) (edge P e) then Some (tv_label v, e) else None)
  | _ => Ok None
  end.

(** tangent_bundle.py 652-671 and 673-695 *)
Definition bundle_edge (l : L) (e : nat) : res tvec :=
  P <- s_poly S l ;; tangent_vector l (vertex P e) (edge P e).
Definition bundle_clockwise_edge (l : L) (e : nat) : res tvec :=
  P <- s_poly S l ;; tangent_vector l (vertex P (e + 1)) (vopp (edge P e)).

(** tangent_bundle.py 31 *)
Definition rotate_limit : nat := 100.

(** tangent_bundle.py 422-433: the loop of [clockwise_to]; the assertion behind it ([count < rotate_limit]) holds
    also when the loop has been exhausted, as [count] is then [rotate_limit - 1] *)
Fixpoint clockwise_loop (fuel : nat) (w v1 v2 : vec K) (label : L) (vertex : nat) (der : mat K) (codes : list nat)
  : res (L * nat * list nat) :=
  match fuel with
  | 0%nat => Ok (label, vertex, codes)
  | Datatypes.S fuel =>
    if (0 <=? ccw v2 w) && (0 <? ccw w v1) then Ok (label, vertex, codes) else
    'y <- opp_pair S label vertex ;;
    m <- edge_matrix S (fst y) (snd y) ;;
    let der := mmul der m in
    Q <- s_poly S (fst y) ;;
    let v1 := mapply der (vopp (edge Q (snd y))) in
    let vertex' := ((snd y + 1) mod length Q)%nat in
    clockwise_loop fuel w v1 (mapply der (edge Q vertex')) (fst y) vertex' der (codes ++ [vertex])
  end.

(** tangent_bundle.py 372-449, with [code=True] *)
Definition clockwise_to (v : tvec) (w : vec K) : res (tvec * list nat) :=
  if veqb w vzero then Err ValueError else
  match tv_position v with
  | AtVertex k =>
    P <- s_poly S (tv_label v) ;;
    'r <- clockwise_loop rotate_limit w (tv_vector v) (edge P k) (tv_label v) k mone nil ;;
    let '(label, k', codes) := r in
    Q <- s_poly S label ;;
    t <- tangent_vector label (vertex Q k') w ;;
    Ok (t, codes)
  | _ => Err NotImplementedError
  end.

(** tangent_bundle.py 505-519: the loop of [counterclockwise_to] *)
Fixpoint counterclockwise_loop (fuel : nat) (w : vec K) (label : L) (vertex previous_vertex : nat) (der : mat K) (codes : list nat)
  : res (L * nat * list nat) :=
  match fuel with
  | 0%nat => Ok (label, vertex, codes)
  | Datatypes.S fuel =>
    'y <- opp_pair S label previous_vertex ;;
    m <- edge_matrix S (fst y) (snd y) ;;
    let der := mmul der m in
    Q <- s_poly S (fst y) ;;
    let vertex := snd y in
    let previous' := ((vertex + length Q - 1) mod length Q)%nat in
    let v1 := mapply der (edge Q vertex) in
    let v2 := mapply der (vopp (edge Q previous')) in
    if (0 <=? ccw v1 w) && (0 <? ccw w v2) then Ok (fst y, vertex, codes ++ [previous_vertex])
    else counterclockwise_loop fuel w (fst y) vertex previous' der (codes ++ [previous_vertex])
  end.

(** tangent_bundle.py 451-535, with [code=True] *)
Definition counterclockwise_to (v : tvec) (w : vec K) : res (tvec * list nat) :=
  if veqb w vzero then Err ValueError else
  match tv_position v with
  | AtVertex k =>
    P <- s_poly S (tv_label v) ;;
    let previous_vertex := ((k + length P - 1) mod length P)%nat in
    'r <- (if (0 <? ccw (tv_vector v) w) && (0 <? ccw w (vopp (edge P previous_vertex))) then Ok (tv_label v, k, nil)
           else counterclockwise_loop rotate_limit w (tv_label v) k previous_vertex mone nil) ;;
    let '(label, k', codes) := r in
    Q <- s_poly S label ;;
    t <- tangent_vector label (vertex Q k') w ;;
    Ok (t, codes)
  | _ => Err NotImplementedError
  end.

(** straight_line_trajectory.py 101-109: the attributes of a segment and its construction from a tangent vector *)
Record segment := Segment { sg_start : tvec; sg_end : tvec }.
Definition segment_of (start : tvec) : res segment :=
  e <- forward_to_polygon_boundary start ;;
  s <- forward_to_polygon_boundary e ;;
  Ok (Segment s e).
(** straight_line_trajectory.py 158-159 and 167-168 *)
Definition start_is_singular (s : segment) : bool := is_based_at_singularity (sg_start s).
Definition end_is_singular (s : segment) : bool := is_based_at_singularity (sg_end s).
(** straight_line_trajectory.py 170-178 *)
Definition sg_is_edge (s : segment) : res bool :=
  if negb (start_is_singular s) || negb (end_is_singular s) then Ok false else
  match tv_position (sg_start s) with
  | AtVertex v => P <- s_poly S (tv_label (sg_start s)) ;; Ok (is_parallel (tv_vector (sg_start s)) (edge P v))
  | _ => Ok false
  end.
(** straight_line_trajectory.py 188-189 *)
Definition sg_invert (s : segment) : segment := Segment (sg_end s) (sg_start s).
(** straight_line_trajectory.py 191-214 *)
Definition sg_next (s : segment) : res segment :=
  if end_is_singular s then Err ValueError else
  v <- tv_invert (sg_end s) ;; segment_of v.
(** straight_line_trajectory.py 216-219; it is the end that is tested *)
Definition sg_previous (s : segment) : res segment :=
  if end_is_singular s then Err ValueError else
  v <- tv_invert (sg_start s) ;; t <- segment_of v ;; Ok (sg_invert t).

(** straight_line_trajectory.py 542-710: the attributes [_segments], [_forward] and [_backward]; the deque is a first
    segment and the list of the others *)
Record trajectory := Trajectory { tj_segments : list segment; tj_forward : option tvec; tj_backward : option tvec }.
(** straight_line_trajectory.py 604-616 *)
Definition setup (v : tvec) : res (option tvec) :=
  if is_based_at_singularity v then Ok None else w <- tv_invert v ;; Ok (Some w).
(** straight_line_trajectory.py 564-570 *)
Definition trajectory_of (v : tvec) : res trajectory :=
  seg <- segment_of v ;;
  f <- setup (sg_end seg) ;;
  b <- setup (sg_start seg) ;;
  Ok (Trajectory [seg] f b).
(** straight_line_trajectory.py 434-435: an empty deque would raise an IndexError *)
Definition initial_tangent_vector (t : trajectory) : res tvec :=
  match tj_segments t with nil => Err IndexError | s :: _ => Ok (sg_start s) end.
(** straight_line_trajectory.py 618-625 *)
Definition is_forward_separatrix (t : trajectory) : bool := match tj_forward t with None => true | Some _ => false end.
Definition is_backward_separatrix (t : trajectory) : bool := match tj_backward t with None => true | Some _ => false end.
Definition is_saddle_connection (t : trajectory) : bool := is_forward_separatrix t && is_backward_separatrix t.
(** straight_line_trajectory.py 627-673 *)
Definition is_closed (t : trajectory) : res bool :=
  match tj_forward t with
  | None => Ok false
  | Some f => i <- initial_tangent_vector t ;; Ok (differs_by_scaling f i)
  end.
(** straight_line_trajectory.py 698-703 *)
Fixpoint flow_forward (steps : nat) (t : trajectory) : res trajectory :=
  match steps with
  | 0%nat => Ok t
  | Datatypes.S steps =>
    match tj_forward t with
    | None => Ok t
    | Some f =>
      c <- is_closed t ;;
      if c then Ok t else
      seg <- segment_of f ;;
      f' <- setup (sg_end seg) ;;
      flow_forward steps (Trajectory (tj_segments t ++ [seg]) f' (tj_backward t))
    end
  end.
(** straight_line_trajectory.py 704-709 *)
Fixpoint flow_backward (steps : nat) (t : trajectory) : res trajectory :=
  match steps with
  | 0%nat => Ok t
  | Datatypes.S steps =>
    match tj_backward t with
    | None => Ok t
    | Some b =>
      c <- is_closed t ;;
      if c then Ok t else
      seg <- segment_of b ;;
      let seg := sg_invert seg in
      b' <- setup (sg_start seg) ;;
      flow_backward steps (Trajectory (seg :: tj_segments t) (tj_forward t) b')
    end
  end.
(** straight_line_trajectory.py 675-709 *)
Definition flow (steps : Z) (t : trajectory) : res trajectory :=
  if (0 <? steps)%Z then flow_forward (Z.to_nat steps) t
  else if (steps <? 0)%Z then flow_backward (Z.to_nat (- steps)) t
  else Ok t.
End Surface.
End Tangent.
Arguments tvec K L : clear implicits.
Arguments segment K L : clear implicits.
Arguments trajectory K L : clear implicits.
