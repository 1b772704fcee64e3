(** Model of saddle connections: [SaddleConnection] of flatsurf/geometry/surface_objects.py (without plotting, [length],
    intersections, hashing and [_homology_]) and [saddle_connections] of
    flatsurf/geometry/categories/similarity_surfaces.py.

    Conversions between base rings are not modelled. The categories that the constructor asks for are parameters. *)
From Coq Require Import List Bool ZArith Arith.
From Verif Require Import OField MBase MDict MEuclid MSim MPoly MSurf MCircle MTangent.
Import ListNotations.

Section Saddle.
Context {K : OField}.
Local Open Scope F_scope.
Local Open Scope res_scope.

(** [abs] of an element of the base ring *)
Definition absolute (x : K) : K := if x <? 0 then - x else x.
(** surface_objects.py 771-776, 780-785 and 855-860: the multiple of a vector whose larger coordinate is 1 or -1; the
    callers have checked that it is not zero, or it is a tangent vector *)
Definition canonical (v : vec K) : vec K :=
  let xabs := absolute (fst v) in
  let yabs := absolute (snd v) in
  if yabs <? xabs then (fst v / xabs, snd v / xabs) else (fst v / yabs, snd v / yabs).

(** in which of the categories the surface is: [DilationSurfaces().Positive()], [DilationSurfaces()],
    [TranslationSurfaces()] and [HalfTranslationSurfaces()] *)
Record categories := Categories { c_positive : bool; c_dilation : bool; c_translation : bool; c_half_translation : bool }.

Section Surface.
Context {L : Type} `{EqB L}.
Variable S : surface K L.
Variable C : categories.

(** the attributes of a saddle connection; the name of the first one is [_surfacetart_data] *)
Record saddle := Saddle { sc_start : L * nat; sc_direction : vec K; sc_end : L * nat; sc_end_direction : vec K;
  sc_holonomy : vec K; sc_end_holonomy : vec K }.

(** surface_objects.py 993-1003 *)
Definition start_tangent_vector (start : L * nat) (direction : vec K) : res (tvec K L) :=
  P <- s_poly S (fst start) ;; tangent_vector S (fst start) (vertex P (snd start)) direction.

(** surface_objects.py 881-887: the product of the edge transformations of all segments but the first *)
Fixpoint develop_segments (f : sim K) (segs : list (segment K L)) : res (sim K) :=
  match segs with
  | nil => Ok f
  | s :: segs =>
    match tv_position (sg_start s) with
    | EdgeInterior e => g <- edge_transformation S (tv_label (sg_start s)) e ;; develop_segments (sim_mul f g) segs
    | _ => Err ValueError
    end
  end.

(** the comparison of an optional argument with the value that has been computed *)
Definition agrees {A : Type} (eq : A -> A -> bool) (o : option A) (x : A) : bool :=
  match o with None => true | Some y => eq y x end.

(** surface_objects.py 789-810: [end_direction] has been normalised already if it was given *)
Definition infer_end_direction (direction : vec K) (end_data : option (L * nat)) (end_direction : option (vec K))
  : res (option (vec K)) :=
  match end_direction with
  | Some d => Ok (Some d)
  | None =>
    if c_positive C then Ok (Some (vopp direction)) else
    match end_data with
    | Some y =>
      if c_dilation C then
        P <- s_poly S (fst y) ;;
        if (0 <=? ccw (edge P (snd y)) direction) &&
           (0 <? ccw (edge P ((length P + snd y - 1) mod length P)) direction)
        then Ok (Some direction) else Ok (Some (vopp direction))
      else Ok None
    | None => Ok None
    end
  end.
(** surface_objects.py 812-826; [direction] is the argument, which has not been normalised *)
Definition infer_end_holonomy (direction : vec K) (end_direction holonomy end_holonomy : option (vec K)) : option (vec K) :=
  match end_holonomy, holonomy with
  | None, Some h =>
    let r := if c_translation C then Some (vopp h) else None in
    if c_half_translation C then
      if match end_direction with Some d => veqb direction d | None => false end then Some h else Some (vopp h)
    else r
  | _, _ => end_holonomy
  end.

(** surface_objects.py 695-925 *)
Definition saddle_new (start : L * nat) (direction : vec K) (end_data : option (L * nat))
  (end_direction holonomy end_holonomy : option (vec K)) (check : bool) (limit : nat) : res saddle :=
  if veqb direction vzero then Err ValueError else
  let dir := canonical direction in
  end_direction <- infer_end_direction dir end_data (option_map canonical end_direction) ;;
  let end_holonomy := infer_end_holonomy direction end_direction holonomy end_holonomy in
  match end_data, end_direction, holonomy, end_holonomy, check with
  | Some y, Some d, Some h, Some h', false => Ok (Saddle start dir y d h h')
  | _, _, _, _, _ =>
    v <- start_tangent_vector start dir ;;
    t <- trajectory_of S v ;;
    t <- flow S (Z.of_nat limit) t ;;
    if negb (is_saddle_connection t) then Err ValueError else
    match tj_segments t with
    | nil => Err IndexError
    | s :: segs =>
      let last_seg := last segs s in
      let tv := sg_end last_seg in
      match tv_position tv with
      | AtVertex k =>
        let y := (tv_label tv, k) in
        if negb (agrees eqb end_data y) then Err ValueError else
        let d := canonical (tv_vector tv) in
        if negb (agrees veqb end_direction d) then Err ValueError else
        b <- sg_is_edge S s ;;
        'hh <- (if b : bool then
                 P <- s_poly S (fst start) ;;
                 Q <- s_poly S (fst y) ;;
                 Ok (edge P (snd start), edge Q (snd y))
               else
                 f <- develop_segments sim_one segs ;;
                 let h := vsub (sim_apply f (tv_point tv)) (tv_point (sg_start s)) in
                 Ok (h, vopp (mapply (minv (sim_derivative f)) h))) ;;
        let '(h, h') := hh in
        if negb (agrees veqb holonomy h) then Err ValueError else
        if negb (agrees veqb end_holonomy h') then Err ValueError else
        Ok (Saddle start dir y d h h')
      | _ => Err ValueError
      end
    end
  end.

(** surface_objects.py 1045-1059 *)
Definition saddle_invert (c : saddle) : res saddle :=
  saddle_new (sc_end c) (sc_end_direction c) (Some (sc_start c)) (Some (sc_direction c)) (Some (sc_end_holonomy c))
    (Some (sc_holonomy c)) false 1000.
(** surface_objects.py 1076-1117; the surfaces of both are the same *)
Definition saddle_eqb (c d : saddle) : bool := veqb (sc_direction c) (sc_direction d) && eqb (sc_start c) (sc_start d).

(** similarity_surfaces.py 3196-3206: an entry of the list [chain]: [sim], [label], [wedge] and [verts], the latter in the
    order in which [pop] returns its elements *)
Record beam := Beam { bm_sim : sim K; bm_label : L; bm_wedge : vec K * vec K; bm_verts : list nat }.

(** similarity_surfaces.py 3216-3239; [check] is False *)
Definition beam_vertex (bound : K) (start : L * nat) (b : beam) (P : polygon K) (vert : nat) : res (list saddle) :=
  let p := sim_apply (bm_sim b) (vertex P vert) in
  if (0 <? ccw (fst (bm_wedge b)) p) && (0 <? ccw p (snd (bm_wedge b))) && (fst p * fst p + snd p * snd p <=? bound)
  then
    let e := mapply (minv (sim_derivative (bm_sim b))) (vopp p) in
    c <- saddle_new start p (Some (bm_label b, vert)) (Some e) (Some p) (Some e) false 1000 ;; Ok [c]
  else Ok nil.

(** similarity_surfaces.py 3249-3259 *)
Definition narrow (w : vec K * vec K) (p q : vec K) : vec K * vec K :=
  if 0 <? ccw (fst w) p then if 0 <? ccw q (snd w) then (p, q) else (p, snd w)
  else if 0 <? ccw q (snd w) then (fst w, q) else w.

(** similarity_surfaces.py 3240-3274: the new entry of [chain] if the search crosses the edge [vert] *)
Definition beam_edge (bound : K) (b : beam) (P : polygon K) (vert : nat) : res (option beam) :=
  let p := sim_apply (bm_sim b) (vertex P vert) in
  let q := sim_apply (bm_sim b) (vertex P ((vert + 1) mod length P)) in
  if (0 <? ccw p q) && (0 <? ccw (fst (bm_wedge b)) q) && (0 <? ccw p (snd (bm_wedge b))) then
    z <- line_segment_position (Circle vzero bound) p q ;;
    if (z =? 1)%Z then
      'y <- opp_pair S (bm_label b) vert ;;
      g <- edge_transformation S (bm_label b) vert ;;
      Q <- s_poly S (fst y) ;;
      Ok (Some (Beam (sim_mul (bm_sim b) (sim_inv g)) (fst y) (narrow (bm_wedge b) p q)
        (map (fun i => (snd y + length Q - i) mod length Q)%nat (rev (seq 1 (length Q - 1))))))
    else Ok None
  else Ok None.

(** similarity_surfaces.py 3208-3274: the loop; the head of [chain] is its last element *)
Fixpoint beam_search (fuel : nat) (bound : K) (start : L * nat) (chain : list beam) (acc : list saddle) : res (list saddle) :=
  match fuel with
  | 0%nat => Err Diverge
  | Datatypes.S fuel =>
    match chain with
    | nil => Ok acc
    | b :: chain =>
      match bm_verts b with
      | nil => beam_search fuel bound start chain acc
      | vert :: verts =>
        P <- s_poly S (bm_label b) ;;
        cs <- beam_vertex bound start b P vert ;;
        o <- beam_edge bound b P vert ;;
        let chain := Beam (bm_sim b) (bm_label b) (bm_wedge b) verts :: chain in
        beam_search fuel bound start (match o with Some b' => b' :: chain | None => chain end) (acc ++ cs)
      end
    end
  end.

(** similarity_surfaces.py 3135-3275 for a label and a vertex; [check] is False as the recursive calls do not pass it on *)
Definition saddle_connections_vertex (fuel : nat) (bound : K) (l : L) (k : nat) : res (list saddle) :=
  if bound <=? 0 then Err ValueError else
  P <- s_poly S l ;;
  let v := vertex P k in
  let last_sim := Sim 1 0 (- fst v) (- snd v) true in
  let e := edge P k in
  let n := length P in
  cs <- (if fst e * fst e + snd e * snd e <=? bound
         then c <- saddle_new (l, k) e None None None None true 1000 ;; Ok [c] else Ok nil) ;;
  beam_search fuel bound (l, k)
    [Beam last_sim l (sim_apply last_sim (vertex P ((k + 1) mod n)), sim_apply last_sim (vertex P ((k + n - 1) mod n)))
      (map (fun i => (k + n - i) mod n)%nat (rev (seq 2 (n - 2))))] cs.
(** similarity_surfaces.py 3152-3160 for a label without a vertex *)
Fixpoint saddle_connections_vertices (fuel : nat) (bound : K) (l : L) (ks : list nat) : res (list saddle) :=
  match ks with
  | nil => Ok nil
  | k :: ks => cs <- saddle_connections_vertex fuel bound l k ;;
    ds <- saddle_connections_vertices fuel bound l ks ;; Ok (cs ++ ds)
  end.
Definition saddle_connections_label (fuel : nat) (bound : K) (l : L) : res (list saddle) :=
  if bound <=? 0 then Err ValueError else
  P <- s_poly S l ;; saddle_connections_vertices fuel bound l (seq 0 (length P)).
(** similarity_surfaces.py 3137-3151 for a surface of finite type with the labels [ls] *)
Fixpoint saddle_connections_labels (fuel : nat) (bound : K) (ls : list L) : res (list saddle) :=
  match ls with
  | nil => Ok nil
  | l :: ls => cs <- saddle_connections_label fuel bound l ;;
    ds <- saddle_connections_labels fuel bound ls ;; Ok (cs ++ ds)
  end.
Definition saddle_connections (fuel : nat) (bound : K) (ls : list L) : res (list saddle) :=
  if bound <=? 0 then Err ValueError else saddle_connections_labels fuel bound ls.
End Surface.
End Saddle.
Arguments saddle K L : clear implicits.
Arguments beam K L : clear implicits.
