(** Model of flatsurf/geometry/hyperbolic.py: ordered sets of half spaces, and the intersection of half spaces.

    Half spaces are modelled by their boundaries (which have them on the left), see [MHyp]. Marked vertices of polygons
    are not modelled. *)
From Coq Require Import List Bool ZArith.
From Verif Require Import OField MBase MEuclid MHyp.
Import ListNotations.

(** ** [OrderedSet] *)
Section OrderedSet.
Context {A : Type}.
Variable lt : A -> A -> bool.
(** the loop of [_merge] for two sets, 13807-13816; the sets are reversed (their last element first) and the merged
    elements are not *)
Fixpoint merge_loop (fuel : nat) (a b merged : list A) : list A :=
  match a, b, fuel with
  | x :: a', y :: b', S fuel =>
    if lt x y then merge_loop fuel a b' (y :: merged)
    else if lt y x then merge_loop fuel a' b (x :: merged)
    else merge_loop fuel a' b merged
  | _, _, _ => rev a ++ rev b ++ merged
  end.
Definition merge2 (a b : list A) : list A := merge_loop (length a + length b) (rev a) (rev b) [].
(** [_merge], 13756-13823 *)
Fixpoint merge (fuel : nat) (sets : list (list A)) : list A :=
  match fuel with
  | O => []
  | S fuel =>
    match sets with
    | [] => []
    | [a] => a
    | [a; b] => merge2 a b
    | _ => let half := Nat.div2 (length sets) in
           merge2 (merge fuel (firstn half sets)) (merge fuel (skipn half sets))
    end
  end.
(** the constructor with [assume_sorted=False], 13731-13734 *)
Definition ordered_set (entries : list A) : list A := merge (length entries + 1) (map (fun x => [x]) entries).
(** the constructor with [assume_sorted="rotated"], 13722-13729 *)
Fixpoint min_index (best : A) (min i : nat) (l : list A) : nat :=
  match l with
  | [] => min
  | x :: l => if lt x best then min_index x i (S i) l else min_index best min (S i) l
  end.
Definition rotated_set (entries : list A) : list A :=
  match entries with
  | [] => []
  | x :: _ => let m := min_index x 0 0 entries in skipn m entries ++ firstn m entries
  end.
(** [triples(repeat=True)], 13976-14024 *)
Definition triples (l : list A) : list (A * A * A) :=
  match l with
  | [] => []
  | x :: t => combine (combine (last l x :: removelast l) l) (t ++ [x])
  end.
End OrderedSet.

Section HypSet.
Context {K : OField}.
Local Open Scope F_scope.
Local Open Scope res_scope.

(** [HyperbolicHalfSpaces._lt_], 14326-14440; the [assert] in line 14437 is not modelled: the equations of half spaces
    have a non-zero normal vector *)
Definition normal_points_left (b c : K) : bool := (b <? 0) || ((b =? 0) && (c <? 0)).
Definition hs_lt (l r : geo K) : bool :=
  let '(Geo a b c) := l in
  let '(Geo a' b' c') := r in
  if negb (eqb (normal_points_left b c) (normal_points_left b' c')) then normal_points_left b c
  else
    let by_offset :=
      if negb (c * c' =? 0) then (sgn c * sgn (a * c' - a' * c) <? 0)%Z
      else (sgn b * sgn (a * b' - a' * b) <? 0)%Z in
    if b * b' =? 0 then if b =? b' then by_offset else b' =? 0
    else
      let cmp := (sgn (b * b') * sgn (c * b' - c' * b))%Z in
      if (cmp =? 0)%Z then by_offset else (cmp <? 0)%Z.
(** [HyperbolicHalfSpaces(...)], sorted *)
Definition half_spaces_set (l : list (geo K)) : list (geo K) := ordered_set hs_lt l.

(** ** The intersection of half spaces *)
Inductive hyp_set :=
| HEmpty | HPoint (p : vec K) | HSegment (s : segment_set K) | HHalfSpace (h : geo K) | HPolygon (l : list (geo K)).

(** the test in [_normalize_drop_trivially_redundant], 10550-10555: the normal vectors have the same direction *)
Definition same_normal (l r : geo K) : bool :=
  (g_c l * g_b r =? g_c r * g_b l) && (sgn (g_b l) =? sgn (g_b r))%Z && (sgn (g_c l) =? sgn (g_c r))%Z.
(** [_normalize_drop_trivially_redundant], 10502-10569; [reduced] is reversed *)
Fixpoint drop_trivial (reduced l : list (geo K)) : list (geo K) :=
  match l with
  | [] => rev reduced
  | h :: l =>
    match reduced with
    | r :: _ => if same_normal h r then drop_trivial reduced l else drop_trivial (h :: reduced) l
    | [] => drop_trivial [h] l
    end
  end.

(** [point in half_space] for points with coordinates, see [half_space_contains] *)
Definition contains (h : geo K) (p : vec K) : bool := (0 <=? sgn (geo_eval h p))%Z.
(** the inner loop of [_normalize_euclidean_boundary], 11275-11322; [None] if there is no possible value. The
    sets of real numbers are intervals with optional bounds; the conversion to the real algebraic numbers (11299-11307)
    is not modelled. *)
Definition meet_above (x : K) (lo : option K) : option K :=
  match lo with None => Some x | Some y => Some (if x <? y then y else x) end.
Definition meet_below (x : K) (hi : option K) : option K :=
  match hi with None => Some x | Some y => Some (if x <? y then x else y) end.
Fixpoint constrain (boundary : geo K) (seen : list (geo K)) (lo hi : option K) : res (option (option K * option K)) :=
  match seen with
  | [] => Ok (Some (lo, hi))
  | h :: seen =>
    match intersection boundary h with
    | None =>
      p <- unparametrize boundary 0 ;;
      if contains h p then constrain boundary seen lo hi else Ok None
    | Some q =>
      l <- parametrize boundary q ;;
      p <- unparametrize boundary (l + 1) ;;
      let '(lo, hi) := if contains h p then (meet_above l lo, hi) else (lo, meet_below l hi) in
      match lo, hi with
      | Some x, Some y => if y <? x then Ok None else constrain boundary seen lo hi
      | _, _ => constrain boundary seen lo hi
      end
    end
  end.
Section Pick.
(** [RealSet.an_element] of SageMath: the choice of an element of an interval *)
Variable pick : option K -> option K -> K.
(** the outer loop, 11258-11327; [None] if the intersection is empty *)
Fixpoint find_point (seen rest : list (geo K)) (p : vec K) : res (option (vec K)) :=
  match rest with
  | [] => Ok (Some p)
  | h :: rest =>
    if contains h p then find_point (seen ++ [h]) rest p
    else
      c <- constrain h seen None None ;;
      match c with
      | None => Ok None
      | Some (lo, hi) => q <- unparametrize h (pick lo hi) ;; find_point (seen ++ [h]) rest q
      end
  end.
(** [_normalize_extend_to_euclidean_boundary], 11331-11388; [following] is the element after each half space *)
Fixpoint extend_loop (l : list (geo K * geo K)) (p : vec K) : res hyp_set :=
  match l with
  | [] => if is_ultra_ideal p then Ok HEmpty else Ok (HPoint p)
  | (h, following) :: l =>
    c <- configure h following ;;
    match c with
    | Convex => extend_loop l p
    | Negative | Concave => Ok (HHalfSpace h)
    | _ => Err NotImplementedError
    end
  end.
Definition extend_to_boundary (half_spaces : list (geo K)) (p : vec K) : res hyp_set :=
  match filter (fun h => geo_eval h p =? 0) half_spaces with
  | [] => Err ValueError
  | [h] | [h; _] => Ok (HHalfSpace h)
  | h :: t => extend_loop (combine (h :: t) (t ++ [h])) p
  end.
(** [_normalize_euclidean_boundary], 11071-11329; [shuffled] are the half spaces in the random order *)
Definition euclidean_boundary (half_spaces shuffled : list (geo K)) : res hyp_set :=
  match half_spaces, shuffled with
  | [], _ => Err ValueError
  | [h], _ => Ok (HHalfSpace h)
  | _, [] => Err IndexError
  | _, h :: _ =>
    p <- an_element h ;;
    o <- find_point [] shuffled p ;;
    match o with
    | None => Ok HEmpty
    | Some p => extend_to_boundary half_spaces p
    end
  end.
End Pick.

(** whether [B] is required in [_normalize_drop_euclidean_redundant], 10775-10813 *)
Definition is_required (A B C : geo K) : res bool :=
  AB <- configure A B ;;
  BC <- configure B C ;;
  AC <- configure A C ;;
  match AB with
  | Convex =>
    match BC with
    | Concave => match AC with Equal | Concave => Ok true | _ => Err AssertionError end
    | Convex =>
      match AC, intersection B C with
      | Negative, _ => Ok true
      | _, Some p => Ok (contains A p && negb (geo_eval A p =? 0))
      | _, None => Err AttributeError
      end
    | Negative | AntiParallel => Ok true
    | _ => Err NotImplementedError
    end
  | Negative | AntiParallel | Concave => Ok true
  | _ => Err NotImplementedError
  end.
(** the loop, 10764-10818; [required] is reversed and [first] is its first element; the list of half spaces is
    reversed in the code *)
Fixpoint drop_loop (fuel : nat) (first : geo K) (required half_spaces : list (geo K)) : res (list (geo K)) :=
  match fuel, required, half_spaces with
  | _, _, [] => Ok (rev required)
  | O, _, _ => Err Diverge
  | _, [], _ => Err IndexError
  | S fuel, A :: required', B :: rest =>
    b <- is_required A B (hd first rest) ;;
    if b then drop_loop fuel first (B :: required) rest
    else match required' with
         | [] => drop_loop fuel first required rest
         | _ => drop_loop fuel first required' (A :: rest)
         end
  end.
(** [list.index], with the equality of half spaces, 6314-6330 *)
Fixpoint index_of (h : geo K) (l : list (geo K)) (i : nat) : option nat :=
  match l with [] => None | x :: l => if geo_eqb true x h then Some i else index_of h l (S i) end.
(** [_normalize_drop_euclidean_redundant], 10571-10830 *)
Definition drop_euclidean_redundant (half_spaces : list (geo K)) (boundary : geo K) : res (list (geo K)) :=
  match index_of boundary half_spaces 0 with
  | None => Err ValueError
  | Some i =>
    match skipn i half_spaces ++ firstn i half_spaces with
    | [] => Err IndexError
    | h :: rest => r <- drop_loop (2 * length rest + 2) h [h] rest ;; Ok (rotated_set hs_lt r)
    end
  end.

Section Sqrt.
Variable sqrt : K -> option K.
(** [-segment], 13170-13189 and 8163-8178 *)
Definition seg_neg (s : segment_set K) : segment_set K :=
  match s with
  | SegGeodesic g => SegGeodesic (geo_neg g)
  | SegSegment g s e => SegSegment (geo_neg g) e s
  | _ => s
  end.
(** [vertices()] of a segment, 12859-12893, i.e., [HyperbolicVertices] (14117-14178) of its end points; at least one of
    them has coordinates. The entries are modelled by their coordinates (that are computed in line 14171), smaller ones
    first. *)
Definition vec_lt (p q : vec K) : bool := (fst p <? fst q) || ((fst p =? fst q) && (snd p <? snd q)).
Definition segment_vertices (g : geo K) (s e : option (vec K)) : res (vec K * vec K) :=
  p <- match s with Some p => Ok p | None => coordinates_klein sqrt (Start g) end ;;
  q <- match e with Some p => Ok p | None => coordinates_klein sqrt (Start (geo_neg g)) end ;;
  Ok (if vec_lt q p then (q, p) else (p, q)).
(** [==] of oriented segments, 12717-12743, and geodesics, 7426-7478 *)
Definition seg_eqb (s t : segment_set K) : res bool :=
  match s, t with
  | SegGeodesic f, SegGeodesic g => Ok (geo_eqb true f g)
  | SegSegment f s e, SegSegment g s' e' =>
    if geo_eqb true f g then
      v <- segment_vertices f s e ;; w <- segment_vertices g s' e' ;;
      Ok (veqb (fst v) (fst w) && veqb (snd v) (snd w))
    else Ok false
  | _, _ => Ok false
  end.
(** the variables [maybe_point] and [maybe_segment] of [_normalize_drop_unit_disk_redundant]: [True], [False] or a set *)
Inductive maybe (A : Type) := Unset | Found (x : A) | No.
Arguments Unset {A}. Arguments Found {A}. Arguments No {A}.
(** the loop, 10999-11047; [inl] is the early return of a segment *)
Fixpoint disk_loop (l : list (geo K * geo K * geo K)) (required : list (geo K)) (maybe_empty : bool)
  (maybe_point : maybe (vec K)) (maybe_segment : maybe (segment_set K)) :
  res (segment_set K + list (geo K) * bool * maybe (vec K)) :=
  match l with
  | [] => Ok (inr (rev required, maybe_empty, maybe_point))
  | (A, B, C) :: l =>
    AB <- configure A B ;;
    let AB := match AB with Concave => None | _ => intersection A B end in
    BC <- configure B C ;;
    let BC := match BC with Concave => None | _ => intersection B C end in
    segment <- segment_normalize B AB BC ;;
    match segment with
    | SegEmpty => disk_loop l required maybe_empty maybe_point maybe_segment
    | SegPoint p =>
      match maybe_point with
      | No => disk_loop l required false No maybe_segment
      | Unset => disk_loop l required false (Found p) maybe_segment
      | Found q =>
        if negb (veqb q p) then
          if is_finite q then Err AssertionError else if is_finite p then Err AssertionError
          else disk_loop l required false No maybe_segment
        else disk_loop l required false maybe_point maybe_segment
      end
    | _ =>
      match maybe_segment with
      | Unset => disk_loop l (B :: required) false No (Found segment)
      | Found s =>
        b <- seg_eqb s (seg_neg segment) ;;
        if b then Ok (inl segment) else disk_loop l (B :: required) false No No
      | No => disk_loop l (B :: required) false No No
      end
    end
  end.
(** [_normalize_drop_unit_disk_redundant], 10832-11069 *)
Definition drop_unit_disk_redundant (half_spaces : list (geo K)) : res hyp_set :=
  o <- disk_loop (triples half_spaces) [] true Unset Unset ;;
  match o with
  | inl s => Ok (HSegment s)
  | inr (_, true, _) => Ok HEmpty
  | inr (_, _, Found p) => Ok (HPoint p)
  | inr ([], _, Unset) => Err PyException (* [maybe_point] is [True]: not a set *)
  | inr (_, _, Unset) => Err PyException
  | inr ([], _, No) => Err NotImplementedError
  | inr ([h], _, No) => Ok (HHalfSpace h)
  | inr (l, _, No) => Ok (HPolygon l)
  end.
(** [_normalize], 10400-10500, of sorted half spaces; [shuffle] is the random permutation *)
Definition normalize (shuffle : list (geo K) -> list (geo K)) (pick : option K -> option K -> K) (half_spaces : list (geo K)) : res hyp_set :=
  let half_spaces := drop_trivial [] half_spaces in
  match half_spaces with
  | [] => Err NotImplementedError
  | _ =>
    b <- euclidean_boundary pick half_spaces (shuffle half_spaces) ;;
    match b with
    | HHalfSpace h => l <- drop_euclidean_redundant half_spaces h ;; drop_unit_disk_redundant l
    | _ => Ok b
    end
  end.
(** [HyperbolicPlane.polygon], 1723-1946, without marked vertices *)
Definition polygon shuffle pick (half_spaces : list (geo K)) : res hyp_set := normalize shuffle pick (half_spaces_set half_spaces).
(** the intersection of sets that are given by their (sorted) half spaces, 2161-2167 *)
Definition intersect_sets shuffle pick (subsets : list (list (geo K))) : res hyp_set :=
  normalize shuffle pick (fold_left (merge2 hs_lt) subsets []).
(** [half_spaces] of the sets: 13518-13538, 8986-9077, 7085-7101, 12647-12666, 6131-6148 and 11666-11692; points have
    coordinates *)
Definition empty_half_spaces : res (list (geo K)) :=
  f <- half_circle (- (2)) 1 ;; g <- half_circle (2) 1 ;; Ok (half_spaces_set [geo_neg f; geo_neg g]).
Definition set_half_spaces (x : hyp_set) : res (list (geo K)) :=
  match x with
  | HEmpty | HSegment SegEmpty => empty_half_spaces
  | HPoint p | HSegment (SegPoint p) => l <- point_half_spaces p ;; Ok (half_spaces_set l)
  | HSegment (SegGeodesic g) => Ok (half_spaces_set (geodesic_half_spaces g))
  | HSegment (SegSegment g s e) => Ok (merge2 hs_lt (half_spaces_set (geodesic_half_spaces g)) (half_spaces_set (endpoint_half_spaces g s e)))
  | HHalfSpace h => Ok [h]
  | HPolygon l => Ok l
  end.
(** [HyperbolicPlane.intersection], 2102-2167; [unoriented] is not modelled *)
Fixpoint all_half_spaces (subsets : list hyp_set) : res (list (list (geo K))) :=
  match subsets with
  | [] => Ok []
  | x :: subsets => l <- set_half_spaces x ;; m <- all_half_spaces subsets ;; Ok (l :: m)
  end.
Definition intersection_of shuffle pick (subsets : list hyp_set) : res hyp_set :=
  match subsets with
  | [] => Err NotImplementedError
  | [x] => Ok x
  | _ => l <- all_half_spaces subsets ;; intersect_sets shuffle pick l
  end.
End Sqrt.
(** [==] of ordered sets, 13825-13841, for half spaces (6314-6330), i.e., of polygons without marked vertices (11975-12002) *)
Fixpoint half_spaces_eqb (l m : list (geo K)) : bool :=
  match l, m with
  | [], [] => true
  | g :: l, h :: m => geo_eqb true g h && half_spaces_eqb l m
  | _, _ => false
  end.
End HypSet.
Arguments hyp_set K : clear implicits.
Arguments Unset {A}. Arguments Found {A}. Arguments No {A}.
