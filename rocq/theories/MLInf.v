(** Model of flatsurf/geometry/l_infinity_delaunay_cells.py: cells of the L-infinity Delaunay triangulation.

    Faces and edges are natural numbers. A linear form is a list of [dim + 1] numbers, the constant first; it is modelled by
    the function that returns the entry at an index. A polyhedron is given by its equations and inequalities. *)
From Coq Require Import List Bool ZArith Arith.
From Verif Require Import OField MBase MDict MTV.
Import ListNotations.
Local Open Scope res_scope.

(** 32-37 *)
Definition V_NONE := 0%Z.
Definition V_LEFT := 1%Z.
Definition V_RIGHT := 2%Z.
Definition V_BOT := 3%Z.
Definition V_TOP := 4%Z.

(** 154-159: [_n], [_edge_identifications], [_edge_types] *)
Record linf := LI { li_n : nat; li_id : dict (nat * nat) (nat * nat); li_types : list (list Z) }.
Definition li_edges (n : nat) : list (nat * nat) := flat_map (fun p => map (pair p) [0; 1; 2]) (seq 0 n).
(** [self._edge_types[p][e]] *)
Definition typ (t : linf) (p e : nat) : res Z := row <- lgetE (li_types t) (Z.of_nat p) ;; lgetE row (Z.of_nat e).
Definition count (f : Z -> bool) (l : list Z) : nat := length (filter f l).
(** 163-206; the sorted list of keys of a dictionary is the list of all edges if and only if it has as many keys and all
    edges are keys. The test of the type of [_edge_types] is not modelled. *)
Definition li_check (t : linf) : res unit :=
  if negb (Nat.even (li_n t)) then Err ValueError else
  if negb ((length (li_id t) =? 3 * li_n t) && forallb (fun q => dmem q (li_id t)) (li_edges (li_n t))) then Err ValueError else
  if negb (length (li_types t) =? li_n t) then Err ValueError else
  if negb (forallb (fun row => (length row =? 3) && forallb (fun v => mem v [V_NONE; V_LEFT; V_RIGHT; V_BOT; V_TOP]) row) (li_types t)) then Err ValueError else
  if negb (forallb (fun row => (count (fun v => (v =? V_LEFT)%Z || (v =? V_RIGHT)%Z) row =? 1) && (count (fun v => (v =? V_BOT)%Z || (v =? V_TOP)%Z) row =? 1)) (li_types t))
  then Err ValueError else Ok tt.
(** 154-161 *)
Definition make_linf (n : nat) (id : dict (nat * nat) (nat * nat)) (types : list (list Z)) : res linf := let t := LI n id types in _ <- li_check t ;; Ok t.
(** 214-215 *)
Definition li_opposite (t : linf) (p e : nat) : res (nat * nat) := dgetE (p, e) (li_id t).
(** 220-245 and 247-272, which only differ in the two types *)
Definition li_pairs (from to : Z) (t : linf) : res (list (nat * nat * nat * nat)) :=
  l <- rmap (fun pe =>
    let '(p1, e1) := pe in
    ty <- typ t p1 e1 ;;
    if (ty =? from)%Z then
      q <- li_opposite t p1 ((e1 + 1) mod 3) ;;
      let '(p2, e2) := q in
      let e2m1 := (e2 + 2) mod 3 in
      ty2 <- typ t p2 e2m1 ;;
      Ok (if (ty2 =? to)%Z then [(p1, e1, p2, e2m1)] else [])
    else Ok []) (li_edges (li_n t)) ;;
  Ok (concat l).
Definition bottom_top_pairs := li_pairs V_BOT V_TOP.
Definition right_left_pairs := li_pairs V_RIGHT V_LEFT.

Section M.
Context {K : OField}.
Local Open Scope F_scope.
Definition form := nat -> K.
Definition set_entry (f : form) (i : nat) (c : K) : form := fun j => if (j =? i)%nat then c else f j.
(** [linear = [0] * (dim + 1)] followed by assignments to entries *)
Definition linear (dim : nat) (l : list (nat * K)) : res form :=
  if forallb (fun p => (fst p <=? dim)%nat) l then Ok (fold_left (fun f p => set_entry f (fst p) (snd p)) l (fun _ => 0)) else Err IndexError.
(** the value of a linear form at a point *)
Definition form_eval (dim : nat) (f : form) (x : nat -> K) : K := f 0%nat + sumn dim (fun i => f (S i) * x i).
(** 40-69 *)
Definition sign_and_norm_conditions (dim i : nat) (s : option K) : res (list form) :=
  match s with
  | None => Err TypeError
  | Some s => a <- linear dim [((i + 1)%nat, s)] ;; b <- linear dim [((i + 1)%nat, - s); (0%nat, 1)] ;; Ok [a; b]
  end.
(** 72-98 *)
Definition opposite_condition (dim i j : nat) : res form := linear dim [((i + 1)%nat, 1); ((j + 1)%nat, 1)].
(** 101-118 *)
Definition bottom_top_delaunay_condition (dim p1 e1 p2 e2 : nat) : res form :=
  let e2m1 := ((e2 + 2) mod 3)%nat in
  let e2p1 := ((e2 + 1) mod 3)%nat in
  let im_e2m1 := (2 * (3 * p2 + e2m1) + 1)%nat in
  let re_e2p1 := (2 * (3 * p2 + e2p1))%nat in
  let im_e1 := (2 * (3 * p1 + e1) + 1)%nat in
  linear dim [((im_e1 + 1)%nat, 1); ((im_e2m1 + 1)%nat, 1); ((re_e2p1 + 1)%nat, - (1))].
(** 121-138 *)
Definition right_left_delaunay_condition (dim p1 e1 p2 e2 : nat) : res form :=
  let e1m1 := ((e1 + 2) mod 3)%nat in
  let e2p1 := ((e2 + 1) mod 3)%nat in
  let im_e2p1 := (3 * (p2 + e2p1) + 1)%nat in
  let re_e2 := (3 * (p2 + e2))%nat in
  let re_e1m1 := (3 * (p1 + e1m1))%nat in
  linear dim [((re_e2 + 1)%nat, 1); ((re_e1m1 + 1)%nat, 1); ((im_e2p1 + 1)%nat, - (1))].
(** 292-304 *)
Definition closing_conditions (dim p : nat) : res (list form) :=
  a <- linear dim [((6 * p + 1)%nat, 1); ((6 * p + 3)%nat, 1); ((6 * p + 5)%nat, 1)] ;;
  b <- linear dim [((6 * p + 2)%nat, 1); ((6 * p + 4)%nat, 1); ((6 * p + 6)%nat, 1)] ;; Ok [a; b].
(** 306-316 *)
Definition opposite_conditions (t : linf) (dim p1 e1 : nat) : res (list form) :=
  q <- li_opposite t p1 e1 ;;
  let '(p2, e2) := q in
  let re1 := (2 * (3 * p1 + e1))%nat in
  let im1 := (2 * (3 * p1 + e1) + 1)%nat in
  let re2 := (2 * (3 * p2 + e2))%nat in
  let im2 := (2 * (3 * p2 + e2) + 1)%nat in
  if (re1 <? re2)%nat then a <- opposite_condition dim re1 re2 ;; b <- opposite_condition dim im1 im2 ;; Ok [a; b] else Ok [].
(** 319-341; the list [signs] is a function, all its indices are in range *)
Definition set_sign (s : nat -> option K) (i : nat) (c : K) : nat -> option K := fun j => if (j =? i)%nat then Some c else s j.
Definition sign_step (t : linf) (p e1 e2 : nat) (s : nat -> option K) : res (nat -> option K) :=
  ty <- typ t p e2 ;;
  let re1 := (2 * (3 * p + e1))%nat in
  let im1 := (2 * (3 * p + e1) + 1)%nat in
  let re2 := (2 * (3 * p + e2))%nat in
  let im2 := (2 * (3 * p + e2) + 1)%nat in
  Ok (if (ty =? V_BOT)%Z then set_sign (set_sign (set_sign (set_sign s re1 1) re2 1) im1 (- (1))) im2 1
      else if (ty =? V_TOP)%Z then set_sign (set_sign (set_sign (set_sign s re1 (- (1))) re2 (- (1))) im1 1) im2 (- (1))
      else if (ty =? V_RIGHT)%Z then set_sign (set_sign (set_sign (set_sign s re1 1) re2 (- (1))) im1 1) im2 1
      else if (ty =? V_LEFT)%Z then set_sign (set_sign (set_sign (set_sign s re1 (- (1))) re2 1) im1 (- (1))) im2 (- (1))
      else s).
Definition sign_triangle (t : linf) (p : nat) (s : nat -> option K) : res (nat -> option K) :=
  s <- sign_step t p 2 0 s ;; s <- sign_step t p 0 1 s ;; sign_step t p 1 2 s.
Fixpoint sign_loop (t : linf) (ps : list nat) (s : nat -> option K) : res (nat -> option K) :=
  match ps with [] => Ok s | p :: ps => s <- sign_triangle t p s ;; sign_loop t ps s end.
(** 274-358: the equations; the inequalities for the types; the inequalities for the pairs *)
Definition li_dim (t : linf) : nat := 4 * (3 * li_n t / 2).
Definition li_eqns (t : linf) : res (list form) :=
  a <- rmap (closing_conditions (li_dim t)) (seq 0 (li_n t)) ;;
  b <- rmap (fun pe => opposite_conditions t (li_dim t) (fst pe) (snd pe)) (li_edges (li_n t)) ;; Ok (concat a ++ concat b).
Definition li_signs (t : linf) : res (list form) :=
  s <- sign_loop t (seq 0 (li_n t)) (fun _ => None) ;;
  l <- rmap (fun i => sign_and_norm_conditions (li_dim t) i (s i)) (seq 0 (li_dim t)) ;; Ok (concat l).
Definition li_bottom_top (t : linf) : res (list form) :=
  l <- bottom_top_pairs t ;; rmap (fun q => let '(p1, e1, p2, e2) := q in bottom_top_delaunay_condition (li_dim t) p1 e1 p2 e2) l.
Definition li_right_left (t : linf) : res (list form) :=
  l <- right_left_pairs t ;; rmap (fun q => let '(p1, e1, p2, e2) := q in right_left_delaunay_condition (li_dim t) p1 e1 p2 e2) l.
Definition li_polytope (t : linf) : res (list form * list form) :=
  eqns <- li_eqns t ;; a <- li_signs t ;; b <- li_bottom_top t ;; c <- li_right_left t ;; Ok (eqns, a ++ b ++ c).
(** the points of [Polyhedron(ieqs=ieqs, eqns=eqns)] *)
Definition in_polyhedron (dim : nat) (eqns ieqs : list form) (x : nat -> K) : Prop :=
  (forall f, In f eqns -> form_eval dim f x = 0) /\ (forall f, In f ieqs -> 0 <= form_eval dim f x).
End M.
