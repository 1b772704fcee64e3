(** Model of the fundamental group: flatsurf/geometry/fundamental_group.py.

    The surface is given by its number of vertices of polygons and by [opposite_edge]; edges are numbered from 0.
    Python's conversion [int(i)] and hashing are left out; [intersection] (31-68, 216-247) is not modelled. *)
From Coq Require Import List Bool ZArith Arith.
From Verif Require Import MBase MDict.
Import ListNotations.

Section G.
Context {L : Type} `{EqB L}.
(** [len(s.polygon(l).vertices())] and [s.opposite_edge(l, e)] *)
Variables (sides : L -> res nat) (opp : L -> nat -> res (option (L * nat))).
(** the base label, fundamental_group.py 302-306 *)
Variable base : L.

(** fundamental_group.py 76-80 *)
Record path := Path { polys_ : list L; edges_ : list nat; edges_rev : list nat }.

(** [l\[0\]] and [l\[-1\]]: IndexError on the empty list *)
Definition first (l : list L) : res L := match l with nil => Err IndexError | x :: _ => Ok x end.
Definition final (l : list L) : res L := first (rev l).

(** fundamental_group.py 148-155 *)
Definition path_check (x : path) : res unit :=
  if negb ((length (polys_ x) - 1 =? length (edges_ x))%nat && (length (edges_ x) =? length (edges_rev x))%nat) then Err ValueError
  else match first (polys_ x), final (polys_ x) with
       | Ok p, Ok q => passert (eqb p base && eqb base q)
       | Err e, _ => Err e
       | _, Err e => Err e
       end.
(** fundamental_group.py 76-85; [_reduce] does nothing (87-91) *)
Definition make_path (ps : list L) (es rs : list nat) : res path :=
  match path_check (Path ps es rs) with Ok _ => Ok (Path ps es rs) | Err e => Err e end.

(** fundamental_group.py 106-125: equality; both elements have the same parent *)
Fixpoint leqb {A} (e : A -> A -> bool) (l l' : list A) : bool :=
  match l, l' with nil, nil => true | x :: l, y :: l' => e x y && leqb e l l' | _, _ => false end.
Definition path_eqb (x y : path) : bool := leqb eqb (polys_ x) (polys_ y) && leqb Nat.eqb (edges_ x) (edges_ y).

(** fundamental_group.py 157-158 *)
Definition is_one (x : path) : bool := match edges_ x with nil => true | _ => false end.
(** fundamental_group.py 347-349 *)
Definition one : path := Path [base] nil nil.

(** fundamental_group.py 186-188: the number of steps that are cancelled *)
Fixpoint cancelled (se_rev oe_r : list nat) : nat :=
  match se_rev, oe_r with
  | e :: se_rev, f :: oe_r => if (e =? f)%nat then S (cancelled se_rev oe_r) else 0%nat
  | _, _ => 0%nat
  end.
(** fundamental_group.py 165-196; [return None] is an error here: it cannot happen for elements of the group *)
Definition mul (x y : path) : res path :=
  let '(Path sp se se_r) := x in
  let '(Path op oe oe_r) := y in
  match final sp, first op with
  | Ok p, Ok q =>
    if negb (eqb p q) then Err TypeError else
    let i := cancelled (rev se) oe_r in
    make_path (firstn (length sp - i) sp ++ skipn (i + 1) op) (firstn (length se - i) se ++ skipn i oe)
      (firstn (length se_r - i) se_r ++ skipn i oe_r)
  | Err e, _ => Err e
  | _, Err e => Err e
  end.
(** fundamental_group.py 198-214 *)
Definition invert (x : path) : res path := make_path (rev (polys_ x)) (rev (edges_rev x)) (rev (edges_ x)).

(** fundamental_group.py 310-342 for nonnegative numbers (polygons have at least one side, so [mod] is Python's) *)
Fixpoint follow (p : L) (is : list nat) : res (list L * list nat * list nat) :=
  match is with
  | nil => Ok ([p], nil, nil)
  | i :: is =>
    match sides p with
    | Err e => Err e
    | Ok n =>
      match opp p (i mod n)%nat with
      | Err e => Err e
      | Ok None => Err TypeError
      | Ok (Some (q, j)) =>
        match follow q is with
        | Err e => Err e
        | Ok (ps, es, rs) => Ok (p :: ps, (i mod n)%nat :: es, j :: rs)
        end
      end
    end
  end.
Definition element (is : list nat) : res path :=
  match follow base is with Err e => Err e | Ok (ps, es, rs) => make_path ps es rs end.

(** fundamental_group.py 369-416: the spanning tree, [tree\[p\] = (q, e, e_back)] *)
Definition tree := dict L (option (L * nat * nat)).
(** fundamental_group.py 372-374, 410-413: the edges of the polygon [p] among [es] are pushed on the stack [wait];
    the end of the Python list is the head here *)
Fixpoint push (p : L) (es : list nat) (wait : list ((L * nat) * (L * nat))) : res (list ((L * nat) * (L * nat))) :=
  match es with
  | nil => Ok wait
  | e :: es =>
    match opp p e with
    | Err x => Err x
    | Ok None => Err TypeError
    | Ok (Some b) => push p es ((b, (p, e)) :: wait)
    end
  end.
(** fundamental_group.py 385-390 and 399-404: the values of [tree] from [p] to the root; the fuel is the size of the tree *)
Fixpoint climb (fuel : nat) (t : tree) (p : L) : res (list (L * nat * nat)) :=
  match fuel with
  | O => Err Diverge
  | S fuel =>
    match dget p t with
    | None => Err KeyError
    | Some None => Ok nil
    | Some (Some (q, e, eb)) => match climb fuel t q with Ok l => Ok ((q, e, eb) :: l) | Err x => Err x end
    end
  end.
Definition t_par (x : L * nat * nat) : L := fst (fst x).
Definition t_edge (x : L * nat * nat) : nat := snd (fst x).
Definition t_back (x : L * nat * nat) : nat := snd x.
(** fundamental_group.py 381-406 and 416 *)
Definition cycle (t : tree) (a b : L * nat) : res path :=
  match climb (length t) t (fst a), climb (length t) t (fst b) with
  | Ok l1, Ok l2 =>
    make_path (rev (fst a :: map t_par l1) ++ fst b :: map t_par l2)
      (rev (map t_back l1) ++ snd a :: map t_edge l2)
      (rev (map t_edge l1) ++ snd b :: map t_back l2)
  | Err x, _ => Err x
  | _, Err x => Err x
  end.
(** comparison of (label, edge) pairs, used by [gens] *)
Variable gtb : L * nat -> L * nat -> bool.
(** fundamental_group.py 375-413; the final sort is left out (it changes the order only), the elements are built
    when the cycles are found and not at the end *)
Fixpoint gens_loop (fuel : nat) (t : tree) (wait : list ((L * nat) * (L * nat))) (basis : list path) : res (list path) :=
  match wait with
  | nil => Ok basis
  | (a, b) :: wait =>
    match fuel with
    | O => Err Diverge
    | S fuel =>
      if negb (dmem (fst b) t) then Err AssertionError
      else if dmem (fst a) t then
        if gtb a b then gens_loop fuel t wait basis
        else match cycle t a b with Ok x => gens_loop fuel t wait (basis ++ [x]) | Err x => Err x end
      else
        match sides (fst a) with
        | Err x => Err x
        | Ok n =>
          match push (fst a) (filter (fun e => negb (e =? snd a)%nat) (seq 0 n)) wait with
          | Err x => Err x
          | Ok wait => gens_loop fuel (dset (fst a) (Some (fst b, snd a, snd b)) t) wait basis
          end
        end
    end
  end.
(** fundamental_group.py 352-416 *)
Definition gens (fuel : nat) : res (list path) :=
  match sides base with
  | Err x => Err x
  | Ok n =>
    match push base (seq 0 n) nil with
    | Err x => Err x
    | Ok wait => gens_loop fuel [(base, None)] wait nil
    end
  end.
End G.
