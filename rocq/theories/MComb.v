(** Finite glued surfaces as seen by the purely combinatorial algorithms: a list of labels, the number of edges
    of each polygon and the gluing of the edges. Also the Euler characteristic and the genus of
    flatsurf/geometry/categories/polygonal_surfaces.py. *)
From Coq Require Import List Bool ZArith Arith QArith.
From Verif Require Import OField MBase MDict MSurf MPoly.
Import ListNotations.
Local Open Scope nat_scope.
Local Open Scope res_scope.

(** what [labels()], [len(polygon(l).vertices())] and [opposite_edge] answer on a finite surface; the
    exceptions that these methods can raise (no such label, no such edge) do not happen below because only the
    labels and edges that the surface lists are asked for (C08, C12) *)
Record csurf (L : Type) := CSurf {
  c_labels : list L;
  c_nv : L -> nat;
  c_opp : L * nat -> option (L * nat) }.
Arguments CSurf {L}. Arguments c_labels {L}. Arguments c_nv {L}. Arguments c_opp {L}.

Section C.
Context {L : Type} `{EqB L}.
Implicit Types S : csurf L.
Notation dart := (L * nat)%type.

(** surface.py 3071-3074: [edges()] *)
Definition darts S : list dart :=
  concat (map (fun l => map (fun e => (l, e)) (seq 0 (c_nv S l))) (c_labels S)).
(** [(label, (edge - 1) % n)] and [(label, (edge + 1) % n)] *)
Definition dprev S (d : dart) : dart := (fst d, (snd d + c_nv S (fst d) - 1) mod c_nv S (fst d)).
Definition dnext S (d : dart) : dart := (fst d, (snd d + 1) mod c_nv S (fst d)).

(** polygonal_surfaces.py 1175-1180: [find] with path compression; [union_find] is the dictionary. The fuel
    replaces the recursion of Python (whose depth limit is not modelled). *)
Fixpoint uf_find (fuel : nat) (uf : dict dart dart) (x : dart) : res (dict dart dart * dart) :=
  match fuel with
  | O => Err Diverge
  | Datatypes.S fuel =>
    p <- dgetE x uf ;;
    if eqb p x then Ok (uf, x)
    else 'y <- uf_find fuel uf p ;; Ok (dset x (snd y) (fst y), snd y)
  end.
Definition find uf x := uf_find (length uf + 1) uf x.
(** polygonal_surfaces.py 1182-1188; the right hand side of the assignment is evaluated first *)
Definition uf_union S (uf : dict dart dart) (d : dart) : res (dict dart dart) :=
  match c_opp S (dprev S d) with
  | None => Ok uf
  | Some cross =>
    'y <- find uf cross ;;
    'z <- find (fst y) d ;;
    Ok (dset (snd z) (snd y) (fst z))
  end.
Fixpoint uf_loop S (uf : dict dart dart) (ds : list dart) : res (dict dart dart) :=
  match ds with nil => Ok uf | d :: ds => uf' <- uf_union S uf d ;; uf_loop S uf' ds end.
(** polygonal_surfaces.py 1190: the set comprehension; [find] keeps compressing paths *)
Fixpoint uf_collect (uf : dict dart dart) (ds : list dart) (found : list dart) : res (list dart) :=
  match ds with
  | nil => Ok found
  | d :: ds => 'y <- find uf d ;; uf_collect (fst y) ds (if mem (snd y) found then found else snd y :: found)
  end.
Definition count_corners S : res nat :=
  let es := darts S in
  uf <- uf_loop S (map (fun d => (d, d)) es) es ;;
  vs <- uf_collect uf es nil ;;
  Ok (length vs).

(** polygonal_surfaces.py 1195-1203: [E] as a rational number and the increment of [V] *)
Fixpoint count_edges S (ds : list dart) (E : Q) (V : nat) : Q * nat :=
  match ds with
  | nil => (E, V)
  | d :: ds =>
    match c_opp S d with
    | None => count_edges S ds (Qred (E + 1)) V
    | Some c => if eqb c d then count_edges S ds (Qred (E + 1)) (V + 1) else count_edges S ds (Qred (E + (1 # 2))) V
    end
  end.

(** polygonal_surfaces.py 1160-1209; [E in ZZ] is tested on the reduced fraction *)
Definition euler_characteristic S : res Z :=
  V <- count_corners S ;;
  let EV := count_edges S (darts S) 0%Q V in
  _ <- passert (Pos.eqb (Qden (fst EV)) 1) ;;
  Ok (Z.of_nat (snd EV) - Qnum (fst EV) + Z.of_nat (length (c_labels S)))%Z.

(** polygonal_surfaces.py 1434-1458, a rational number *)
Definition genus S : res Q := chi <- euler_characteristic S ;; Ok (Qred (1 - inject_Z chi / 2)).

(** the combinatorial surface of a similarity surface with finitely many labels *)
Definition csurf_of {K : OField} (S : surface K L) (labels : list L) : csurf L :=
  CSurf labels
    (fun l => match s_poly S l with Ok P => length P | Err _ => O end)
    (fun d => match s_opp S (fst d) (snd d) with Ok o => o | Err _ => None end).
End C.
