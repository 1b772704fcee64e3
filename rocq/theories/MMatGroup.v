(** Model of flatsurf/geometry/finitely_generated_matrix_group.py. *)
From Coq Require Import List Bool Arith ZArith.
From Verif Require Import OField MBase MSim MDict.
Import ListNotations.

#[global] Program Instance EqB_mat {K : OField} : EqB (mat K) := {| eqb := mat_eqb |}.
Next Obligation.
  destruct x as [a b c d], y as [a' b' c' d']. unfold mat_eqb. rewrite !andb_true_iff. cbn. split.
  - intros [[[E1 E2] E3] E4]. apply feqb_eq in E1, E2, E3, E4. now subst.
  - injection 1 as -> -> -> ->. repeat split; now apply feqb_eq.
Qed.

Section M.
Context {K : OField}.
Local Open Scope F_scope.
Implicit Types (m g p : mat K) (gens wait : list (mat K)).

(** [g.inverse()] of Sage: raises for singular matrices *)
Definition inverse g : res (mat K) := if mdet g =? 0 then Err ZeroDivisionError else Ok (minv g).

(** 258-284: [is_abelian] *)
Definition is_abelian gens : bool := forallb (fun a => forallb (fun b => mat_eqb (mmul a b) (mmul b a)) gens) gens.

(** the state of the generator 371-386: what has been yielded, the set [s], and [wait] *)
Notation istate := (list (mat K) * list (mat K) * list (mat K))%type.
(** 381-386 *)
Definition visit (st : istate) m : istate :=
  let '(ys, s, wait) := st in if mem m s then st else (ys ++ [m], s ++ [m], wait ++ [m]).
(** 380-386: the inner loops for the element [p] *)
Fixpoint expand p gens (st : istate) : res istate :=
  match gens with
  | nil => Ok st
  | g :: gens => (gi <- inverse g ;; expand p gens (fold_left visit [mmul p g; mmul p gi; mmul g p; mmul gi p] st))%res
  end.
(** 375-386: [n] rounds of the loop *)
Fixpoint loop n gens (st : istate) : res istate :=
  match n with
  | 0%nat => Ok st
  | S n =>
    let '(ys, s, wait) := st in
    match wait with
    | nil => Ok st
    | p :: wait => (st' <- expand p gens (if mem p s then (ys, s, wait) else (ys ++ [p], s ++ [p], wait)) ;; loop n gens st')%res
    end
  end.
(** 371-386: [__iter__]; what has been yielded after [n] rounds and what is waiting *)
Definition iter n gens : res (list (mat K) * list (mat K)) :=
  ('(ys, s, wait) <- loop n gens ([mone], [mone], gens) ;; Ok (ys, wait))%res.

(** ** is_finite *)
Definition mtrace m : K := m00 m + m11 m.
(** Sage: [m.is_scalar()] *)
Definition is_scalar m : bool := (m01 m =? 0) && (m10 m =? 0) && (m00 m =? m11 m).
(** a vector of length 3; quadratic forms are written as (a, c, b), see 163 and the example in 82-85 *)
Definition vec3 : Type := (K * K * K)%type.
Definition dot3 (u v : vec3) : K := let '(u1, u2, u3) := u in let '(v1, v2, v3) := v in u1 * v1 + u2 * v2 + u3 * v3.
(** 116-140: the rows of the matrix whose kernel is returned; [is_unit] is "not zero" in a field *)
Definition form_rows m : res (list vec3) :=
  if is_scalar m then Err ValueError else
  let s := mdet m in
  if s =? 0 then Err ValueError else
  let '(Mat a b c d) := m in
  Ok [(a - s * d, 0, (1 + s) * c); (s * b, c, (1 - s) * a); (b, s * c, (1 - s) * d); (0, d - s * a, (1 + s) * b)].
(** 144-184: [contains_definite_form], the argument is the list of the generators [V.gen(i)] *)
Definition contains_definite_form (V : list vec3) : res bool :=
  match V with
  | nil => Ok false
  | [(a, c, b)] => Ok (b * b <? a * c)
  | [(a1, c1, b1); (a2, c2, b2)] =>
    if (b1 * b1 <? a1 * c1) || (b2 * b2 <? a2 * c2) then Ok true else
    let t := (1 + 1) * b1 * b2 - a2 * c1 - a1 * c2 in
    Ok (0 <? t * t - (1 + 1) * (1 + 1) * (b1 * b1 - a1 * c1) * (b2 * b2 - a2 * c2))
  | [_; _; _] => Ok true
  | _ => Err PyException
  end.
(** absolute value *)
Definition mabs (x : K) : K := if x <? 0 then - x else x.
(** 340-346 *)
Definition bad_generator m : bool :=
  (negb (mdet m =? 1) && negb (mdet m =? - (1))) || (1 + 1 <? mabs (mtrace m)) ||
  ((mabs (mtrace m) =? 1 + 1) && (negb (m01 m =? 0) || negb (m10 m =? 0))).
(** 357-362; Sage computes the generators of the space [V] of solutions of the equations collected so far, which is
    the parameter [gens_of] *)
Fixpoint form_loop (gens_of : list vec3 -> list vec3) (rows : list vec3) gens : res bool :=
  match gens with
  | nil => Ok true
  | g :: gens => (r <- form_rows g ;; b <- contains_definite_form (gens_of (rows ++ r)) ;;
                  if b then form_loop gens_of (rows ++ r) gens else Ok false)%res
  end.
(** 295-362: [is_finite] *)
Definition is_finite (gens_of : list vec3 -> list vec3) gens : res bool :=
  if existsb bad_generator gens then Ok false else
  let gs := filter (fun g => negb (is_scalar g)) gens in
  if (length gs <=? 1)%nat then Ok true else form_loop gens_of nil gs.

(** Linear algebra as in Sage, one way to compute the generators: begin with the unit vectors and intersect with one
    equation after the other *)
Definition sub3 (u v : vec3) r : vec3 := let '(u1, u2, u3) := u in let '(v1, v2, v3) := v in (u1 - r * v1, u2 - r * v2, u3 - r * v3).
Fixpoint cut (row : vec3) (pre V : list vec3) : list vec3 :=
  match V with
  | nil => pre
  | v :: V => if dot3 row v =? 0 then cut row (pre ++ [v]) V
              else pre ++ map (fun u => sub3 u v (dot3 row u / dot3 row v)) V
  end.
Definition kernel (rows : list vec3) : list vec3 := fold_left (fun V row => cut row nil V) rows [(1, 0, 0); (0, 1, 0); (0, 0, 1)].
End M.
