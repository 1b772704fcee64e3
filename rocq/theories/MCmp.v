(** Model of the comparison of polygons and surfaces: polygon.py 383-416, surface.py 2078-2162 and
    categories/euclidean_polygons.py 2375-2550. *)
From Coq Require Import List Bool ZArith Arith.
From Verif Require Import OField MBase MEuclid MSim MPoly MSurf MDict.
Import ListNotations.

Section M.
Context {K : OField}.
Local Open Scope F_scope.
Implicit Types P Q : polygon K.

(** the sign of a difference, as in polygon.py 398-402 *)
Definition sign_of (x : K) : Z := if 0 <? x then 1%Z else if x <? 0 then (-1)%Z else 0%Z.
(** the sign of a difference of integers, as in polygon.py 393-397 and surface.py 2122 *)
Definition sign_nat (m n : nat) : Z := if (n <? m)%nat then 1%Z else if (m <? n)%nat then (-1)%Z else 0%Z.
(** [ret = a; if ret != 0: return ret; return b] *)
Definition orelse (a b : Z) : Z := if (a =? 0)%Z then b else a.
(** polygon.py 383-416: [cmp]; the base rings are the same *)
Definition poly_cmp P Q : Z :=
  orelse (sign_nat (length P) (length Q))
  (orelse (sign_of (area P - area Q))
  (fold_right (fun v r => orelse (sign_of (fst (vertex P v) - fst (vertex Q v))) (orelse (sign_of (snd (vertex P v) - snd (vertex Q v))) r))
     0%Z (seq 1 (length P - 1)))).

Context {L : Type} `{EL : EqB L}.
Implicit Types S T : surface K L.
(** [labels.index(l)] *)
Fixpoint index_of (l : L) (ls : list L) : res nat :=
  match ls with nil => Err ValueError | x :: ls => if eqb l x then Ok 0%nat else (i <- index_of l ls ;; Ok (Datatypes.S i))%res end.
Definition orelse_r (a : res Z) (b : res Z) : res Z := (x <- a ;; if (x =? 0)%Z then b else Ok x)%res.
(** [ll, e = s.opposite_edge(l, e)]; TypeError when the edge is not glued *)
Definition opp_or_type_error S l e : res (L * nat) := (o <- s_opp S l e ;; match o with Some y => Ok y | None => Err TypeError end)%res.
(** surface.py 2117-2128: the edge [e] of [l1] in [S] and of [l2] in [T] *)
Definition cmp_edge S T labels1 labels2 l1 l2 e : res Z :=
  ('y1 <- opp_or_type_error S l1 e ;; 'y2 <- opp_or_type_error T l2 e ;;
   n1 <- index_of (fst y1) labels1 ;; n2 <- index_of (fst y2) labels2 ;;
   Ok (orelse (sign_nat n1 n2) (sign_nat (snd y1) (snd y2))))%res.
(** surface.py 2112-2130: the loops over the pairs of labels; both polygons are polygons of [S] (line 2113) *)
Fixpoint cmp_loop S T labels1 labels2 (ps : list (L * L)) : res Z :=
  match ps with
  | nil => Ok 0%Z
  | (l1, l2) :: ps =>
    (P1 <- s_poly S l1 ;; P2 <- s_poly S l2 ;;
     orelse_r (Ok (poly_cmp P1 P2))
     (fold_right (fun e r => orelse_r (cmp_edge S T labels1 labels2 l1 l2 e) r) (cmp_loop S T labels1 labels2 ps) (seq 0 (length P1))))%res
  end.
(** surface.py 2095-2130: [cmp] of surfaces of finite type without the deprecated [limit]; [labels1] and [labels2] are
    the labels in the order of iteration *)
Definition surf_cmp S T labels1 labels2 : res Z :=
  orelse_r (Ok (sign_nat (length labels1) (length labels2))) (cmp_loop S T labels1 labels2 (combine labels1 labels2)).

(** ** isometries *)
(** what the methods return: a truth value, or a pair of a truth value and a certificate *)
Inductive answer := Bare (b : bool) | With (b : bool) (c : option (nat * mat K)).
(** [l.append(l.pop(0))] *)
Definition rotl {A} (l : list A) : list A := match l with nil => nil | x :: l => l ++ [x] end.
Definition lengths2 (es : list (vec K)) : list K := map (fun v => fst v * fst v + snd v * snd v) es.
Fixpoint list_eqb {A} (eq : A -> A -> bool) (l l' : list A) : bool :=
  match l, l' with nil, nil => true | x :: l, y :: l' => eq x y && list_eqb eq l l' | _, _ => false end.
(** 2439-2457: the rounds of the loop; [Some] when there is a match in the round [i]. The matrix [~ms] is the inverse *)
Fixpoint iso_loop (fuel i : nat) (sedges oedges : list (vec K)) : res (option (nat * mat K)) :=
  match fuel with
  | 0%nat => Ok None
  | Datatypes.S fuel =>
    let next := iso_loop fuel (Datatypes.S i) sedges (rotl oedges) in
    if list_eqb feqb (lengths2 sedges) (lengths2 oedges) then
      let s0 := hd vzero sedges in
      let o0 := hd vzero oedges in
      let rot := mmul (Mat (fst o0) (- snd o0) (snd o0) (fst o0)) (minv (Mat (fst s0) (- snd s0) (snd s0) (fst s0))) in
      (_ <- passert ((mdet rot =? 1) && mat_eqb (mmul rot (mtrans rot)) mone) ;;
       _ <- passert (veqb o0 (mapply rot s0)) ;;
       if list_eqb veqb (tl oedges) (map (mapply rot) (tl sedges)) then Ok (Some (i, rot)) else next)%res
    else next
  end.
(** 2375-2461: [is_isometric] of a convex polygon *)
Definition is_isometric P Q (certificate : bool) : res answer :=
  if negb (is_convex false Q) then Err TypeError else
  let n := length P in
  if negb (length Q =? n)%nat then Ok (Bare false) else
  (r <- iso_loop n 0 (edges P) (edges Q) ;;
   Ok match r with
      | Some (i, rot) => if certificate then With true (Some (if (i =? 0)%nat then 0%nat else (n - i)%nat, rot)) else Bare true
      | None => if certificate then With false None else Bare false
      end)%res.
(** 2489-2502 and 2535-2538: the first shift that makes the lists of edges equal *)
Fixpoint shift_loop (fuel i : nat) (sedges oedges : list (vec K)) : option nat :=
  match fuel with
  | 0%nat => None
  | Datatypes.S fuel => if list_eqb veqb sedges oedges then Some i else shift_loop fuel (Datatypes.S i) sedges (rotl oedges)
  end.
(** 2463-2503: [is_translate]; the number 1 in the certificate is the identity matrix *)
Definition is_translate P Q (certificate : bool) : answer :=
  let n := length P in
  if negb (length Q =? n)%nat then Bare false else
  match shift_loop n 0 (edges P) (edges Q) with
  | Some i => if certificate then With true (Some (i, mone)) else Bare true
  | None => if certificate then With false None else Bare false
  end.
(** 2505-2560: [is_half_translate]; the assertion in 2541 holds after [n] rotations *)
Definition is_half_translate P Q (certificate : bool) : answer :=
  let n := length P in
  if negb (length Q =? n)%nat then Bare false else
  match shift_loop n 0 (edges P) (edges Q) with
  | Some i => if certificate then With true (Some (i, mone)) else Bare true
  | None =>
    match shift_loop n 0 (edges P) (map vopp (edges Q)) with
    | Some i => if certificate then With true (Some (if (i =? 0)%nat then 0%nat else (n - i)%nat, mopp mone)) else Bare true
    | None => if certificate then With false None else Bare false
    end
  end.
End M.
