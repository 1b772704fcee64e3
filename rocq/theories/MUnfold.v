(** Model of the angles of polygons with prescribed angles and of their unfoldings:
    flatsurf/geometry/categories/euclidean_polygons_with_angles.py 141-176, 304-335, 384-416, 608-913.

    Rational numbers are [Q]; numerator and denominator are those of the reduced fraction.
    Dictionaries are association lists in the order of insertion, keys are compared as rational numbers. *)
From Coq Require Import List Bool ZArith QArith Qreduction.
From Verif Require Import MBase.
Import ListNotations.
Local Open Scope Q_scope.

Definition numerator (x : Q) : Z := Qnum (Qred x).
Definition denominator (x : Q) : Z := Zpos (Qden (Qred x)).
Definition qsum (l : list Q) : Q := fold_right Qplus 0 l.
Definition Qltb (x y : Q) : bool := negb (Qle_bool y x).

(** _normalize_angles, 141-176; the conversion of the arguments to rational numbers is not modelled *)
Definition normalize_angles (angles : list Q) : res (list Q) :=
  let n := Z.of_nat (length angles) in
  if (n <? 3)%Z then Err ValueError
  else if existsb (fun a => Qle_bool a 0) angles then Err ValueError
  else
    let angles' := map (fun a => a / qsum angles) angles in
    let angles'' := map (fun a => a * inject_Z (n - 2) / 2) angles' in
    if existsb (fun a => Qle_bool a 0 || Qle_bool 1 a) angles'' then Err NotImplementedError
    else Ok angles''.

(** is_convex, 304-335 *)
Definition is_convex (strict : bool) (angles : list Q) : bool :=
  if strict then forallb (fun a => Qltb (2 * a) 1) angles else forallb (fun a => Qle_bool (2 * a) 1) angles.

(** least common multiple and greatest common divisor of a list of integers, as in SageMath *)
Definition lcm_list (l : list Z) : Z := fold_right Z.lcm 1%Z l.
Definition gcd_list (l : list Z) : Z := fold_right Z.gcd 0%Z l.
(** conversion to ZZ: fails for numbers that are not integers *)
Definition to_ZZ (x : Q) : res Z := if (denominator x =? 1)%Z then Ok (numerator x) else Err TypeError.
Fixpoint mapM {A B} (f : A -> res B) (l : list A) : res (list B) :=
  match l with
  | nil => Ok nil
  | a :: l => match f a with Err e => Err e | Ok b => match mapM f l with Err e => Err e | Ok l => Ok (b :: l) end end
  end.
(** angles(integral=True), 408-416 *)
Definition angles_integral (angles : list Q) : res (list Z) :=
  let g := gcd_list (map numerator angles) in
  if (g =? 0)%Z then Err ZeroDivisionError
  else
    let C := inject_Z (lcm_list (map denominator angles)) / inject_Z g in
    mapM (fun a => to_ZZ (C * a)) angles.

(** the values of the parameter cover_type, [other_cover] is any other string *)
Inductive cover_type := rational_cover | half_translation_cover | translation_cover | other_cover.
Definition dict := list (Q * Z).
(** [d[y] += m] if y is in d, and [d[y] = m] otherwise *)
Fixpoint dict_add (d : dict) (y : Q) (m : Z) : dict :=
  match d with
  | nil => [(y, m)]
  | (x, k) :: d => if Qeq_bool x y then (x, (k + m)%Z) :: d else (x, k) :: dict_add d y m
  end.

(** the loop of 676-688 *)
Fixpoint cover_loop (N : Z) (items : dict) (cov : dict) : res dict :=
  match items with
  | nil => Ok cov
  | (x, mult) :: items =>
    let y := numerator x in
    let d := denominator x in
    let '(y, d) := if negb (d mod 2 =? 0)%Z then (inject_Z y, (d * 2)%Z) else (inject_Z y / 2, d) in
    if (N mod d =? 0)%Z then cover_loop N items (dict_add cov y (mult * N / d)%Z) else Err AssertionError
  end.
(** the loop of 693-699 *)
Definition double_loop (cov : dict) : dict :=
  fold_left (fun cc ym => dict_add cc (inject_Z (numerator (fst ym))) (2 / denominator (fst ym) * snd ym)%Z) cov nil.
(** billiard_unfolding_angles, 608-703 *)
Definition billiard_unfolding_angles (angles : list Q) (cover : cover_type) : res dict :=
  let rat := fold_left (fun d a => dict_add d (2 * a) 1%Z) angles nil in
  match cover with
  | rational_cover => Ok rat
  | _ =>
    let N := lcm_list (map (fun xm => denominator (fst xm)) rat) in
    let N := if negb (N mod 2 =? 0)%Z then (N * 2)%Z else N in
    match cover_loop N rat nil with
    | Err e => Err e
    | Ok cov =>
      match cover with
      | translation_cover => if existsb (fun ym => (denominator (fst ym) =? 2)%Z) cov then Ok (double_loop cov) else Ok cov
      | half_translation_cover => Ok cov
      | _ => Err ValueError
      end
    end
  end.

(** billiard_unfolding_stratum, 705-819; the result is the pair of arguments of Stratum *)
Definition repeat_degrees (f : Q -> Q) (marked : bool) (angles : dict) : res (list Z) :=
  match mapM (fun am => match to_ZZ (f (fst am)) with Err e => Err e | Ok z => Ok (repeat z (Z.to_nat (snd am))) end)
      (filter (fun am => marked || negb (Qeq_bool (fst am) 1)) angles) with
  | Err e => Err e
  | Ok l => Ok (concat l)
  end.
Definition billiard_unfolding_stratum (angles : list Q) (cover : cover_type) (marked : bool) : res (list Z * Z) :=
  match billiard_unfolding_angles angles cover with
  | Err e => Err e
  | Ok d =>
    if forallb (fun am => (denominator (fst am) =? 1)%Z) d
    then
      if negb marked && (length d =? 1)%nat && existsb (fun am => Qeq_bool (fst am) 1) d then Ok ([0%Z], 1%Z)
      else match repeat_degrees (fun a => a - 1) marked d with Err e => Err e | Ok l => Ok (l, 1%Z) end
    else match repeat_degrees (fun a => 2 * (a - 1)) marked d with Err e => Err e | Ok l => Ok (l, 2%Z) end
  end.

(** billiard_unfolding_stratum_dimension, 821-913 *)
Definition billiard_unfolding_stratum_dimension (angles : list Q) (cover : cover_type) (marked : bool) : res Z :=
  match cover with
  | rational_cover => Err NotImplementedError
  | other_cover => Err ValueError
  | _ =>
    match billiard_unfolding_angles angles cover with
    | Err e => Err e
    | Ok d =>
      let d := if marked then d
               else match filter (fun am => negb (Qeq_bool (fst am) 1)) d with nil => [(1, 1%Z)] | d' => d' end in
      let abelian := forallb (fun am => (denominator (fst am) =? 1)%Z) d in
      let s := fold_right Z.add 0%Z (map snd d) in
      let chi := qsum (map (fun am => inject_Z (snd am) * (fst am - 1)) d) in
      if negb (denominator chi =? 1)%Z then Err AssertionError
      else
        let chi := numerator chi in
        if negb (chi mod 2 =? 0)%Z then Err AssertionError
        else
          let g := (chi / 2 + 1)%Z in
          Ok (if abelian then (2 * g + s - 1)%Z else (2 * g + s - 2)%Z)
    end
  end.
