(** Model of infinite families of surfaces: origami.py, chamanara.py, mega_wollmilchsau.py and
    similarity_surface_generators.py 96-652 and 2192-2214. *)
From Coq Require Import List Bool ZArith Arith.
From Verif Require Import OField MBase MEuclid MSim MPoly MSurf.
Import ListNotations.

Section M.
Context {K : OField}.
Local Open Scope F_scope.

(** polygon.py 586-616: [polygons.rectangle]; the polygon is not checked *)
Definition rectangle (w h : K) : res (polygon K) :=
  if w <=? 0 then Err ValueError else if h <=? 0 then Err ValueError else vertices_of_edges [(w, 0); (0, h); (- w, 0); (0, - h)].
(** polygon.py 622: [polygons.square], the square of side 1 *)
Definition square : res (polygon K) := rectangle 1 1.

(** an attribute of an object *)
Definition get_attribute {A} (o : option A) : res A := match o with Some a => Ok a | None => Err AttributeError end.
(** origami.py 94-112: [AbstractOrigami]; [dom] is the membership in the domain and [square_attr] the attribute [_square],
    that the constructor (30-60) sets *)
Definition abstract_origami {L} (square_attr : option (polygon K)) (dom : L -> bool) (up down right left : L -> L) : surface K L :=
  Surface (fun l => if dom l then get_attribute square_attr else Err ValueError)
    (fun l e => if negb (dom l) then Err ValueError else
      match e with
      | 0%nat => Ok (Some (down l, 2%nat))
      | 1%nat => Ok (Some (right l, 3%nat))
      | 2%nat => Ok (Some (up l, 0%nat))
      | 3%nat => Ok (Some (left l, 1%nat))
      | _ => Err ValueError
      end).
(** origami.py 149-161: [Origami] given by [r], [u] and their inverses [rr], [uu] (133 and 141 compute them when they
    are not given; the test of some elements in 135-147 when they are given is not modelled) *)
Definition origami {L} (dom : L -> bool) (r u rr uu : L -> L) : surface K L :=
  Surface (fun l => if dom l then square else Err ValueError)
    (fun l e => if negb (dom l) then Err ValueError else if (3 <? e)%nat then Err ValueError
      else Ok (Some (nth e [uu; r; u; rr] uu l, ((e + 2) mod 4)%nat))).
(** similarity_surface_generators.py 2206-2214 *)
Definition stair_vertical (x : Z) : Z := if (x mod 2 =? 0)%Z then (x - 1)%Z else (x + 1)%Z.
Definition stair_horizontal (x : Z) : Z := if (x mod 2 =? 0)%Z then (x + 1)%Z else (x - 1)%Z.
(** 2192-2201: [_InfiniteStaircase]; the labels are all integers *)
Definition infinite_staircase : surface K Z := origami (fun _ => true) stair_vertical stair_horizontal stair_vertical stair_horizontal.

(** chamanara.py 53-65: [ChamanaraPolygon]; the exceptions in 58 and 60 are not raised *)
Definition chamanara_polygon (alpha : K) : res (polygon K) :=
  if (1 - alpha) =? 0 then Err ZeroDivisionError else
  let x := 1 / (1 - alpha) in Polygon_edges [(1, 0); (- x, x); (0, - (1)); (x - 1, 1 - x)].
(** chamanara.py 83-103 and 205-237: [ChamanaraSurface] *)
Definition chamanara_opposite (p : Z) (e : nat) : Z * nat :=
  if (e =? 0)%nat || (e =? 2)%nat then ((1 - p)%Z, e)
  else if (e =? 1)%nat then
    if (p <? 0)%Z then ((p + 1)%Z, 3%nat) else if (1 <? p)%Z then ((p - 1)%Z, 3%nat) else ((1 - p)%Z, 1%nat)
  else if (p <=? 0)%Z then ((p - 1)%Z, 1%nat) else ((p + 1)%Z, 1%nat).
Definition chamanara (alpha : K) : res (surface K Z) :=
  (P <- chamanara_polygon alpha ;; Ok (Surface (fun _ => Ok P) (fun p e => Ok (Some (chamanara_opposite p e)))))%res.

(** similarity_surface_generators.py 203-229: [get_white] and [get_black] for [n >= 2] *)
Fixpoint black_white (x : K) (n : nat) : K * K :=
  match n with
  | 0%nat => (x - 1, 1 - (1 + 1 + 1) * x + x * x)
  | S n => let '(b, w) := black_white x n in let b' := w - b in (b', x * b' - w)
  end.
Definition get_white (x : K) (n : Z) : K :=
  if (n =? 0)%Z || (n =? 1)%Z then x
  else if (n =? -1)%Z then x - 1
  else if (2 <=? n)%Z then snd (black_white x (Z.to_nat (n - 2)))
  else snd (black_white x (Z.to_nat (- n - 2))).
Definition get_black (x : K) (n : Z) : K :=
  if (n =? 0)%Z then 1
  else if (n =? 1)%Z || (n =? -1)%Z then x - 1
  else if (2 <=? n)%Z then fst (black_white x (Z.to_nat (n - 2)))
  else fst (black_white x (Z.to_nat (1 - n - 2))).
(** 258-307; the edges are numbered 0 to 3 *)
Definition e_infinity_opposite (p : Z) (e : nat) : Z * nat :=
  let f := ((e + 2) mod 4)%nat in
  if (p =? 0)%Z then match e with 0%nat => (0, 2%nat) | 1%nat => (1, 3%nat) | 2%nat => (0, 0%nat) | _ => (1, 1%nat) end%Z
  else if (p =? 1)%Z then match e with 0%nat => (-1, 2%nat) | 1%nat => (0, 3%nat) | 2%nat => (2, 0%nat) | _ => (0, 1%nat) end%Z
  else if (p =? -1)%Z then match e with 0%nat => (2, 2%nat) | 1%nat => (-1, 3%nat) | 2%nat => (1, 0%nat) | _ => (-1, 1%nat) end%Z
  else if (p =? 2)%Z then match e with 0%nat => (1, 2%nat) | 1%nat => (-2, 3%nat) | 2%nat => (-1, 0%nat) | _ => (-2, 1%nat) end%Z
  else if (e mod 2 =? 1)%nat then ((- p)%Z, f) else ((1 - p)%Z, f).
(** 96-307: [EInfinitySurface] with the parameter [lambda_squared] *)
Definition e_infinity (x : K) : surface K Z :=
  Surface (fun l => rectangle ((1 + 1) * get_black x l) (get_white x l)) (fun p e => Ok (Some (e_infinity_opposite p e))).

(** 347-614: [TFractalSurface]; a label is a word and a number *)
Inductive letter := LL | LR.
Notation word := (list letter).
Definition tfractal_opposite (p : word * nat) (e : nat) : res (option ((word * nat) * nat)) :=
  let '(w, i) := p in
  let up l := (* the label of the polygon below or above [w, 0] and [w, 2] *)
    match rev w with nil => (w, l) | LL :: _ => (removelast w, 1%nat) | LR :: _ => (removelast w, 3%nat) end in
  (f <- match e with 0 => Ok 2 | 1 => Ok 3 | 2 => Ok 0 | 3 => Ok 1 | _ => Err ValueError end%nat ;;
   l <- match i, e with
        | 0, 0 => Ok (up 2) | 0, 1 => Ok (w, 0) | 0, 2 => Ok (w, 2) | 0, 3 => Ok (w, 0)
        | 1, 0 => Ok (w ++ [LL], 2) | 1, 1 => Ok (w, 2) | 1, 2 => Ok (w ++ [LL], 0) | 1, 3 => Ok (w, 3)
        | 2, 0 => Ok (w, 0) | 2, 1 => Ok (w, 3) | 2, 2 => Ok (up 0) | 2, 3 => Ok (w, 1)
        | 3, 0 => Ok (w ++ [LR], 2) | 3, 1 => Ok (w, 1) | 3, 2 => Ok (w ++ [LR], 0) | 3, 3 => Ok (w, 2)
        | _, _ => Err ValueError
        end%nat ;;
   Ok (Some (l, f)))%res.
Fixpoint fpow (x : K) (n : nat) : K := match n with 0%nat => 1 | S n => x * fpow x n end.
(** 598-614 *)
Definition tfractal_base (w r h1 h2 : K) (i : nat) : res (polygon K) :=
  ('(a, h) <- match i with 0%nat => Ok (w, h1) | 1%nat | 3%nat => (if r =? 0 then Err ZeroDivisionError else Ok (w / r, h2)) | 2%nat => Ok (w, h2) | _ => Err ValueError end ;;
   Polygon_edges [(a, 0); (0, h); (- a, 0); (0, - h)])%res.
(** 573-596; a number acts as a multiple of the identity matrix (euclidean_polygons.py 186-189) *)
Definition tfractal (w r h1 h2 : K) : surface K (word * nat) :=
  Surface (fun l => P <- tfractal_base w r h1 h2 (snd l) ;;
                    (if fpow r (length (fst l)) =? 0 then Err ZeroDivisionError else
                     let c := 1 / fpow r (length (fst l)) in poly_mul (Mat c 0 0 c) P))%res
    tfractal_opposite.
End M.
Notation word := (list letter).

(** mega_wollmilchsau.py 34-100. Quaternions with integer coefficients: the group that is generated by [a] and [b] has
    no others *)
Section Q.
Local Open Scope Z_scope.
Record quat := Quat { q0 : Z; q1 : Z; q2 : Z; q3 : Z }.
Definition qadd x y := Quat (q0 x + q0 y) (q1 x + q1 y) (q2 x + q2 y) (q3 x + q3 y).
Definition qopp x := Quat (- q0 x) (- q1 x) (- q2 x) (- q3 x).
(** the multiplication of [QuaternionAlgebra(-1, -1)] *)
Definition qmul x y := Quat
  (q0 x * q0 y - q1 x * q1 y - q2 x * q2 y - q3 x * q3 y)
  (q0 x * q1 y + q1 x * q0 y + q2 x * q3 y - q3 x * q2 y)
  (q0 x * q2 y - q1 x * q3 y + q2 x * q0 y + q3 x * q1 y)
  (q0 x * q3 y + q1 x * q2 y - q2 x * q1 y + q3 x * q0 y).
(** the inverse of a quaternion of norm 1 is its conjugate *)
Definition qinv x := Quat (q0 x) (- q1 x) (- q2 x) (- q3 x).
(** 43-48 *)
Definition wedge x y := - q0 x * q3 y + q1 x * q2 y - q2 x * q1 y + q3 x * q0 y.
(** 50-66 *)
Record mega := Mega { g_i : Z; g_r : quat; g_q : quat }.
(** 78-86 *)
Definition mega_mul x y := Mega (g_i x + g_i y + wedge (g_r x) (qmul (g_q x) (g_r y))) (qadd (g_r x) (qmul (g_q x) (g_r y))) (qmul (g_q x) (g_q y)).
(** 88-92 *)
Definition mega_inv x :=
  let c := qinv (g_q x) in let r1 := qopp (qmul c (g_r x)) in Mega (- (g_i x + wedge r1 (qmul c (g_r x)))) r1 c.
(** 120-127 *)
Definition mega_a := Mega 0 (Quat 1 0 0 0) (Quat 0 1 0 0).
Definition mega_b := Mega 0 (Quat 1 0 0 0) (Quat 0 0 1 0).
Definition mega_one := Mega 0 (Quat 0 0 0 0) (Quat 1 0 0 0).
End Q.
(** 154-171: [MegaWollmilchsau]. The constructor does not call the constructor of [AbstractOrigami], so that the
    attribute [_square] is not set *)
Definition mega_wollmilchsau {K : OField} : surface K mega :=
  abstract_origami None (fun _ => true) (mega_mul mega_b) (mega_mul (mega_inv mega_b)) (mega_mul mega_a) (mega_mul (mega_inv mega_a)).
