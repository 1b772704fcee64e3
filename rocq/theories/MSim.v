(** Model of flatsurf/geometry/similarity.py and of 2x2 matrices.

    Parents, base rings and coercions (lines 55-66, 439-571) are not modelled: everything lives over one field. *)
From Coq Require Import List Bool ZArith.
From Verif Require Import OField MBase MEuclid.

(** 2x2 matrices over a field, by rows *)
Record mat (V : Type) := Mat { m00 : V; m01 : V; m10 : V; m11 : V }.
Arguments Mat {V}. Arguments m00 {V}. Arguments m01 {V}. Arguments m10 {V}. Arguments m11 {V}.

(** similarity.py 42-75: the attributes _a, _b, _s, _t, _sign; [sg_sign] is [true] for +1 and [false] for -1
    (line 66 only admits +1 and -1) *)
Record sim (V : Type) := Sim { sg_a : V; sg_b : V; sg_s : V; sg_t : V; sg_sign : bool }.
Arguments Sim {V}. Arguments sg_a {V}. Arguments sg_b {V}. Arguments sg_s {V}. Arguments sg_t {V}. Arguments sg_sign {V}.

Section Sim.
Context {K : OField}.
Local Open Scope F_scope.

(** Sage matrices *)
Definition mmul (m n : mat K) : mat K :=
  Mat (m00 m * m00 n + m01 m * m10 n) (m00 m * m01 n + m01 m * m11 n)
      (m10 m * m00 n + m11 m * m10 n) (m10 m * m01 n + m11 m * m11 n).
Definition mdet (m : mat K) : K := m00 m * m11 m - m01 m * m10 m.
Definition mapply (m : mat K) (v : vec K) : vec K :=
  (m00 m * fst v + m01 m * snd v, m10 m * fst v + m11 m * snd v).
Definition mone : mat K := Mat 1 0 0 1.
Definition mopp (m : mat K) : mat K := Mat (- m00 m) (- m01 m) (- m10 m) (- m11 m).
Definition mtrans (m : mat K) : mat K := Mat (m00 m) (m10 m) (m01 m) (m11 m).
Definition minv (m : mat K) : mat K :=
  let d := mdet m in Mat (m11 m / d) (- m01 m / d) (- m10 m / d) (m00 m / d).
Definition mat_eqb (m n : mat K) : bool :=
  (m00 m =? m00 n) && (m01 m =? m01 n) && (m10 m =? m10 n) && (m11 m =? m11 n).

(** the integer [_sign] as an element of the field *)
Definition sgn (f : sim K) : K := if sg_sign f then 1 else - (1).

(** similarity.py 80-95 *)
Definition sim_is_translation (f : sim K) : bool := sg_sign f && (sg_a f =? 1) && (sg_b f =? 0).
(** similarity.py 97-116 *)
Definition sim_is_half_translation (f : sim K) : bool :=
  sg_sign f && ((sg_a f =? 1) || (- sg_a f =? 1)) && (sg_b f =? 0).
(** similarity.py 118-119 *)
Definition sim_is_orientable (f : sim K) : bool := sg_sign f.
(** similarity.py 160-164 *)
Definition sim_det (f : sim K) : K := sgn f * (sg_a f * sg_a f + sg_b f * sg_b f).
(** similarity.py 573-590 *)
Definition sim_one : sim K := Sim 1 0 0 0 true.
(** similarity.py 358-385 *)
Definition sim_eqb (f g : sim K) : bool :=
  (sg_a f =? sg_a g) && (sg_b f =? sg_b g) && (sg_s f =? sg_s g) && (sg_t f =? sg_t g)
  && Bool.eqb (sg_sign f) (sg_sign g).
(** similarity.py 121-136 *)
Definition sim_is_rotation (f : sim K) : bool :=
  sim_eqb f sim_one || (sim_det f =? 1) && negb (sim_is_translation f).
(** similarity.py 138-158 *)
Definition sim_is_isometry (f : sim K) : bool := (sim_det f =? 1) || (- sim_det f =? 1).

(** similarity.py 166-193 *)
Definition sim_mul (f g : sim K) : sim K :=
  Sim (sg_a f * sg_a g - sgn f * sg_b f * sg_b g)
      (sg_b f * sg_a g + sgn f * sg_a f * sg_b g)
      (sg_a f * sg_s g - sgn f * sg_b f * sg_t g + sg_s f)
      (sg_b f * sg_s g + sgn f * sg_a f * sg_t g + sg_t f)
      (Bool.eqb (sg_sign f) (sg_sign g)).

(** similarity.py 195-220 *)
Definition sim_inv (f : sim K) : sim K :=
  let det := sim_det f in
  let a := sgn f * sg_a f / det in
  let b := - sg_b f / det in
  Sim a b (- a * sg_s f + sgn f * b * sg_t f) (- b * sg_s f - sgn f * a * sg_t f) (sg_sign f).

(** similarity.py 222-242 *)
Definition sim_div (f g : sim K) : sim K :=
  let det := sim_det g in
  let inv_a := sgn g * sg_a g in
  let inv_b := - sg_b g in
  let inv_s := - sgn g * sg_a g * sg_s g - sgn g * sg_b g * sg_t g in
  let inv_t := sg_b g * sg_s g - sg_a g * sg_t g in
  Sim ((sg_a f * inv_a - sgn f * sg_b f * inv_b) / det)
      ((sg_b f * inv_a + sgn f * sg_a f * inv_b) / det)
      ((sg_a f * inv_s - sgn f * sg_b f * inv_t) / det + sg_s f)
      ((sg_b f * inv_s + sgn f * sg_a f * inv_t) / det + sg_t f)
      (Bool.eqb (sg_sign f) (sg_sign g)).

(** similarity.py 253-334, on vectors (polygons: see [sim_polygon] in MPoly) *)
Definition sim_apply (f : sim K) (w : vec K) : vec K :=
  if sg_sign f then
    (sg_a f * fst w - sg_b f * snd w + sg_s f, sg_b f * fst w + sg_a f * snd w + sg_t f)
  else
    (sg_a f * fst w + sg_b f * snd w + sg_s f, sg_b f * fst w - sg_a f * snd w + sg_t f).

(** similarity.py 422-436 *)
Definition sim_derivative (f : sim K) : mat K :=
  Mat (sg_a f) (- sgn f * sg_b f) (sg_b f) (sgn f * sg_a f).

(** similarity.py 477-555: the constructor on (a, b, s, t, sign) rejects a = b = 0 *)
Definition sim_make (a b s t : K) (sign : bool) : res (sim K) :=
  if a * a + b * b =? 0 then Err ValueError else Ok (Sim a b s t sign).

(** similarity.py 518-528: the constructor on a 2x2 matrix *)
Definition sim_of_matrix (x : mat K) : res (sim K) :=
  let a := m00 x in let c := m01 x in let b := m10 x in let d := m11 x in
  if (a =? d) && (b =? - c) then sim_make a b 0 0 true
  else if (a =? - d) && (b =? c) then sim_make a b 0 0 false
  else Err ValueError.

(** similarity.py 619-690 *)
Definition similarity_from_vectors (u v : vec K) : mat K :=
  if veqb u v then mone else
  let sqnorm_u := fst u * fst u + snd u * snd u in
  let cos_uv := (fst u * fst v + snd u * snd v) / sqnorm_u in
  let sin_uv := (fst u * snd v - snd u * fst v) / sqnorm_u in
  Mat cos_uv (- sin_uv) sin_uv cos_uv.

End Sim.
