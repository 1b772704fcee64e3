(** Specification vocabulary for generators of finite surfaces. *)
From Coq Require Import List Bool ZArith Arith QArith.
From Verif Require Import OField MBase MEuclid MSim SSim MPoly MMut SMut MSurf SSurf SPoint MComb PFam2.
Import ListNotations.

Section S.
Context {K : OField}.
Notation nv := (@length (vec K) : polygon K -> nat).
Definition labels_upto (n : nat) : list Z := map Z.of_nat (seq 0 n).
(** sum of the areas of the polygons *)
Definition total_area (c : @surf (polygon K)) (n : nat) : K :=
  fold_right (fun l A => fadd (match get_polygon c l with Ok P => area P | Err _ => f0 end) A) f0 (labels_upto n).
(** an immutable surface of [n] polygons labelled 0, 1, ...: they are simple, of positive area, there is no boundary, all gluings
    are of the given kind, all polygons can be reached from the first one; and the number of vertices, the genus and the area of the surface *)
Record finite_surface (kind : (vec K -> vec K) -> Prop) (n v g : nat) (A : K) (c : @surf (polygon K)) : Prop := {
  fs_immutable : mutable c = false;
  fs_labels : forall l, is_label c l <-> (0 <= l < Z.of_nat n)%Z;
  fs_good : good_surface (is_label c) (mut_surface c) kind;
  fs_linked : forall l, is_label c l -> linked nv c 0%Z l;
  fs_vertices : count_corners (csurf_of (mut_surface c) (labels_upto n)) = Ok v;
  fs_genus : genus (csurf_of (mut_surface c) (labels_upto n)) = Ok (inject_Z (Z.of_nat g));
  fs_area : total_area c n = A }.
(** integers that are admissible for prototypes *)
Definition prototype (w h t e : Z) : Prop := (0 < w /\ 0 < h /\ 0 <= t < Z.gcd w h)%Z /\ forall k, (0 < k)%Z -> (k | w)%Z -> (k | h)%Z -> (k | t)%Z -> (k | e)%Z -> k = 1%Z.
End S.
