(** Specification of unfoldings of polygons with rational angles.

    The double of a polygon with angles [2 pi a_i] is a sphere with cone angles [2 pi x_i] where [x_i = 2 a_i].
    The rotations by [2 pi x_i] generate a finite group, taken modulo nothing (translation, [c = 1]) or modulo the rotation by [pi] (half-translation, [c = 2]).
    The minimal cover of this kind is the cyclic cover with one sheet for each element of this group. *)
From Coq Require Import List Bool ZArith QArith.
Import ListNotations.
Local Open Scope Q_scope.

Definition cone_angle (angles : list Q) (i : nat) (x : Q) : Prop := exists a, nth_error angles i = Some a /\ x == 2 * a.
Definition is_int (x : Q) : Prop := exists z : Z, x == inject_Z z.
(** the number [m] of sheets: the least positive integer such that [c m x_i] is an integer for all [i], that is,
    such that [m] times every one of the rotations is trivial *)
Record sheets (c : Z) (angles : list Q) (m : Z) : Prop := {
  sh_pos : (0 < m)%Z;
  sh_int : forall i x, cone_angle angles i x -> is_int (inject_Z (c * m) * x);
  sh_least : forall m', (0 < m')%Z -> (forall i x, cone_angle angles i x -> is_int (inject_Z (c * m') * x)) -> (m <= m')%Z }.
(** sheet [j] is the sheet with the smallest number among those that one meets when going round a vertex, [k] sheets further each time *)
Definition first_sheet (k m j : Z) : Prop := (0 <= j < m)%Z /\ forall t, (0 <= t)%Z -> (j <= (j + t * k) mod m)%Z.
(** after going round the vertex [l] times one is back on the same sheet for the first time *)
Definition closes_after (k m l : Z) : Prop := (0 < l)%Z /\ ((l * k) mod m = 0)%Z /\ forall l', (0 < l' < l)%Z -> ((l' * k) mod m <> 0)%Z.
(** [(i, j)] stands for a cone point of angle [2 pi y] of the cover: it is above vertex [i] and on sheet [j] *)
Definition cone_point (c : Z) (angles : list Q) (m : Z) (y : Q) (p : nat * Z) : Prop :=
  exists x k l, cone_angle angles (fst p) x /\ inject_Z k == inject_Z (c * m) * x /\ first_sheet k m (snd p) /\ closes_after k m l /\ y == inject_Z l * x.
(** the number of elements *)
Definition counts {A} (P : A -> Prop) (n : Z) : Prop := exists L, NoDup L /\ (forall p, In p L <-> P p) /\ n = Z.of_nat (length L).
(** the multiplicity of a key *)
Definition multiplicity (d : list (Q * Z)) (y : Q) : Z := fold_right (fun ym s => if Qeq_bool (fst ym) y then (snd ym + s)%Z else s) 0%Z d.
(** different entries have different keys *)
Fixpoint unique_keys (d : list (Q * Z)) : Prop :=
  match d with nil => True | (y, _) :: d => (forall z m, In (z, m) d -> ~ y == z) /\ unique_keys d end.
