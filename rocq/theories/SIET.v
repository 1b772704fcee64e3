(** Specification vocabulary for exchanges of intervals: two partitions of the same interval. *)
From Coq Require Import List Bool Arith.
From Verif Require Import OField.
Import ListNotations.

Section S.
Context {K : OField}.
Local Open Scope F_scope.
(** the left end of the interval number [j] of a partition into intervals of the given lengths *)
Fixpoint left_end (l : list K) (j : nat) : K :=
  match j, l with S j, x :: l => x + left_end l j | _, _ => 0 end.
(** [y] is a coordinate in the closed interval number [j] and means the position [X] of the line *)
Definition at_position (l : list K) (j : nat) (y X : K) :=
  exists t, nth_error l j = Some t /\ 0 <= y /\ y <= t /\ left_end l j + y = X.
(** ... in the half-open interval *)
Definition at_position_left (l : list K) (j : nat) (y X : K) :=
  exists t, nth_error l j = Some t /\ 0 <= y /\ y < t /\ left_end l j + y = X.
(** two partitions of the same interval into intervals of positive lengths, with distinct labels *)
Record exchange {A B} (bl : list A) (bL : list K) (tl : list B) (tL : list K) : Prop := {
  ex_bot : forall x, In x bL -> 0 < x; ex_top : forall x, In x tL -> 0 < x;
  ex_nb : length bl = length bL; ex_nt : length tl = length tL;
  ex_total : left_end bL (length bL) = left_end tL (length tL);
  ex_db : NoDup bl; ex_dt : NoDup tl }.
End S.
