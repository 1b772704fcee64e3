(** Python containers: dictionaries (insertion ordered), list indexing, and computations with a mutable state
    that can raise. Nothing here models a line of flatsurf; the semantics is the one of Python. *)
From Coq Require Import List Bool ZArith.
From Verif Require Import MBase.
Import ListNotations.

(** decidable equality, Python's [==] on labels and edges *)
Class EqB (A : Type) := { eqb : A -> A -> bool; eqb_ok : forall x y, eqb x y = true <-> x = y }.

#[global] Program Instance EqB_Z : EqB Z := {| eqb := Z.eqb |}.
Next Obligation. apply Z.eqb_eq. Qed.
#[global] Program Instance EqB_nat : EqB nat := {| eqb := Nat.eqb |}.
Next Obligation. apply PeanoNat.Nat.eqb_eq. Qed.
#[global] Program Instance EqB_bool : EqB bool := {| eqb := Bool.eqb |}.
Next Obligation. apply Bool.eqb_true_iff. Qed.
#[global] Program Instance EqB_unit : EqB unit := {| eqb := fun _ _ => true |}.
Next Obligation. destruct x, y. tauto. Qed.
#[global] Program Instance EqB_prod {A B} `{EqB A} `{EqB B} : EqB (A * B) :=
  {| eqb := fun x y => eqb (fst x) (fst y) && eqb (snd x) (snd y) |}.
Next Obligation.
  rewrite andb_true_iff, !eqb_ok. cbn. split; [intros [-> ->] | injection 1]; auto.
Qed.

Section D.
Context {A B : Type} `{EqB A}.

(** [x in l] for a list, tuple or set *)
Definition mem (x : A) (l : list A) : bool := existsb (eqb x) l.

(** a dictionary is the list of its items in insertion order *)
Definition dict := list (A * B).
(** [d.get(k)] *)
Fixpoint dget (k : A) (d : dict) : option B :=
  match d with nil => None | (k', v) :: d => if eqb k k' then Some v else dget k d end.
(** [d[k]] *)
Definition dgetE (k : A) (d : dict) : res B := match dget k d with Some v => Ok v | None => Err KeyError end.
(** [k in d] *)
Definition dmem (k : A) (d : dict) : bool := match dget k d with Some _ => true | None => false end.
(** [d[k] = v] *)
Fixpoint dset (k : A) (v : B) (d : dict) : dict :=
  match d with nil => [(k, v)] | (k', v') :: d => if eqb k k' then (k', v) :: d else (k', v') :: dset k v d end.
(** [d.pop(k)], without the KeyError *)
Fixpoint ddel (k : A) (d : dict) : dict :=
  match d with nil => nil | (k', v') :: d => if eqb k k' then d else (k', v') :: ddel k d end.
Definition keys (d : dict) : list A := map fst d.
End D.
Arguments dict : clear implicits.

(** the position meant by the index [i] in a list of length [n]; negative indices count from the end *)
Definition py_index (n : nat) (i : Z) : option nat :=
  if (0 <=? i)%Z && (i <? Z.of_nat n)%Z then Some (Z.to_nat i)
  else if (i <? 0)%Z && (0 <=? i + Z.of_nat n)%Z then Some (Z.to_nat (i + Z.of_nat n)) else None.

(** [l[i]] *)
Definition lgetE {B} (l : list B) (i : Z) : res B :=
  match py_index (length l) i with
  | Some k => match nth_error l k with Some x => Ok x | None => Err IndexError end
  | None => Err IndexError
  end.
Fixpoint nth_set {B} (l : list B) (k : nat) (x : B) : list B :=
  match l, k with
  | nil, _ => nil
  | _ :: l, O => x :: l
  | y :: l, S k => y :: nth_set l k x
  end.
(** [l[i] = x] *)
Definition lsetE {B} (l : list B) (i : Z) (x : B) : res (list B) :=
  match py_index (length l) i with Some k => Ok (nth_set l k x) | None => Err IndexError end.

(** ** computations on a mutable state; an exception leaves the state as it was when it was raised *)
Definition M (S A : Type) := S -> S * res A.
Definition mret {S A} (a : A) : M S A := fun s => (s, Ok a).
Definition mraise {S A} (e : exn) : M S A := fun s => (s, Err e).
Definition mlift {S A} (r : res A) : M S A := fun s => (s, r).
Definition mget {S} : M S S := fun s => (s, Ok s).
Definition mput {S} (s : S) : M S unit := fun _ => (s, Ok tt).
Definition mread {S A} (f : S -> res A) : M S A := fun s => (s, f s).
Definition mbind {S A B} (m : M S A) (f : A -> M S B) : M S B :=
  fun s => match m s with (s', Ok a) => f a s' | (s', Err e) => (s', Err e) end.
Declare Scope M_scope.
Delimit Scope M_scope with M.
Notation "'let!' x := m 'in' f" := (mbind m (fun x => f)) (at level 200, x pattern, right associativity) : M_scope.
Notation "m ;;; f" := (mbind m (fun _ => f)) (at level 199, right associativity) : M_scope.
Definition mwhen {S} (b : bool) (m : M S unit) : M S unit := if b then m else mret tt.
Definition massert {S} (b : bool) : M S unit := if b then mret tt else mraise AssertionError.
(** [for x in l: f(x)] *)
Fixpoint mfor {S A} (l : list A) (f : A -> M S unit) : M S unit :=
  match l with nil => mret tt | x :: l => mbind (f x) (fun _ => mfor l f) end.
(** [\[f(x) for x in l\]] for a function that can raise *)
Fixpoint rmap {A B} (f : A -> res B) (l : list A) : res (list B) :=
  match l with
  | nil => Ok nil
  | x :: l => match f x with Err e => Err e | Ok y => match rmap f l with Err e => Err e | Ok ys => Ok (y :: ys) end end
  end.
