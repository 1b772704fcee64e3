(** Outcomes of Python calls: a value or a raised exception. *)
From Coq Require Import List Bool ZArith.
Import ListNotations.

Inductive exn : Set :=
| ValueError | AssertionError | KeyError | TypeError | IndexError | ZeroDivisionError
| NotImplementedError | AttributeError | StopIteration | PyException (* a plain Exception *) | Diverge (* fuel exhausted *) .

Inductive res (A : Type) : Type :=
| Ok (a : A)
| Err (e : exn).
Arguments Ok {A}. Arguments Err {A}.

Definition bind {A B} (x : res A) (f : A -> res B) : res B :=
  match x with Ok a => f a | Err e => Err e end.

Declare Scope res_scope.
Delimit Scope res_scope with res.
Notation "x <- e ;; f" := (bind e (fun x => f)) (at level 61, e at next level, right associativity) : res_scope.
Notation "' p <- e ;; f" := (bind e (fun x => match x with p => f end))
  (at level 61, p pattern, e at next level, right associativity) : res_scope.

(** [assert b] in Python *)
Definition passert (b : bool) : res unit := if b then Ok tt else Err AssertionError.
