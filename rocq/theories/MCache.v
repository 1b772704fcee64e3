(** Model of flatsurf/cache.py: a method of a surface that is decorated with [cached_surface_method].

    [f] is the undecorated method (it does not modify the surface), [key] maps its arguments to the key of the cache.
    The base classes CachedMethod and CachedMethodCaller belong to SageMath; they are modelled by their documented
    behaviour: a dictionary that belongs to the instance, in which results (not exceptions) are stored under the key of the
    arguments. For methods without arguments the key is always the same. *)
From Coq Require Import List Bool ZArith.
From Verif Require Import MBase MDict MMut.
Import ListNotations.

Section Cache.
Context {P : Type} (nv : P -> nat) {Args Key R : Type} `{EqB Key}.
Variable f : @surf P -> Args -> res R.
Variable key : Args -> Key.

(** what is stored as attribute of the instance under the name of the method *)
Inductive caller : Set :=
| NoCaller         (* nothing yet, the descriptor is asked *)
| SurfaceCaller    (* CachedSurfaceMethodCaller *)
| CachedCaller.    (* CachedMethodCaller of SageMath *)

Record inst := Inst { i_surf : @surf P; i_attr : caller; i_cache : dict Key R }.

(** CachedMethodCaller.__call__ of SageMath *)
Definition cached_call (a : Args) (i : inst) : inst * res R :=
  match dget (key a) (i_cache i) with
  | Some v => (i, Ok v)
  | None =>
    match f (i_surf i) a with
    | Ok v => (Inst (i_surf i) (i_attr i) (dset (key a) v (i_cache i)), Ok v)
    | Err x => (i, Err x)
    end
  end.
(** cache.py 87-102, 111-126 *)
Definition surface_call (a : Args) (i : inst) : inst * res R :=
  if mutable (i_surf i) then (i, f (i_surf i) a)
  else cached_call a (Inst (i_surf i) CachedCaller (i_cache i)).
(** cache.py 141-171 *)
Definition descriptor_get (i : inst) : inst :=
  if mutable (i_surf i) then Inst (i_surf i) SurfaceCaller (i_cache i) else Inst (i_surf i) CachedCaller (i_cache i).
(** a call [surface.method(a)] *)
Definition call_method (a : Args) (i : inst) : inst * res R :=
  let i := match i_attr i with NoCaller => descriptor_get i | _ => i end in
  match i_attr i with
  | SurfaceCaller => surface_call a i
  | _ => cached_call a i
  end.

(** histories of mutations and calls of the method *)
Inductive event := Mutate (o : @op P) | Call (a : Args).
Definition step (i : inst) (e : event) : inst * list (res R) :=
  match e with
  | Mutate o => (Inst (fst (run_op nv o (i_surf i))) (i_attr i) (i_cache i), nil)
  | Call a => let '(i, r) := call_method a i in (i, [r])
  end.
Fixpoint history (es : list event) (i : inst) : inst * list (res R) :=
  match es with
  | nil => (i, nil)
  | e :: es => let '(i, r) := step i e in let '(i, rs) := history es i in (i, r ++ rs)
  end.
End Cache.
