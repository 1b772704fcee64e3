(** Model of cohomology classes (flatsurf/geometry/cohomology.py).

    Homology classes are equal, and have the same hash, when their coefficients are the same (homology.py 268-314), so
    that a homology class is modelled by the tuple of its coefficients, which are integers (cohomology.py 366-383).
    [inj] is the coercion of integers to the ring of values. *)
From Coq Require Import List Bool ZArith Arith.
From Verif Require Import MBase MDict MEq.
Import ListNotations.

(** equality of tuples *)
Fixpoint ztuple_eqb (u v : list Z) : bool := match u, v with [], [] => true | x :: u, y :: v => Z.eqb x y && ztuple_eqb u v | _, _ => false end.
Lemma ztuple_eqb_ok u : forall v, ztuple_eqb u v = true <-> u = v.
Proof.
  induction u as [|x u IH]; intros [|y v]; cbn; try (split; congruence). rewrite andb_true_iff, Z.eqb_eq, IH. split; [intros [-> ->]; auto|intros E; injection E as -> ->; auto].
Qed.
#[global] Instance EqB_ztuple : EqB (list Z) := {| eqb := ztuple_eqb; eqb_ok := ztuple_eqb_ok |}.

Section M.
Context {V : Type} `{EV : EqB V}.
Variables (vO vI : V) (vadd vmul : V -> V -> V) (inj : Z -> V).
Local Open Scope res_scope.
(** the generators of homology, [homology().gens()] (homology.py 1053-1085) *)
Definition zgen (n i : nat) : list Z := map (fun j => if i =? j then 1%Z else 0%Z) (seq 0 n).
Definition zgens (n : nat) : list (list Z) := map (zgen n) (seq 0 n).
(** [SimplicialHomologyClass.coefficient] (homology.py 361-392) *)
Definition coefficient (h gen : list Z) : res Z :=
  match filter (fun p => negb (Z.eqb (snd p) 0)) (combine (seq 0 (length gen)) gen) with
  | [(i, c)] => if Z.eqb c 1 then lgetE h (Z.of_nat i) else Err ValueError
  | _ => Err ValueError
  end.
(** a class is its dictionary [_values] (cohomology.py 84-87) *)
Definition cclass := dict (list Z) V.
(** [__call__] (cohomology.py 107-126) *)
Definition ccall (n : nat) (x : cclass) (h : list Z) : res V :=
  terms <- rmap (fun gen => c <- coefficient h gen ;; Ok (vmul (match dget gen x with Some v => v | None => vO end) (inj c))) (zgens n) ;;
  Ok (fold_left vadd terms vO).
(** [_element_constructor_] (cohomology.py 340-364) for dictionaries; zero is the case of the empty dictionary *)
Definition construct (items : cclass) : cclass :=
  fold_left (fun d kv => if eqb (snd kv) vO then d else dset (fst kv) (snd kv) d) items [].
(** [_add_] (cohomology.py 128-152) *)
Fixpoint cadd_loop (n : nat) (x y : cclass) (gens : list (list Z)) (values : cclass) : res cclass :=
  match gens with
  | [] => Ok values
  | gen :: gens =>
    a <- ccall n x gen ;; b <- ccall n y gen ;;
    let value := vadd a b in
    cadd_loop n x y gens (if eqb value vO then values else dset gen value values)
  end.
Definition cadd (n : nat) (x y : cclass) : res cclass := values <- cadd_loop n x y (zgens n) [] ;; Ok (construct values).
(** [_richcmp_] (cohomology.py 154-185): equality of dictionaries *)
Definition ceq (x y : cclass) : bool := dict_eqb eqb x y.
(** [gens] (cohomology.py 385-398) *)
Definition cgens (n : nat) : list cclass := map (fun gen => construct [(gen, vI)]) (zgens n).
End M.
