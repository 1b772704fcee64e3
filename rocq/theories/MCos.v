(** Model of Chebyshev polynomials and of minimal polynomials of 2 cos(pi/n):
    flatsurf/geometry/subfield.py 284-423.

    Polynomials over the integers are lists of coefficients (constant coefficient first, zeros at the end are allowed). *)
From Coq Require Import List Bool ZArith Arith.
From Verif Require Import MBase.
Import ListNotations.

(** ** Chebyshev polynomials in any ring *)
Section Cheb.
Context {R : Type} (r1 : R) (radd rmul rsub : R -> R -> R).
(** subfield.py 319-320 *)
Fixpoint cheb_loop (c : R) (m : nat) (T0 T1 : R) : R :=
  match m with O => T1 | S m => cheb_loop c m T1 (rsub (rmul c T1) T0) end.
(** subfield.py 284-321; [parent(c)(2)] is the sum of two ones *)
Definition chebyshev_T (n : nat) (c : R) : R :=
  if (n =? 0)%nat then radd r1 r1 else cheb_loop c (n - 1) (radd r1 r1) c.

(** multiplication with [s], which is 1 or -1 *)
Definition signed (ropp : R -> R) (s : bool) (x : R) : R := if s then x else ropp x.
(** subfield.py 349-352 *)
Fixpoint odd_prime_loop (ropp : R -> R) (var : R) (m : nat) (s : bool) (T0 T1 minpoly : R) : R :=
  match m with
  | O => minpoly
  | S m =>
    let T2 := rsub (rmul var T1) T0 in
    odd_prime_loop ropp var m (negb s) T1 T2 (radd minpoly (signed ropp s T2))
  end.
(** subfield.py 325-353 *)
Definition cos_minpoly_odd_prime (ropp : R -> R) (p : nat) (var : R) : R :=
  let k := ((p - 1) / 2)%nat in
  let s := Nat.even k in
  odd_prime_loop ropp var (k - 1) s (radd r1 r1) var (signed ropp s (rsub r1 var)).
End Cheb.

(** ** Polynomials over the integers *)
Local Open Scope Z_scope.
Definition poly := list Z.
Fixpoint padd (p q : poly) : poly :=
  match p, q with nil, _ => q | _, nil => p | a :: p, b :: q => (a + b) :: padd p q end.
Definition pscale (c : Z) (p : poly) : poly := map (Z.mul c) p.
Definition popp (p : poly) : poly := pscale (-1) p.
Definition psub (p q : poly) : poly := padd p (popp q).
Fixpoint pmul (p q : poly) : poly := match p with nil => nil | a :: p => padd (pscale a q) (0 :: pmul p q) end.
(** [p(q)] *)
Fixpoint pcomp (p q : poly) : poly := match p with nil => nil | a :: p => padd [a] (pmul q (pcomp p q)) end.
(** removes zeros at the end *)
Fixpoint trim (p : poly) : poly :=
  match p with
  | nil => nil
  | a :: p => match trim p with nil => if a =? 0 then nil else [a] | p' => a :: p' end
  end.
(** division with remainder by a polynomial [m] of degree [d] whose leading coefficient is 1 *)
Fixpoint divide (m : poly) (d : nat) (a : poly) : poly * poly :=
  match a with
  | nil => (nil, nil)
  | a0 :: a =>
    let '(q, r) := divide m d a in
    let r := a0 :: r in
    let c := nth d r 0 in
    (c :: q, firstn d (psub r (pscale c m)))
  end.
(** [a.quo_rem(m)]; SageMath raises for divisors that are not monic up to sign (unless the division is exact); this never
    happens here, it is an error of the model *)
Definition quo_rem (a m : poly) : res (poly * poly) :=
  let m := trim m in
  let d := (length m - 1)%nat in
  if nth d m 0 =? 1 then Ok (divide m d a) else Err ValueError.
(** the generator of the polynomial ring *)
Definition pgen : poly := [0; 1].
Definition pcheb (n : nat) : poly := chebyshev_T [1] padd pmul psub n pgen.
Definition podd_prime (p : nat) : poly := cos_minpoly_odd_prime [1] padd pmul psub popp p pgen.

(** subfield.py 412-415 *)
Fixpoint minpoly_loop (M : poly) (ps : list nat) : res poly :=
  match ps with
  | nil => Ok M
  | p :: ps =>
    match quo_rem (pcomp M (pcheb p)) M with
    | Err x => Err x
    | Ok (q, r) => if forallb (Z.eqb 0) r then minpoly_loop q ps else Err AssertionError
    end
  end.
(** [2**k * prod(p ** (a - 1) for p, a in facs)] *)
Definition minpoly_exponent (k : nat) (facs : list (nat * nat)) : nat :=
  (2 ^ k * fold_right (fun pa n => (fst pa ^ (snd pa - 1) * n)%nat) 1%nat facs)%nat.
(** subfield.py 409-423 for the odd prime factors, of which there is at least one *)
Definition minpoly_odd (k : nat) (p : nat) (a : nat) (facs : list (nat * nat)) : res poly :=
  match minpoly_loop (podd_prime p) (map fst facs) with
  | Err x => Err x
  | Ok M =>
    let nn := minpoly_exponent k ((p, a) :: facs) in
    Ok (if (nn =? 1)%nat then M else pcomp M (pcheb nn))
  end.
(** subfield.py 356-423; the argument is the list [n.factor()] of prime factors in increasing order with their multiplicities;
    the variable is the generator of the polynomial ring over the integers *)
Definition cos_minpoly (facs : list (nat * nat)) : res poly :=
  match facs with
  | nil => Ok (padd pgen [2])
  | (p, a) :: facs =>
    if (p =? 2)%nat
    then match facs with
         | nil => Ok (pcheb (2 ^ (a - 1)))
         | (p, b) :: facs => minpoly_odd a p b facs
         end
    else minpoly_odd 0 p a facs
  end.
