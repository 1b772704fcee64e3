(** Model of homomorphisms of homology groups (flatsurf/geometry/homology.py 1203-2035).

    A homology group is given by its rank, the map from chains to coefficients with respect to the generators
    (homology.py 249-266; it raises ValueError for chains that are not cycles) and the map from coefficients to chains
    ([from_homology], 899-902). Matrices are Sage's: the numbers of rows and columns and the rows. *)
From Coq Require Import List Bool ZArith Arith.
From Verif Require Import MBase MDict.
Import ListNotations.

Section M.
Context {R : Type} `{ER : EqB R}.
Variables (rO rI : R) (radd rmul : R -> R -> R) (ropp : R -> R).
Record mx := Mx { mx_nr : nat; mx_nc : nat; mx_rows : list (list R) }.
Definition mx_entry (m : mx) (i j : nat) : R := nth j (nth i (mx_rows m) []) rO.
Definition mx_make (nr nc : nat) (f : nat -> nat -> R) : mx := Mx nr nc (map (fun i => map (f i) (seq 0 nc)) (seq 0 nr)).
(** [matrix(rows)]: without rows this is a matrix without columns *)
Definition mx_of_rows (rows : list (list R)) : mx := Mx (length rows) (match rows with [] => 0 | r :: _ => length r end) rows.
Definition mx_transpose (m : mx) : mx := mx_make (mx_nc m) (mx_nr m) (fun i j => mx_entry m j i).
Fixpoint rsum (n : nat) (f : nat -> R) : R := match n with O => rO | S n => radd (rsum n f) (f n) end.
Definition mx_add (m m' : mx) : res mx :=
  if (mx_nr m =? mx_nr m') && (mx_nc m =? mx_nc m') then Ok (mx_make (mx_nr m) (mx_nc m) (fun i j => radd (mx_entry m i j) (mx_entry m' i j))) else Err TypeError.
Definition mx_scale (x : R) (m : mx) : mx := mx_make (mx_nr m) (mx_nc m) (fun i j => rmul x (mx_entry m i j)).
Definition mx_neg (m : mx) : mx := mx_make (mx_nr m) (mx_nc m) (fun i j => ropp (mx_entry m i j)).
Definition mx_mul (m m' : mx) : res mx :=
  if mx_nc m =? mx_nr m' then Ok (mx_make (mx_nr m) (mx_nc m') (fun i j => rsum (mx_nc m) (fun k => rmul (mx_entry m i k) (mx_entry m' k j)))) else Err TypeError.
Definition mx_vec (m : mx) (v : list R) : res (list R) :=
  if mx_nc m =? length v then Ok (map (fun i => rsum (mx_nc m) (fun j => rmul (mx_entry m i j) (nth j v rO))) (seq 0 (mx_nr m))) else Err TypeError.
Definition mx_bool (m : mx) : bool := existsb (existsb (fun x => negb (eqb x rO))) (mx_rows m).
Fixpoint eq_list {A} (f : A -> A -> bool) (l l' : list A) : bool := match l, l' with [], [] => true | x :: l, y :: l' => f x y && eq_list f l l' | _, _ => false end.
Definition mx_eqb (m m' : mx) : bool := (mx_nr m =? mx_nr m') && (mx_nc m =? mx_nc m') && eq_list (eq_list eqb) (mx_rows m) (mx_rows m').

(** ** homomorphisms *)
Context {G C : Type} `{EG : EqB G}.
Variables (rank : G -> nat) (coeffs : G -> C -> res (list R)) (lift : G -> list R -> C).
Variable same_morphism : (C -> C) -> (C -> C) -> bool.
Local Open Scope res_scope.
Definition unit_vec (n i : nat) : list R := map (fun j => if i =? j then rI else rO) (seq 0 n).
(** 1053-1085 for degrees 0, 1, 2 *)
Definition hgen (g : G) (i : nat) : C := lift g (unit_vec (rank g) i).
Inductive kind := KMatrix (m : mx) | KInduced (F : C -> C).
Record mor := Mor { m_dom : G; m_cod : G; m_kind : kind }.
(** 1251-1272 *)
Definition hom_matrix (d : G) (f : mx) (codomain : option G) : res mor :=
  c <- match codomain with Some c => Ok c | None => if mx_nr f =? mx_nc f then Ok d else Err NotImplementedError end ;;
  if negb (mx_nc f =? rank d) then Err ValueError else
  if negb (mx_nr f =? rank c) then Err ValueError else Ok (Mor d c (KMatrix f)).
(** 1771-1799 and 1906-1928; the map on chains [F] is [_image_homology] of the morphism of surfaces *)
Definition mcall (f : mor) (x : C) : res C :=
  match m_kind f with
  | KMatrix m => v <- coeffs (m_dom f) x ;; w <- mx_vec m v ;; Ok (lift (m_cod f) w)
  | KInduced F => Ok (F x)
  end.
(** 1567-1598 *)
Definition mmatrix (f : mor) : res mx :=
  rows <- rmap (fun i => y <- mcall f (hgen (m_dom f) i) ;; coeffs (m_cod f) y) (seq 0 (rank (m_dom f))) ;; Ok (mx_transpose (mx_of_rows rows)).
(** 1600-1627 *)
Definition madd (f g : mor) : res mor :=
  a <- mmatrix f ;; b <- mmatrix g ;; m <- mx_add a b ;; hom_matrix (m_dom f) m (Some (m_cod f)).
(** 1629-1649; the codomain is not passed on *)
Definition mscale (x : R) (f : mor) : res mor := a <- mmatrix f ;; hom_matrix (m_dom f) (mx_scale x a) None.
(** 1651-1675 *)
Definition mneg (f : mor) : res mor := a <- mmatrix f ;; hom_matrix (m_dom f) (mx_neg a) (Some (m_cod f)).
(** 1677-1703 *)
Definition mcomp (f g : mor) : res mor := a <- mmatrix f ;; b <- mmatrix g ;; m <- mx_mul a b ;; hom_matrix (m_dom g) m (Some (m_cod f)).
(** 1705-1728 *)
Definition mbool (f : mor) : res bool := a <- mmatrix f ;; Ok (mx_bool a).
(** 1801-1835 and 1977-2012 *)
Definition meq (f g : mor) : bool :=
  match m_kind f, m_kind g with
  | KMatrix m, KMatrix m' => eqb (m_dom f) (m_dom g) && eqb (m_cod f) (m_cod g) && mx_eqb m m'
  | KInduced F, KInduced F' => eqb (m_dom f) (m_dom g) && eqb (m_cod f) (m_cod g) && same_morphism F F'
  | _, _ => false
  end.
(** 1430-1455 and 1457-1482 *)
Definition midentity (g : G) : mor := Mor g g (KMatrix (mx_make (rank g) (rank g) (fun i j => if i =? j then rI else rO))).
Definition mzero (d c : G) : res mor := hom_matrix d (mx_make (rank c) (rank d) (fun _ _ => rO)) (Some c).
End M.
