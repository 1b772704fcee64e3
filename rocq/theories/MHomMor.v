(** Model of the action of linear maps on homology: flatsurf/geometry/morphism.py 1377-1420 and 3911-3926. *)
From Coq Require Import List Bool ZArith Arith.
From Verif Require Import OField MBase MEuclid MSim MPoly MSurf MDict MComb MHom.
Import ListNotations.

Section M.
Context {L : Type} `{EL : EqB L}.
Context {R : Type} `{ER : EqB R}.
Variables (rO rI : R) (radd rmul : R -> R -> R) (ropp : R -> R).
(** morphism.py 1409-1420: [_image_homology_gen]; [edge_image] is [_image_homology_edge]. A class is represented by its
    chain; [_image_homology] (1231-1234) extends the images of the generators linearly. *)
Definition image_homology_gen (edge_image : L * nat -> dict (L * nat) R) (c : dict (L * nat) R) : dict (L * nat) R :=
  fold_left (fun image t => cadd rO radd image (cscale rO radd rmul (snd t) (edge_image (fst t)))) c nil.
(** morphism.py 3911-3926: the same label and the same number of the edge, in the homology of the image [T] *)
Definition gl2r_edge (T : csurf L) (d : L * nat) : dict (L * nat) R := of_edge rO rI radd rmul ropp T d.
(** the image of a class of the surface [S] with the given labels under the morphism [S.apply_matrix(M)] *)
Definition gl2r_image {K : OField} (S : surface K L) (labels : list L) (M : mat K) (c : dict (L * nat) R) : dict (L * nat) R :=
  image_homology_gen (gl2r_edge (csurf_of (gl2r S M) labels)) c.
End M.
