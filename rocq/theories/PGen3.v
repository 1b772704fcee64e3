(** The gluings of the generators: computed for polygons with arbitrary vertices. *)
From Coq Require Import List Bool ZArith Arith Lia QArith.
From Verif Require Import OField FMicromega PField MBase MDict MEuclid MSim MPoly MMut SMut MSurf SSurf MComb MGen PGen PGen2.
Import ListNotations.

Section P.
Context {K : OField}.
Notation nv := (@length (vec K) : polygon K -> nat).
(** what is computed from the numbers of vertices alone *)
Definition shaped (prog : list (res (polygon K)) -> M (@surf (polygon K)) unit) (gl : list (hedge * hedge)) (lens : list nat) (v : nat) (g : Q) :=
  forall Ps, map (@length _) Ps = lens ->
  exists c, prog (map Ok Ps) empty = (c, Ok tt) /\ assembled Ps gl c /\ count_corners (csurf_of (mut_surface c) (zlabels (length Ps))) = Ok v /\ genus (csurf_of (mut_surface c) (zlabels (length Ps))) = Ok g.
Ltac explode Ps H :=
  repeat (destruct Ps as [|? Ps]; [discriminate H|]; cbn [map] in H; injection H; clear H; intros H ?); destruct Ps; [|discriminate H]; clear H.
Ltac explode1 :=
  repeat match goal with
  | H : length ?P = S _ |- _ => destruct P as [|? P]; [discriminate H|]; cbn [length] in H; injection H; clear H; intros H
  | H : length ?P = O |- _ => destruct P; [|discriminate H]; clear H
  end.
Ltac shape := let Ps := fresh "Ps" in let H := fresh "H" in intros Ps H; explode Ps H; explode1;
  eexists; split; [vm_compute; reflexivity|split; [constructor; reflexivity|split; vm_compute; reflexivity]].
Lemma shape_torus : shaped (fun rs => assemble rs torus_gluings) torus_gluings [4%nat] 1 1.
Proof. shape. Qed.
Lemma shape_L : shaped (fun rs => assemble rs mcmullen_L_gluings) mcmullen_L_gluings [4; 4; 4]%nat 1 2.
Proof. shape. Qed.
Lemma shape_cathedral : shaped (fun rs => assemble rs cathedral_gluings) cathedral_gluings [4; 10; 4; 8]%nat 3 4.
Proof. shape. Qed.
Lemma shape_genus2 : shaped (fun rs => assemble rs genus2_gluings) genus2_gluings [4; 6]%nat 1 2.
Proof. shape. Qed.
Lemma shape_genus2_rel : shaped (fun rs => assemble rs genus2_gluings_rel) genus2_gluings_rel [4; 8]%nat 2 2.
Proof. shape. Qed.
Lemma shape_genus3 : shaped (fun rs => assemble rs genus3_gluings) genus3_gluings [6; 4; 6]%nat 1 3.
Proof. shape. Qed.
Lemma shape_genus4 : shaped (fun rs => assemble rs genus4_gluings) genus4_gluings [4; 7; 7; 4]%nat 1 4.
Proof. shape. Qed.
Definition dilation_prog (rs : list (res (polygon K))) : M (@surf (polygon K)) unit :=
  mbind (addp (Some 0%Z) (nth 0 rs (Err Diverge))) (fun _ => mbind (addp (Some 1%Z) (nth 1 rs (Err Diverge))) (fun _ =>
  mbind (glues dilation_torus_gluings) (fun _ => mbind (set_roots nv [0%Z]) (fun _ => set_immutable nv)))).
Lemma shape_dilation : shaped dilation_prog dilation_torus_gluings [4; 4]%nat 2 1.
Proof. shape. Qed.
Definition square_prog (rs : list (res (polygon K))) : M (@surf (polygon K)) unit :=
  mbind (addp (Some 0%Z) (nth 0 rs (Err Diverge))) (fun _ => mbind (set_roots nv [0%Z]) (fun _ =>
  mbind (addp (Some 1%Z) (nth 1 rs (Err Diverge))) (fun _ => mbind (addp (Some 2%Z) (nth 2 rs (Err Diverge))) (fun _ =>
  mbind (glues genus_two_square_gluings) (fun _ => set_immutable nv))))).
Lemma shape_square : shaped square_prog genus_two_square_gluings [6; 3; 3]%nat 1 2.
Proof. shape. Qed.
End P.
