(** C24: the fundamental group. *)
From Coq Require Import List Bool ZArith Arith Lia.
From Verif Require Import MBase MDict PDict MGroup SGroup PGroup PGroup2.
Import ListNotations.

Section T.
Context {L : Type} `{EL : EqB L}.
Variables (sides : L -> res nat) (opp : L -> nat -> res (option (L * nat))) (base : L).
Notation is_loop := (is_loop opp base).
Hypothesis Sym : symmetric opp.

(** inverses are closed paths on the surface: the same steps backwards; they are inverse for the product *)
Theorem C24_inverse x w : is_loop x w ->
  exists y, invert base x = Ok y /\ is_loop y (map back (rev w)) /\ mul base x y = Ok (one base) /\ mul base y x = Ok (one base) /\
    invert base y = Ok x.
Proof.
  intros [W ->]. exists (of_word base (winv w)). pose proof (walk_winv _ Sym _ _ _ W) as W'.
  split; [eapply invert_word; eauto|]. split; [now split|]. split; [eapply mul_inverse; eauto|]. split.
  - rewrite <- (winv_winv w) at 2. eapply mul_inverse; eauto.
  - erewrite invert_word; eauto. now rewrite winv_winv.
Qed.
(** the identity *)
Theorem C24_one x w : is_loop x w ->
  is_loop (one base) nil /\ mul base x (one base) = Ok x /\ mul base (one base) x = Ok x /\ (is_one x = true <-> x = one base).
Proof.
  intros [W ->]. split; [now split|]. change (one base) with (of_word base (@nil ((L * nat) * (L * nat)))). split; [|split].
  - rewrite (mul_word opp); auto; [|reflexivity|].
    + rewrite mulw_nil_r, rev_involutive. apply (make_word opp); auto.
    + cbn. destruct (rev (map _ w)), (rev w); reflexivity.
  - rewrite (mul_word opp base nil w); auto; [|reflexivity]. cbn [rev]. destruct w; apply (make_word opp); auto.
  - destruct w; cbn; split; auto; discriminate.
Qed.
(** the elements that can be written down: the given edges are crossed one after the other *)
Theorem C24_constructor is x : element sides opp base is = Ok x ->
  exists w, is_loop x w /\ Forall2 (fun i l => exists n, sides (fst (fst l)) = Ok n /\ snd (fst l) = (i mod n)%nat) is w.
Proof.
  unfold element. destruct (follow sides opp base is) as [[[ps es] rs]|] eqn:F; [|discriminate].
  intros M. assert (X : exists w q, walk opp base w q /\ Path ps es rs = of_word base w /\
    Forall2 (fun i l => exists n, sides (fst (fst l)) = Ok n /\ snd (fst l) = (i mod n)%nat) is w).
  { clear M x. revert F. revert ps es rs. generalize base. induction is as [|i is IH]; intros p ps es rs F; cbn in F.
    - inversion F; subst. exists nil, p. cbn. auto.
    - destruct (sides p) as [n|] eqn:Sp; [|discriminate]. destruct (opp p (i mod n)) as [[[q j]|]|] eqn:O; try discriminate.
      destruct (follow sides opp q is) as [[[ps' es'] rs']|] eqn:F'; [|discriminate]. inversion F; subst.
      destruct (IH _ _ _ _ F') as (w & r & W & E & A). exists (((p, i mod n), (q, j)) :: w), r. split; [cbn; auto|].
      split; [|constructor; eauto]. unfold of_word in *. inversion E; subst. reflexivity. }
  destruct X as (w & q & W & E & A). exists w. split; auto. unfold make_path in M. rewrite E in M.
  destruct (path_check base (of_word base w)) eqn:C; [|discriminate]. inversion M; subst. split; auto.
  unfold path_check in C. destruct (negb _); [discriminate|]. cbn [of_word polys_ first] in C.
  rewrite (final_word _ _ _ _ W) in C. destruct (eqb base q) eqn:Q; [|rewrite andb_false_r in C; discriminate].
  apply (proj1 (eqb_ok _ _)) in Q. now subst q.
Qed.
(** Products. What is missing: the loop that cancels steps only looks at the numbers of the edges, so that the product is
    a path on the surface only if these numbers determine the polygon ([distinguishing], in particular if there is just one
    polygon or if the surface is an origami). Without this hypothesis the claim is false: [C24_product_refuted]. *)
Theorem C24_product_partial x w y v : distinguishing opp -> is_loop x w -> is_loop y v ->
  exists z u, mul base x y = Ok z /\ is_loop z u /\ homotopic u (w ++ v) /\ (reduced w -> reduced v -> reduced u).
Proof.
  intros D [W ->] [V ->]. destruct (mul_dist opp base Sym w v D W V) as [E U]. do 2 eexists. split; [exact E|].
  split; [split; [exact U|reflexivity]|]. split.
  - rewrite <- (rev_involutive w) at 2. apply mulw_ho.
  - intros Rw Rv. rewrite mulw_actw; [|now rewrite rev_involutive|auto]. now apply actw_reduced.
Qed.
(** Associativity; missing: the elements have to be reduced words (see [C24_associative_refuted]). *)
Theorem C24_associative_partial x y z w v u : distinguishing opp -> is_loop x w -> is_loop y v -> is_loop z u ->
  reduced w -> reduced v -> reduced u ->
  exists xy yz xyz, mul base x y = Ok xy /\ mul base y z = Ok yz /\ mul base xy z = Ok xyz /\ mul base x yz = Ok xyz.
Proof.
  intros D [W ->] [V ->] [U ->] Rw Rv Ru.
  destruct (mul_dist opp base Sym w v D W V) as [E1 W1], (mul_dist opp base Sym v u D V U) as [E2 W2].
  destruct (mul_dist opp base Sym _ u D W1 U) as [E3 W3], (mul_dist opp base Sym w _ D W W2) as [E4 W4].
  do 3 eexists. split; [exact E1|]. split; [exact E2|]. split; [exact E3|]. rewrite E4. do 2 f_equal.
  assert (X : forall a b, reduced a -> reduced b -> mulw (rev a) b = actw a b).
  { intros a b A B. rewrite mulw_actw; rewrite ?rev_involutive; auto. }
  rewrite (X w v), (X v u), (X w), (X (actw w v)); auto using actw_reduced. symmetry. now apply actw_assoc.
Qed.
(** For reduced words the elements are equal exactly if the paths can be deformed into each other. *)
Theorem C24_equality_partial x y w v : is_loop x w -> is_loop y v -> reduced w -> reduced v -> (homotopic w v <-> x = y).
Proof.
  intros Lx Ly Rw Rv. split.
  - intros Ho. apply ho_reduced_eq in Ho; auto. subst v. destruct Lx as [_ ->], Ly as [_ ->]. reflexivity.
  - intros ->. rewrite (is_loop_fun opp base _ _ _ Lx Ly). apply ho_refl.
Qed.
(** The generators are closed paths and generate: every closed path can be deformed into a concatenation of generators
    and inverses of generators. The comparison [gtb] of the pairs (label, edge) only has to be asymmetric. *)
Theorem C24_gens ls gtb fuel : closed_surface sides opp ls -> In base ls -> (forall a b, gtb a b = true -> gtb b a = false) ->
  edge_count sides ls <= fuel ->
  exists gs, gens sides opp base gtb fuel = Ok gs /\ (forall g, In g gs -> exists w, is_loop g w) /\
    (forall w, walk opp base w base -> exists ws, Forall (letter_of opp base gs) ws /\ homotopic w (concat ws)).
Proof. intros CS B G F. now apply (gens_main sides opp base ls gtb CS B G fuel). Qed.
End T.
Print Assumptions C24_inverse.
Print Assumptions C24_one.
Print Assumptions C24_constructor.
Print Assumptions C24_product_partial.
Print Assumptions C24_associative_partial.
Print Assumptions C24_equality_partial.
Print Assumptions C24_gens.

(** *** examples: the square torus *)
Definition torus_sides (p : nat) : res nat := if (p =? 0)%nat then Ok 4 else Err KeyError.
Definition torus_opp (p e : nat) : res (option (nat * nat)) :=
  if (p =? 0)%nat then if (e <? 4)%nat then Ok (Some (0, (e + 2) mod 4)) else Err IndexError else Err KeyError.
Lemma torus_sym : symmetric torus_opp.
Proof.
  intros [p e] [q j] G. unfold glued in *. cbn [fst snd] in *. unfold torus_opp in *.
  destruct (Nat.eqb_spec p 0) as [->|]; [|discriminate].
  destruct (Nat.ltb_spec e 4) as [He|]; [|discriminate]. injection G as <- <-.
  do 4 (destruct e as [|e]; [reflexivity|]). exfalso; lia.
Qed.
(** a surface with one polygon distinguishes *)
Lemma torus_dist : distinguishing torus_opp.
Proof.
  intros a a' e b j j' A B. unfold glued in *. cbn [fst snd] in *. unfold torus_opp in *.
  destruct (Nat.eqb_spec a 0), (Nat.eqb_spec a' 0); congruence.
Qed.
Definition nat_gtb (a b : nat * nat) : bool := (fst b <? fst a)%nat || ((fst a =? fst b)%nat && (snd b <? snd a)%nat).
Lemma nat_gtb_asym a b : nat_gtb a b = true -> nat_gtb b a = false.
Proof.
  unfold nat_gtb. destruct (Nat.ltb_spec (fst b) (fst a)), (Nat.ltb_spec (fst a) (fst b)), (Nat.eqb_spec (fst a) (fst b)),
    (Nat.eqb_spec (fst b) (fst a)), (Nat.ltb_spec (snd b) (snd a)), (Nat.ltb_spec (snd a) (snd b)); cbn; intros; auto; lia.
Qed.
Lemma torus_closed : closed_surface torus_sides torus_opp [0].
Proof.
  constructor.
  - repeat constructor. intros [].
  - intros p [<-|[]]. now exists 4.
  - intros p n e [<-|[]] E Hn. inversion E; subst. exists (0, (e + 2) mod 4). split; [|now left].
    unfold glued, torus_opp. cbn [fst snd]. apply Nat.ltb_lt in Hn. now rewrite Hn.
  - intros p e b [<-|[]] G. exists 4. split; auto. unfold glued, torus_opp in G. cbn [fst snd] in G.
    destruct (Nat.ltb_spec e 4); [auto|discriminate].
  - apply torus_sym.
Qed.
Local Notation tel := (element torus_sides torus_opp 0).
Definition ok {A} (d : A) (r : res A) : A := match r with Ok a => a | Err _ => d end.
Local Notation mulE x y := (ok (one 0) (mul 0 x y)).
Definition tF (is : list nat) : path := ok (one 0) (tel is).
Example ex_torus :
  gens torus_sides torus_opp 0 nat_gtb 4 = Ok [tF [1]; tF [0]] /\
  mul 0 (tF [0; 1]) (tF [3; 0]) = Ok (tF [0; 0]) /\
  invert 0 (tF [0; 1]) = Ok (tF [3; 2]) /\
  mul 0 (tF [0; 1]) (tF [3; 2]) = Ok (one 0) /\
  mul 0 (tF [4; 5]) (tF [0]) = Ok (tF [0; 1; 0]).
Proof. vm_compute. repeat split. Qed.

(** Finding: on octagon_and_squares (similarity_surface_generators.py 1801-1814 with n = 4), a surface that is used in the
    tests of the product, the product of two closed paths is not a path on the surface; it even is equal, as an element, to a
    path that can be contracted. *)
Definition ward_sides (p : nat) : res nat := if (p =? 0)%nat then Ok 8 else if (p <? 3)%nat then Ok 4 else Err KeyError.
Definition ward_opp (p e : nat) : res (option (nat * nat)) :=
  match p with
  | 0 => if (e <? 8)%nat then Ok (Some (1 + e mod 2, e / 2)) else Err IndexError
  | 1 => if (e <? 4)%nat then Ok (Some (0, 2 * e)) else Err IndexError
  | 2 => if (e <? 4)%nat then Ok (Some (0, 2 * e + 1)) else Err IndexError
  | _ => Err KeyError
  end.
Lemma ward_sym : symmetric ward_opp.
Proof.
  intros [p e] [q j] G. unfold glued in *. cbn [fst snd] in *.
  destruct p as [|[|[|p]]]; cbn [ward_opp] in G; try discriminate.
  - destruct (Nat.ltb_spec e 8) as [He|]; [|discriminate]. injection G as <- <-.
    do 8 (destruct e as [|e]; [reflexivity|]). exfalso; lia.
  - destruct (Nat.ltb_spec e 4) as [He|]; [|discriminate]. injection G as <- <-.
    do 4 (destruct e as [|e]; [reflexivity|]). exfalso; lia.
  - destruct (Nat.ltb_spec e 4) as [He|]; [|discriminate]. injection G as <- <-.
    do 4 (destruct e as [|e]; [reflexivity|]). exfalso; lia.
Qed.
Definition wF (is : list nat) : path := ok (one 0) (element ward_sides ward_opp 0 is).
Theorem C24_product_refuted :
  exists x w y v z, is_loop ward_opp 0 x w /\ is_loop ward_opp 0 y v /\ reduced w /\ reduced v /\ mul 0 x y = Ok z /\
    ~ (exists u, is_loop ward_opp 0 z u).
Proof.
  exists (wF [2; 0]), [((0, 2), (1, 1)); ((1, 0), (0, 0))], (wF [1; 1]), [((0, 1), (2, 0)); ((2, 1), (0, 3))],
    (Path [0; 1; 0] [2; 1] [1; 3]).
  split; [vm_compute; repeat split|]. split; [vm_compute; repeat split|].
  split; [|split; [|split; [vm_compute; reflexivity|]]].
  1, 2: intros (u & l & r & E); destruct u as [|a [|b [|c u]]]; cbn in E; inversion E; subst; discriminate.
  intros (u & W & E). unfold of_word in E. destruct u as [|[[a e] [b j]] [|[[c f] [d k]] [|? u]]]; cbn in E; inversion E; subst.
  cbn in W. unfold glued in W. cbn in W. destruct W as (-> & G & -> & G' & _). cbn in G'. discriminate.
Qed.
Print Assumptions C24_product_refuted.
Example ex_ward : mul 0 (wF [2; 0]) (wF [1; 1]) = Ok (Path [0; 1; 0] [2; 1] [1; 3]) /\
  path_eqb (Path [0; 1; 0] [2; 1] [1; 3]) (wF [2; 1]) = true /\ invert 0 (wF [2; 0]) = Ok (wF [0; 1]).
Proof. vm_compute. repeat split. Qed.
(** Finding: paths that turn back are never shortened, so the product is not associative. *)
Theorem C24_associative_refuted : exists x y z,
  (exists w, is_loop torus_opp 0 x w) /\ (exists w, is_loop torus_opp 0 y w) /\ (exists w, is_loop torus_opp 0 z w) /\
  mulE (mulE x y) z <> mulE x (mulE y z).
Proof.
  exists (tF [0; 2]), (tF [0]), (tF [2]).
  split; [exists [((0, 0), (0, 2)); ((0, 2), (0, 0))]; vm_compute; repeat split|].
  split; [exists [((0, 0), (0, 2))]; vm_compute; repeat split|].
  split; [exists [((0, 2), (0, 0))]; vm_compute; repeat split|].
  vm_compute. discriminate.
Qed.
Print Assumptions C24_associative_refuted.
Example ex_ward_gens : match gens ward_sides ward_opp 0 nat_gtb 16 with Ok gs => length gs = 6 /\ forallb (fun g => path_eqb g (wF (edges_ g))) gs = true | Err _ => False end.
Proof. vm_compute. repeat split. Qed.
