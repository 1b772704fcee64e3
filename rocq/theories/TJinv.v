(** Theorems C46: the J-invariant. *)
From Coq Require Import List Bool ZArith Arith Lia QArith Permutation.
From Verif Require Import OField FMicromega PField MBase MDict PDict MEuclid SEuclid PEuclid MSim SSim PSim MPoly PPoly
  MMut SMut PMut PMut2 PMut3 TMut MSurf SSurf PSurf PSurf3 SPoint PPoint PSimple MFlip SFlip PFlip PFlip2 PFlip3 PFlip4 PFlip5 TFlip TEuclid MJinv SJinv PJinv.
Import ListNotations.
Open Scope nat_scope.

(** *** the values of the code are the entries of an alternating form on the coordinates *)
Theorem C46_entries (K : OField) (V : vspace K) (P : polygon K) :
  let d := vs_dim V in
  polygon_j V P =
  (map (fun ij => J_entry V P (fst ij) (snd ij)) (wedge_pairs d),
   map (fun ij => J_entry V P (d + fst ij) (d + snd ij)) (wedge_pairs d),
   map (fun j => map (fun i => J_entry V P i (d + j)) (seq 0 d)) (seq 0 d)) /\
  (forall i j, In (i, j) (wedge_pairs d) <-> i < j < d) /\
  (forall a b, J_entry V P a b = fopp (J_entry V P b a)).
Proof.
  intros d. split; [|split; [intros i j; apply wedge_pairs_lt|apply J_anti]].
  assert (X : forall i, i < d -> coo V i = xc V i).
  { intros i H. unfold coo. fold d. now rewrite (proj2 (Nat.ltb_lt i d)). }
  assert (Y : forall i, coo V (d + i) = yc V i).
  { intros i. unfold coo. fold d. rewrite (proj2 (Nat.ltb_ge (d + i) d)) by lia. f_equal. lia. }
  rewrite polygon_j_spec. unfold j_spec, J_entry. fold d. f_equal; [f_equal|].
  - apply map_ext_in. intros [i j] H. apply wedge_pairs_lt in H. cbn [fst snd]. now rewrite !X, period_csum by lia.
  - apply map_ext_in. intros [i j] H. cbn [fst snd]. now rewrite !Y, period_csum.
  - apply map_ext_in. intros j H. apply map_ext_in. intros i H'. apply in_seq in H, H'. now rewrite X, Y, period_csum by lia.
Qed.
Print Assumptions C46_entries.

(** *** translations, numbering of the vertices, orientation *)
Theorem C46_translate (K : OField) (V : vspace K) (P : polygon K) u : polygon_j V (translate P u) = polygon_j V P.
Proof. rewrite !polygon_j_of. apply j_of_ext. intros. now apply alt_translate. Qed.
Print Assumptions C46_translate.
Theorem C46_rotate (K : OField) (V : vspace K) (A B : polygon K) : polygon_j V (A ++ B) = polygon_j V (B ++ A).
Proof. rewrite !polygon_j_of. apply j_of_ext. intros. apply csum_rot. Qed.
Print Assumptions C46_rotate.
Theorem C46_reverse (K : OField) (V : vspace K) (P : polygon K) a b : J_entry V (rev P) a b = fopp (J_entry V P a b).
Proof. unfold J_entry. rewrite !period_csum. apply alt_rev. Qed.
Print Assumptions C46_reverse.

(** *** cutting along the diagonal from [p] to [q] *)
Theorem C46_cut (K : OField) (V : vspace K) (A : polygon K) p B q C :
  polygon_j V (A ++ p :: B ++ q :: C) = j_add (polygon_j V (p :: B ++ [q])) (polygon_j V (q :: C ++ A ++ [p])).
Proof. rewrite !polygon_j_of, j_of_add. apply j_of_ext. intros. apply csum_cut. apply alt_anti. Qed.
Print Assumptions C46_cut.

(** *** linear maps act by the second exterior power; a map that reverses the orientation also reverses the polygon *)
Theorem C46_linear (K : OField) (V : vspace K) A (g : mat K) (P P' : polygon K) a b :
  describes V A g -> a < 2 * vs_dim V -> b < 2 * vs_dim V -> poly_mul g P = Ok P' ->
  let sum := sum_to (2 * vs_dim V) in
  let w := sum (fun c => sum (fun d => fmul (fmul (A a c) (A b d)) (J_entry V P c d))) in
  J_entry V P' a b = if fltb (mdet g) f0 then fopp w else w.
Proof.
  intros H Ha Hb E sum w. unfold w, sum. rewrite <- (J_linear V A g P a b H Ha Hb). clear w sum. unfold poly_mul in E.
  destruct (feqb (mdet g) f0); [discriminate|]. destruct (fltb (mdet g) f0).
  - injection E as <-. destruct P as [|p P].
    + cbn. flra.
    + unfold J_entry. rewrite !period_csum, <- alt_rev. cbn [map rev]. rewrite csum_rot1. f_equal.
      f_equal; [now rewrite vertex_lt by (cbn; lia)|]. rewrite map_rev. f_equal.
      apply (nth_ext _ _ (mapply g vzero) (mapply g vzero)); rewrite !map_length, ?seq_length; cbn [length]; [lia|].
      intros n Hn.
      rewrite (nth_indep _ (mapply g vzero) (mapply g (vertex (p :: P) 0))) by (rewrite map_length, seq_length; cbn [length]; lia).
      rewrite (map_nth (fun i => mapply g (vertex (p :: P) i))), seq_nth by (cbn [length]; lia). rewrite map_nth. f_equal.
      rewrite vertex_lt by (cbn [length]; lia). reflexivity.
  - injection E as <-. reflexivity.
Qed.
Print Assumptions C46_linear.

(** *** surfaces: the sum over the polygons, in any order; flips of two triangles glued by a translation *)
Theorem C46_flip (K : OField) (V : vspace K) s l e l' e' (P P' : polygon K) F w :
  intact (pnv K) s -> mutable s = true -> rooted s -> two_triangles s l e l' e' P P' F -> l <> l' -> inner_sides s l e l' e' ->
  (forall p, F p = vadd p w) ->
  strictly_convex4 (vertex P e) (F (vertex P' (e' + 2))) (vertex P (e + 1)) (vertex P (e + 2)) ->
  exists s' J, triangle_flip l e s = (s', Ok tt) /\ surface_j V s = Ok J /\ surface_j V s' = Ok J.
Proof.
  intros In Mu Ro T D IS HF C. pose proof T as [A A' LP LP' He He' GL [_ _ M1 M2]].
  destruct (C20_flip K s l e l' e' P P' F In Mu Ro T D IS C) as (s' & Q & Q' & E & I' & _ & _ & G & G' & O & L & L' & _ & _ & (u & U0 & U1 & U2) & (u' & W0 & W1 & W2) & _).
  assert (N : polys s <> nil).
  { intros X. assert (is_label s l) as Y by now exists P. apply is_label_keys in Y. rewrite X in Y. destruct Y. }
  destruct (surface_j_spec V s (intact_good _ _ In) N) as (ls & _ & _ & _ & EJ).
  exists s', (j_of V (tot s ls)). split; [exact E|]. split; [exact EJ|]. rewrite <- EJ.
  apply (surface_j_two V s s' l l'); auto using intact_good; try (now eexists; eauto).
  { intros m. destruct (Z.eq_dec m l) as [->|N1]; [split; intros _; [now exists P|now exists Q]|].
    destruct (Z.eq_dec m l') as [->|N2]; [split; intros _; [now exists P'|now exists Q']|]. unfold is_label. now rewrite O. }
  intros f g Hf Hg. unfold pol. rewrite A, A', G, G'.
  assert (T3 : forall (R : polygon K) k, length R = 3 -> k < 3 -> csum (alt f g) R =
    fadd (alt f g (vertex R k) (vertex R (k + 1))) (fadd (alt f g (vertex R (k + 1)) (vertex R (k + 2))) (alt f g (vertex R (k + 2)) (vertex R k)))).
  { intros R k HR Hk. destruct R as [|r0 [|r1 [|r2 [|]]]]; try discriminate.
    destruct k as [|[|[|]]]; [| | |lia]; cbn; unfold alt; flra. }
  rewrite (T3 Q e), (T3 Q' e'), (T3 P e), (T3 P' e') by auto.
  replace (S e) with (e + 1) in M1 by lia. replace (S e') with (e' + 1) in M2 by lia.
  rewrite HF in M1, M2, C. rewrite HF in U0. rewrite HF in W1.
  rewrite U0, U1, U2, W0, W1, W2. rewrite <- M1, <- M2.
  set (b := vertex P' (e' + 2)). set (a := vertex P (e + 2)). set (x := vertex P' e'). set (y := vertex P' (e' + 1)).
  unfold alt. rewrite !Hf, !Hg. generalize (f u) (f u') (g u) (g u') (f a) (g a) (f b) (g b) (f w) (g w) (f x) (g x) (f y) (g y).
  intros. flra.
Qed.
Print Assumptions C46_flip.

(** *** examples *)
Definition two_V (K : OField) : vspace K.
Proof.
  refine {| vs_dim := 2; vs_coord := fun i x => match i with O => x | _ => fmul (fadd f1 f1) x end |}.
  intros [|i] x y; flra.
Defined.
Definition ex_V : vspace cqF := two_V cqF.
Example C46_ex : polygon_j ex_V [qv 0 0; qv 2 0; qv 3 1; qv 1 4] =
  ([Q2cq 0], [Q2cq 0], [[Q2cq 13; Q2cq 26]; [Q2cq 26; Q2cq 52]]) :> @jinv cqF.
Proof. vm_compute. reflexivity. Qed.
Example C46_ex_flip : exists s' J, triangle_flip 0%Z 2 ex_torus2 = (s', Ok tt) /\ surface_j ex_V ex_torus2 = Ok J /\ surface_j ex_V s' = Ok J.
Proof.
  destruct ex_flip_hyps as (A & B & C & D & E & F).
  exact (C46_flip cqF ex_V ex_torus2 0%Z 2 1%Z 0 tri1 tri2 ex_move (qv (-5) (-5)) A B C D ltac:(discriminate) E (fun _ => eq_refl) F).
Qed.
(** a coordinate matrix of a shear *)
Example C46_ex_linear (K : OField) : exists A, describes (two_V K) A (Mat f1 (fadd f1 f1) f0 f1).
Proof.
  exists (fun a b => if a =? b then f1 else if (a <? 2) && (b =? a + 2) then fadd f1 f1 else f0).
  intros [x y] a Ha. change (a < 4) in Ha. destruct a as [|[|[|[|]]]]; [| | | |lia];
  unfold sum_to, coo, xc, yc, mapply; cbn -[fadd fmul f0 f1]; flra.
Qed.
