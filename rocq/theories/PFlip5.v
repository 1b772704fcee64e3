(** Proofs about flips of triangles: what a user can observe. *)
From Coq Require Import List Bool ZArith Arith Lia Ring Field Relations.
From Verif Require Import OField FMicromega PField MBase MDict PDict MEuclid SEuclid PEuclid MSim SSim PSim MPoly PPoly
  MMut SMut PMut PMut2 PMut3 TMut PGlue MSurf SSurf PSurf PSurf3 SPoint PPoint PSimple MFlip SFlip PFlip PFlip2 PFlip3 PFlip4.
Import ListNotations.

Section Flip.
Context {K : OField}.
Add Field KFflip5 : (of_ft K).
Local Open Scope F_scope.
Notation nv := (@length (vec K)).
Implicit Types s : @surf (polygon K).

Lemma orient_move (p q r u : vec K) : orient (vadd p u) (vadd q u) (vadd r u) = orient p q r.
Proof. destruct p, q, r, u. unfold orient, ccw. cbn. ring. Qed.
Lemma area_tri (Q : polygon K) d : length Q = 3%nat -> (d < 3)%nat ->
  area Q = orient (vertex Q d) (vertex Q (d + 1)) (vertex Q (d + 2)) / 2.
Proof.
  intros L H. destruct Q as [|p [|q [|r [|? ?]]]]; try discriminate. rewrite area_triangle. fold (orient p q r).
  apply lt3 in H. destruct H as [->|[->| ->]]; cbn.
  - reflexivity.
  - now rewrite (orient_rot p q r).
  - now rewrite <- (orient_rot r p q).
Qed.
Lemma quad_areas (x y a b : vec K) : orient b a x / 2 + orient a b y / 2 = orient x y a / 2 + orient y x b / 2.
Proof. destruct x, y, a, b. unfold orient, ccw. cbn. field. apply (@f2_neq0 K). Qed.
Lemma half_pos (z : K) : 0 < z -> 0 < z / 2.
Proof. intros. apply fdiv_pos; auto. apply f2_pos. Qed.

(** rooted and cov *)
Lemma rooted_cov s : inv nv s -> (rooted s <-> cov s).
Proof.
  intros I. unfold rooted, cov. split; (intros [H|H]; [left; exact H|right]); intros l Hl.
  - apply is_label_keys in Hl. destruct (H l Hl) as [r [Hr C]]. exists r. split; auto. now apply (linked_conn nv s).
  - apply is_label_keys in Hl. destruct (H l Hl) as [r [Hr C]]. exists r. split; auto. now apply (linked_conn nv s).
Qed.

Lemma not_free_glued s x : good nv s -> is_edge nv s x -> ~ free nv s x -> exists y, gz (gluings s) x = Some y.
Proof.
  intros G E N. destruct (gz (gluings s) x) as [y|] eqn:Gx; [eauto|]. exfalso. apply N.
  apply free_gz; [apply (g_inv nv s G)|apply (g_tot nv s G)|]. auto.
Qed.

Section Result.
Context (s : @surf (polygon K)) (l : label) (e : nat) (l' : label) (e' : nat) (P P' : polygon K) (F : vec K -> vec K).
Hypothesis In : intact nv s.
Hypothesis Mu : mutable s = true.
Hypothesis Ro : rooted s.
Hypothesis T : two_triangles s l e l' e' P P' F.
Hypothesis D : l <> l'.
Hypothesis IS : inner_sides s l e l' e'.
Let x := vertex P e.
Let y := vertex P (e + 1).
Let a := vertex P (e + 2).
Let b := F (vertex P' (e' + 2)).
Hypothesis C : strictly_convex4 x b y a.

Lemma flip_main : exists s' Q Q', triangle_flip l e s = (s', Ok tt) /\
  intact nv s' /\ mutable s' = true /\ rooted s' /\ (roots_ s = nil -> roots_ s' = nil) /\
  get_polygon s' l = Ok Q /\ get_polygon s' l' = Ok Q' /\
  (forall m, m <> l -> m <> l' -> get_polygon s' m = get_polygon s m) /\
  length Q = 3%nat /\ length Q' = 3%nat /\ vertex Q 0 = vzero /\ vertex Q' 0 = vzero /\
  (exists u, vertex Q e = vadd b u /\ vertex Q (e + 1) = vadd a u /\ vertex Q (e + 2) = vadd x u) /\
  (exists u, vertex Q' e' = vadd a u /\ vertex Q' (e' + 1) = vadd b u /\ vertex Q' (e' + 2) = vadd y u) /\
  regluing (moved l e l' e') s s'.
Proof.
  pose proof (intact_good nv s In) as G. pose proof (g_inv nv s G) as I. pose proof (g_tot nv s G) as Tot. pose proof (g_sep nv s G) as Se.
  pose proof (proj1 (rooted_cov s I) Ro) as Co.
  pose proof (run_edge s l e l' e' P P' F T) as RE.
  destruct (IS 1%nat (or_introl eq_refl)) as [N1 N1']. destruct (IS 2%nat (or_intror eq_refl)) as [N2 N2'].
  destruct (not_free_glued s _ G (proj1 (RE 1%nat)) N1) as [g1 G1]. destruct (not_free_glued s _ G (proj1 (RE 2%nat)) N2) as [g2 G2].
  destruct (not_free_glued s _ G (proj2 (RE 1%nat)) N1') as [g1' G1']. destruct (not_free_glued s _ G (proj2 (RE 2%nat)) N2') as [g2' G2'].
  pose proof (mid_inv s l e l' e' P P' F I T D) as MI.
  destruct (flip_run s l e l' e' P P' F I Tot T D C Mu Se Co g1 g2 g1' g2' G1 G2 G1' G2') as [s' [E [EM [I' [Fr [S' [C' [N' G']]]]]]]].
  set (sm := s_mid s l e l' e' P P' F) in *.
  destruct (mid_polys s l e l' e' P P' F D) as [PQ [PQ' PO]]. fold sm in PQ, PQ', PO.
  pose proof (tt_edge _ _ _ _ _ _ _ _ T) as He. pose proof (tt_edge' _ _ _ _ _ _ _ _ T) as He'.
  assert (GP : forall m, get_polygon s' m = get_polygon sm m) by (intros m; unfold get_polygon; now rewrite (f_polys _ _ Fr)).
  destruct (new_triangle_spec e b a x He) as [L1 [V1 W1]]. destruct (new_triangle_spec e' a b y He') as [L2 [V2 W2]].
  exists s', (Qn e e' P P' F), (Qn' e e' P P' F). rewrite !GP.
  repeat match goal with |- _ /\ _ => split end; auto.
  - apply (mfor_intact _ sm s' (mid_intact s l e l' e' P P' F T D In)) in EM; auto.
    intros p q. apply (pairs_nonneg s l e l' e' P P' F I Tot T D _ _ _ _ G1 G2 G1' G2').
  - rewrite (f_mut _ _ Fr). exact Mu.
  - now apply rooted_cov.
  - intros m A B. rewrite GP. auto.
  - split; [intros z w Hz; apply (glued_gz nv s z w I) in Hz|].
    { apply (glued_gz nv s' _ _ I').
    destruct (gz_fine s l e l' e' P P' F I T z w Hz) as [Fz _]. exact (eq_trans (G' z Fz) (f_equal (option_map (moved l e l' e')) Hz)). }
    assert (TT : total s') by (apply (total_frame sm); auto; intros m Hm; unfold sm in Hm; rewrite (mid_keys s l e l' e' P P' F T) in Hm; apply Tot; exact Hm).
    intros z Hz. apply (free_gz nv s z I Tot) in Hz. destruct Hz as [Ez Hz]. apply (edge_inrange nv s z I Tot) in Ez.
    apply (free_gz nv s' _ I' TT). split.
    + apply inrange_edge; auto. apply (frame_range sm s' _ Fr). apply (mv_range s l e l' e' P P' F I Tot T D z Ez).
    + exact (eq_trans (G' z (run_fine s l e l' e' P P' F I T z Ez)) (f_equal (option_map (moved l e l' e')) Hz)).
Qed.
End Result.

(** *** failures *)
Lemma flip_not_convex s l e l' e' P P' F : intact nv s -> two_triangles s l e l' e' P P' F -> edge P e <> vzero ->
  ~ strictly_convex4 (vertex P e) (F (vertex P' (e' + 2))) (vertex P (e + 1)) (vertex P (e + 2)) ->
  exists x, triangle_flip l e s = (s, Err x).
Proof.
  intros In T N NC. pose proof (g_inv nv s (intact_good nv s In)) as I.
  pose proof (two_convex s l e l' e' P P' F I T N) as TC. pose proof T as T0. destruct T0.
  unfold triangle_flip. change (list (vec K)) with (polygon K). unfold mbind at 1, mread at 1.
  rewrite (two_opp s l e l' e' P P' F T). cbn [fst snd].
  unfold mbind at 1, mread at 1. rewrite tt_poly. unfold mbind at 1, mread at 1. rewrite tt_poly'.
  rewrite tt_len, tt_len'. cbn [Nat.eqb negb orb]. unfold mbind at 1, mret at 1.
  unfold mbind at 1, mread at 1. destruct (is_convex_at (mut_surface s) l e true) as [[]|x]; [exfalso; tauto| |eauto].
  exists ValueError. reflexivity.
Qed.
Lemma flip_not_triangles s l e l' z P P' : get_polygon s l = Ok P -> get_polygon s l' = Ok P' ->
  opposite_edge s l (Z.of_nat e) = Ok (Some (l', z)) -> length P <> 3%nat \/ length P' <> 3%nat ->
  triangle_flip l e s = (s, Err ValueError).
Proof.
  intros A A' O N. unfold triangle_flip. change (list (vec K)) with (polygon K). unfold mbind at 1, mread at 1.
  unfold opp_pair. cbn [s_opp mut_surface]. rewrite O. cbn [bind fst snd].
  unfold mbind at 1, mread at 1. rewrite A. unfold mbind at 1, mread at 1. rewrite A'.
  replace (negb (nv P =? 3)%nat || negb (nv P' =? 3)%nat) with true; [reflexivity|].
  symmetry. apply orb_true_iff. rewrite !negb_true_iff, !Nat.eqb_neq. exact N.
Qed.
Lemma flip_boundary s l e : opposite_edge s l (Z.of_nat e) = Ok None -> triangle_flip l e s = (s, Err TypeError).
Proof.
  intros O. unfold triangle_flip. unfold mbind at 1, mread at 1. unfold opp_pair. cbn [s_opp mut_surface]. rewrite O. reflexivity.
Qed.

(** *** edges *)
Lemma edge_tri (Q : polygon K) d k : length Q = 3%nat -> edge Q ((d + k) mod 3) = edge Q (d + k).
Proof. intros L. rewrite <- L. apply edge_mod. Qed.
Lemma vertex_3 (Q : polygon K) d : length Q = 3%nat -> vertex Q (d + 3) = vertex Q d.
Proof. intros <-. apply vertex_add_n. Qed.
Lemma edge_vector_tri s l (Q : polygon K) d k : get_polygon s l = Ok Q -> length Q = 3%nat ->
  edge_vector s (tri_edge l d k) = Ok (vsub (vertex Q (d + k + 1)) (vertex Q (d + k))).
Proof.
  intros G L. unfold edge_vector, tri_edge. cbn [fst snd]. rewrite G. rewrite Nat2Z.id, edge_tri by auto. unfold edge.
  now rewrite <- (Nat.add_1_r (d + k)).
Qed.
Lemma map_area (P : polygon K) F u : (forall p, F p = vadd p u) -> length P = 3%nat -> area (map F P) = area P.
Proof.
  intros H L. destruct P as [|p [|q [|r [|? ?]]]]; try discriminate. cbn [map]. rewrite !area_triangle, !H.
  fold (orient p q r). now rewrite <- (orient_move p q r u).
Qed.

(** *** combinations *)
Lemma convex_rot (p q r t : vec K) : strictly_convex4 p q r t -> strictly_convex4 q r t p.
Proof. unfold strictly_convex4. tauto. Qed.
Lemma convex_move (p q r t u : vec K) : strictly_convex4 p q r t -> strictly_convex4 (vadd p u) (vadd q u) (vadd r u) (vadd t u).
Proof. unfold strictly_convex4. now rewrite !orient_move. Qed.

Lemma translation_similarity (F : vec K -> vec K) w : (forall p, F p = vadd p w) -> (exists c, map_similarity F c) /\ map_orientation_preserving F.
Proof.
  intros H. split.
  - exists 1. split; [apply flt_0_1|]. intros p q. rewrite !H. destruct p, q, w. unfold dist2, dot, vsub, vadd. cbn [fst snd]. ring.
  - intros p q r X. rewrite !H. now rewrite orient_move.
Qed.
Lemma spiral_similarity (F : vec K -> vec K) c d w : c <> 0 \/ d <> 0 -> (forall p, F p = vadd (c * fst p - d * snd p, d * fst p + c * snd p) w) ->
  (exists r, map_similarity F r) /\ map_orientation_preserving F.
Proof.
  intros N H. assert (Z : 0 < c * c + d * d) by now apply fsum_sq_pos. split.
  - exists (c * c + d * d). split; [exact Z|]. intros p q. rewrite !H. destruct p, q, w. unfold dist2, dot, vsub, vadd. cbn [fst snd]. ring.
  - intros p q r X. rewrite !H. replace (orient _ _ _) with ((c * c + d * d) * orient p q r); [now apply fmul_pos|].
    destruct p, q, r, w. unfold orient, ccw. cbn. ring.
Qed.
Lemma shift_back (p u v : vec K) : vadd (vadd p u) (vsub v u) = vadd p v.
Proof. apply vec_eq; cbn; ring. Qed.
Lemma vadd_assoc (p u v : vec K) : vadd (vadd p u) v = vadd p (vadd u v).
Proof. apply vec_eq; cbn; ring. Qed.
Lemma vsub_shift (p q u : vec K) : vsub (vadd p u) (vadd q u) = vsub p q.
Proof. apply vec_eq; cbn; ring. Qed.
Lemma vsub_opp (p q : vec K) : vsub p q = vopp (vsub q p).
Proof. apply vec_eq; cbn; ring. Qed.

Lemma moved_all l e l' e' : l <> l' -> (e < 3)%nat -> (e' < 3)%nat ->
  moved l e l' e' (tri_edge l e 0) = tri_edge l e 0 /\ moved l e l' e' (tri_edge l e 1) = tri_edge l' e' 2 /\
  moved l e l' e' (tri_edge l e 2) = tri_edge l e 1 /\ moved l e l' e' (tri_edge l' e' 0) = tri_edge l' e' 0 /\
  moved l e l' e' (tri_edge l' e' 1) = tri_edge l e 2 /\ moved l e l' e' (tri_edge l' e' 2) = tri_edge l' e' 1.
Proof.
  intros D He He'. repeat match goal with |- _ /\ _ => split end;
    [apply moved_0|apply moved_1|apply moved_2|apply moved_0'|apply moved_1'|apply moved_2']; auto.
Qed.
Lemma moved_twice l e l' e' x : (e < 3)%nat -> (e' < 3)%nat -> l <> l' -> fine l l' e e' x -> x <> tri_edge l e 0 -> x <> tri_edge l' e' 0 ->
  moved l e l' e' (moved l e l' e' x) = exchanged l e l' e' x.
Proof.
  intros He He' D Fx N N'. unfold exchanged.
  destruct (fine_cases l l' e e' x Fx) as [[A B]|[->|[->|[->|[->|[->| ->]]]]]]; try tauto.
  - rewrite !(moved_other l l' e e' x) by auto.
    repeat match goal with |- context [eqb x ?z] => replace (eqb x z) with false; [|symmetry; destruct (eqb x z) eqn:X; auto; apply (eqb_ok x z) in X; rewrite X in A, B; cbn in A, B; tauto] end.
    reflexivity.
  - rewrite moved_1, moved_2' by auto. rewrite t_neq, eqb_refl by (auto; lia). reflexivity.
  - rewrite moved_2, moved_1 by auto. rewrite !t_neq, eqb_refl by (auto; lia). reflexivity.
  - rewrite moved_1', moved_2 by auto. rewrite !t't_neq, t'_neq, eqb_refl by (auto; lia). reflexivity.
  - rewrite moved_2', moved_1' by auto. rewrite !t't_neq, !t'_neq, eqb_refl by (auto; lia). reflexivity.
Qed.
End Flip.
