(** The generators produce closed surfaces. *)
From Coq Require Import List Bool ZArith Arith Lia Ring Field QArith.
From Verif Require Import OField FMicromega PField MBase MDict PDict MEuclid SEuclid PEuclid MSim SSim PSim MPoly PPoly MMut SMut PBuild PFlip4
  MSurf SSurf SPoint PPoint PTurn MComb PFam2 TPoly2 MGen SGen PGen PGen2 PGen3 PGen4 PGen5.
Import ListNotations.

Section P.
Context {K : OField}.
Add Field KF : (of_ft K).
Local Open Scope F_scope.
Notation nv := (@length (vec K) : polygon K -> nat).
Ltac red_l := lazy [opposite antiparallel edge_at hg edge edges vertex length Nat.modulo Nat.divmod Nat.sub Nat.add nth fst snd vsub vadd vopp vscale map seq Z.to_nat Pos.to_nat Pos.iter_op].
Ltac kfield := first [ring|field; apply f2_neq0|field; repeat split; apply f2_neq0].
Ltac glue_tac gl := unfold gl; repeat (apply Forall_cons; [red_l; apply vec_eq; lazy [fst snd]; kfield|]); apply Forall_nil.
Ltac area_tac := lazy [fold_right area fold_left edge vsub vertex length Nat.modulo Nat.divmod Nat.sub Nat.add nth fst snd seq vadd]; kfield.
Ltac edges_tac := red_l; repeat (apply f_equal2; [apply vec_eq; lazy [fst snd]; ring|]); reflexivity.
Ltac all_fine := repeat (apply Forall_cons; [|]); try apply Forall_nil.

Lemma torus_ok (u v : vec K) : 0 < ccw u v -> exists c, torus u v empty = (c, Ok tt) /\ finite_surface map_translation 1 1 1 (ccw u v) c.
Proof.
  intros H. pose proof (fine_para u v H) as F.
  destruct (run_translation _ _ _ _ 1%nat shape_torus eq_refl eq_refl ltac:(cbn; lia) [[(0, 0); u; vadd u v; v]] (ccw u v)) as (c & E & S1);
    [reflexivity|all_fine; exact F|destruct u, v; glue_tac torus_gluings|destruct u, v; unfold ccw; area_tac|].
  exists c. split; [|exact S1]. unfold torus. rewrite (fine_vertices _ F). exact E.
Qed.
Lemma torus_area (u v : vec K) : area [(0, 0); u; vadd u v; v] = ccw u v.
Proof. destruct u, v; unfold ccw; area_tac. Qed.
Lemma torus_iff (u v : vec K) : (exists c, torus u v empty = (c, Ok tt)) <-> 0 < ccw u v.
Proof.
  split; [|intros H; destruct (torus_ok u v H) as (c & E & _); eauto].
  intros (c & E). unfold torus in E. apply assemble_inv in E. inversion E as [|a b H1 H2]. destruct H1 as [P H1]. apply C51_vertices in H1. destruct H1 as (-> & _ & _ & _ & H1).
  rewrite torus_area in H1. exact H1.
Qed.

Definition box (x y : K) : polygon K := [(0, 0); (x, 0); (x, y); (0, y)].
Lemma box_edges x y : fine (box x y) -> Polygon_edges [(x, 0); (0, y); (- x, 0); (0, - y)] = Ok (box x y).
Proof. intros F. apply fine_edges; auto. unfold box. edges_tac. Qed.
Lemma L_ok (l1 l2 l3 l4 : K) : (0 < l1 /\ 0 < l2 /\ 0 < l3 /\ 0 < l4) \/ (l1 < 0 /\ l2 < 0 /\ l3 < 0 /\ l4 < 0) ->
  exists c, mcmullen_L l1 l2 l3 l4 empty = (c, Ok tt) /\ finite_surface map_translation 3 1 2 (l1 * l3 + l2 * l3 + l2 * l4) c.
Proof.
  intros H. assert (F : fine (box l3 l2) /\ fine (box l3 l1) /\ fine (box l4 l2)).
  { destruct H as [(A & B & C & D)|(A & B & C & D)]; (split; [|split]); first [solve [apply fine_rect; auto]|solve [apply fine_rect_neg; auto]]. }
  destruct F as (F1 & F2 & F3).
  destruct (run_translation _ _ _ _ 2%nat shape_L eq_refl eq_refl ltac:(cbn; lia) [box l3 l2; box l3 l1; box l4 l2] (l1 * l3 + l2 * l3 + l2 * l4)) as (c & E & S1);
    [reflexivity|all_fine; assumption|unfold box; glue_tac mcmullen_L_gluings|unfold box; area_tac|].
  exists c. split; [|exact S1]. unfold mcmullen_L. rewrite !box_edges by auto. exact E.
Qed.
Lemma box_area x y : area (box x y) = x * y.
Proof. unfold box. area_tac. Qed.
Lemma box_edges_inv (x y : K) P : Polygon_edges [(x, 0); (0, y); (- x, 0); (0, - y)] = Ok P -> 0 < x * y.
Proof.
  intros H. apply C51_edges in H. destruct H as (E & V & L & _ & _ & A).
  assert (LP : length P = 4%nat). { assert (X : length (edges P) = length P) by (unfold edges; now rewrite map_length, seq_length). rewrite <- X, E. reflexivity. }
  destruct P as [|p0 [|p1 [|p2 [|p3 [|]]]]]; try discriminate LP. cbn in V. subst p0. destruct p1 as [a1 b1], p2 as [a2 b2], p3 as [a3 b3].
  lazy [edges edge vertex length Nat.modulo Nat.divmod Nat.sub nth fst snd vsub vzero map seq] in E. injection E. clear E. intros. rewrite <- (box_area x y). replace (box x y) with [vzero; (a1, b1); (a2, b2); (a3, b3)]; auto.
  unfold box, vzero. repeat apply f_equal2; auto; flra.
Qed.
Lemma pos_product (x y : K) : 0 < x * y -> (0 < x /\ 0 < y) \/ (x < 0 /\ y < 0).
Proof.
  intros H. destruct (flt_total x) as [X|[X|X]], (flt_total y) as [Y|[Y|Y]]; subst; auto; exfalso; try flra.
  - assert (0 < (- x) * y) by (apply fmul_pos; flra). flra.
  - assert (0 < x * (- y)) by (apply fmul_pos; flra). flra.
Qed.
Lemma L_iff (l1 l2 l3 l4 : K) : (exists c, mcmullen_L l1 l2 l3 l4 empty = (c, Ok tt)) <-> (0 < l1 /\ 0 < l2 /\ 0 < l3 /\ 0 < l4) \/ (l1 < 0 /\ l2 < 0 /\ l3 < 0 /\ l4 < 0).
Proof.
  split; [|intros H; destruct (L_ok l1 l2 l3 l4 H) as (c & E & _); eauto].
  intros (c & E). unfold mcmullen_L in E. apply assemble_inv in E. rewrite Forall_forall in E.
  destruct (E _ (or_introl eq_refl)) as [P1 H1]. destruct (E _ (or_intror (or_introl eq_refl))) as [P2 H2]. destruct (E _ (or_intror (or_intror (or_introl eq_refl)))) as [P3 H3].
  apply box_edges_inv in H1, H2, H3. apply pos_product in H1, H2, H3. destruct H1, H2, H3; try (exfalso; flra); tauto.
Qed.

Definition standing (a : K) : polygon K := [(0, 0); (0, 1); (- a, 1); (- a, 0)].
Lemma dilation_ok (a : K) : 0 < a -> exists c, basic_dilation_torus a empty = (c, Ok tt) /\ finite_surface map_positive_dilation 2 2 1 (1 + a) c.
Proof.
  intros A. assert (O := @flt_0_1 K). pose proof (fine_standing 1 O) as F1. pose proof (fine_standing a A) as F2.
  assert (N : a <> 0) by (now apply fpos_neq0). assert (A' : 0 < 1 / a) by (now apply fdiv_pos).
  destruct (run_dilation _ _ _ _ 1%nat shape_dilation eq_refl eq_refl ltac:(cbn; lia) [standing 1; standing a] (1 + a)) as (c & E & S1);
    [reflexivity|all_fine; assumption| |unfold standing; area_tac|].
  { unfold standing, dilation_torus_gluings. repeat (apply Forall_cons; [red_l|]); try apply Forall_nil.
    1, 3: exists 1; split; auto; apply vec_eq; lazy [fst snd]; ring.
    all: exists a; split; auto; apply vec_eq; lazy [fst snd]; field; auto. }
  exists c. split; [|exact S1]. unfold basic_dilation_torus.
  rewrite (fine_edges (standing 1) [(0, 1); (- (1), 0); (0, - (1)); (1, 0)]) by (auto; unfold standing; edges_tac).
  rewrite (fine_edges (standing a) [(0, 1); (- a, 0); (0, - (1)); (a, 0)]) by (auto; unfold standing; edges_tac). exact E.
Qed.
Lemma dilation_iff (a : K) : (exists c, basic_dilation_torus a empty = (c, Ok tt)) <-> 0 < a.
Proof.
  split; [|intros H; destruct (dilation_ok a H) as (c & E & _); eauto].
  intros (c & E). unfold basic_dilation_torus in E. apply mbind_inv in E. destruct E as (s1 & u1 & _ & E). apply mbind_inv in E. destruct E as (s2 & u2 & E & _).
  apply addp_inv in E. destruct E as [P H]. apply C51_edges in H. destruct H as (E & V & L & _ & _ & A).
  assert (LP : length P = 4%nat). { assert (X : length (edges P) = length P) by (unfold edges; now rewrite map_length, seq_length). rewrite <- X, E. reflexivity. }
  destruct P as [|p0 [|p1 [|p2 [|p3 [|]]]]]; try discriminate LP. cbn in V. subst p0. destruct p1 as [a1 b1], p2 as [a2 b2], p3 as [a3 b3].
  lazy [edges edge vertex length Nat.modulo Nat.divmod Nat.sub nth fst snd vsub vzero map seq] in E. injection E. clear E. intros.
  assert (B : area (standing a) = a) by (unfold standing; area_tac). rewrite <- B. replace (standing a) with [vzero; (a1, b1); (a2, b2); (a3, b3)]; auto.
  unfold standing, vzero. repeat apply f_equal2; auto; flra.
Qed.

Lemma square_ok (a b c d : K) : 0 < a /\ a < 1 -> 0 < b /\ b < 1 -> 0 < c /\ c < 1 -> 0 < d /\ d < 1 ->
  exists s, genus_two_square a b c d empty = (s, Ok tt) /\ finite_surface map_positive_dilation 3 1 2 1 s.
Proof.
  intros [A A1] [B B1] [C C1] [D D1].
  pose proof (fine_hexagon a b c d A A1 B B1 C C1 D D1) as F1. pose proof (fine_triangle1 (1 - a) b ltac:(flra) B) as F2. pose proof (fine_triangle2 (1 - c) d ltac:(flra) D) as F3.
  match type of F1 with fine ?P => set (P1 := P) in * end. match type of F2 with fine ?P => set (P2 := P) in * end. match type of F3 with fine ?P => set (P3 := P) in * end.
  destruct (run_dilation _ _ _ _ 2%nat shape_square eq_refl eq_refl ltac:(cbn; lia) [P1; P2; P3] 1) as (s & E & S1);
    [reflexivity|all_fine; assumption| |unfold P1, P2, P3; area_tac|].
  { assert (O := @flt_0_1 K). unfold P1, P2, P3, genus_two_square_gluings. clear P1 P2 P3 F1 F2 F3.
    assert (N1 : 1 - a <> 0) by (intros Z0; flra). assert (N2 : 1 - b <> 0) by (intros Z0; flra).
    repeat (apply Forall_cons; [red_l|]); try apply Forall_nil.
    - exists (c / a). split; [now apply fdiv_pos|]. apply vec_eq; lazy [fst snd]; field; now apply fpos_neq0.
    - exists ((1 - d) / (1 - b)). split; [apply fdiv_pos; flra|]. apply vec_eq; lazy [fst snd]; field; auto.
    - exists 1. split; auto. apply vec_eq; lazy [fst snd]; ring.
    - exists 1. split; auto. apply vec_eq; lazy [fst snd]; ring.
    - exists ((1 - c) / (1 - a)). split; [apply fdiv_pos; flra|]. apply vec_eq; lazy [fst snd]; field; auto.
    - exists (d / b). split; [now apply fdiv_pos|]. apply vec_eq; lazy [fst snd]; field; now apply fpos_neq0. }
  exists s. split; [|exact S1]. unfold genus_two_square.
  rewrite (fine_edges P1 [(a, 0); (1 - a, b); (0, 1 - b); (- c, 0); (c - 1, - d); (0, d - 1)]) by (auto; unfold P1; edges_tac).
  rewrite (fine_edges P2 [(1 - a, 0); (0, b); (a - 1, - b)]) by (auto; unfold P2; edges_tac).
  rewrite (fine_edges P3 [(1 - c, d); (c - 1, 0); (0, - d)]) by (auto; unfold P3; edges_tac). exact E.
Qed.

Lemma cathedral_ok (a b : K) : 0 < a -> 0 < b -> exists c, cathedral a b empty = (c, Ok tt) /\ finite_surface map_translation 4 3 4 ((2 + 2 + 2) * a + 2 * b + (2 + 1)) c.
Proof.
  intros A B. unfold cathedral. cbv zeta. set (s := 1 / 2). assert (S : 0 < s) by (apply fdiv_pos; [apply f2_pos|apply flt_0_1]).
  assert (SS : s + s = 1) by (unfold s; field; apply f2_neq0). assert (O := @flt_0_1 K).
  assert (F0 : fine [(0, 0); (a, 0); (a, 1); (0, 1)]) by (now apply fine_rect).
  assert (F1 := fine_tower a b s B S). rewrite SS in F1.
  assert (F2 : fine [(a + 1, 0); (2 * a + 1, 0); (2 * a + 1, 1); (a + 1, 1)]) by (apply fine_box; auto; flra).
  assert (F3 := fine_hall (2 * a + 1) (2 * 2 * a + 1 + s) s ltac:(flra) S).
  replace (2 * 2 * a + 1 + s + s) with (2 * 2 * a + 2) in F3 by (transitivity (2 * 2 * a + 1 + (s + s)); [rewrite SS; ring|ring]).
  rewrite (fine_vertices _ F0), (fine_vertices _ F1), (fine_vertices _ F2), (fine_vertices _ F3).
  match type of F0 with fine ?P => set (P0 := P) in * end. match type of F1 with fine ?P => set (P1 := P) in * end. match type of F2 with fine ?P => set (P2 := P) in * end. match type of F3 with fine ?P => set (P3 := P) in * end.
  apply (run_translation _ _ _ _ 4%nat shape_cathedral eq_refl eq_refl ltac:(cbn; lia) [P0; P1; P2; P3]);
    [reflexivity|all_fine; assumption|unfold P0, P1, P2, P3, s; glue_tac cathedral_gluings|unfold P0, P1, P2, P3, s; area_tac].
Qed.
Lemma cathedral_total (a b : K) : (2 + 2 + 2) * a + 2 * b + (2 + 1) = Z2K K 6 * a + Z2K K 2 * b + Z2K K 3.
Proof. cbn. ring. Qed.
End P.
