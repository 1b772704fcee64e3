(** Proofs about flips of triangles: the result. *)
From Coq Require Import List Bool ZArith Arith Lia Ring Field Relations.
From Verif Require Import OField FMicromega PField MBase MDict PDict MEuclid SEuclid PEuclid MSim SSim PSim MPoly PPoly
  MMut SMut PMut PMut2 PMut3 PGlue MSurf SSurf PSurf PSurf3 SPoint PPoint PSimple MFlip SFlip PFlip PFlip2 PFlip3.
Import ListNotations.

Section Flip.
Context {K : OField}.
Add Field KFflip4 : (of_ft K).
Local Open Scope F_scope.
Notation nv := (@length (vec K)).
Implicit Types s : @surf (polygon K).

(** the triangle with vertices [p], [q], [r] at the positions [d], [d + 1], [d + 2], moved such that vertex 0 is the origin *)
Definition at_origin (P : polygon K) := translate P (vopp (vertex P 0)).
Definition new_triangle d p q r := at_origin (rot3 (K := K) d [p; q; r]).
Lemma new_triangle_spec d p q r : (d < 3)%nat -> length (new_triangle d p q r) = 3%nat /\
  vertex (new_triangle d p q r) 0 = vzero /\ exists u, vertex (new_triangle d p q r) d = vadd p u /\
  vertex (new_triangle d p q r) (d + 1) = vadd q u /\ vertex (new_triangle d p q r) (d + 2) = vadd r u.
Proof.
  intros H. destruct (rot3_spec (K := K) d p q r H) as [L [A [B C]]]. unfold new_triangle, at_origin, translate.
  assert (N : rot3 d [p; q; r] <> nil) by (destruct (rot3 d [p; q; r]); [discriminate|congruence]).
  rewrite map_length. split; auto. rewrite !vertex_map by auto. split.
  - apply vec_eq; cbn; ring.
  - exists (vopp (vertex (rot3 d [p; q; r]) 0)). rewrite A, B, C. repeat split; apply vec_eq; cbn; ring.
Qed.

Lemma mbind_step {S A B} (m : M S A) (f : A -> M S B) st st1 v : m st = (st1, Ok v) -> mbind m f st = f v st1.
Proof. intros E. unfold mbind. now rewrite E. Qed.
Lemma mbind_inv {S A B} (m : M S A) (f : A -> M S B) st st' v : mbind m f st = (st', Ok v) ->
  exists st1 w, m st = (st1, Ok w) /\ f w st1 = (st', Ok v).
Proof. unfold mbind. destruct (m st) as [st1 [w|]]; [eauto|discriminate]. Qed.
Lemma rmap_gz s l e x : inv nv s -> inrange (gluings s) (tri_edge l e 0) -> inrange (gluings s) (tri_edge l e 1) -> inrange (gluings s) (tri_edge l e 2) ->
  x = [0%nat; 1%nat; 2%nat] ->
  rmap (fun i => opposite_edge s l (Z.of_nat ((e + i) mod 3))) x =
  Ok [gz (gluings s) (tri_edge l e 0); gz (gluings s) (tri_edge l e 1); gz (gluings s) (tri_edge l e 2)].
Proof.
  intros I R0 R1 R2 ->. unfold rmap.
  assert (E : forall k, inrange (gluings s) (tri_edge l e k) -> opposite_edge s l (Z.of_nat ((e + k) mod 3)) = Ok (gz (gluings s) (tri_edge l e k))).
  { intros k R. apply opposite_edge_Ok; [lia|]. split; auto. }
  now rewrite (E 0%nat), (E 1%nat), (E 2%nat).
Qed.

Section Run.
Context (s : @surf (polygon K)) (l : label) (e : nat) (l' : label) (e' : nat) (P P' : polygon K) (F : vec K -> vec K).
Hypothesis I : inv nv s.
Hypothesis Tot : total s.
Hypothesis T : two_triangles s l e l' e' P P' F.
Hypothesis D : l <> l'.
Let x := vertex P e.
Let y := vertex P (e + 1).
Let a := vertex P (e + 2).
Let b := F (vertex P' (e' + 2)).
Hypothesis C : strictly_convex4 x b y a.
Notation t := (tri_edge l e).
Notation t' := (tri_edge l' e').
Notation mv := (moved l e l' e').

Lemma run_nz : edge P e <> vzero.
Proof.
  destruct C as [C1 [C2 [C3 C4]]]. apply orient_nz in C1. unfold edge. apply vsub_nz. intros E. apply (proj2 (proj2 C1)).
  unfold x, y. rewrite Nat.add_1_r. auto.
Qed.
Lemma run_edge k : is_edge nv s (t k) /\ is_edge nv s (t' k).
Proof.
  destruct T. split; [exists P|exists P']; (split; [assumption|]); cbn [tri_edge snd].
  - rewrite tt_len. pose proof (Nat.mod_upper_bound (e + k) 3). lia.
  - rewrite tt_len'. pose proof (Nat.mod_upper_bound (e' + k) 3). lia.
Qed.
Lemma run_range k : inrange (gluings s) (t k) /\ inrange (gluings s) (t' k).
Proof. destruct (run_edge k). split; apply (edge_inrange nv); auto. Qed.
Lemma run_fine z : inrange (gluings s) z -> fine l l' e e' z.
Proof.
  intros R. apply (inrange_edge nv s z I) in R. destruct R as [Q [GQ Hz]]. destruct T. destruct z as [m k]. cbn [fst snd] in *. change (list (vec K)) with (polygon K) in *.
  destruct (Z.eq_dec m l) as [->|N1]; [|destruct (Z.eq_dec m l') as [->|N2]].
  - right. rewrite tt_poly in GQ. injection GQ as <-. rewrite tt_len in Hz. destruct (tri_edge_all l e k) as [j [Hj E]]; auto. exists j. auto.
  - right. rewrite tt_poly' in GQ. injection GQ as <-. rewrite tt_len' in Hz. destruct (tri_edge_all l' e' k) as [j [Hj E]]; auto. exists j. auto.
  - left. auto.
Qed.
Lemma run_diag : gz (gluings s) (t 0) = Some (t' 0) /\ gz (gluings s) (t' 0) = Some (t 0).
Proof.
  destruct T as [? ? ? ? E E' ? ?]. rewrite (tri_edge_0 l e E), (tri_edge_0 l' e' E'). split.
  - eapply two_gz; eassumption.
  - eapply two_gz'; eassumption.
Qed.
Lemma run_partner z w : gz (gluings s) z = Some w -> z <> t 0 -> z <> t' 0 -> w <> t 0 /\ w <> t' 0.
Proof.
  intros G N N'. pose proof (i_inv nv s I _ _ G) as G'. destruct run_diag as [A B]. change (list (vec K)) with (polygon K) in *. split; intros ->; congruence.
Qed.

Definition flip_pairs g1 g2 g1' g2' : list (hedge * hedge) :=
  [(t 0, t' 0); (t 1, mv g2); (t 2, mv g1'); (t' 1, mv g2'); (t' 2, mv g1)].
Definition Qn := new_triangle e b a x.
Definition Qn' := new_triangle e' a b y.
Definition s_mid := set_polys (dset l' Qn' (dset l Qn (polys s))) s.

Lemma run_head : triangle_flip l e s =
  (let! y := mlift (to_new l l' (Z.of_nat e) (Z.of_nat e') (gz (gluings s) (t 2))) in
   mbind (glue nv (t 1) y) (fun _ =>
   let! y := mlift (to_new l l' (Z.of_nat e) (Z.of_nat e') (gz (gluings s) (t' 1))) in
   mbind (glue nv (t 2) y) (fun _ =>
   let! y := mlift (to_new l l' (Z.of_nat e) (Z.of_nat e') (gz (gluings s) (t' 2))) in
   mbind (glue nv (t' 1) y) (fun _ =>
   let! y := mlift (to_new l l' (Z.of_nat e) (Z.of_nat e') (gz (gluings s) (t 1))) in
   glue nv (t' 2) y))))%M (fst (glue nv (t 0) (t' 0) s_mid)) \/ snd (glue nv (t 0) (t' 0) s_mid) <> Ok tt.
Proof.
  destruct (glue nv (t 0) (t' 0) s_mid) as [s1 [[]|]] eqn:G; [|right; discriminate]. left. cbn [fst].
  pose proof run_nz as N. pose proof T as T0. destruct T0.
  destruct (two_P2 s l e l' e' P P' F T) as [L2 [V0 [V1 V2]]].
  unfold triangle_flip. change (list (vec K)) with (polygon K). change (list (vec K)) with (polygon K) in *. unfold mbind at 1, mread at 1. rewrite (two_opp s l e l' e' P P' F T). cbn [fst snd].
  unfold mbind at 1, mread at 1. rewrite tt_poly. unfold mbind at 1, mread at 1. rewrite tt_poly'.
  rewrite tt_len, tt_len'. cbn [Nat.eqb negb orb]. unfold mbind at 1, mret at 1.
  unfold mbind at 1, mread at 1. rewrite (proj2 (two_convex s l e l' e' P P' F I T N) C). unfold mbind at 1, mret at 1.
  destruct (two_transformation s l e l' e' P P' F I T N) as [f [Ef Hf]].
  unfold mbind at 1, mread at 1. rewrite Ef. unfold mbind at 1, mlift at 1. rewrite (two_map P' F f Hf).
  rewrite (two_P2_ok s l e l' e' P P' F T C).
  unfold mbind at 1, mread at 1. rewrite rmap_gz; auto; try apply run_range.
  unfold mbind at 1, mread at 1. rewrite rmap_gz; auto; try apply run_range.
  rewrite V1. unfold mbind at 1, massert at 1. rewrite (proj2 (veqb_eq (vertex P e) (vertex P e)) eq_refl). unfold mret at 1. cbv beta iota.
  rewrite V0. unfold mbind at 1, massert at 1. rewrite (proj2 (veqb_eq (vertex P (e + 1)) (vertex P (e + 1))) eq_refl). unfold mret at 1. cbv beta iota.
  cbv zeta. rewrite V2. fold x a y b.
  destruct C as [C1 [C2 [C3 C4]]].
  fold (rot3 e [b; a; x]). fold (rot3 e' [a; b; y]).
  unfold mbind at 1, mlift at 1. rewrite (rot3_ok e b a x) by (auto; now rewrite orient_rot in C4 || rewrite <- (orient_rot a x b), <- (orient_rot x b a) in C4).
  unfold mbind at 1, mlift at 1. rewrite (rot3_ok e' a b y) by (auto; now rewrite <- (orient_rot b y a), <- (orient_rot y a b) in C2).
  fold (at_origin (rot3 e [b; a; x])). fold (at_origin (rot3 e' [a; b; y])).
  fold (new_triangle e b a x). fold (new_triangle e' a b y). fold Qn. fold Qn'.
  assert (R1 : replace_polygon nv l Qn s = (set_polys (dset l Qn (polys s)) s, Ok tt)).
  { unfold replace_polygon, mbind, mread. change (list (vec K)) with (polygon K). rewrite tt_poly, tt_len. replace (nv Qn) with 3%nat by (symmetry; apply new_triangle_spec; auto). reflexivity. }
  change (list (vec K)) with (polygon K) in R1. unfold mbind at 1. rewrite R1.
  assert (R2 : replace_polygon nv l' Qn' (set_polys (dset l Qn (polys s)) s) = (s_mid, Ok tt)).
  { unfold replace_polygon, mbind, mread, get_polygon, dgetE. change (list (vec K)) with (polygon K). cbn [polys set_polys]. rewrite dget_dset. cbn [eqb EqB_Z].
    rewrite (proj2 (Z.eqb_neq l' l)) by auto. apply get_polygon_Ok in tt_poly'. rewrite tt_poly', tt_len'.
    replace (nv Qn') with 3%nat by (symmetry; apply new_triangle_spec; auto). reflexivity. }
  change (list (vec K)) with (polygon K) in R2. unfold mbind at 1. rewrite R2.
  rewrite (tri_edge_0 l e), (tri_edge_0 l' e') in G by auto.
  etransitivity; [eapply mbind_step; exact G|].
  cbn [nth]. rewrite !tri_edge_Z. idtac. reflexivity.
Qed.
Let He : (e < 3)%nat. Proof. destruct T; assumption. Qed.
Let He' : (e' < 3)%nat. Proof. destruct T; assumption. Qed.
Hypothesis Mu : mutable s = true.
Hypothesis Se : sep s.
Hypothesis Co : cov s.
Context (g1 g2 g1' g2' : hedge).
Hypothesis G1 : gz (gluings s) (t 1) = Some g1.
Hypothesis G2 : gz (gluings s) (t 2) = Some g2.
Hypothesis G1' : gz (gluings s) (t' 1) = Some g1'.
Hypothesis G2' : gz (gluings s) (t' 2) = Some g2'.

Lemma lbl : In l (keys (polys s)) /\ In l' (keys (polys s)).
Proof. destruct T. split; apply is_label_keys; eexists; eassumption. Qed.
Lemma mid_keys : keys (polys s_mid) = keys (polys s).
Proof. destruct lbl. unfold s_mid. cbn [polys set_polys]. rewrite keys_dset_in by (rewrite keys_dset_in; auto). now apply keys_dset_in. Qed.
Lemma mid_inv : inv nv s_mid.
Proof.
  destruct T. pose proof (proj1 (get_polygon_Ok s l P) tt_poly) as E1. pose proof (proj1 (get_polygon_Ok s l' P') tt_poly') as E2.
  assert (I1 : inv nv (set_polys (dset l Qn (polys s)) s)).
  { apply (inv_replace nv s l Qn P); auto. rewrite tt_len. symmetry. apply new_triangle_spec; auto. }
  apply (inv_replace nv _ l' Qn' P') in I1; auto.
  - cbn [polys set_polys]. rewrite dget_dset. cbn [eqb EqB_Z]. rewrite (proj2 (Z.eqb_neq l' l)) by auto. exact E2.
  - rewrite tt_len'. symmetry. apply new_triangle_spec; auto.
Qed.
Lemma mid_sep : sep s_mid. Proof. exact Se. Qed.
Lemma mid_cov : cov s_mid.
Proof. destruct Co as [X|X]; [left; exact X|right]. intros m Hm. rewrite mid_keys in Hm. apply X. exact Hm. Qed.

Lemma mv_range z : inrange (gluings s) z -> inrange (gluings s) (mv z).
Proof.
  intros R. pose proof (run_fine z R) as Fz. pose proof (moved_fine l l' e e' D He He' z Fz) as Fm. pose proof (moved_tri l l' e e' D He He' z Fz) as X.
  destruct Fm as [[A B]|[k [Hk [-> | ->]]]]; try apply run_range.
  destruct Fz as [[A' B']|Y]; [now rewrite moved_other|]. apply X in Y. destruct Y as [k [_ [Y|Y]]]; rewrite Y in A, B; cbn in A, B; congruence.
Qed.
Lemma gz_fine z w : gz (gluings s) z = Some w -> fine l l' e e' z /\ fine l l' e e' w.
Proof. intros G. split; apply run_fine; [apply (gz_range _ _ _ G)|]. apply (i_inv nv s I) in G. apply (gz_range _ _ _ G). Qed.
Definition h (z : hedge) := option_map mv (gz (gluings s) (moved_inv l l' e e' z)).
Notation ps := (flip_pairs g1 g2 g1' g2').
Lemma h_mv z : fine l l' e e' z -> h (mv z) = option_map mv (gz (gluings s) z).
Proof. intros Fz. unfold h. now rewrite mi_moved. Qed.
Lemma tri_fine k : (k < 3)%nat -> fine l l' e e' (t k) /\ fine l l' e e' (t' k).
Proof. intros H. destruct (tri_is l l' e e' k H). split; right; auto. Qed.
Lemma pairs_ok p q : In (p, q) ps -> exists z w, p = mv z /\ q = mv w /\ gz (gluings s) z = Some w /\ is_tri l l' e e' z.
Proof.
  pose proof (tri_is l l' e e' 0 ltac:(lia)) as [? ?]. pose proof (tri_is l l' e e' 1 ltac:(lia)) as [? ?]. pose proof (tri_is l l' e e' 2 ltac:(lia)) as [? ?].
  intros [E|[E|[E|[E|[E|[]]]]]]; injection E as <- <-.
  - exists (t 0), (t' 0). rewrite moved_0, moved_0' by auto. split; auto. split; auto. split; auto. apply run_diag.
  - exists (t 2), g2. rewrite moved_2; auto.
  - exists (t' 1), g1'. rewrite moved_1'; auto.
  - exists (t' 2), g2'. rewrite moved_2'; auto.
  - exists (t 1), g1. rewrite moved_1; auto.
Qed.
Lemma pairs_tri z w : gz (gluings s) z = Some w -> is_tri l l' e e' z -> touched ps (mv z) = true /\ touched ps (mv w) = true.
Proof.
  intros G [k [Hk E]]. rewrite !touched_In. apply lt3 in Hk. destruct run_diag as [A B].
  assert (X : exists p q, In (p, q) ps /\ (mv z = p /\ mv w = q \/ mv z = q /\ mv w = p)).
  { destruct Hk as [->|[->| ->]], E as [->| ->]; rewrite ?moved_0, ?moved_1, ?moved_2, ?moved_0', ?moved_1', ?moved_2' by auto.
    - rewrite A in G. injection G as <-. rewrite moved_0' by auto. exists (t 0), (t' 0). cbn; auto.
    - rewrite B in G. injection G as <-. rewrite moved_0 by auto. exists (t 0), (t' 0). cbn; auto.
    - rewrite G1 in G. injection G as <-. exists (t' 2), (mv g1). cbn; auto 8.
    - rewrite G1' in G. injection G as <-. exists (t 2), (mv g1'). cbn; auto 8.
    - rewrite G2 in G. injection G as <-. exists (t 1), (mv g2). cbn; auto 8.
    - rewrite G2' in G. injection G as <-. exists (t' 1), (mv g2'). cbn; auto 8. }
  destruct X as [p [q [X Y]]]. split; exists p, q; split; auto; tauto.
Qed.
Lemma touched_back z : fine l l' e e' z -> touched ps (mv z) = true -> exists w, gz (gluings s) z = Some w /\ (is_tri l l' e e' z \/ is_tri l l' e e' w).
Proof.
  intros Fz H. apply touched_In in H. destruct H as [p [q [X Y]]]. destruct (pairs_ok p q X) as [u [w [-> [-> [G Tu]]]]].
  destruct (gz_fine _ _ G) as [Fu Fw].
  destruct Y as [Y|Y]; apply (f_equal (moved_inv l l' e e')) in Y; rewrite !mi_moved in Y by auto; subst.
  - exists w. auto.
  - exists u. split; auto. now apply (i_inv nv s I).
Qed.

Lemma flip_run : exists s', triangle_flip l e s = (s', Ok tt) /\ mfor ps (fun xy => glue nv (fst xy) (snd xy)) s_mid = (s', Ok tt) /\
  inv nv s' /\ frame s_mid s' /\ sep s' /\ cov s' /\ (roots_ s = nil -> roots_ s' = nil) /\
  forall z, fine l l' e e' z -> gz (gluings s') (mv z) = option_map mv (gz (gluings s) z).
Proof.
  destruct (glue_list nv h ps s_mid mid_inv Mu mid_sep mid_cov) as [s' [E [I' [Fr [S' [C' [N' G']]]]]]].
  { intros p q X. destruct (pairs_ok p q X) as [z [w [-> [-> [G Tz]]]]]. destruct (gz_fine _ _ G) as [Fz Fw].
    pose proof (i_inv nv s I _ _ G) as Gr.
    split; [|split; [|split]].
    - apply mv_range, (gz_range _ _ _ G).
    - apply mv_range, (gz_range _ _ _ Gr).
    - rewrite h_mv, G by auto. reflexivity.
    - rewrite h_mv by auto. change (list (vec K)) with (polygon K) in *. rewrite Gr. reflexivity. }
  exists s'. split; [|split; [exact E|split; [exact I'|split; [exact Fr|split; [exact S'|split; [exact C'|split; [exact N'|]]]]]]].
  - destruct (glue nv (t 0) (t' 0) s_mid) as [s1 r1] eqn:Ea.
    assert (E0 := E). cbn [mfor flip_pairs fst snd] in E0. unfold mbind at 1 in E0. rewrite Ea in E0. destruct r1 as [[]|]; [|discriminate].
    destruct run_head as [RH|RH]; [|rewrite Ea in RH; cbn in RH; congruence]. rewrite Ea in RH. cbn [fst] in RH.
    rewrite RH. rewrite G1, G2, G1', G2'.
    destruct (gz_fine _ _ G1) as [_ F1], (gz_fine _ _ G2) as [_ F2], (gz_fine _ _ G1') as [_ F1'], (gz_fine _ _ G2') as [_ F2'].
    assert (X : forall k, (k = 1 \/ k = 2)%nat -> t k <> t 0 /\ t k <> t' 0 /\ t' k <> t 0 /\ t' k <> t' 0).
    { intros k Hk. repeat split; intros Y; try (injection Y as Y _; congruence); apply tri_edge_inj in Y; lia. }
    assert (U : forall k w, (k = 1 \/ k = 2)%nat -> gz (gluings s) (t k) = Some w \/ gz (gluings s) (t' k) = Some w ->
       fine l l' e e' w -> to_new l l' (Z.of_nat e) (Z.of_nat e') (Some w) = Ok (mv w)).
    { intros k w Hk Gk Fk. destruct (X k Hk) as [X1 [X2 [X3 X4]]].
      destruct Gk as [Gk|Gk]; destruct (run_partner _ _ Gk); auto; now apply to_new_ok. }
    rewrite (U 1%nat g1), (U 2%nat g2), (U 1%nat g1'), (U 2%nat g2') by auto.
    destruct (mbind_inv _ _ _ _ _ E0) as [s2 [[] [Eb E1]]]. destruct (mbind_inv _ _ _ _ _ E1) as [s3 [[] [Ec E2]]].
    destruct (mbind_inv _ _ _ _ _ E2) as [s4 [[] [Ed E3]]]. destruct (mbind_inv _ _ _ _ _ E3) as [s5 [[] [Ee E4]]]. injection E4 as <-.
    etransitivity; [eapply mbind_step; reflexivity|]. etransitivity; [eapply mbind_step; exact Eb|].
    etransitivity; [eapply mbind_step; reflexivity|]. etransitivity; [eapply mbind_step; exact Ec|].
    etransitivity; [eapply mbind_step; reflexivity|]. etransitivity; [eapply mbind_step; exact Ed|].
    etransitivity; [eapply mbind_step; reflexivity|]. exact Ee.
  - intros z Fz. rewrite G'. destruct (touched ps (mv z)) eqn:Tz; [now apply h_mv|].
    change (gluings s_mid) with (gluings s).
    destruct Fz as [[A B]|Tr].
    + rewrite moved_other in Tz |- * by auto. destruct (gz (gluings s) z) as [w|] eqn:G; [|reflexivity].
      destruct (gz_fine _ _ G) as [Fz Fw]. pose proof (i_inv nv s I _ _ G) as Gr.
      assert (Nw : ~ is_tri l l' e e' w).
      { intros Tw. destruct (pairs_tri w z Gr Tw) as [_ X]. rewrite moved_other in X by auto. congruence. }
      assert (Ew : mv w = w) by (apply moved_other; destruct Fw as [[? ?]|?]; tauto). cbn [option_map]. rewrite Ew.
      destruct (touched ps w) eqn:Tw; auto. rewrite <- Ew in Tw. destruct (touched_back w Fw Tw) as [z' [Gz [Q|Q]]]; [contradiction|].
      change (list (vec K)) with (polygon K) in *. rewrite Gr in Gz. injection Gz as <-. destruct Q as [k [_ [->| ->]]]; cbn in A, B; congruence.
    + exfalso. destruct Tr as [k [Hk E']]. destruct run_diag as [Q Q'].
      assert (X : exists w, gz (gluings s) z = Some w).
      { apply lt3 in Hk. destruct Hk as [->|[->| ->]], E' as [->| ->]; eauto. }
      destruct X as [w G]. destruct (pairs_tri z w G) as [X _]; [exists k; auto|]. congruence.
Qed.
Lemma rep1 : replace_polygon nv l Qn s = (set_polys (dset l Qn (polys s)) s, Ok tt).
Proof.
  destruct T. unfold replace_polygon, mbind, mread. change (list (vec K)) with (polygon K). rewrite tt_poly, tt_len.
  replace (nv Qn) with 3%nat by (symmetry; apply new_triangle_spec; auto). reflexivity.
Qed.
Lemma rep2 : replace_polygon nv l' Qn' (set_polys (dset l Qn (polys s)) s) = (s_mid, Ok tt).
Proof.
  destruct T. unfold replace_polygon, mbind, mread, get_polygon, dgetE. change (list (vec K)) with (polygon K). cbn [polys set_polys]. rewrite dget_dset. cbn [eqb EqB_Z].
  rewrite (proj2 (Z.eqb_neq l' l)) by auto. apply get_polygon_Ok in tt_poly'. rewrite tt_poly', tt_len'.
  replace (nv Qn') with 3%nat by (symmetry; apply new_triangle_spec; auto). reflexivity.
Qed.
Lemma mid_intact : intact nv s -> intact nv s_mid.
Proof.
  intros H. pose proof (intact_op nv s (OpReplace l Qn) H Logic.I (fun f => f)) as H1. cbn [run_op] in H1. rewrite rep1 in H1. cbn [fst] in H1.
  pose proof (intact_op nv _ (OpReplace l' Qn') H1 Logic.I (fun f => f)) as H2. cbn [run_op] in H2. rewrite rep2 in H2. exact H2.
Qed.
Lemma mfor_intact qs : forall st st', intact nv st -> (forall p q, In (p, q) qs -> (0 <= snd p /\ 0 <= snd q)%Z) ->
  mfor qs (fun xy => glue nv (fst xy) (snd xy)) st = (st', Ok tt) -> intact nv st'.
Proof.
  induction qs as [|[p q] qs IH]; intros st st' H N E.
  - cbn in E. injection E as <-. exact H.
  - cbn [mfor fst snd] in E. destruct (mbind_inv _ _ _ _ _ E) as [st1 [[] [E1 E2]]].
    apply (IH st1 st'); auto; [|intros; apply N; now right].
    pose proof (intact_op nv st (OpGlue p q) H (N p q (or_introl eq_refl)) (fun f => f)) as H1. cbn [run_op] in H1. now rewrite E1 in H1.
Qed.
Lemma pairs_nonneg p q : In (p, q) ps -> (0 <= snd p /\ 0 <= snd q)%Z.
Proof.
  intros X. destruct (pairs_ok p q X) as [z [w [-> [-> [G _]]]]]. pose proof (i_inv nv s I _ _ G) as Gr.
  assert (Y : forall v, inrange (gluings s) v -> (0 <= snd v)%Z) by (intros v [n [_ ?]]; lia).
  split; apply Y, mv_range; [exact (gz_range _ _ _ G)|exact (gz_range _ _ _ Gr)].
Qed.
Lemma mid_polys : get_polygon s_mid l = Ok Qn /\ get_polygon s_mid l' = Ok Qn' /\
  forall m, m <> l -> m <> l' -> get_polygon s_mid m = get_polygon s m.
Proof.
  unfold get_polygon, dgetE, s_mid. cbn [polys set_polys]. split; [|split].
  - rewrite !dget_dset. cbn [eqb EqB_Z]. rewrite (proj2 (Z.eqb_neq l l')) by auto. now rewrite Z.eqb_refl.
  - rewrite !dget_dset. cbn [eqb EqB_Z]. now rewrite Z.eqb_refl.
  - intros m A B. rewrite !dget_dset. cbn [eqb EqB_Z]. now rewrite (proj2 (Z.eqb_neq m l')), (proj2 (Z.eqb_neq m l)) by auto.
Qed.
End Run.
End Flip.
