(** Proofs about the model of euclidean.py. *)
From Coq Require Import Bool List Ring Field.
From Verif Require Import OField FMicromega PField MBase MEuclid SEuclid.

Section P.
Context {K : OField}.
Add Field KF : (of_ft K).
Local Open Scope F_scope.
Implicit Types v w p q f u : vec K.
Implicit Types e : (vec K * vec K)%type.

(** ** Vectors *)
Lemma vec_eq v w : fst v = fst w -> snd v = snd w -> v = w.
Proof. destruct v, w; cbn; congruence. Qed.

Lemma veqb_eq v w : veqb v w = true <-> v = w.
Proof.
  unfold veqb. rewrite andb_true_iff, !feqb_eq. split.
  - intros []. now apply vec_eq.
  - intros ->; auto.
Qed.
Lemma veqb_neq v w : veqb v w = false <-> v <> w.
Proof.
  rewrite <- veqb_eq. destruct (veqb v w); intuition congruence.
Qed.

Lemma vec_dec v w : {v = w} + {v <> w}.
Proof. destruct (veqb v w) eqn:E; [left; now apply veqb_eq | right; now apply veqb_neq]. Qed.

Lemma vnz v : v <> vzero -> 0 < dot v v.
Proof.
  intros H. unfold dot. apply fsum_sq_pos.
  destruct (feq_dec (fst v) 0) as [A|A]; auto. destruct (feq_dec (snd v) 0) as [B|B]; auto.
  destruct H. now apply vec_eq.
Qed.

(** ** C14 *)
Lemma is_parallel_spec v w : is_parallel v w = true <-> pos_multiple v w.
Proof.
  unfold is_parallel, pos_multiple. split.
  - destruct (ccw v w =? 0) eqn:E; cbn; [|discriminate]. intros H. apply feqb_eq in E.
    assert (Hv : v <> vzero). { intros ->. unfold dot, vzero in H. cbn in H. fnra. }
    split; auto. pose proof (vnz v Hv) as P.
    exists (dot v w / dot v v). split; [now apply fdiv_pos|].
    apply fpos_neq0 in P. unfold ccw, dot in *.
    destruct v as [a b], w as [c d]; cbn in *.
    apply vec_eq; cbn; apply (fcancel _ _ (a * a + b * b)); auto.
    + replace ((a * c + b * d) / (a * a + b * b) * a * (a * a + b * b)) with ((a * c + b * d) * a) by (field; auto).
      replace ((a * c + b * d) * a) with (c * (a * a + b * b) + b * (a * d - b * c)) by ring. rewrite E. ring.
    + replace ((a * c + b * d) / (a * a + b * b) * b * (a * a + b * b)) with ((a * c + b * d) * b) by (field; auto).
      replace ((a * c + b * d) * b) with (d * (a * a + b * b) - a * (a * d - b * c)) by ring. rewrite E. ring.
  - intros [Hv [a [Ha ->]]].
    assert (E : ccw v (vscale a v) = 0) by (unfold ccw; cbn; ring). rewrite E.
    rewrite (proj2 (feqb_eq K 0 0) eq_refl). cbn.
    replace (dot v (vscale a v)) with (a * dot v v) by (unfold dot; cbn; ring).
    apply fmul_pos; auto. now apply vnz.
Qed.

Lemma is_anti_parallel_spec v w : is_anti_parallel v w = true <-> neg_multiple v w.
Proof.
  unfold is_anti_parallel. rewrite is_parallel_spec. unfold pos_multiple, neg_multiple.
  split; intros [H [a [Ha E]]]; split; auto; exists (- a); (split; [flra|]);
    destruct v as [x y], w as [x' y']; unfold vscale, vopp in *; cbn in *; injection E as E1 E2.
  - apply vec_eq; cbn; flra.
  - subst. apply vec_eq; cbn; ring.
Qed.

(** coordinates with respect to a basis *)
Lemma basis_coords (e0 e1 f : vec K) : ccw e0 e1 <> 0 ->
  f = vadd (vscale (ccw f e1 / ccw e0 e1) e0) (vscale (ccw e0 f / ccw e0 e1) e1).
Proof.
  intros H. destruct e0, e1, f. unfold ccw in *; cbn in *. apply vec_eq; cbn; field; auto.
Qed.
Lemma basis_coords_inv (e0 e1 : vec K) a b :
  ccw (vadd (vscale a e0) (vscale b e1)) e1 = a * ccw e0 e1 /\
  ccw e0 (vadd (vscale a e0) (vscale b e1)) = b * ccw e0 e1.
Proof. destruct e0, e1. unfold ccw; cbn; split; ring. Qed.

Lemma fdiv_mul' x d : d <> 0 -> d * (x / d) = (x : K).
Proof. intros; field; auto. Qed.

Lemma collinear_cases v w : v <> vzero -> w <> vzero -> ccw v w = 0 ->
  pos_multiple v w \/ neg_multiple v w.
Proof.
  intros Hv Hw E. destruct (is_parallel v w) eqn:P.
  - left. now apply is_parallel_spec.
  - right. split; auto. unfold is_parallel in P. rewrite E, (proj2 (feqb_eq K 0 0) eq_refl) in P. cbn in P.
    assert (D : dot v w <> 0).
    { intros D. pose proof (vnz v Hv) as A. pose proof (vnz w Hw) as B.
      destruct v as [a b], w as [c d]. unfold dot, ccw in *; cbn in *.
      pose proof (fmul_pos _ _ A B) as C.
      replace ((a * a + b * b) * (c * c + d * d)) with ((a*c+b*d)*(a*c+b*d) + (a*d-b*c)*(a*d-b*c)) in C by ring.
      rewrite D, E in C. flra. }
    assert (P' : is_anti_parallel v w = true).
    { unfold is_anti_parallel, is_parallel. replace (ccw v (vopp w)) with (- ccw v w) by (unfold ccw; cbn; ring).
      rewrite E. replace (- (0)) with (0 : K) by ring. rewrite (proj2 (feqb_eq K 0 0) eq_refl). cbn.
      replace (dot v (vopp w)) with (- dot v w) by (unfold dot; cbn; ring).
      apply fneq_lt in D. destruct D; flra. }
    apply is_anti_parallel_spec in P'. apply P'.
Qed.

Lemma pos_neg_absurd v a b : v <> vzero -> 0 < a -> b < 0 -> vscale a v = vscale b v -> False.
Proof.
  intros Hv Ha Hb E. apply vnz in Hv. unfold dot, vscale in *. injection E as E1 E2.
  assert (0 < (a - b) * (fst v * fst v + snd v * snd v)) by (apply fmul_pos; flra).
  replace ((a - b) * (fst v * fst v + snd v * snd v)) with ((a * fst v - b * fst v) * fst v + (a * snd v - b * snd v) * snd v) in H by ring.
  rewrite E1, E2 in H. flra.
Qed.

Lemma is_between_spec (e0 e1 f : vec K) : e0 <> vzero -> e1 <> vzero ->
  (is_between e0 e1 f = true <-> sector e0 e1 f).
Proof.
  intros H0 H1. unfold is_between.
  replace (fst e1 * snd e0 <? fst e0 * snd e1) with (0 <? ccw e0 e1).
  2: { unfold ccw. apply eq_true_iff_eq. split; intros; flra. }
  destruct (0 <? ccw e0 e1) eqn:E.
  - assert (N : ccw e0 e1 <> 0) by (apply fpos_neq0; exact E).
    rewrite andb_true_iff. split.
    + intros [A B]. apply sector_small; auto.
      exists (ccw f e1 / ccw e0 e1), (ccw e0 f / ccw e0 e1). repeat split.
      * apply fdiv_pos; auto. unfold ccw; flra.
      * apply fdiv_pos; auto. unfold ccw; flra.
      * now apply basis_coords.
    + intros S. destruct S as [_ [a [b [Ha [Hb ->]]]]|[_ [c [Hc ->]]]|L _|[_ [c [Hc ->]]]].
      * destruct (basis_coords_inv e0 e1 a b) as [X Y].
        pose proof (fmul_pos _ _ Ha E) as PA. pose proof (fmul_pos _ _ Hb E) as PB.
        rewrite <- X in PA. rewrite <- Y in PB. unfold ccw in PA, PB.
        split; flra.
      * exfalso. unfold ccw in E. cbn in E. apply N. unfold ccw; cbn; ring.
      * exfalso. flra.
      * exfalso. apply N. unfold ccw; cbn; ring.
  - replace (fst e0 * snd e1 =? fst e1 * snd e0) with (ccw e0 e1 =? 0).
    2: { unfold ccw. apply eq_true_iff_eq. rewrite !feqb_eq. split; intros; flra. }
    destruct (ccw e0 e1 =? 0) eqn:Z.
    + apply feqb_eq in Z.
      destruct (collinear_cases _ _ H0 H1 Z) as [[_ [c [Hc ->]]]|[_ [c [Hc ->]]]].
      * assert (B : (0 <=? fst e0 * fst (vscale c e0)) && (0 <=? snd e0 * snd (vscale c e0)) = true).
        { apply andb_true_iff. cbn. pose proof (fsq_nonneg (fst e0)). pose proof (fsq_nonneg (snd e0)).
          split; apply fleb_true; fnra. }
        rewrite B. split.
        -- intros H. apply sector_full.
           { split; auto. exists c; auto. }
           intros [a [Ha ->]]. cbn in H. rewrite !orb_true_iff in H.
           pose proof (fsq_nonneg (fst e0)). pose proof (fsq_nonneg (snd e0)).
           destruct H as [[H|H]|H].
           ++ apply negb_true_iff in H. apply feqb_false in H. apply H. ring.
           ++ fnra.
           ++ fnra.
        -- intros S. destruct S as [L _|[_ [d [Hd E']]] _|L _|_ S].
           ++ unfold ccw in L; cbn in L. exfalso. fnra.
           ++ exfalso. exact (pos_neg_absurd _ _ _ H0 Hc Hd E').
           ++ unfold ccw in L; cbn in L. exfalso. fnra.
           ++ apply not_false_is_true. intros F. apply S.
              rewrite !orb_false_iff in F. destruct F as [[F1 F2] F3].
              apply negb_false_iff in F1. apply feqb_eq in F1.
              pose proof (vnz _ H0) as P. exists (dot f e0 / dot e0 e0). split.
              ** apply fdiv_nonneg; auto. unfold dot. flra.
              ** apply fpos_neq0 in P. destruct e0 as [x y], f as [u v]. unfold dot in *. cbn in *.
                 apply vec_eq; cbn; apply (fcancel _ _ (x*x+y*y)); auto.
                 --- replace ((u * x + v * y) / (x * x + y * y) * x * (x * x + y * y)) with ((u*x+v*y)*x) by (field; auto).
                     replace ((u*x+v*y)*x) with (u*x*x+ (v*x)*y) by ring. rewrite <- F1. ring.
                 --- replace ((u * x + v * y) / (x * x + y * y) * y * (x * x + y * y)) with ((u*x+v*y)*y) by (field; auto).
                     replace ((u*x+v*y)*y) with ((u*y)*x+ v*y*y) by ring. rewrite F1. ring.
      * assert (B : (0 <=? fst e0 * fst (vscale c e0)) && (0 <=? snd e0 * snd (vscale c e0)) = false).
        { apply andb_false_iff. cbn. pose proof (vnz _ H0) as P. unfold dot in P.
          destruct (feq_dec (fst e0) 0) as [A|A].
          - right. apply fleb_false. rewrite A in P. fnra.
          - left. apply fleb_false. apply fsq_pos in A. fnra. }
        rewrite B. split.
        -- intros H. apply sector_half. { split; auto. exists c; auto. }
           pose proof (vnz _ H0) as P. pose proof (fpos_neq0 _ P) as N.
           exists (dot e0 f / dot e0 e0), (ccw e0 f / dot e0 e0). split.
           ++ apply fdiv_pos; auto. unfold ccw. flra.
           ++ destruct e0 as [x y], f as [u v]. unfold dot, ccw in *. cbn in *. apply vec_eq; cbn; field; auto.
        -- intros S. destruct S as [L _|_ [a [b [Hb ->]]]|L _|[_ [d [Hd E']]] _].
           ++ unfold ccw in L; cbn in L. exfalso. fnra.
           ++ cbn. pose proof (vnz _ H0) as P. unfold dot in P. pose proof (fmul_pos _ _ Hb P). flra.
           ++ unfold ccw in L; cbn in L. exfalso. fnra.
           ++ exfalso. symmetry in E'. exact (pos_neg_absurd _ _ _ H0 Hd Hc E').
    + apply feqb_false in Z.
      assert (L : ccw e0 e1 < 0). { apply fneq_lt in Z. destruct Z; auto. congruence. }
      rewrite orb_true_iff. split.
      * intros H. apply sector_large; auto. intros [a [b [Ha [Hb ->]]]].
        destruct (basis_coords_inv e0 e1 a b) as [X Y].
        assert (a * ccw e0 e1 <= 0) by fnra. assert (b * ccw e0 e1 <= 0) by fnra.
        rewrite <- X in *. rewrite <- Y in *. unfold ccw in *. destruct H; flra.
      * intros S. destruct S as [M _|[_ [d [Hd ->]]] _|_ S|[_ [d [Hd ->]]] _].
        -- exfalso. flra.
        -- unfold ccw in L; cbn in L. exfalso. fnra.
        -- destruct (snd e0 * fst f <? fst e0 * snd f) eqn:A; auto.
           destruct (fst e1 * snd f <? snd e1 * fst f) eqn:B; auto.
           exfalso. apply S. exists (ccw f e1 / ccw e0 e1), (ccw e0 f / ccw e0 e1). repeat split.
           ++ pose proof (fdiv_mul (ccw f e1) (ccw e0 e1) Z) as Q.
              assert (ccw f e1 <= 0) by (unfold ccw; flra). fnra.
           ++ pose proof (fdiv_mul (ccw e0 f) (ccw e0 e1) Z) as Q.
              assert (ccw e0 f <= 0) by (unfold ccw; flra). fnra.
           ++ now apply basis_coords.
        -- unfold ccw in L; cbn in L. exfalso. fnra.
Qed.

(** ** C15 *)
Lemma endpoint_on s p : is_endpoint s p -> on_segment s p.
Proof.
  pose proof (@flt_0_1 K).
  intros [-> | ->]; [exists 0|exists 1]; (split; [|split]); try flra;
    destruct s as [[x y] [z w]]; apply vec_eq; cbn; ring.
Qed.

Lemma touching_common e1 e2 : touching e1 e2 -> exists p, common e1 e2 p.
Proof. intros [p [A [B _]]]. exists p; split; now apply endpoint_on. Qed.

Lemma seg_spec_unique e1 e2 n m : seg_spec e1 e2 n -> seg_spec e1 e2 m -> n = m.
Proof.
  intros A B. destruct A, B; auto; exfalso; try tauto.
  - now apply H, touching_common.
  - now apply H0, touching_common.
Qed.

Definition swap (e : vec K * vec K) := (snd e, fst e).
Lemma on_segment_swap e p : on_segment (swap e) p <-> on_segment e p.
Proof.
  assert (A : forall e p, on_segment e p -> on_segment (swap e) p).
  { intros [[x y] [z w]] q [t [H0 [H1 ->]]]. exists (1 - t). repeat split; try flra. apply vec_eq; cbn; ring. }
  split; auto. intros H. apply A in H. now destruct e.
Qed.
Lemma is_endpoint_swap e p : is_endpoint (swap e) p <-> is_endpoint e p.
Proof. destruct e. unfold is_endpoint; cbn. tauto. Qed.

Lemma common_swap_l e1 e2 p : common (swap e1) e2 p <-> common e1 e2 p.
Proof. unfold common. now rewrite on_segment_swap. Qed.
Lemma touching_swap_l e1 e2 : touching (swap e1) e2 <-> touching e1 e2.
Proof.
  unfold touching. split; intros [p [A [B C]]]; exists p.
  - rewrite is_endpoint_swap in A. repeat split; auto. intros. apply C. now rewrite common_swap_l.
  - rewrite is_endpoint_swap. repeat split; auto. intros q Hq. apply C. now rewrite common_swap_l in Hq.
Qed.
Lemma seg_spec_swap_l e1 e2 n : seg_spec (swap e1) e2 n -> seg_spec e1 e2 n.
Proof.
  intros [A|A|[p A] B]; constructor.
  - intros [p Hp]. apply A. exists p. now rewrite common_swap_l.
  - now rewrite <- touching_swap_l.
  - exists p. now rewrite <- common_swap_l.
  - now rewrite <- touching_swap_l.
Qed.
Lemma common_sym e1 e2 p : common e1 e2 p <-> common e2 e1 p.
Proof. unfold common; tauto. Qed.
Lemma touching_sym e1 e2 : touching e1 e2 -> touching e2 e1.
Proof. intros [p [A [B C]]]. exists p. repeat split; auto. intros. apply C. now apply common_sym. Qed.
Lemma seg_spec_sym e1 e2 n : seg_spec e1 e2 n -> seg_spec e2 e1 n.
Proof.
  intros [A|A|[p A] B]; constructor.
  - intros [p Hp]. apply A. exists p. now apply common_sym.
  - now apply touching_sym.
  - exists p. now apply common_sym.
  - intros H. now apply B, touching_sym.
Qed.
Lemma seg_spec_swap_r e1 e2 n : seg_spec e1 (swap e2) n -> seg_spec e1 e2 n.
Proof. intros H. now apply seg_spec_sym, seg_spec_swap_l, seg_spec_sym. Qed.

Lemma det3_ccw p q r : det3 p q r = ccw (vsub q p) (vsub r p).
Proof. destruct p, q, r. unfold det3, ccw; cbn; ring. Qed.

Lemma det3_affine p q c d t :
  det3 p q (vadd c (vscale t (vsub d c))) = det3 p q c + t * (det3 p q d - det3 p q c).
Proof. destruct p, q, c, d. unfold det3; cbn; ring. Qed.
Lemma det3_on p q r : on_line p q r -> det3 p q r = 0.
Proof. intros [t ->]. destruct p, q. unfold det3; cbn; ring. Qed.
Lemma on_segment_line s p : on_segment s p -> on_line (fst s) (snd s) p.
Proof. intros [t [_ [_ E]]]. now exists t. Qed.

Lemma fdet_line p q r : p <> q -> det3 p q r = 0 -> on_line p q r.
Proof.
  intros N E. exists (dot (vsub q p) (vsub r p) / dot (vsub q p) (vsub q p)).
  assert (D : vsub q p <> vzero).
  { intros A. apply N. destruct p, q. injection A as A1 A2. apply vec_eq; cbn; flra. }
  apply vnz in D. apply fpos_neq0 in D.
  rewrite det3_ccw in E.
  destruct p as [px py], q as [qx qy], r as [rx ry]. unfold dot, ccw, vsub, vadd, vscale in *; cbn in *.
  set (a := qx - px) in *. set (b := qy - py) in *.
  apply vec_eq; cbn; apply (fcancel _ _ (a * a + b * b)); auto.
  - replace ((px + (a * (rx - px) + b * (ry - py)) / (a * a + b * b) * a) * (a * a + b * b))
      with (px * (a * a + b * b) + (a * (rx - px) + b * (ry - py)) * a) by (field; auto).
    replace (px * (a * a + b * b) + (a * (rx - px) + b * (ry - py)) * a) with
      (rx * (a * a + b * b) + b * (a * (ry - py) - b * (rx - px))) by ring. rewrite E. ring.
  - replace ((py + (a * (rx - px) + b * (ry - py)) / (a * a + b * b) * b) * (a * a + b * b))
      with (py * (a * a + b * b) + (a * (rx - px) + b * (ry - py)) * b) by (field; auto).
    replace (py * (a * a + b * b) + (a * (rx - px) + b * (ry - py)) * b) with
      (ry * (a * a + b * b) - a * (a * (ry - py) - b * (rx - px))) by ring. rewrite E. ring.
Qed.

(** one side of a line *)
Lemma one_side_disjoint a b c d :
  (0 < det3 a b c /\ 0 < det3 a b d) \/ (det3 a b c < 0 /\ det3 a b d < 0) ->
  ~ exists p, common (a, b) (c, d) p.
Proof.
  intros H [p [P1 P2]]. apply on_segment_line, det3_on in P1. cbn in P1.
  destruct P2 as [t [H0 [H1 ->]]]. cbn in P1. rewrite det3_affine in P1.
  destruct H; fnra.
Qed.

Lemma vsub_eq0 p q : vsub q p = vzero -> p = q.
Proof. destruct p, q. intros A. injection A as A1 A2. apply vec_eq; cbn; flra. Qed.

(** lines that are not parallel *)
Lemma proper_common a b c d s0 s1 s2 s3 :
  s0 = det3 a b c -> s1 = det3 a b d -> s2 = det3 c d a -> s3 = det3 c d b ->
  s0 <> s1 ->
  ~ ((0 < s0 /\ 0 < s1) \/ (s0 < 0 /\ s1 < 0)) ->
  ~ ((0 < s2 /\ 0 < s3) \/ (s2 < 0 /\ s3 < 0)) ->
  exists p, common (a, b) (c, d) p /\ (forall q, common (a, b) (c, d) q -> q = p) /\
    (is_endpoint (a, b) p <-> s2 = 0 \/ s3 = 0) /\ (is_endpoint (c, d) p <-> s0 = 0 \/ s1 = 0).
Proof.
  intros E0 E1 E2 E3 N A B.
  assert (S : s3 - s2 = s0 - s1).
  { subst. destruct a, b, c, d. unfold det3; cbn; ring. }
  set (D := s0 - s1) in *.
  assert (ND : D <> 0) by (unfold D; intros X; apply N; flra).
  set (t := s0 / D). set (u := - s2 / D).
  assert (Ht : t * D = s0) by (unfold t; field; auto).
  assert (Hu : u * D = - s2) by (unfold u; field; auto).
  set (p := vadd c (vscale t (vsub d c))).
  assert (P : p = vadd a (vscale u (vsub b a))).
  { unfold p. apply vec_eq; apply (fcancel _ _ D); auto.
    - transitivity (fst c * D + (t * D) * (fst d - fst c)). { cbn. ring. }
      transitivity (fst a * D + (u * D) * (fst b - fst a)). 2: { cbn. ring. }
      rewrite Ht, Hu. unfold D. subst. destruct a, b, c, d. unfold det3; cbn. ring.
    - transitivity (snd c * D + (t * D) * (snd d - snd c)). { cbn. ring. }
      transitivity (snd a * D + (u * D) * (snd b - snd a)). 2: { cbn. ring. }
      rewrite Ht, Hu. unfold D. subst. destruct a, b, c, d. unfold det3; cbn. ring. }
  assert (Rt : 0 <= t /\ t <= 1).
  { destruct (fneq_lt _ _ ND) as [L|L]; split; apply fnlt_le; intros G; apply A.
    - left. split; [fnra|]. assert (t * D = s0) by auto. unfold D in *. fnra.
    - right. split; [|]; unfold D in *; fnra.
    - right. split; unfold D in *; fnra.
    - left. split; unfold D in *; fnra. }
  assert (Ru : 0 <= u /\ u <= 1).
  { destruct (fneq_lt _ _ ND) as [L|L]; split; apply fnlt_le; intros G; apply B.
    - right. split; [fnra|]; fnra.
    - left. split; fnra.
    - left. split; fnra.
    - right. split; fnra. }
  assert (AB : a <> b). { intros <-. apply N. subst. destruct a, c, d. unfold det3; cbn. ring. }
  assert (CD : c <> d). { intros <-. apply N. subst. reflexivity. }
  assert (U : forall q, on_line a b q -> on_line c d q -> q = p).
  { intros q Q1 [v ->]. apply det3_on in Q1. rewrite det3_affine in Q1.
    assert (v = t). { apply (fcancel _ _ D); auto. rewrite Ht. unfold D. rewrite E0, E1. flra. }
    subst v. reflexivity. }
  assert (Cp : common (a, b) (c, d) p).
  { split; [exists u|exists t]; cbn; tauto. }
  exists p. split; [exact Cp|]. split; [|split].
  - intros q [Q1 Q2]. apply U; [now apply on_segment_line in Q1 | now apply on_segment_line in Q2].
  - split.
    + intros [X|X]; cbn in X; [left|right]; rewrite E2 || rewrite E3; rewrite <- X; apply det3_on; now exists t.
    + intros [X|X].
      * left. cbn. symmetry. apply U. { exists 0. destruct a, b; apply vec_eq; cbn; ring. }
        apply fdet_line; auto. now rewrite <- E2.
      * right. cbn. symmetry. apply U. { exists 1. destruct a, b; apply vec_eq; cbn; ring. }
        apply fdet_line; auto. now rewrite <- E3.
  - split.
    + intros [X|X]; cbn in X; [left|right]; rewrite E0 || rewrite E1; rewrite <- X; apply det3_on; now exists u.
    + intros [X|X].
      * left. cbn. symmetry. apply U. { apply fdet_line; auto. now rewrite <- E0. }
        exists 0. destruct c, d; apply vec_eq; cbn; ring.
      * right. cbn. symmetry. apply U. { apply fdet_line; auto. now rewrite <- E1. }
        exists 1. destruct c, d; apply vec_eq; cbn; ring.
Qed.

(** ** collinear segments *)
Section Collinear.
Variable phi : vec K -> K.
Hypothesis phi_aff : forall p q t, phi (vadd p (vscale t (vsub q p))) = phi p + t * (phi q - phi p).
Variables a u : vec K.
Hypothesis Hu : phi (vadd a u) <> phi a.
Let L p := exists t, p = vadd a (vscale t u).

Lemma phi_L t : phi (vadd a (vscale t u)) = phi a + t * (phi (vadd a u) - phi a).
Proof.
  rewrite <- phi_aff. f_equal. destruct a, u; apply vec_eq; cbn; ring.
Qed.
Lemma phi_inj p q : L p -> L q -> phi p = phi q -> p = q.
Proof.
  intros [t ->] [s ->]. rewrite !phi_L. intros E.
  assert (t = s). { apply (fcancel _ _ (phi (vadd a u) - phi a)). intros X; apply Hu; flra. flra. }
  now subst.
Qed.
Lemma seg_L p q r : L p -> L q -> on_segment (p, q) r -> L r.
Proof.
  intros [t ->] [s ->] [x [_ [_ ->]]]. exists (t + x * (s - t)). destruct a, u; apply vec_eq; cbn; ring.
Qed.
Lemma seg_phi p q r : L p -> L q -> L r -> phi p < phi q ->
  (on_segment (p, q) r <-> phi p <= phi r /\ phi r <= phi q).
Proof.
  intros Lp Lq Lr Hpq. split.
  - intros [t [H0 [H1 ->]]]. cbn. rewrite phi_aff. split; fnra.
  - intros [H0 H1].
    assert (N : phi q - phi p <> 0) by (intros X; flra).
    assert (P : 0 < phi q - phi p) by flra.
    exists ((phi r - phi p) / (phi q - phi p)). repeat split.
    + apply fdiv_nonneg; auto. flra.
    + apply fdiv_le; auto. flra.
    + cbn. apply phi_inj; auto.
      * destruct Lp as [t ->], Lq as [s ->].
        exists (t + (phi r - phi (vadd a (vscale t u))) / (phi (vadd a (vscale s u)) - phi (vadd a (vscale t u))) * (s - t)).
        destruct a, u; apply vec_eq; cbn; ring.
      * rewrite phi_aff. field; auto.
Qed.

Lemma collinear_spec p q r s : L p -> L q -> L r -> L s -> phi p < phi q -> phi r < phi s ->
  (phi q < phi r \/ phi s < phi p -> ~ exists x, common (p, q) (r, s) x) /\
  (phi r = phi q \/ phi s = phi p -> touching (p, q) (r, s)) /\
  (phi r < phi q -> phi p < phi s -> (exists x, common (p, q) (r, s) x) /\ ~ touching (p, q) (r, s)).
Proof.
  intros Lp Lq Lr Ls H1 H2. split; [|split].
  - intros H [x [X1 X2]]. pose proof (seg_L _ _ _ Lp Lq X1) as Lx.
    rewrite seg_phi in X1, X2 by auto. destruct H; flra.
  - intros [H|H].
    + apply phi_inj in H; auto. subst r. exists q. split; [right; reflexivity|]. split; [left; reflexivity|].
      intros x [X1 X2]. pose proof (seg_L _ _ _ Lp Lq X1) as Lx. rewrite seg_phi in X1, X2 by auto.
      apply phi_inj; auto. flra.
    + apply phi_inj in H; auto. subst s. exists p. split; [left; reflexivity|]. split; [right; reflexivity|].
      intros x [X1 X2]. pose proof (seg_L _ _ _ Lp Lq X1) as Lx. rewrite seg_phi in X1, X2 by auto.
      apply phi_inj; auto. flra.
  - intros H3 H4.
    assert (A : exists x, L x /\ common (p, q) (r, s) x /\ (x = p \/ x = r) /\ phi p <= phi x /\ phi r <= phi x).
    { destruct (fltb (phi p) (phi r)) eqn:E.
      - exists r. unfold common. rewrite !seg_phi by auto. repeat split; auto; flra.
      - exists p. unfold common. rewrite !seg_phi by auto. repeat split; auto; flra. }
    assert (B : exists x, L x /\ common (p, q) (r, s) x /\ (x = q \/ x = s) /\ phi x <= phi q /\ phi x <= phi s).
    { destruct (fltb (phi q) (phi s)) eqn:E.
      - exists q. unfold common. rewrite !seg_phi by auto. repeat split; auto; flra.
      - exists s. unfold common. rewrite !seg_phi by auto. repeat split; auto; flra. }
    destruct A as [x [Lx [Cx [Ex [X1 X2]]]]], B as [y [Ly [Cy [Ey [Y1 Y2]]]]].
    split; [now exists x|]. intros [z [_ [_ Z]]].
    assert (x = y) by (transitivity z; [|symmetry]; auto). subst y.
    destruct Ex as [-> | ->], Ey as [Ey | Ey]; rewrite <- Ey in *; flra.
Qed.
End Collinear.

Lemma fst_aff (p q : vec K) t : fst (vadd p (vscale t (vsub q p))) = fst p + t * (fst q - fst p).
Proof. reflexivity. Qed.
Lemma snd_aff (p q : vec K) t : snd (vadd p (vscale t (vsub q p))) = snd p + t * (snd q - snd p).
Proof. reflexivity. Qed.

(** the part of the code that deals with collinear segments, after ordering the end points *)
Lemma collinear_part (xs1 ys1 xt1 yt1 xs2 ys2 xt2 yt2 : K) :
  det3 (xs1, ys1) (xt1, yt1) (xs2, ys2) = 0 -> det3 (xs1, ys1) (xt1, yt1) (xt2, yt2) = 0 ->
  (xs1, ys1) <> (xt1, yt1) -> (xs2, ys2) <> (xt2, yt2) ->
  ((xt1 <? xs1) || (xt1 =? xs1) && (yt1 <? ys1)) = false ->
  ((xt2 <? xs2) || (xt2 =? xs2) && (yt2 <? ys2)) = false ->
  exists n, seg_spec ((xs1, ys1), (xt1, yt1)) ((xs2, ys2), (xt2, yt2)) n /\
  (let '(xs1, xt1, xs2, xt2) :=
      if (xs1 =? xt1) && (xt1 =? xs2) && (xs2 =? xt2) then (ys1, yt1, ys2, yt2) else (xs1, xt1, xs2, xt2) in
    bind (passert ((xs1 <? xt1) && (xs2 <? xt2))) (fun _ =>
    if (xt1 <? xs2) || (xt2 <? xs1) then Ok 0%nat
    else if (xs2 =? xt1) || (xt2 =? xs1) then Ok 1%nat
    else
      bind (passert ((xs1 <=? xs2) && (xs2 <? xt1) || (xs1 <? xt2) && (xt2 <=? xt1)
                   || (xs2 <? xs1) && (xt1 <? xt2) || (xs1 <? xs2) && (xt2 <? xt1))) (fun _ =>
      Ok 2%nat))) = Ok n.
Proof.
  intros D0 D1 N1 N2 O1 O2.
  set (p := (xs1, ys1) : vec K) in *. set (q := (xt1, yt1) : vec K) in *.
  set (r := (xs2, ys2) : vec K) in *. set (s := (xt2, yt2) : vec K) in *.
  assert (LL : forall x, det3 p q x = 0 -> exists t, x = vadd p (vscale t (vsub q p))).
  { intros x Hx. apply fdet_line; auto. }
  assert (Lp : exists t, p = vadd p (vscale t (vsub q p))).
  { exists 0. apply vec_eq; cbn; ring. }
  assert (Lq : exists t, q = vadd p (vscale t (vsub q p))).
  { exists 1. apply vec_eq; cbn; ring. }
  pose proof (LL _ D0) as Lr. pose proof (LL _ D1) as Ls.
  apply orb_false_iff in O1, O2. destruct O1 as [O1 O1'], O2 as [O2 O2'].
  destruct (feq_dec xs1 xt1) as [V|V].
  - (* vertical *)
    assert (Y1 : ys1 < yt1).
    { apply andb_false_iff in O1'. destruct O1' as [O|O]; [apply feqb_false in O; congruence|].
      apply fnle_lt. intros G. apply N1. apply vec_eq; cbn; auto. flra. }
    assert (X2 : xs2 = xs1). { destruct Lr as [t E]. injection E as E1 E2. cbn in E1. rewrite E1, V. ring. }
    assert (X3 : xt2 = xs1). { destruct Ls as [t E]. injection E as E1 E2. cbn in E1. rewrite E1, V. ring. }
    assert (Y2 : ys2 < yt2).
    { apply andb_false_iff in O2'. destruct O2' as [O|O]; [apply feqb_false in O; congruence|].
      apply fnle_lt. intros G. apply N2. apply vec_eq; cbn; [congruence|]. flra. }
    assert (C : (xs1 =? xt1) && (xt1 =? xs2) && (xs2 =? xt2) = true).
    { rewrite !andb_true_iff, !feqb_eq. repeat split; congruence. }
    rewrite C. rewrite Y1, Y2. cbn [andb passert bind].
    destruct (collinear_spec snd snd_aff p (vsub q p)) with (p := p) (q := q) (r := r) (s := s) as [A [B C']]; auto.
    { cbn. intros X. flra. }
    cbn in A, B, C'.
    destruct (yt1 <? ys2) eqn:E1; [exists 0%nat; split; auto; constructor; auto|].
    destruct (yt2 <? ys1) eqn:E2; [exists 0%nat; split; auto; constructor; auto|]. cbn [orb].
    destruct (ys2 =? yt1) eqn:E3; [exists 1%nat; split; auto; constructor; apply B; left; now apply feqb_eq|].
    destruct (yt2 =? ys1) eqn:E4; [exists 1%nat; split; auto; constructor; apply B; right; now apply feqb_eq|]. cbn [orb].
    apply feqb_false in E3, E4. apply fneq_lt in E3, E4.
    assert (F1 : ys2 < yt1) by (destruct E3; flra). assert (F2 : ys1 < yt2) by (destruct E4; flra).
    destruct (C' F1 F2) as [X Y].
    exists 2%nat. split; [now constructor|].
    replace ((ys1 <=? ys2) && (ys2 <? yt1) || (ys1 <? yt2) && (yt2 <=? yt1) || (ys2 <? ys1) && (yt1 <? yt2)
      || (ys1 <? ys2) && (yt2 <? yt1)) with true; auto.
    rewrite F1, F2. cbn [andb]. rewrite !andb_true_r. unfold fleb. destruct (ys2 <? ys1), (yt1 <? yt2); reflexivity.
  - (* not vertical *)
    assert (X1 : xs1 < xt1). { destruct (fneq_lt _ _ V); auto. congruence. }
    assert (C : (xs1 =? xt1) && (xt1 =? xs2) && (xs2 =? xt2) = false).
    { apply feqb_false in V. now rewrite V. }
    rewrite C.
    assert (X2 : xs2 < xt2).
    { destruct (feq_dec xs2 xt2) as [W|W].
      - exfalso. apply N2. apply (phi_inj fst fst_aff p (vsub q p)); auto. cbn. intros X. flra.
      - destruct (fneq_lt _ _ W); auto. congruence. }
    rewrite X1, X2. cbn [andb passert bind].
    destruct (collinear_spec fst fst_aff p (vsub q p)) with (p := p) (q := q) (r := r) (s := s) as [A [B C']]; auto.
    { cbn. intros X. flra. }
    cbn in A, B, C'.
    destruct (xt1 <? xs2) eqn:E1; [exists 0%nat; split; auto; constructor; auto|].
    destruct (xt2 <? xs1) eqn:E2; [exists 0%nat; split; auto; constructor; auto|]. cbn [orb].
    destruct (xs2 =? xt1) eqn:E3; [exists 1%nat; split; auto; constructor; apply B; left; now apply feqb_eq|].
    destruct (xt2 =? xs1) eqn:E4; [exists 1%nat; split; auto; constructor; apply B; right; now apply feqb_eq|]. cbn [orb].
    apply feqb_false in E3, E4. apply fneq_lt in E3, E4.
    assert (F1 : xs2 < xt1) by (destruct E3; flra). assert (F2 : xs1 < xt2) by (destruct E4; flra).
    destruct (C' F1 F2) as [X Y].
    exists 2%nat. split; [now constructor|].
    replace ((xs1 <=? xs2) && (xs2 <? xt1) || (xs1 <? xt2) && (xt2 <=? xt1) || (xs2 <? xs1) && (xt1 <? xt2)
      || (xs1 <? xs2) && (xt2 <? xt1)) with true; auto.
    rewrite F1, F2. cbn [andb]. rewrite !andb_true_r. unfold fleb. destruct (xs2 <? xs1), (xt1 <? xt2); reflexivity.
Qed.

Lemma one_side_bool (s0 s1 : K) : (0 <? s0) && (0 <? s1) || (s0 <? 0) && (s1 <? 0) = true <->
  (0 < s0 /\ 0 < s1) \/ (s0 < 0 /\ s1 < 0).
Proof. rewrite orb_true_iff, !andb_true_iff. unfold flt. tauto. Qed.

Lemma segment_spec e1 e2 : fst e1 <> snd e1 -> fst e2 <> snd e2 ->
  exists n, is_segment_intersecting e1 e2 = Ok n /\ seg_spec e1 e2 n.
Proof.
  intros N1 N2. destruct e1 as [[xs1 ys1] [xt1 yt1]], e2 as [[xs2 ys2] [xt2 yt2]].
  unfold is_segment_intersecting. cbn [fst snd] in *.
  rewrite (proj2 (veqb_neq _ _) N1), (proj2 (veqb_neq _ _) N2). cbn [orb].
  set (s0 := det3 (xs1, ys1) (xt1, yt1) (xs2, ys2)). set (s1 := det3 (xs1, ys1) (xt1, yt1) (xt2, yt2)).
  set (s2 := det3 (xs2, ys2) (xt2, yt2) (xs1, ys1)). set (s3 := det3 (xs2, ys2) (xt2, yt2) (xt1, yt1)).
  destruct ((0 <? s0) && (0 <? s1) || (s0 <? 0) && (s1 <? 0)) eqn:A.
  { exists 0%nat. split; auto. constructor. apply one_side_bool in A. now apply one_side_disjoint. }
  destruct ((0 <? s2) && (0 <? s3) || (s2 <? 0) && (s3 <? 0)) eqn:B.
  { exists 0%nat. split; auto. apply seg_spec_sym. constructor. apply one_side_bool in B. now apply one_side_disjoint. }
  apply not_true_iff_false in A, B. rewrite one_side_bool in A, B.
  destruct ((s0 =? 0) && (s1 =? 0)) eqn:C.
  - apply andb_true_iff in C. rewrite !feqb_eq in C. destruct C as [C0 C1].
    assert (C2 : s2 = 0 /\ s3 = 0).
    { assert (on_line (xs1, ys1) (xt1, yt1) (xs2, ys2)) as [t E] by now apply fdet_line.
      assert (on_line (xs1, ys1) (xt1, yt1) (xt2, yt2)) as [t' E'] by now apply fdet_line.
      injection E as Ea Eb. injection E' as Ea' Eb'. cbn in *.
      unfold s2, s3, det3. cbn. rewrite Ea, Eb, Ea', Eb'. split; ring. }
    destruct C2 as [C2 C3]. rewrite C2, C3. rewrite (proj2 (feqb_eq K 0 0) eq_refl). cbn [andb passert bind].
    assert (SW : forall a b c : vec K, det3 a b c = 0 -> det3 b a c = 0).
    { intros a b c H. replace (det3 b a c) with (- det3 a b c) by (unfold det3; cbn; ring). rewrite H. ring. }
    assert (LA : forall x y x' y' : K, (x <? x') || (x =? x') && (y <? y') = true ->
      (x' <? x) || (x' =? x) && (y' <? y) = false).
    { intros x y x' y' H. apply orb_true_iff in H. apply orb_false_iff. rewrite andb_false_iff.
      destruct H as [H|H].
      - split; [flra|]. left. flra.
      - apply andb_true_iff in H. destruct H as [H H']. apply feqb_eq in H. subst. split; [apply fltb_irrefl|].
        right. flra. }
    clear A B. unfold s0, s1 in *.
    destruct ((xt1 <? xs1) || (xt1 =? xs1) && (yt1 <? ys1)) eqn:O1;
    destruct ((xt2 <? xs2) || (xt2 =? xs2) && (yt2 <? ys2)) eqn:O2.
    + destruct (collinear_part xt1 yt1 xs1 ys1 xt2 yt2 xs2 ys2) as [n [S E]]; auto.
      exists n. split; [exact E|]. now apply seg_spec_swap_l, seg_spec_swap_r.
    + destruct (collinear_part xt1 yt1 xs1 ys1 xs2 ys2 xt2 yt2) as [n [S E]]; auto.
      exists n. split; [exact E|]. now apply seg_spec_swap_l.
    + destruct (collinear_part xs1 ys1 xt1 yt1 xt2 yt2 xs2 ys2) as [n [S E]]; auto.
      exists n. split; [exact E|]. now apply seg_spec_swap_r.
    + destruct (collinear_part xs1 ys1 xt1 yt1 xs2 ys2 xt2 yt2) as [n [S E]]; auto.
      exists n. split; [exact E|]. exact S.
  - assert (N : s0 <> s1).
    { intros E. apply andb_false_iff in C. rewrite !feqb_false in C. rewrite E in A.
      assert (s1 <> 0) by (destruct C; congruence). apply A. apply fneq_lt in H. tauto. }
    destruct (proper_common (xs1, ys1) (xt1, yt1) (xs2, ys2) (xt2, yt2) s0 s1 s2 s3) as [p [P1 [P2 [P3 P4]]]]; auto.
    assert (T : touching ((xs1, ys1), (xt1, yt1)) ((xs2, ys2), (xt2, yt2)) <-> (s2 = 0 \/ s3 = 0) /\ (s0 = 0 \/ s1 = 0)).
    { rewrite <- P3, <- P4. split.
      - intros [q [Q1 [Q2 Q3]]]. rewrite (Q3 p P1). auto.
      - intros [Q1 Q2]. exists p. auto. }
    destruct ((s0 =? 0) || (s1 =? 0)) eqn:F.
    + apply orb_true_iff in F. rewrite !feqb_eq in F.
      destruct ((s2 =? 0) || (s3 =? 0)) eqn:G.
      * apply orb_true_iff in G. rewrite !feqb_eq in G. exists 1%nat. split; auto. constructor. tauto.
      * apply orb_false_iff in G. rewrite !feqb_false in G. exists 2%nat. split; auto. constructor; [now exists p|]. tauto.
    + apply orb_false_iff in F. rewrite !feqb_false in F. exists 2%nat. split; auto. constructor; [now exists p|]. tauto.
Qed.

Lemma segment_degenerate (e1 e2 : vec K * vec K) : fst e1 = snd e1 \/ fst e2 = snd e2 ->
  is_segment_intersecting e1 e2 = Err ValueError.
Proof.
  intros H. unfold is_segment_intersecting. rewrite (proj2 (orb_true_iff _ _)); auto.
  rewrite !veqb_eq. auto.
Qed.

(** ** C16 *)
Lemma ccw_nz_neq p q d : ccw (vsub q p) d <> 0 -> p <> q.
Proof. intros H ->. apply H. unfold ccw; cbn; ring. Qed.

Lemma line_intersection_none p1 p2 q1 q2 :
  line_intersection p1 p2 q1 q2 = None <-> ccw (vsub p2 p1) (vsub q2 q1) = 0.
Proof.
  unfold line_intersection. destruct (ccw (vsub p2 p1) (vsub q2 q1) =? 0) eqn:E.
  - apply feqb_eq in E. tauto.
  - apply feqb_false in E. split; [discriminate|contradiction].
Qed.

Lemma line_intersection_some p1 p2 q1 q2 p :
  line_intersection p1 p2 q1 q2 = Some p ->
  forall q, (on_line p1 p2 q /\ on_line q1 q2 q) <-> q = p.
Proof.
  unfold line_intersection. set (t' := fst (mat_inv_apply _ _ _ _ _)). destruct (ccw (vsub p2 p1) (vsub q2 q1) =? 0) eqn:E; [discriminate|].
  apply feqb_false in E. intros H. injection H as <-. intros q.
  assert (E' : (fst p2 - fst p1) * (snd q1 - snd q2) - (fst q1 - fst q2) * (snd p2 - snd p1) <> 0).
  { intros X. apply E. unfold ccw; cbn. flra. }
  assert (D : on_line q1 q2 (vadd p1 (vscale t' (vsub p2 p1)))).
  { apply fdet_line.
    - intros ->. apply E. unfold ccw; cbn; ring.
    - unfold det3, t'; cbn. field. auto. }
  clearbody t'.
  split.
  - intros [[t ->] [s Hs]]. destruct D as [s' Hs'].
    assert (t = t').
    { apply (f_equal fst) in Hs as A1. apply (f_equal snd) in Hs as A2.
      apply (f_equal fst) in Hs' as B1. apply (f_equal snd) in Hs' as B2.
      unfold ccw in E. cbn in A1, A2, B1, B2, E.
      apply (fcancel _ _ _ E).
      assert (X1 : (t - t') * (fst p2 - fst p1) = (s - s') * (fst q2 - fst q1)) by flra.
      assert (X2 : (t - t') * (snd p2 - snd p1) = (s - s') * (snd q2 - snd q1)) by flra.
      assert (X3 : (t - t') * ((fst p2 - fst p1) * (snd q2 - snd q1) - (snd p2 - snd p1) * (fst q2 - fst q1)) = 0).
      { transitivity ((t - t') * (fst p2 - fst p1) * (snd q2 - snd q1) - (t - t') * (snd p2 - snd p1) * (fst q2 - fst q1)); [ring|].
        rewrite X1, X2. ring. }
      flra. }
    now subst.
  - intros ->. split; auto. eexists; reflexivity.
Qed.

Lemma solve_spec x u y v :
  (ccw u v = 0 -> solve x u y v = Err ValueError) /\
  (ccw u v <> 0 -> exists a b, solve x u y v = Ok (a, b) /\
    forall a' b', vadd x (vscale a' u) = vadd y (vscale b' v) <-> (a', b') = (a, b)).
Proof.
  unfold solve. set (d := - fst u * snd v + snd u * fst v).
  assert (D : d = - ccw u v) by (unfold d, ccw; ring).
  split.
  - intros E. rewrite E in D. replace (- (0)) with (0 : K) in D by ring. now rewrite (proj2 (feqb_eq K d 0) D).
  - intros E. assert (N : d <> 0) by (intros X; apply E; flra).
    rewrite (proj2 (feqb_false d 0) N).
    eexists; eexists; split; [reflexivity|]. intros a' b'. split.
    + intros H. apply (f_equal fst) in H as H1. apply (f_equal snd) in H as H2. cbn in H1, H2.
      f_equal; apply (fcancel _ _ d N); rewrite fdiv_mul by auto; unfold d.
      * transitivity (snd u * fst v * a' + 0 - fst u * snd v * a'); [ring|].
        transitivity ((fst x + a' * fst u) * - snd v + (snd x + a' * snd u) * fst v + (fst x * snd v - snd x * fst v)); [ring|].
        rewrite H1, H2. ring.
      * transitivity ((fst y + b' * fst v) * snd u - (snd y + b' * snd v) * fst u - (fst y * snd u - snd y * fst u)); [ring|].
        rewrite <- H1, <- H2. ring.
    + intros H. injection H as -> ->. destruct x, u, y, v. unfold d in *. cbn in *. apply vec_eq; cbn; field; auto.
Qed.

Lemma time_on_ray_spec p d t : d <> vzero ->
  exists l, 0 < l /\ time_on_ray p d (vadd p (vscale t d)) = (t * l, l).
Proof.
  intros N. unfold time_on_ray. destruct (feq_dec (fst d) 0) as [E|E].
  - rewrite (proj2 (feqb_eq K _ _) E). cbn [negb].
    assert (N' : snd d <> 0) by (intros X; apply N; now apply vec_eq).
    destruct (snd d <? 0) eqn:L.
    + exists (snd d * - (1)). split; [pose proof (@flt_0_1 K); flra|]. cbn. f_equal; ring.
    + exists (snd d). split; [apply fneq_lt in N'; destruct N'; flra|]. cbn. f_equal; ring.
  - rewrite (proj2 (feqb_false _ _) E). cbn [negb].
    destruct (fst d <? 0) eqn:L.
    + exists (fst d * - (1)). split; [pose proof (@flt_0_1 K); flra|]. cbn. f_equal; ring.
    + exists (fst d). split; [apply fneq_lt in E; destruct E; flra|]. cbn. f_equal; ring.
Qed.

Lemma time_on_ray_length p d q q' : snd (time_on_ray p d q) = snd (time_on_ray p d q').
Proof. unfold time_on_ray. destruct (negb (fst d =? 0)); destruct (_ <? 0); reflexivity. Qed.

Lemma ray_inj p d t s : d <> vzero -> vadd p (vscale t d) = vadd p (vscale s d) -> t = s.
Proof.
  intros N E. apply vnz in N. unfold dot in N. apply (fcancel _ _ _ (fpos_neq0 _ N)).
  apply (f_equal fst) in E as E1. apply (f_equal snd) in E as E2. cbn in E1, E2.
  assert (X : t * fst d = s * fst d) by flra. assert (Y : t * snd d = s * snd d) by flra.
  transitivity (t * fst d * fst d + t * snd d * snd d); [ring|]. rewrite X, Y. ring.
Qed.

Lemma on_segment_ray p d t0 t1 t : d <> vzero ->
  (on_segment (vadd p (vscale t0 d), vadd p (vscale t1 d)) (vadd p (vscale t d)) <->
   (t0 <= t /\ t <= t1) \/ (t1 <= t /\ t <= t0)).
Proof.
  intros N. split.
  - intros [x [H0 [H1 E]]]. cbn in E.
    assert (t = t0 + x * (t1 - t0)).
    { apply (ray_inj p d); auto. rewrite E. apply vec_eq; cbn; ring. }
    subst t. destruct (fltb t0 t1) eqn:L; [left|right]; split; fnra.
  - intros H. destruct (feq_dec t0 t1) as [E|E].
    + subst t1. assert (t = t0) by (destruct H; flra). subst t. exists 0.
      pose proof (@flt_0_1 K). repeat split; try flra. apply vec_eq; cbn; ring.
    + assert (D : t1 - t0 <> 0) by (intros X; apply E; flra).
      exists ((t - t0) / (t1 - t0)). pose proof (fdiv_mul (t - t0) (t1 - t0) D) as M.
      repeat split.
      * destruct H; apply fneq_lt in D; destruct D; fnra.
      * destruct H; apply fneq_lt in D; destruct D; fnra.
      * cbn. apply vec_eq; cbn; field; auto.
Qed.

Lemma seg_on_ray_line p d t0 t1 q :
  on_segment (vadd p (vscale t0 d), vadd p (vscale t1 d)) q -> exists t, q = vadd p (vscale t d).
Proof. intros [x [_ [_ ->]]]. exists (t0 + x * (t1 - t0)). cbn. apply vec_eq; cbn; ring. Qed.

Lemma vadd_sub p q : vadd p (vsub q p) = q.
Proof. destruct p, q; apply vec_eq; cbn; ring. Qed.
Lemma vsub_add p d : vsub (vadd p d) p = d.
Proof. destruct p, d; apply vec_eq; cbn; ring. Qed.

Lemma ray_segment_intersection_spec p d s : d <> vzero ->
  forall q, ray_set (ray_segment_intersection p d s) q <-> (on_ray p d q /\ on_segment s q).
Proof.
  intros N q. unfold ray_segment_intersection. destruct s as [a b]. cbn [fst snd].
  assert (Nd : p <> vadd p d). { intros X. apply N. rewrite <- (vsub_add p d). rewrite <- X. destruct p; apply vec_eq; cbn; ring. }
  destruct (line_intersection p (vadd p d) a b) as [x|] eqn:LI.
  - assert (U := line_intersection_some _ _ _ _ _ LI).
    assert (C : ccw d (vsub b a) <> 0).
    { intros X. assert (line_intersection p (vadd p d) a b = None); [|congruence].
      apply line_intersection_none. now rewrite vsub_add. }
    destruct (proj2 (U x) eq_refl) as [[t Ht] Lx]. rewrite vsub_add in Ht.
    destruct (time_on_ray_spec p d t N) as [l [Hl T]]. rewrite <- Ht in T. rewrite T. cbn [fst].
    assert (Sg : ccw (vsub a p) d * ccw (vsub b p) d <= 0 <-> on_segment (a, b) x).
    { destruct Lx as [s Hs].
      assert (E1 : ccw (vsub a p) d = ccw d (vsub b a) * s).
      { assert (A : a = vsub x (vscale s (vsub b a))). { rewrite Hs. apply vec_eq; cbn; ring. }
        apply (f_equal fst) in A as A1. apply (f_equal snd) in A as A2. rewrite Ht in A1, A2. cbn in A1, A2.
        unfold ccw. cbn. rewrite A1 at 1. rewrite A2 at 1. ring. }
      assert (E2 : ccw (vsub b p) d = ccw d (vsub b a) * (s - 1)).
      { transitivity (ccw (vsub a p) d - ccw d (vsub b a)); [unfold ccw; cbn; ring|]. rewrite E1. ring. }
      rewrite E1, E2. apply fsq_pos in C. set (c := ccw d (vsub b a)) in *.
      replace (c * s * (c * (s - 1))) with (c * c * (s * (s - 1))) by ring.
      split.
      - intros H. assert (s * (s - 1) <= 0) by fnra. exists s. repeat split; auto; fnra.
      - intros [s' [H0 [H1 H2]]]. cbn in H2. rewrite Hs in H2.
        assert (s = s').
        { apply (ray_inj a (vsub b a)); auto. intros X. unfold c in C. rewrite X in C. unfold ccw in C. cbn in C. fnra. }
        subst s'. assert (s * (s - 1) <= 0) by fnra. fnra. }
    destruct (t * l <? 0) eqn:R.
    + cbn. split; [tauto|]. intros [[t' [Ht' ->]] S].
      assert (vadd p (vscale t' d) = x).
      { apply U. split; [exists t'; now rewrite vsub_add | now apply on_segment_line in S]. }
      rewrite Ht in H. apply ray_inj in H; auto. subst. fnra.
    + assert (Rt : 0 <= t) by fnra.
      destruct (0 <? ccw (vsub a p) d * ccw (vsub b p) d) eqn:G.
      * cbn. split; [tauto|]. intros [[t' [Ht' ->]] S].
        assert (E : vadd p (vscale t' d) = x).
        { apply U. split; [exists t'; now rewrite vsub_add | now apply on_segment_line in S]. }
        rewrite E in S. apply Sg in S. flra.
      * cbn. split.
        -- intros ->. split; [exists t; auto | now apply Sg].
        -- intros [[t' [Ht' ->]] S]. apply U. split; [exists t'; now rewrite vsub_add | now apply on_segment_line in S].
  - apply line_intersection_none in LI. rewrite vsub_add in LI.
    destruct (ccw d (vsub a p) =? 0) eqn:E; cbn [negb].
    + apply feqb_eq in E.
      assert (La : on_line p (vadd p d) a).
      { apply fdet_line; auto. rewrite det3_ccw, vsub_add. exact E. }
      assert (Lb : on_line p (vadd p d) b).
      { apply fdet_line; auto. rewrite det3_ccw, vsub_add.
        transitivity (ccw d (vsub a p) + ccw d (vsub b a)); [unfold ccw; cbn; ring|]. rewrite E, LI. ring. }
      destruct La as [ta ->], Lb as [tb ->]. rewrite vsub_add in *.
      destruct (time_on_ray_spec p d ta N) as [l [Hl Ta]]. destruct (time_on_ray_spec p d tb N) as [l' [Hl' Tb]].
      assert (l' = l).
      { pose proof (time_on_ray_length p d (vadd p (vscale ta d)) (vadd p (vscale tb d))) as X. rewrite Ta, Tb in X. now cbn in X. }
      subst l'. rewrite Ta, Tb.
      pose proof (fpos_neq0 _ Hl) as Nl.
      assert (Gen : forall t0 t1, t0 <= t1 -> 
         (on_segment (vadd p (vscale ta d), vadd p (vscale tb d)) q <->
          on_segment (vadd p (vscale t0 d), vadd p (vscale t1 d)) q) ->
         ray_set (if t1 * l <? 0 then RNone else if t1 * l =? 0 then RPoint p else
            let t0 := t0 * l / l in let t1 := t1 * l / l in
            if t0 <? 0 then RSegment p (vadd p (vscale t1 d)) else RSegment (vadd p (vscale t0 d)) (vadd p (vscale t1 d))) q
         <-> on_ray p d q /\ on_segment (vadd p (vscale ta d), vadd p (vscale tb d)) q).
      { intros t0 t1 Le Seg. rewrite Seg. clear Seg.
        assert (P0 : p = vadd p (vscale 0 d)) by (destruct p; apply vec_eq; cbn; ring).
        destruct (t1 * l <? 0) eqn:C1.
        - assert (t1 < 0) by fnra. cbn. split; [tauto|]. intros [[t [Ht ->]] S]. apply on_segment_ray in S; auto. destruct S; flra.
        - assert (0 <= t1) by fnra.
          destruct (t1 * l =? 0) eqn:C2.
          + apply feqb_eq in C2. assert (t1 = 0). { apply fmul_eq0 in C2. destruct C2; auto. contradiction. }
            subst t1. cbn. split.
            * intros ->. split; [exists 0; split; [flra|auto]|]. rewrite P0 at 3. apply on_segment_ray; [auto|]. left. split; flra.
            * intros [[t [Ht ->]] S]. apply on_segment_ray in S; auto. assert (t = 0) by (destruct S; flra). subst t. auto.
          + cbn zeta. replace (t0 * l / l) with t0 by (field; auto). replace (t1 * l / l) with t1 by (field; auto).
            destruct (t0 <? 0) eqn:C3; cbn.
            * split.
              -- intros S. rewrite P0 in S at 1. destruct (seg_on_ray_line _ _ _ _ _ S) as [t ->]. apply on_segment_ray in S; auto.
                 split; [exists t; split; auto; destruct S; flra|]. apply on_segment_ray; auto. destruct S; left; flra.
              -- intros [[t [Ht ->]] S]. apply on_segment_ray in S; auto. rewrite P0 at 1. apply on_segment_ray; auto. destruct S; left; flra.
            * split.
              -- intros S. destruct (seg_on_ray_line _ _ _ _ _ S) as [t ->]. split; auto.
                 apply on_segment_ray in S; auto. exists t; split; auto. destruct S; flra.
              -- intros [_ S]; exact S. }
      destruct (tb * l <? ta * l) eqn:O.
      * apply Gen; [fnra|]. rewrite <- on_segment_swap. reflexivity.
      * apply Gen; [fnra|]. reflexivity.
    + apply feqb_false in E. cbn. split; [tauto|]. intros [[t [Ht ->]] S]. apply E.
      destruct S as [x [_ [_ Hx]]]. cbn in Hx.
      apply (f_equal fst) in Hx as H1. apply (f_equal snd) in Hx as H2. unfold ccw in *. cbn in *.
      transitivity (fst d * (t * snd d - x * (snd b - snd a)) - snd d * (t * fst d - x * (fst b - fst a))).
      * assert (A1 : fst a - fst p = t * fst d - x * (fst b - fst a)) by flra.
        assert (A2 : snd a - snd p = t * snd d - x * (snd b - snd a)) by flra.
        rewrite A1, A2. ring.
      * transitivity (x * - (fst d * (snd b - snd a) - snd d * (fst b - fst a))); [ring|]. rewrite LI. ring.
Qed.
End P.
