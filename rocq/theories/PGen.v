(** Weakly convex polygons are simple; surfaces assembled from a table of gluings. *)
From Coq Require Import List Bool ZArith Arith Lia Ring Field.
From Verif Require Import OField FMicromega PField MBase MDict PDict MEuclid SEuclid PEuclid MSim SSim PSim MPoly PPoly MMut SMut
  MSurf SSurf PSurf PSurf3 SPoint PPoint PTurn PSimple PFam PFam2 PFam3 TPoly2.
Import ListNotations.

Section P.
Context {K : OField}.
Add Field KF : (of_ft K).
Local Open Scope F_scope.
Notation nv := (@length (vec K) : polygon K -> nat).

(** ** polygons *)
Definition fst_below (a b c d : vec K) := fst a < fst c /\ fst a < fst d /\ fst b < fst c /\ fst b < fst d.
Definition snd_below (a b c d : vec K) := snd a < snd c /\ snd a < snd d /\ snd b < snd c /\ snd b < snd d.
(** two segments are separated by a vertical, a horizontal line or one of the segments *)
Definition apart (a b c d : vec K) :=
  fst_below a b c d \/ fst_below c d a b \/ snd_below a b c d \/ snd_below c d a b \/
  (0 < orient a b c /\ 0 < orient a b d) \/ (0 < orient c d a /\ 0 < orient c d b).
(** two consecutive segments only have their common point in common *)
Definition consecutive (a b c : vec K) :=
  0 < orient a b c \/ (fst a <= fst b /\ fst b < fst c) \/ (fst b <= fst a /\ fst c < fst b) \/ (snd a <= snd b /\ snd b < snd c) \/ (snd b <= snd a /\ snd c < snd b).
Lemma below_disjoint (x y z w s t : K) : x < z -> x < w -> y < z -> y < w -> 0 <= s -> s <= 1 -> 0 <= t -> t <= 1 -> x + s * (y - x) = z + t * (w - z) -> False.
Proof.
  intros A B C D S0 S1 T0 T1 E.
  assert (M : exists m, x < m /\ y < m /\ m <= z /\ m <= w).
  { destruct (flt_total (w - z)) as [W|[W|W]]; [exists w|exists z|exists z]; repeat split; auto; flra. }
  destruct M as (m & M1 & M2 & M3 & M4).
  assert (L : x + s * (y - x) < m).
  { destruct (flt_total s) as [Z|[Z|Z]]; [flra|rewrite Z; flra|]. assert (0 < s * (m - y)) by (apply fmul_pos; flra). assert (0 <= (1 - s) * (m - x)) by (apply fmul_nonneg; flra). flra. }
  assert (R : m <= z + t * (w - z)). { assert (0 <= t * (w - m)) by (apply fmul_nonneg; flra). assert (0 <= (1 - t) * (z - m)) by (apply fmul_nonneg; flra). flra. }
  flra.
Qed.
Lemma apart_disjoint (a b c d p : vec K) : apart a b c d -> on_segment (a, b) p -> on_segment (c, d) p -> False.
Proof.
  intros H S1 S2.
  destruct H as [H|[H|[H|[H|[[H1 H2]|[H1 H2]]]]]].
  5: exact (opp_disjoint a b c d p H1 H2 S1 S2).
  5: exact (opp_disjoint c d a b p H1 H2 S2 S1).
  all: destruct S1 as (s & X0 & X1 & ->), S2 as (t & Y0 & Y1 & E); cbn [fst snd] in E; pose proof (f_equal fst E) as E1; pose proof (f_equal snd E) as E2; cbn in E1, E2; clear E;
    destruct H as (A & B & C & D).
  - apply (below_disjoint _ _ _ _ s t A B C D); auto; flra.
  - apply (below_disjoint _ _ _ _ t s A B C D); auto; flra.
  - apply (below_disjoint _ _ _ _ s t A B C D); auto; flra.
  - apply (below_disjoint _ _ _ _ t s A B C D); auto; flra.
Qed.
Lemma ahead_zero (x y z s t : K) : x <= y -> y < z -> 0 <= s -> s <= 1 -> 0 <= t -> x + s * (y - x) = y + t * (z - y) -> t = 0.
Proof.
  intros A B S0 S1 T0 E. destruct (flt_total t) as [Z|[Z|Z]]; auto; exfalso; [flra|].
  assert (0 < t * (z - y)) by (apply fmul_pos; flra). assert (0 <= (1 - s) * (y - x)) by (apply fmul_nonneg; flra). flra.
Qed.
Lemma consecutive_common (a b c p : vec K) : consecutive a b c -> on_segment (a, b) p -> on_segment (b, c) p -> p = b.
Proof.
  intros H S1 S2. destruct H as [H|H]; [exact (adj_common a b c p H S1 S2)|].
  destruct S2 as (t & Y0 & Y1 & ->). cbn [fst snd] in *.
  assert (T : t = 0).
  { destruct S1 as (s & X0 & X1 & E). cbn [fst snd] in E. pose proof (f_equal fst E) as E1. pose proof (f_equal snd E) as E2. cbn in E1, E2. clear E.
    destruct H as [[A B]|[[A B]|[[A B]|[A B]]]].
    - apply (ahead_zero (fst a) (fst b) (fst c) s t); auto; flra.
    - apply (ahead_zero (- fst a) (- fst b) (- fst c) s t); auto; flra.
    - apply (ahead_zero (snd a) (snd b) (snd c) s t); auto; flra.
    - apply (ahead_zero (- snd a) (- snd b) (- snd c) s t); auto; flra. }
  rewrite T. apply vec_eq; cbn; ring.
Qed.
Lemma simple_intro (P : polygon K) : (3 <= length P)%nat ->
  (forall i, (i < length P)%nat -> consecutive (vertex P i) (vertex P (i + 1)) (vertex P (i + 2))) ->
  (forall i j, (i < length P)%nat -> (j < length P)%nat -> (i + 1 < j)%nat -> (j + 1 < length P + i)%nat -> apart (vertex P i) (vertex P (i + 1)) (vertex P j) (vertex P (j + 1))) ->
  simple_polygon P.
Proof.
  intros L H1 H2.
  assert (V : forall i j, (i < length P)%nat -> (j < length P)%nat -> j = ((i + 1) mod length P)%nat -> forall p, on_segment (side P i) p -> on_segment (side P j) p -> p = vertex P (i + 1)).
  { intros i j Hi Hj E p S1 S2. unfold side in *. apply (consecutive_common (vertex P i) _ (vertex P (i + 2))); [now apply H1|now replace (i + 1)%nat with (S i) by lia|].
    assert (E1 : vertex P j = vertex P (i + 1)) by (rewrite E; apply vertex_mod).
    assert (E2 : vertex P (S j) = vertex P (i + 2)).
    { rewrite <- (vertex_mod P (S j)), <- (vertex_mod P (i + 2)). f_equal. rewrite E. destruct (Nat.eq_dec (i + 1) (length P)) as [X|X].
      - rewrite X, Nat.mod_same by lia. replace (i + 2)%nat with (1 + 1 * length P)%nat by lia. now rewrite Nat.mod_add by lia.
      - rewrite (Nat.mod_small (i + 1)) by lia. f_equal. lia. }
    rewrite E1, E2 in S2. exact S2. }
  assert (W : forall i j p, (i < length P)%nat -> (j < length P)%nat -> (i < j)%nat -> on_segment (side P i) p -> on_segment (side P j) p ->
    (j = Nat.modulo (i + 1) (length P) /\ p = vertex P (i + 1)) \/ (i = Nat.modulo (j + 1) (length P) /\ p = vertex P (j + 1))).
  { intros i j p Hi Hj Hij S1 S2. destruct (Nat.eq_dec j (i + 1)) as [E|E].
    - left. assert (J : j = ((i + 1) mod length P)%nat) by (rewrite Nat.mod_small; lia). split; auto. apply (V i j); auto.
    - destruct (Nat.eq_dec (j + 1) (length P + i)) as [F|F].
      + right. assert (i = 0)%nat by lia. subst i. assert (J : 0%nat = ((j + 1) mod length P)%nat). { replace (j + 1)%nat with (length P) by lia. now rewrite Nat.mod_same by lia. }
        split; auto. apply (V j 0%nat); auto.
      + exfalso. unfold side in *. replace (S i) with (i + 1)%nat in S1 by lia. replace (S j) with (j + 1)%nat in S2 by lia.
        eapply apart_disjoint; [apply (H2 i j)|exact S1|exact S2]; auto; lia. }
  intros i j p Hi Hj N S1 S2. destruct (Nat.lt_total i j) as [X|[X|X]]; [|contradiction|].
  - now apply W.
  - destruct (W j i p) as [A|A]; auto.
Qed.
Lemma below_nz (a b : vec K) : fst a < fst b \/ fst b < fst a \/ snd a < snd b \/ snd b < snd a -> vsub b a <> vzero.
Proof. intros H E. pose proof (f_equal fst E) as E1. pose proof (f_equal snd E) as E2. cbn in E1, E2. destruct H as [H|[H|[H|H]]]; flra. Qed.
(** a polygon that is accepted by the constructor *)
Definition fine (P : polygon K) := (3 <= length P)%nat /\ (forall e, edge P e <> vzero) /\ simple_polygon P /\ 0 < area P.
Lemma fine_vertices P : fine P -> Polygon_vertices P = Ok P.
Proof. intros F. apply C51_vertices. split; auto. Qed.
Lemma fine_edges P es : fine P -> edges P = es -> vertex P 0 = vzero -> Polygon_edges es = Ok P.
Proof. intros (L & A) E V. apply C51_edges. split; auto. split; auto. split; auto. rewrite <- E. unfold edges. now rewrite map_length, seq_length. Qed.
Lemma fine_intro P : (3 <= length P)%nat ->
  (forall i, (i < length P)%nat -> fst (vertex P i) < fst (vertex P (S i)) \/ fst (vertex P (S i)) < fst (vertex P i) \/ snd (vertex P i) < snd (vertex P (S i)) \/ snd (vertex P (S i)) < snd (vertex P i)) ->
  (forall i, (i < length P)%nat -> consecutive (vertex P i) (vertex P (i + 1)) (vertex P (i + 2))) ->
  (forall i j, (i < length P)%nat -> (j < length P)%nat -> (i + 1 < j)%nat -> (j + 1 < length P + i)%nat -> apart (vertex P i) (vertex P (i + 1)) (vertex P j) (vertex P (j + 1))) ->
  0 < area P -> fine P.
Proof.
  intros L A B C D. split; auto. split; [apply edges_nz; [lia|]; intros e He; now apply below_nz, A|]. split; auto. now apply simple_intro.
Qed.
End P.
