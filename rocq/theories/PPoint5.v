(** Proofs about turns around a vertex: the vectors of a star. *)
From Coq Require Import List Bool ZArith Arith Lia Relations Ring Field.
From Verif Require Import OField FMicromega PField MBase MDict PDict MEuclid SEuclid PEuclid MSim SSim PSim MPoly PPoly
  MSurf SSurf PSurf PSurf2 PSurf3 MPoint SPoint PPoint PPoint2 PPoint3 PPoint4 PTurn PTurn2.
Import ListNotations.

Section Star.
Context {K : OField} {L : Type} `{EqB L}.
Add Field KF : (of_ft K).
Local Open Scope F_scope.
Implicit Types (S : surface K L) (D : L -> Prop) (P : polygon K) (x y : L * nat).

Lemma turning_nz (m : mat K) v : turning m -> v <> vzero -> mapply m v <> vzero.
Proof.
  intros [a [b [N E]]] Nv Z. rewrite E in Z. destruct v as [x y]. unfold vzero in Z. cbn in Z. injection Z as Z1 Z2.
  apply fsum_sq_pos in N. apply fpos_neq0 in N.
  assert (X : x * (a * a + b * b) = 0) by (transitivity (a * (a * x - b * y) + b * (b * x + a * y)); [ring|rewrite Z1, Z2; ring]).
  assert (Y : y * (a * a + b * b) = 0) by (transitivity (a * (b * x + a * y) - b * (a * x - b * y)); [ring|rewrite Z1, Z2; ring]).
  apply fmul_eq0 in X, Y. destruct X as [-> |]; [|contradiction]. destruct Y as [-> |]; [|contradiction]. now apply Nv.
Qed.
Lemma turning_parallel (m : mat K) u v : turning m -> pos_multiple (mapply m u) (mapply m v) -> u <> vzero -> pos_multiple u v.
Proof.
  intros T [_ [a [A E]]] Nu. split; auto. exists a. split; auto.
  assert (Z : mapply m (vsub v (vscale a u)) = vzero).
  { destruct T as [c [d [_ F]]]. rewrite !F in *. destruct u, v. unfold vsub, vscale, vzero in *. cbn in *. injection E as E1 E2.
    apply vec_eq; cbn.
    - transitivity ((c * c2 - d * c3) - a * (c * c0 - d * c1)); [ring|]. rewrite E1. ring.
    - transitivity ((d * c2 + c * c3) - a * (d * c0 + c * c1)); [ring|]. rewrite E2. ring. }
  destruct (vec_dec (vsub v (vscale a u)) vzero) as [W|W]; [|exfalso; now apply (turning_nz m _ T W)].
  destruct u, v. unfold vsub, vscale, vzero in *. cbn in *. injection W as W1 W2. apply vec_eq; cbn; flra.
Qed.
(** in a simple polygon no two consecutive edges overlap *)
Lemma simple_no_spike P k : nondeg P -> simple_polygon P -> (k < length P)%nat ->
  ~ pos_multiple (edge P k) (vopp (edge P ((k + length P - 1) mod length P))).
Proof.
  intros N SP Lk [_ [a [A E]]]. set (j := ((k + length P - 1) mod length P)%nat) in *.
  assert (Lj : (j < length P)%nat) by now apply prev_lt.
  assert (Sj : ((j + 1) mod length P)%nat = k) by (unfold j; now apply succ_prev).
  assert (Vj : vertex P (Datatypes.S j) = vertex P k) by (rewrite <- Sj, vertex_mod, Nat.add_1_r; auto).
  assert (Njk : j <> k). { intros X. rewrite X in Sj. destruct (mod_succ k (length P) Lk) as [[Y Z]|[Y Z]]; rewrite Z in Sj; destruct N; lia. }
  (* a point of both edges near the vertex *)
  assert (T : exists t, 0 < t /\ t < 1 /\ a * t < 1 /\ True).
  { exists (1 / (1 + 1 + a)). pose proof (@flt_0_1 K) as O. assert (B : 0 < 1 + 1 + a) by flra. pose proof (fpos_neq0 _ B) as B0.
    split; [now apply fdiv_pos|]. set (t := 1 / (1 + 1 + a)) in *. assert (Tt : t * (1 + 1 + a) = 1) by (unfold t; field; auto).
    assert (T0 : 0 < t) by now apply fdiv_pos. assert (0 < t * a) by now apply fmul_pos. split; [|split; auto].
    - assert (t * (1 + 1 + a) = t + t + t * a) by ring. flra.
    - assert (t * (1 + 1 + a) = t + t + t * a) by ring. assert (a * t = t * a) by ring. flra. }
  destruct T as [t [T0 [T1 [T2 _]]]].
  assert (On1 : on_segment (side P j) (vadd (vertex P k) (vscale (a * t) (edge P k)))).
  { apply side_segment. exists (1 - t). split; [flra|]. split; [flra|].
    assert (V0 : vertex P j = vsub (vertex P (Datatypes.S j)) (edge P j)) by (unfold edge; destruct (vertex P j), (vertex P (Datatypes.S j)); apply vec_eq; cbn; ring).
    rewrite V0, Vj. assert (Ej : edge P j = vopp (vscale a (edge P k))) by (rewrite <- E; destruct (edge P j); apply vec_eq; cbn; ring).
    rewrite Ej. destruct (vertex P k), (edge P k). apply vec_eq; cbn; ring. }
  assert (AT : 0 < a * t) by (now apply fmul_pos).
  assert (On2 : on_segment (side P k) (vadd (vertex P k) (vscale (a * t) (edge P k)))).
  { apply side_segment. exists (a * t). split; [flra|]. split; [flra|auto]. }
  destruct (SP j k _ Lj Lk Njk On1 On2) as [[_ Z]|[Z _]].
  - rewrite Nat.add_1_r, Vj in Z. apply (proj2 N k). destruct (vertex P k) as [x y], (edge P k) as [u v]. unfold vadd, vscale in Z. cbn in Z. injection Z as Z1 Z2.
    assert (X1 : a * t * u = 0) by flra. assert (X2 : a * t * v = 0) by flra. apply fmul_eq0 in X1, X2.
    destruct X1 as [X1| ->]; [exfalso; flra|]. destruct X2 as [X2| ->]; [exfalso; flra|]. reflexivity.
  - (* only a polygon with two edges could have that *)
    destruct (mod_succ k (length P) Lk) as [[Y W]|[Y W]]; rewrite W in Z; destruct (mod_succ j (length P) Lj) as [[Y' W']|[Y' W']]; rewrite W' in Sj; destruct N; lia.
Qed.
Lemma place_turn D S s : valid D S -> simple_polygons D S -> placed D S s ->
  pa_first s <> vzero /\ pa_second s <> vzero /\ ~ pos_multiple (pa_first s) (pa_second s).
Proof.
  intros V SP [D1 [P1 [L1 T1]]].
  destruct (corner_valid D S (fst (pa_corner s)) (snd (pa_corner s)) (pa_poly s) V) as [N _]; auto; [exists (pa_poly s); auto|].
  split; [apply turning_nz; auto; apply N|]. split; [apply turning_nz; auto; apply vopp_nz, N|].
  intros PM. unfold pa_first, pa_second in PM. apply turning_parallel in PM; auto; [|apply N].
  revert PM. unfold pa_exit. cbn. apply simple_no_spike; auto. eapply SP; eauto.
Qed.
Lemma star_turns D S ss : valid D S -> simple_polygons D S -> (forall s, In s ss -> placed D S s) -> consecutive (next_place S) ss ->
  forall s0, nth_error ss 0 = Some s0 -> proper_turns (pa_first s0) (map pa_second ss).
Proof.
  intros V SP. induction ss as [|s ss IH]; intros A C s0 E0; [discriminate|]. cbn in E0. injection E0 as <-.
  destruct (place_turn D S s V SP (A s (or_introl eq_refl))) as [N1 [N2 N3]]. cbn [map]. constructor; auto.
  destruct ss as [|s' ss]; [constructor|]. destruct (C 0%nat s s' eq_refl eq_refl) as [_ <-].
  apply IH; [intros t It; apply A; now right|now apply consecutive_tail in C|reflexivity].
Qed.
Lemma odd_show (ss : list (@place_at K L)) : map snd (odd_entries (flat_map show ss)) = map pa_second ss.
Proof. induction ss as [|s ss IH]; [reflexivity|]. cbn. now rewrite IH. Qed.
End Star.
