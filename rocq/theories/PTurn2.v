(** Proofs about turns around a vertex: cutting a turn into two. *)
From Coq Require Import List Bool ZArith Arith Lia Ring Field.
From Verif Require Import OField FMicromega PField MBase MDict MEuclid SEuclid PEuclid MSim MPoly MSurf SSurf MPoint SPoint PTurn.
Import ListNotations.

Section T.
Context {K : OField}.
Add Field KF : (of_ft K).
Local Open Scope F_scope.
Implicit Types (s u v w r : vec K).

Lemma upper_scale s u (a : K) : 0 < a -> upper s u -> upper s (vscale a u).
Proof.
  intros A U. unfold upper in *.
  assert (E1 : ccw s (vscale a u) = a * ccw s u) by (destruct u, s; unfold ccw; cbn; ring).
  assert (E2 : dot s (vscale a u) = a * dot s u) by (destruct u, s; unfold dot; cbn; ring).
  rewrite E1, E2. destruct U as [U|[U V]]; [left; now apply fmul_pos|]. right. rewrite U. split; [ring|]. now apply fmul_pos.
Qed.
Lemma upper_add s u v : upper s u -> upper s v -> upper s (vadd u v).
Proof.
  unfold upper.
  assert (E1 : ccw s (vadd u v) = ccw s u + ccw s v) by (destruct u, s, v; unfold ccw; cbn; ring).
  assert (E2 : dot s (vadd u v) = dot s u + dot s v) by (destruct u, s, v; unfold dot; cbn; ring).
  rewrite E1, E2. intros [U|[U1 U2]] [V|[V1 V2]]; try (left; flra). right. split; [rewrite U1, V1; ring|flra].
Qed.
Lemma upper_nz s : ~ upper s vzero.
Proof. intros [H|[_ H]]; destruct s; unfold ccw, dot in H; cbn in H; [replace (c * 0 - c0 * 0) with (0 : K) in H by ring|replace (c * 0 + c0 * 0) with (0 : K) in H by ring]; flra. Qed.
Lemma upper_opp s u : s <> vzero -> u <> vzero -> (~ upper s u <-> upper s (vopp u)).
Proof.
  intros Ns Nu. assert (NM : neg_multiple u (vopp u)).
  { split; auto. exists (- (1)). split; [pose proof (@flt_0_1 K); flra|]. destruct u. apply vec_eq; cbn; ring. }
  assert (No : vopp u <> vzero). { intros E. apply Nu. destruct u. unfold vopp, vzero in *. cbn in *. injection E as E1 E2. apply vec_eq; cbn; flra. }
  pose proof (half_sides s u (vopp u) Ns Nu No NM). destruct (upper_dec s u), (upper_dec s (vopp u)); tauto.
Qed.
Lemma vopp_nz u : u <> vzero -> vopp u <> vzero.
Proof. intros N E. apply N. destruct u. unfold vopp, vzero in *. cbn in *. injection E as E1 E2. apply vec_eq; cbn; flra. Qed.
(** the upper directions form a convex cone, and so do the others *)
Lemma upper_cone s u v (a b : K) : 0 < a -> 0 < b -> upper s u -> upper s v -> upper s (vadd (vscale a u) (vscale b v)).
Proof. intros A B U V. apply upper_add; now apply upper_scale. Qed.
Lemma lower_cone s u v w (a b : K) : s <> vzero -> u <> vzero -> v <> vzero -> 0 < a -> 0 < b -> ~ upper s u -> ~ upper s v ->
  w = vadd (vscale a u) (vscale b v) -> ~ upper s w.
Proof.
  intros Ns Nu Nv A B U V ->. apply (upper_opp s u Ns Nu) in U. apply (upper_opp s v Ns Nv) in V.
  pose proof (upper_cone s _ _ a b A B U V) as X. intros Y.
  apply (upper_nz s). pose proof (upper_add s _ _ X Y) as Z.
  replace (vadd (vadd (vscale a (vopp u)) (vscale b (vopp v))) (vadd (vscale a u) (vscale b v))) with (vzero : vec K) in Z; auto.
  destruct u, v. apply vec_eq; cbn; ring.
Qed.
Lemma no_upper3 s u v w (a b c : K) : 0 < a -> 0 < b -> 0 < c -> vadd (vadd (vscale a u) (vscale b v)) (vscale c w) = vzero ->
  upper s u -> upper s v -> upper s w -> False.
Proof. intros A B C E U V W. apply (upper_nz s). rewrite <- E. apply upper_add; [now apply upper_cone|now apply upper_scale]. Qed.
Lemma no_lower3 s u v w (a b c : K) : s <> vzero -> u <> vzero -> v <> vzero -> w <> vzero -> 0 < a -> 0 < b -> 0 < c ->
  vadd (vadd (vscale a u) (vscale b v)) (vscale c w) = vzero -> ~ upper s u -> ~ upper s v -> ~ upper s w -> False.
Proof.
  intros Ns Nu Nv Nw A B C E U V W.
  apply (upper_opp s u Ns Nu) in U. apply (upper_opp s v Ns Nv) in V. apply (upper_opp s w Ns Nw) in W.
  apply (no_upper3 s (vopp u) (vopp v) (vopp w) a b c A B C); [|exact U|exact V|exact W].
  destruct u, v, w. unfold vadd, vscale, vopp, vzero in *. cbn in *. injection E as E1 E2.
  apply vec_eq; cbn.
  - transitivity (- (a * c0 + b * c2 + c * c4)); [ring|rewrite E1; ring].
  - transitivity (- (a * c1 + b * c3 + c * c5)); [ring|rewrite E2; ring].
Qed.
Lemma triple u v w : vadd (vadd (vscale (ccw w v) u) (vscale (ccw v u) w)) (vscale (ccw u w) v) = vzero.
Proof. destruct u, v, w. unfold ccw. apply vec_eq; cbn; ring. Qed.
Lemma solve_cone u v w (a b c : K) : 0 < b -> vadd (vadd (vscale (- a) u) (vscale b w)) (vscale (- c) v) = vzero ->
  w = vadd (vscale (a / b) u) (vscale (c / b) v).
Proof.
  intros B E. apply fpos_neq0 in B. destruct u, v, w. unfold vadd, vscale, vzero in *. cbn in *. injection E as E1 E2.
  apply vec_eq; cbn.
  - apply (fcancel _ _ b B). transitivity (a * c0 + c * c2); [|field; auto]. transitivity (- a * c0 + b * c4 + - c * c2 + (a * c0 + c * c2)); [ring|rewrite E1; ring].
  - apply (fcancel _ _ b B). transitivity (a * c1 + c * c3); [|field; auto]. transitivity (- a * c1 + b * c5 + - c * c3 + (a * c1 + c * c3)); [ring|rewrite E2; ring].
Qed.
Lemma ccw_zero_l v : ccw vzero v = 0.
Proof. destruct v. unfold ccw. cbn. ring. Qed.
Lemma ccw_zero_r v : ccw v vzero = 0.
Proof. destruct v. unfold ccw. cbn. ring. Qed.

(** a turn cut in two meets a direction exactly once if the turn meets it, and not at all otherwise *)
Lemma meets_split s u v w : s <> vzero -> u <> vzero -> v <> vzero -> ~ pos_multiple u v -> sector u v w ->
  (meets s u v <-> meets s u w \/ meets s w v) /\ ~ (meets s u w /\ meets s w v) /\
  w <> vzero /\ ~ pos_multiple u w /\ ~ pos_multiple w v.
Proof.
  intros Ns Nu Nv NP Sec.
  assert (Dec : forall x, upper s x \/ ~ upper s x) by (intros x; destruct (upper_dec s x); auto).
  pose proof (Dec u) as DU. pose proof (Dec v) as DV. pose proof (Dec w) as DW.
  assert (NPc : forall x y : vec K, ccw x y <> 0 -> ~ pos_multiple x y) by (intros x y C X; apply pos_multiple_iff in X; tauto).
  assert (Gt : forall x : K, 0 < x -> x <> 0) by apply fpos_neq0.
  destruct (proper_cases u v Nu Nv NP) as [C|[C|C]].
  - pose proof Sec as Sec'. apply (small_sector u v w C) in Sec'. destruct Sec' as [C1 C2].
    assert (Nw : w <> vzero) by (intros ->; rewrite ccw_zero_r in C1; flra).
    rewrite (meets_small s u v Ns C), (meets_small s u w Ns C1), (meets_small s w v Ns C2).
    destruct Sec as [_ [a [b [A [B E]]]]|N|N|N]; [|exfalso|exfalso; flra|contradiction].
    + assert (X : upper s u -> upper s v -> upper s w) by (intros; subst w; now apply upper_cone).
      assert (Y : ~ upper s u -> ~ upper s v -> ~ upper s w) by (intros; eapply (lower_cone s u v w a b); eauto).
      split; [tauto|]. split; [tauto|]. split; auto.
    + destruct N as [_ [k [_ ->]]]. destruct u. unfold ccw in C. cbn in C. replace (c * (k * c0) - c0 * (k * c)) with (0 : K) in C by ring. flra.
  - destruct Sec as [S1 _|N|_ N|N]; [exfalso; flra| | |contradiction].
    { exfalso. destruct N as [_ [k [_ ->]]]. destruct u. unfold ccw in C. cbn in C. replace (c * (k * c0) - c0 * (k * c)) with (0 : K) in C by ring. flra. }
    assert (Nw : w <> vzero). { intros ->. apply N. exists 0, 0. split; [apply fle_refl|]. split; [apply fle_refl|]. destruct u, v. apply vec_eq; cbn; ring. }
    assert (Puw : ~ pos_multiple u w). { intros [_ [a [A ->]]]. apply N. exists a, 0. split; [flra|]. split; [apply fle_refl|]. destruct u, v. apply vec_eq; cbn; ring. }
    assert (Pwv : ~ pos_multiple w v). { intros PM. apply pos_multiple_sym in PM. destruct PM as [_ [a [A ->]]]. apply N. exists 0, a. split; [apply fle_refl|]. split; [flra|]. destruct u, v. apply vec_eq; cbn; ring. }
    assert (Cvu : 0 < ccw v u) by (rewrite ccw_swap; flra).
    rewrite (meets_large s u v Ns Nu Nv C), (meets_small s v u Ns Cvu).
    pose proof (triple u v w) as T.
    destruct (proper_cases u w Nu Nw Puw) as [C1|[C1|C1]], (proper_cases w v Nw Nv Pwv) as [C2|[C2|C2]].
    + rewrite (meets_small s u w Ns C1), (meets_small s w v Ns C2).
      pose proof (no_upper3 s u w v _ _ _ C2 Cvu C1 T) as X. pose proof (no_lower3 s u w v _ _ _ Ns Nu Nw Nv C2 Cvu C1 T) as Y.
      split; [tauto|]. split; [tauto|auto].
    + assert (Cvw : 0 < ccw v w) by (rewrite ccw_swap; flra).
      rewrite (meets_small s u w Ns C1), (meets_large s w v Ns Nw Nv C2), (meets_small s v w Ns Cvw).
      assert (E : u = vadd (vscale (ccw v u / ccw v w) w) (vscale (ccw u w / ccw v w) v)).
      { apply solve_cone; auto. pose proof T as T'. rewrite (ccw_swap v w) in T'.
        destruct u, v, w. unfold ccw, vadd, vscale, vzero in *. cbn in *. apply vec_eq; cbn; ring. }
      assert (A : 0 < ccw v u / ccw v w) by now apply fdiv_pos. assert (B : 0 < ccw u w / ccw v w) by now apply fdiv_pos.
      assert (X : upper s w -> upper s v -> upper s u) by (intros; rewrite E; now apply upper_cone).
      assert (Y : ~ upper s w -> ~ upper s v -> ~ upper s u) by (intros; eapply (lower_cone s w v u); [..|exact E]; auto).
      split; [tauto|]. split; [tauto|auto].
    + assert (HS := half_sides s w v Ns Nw Nv C2). rewrite (meets_small s u w Ns C1), (meets_half s w v Ns Nw Nv C2).
      split; [tauto|]. split; [tauto|auto].
    + assert (Cwu : 0 < ccw w u) by (rewrite ccw_swap; flra).
      rewrite (meets_large s u w Ns Nu Nw C1), (meets_small s w u Ns Cwu), (meets_small s w v Ns C2).
      assert (E : v = vadd (vscale (ccw v u / ccw w u) w) (vscale (ccw w v / ccw w u) u)).
      { apply solve_cone; auto. destruct u, v, w. unfold ccw, vadd, vscale, vzero in *. cbn in *. apply vec_eq; cbn; ring. }
      assert (A : 0 < ccw v u / ccw w u) by now apply fdiv_pos. assert (B : 0 < ccw w v / ccw w u) by now apply fdiv_pos.
      assert (X : upper s w -> upper s u -> upper s v) by (intros; rewrite E; now apply upper_cone).
      assert (Y : ~ upper s w -> ~ upper s u -> ~ upper s v) by (intros; eapply (lower_cone s w u v); [..|exact E]; auto).
      split; [tauto|]. split; [tauto|auto].
    + exfalso. apply N. exists (ccw v w / ccw v u), (ccw w u / ccw v u).
      assert (0 < ccw v w) by (rewrite ccw_swap; flra). assert (0 < ccw w u) by (rewrite ccw_swap; flra).
      split; [apply fdiv_nonneg; [auto|flra]|]. split; [apply fdiv_nonneg; [auto|flra]|].
      apply solve_cone; auto. destruct u, v, w. unfold ccw, vadd, vscale, vzero in *. cbn in *. apply vec_eq; cbn; ring.
    + exfalso. destruct C2 as [_ [k [Kn E]]]. subst v.
      assert (Z : ccw u (vscale k w) = k * ccw u w) by (destruct u, w; unfold ccw; cbn; ring). rewrite Z in C.
      assert (0 < (- k) * (- ccw u w)) by (apply fmul_pos; flra). fnra.
    + assert (HS := half_sides s u w Ns Nu Nw C1). rewrite (meets_half s u w Ns Nu Nw C1), (meets_small s w v Ns C2).
      split; [tauto|]. split; [tauto|auto].
    + exfalso. destruct C1 as [_ [k [Kn E]]]. subst w.
      assert (Z : ccw (vscale k u) v = k * ccw u v) by (destruct u, v; unfold ccw; cbn; ring). rewrite Z in C2.
      assert (0 < (- k) * (- ccw u v)) by (apply fmul_pos; flra). fnra.
    + exfalso. destruct C1 as [_ [k [Kn E]]]. subst w. destruct C2 as [_ [j [Jn E]]]. subst v.
      destruct u. unfold ccw in C. cbn in C. replace (c * (j * (k * c0)) - c0 * (j * (k * c))) with (0 : K) in C by ring. flra.
  - assert (C1 : 0 < ccw u w /\ 0 < ccw w v).
    { destruct C as [_ [k [Kn Ev]]].
      assert (CZ : ccw u v = 0) by (subst v; destruct u; unfold ccw; cbn; ring).
      destruct Sec as [S1 _|_ [a [b [B E]]]|S1 _|S1 _]; [exfalso; flra| |exfalso; flra|contradiction].
      pose proof (vnz u Nu) as N. subst v w. destruct u. unfold ccw, dot in *. cbn in *. split.
      - match goal with |- 0 < ?x => replace x with (b * (c * c + c0 * c0)) by ring end. now apply fmul_pos.
      - match goal with |- 0 < ?x => replace x with ((- k) * (b * (c * c + c0 * c0))) by ring end. apply fmul_pos; [flra|now apply fmul_pos]. }
    destruct C1 as [C1 C2]. assert (HS := half_sides s u v Ns Nu Nv C).
    assert (Nw : w <> vzero) by (intros ->; rewrite ccw_zero_r in C1; flra).
    rewrite (meets_half s u v Ns Nu Nv C), (meets_small s u w Ns C1), (meets_small s w v Ns C2).
    split; [tauto|]. split; [tauto|]. split; auto.
Qed.

Lemma meets_count_split s vs1 : forall a u v w vs2 n, s <> vzero -> a <> vzero ->
  proper_turns a (vs1 ++ v :: vs2) -> u = last vs1 a -> sector u v w ->
  proper_turns a (vs1 ++ w :: v :: vs2) /\ (meets_count s a (vs1 ++ w :: v :: vs2) n <-> meets_count s a (vs1 ++ v :: vs2) n).
Proof.
  induction vs1 as [|x vs1 IH]; intros a u v w vs2 n Ns Na PT -> Sec.
  - cbn [last app] in *. inversion PT as [|? ? ? Nv NP PT']; subst.
    destruct (meets_split s a v w Ns Na Nv NP Sec) as [M1 [M2 [Nw [P1 P2]]]]. split; [repeat constructor; auto|].
    split.
    + inversion 1 as [|? ? ? m Y1 R1|? ? ? m Y1 R1]; subst; inversion R1 as [|? ? ? m' Y2 R2|? ? ? m' Y2 R2]; subst; try tauto; (apply meets_yes || apply meets_no); tauto.
    + inversion 1 as [|? ? ? m Y1 R1|? ? ? m Y1 R1]; subst.
      * destruct (meets_dec s a w Ns Na Nw P1) as [Z|Z].
        -- apply meets_yes; auto. apply meets_no; tauto.
        -- apply meets_no; auto. apply meets_yes; tauto.
      * apply meets_no; [tauto|]. apply meets_no; tauto.
  - cbn [app] in *. inversion PT as [|? ? ? Nx NP PT']; subst.
    assert (EL : last (x :: vs1) a = last vs1 x).
    { clear. revert x. induction vs1 as [|y vs1 IH]; intros x; [reflexivity|]. cbn [last] in *. destruct vs1; auto. }
    rewrite EL in Sec. split.
    + constructor; auto. apply (IH x (last vs1 x) v w vs2 0%nat Ns Nx PT' eq_refl Sec).
    + split; inversion 1 as [|? ? ? m Y1 R1|? ? ? m Y1 R1]; subst; (apply meets_yes + apply meets_no); auto;
        apply (IH x (last vs1 x) v w vs2 _ Ns Nx PT' eq_refl Sec); auto.
Qed.
End T.
