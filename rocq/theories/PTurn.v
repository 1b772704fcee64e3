(** Proofs about turns around a vertex. *)
From Coq Require Import List Bool ZArith Arith Lia Ring Field.
From Verif Require Import OField FMicromega PField MBase MDict MEuclid SEuclid PEuclid MSim MPoly MSurf SSurf MPoint SPoint.
Import ListNotations.

Section T.
Context {K : OField}.
Add Field KF : (of_ft K).
Local Open Scope F_scope.
Implicit Types (s u v w r : vec K).

(** on the left of [s], or in the direction of [s] *)
Definition upper s v := 0 < ccw s v \/ (ccw s v = 0 /\ 0 < dot s v).
Lemma upper_dec s v : {upper s v} + {~ upper s v}.
Proof.
  unfold upper. destruct (fltb 0 (ccw s v)) eqn:E; [left; left; exact E|].
  destruct (feq_dec (ccw s v) 0) as [Z|Z]; [|right; intros [X|[X _]]; [unfold flt in X; congruence|contradiction]].
  destruct (fltb 0 (dot s v)) eqn:F; [left; right; split; auto|].
  right. intros [X|[_ X]]; unfold flt in X; congruence.
Qed.
Lemma lagr s u v : ccw u v * dot s s = dot s u * ccw s v - ccw s u * dot s v.
Proof. destruct s, u, v. unfold ccw, dot. cbn. ring. Qed.
Lemma dir_zero s v : s <> vzero -> ccw s v = 0 -> dot s v = 0 -> v = vzero.
Proof.
  intros N E F. pose proof (vnz s N) as Z. destruct s as [a b], v as [c d]. unfold ccw, dot in *. cbn in *. apply fpos_neq0 in Z.
  assert (c * (a * a + b * b) = 0) by (transitivity (a * (a * c + b * d) - b * (a * d - b * c)); [ring|rewrite E, F; ring]).
  assert (d * (a * a + b * b) = 0) by (transitivity (b * (a * c + b * d) + a * (a * d - b * c)); [ring|rewrite E, F; ring]).
  apply fmul_eq0 in H, H0. destruct H as [->|]; [|contradiction]. destruct H0 as [->|]; [reflexivity|contradiction].
Qed.
Lemma pos_multiple_iff s v : pos_multiple s v <-> s <> vzero /\ ccw s v = 0 /\ 0 < dot s v.
Proof.
  split.
  - intros [N [a [A ->]]]. split; auto. pose proof (vnz s N) as Z. destruct s as [x y]. unfold ccw, dot in *. cbn in *. split; [ring|].
    replace (x * (a * x) + y * (a * y)) with (a * (x * x + y * y)) by ring. now apply fmul_pos.
  - intros [N [E F]]. split; auto.
    assert (V : v <> vzero). { intros ->. destruct s. unfold dot in F. cbn in F. replace (c * 0 + c0 * 0) with (0 : K) in F by ring. flra. }
    destruct (collinear_cases s v N V E) as [[_ X]|[_ [a [A ->]]]]; auto. exfalso.
    pose proof (vnz s N) as Z. destruct s as [x y]. unfold dot in *. cbn in *.
    replace (x * (a * x) + y * (a * y)) with (a * (x * x + y * y)) in F by ring.
    assert (0 < (- a) * (x * x + y * y)) by (apply fmul_pos; [flra|auto]). fnra.
Qed.
Lemma ccw_swap u v : ccw v u = - ccw u v.
Proof. destruct u, v. unfold ccw. cbn. ring. Qed.
Lemma dot_swap u v : dot v u = dot u v.
Proof. destruct u, v. unfold dot. cbn. ring. Qed.

Lemma small_sector u v r : 0 < ccw u v -> (sector u v r <-> 0 < ccw u r /\ 0 < ccw r v).
Proof.
  intros C. split.
  - intros [_ [a [b [A [B ->]]]]|N|N|N].
    + destruct u, v. unfold ccw in *. cbn in *. split.
      * match goal with |- 0 < ?x => replace x with (b * (c * c2 - c0 * c1)) by ring end. now apply fmul_pos.
      * match goal with |- 0 < ?x => replace x with (a * (c * c2 - c0 * c1)) by ring end. now apply fmul_pos.
    + destruct N as [_ [a [_ ->]]]. destruct u. unfold ccw in C. cbn in C. replace (c * (a * c0) - c0 * (a * c)) with (0 : K) in C by ring. flra.
    + flra.
    + destruct N as [_ [a [_ ->]]]. destruct u. unfold ccw in C. cbn in C. replace (c * (a * c0) - c0 * (a * c)) with (0 : K) in C by ring. flra.
  - intros [A B]. apply sector_small; auto. exists (ccw r v / ccw u v), (ccw u r / ccw u v).
    split; [now apply fdiv_pos|]. split; [now apply fdiv_pos|].
    apply fpos_neq0 in C. destruct u, v, r. unfold ccw in *. cbn in *. apply vec_eq; cbn; field; auto.
Qed.

Lemma flt_total (x : K) : x < 0 \/ x = 0 \/ 0 < x.
Proof. destruct (fltb_total K x 0) as [Z|[Z|Z]]; auto. Qed.

Lemma meets_small s u v : s <> vzero -> 0 < ccw u v -> (meets s u v <-> ~ upper s u /\ upper s v).
Proof.
  intros Ns C. unfold meets. rewrite small_sector, pos_multiple_iff by auto.
  pose proof (lagr s u v) as G. pose proof (vnz s Ns) as N. rewrite (ccw_swap s u), (ccw_swap s v), (dot_swap s v).
  assert (NV : v <> vzero). { intros ->. destruct u. unfold ccw in C. cbn in C. replace (c * 0 - c0 * 0) with (0 : K) in C by ring. flra. }
  assert (M : 0 < ccw u v * dot s s) by now apply fmul_pos. rewrite G in M. unfold upper.
  set (A := ccw s u) in *. set (B := ccw s v) in *. set (P := dot s u) in *. set (Q := dot s v) in *. clearbody A B P Q. clear G C N Ns.
  split.
  - intros [[X Y]|[_ [X Y]]].
    + split; [|auto]. intros [Z|[Z _]]; flra.
    + assert (B = 0) as -> by flra. assert (AN : A < 0). { destruct (flt_total A) as [Z|[-> |Z]]; auto; exfalso; [flra|]. assert (0 < A * Q) by now apply fmul_pos. flra. }
      split; [|right; split; auto]. intros [Z|[Z _]]; flra.
  - intros [X [Y|[Y Z]]].
    + left. split; [|auto]. destruct (flt_total A) as [W|[-> |W]]; [flra| |exfalso; auto].
      exfalso. apply X. right. split; auto. destruct (flt_total P) as [W|[-> |W]]; auto; exfalso; [|flra].
      assert (0 < (- P) * B) by (apply fmul_pos; [flra|auto]). fnra.
    + subst B. right. split; auto. split; [ring|auto].
Qed.

Lemma cone_closed u v r : u <> vzero -> v <> vzero -> 0 < ccw v u -> r <> vzero ->
  ((exists a b, 0 <= a /\ 0 <= b /\ r = vadd (vscale a u) (vscale b v)) <-> meets r v u \/ pos_multiple v r).
Proof.
  intros Nu Nv C Nr. split.
  - intros [a [b [A [B E]]]].
    destruct (feq_dec a 0) as [-> |A0].
    + right. split; auto. exists b. split; [|subst r; destruct u, v; apply vec_eq; cbn; ring].
      destruct (feq_dec b 0) as [-> |B0]; [|apply fneq_lt in B0; destruct B0; [flra|auto]].
      exfalso. apply Nr. subst r. destruct u, v. apply vec_eq; cbn; ring.
    + left. assert (PA : 0 < a) by (apply fneq_lt in A0; destruct A0; [flra|auto]).
      destruct (feq_dec b 0) as [-> |B0].
      * right. split; auto. exists a. split; auto. subst r. destruct u, v; apply vec_eq; cbn; ring.
      * left. apply sector_small; auto. exists b, a. split; [apply fneq_lt in B0; destruct B0; [flra|auto]|]. split; auto.
        subst r. destruct u, v; apply vec_eq; cbn; ring.
  - intros [[H|[_ [a [A ->]]]]|[_ [a [A ->]]]].
    + destruct H as [_ [a [b [A [B ->]]]]|N|N|N].
      * exists b, a. split; [flra|]. split; [flra|]. destruct u, v; apply vec_eq; cbn; ring.
      * exfalso. destruct N as [_ [a [_ ->]]]. destruct v. unfold ccw in C. cbn in C. replace (c * (a * c0) - c0 * (a * c)) with (0 : K) in C by ring. flra.
      * exfalso. flra.
      * exfalso. destruct N as [_ [a [_ ->]]]. destruct v. unfold ccw in C. cbn in C. replace (c * (a * c0) - c0 * (a * c)) with (0 : K) in C by ring. flra.
    + exists a, 0. split; [flra|]. split; [apply fle_refl|]. destruct u, v; apply vec_eq; cbn; ring.
    + exists 0, a. split; [apply fle_refl|]. split; [flra|]. destruct u, v; apply vec_eq; cbn; ring.
Qed.
Lemma pos_multiple_sym u v : pos_multiple u v -> pos_multiple v u.
Proof.
  intros [N [a [A ->]]]. pose proof (fpos_neq0 _ A) as A0. split.
  - intros E. apply N. destruct u as [x y]. unfold vscale, vzero in E. cbn in E. injection E as E1 E2. apply fmul_eq0 in E1, E2.
    destruct E1 as [?| ->]; [contradiction|]. destruct E2 as [?| ->]; [contradiction|]. reflexivity.
  - exists (1 / a). split; [apply fdiv_pos; auto; apply flt_0_1|]. destruct u. apply vec_eq; cbn; field; auto.
Qed.
(** a reflex turn meets exactly the directions that the rest of the full turn does not meet *)
Lemma meets_large s u v : s <> vzero -> u <> vzero -> v <> vzero -> ccw u v < 0 -> (meets s u v <-> ~ meets s v u).
Proof.
  intros Ns Nu Nv C. assert (C' : 0 < ccw v u) by (rewrite ccw_swap; flra).
  pose proof (cone_closed u v s Nu Nv C' Ns) as X.
  assert (D : pos_multiple v s -> ~ meets s v u).
  { intros PM M. apply (meets_small s v u Ns C') in M. destruct M as [M1 M2]. apply M1.
    apply pos_multiple_sym, pos_multiple_iff in PM. right. split; [apply PM|]. apply PM. }
  split.
  - intros [S|PM]; [|auto]. destruct S as [S1 _|N|_ N|N].
    + exfalso. flra.
    + exfalso. destruct N as [_ [a [_ ->]]]. destruct u. unfold ccw in C. cbn in C. replace (c * (a * c0) - c0 * (a * c)) with (0 : K) in C by ring. flra.
    + intros M. apply N, X. auto.
    + exfalso. destruct N as [_ [a [_ ->]]]. destruct u. unfold ccw in C. cbn in C. replace (c * (a * c0) - c0 * (a * c)) with (0 : K) in C by ring. flra.
  - intros M. destruct (is_parallel v s) eqn:E; [right; now apply is_parallel_spec|].
    assert (NP : ~ pos_multiple v s) by (rewrite <- is_parallel_spec; congruence).
    left. apply sector_large; auto. intros Z. apply X in Z. tauto.
Qed.
Lemma meets_half s u v : s <> vzero -> u <> vzero -> v <> vzero -> neg_multiple u v -> (meets s u v <-> upper s v).
Proof.
  intros Ns Nu Nv NM. unfold meets, upper. rewrite pos_multiple_iff.
  assert (S : sector u v s <-> 0 < ccw u s).
  { destruct NM as [_ [k [Kn ->]]]. split.
    - intros [Z _|_ [a [b [B E]]]|Z|Z].
      + exfalso. destruct u. unfold ccw in Z. cbn in Z. replace (c * (k * c0) - c0 * (k * c)) with (0 : K) in Z by ring. flra.
      + subst s. pose proof (vnz u Nu) as N. destruct u. unfold ccw, dot in *. cbn in *.
        match goal with |- 0 < ?x => replace x with (b * (c * c + c0 * c0)) by ring end. now apply fmul_pos.
      + exfalso. destruct u. unfold ccw in Z. cbn in Z. replace (c * (k * c0) - c0 * (k * c)) with (0 : K) in Z by ring. flra.
      + exfalso. destruct Z as [_ [a [A E]]]. eapply (pos_neg_absurd u a k); eauto.
    - intros C. apply sector_half; [split; eauto|]. pose proof (vnz u Nu) as N. exists (dot u s / dot u u), (ccw u s / dot u u).
      split; [now apply fdiv_pos|]. apply fpos_neq0 in N. destruct u, s. unfold ccw, dot in *. cbn in *. apply vec_eq; cbn; field; auto. }
  rewrite S. clear S. destruct NM as [_ [k [Kn ->]]].
  assert (E1 : ccw s (vscale k u) = - k * ccw u s) by (destruct u, s; unfold ccw; cbn; ring).
  assert (E2 : dot s (vscale k u) = dot (vscale k u) s) by apply dot_swap.
  assert (E3 : ccw (vscale k u) s = k * ccw u s) by (destruct u, s; unfold ccw; cbn; ring).
  rewrite E1, E2, E3. set (A := ccw u s) in *. clearbody A. split.
  - intros [Z|[_ [Z W]]]; [left; apply fmul_pos; [flra|auto]|]. right. split; auto. flra.
  - intros [Z|[Z W]]; [left|right; split; auto; split; auto; flra].
    destruct (flt_total A) as [Y|[-> |Y]]; auto; exfalso; [|flra]. assert (0 < (- k) * (- A)) by (apply fmul_pos; flra). fnra.
Qed.
Lemma half_sides s u v : s <> vzero -> u <> vzero -> v <> vzero -> neg_multiple u v -> (upper s u <-> ~ upper s v).
Proof.
  intros Ns Nu Nv [_ [k [Kn ->]]]. unfold upper.
  assert (E1 : ccw s (vscale k u) = k * ccw s u) by (destruct u, s; unfold ccw; cbn; ring).
  assert (E2 : dot s (vscale k u) = k * dot s u) by (destruct u, s; unfold dot; cbn; ring).
  rewrite E1, E2. assert (NZ : ~ (ccw s u = 0 /\ dot s u = 0)) by (intros [X Y]; apply Nu; now apply (dir_zero s u)).
  set (A := ccw s u) in *. set (P := dot s u) in *. clearbody A P. clear E1 E2.
  assert (G : forall x, 0 < k * x <-> x < 0).
  { intros x. split; intros Z.
    - destruct (flt_total x) as [Y|[-> |Y]]; auto; exfalso; [flra|]. assert (0 < (- k) * x) by (apply fmul_pos; flra). fnra.
    - replace (k * x) with ((- k) * (- x)) by ring. apply fmul_pos; flra. }
  rewrite !G. assert (Z : k * A = 0 <-> A = 0). { split; [intros Z; apply fmul_eq0 in Z; destruct Z; auto; exfalso; flra|intros ->; ring]. }
  rewrite Z. destruct (flt_total A) as [Y|[-> |Y]].
  - split; [intros [?|[? ?]]; flra|]. intros X. exfalso. apply X. auto.
  - split.
    + intros [?|[_ X]]; [flra|]. intros [?|[_ ?]]; flra.
    + intros X. right. split; auto. destruct (flt_total P) as [W|[-> |W]]; auto; exfalso; [apply X; auto|apply NZ; auto].
  - split; [|auto]. intros _ [?|[? ?]]; flra.
Qed.
Lemma proper_cases u v : u <> vzero -> v <> vzero -> ~ pos_multiple u v -> 0 < ccw u v \/ ccw u v < 0 \/ neg_multiple u v.
Proof.
  intros Nu Nv NP. destruct (flt_total (ccw u v)) as [Z|[Z|Z]]; auto. right. right.
  destruct (collinear_cases u v Nu Nv Z) as [X|X]; auto. contradiction.
Qed.

(** the test of the loop *)
Lemma side_spec s v : s <> vzero -> v <> vzero -> (if ccw s v =? 0 then is_parallel s v else 0 <? ccw s v) = true <-> upper s v.
Proof.
  intros Ns Nv. unfold upper. destruct (ccw s v =? 0) eqn:E.
  - apply feqb_eq in E. rewrite is_parallel_spec, pos_multiple_iff. split.
    + intros [_ [_ X]]. right. auto.
    + intros [X|[_ X]]; [flra|auto].
  - apply feqb_false in E. split; [intros X; left; exact X|]. intros [X|[X _]]; [exact X|contradiction].
Qed.
Lemma turn_step_spec s h u v : s <> vzero -> u <> vzero -> v <> vzero -> ~ pos_multiple u v ->
  (Z.even h = true <-> upper s u) -> let h' := turn_step s h u v in
  (Z.even h' = true <-> upper s v) /\ (meets s u v -> h' / 2 = h / 2 + 1)%Z /\ (~ meets s u v -> h' / 2 = h / 2)%Z.
Proof.
  intros Ns Nu Nv NP I. cbv zeta. unfold turn_step.
  pose proof (side_spec s v Ns Nv) as SS. set (side := if ccw s v =? 0 then is_parallel s v else 0 <? ccw s v) in *. clearbody side.
  assert (HU : upper s u \/ ~ upper s u) by (destruct (upper_dec s u); auto).
  assert (HV : upper s v \/ ~ upper s v) by (destruct (upper_dec s v); auto).
  assert (Hh : exists k, (h = 2 * k)%Z /\ upper s u \/ (h = 2 * k + 1)%Z /\ ~ upper s u).
  { destruct (Z.even h) eqn:E.
    - pose proof E as E'. apply Z.even_spec in E'. destruct E' as [k ->]. exists k. left. split; auto. now apply I.
    - assert (E' : Z.odd h = true) by (rewrite <- Z.negb_even, E; auto). apply Z.odd_spec in E'. destruct E' as [k ->]. exists k. right. split; auto.
      intros U. apply I in U. congruence. }
  clear I. destruct Hh as [k Hh].
  assert (E0 : forall k, Z.even (2 * k) = true) by (intros; rewrite Z.even_mul; reflexivity).
  assert (E1 : forall k, Z.even (2 * k + 1) = false) by (intros; rewrite Z.even_add, Z.even_mul; reflexivity).
  assert (E2 : forall k, Z.even (2 * k + 1 + 1) = true) by (intros; rewrite !Z.even_add, Z.even_mul; reflexivity).
  assert (E3 : forall k, Z.even (2 * k + 1 + 1 + 1) = false) by (intros; rewrite !Z.even_add, Z.even_mul; reflexivity).
  assert (D0 : forall k, (2 * k / 2 = k)%Z) by (intros; rewrite Z.mul_comm, Z.div_mul; lia).
  assert (D1 : forall k, ((2 * k + 1) / 2 = k)%Z) by (intros k'; symmetry; apply (Z.div_unique _ _ _ 1%Z); lia).
  assert (D2 : forall k, ((2 * k + 1 + 1) / 2 = k + 1)%Z) by (intros k'; replace (2 * k' + 1 + 1)%Z with (2 * (k' + 1))%Z by lia; apply D0).
  assert (D3 : forall k, ((2 * k + 1 + 1 + 1) / 2 = k + 1)%Z) by (intros k'; replace (2 * k' + 1 + 1 + 1)%Z with (2 * (k' + 1) + 1)%Z by lia; apply D1).
  assert (SV : (side = true /\ upper s v) \/ (side = false /\ ~ upper s v)).
  { destruct side; [left; split; auto; now apply SS|right; split; auto]. intros X. apply SS in X. discriminate. }
  clear SS.
  destruct (proper_cases u v Nu Nv NP) as [C|[C|C]].
  - replace (ccw u v <? 0) with false by (symmetry; change (0 <= ccw u v); flra). rewrite (meets_small s u v Ns C).
    destruct Hh as [[-> U]|[-> U]], SV as [[-> V]|[-> V]]; rewrite ?E0, ?E1; cbn [Bool.eqb]; rewrite ?E0, ?E1, ?E2, ?D0, ?D1, ?D2; intuition (congruence || lia).
  - replace (ccw u v <? 0) with true by (symmetry; exact C). rewrite (meets_large s u v Ns Nu Nv C).
    assert (C' : 0 < ccw v u) by (rewrite ccw_swap; flra). rewrite (meets_small s v u Ns C').
    destruct Hh as [[-> U]|[-> U]], SV as [[-> V]|[-> V]]; rewrite ?E0, ?E1, ?E2; cbn [Bool.eqb]; rewrite ?E0, ?E1, ?E2, ?E3, ?D0, ?D1, ?D2, ?D3; intuition (congruence || lia).
  - pose proof (half_sides s u v Ns Nu Nv C) as HS. rewrite (meets_half s u v Ns Nu Nv C).
    replace (ccw u v <? 0) with false.
    2:{ symmetry. change (0 <= ccw u v). destruct C as [_ [a [_ ->]]]. destruct u. unfold ccw. cbn. match goal with |- 0 <= ?x => replace x with (0 : K) by ring end. apply fle_refl. }
    destruct Hh as [[-> U]|[-> U]], SV as [[-> V]|[-> V]]; rewrite ?E0, ?E1; cbn [Bool.eqb]; rewrite ?E0, ?E1, ?E2, ?D0, ?D1, ?D2; intuition (congruence || lia).
Qed.
Lemma meets_dec s u v : s <> vzero -> u <> vzero -> v <> vzero -> ~ pos_multiple u v -> meets s u v \/ ~ meets s u v.
Proof.
  intros Ns Nu Nv NP. destruct (upper_dec s u), (upper_dec s v); destruct (proper_cases u v Nu Nv NP) as [C|[C|C]];
    try (rewrite (meets_small s u v Ns C)); try (rewrite (meets_half s u v Ns Nu Nv C)); try tauto;
    rewrite (meets_large s u v Ns Nu Nv C), (meets_small s v u Ns) by (rewrite ccw_swap; flra); tauto.
Qed.
Lemma turn_loop_spec s vs : forall h u n, s <> vzero -> u <> vzero -> proper_turns u vs ->
  (Z.even h = true <-> upper s u) -> (meets_count s u vs n <-> (turn_loop s h u vs / 2 = h / 2 + Z.of_nat n)%Z).
Proof.
  induction vs as [|v vs IH]; intros h u n Ns Nu PT I; cbn [turn_loop].
  - split; [inversion 1; subst; lia|]. intros E. assert (n = 0%nat) as -> by lia. constructor.
  - inversion PT as [|? ? ? Nv NP PT']; subst.
    destruct (turn_step_spec s h u v Ns Nu Nv NP I) as [I' [Y N]].
    destruct (meets_dec s u v Ns Nu Nv NP) as [M|M].
    + specialize (Y M). split.
      * inversion 1; subst; [|contradiction]. apply (IH _ v n0 Ns Nv PT' I') in H5. lia.
      * intros E. assert (G : (0 <= turn_loop s (turn_step s h u v) v vs / 2 - turn_step s h u v / 2)%Z).
        { clear - IH Ns Nv PT' I'. 
          assert (X : exists m, meets_count s v vs m).
          { clear IH I'. revert v Nv PT'. induction vs as [|w vs IH]; intros v Nv PT; [exists 0%nat; constructor|].
            inversion PT as [|? ? ? Nw NP PT']; subst. destruct (IH w Nw PT') as [m Hm].
            destruct (meets_dec s v w Ns Nv Nw NP); [exists (S m)|exists m]; constructor; auto. }
          destruct X as [m Hm]. apply (IH _ v m Ns Nv PT' I') in Hm. lia. }
        destruct n as [|n]; [lia|]. apply meets_yes; auto. apply (IH _ v n Ns Nv PT' I'). lia.
    + specialize (N M). split.
      * inversion 1; subst; [contradiction|]. apply (IH _ v n Ns Nv PT' I') in H5. lia.
      * intros E. apply meets_no; auto. apply (IH _ v n Ns Nv PT' I'). lia.
Qed.
Lemma turns_spec s vs n : s <> vzero -> proper_turns s vs -> (meets_count s s vs n <-> turns s vs = Z.of_nat n).
Proof.
  intros Ns PT. unfold turns. rewrite (turn_loop_spec s vs 0 s n Ns Ns PT).
  - reflexivity.
  - split; auto. intros _. right. split; [destruct s; unfold ccw; cbn; ring|]. now apply vnz.
Qed.
Lemma meets_count_exists s vs : forall v, s <> vzero -> v <> vzero -> proper_turns v vs -> exists m, meets_count s v vs m.
Proof.
  induction vs as [|w vs IH]; intros v Ns Nv PT; [exists 0%nat; constructor|].
  inversion PT as [|? ? ? Nw NP PT']; subst. destruct (IH w Ns Nw PT') as [m Hm].
  destruct (meets_dec s v w Ns Nv Nw NP); [exists (S m)|exists m]; constructor; auto.
Qed.
End T.
