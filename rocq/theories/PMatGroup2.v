(** Invariant quadratic forms of matrix groups. *)
From Coq Require Import List Bool Arith ZArith Lia Ring Field Permutation.
From Verif Require Import OField FMicromega PField MBase MSim PSim MDict PDict SHom PHom2 PHom3 MMatGroup SMatGroup PMatGroup.
Import ListNotations.

Section P.
Context {K : OField}.
Add Field KF : (of_ft K).
Local Open Scope F_scope.
Implicit Types (m g p : mat K) (gens : list (mat K)) (v : vec3 (K := K)).
Notation inv g := (mdet g <> 0).
Notation fsum := (@rsum K 0 fadd _).

(** ** definite forms *)
Lemma pos_cancel (a t : K) : 0 < a -> 0 < a * t -> 0 < t.
Proof. intros A T. destruct (fltb 0 t) eqn:E; auto. exfalso. assert (t <= 0) by flra. fnra. Qed.
Lemma pos_form (a c b : K) : (forall x y : K, ~ (x = 0 /\ y = 0) -> 0 < value (a, c, b) x y) <-> 0 < a /\ b * b < a * c.
Proof.
  split.
  - intros H. assert (A : 0 < a). { pose proof (H 1 0 (fun X => f1_neq_0 K (proj1 X))) as Q. cbn in Q. flra. }
    split; auto. pose proof (H (- b) a (fun X => fpos_neq0 _ A (proj2 X))) as Q. cbn in Q.
    assert (X : a * - b * - b + (b + b) * - b * a + c * a * a = a * (a * c - b * b)) by ring. rewrite X in Q.
    apply pos_cancel in Q; auto. flra.
  - intros [A B] x y N. cbn. apply (pos_cancel a); auto.
    replace (a * (a * x * x + (b + b) * x * y + c * y * y)) with ((a * x + b * y) * (a * x + b * y) + (a * c - b * b) * (y * y)) by ring.
    assert (B' : 0 < a * c - b * b) by flra. destruct (feq_dec y 0) as [->|Y].
    + assert (X : x <> 0) by tauto. assert (0 < a * x * (a * x)) by (apply fsq_pos, fmul_neq0; auto; now apply fpos_neq0). 
      replace ((a * x + b * 0) * (a * x + b * 0) + (a * c - b * b) * (0 * 0)) with (a * x * (a * x)) by ring. auto.
    + pose proof (fsq_nonneg (a * x + b * y)). pose proof (fmul_pos _ _ B' (fsq_pos y Y)). flra.
Qed.
Lemma definite_iff (a c b : K) : definite (a, c, b) <-> b * b < a * c.
Proof.
  unfold definite. rewrite pos_form.
  assert (X : (forall x y : K, ~ (x = 0 /\ y = 0) -> value (a, c, b) x y < 0) <-> (forall x y : K, ~ (x = 0 /\ y = 0) -> 0 < value (- a, - c, - b) x y)).
  { split; intros H x y N; specialize (H x y N); cbn in *;
      assert (E : - a * x * x + (- b + - b) * x * y + - c * y * y = - (a * x * x + (b + b) * x * y + c * y * y)) by ring; [rewrite E; flra|rewrite E in H; flra]. }
  rewrite X, pos_form. assert (E1 : - b * - b = b * b) by ring. assert (E2 : - a * - c = a * c) by ring. rewrite E1, E2. split; [tauto|].
  intros H. pose proof (fsq_nonneg b). assert (N : a <> 0). { intros ->. assert (E : 0 * c = 0) by ring. rewrite E in H. flra. }
  apply fneq_lt in N. destruct N as [N|N]; [right|left]; split; auto. flra.
Qed.
Lemma span0 v : spanned nil v <-> v = (0, 0, 0).
Proof. unfold spanned. split; [intros ([|] & E & ->); [reflexivity|discriminate]|intros ->; exists nil; auto]. Qed.
Lemma span1 a c b v : spanned [(a, c, b)] v <-> exists r, v = (r * a, r * c, r * b).
Proof.
  unfold spanned. split.
  - intros ([|r [|]] & E & ->); try discriminate. exists r. cbn. f_equal; [f_equal|]; ring.
  - intros [r ->]. exists [r]. split; auto. cbn. f_equal; [f_equal|]; ring.
Qed.
Lemma span2 a c b a' c' b' v : spanned [(a, c, b); (a', c', b')] v <-> exists r s, v = (r * a + s * a', r * c + s * c', r * b + s * b').
Proof.
  unfold spanned. split.
  - intros ([|r [|s [|]]] & E & ->); try discriminate. exists r, s. cbn. f_equal; [f_equal|]; ring.
  - intros (r & s & ->). exists [r; s]. split; auto. cbn. f_equal; [f_equal|]; ring.
Qed.
Lemma independent3 (u v w : vec3 (K := K)) : independent [u; v; w] -> forall x, spanned [u; v; w] x.
Proof.
  destruct u as [[u1 u2] u3], v as [[v1 v2] v3], w as [[w1 w2] w3]. intros I.
  set (det := fun a1 a2 a3 b1 b2 b3 c1 c2 c3 : K => a1 * (b2 * c3 - b3 * c2) - a2 * (b1 * c3 - b3 * c1) + a3 * (b1 * c2 - b2 * c1)).
  assert (Cr : forall x1 x2 x3, combination [det x1 x2 x3 v1 v2 v3 w1 w2 w3; det u1 u2 u3 x1 x2 x3 w1 w2 w3; det u1 u2 u3 v1 v2 v3 x1 x2 x3]
     [(u1, u2, u3); (v1, v2, v3); (w1, w2, w3)] = (det u1 u2 u3 v1 v2 v3 w1 w2 w3 * x1, det u1 u2 u3 v1 v2 v3 w1 w2 w3 * x2, det u1 u2 u3 v1 v2 v3 w1 w2 w3 * x3)).
  { intros. cbn. unfold det. f_equal; [f_equal|]; ring. }
  assert (D : det u1 u2 u3 v1 v2 v3 w1 w2 w3 <> 0).
  { intros Z.
    assert (Q : forall x1 x2 x3, det u1 u2 u3 v1 v2 v3 x1 x2 x3 = 0).
    { intros. specialize (Cr x1 x2 x3). rewrite Z in Cr. apply (I [det x1 x2 x3 v1 v2 v3 w1 w2 w3; det u1 u2 u3 x1 x2 x3 w1 w2 w3; det u1 u2 u3 v1 v2 v3 x1 x2 x3] eq_refl); [|cbn; auto]. etransitivity; [exact Cr|]. f_equal; [f_equal|]; ring. }
    assert (Q3 : u1 * v2 - u2 * v1 = 0) by (rewrite <- (Q 0 0 1); unfold det; ring).
    assert (Q2 : u1 * v3 - u3 * v1 = 0) by (transitivity (- det u1 u2 u3 v1 v2 v3 0 1 0); [unfold det; ring|rewrite Q; ring]).
    assert (Q1 : u2 * v3 - u3 * v2 = 0) by (rewrite <- (Q 1 0 0); unfold det; ring).
    assert (U : u1 = 0 /\ u2 = 0 /\ u3 = 0).
    { pose proof (I [v1; - u1; 0] eq_refl) as E1. pose proof (I [v2; - u2; 0] eq_refl) as E2. pose proof (I [v3; - u3; 0] eq_refl) as E3.
      assert (F1 : - u1 = 0). { apply E1; [|cbn; auto]. cbn. f_equal; [f_equal|]; [ring|transitivity (- (u1 * v2 - u2 * v1)); [ring|rewrite Q3; ring]|transitivity (- (u1 * v3 - u3 * v1)); [ring|rewrite Q2; ring]]. }
      assert (F2 : - u2 = 0). { apply E2; [|cbn; auto]. cbn. f_equal; [f_equal|]; [transitivity (u1 * v2 - u2 * v1); [ring|exact Q3]|ring|transitivity (- (u2 * v3 - u3 * v2)); [ring|rewrite Q1; ring]]. }
      assert (F3 : - u3 = 0). { apply E3; [|cbn; auto]. cbn. f_equal; [f_equal|]; [transitivity (u1 * v3 - u3 * v1); [ring|exact Q2]|transitivity (u2 * v3 - u3 * v2); [ring|exact Q1]|ring]. }
      repeat split; [transitivity (- - u1)|transitivity (- - u2)|transitivity (- - u3)]; try ring; [rewrite F1|rewrite F2|rewrite F3]; ring. }
    destruct U as (-> & -> & ->). apply (f1_neq_0 K). apply (I [1; 0; 0] eq_refl); [|cbn; auto]. cbn. f_equal; [f_equal|]; ring. }
  intros [[x1 x2] x3]. set (d := det u1 u2 u3 v1 v2 v3 w1 w2 w3) in *. specialize (Cr (x1 / d) (x2 / d) (x3 / d)). eexists. split; [|symmetry; etransitivity; [exact Cr|]]; auto.
  f_equal; [f_equal|]; field; auto.
Qed.
Lemma definite_spec V : independent V -> (length V <= 3)%nat ->
  exists b, contains_definite_form V = Ok b /\ (b = true <-> exists v, spanned V v /\ definite v).
Proof.
  intros I Le. destruct V as [|[[a c] b] [|[[a' c'] b'] [|w [|]]]]; cbn [length] in Le; try lia; cbn [contains_definite_form].
  - exists false. split; auto. split; [discriminate|]. intros (v & S & Dv). apply span0 in S. subst v. apply definite_iff in Dv. exfalso.
    apply (flt_irrefl (K := K)) in Dv. auto.
  - eexists. split; [reflexivity|]. split.
    + intros E. exists (a, c, b). split; [|now apply definite_iff]. apply span1. exists 1. f_equal; [f_equal|]; ring.
    + intros (v & S & Dv). apply span1 in S. destruct S as [r ->]. apply definite_iff in Dv.
      assert (X : 0 < r * r * (a * c - b * b)) by (replace (r * r * (a * c - b * b)) with (r * a * (r * c) - r * b * (r * b)) by ring; flra).
      assert (R : r <> 0). { intros ->. replace (0 * 0 * (a * c - b * b)) with (0 : K) in X by ring. now apply flt_irrefl in X. }
      apply pos_cancel in X; [|now apply fsq_pos]. flra.
  - set (A := b * b - a * c). set (C := b' * b' - a' * c'). set (B := (1 + 1) * b * b' - a' * c - a * c').
    assert (F : (exists v, spanned [(a, c, b); (a', c', b')] v /\ definite v) <-> exists r s, A * (r * r) + B * (r * s) + C * (s * s) < 0).
    { assert (E : forall r s, A * (r * r) + B * (r * s) + C * (s * s) = (r * b + s * b') * (r * b + s * b') - (r * a + s * a') * (r * c + s * c')) by (intros; unfold A, B, C; ring).
      split.
      - intros (v & S & Dv). apply span2 in S. destruct S as (r & s & ->). apply definite_iff in Dv. exists r, s. rewrite E. flra.
      - intros (r & s & X). rewrite E in X. eexists. split; [apply span2; exists r, s; reflexivity|]. apply definite_iff. flra. }
    destruct ((b * b <? a * c) || (b' * b' <? a' * c')) eqn:E.
    + exists true. split; auto. split; auto. intros _. apply F. apply orb_true_iff in E. destruct E as [E|E].
      * exists 1, 0. change (b * b < a * c) in E. unfold A. replace ((b * b - a * c) * (1 * 1) + B * (1 * 0) + C * (0 * 0)) with (b * b - a * c) by ring. flra.
      * exists 0, 1. change (b' * b' < a' * c') in E. unfold C. replace (A * (0 * 0) + B * (0 * 1) + (b' * b' - a' * c') * (1 * 1)) with (b' * b' - a' * c') by ring. flra.
    + apply orb_false_iff in E. destruct E as [E1 E2]. assert (A0 : 0 <= A) by (unfold A; flra). assert (C0 : 0 <= C) by (unfold C; flra).
      eexists. split; [reflexivity|]. rewrite F. set (dd := B * B - (1 + 1) * (1 + 1) * A * C). change ((0 <? dd) = true <-> exists r s, A * (r * r) + B * (r * s) + C * (s * s) < 0).
      destruct (feq_dec A 0) as [Z|Z].
      * split.
        -- intros D. change (0 < dd) in D. unfold dd in D. rewrite Z in D. replace (B * B - (1 + 1) * (1 + 1) * 0 * C) with (B * B) in D by ring.
           assert (NB : B <> 0). { intros Z'. rewrite Z' in D. replace (0 * 0 : K) with (0 : K) in D by ring. now apply flt_irrefl in D. }
           exists (- (C + 1) / B), 1. rewrite Z. replace (0 * (- (C + 1) / B * (- (C + 1) / B)) + B * (- (C + 1) / B * 1) + C * (1 * 1)) with (- (1 : K)) by (field; auto). pose proof (@flt_0_1 K). flra.
        -- intros (r & s & X). rewrite Z in X. unfold dd. rewrite Z. destruct (feq_dec B 0) as [ZB|ZB].
           ++ exfalso. rewrite ZB in X. replace (0 * (r * r) + 0 * (r * s) + C * (s * s)) with (C * (s * s)) in X by ring. pose proof (fsq_nonneg s). fnra.
           ++ replace (B * B - (1 + 1) * (1 + 1) * 0 * C) with (B * B) by ring. now apply fsq_pos.
      * assert (PA : 0 < A) by (apply fneq_lt in Z; destruct Z; flra). split.
        -- intros D. change (0 < dd) in D. exists (- B), ((1 + 1) * A).
           replace (A * (- B * - B) + B * (- B * ((1 + 1) * A)) + C * ((1 + 1) * A * ((1 + 1) * A))) with (- (A * dd)) by (unfold dd; ring).
           pose proof (fmul_pos _ _ PA D). flra.
        -- intros (r & s & X). change (0 < dd). destruct (fltb 0 dd) eqn:D; auto. exfalso. assert (D' : 0 <= - dd) by flra.
           assert (Y : 0 < A * - (A * (r * r) + B * (r * s) + C * (s * s))) by (apply fmul_pos; auto; flra).
           assert (Q : (1 + 1) * (1 + 1) * (A * - (A * (r * r) + B * (r * s) + C * (s * s))) = - (((1 + 1) * A * r + B * s) * ((1 + 1) * A * r + B * s)) + dd * (s * s)) by (unfold dd; ring).
           pose proof (fsq_nonneg ((1 + 1) * A * r + B * s)). pose proof (fsq_nonneg s).
           assert (0 <= - dd * (s * s)) by fnra. assert (Y2 : 0 < (1 + 1) * (1 + 1) * (A * - (A * (r * r) + B * (r * s) + C * (s * s)))) by (pose proof (@flt_0_1 K); apply fmul_pos; auto; flra).
           rewrite Q in Y2. flra.
  - exists true. split; auto. split; auto. intros _. exists (1, 1, 0). split; [now apply independent3|]. apply definite_iff. pose proof (@flt_0_1 K). flra.
Qed.
(** ** the equations *)
Lemma form_rows_spec m v : is_scalar m = false -> mdet m = 1 \/ mdet m = - (1) -> exists rows, form_rows m = Ok rows /\
  (preserves_form m v <-> forall row, In row rows -> dot3 row v = 0).
Proof.
  intros Sc Dt. unfold form_rows. rewrite Sc. assert (Z : (mdet m =? 0) = false).
  { apply feqb_false. destruct Dt as [->| ->]; [apply f1_neq_0|apply fm1_neq0]. }
  rewrite Z. destruct m as [a b c d], v as [[x y] z]. eexists. split; [reflexivity|]. set (s := mdet (Mat a b c d)) in *.
  assert (S2 : s * s = 1) by (destruct Dt as [E|E]; rewrite E; ring).
  assert (Es : s = a * d - b * c) by reflexivity. clearbody s. clear Sc Z Dt.
  transitivity (a * a * x + (1 + 1) * (a * c) * z + c * c * y = x /\ a * b * x + (a * d + b * c) * z + c * d * y = z /\ b * b * x + (1 + 1) * (b * d) * z + d * d * y = y).
  - unfold preserves_form. cbn. split.
    + intros H. pose proof (H 1 0) as H1. pose proof (H 0 1) as H2. pose proof (H 1 1) as H3.
      assert (E1 : a * a * x + (1 + 1) * (a * c) * z + c * c * y = x) by (match type of H1 with ?l = ?r => transitivity l; [ring|rewrite H1; ring] end).
      assert (E2 : b * b * x + (1 + 1) * (b * d) * z + d * d * y = y) by (match type of H2 with ?l = ?r => transitivity l; [ring|rewrite H2; ring] end).
      split; auto. split; auto.
      match type of H3 with ?l = ?r => assert (E3 : (1 + 1) * (a * b * x + (a * d + b * c) * z + c * d * y) = (1 + 1) * z) end.
      { match type of H3 with ?l = ?r => transitivity (l - (a * a * x + (1 + 1) * (a * c) * z + c * c * y) - (b * b * x + (1 + 1) * (b * d) * z + d * d * y)); [ring|rewrite H3, E1, E2; ring] end. }
      apply (fcancel _ _ (1 + 1)); [pose proof (@flt_0_1 K); apply fpos_neq0; flra|]. rewrite (fmul_comm K _ (1 + 1)), E3. ring.
    + intros (E1 & E2 & E3) t u.
      transitivity ((a * a * x + (1 + 1) * (a * c) * z + c * c * y) * t * t + (1 + 1) * (a * b * x + (a * d + b * c) * z + c * d * y) * t * u + (b * b * x + (1 + 1) * (b * d) * z + d * d * y) * u * u); [ring|].
      rewrite E1, E2, E3. ring.
  - assert (Rw : (forall row : vec3, In row [(a - s * d, 0, (1 + s) * c); (s * b, c, (1 - s) * a); (b, s * c, (1 - s) * d); (0, d - s * a, (1 + s) * b)] -> dot3 row (x, y, z) = 0) <->
      ((a - s * d) * x + (1 + s) * c * z = 0 /\ s * b * x + c * y + (1 - s) * a * z = 0 /\ b * x + s * c * y + (1 - s) * d * z = 0 /\ (d - s * a) * y + (1 + s) * b * z = 0)).
    { split.
      - intros H. repeat split; [etransitivity; [|exact (H (a - s * d, 0, (1 + s) * c) ltac:(cbn; auto))]|etransitivity; [|exact (H (s * b, c, (1 - s) * a) ltac:(cbn; auto))]
          |etransitivity; [|exact (H (b, s * c, (1 - s) * d) ltac:(cbn; auto))]|etransitivity; [|exact (H (0, d - s * a, (1 + s) * b) ltac:(cbn; auto))]]; cbn; ring.
      - intros (H1 & H2 & H3 & H4) row [<-|[<-|[<-|[<-|[]]]]]; cbn; [etransitivity; [|exact H1]|etransitivity; [|exact H2]|etransitivity; [|exact H3]|etransitivity; [|exact H4]]; ring. }
    rewrite Rw. clear Rw.
    (* with F = m^T A m - A, the rows are entries of s m^-T F = A m s.. *)
    split.
    + intros (E1 & E2 & E3).
      set (f := a * a * x + (1 + 1) * (a * c) * z + c * c * y - x). set (g := a * b * x + (a * d + b * c) * z + c * d * y - z). set (h := b * b * x + (1 + 1) * (b * d) * z + d * d * y - y).
      assert (F0 : f = 0) by (unfold f; rewrite E1; ring). assert (G0 : g = 0) by (unfold g; rewrite E2; ring). assert (H0 : h = 0) by (unfold h; rewrite E3; ring).
      assert (R1 : (a - s * d) * x + (1 + s) * c * z = s * (d * f - c * g)).
      { transitivity (s * (a * d - b * c) * (x * a + z * c) - s * (d * x - c * z)); [rewrite <- Es, S2; ring|unfold f, g; ring]. }
      assert (R2 : b * x + s * c * y + (1 - s) * d * z = s * (d * g - c * h)).
      { transitivity (s * (a * d - b * c) * (x * b + z * d) - s * (d * z - c * y)); [rewrite <- Es, S2; ring|unfold g, h; ring]. }
      assert (R3 : s * b * x + c * y + (1 - s) * a * z = s * (a * g - b * f)).
      { transitivity (s * (a * d - b * c) * (z * a + y * c) - s * (a * z - b * x)); [rewrite <- Es, S2; ring|unfold f, g; ring]. }
      assert (R4 : (d - s * a) * y + (1 + s) * b * z = s * (a * h - b * g)).
      { transitivity (s * (a * d - b * c) * (z * b + y * d) - s * (a * y - b * z)); [rewrite <- Es, S2; ring|unfold g, h; ring]. }
      rewrite R1, R2, R3, R4, F0, G0, H0. repeat split; ring.
    + intros (H1 & H2 & H3 & H4). repeat split.
      * transitivity (a * ((a - s * d) * x + (1 + s) * c * z) + c * (s * b * x + c * y + (1 - s) * a * z) + s * (a * d - b * c) * x); [ring|].
        rewrite H1, H2, <- Es, S2. ring.
      * transitivity (a * (b * x + s * c * y + (1 - s) * d * z) + c * ((d - s * a) * y + (1 + s) * b * z) + s * (a * d - b * c) * z); [ring|].
        rewrite H3, H4, <- Es, S2. ring.
      * transitivity (b * (b * x + s * c * y + (1 - s) * d * z) + d * ((d - s * a) * y + (1 + s) * b * z) + s * (a * d - b * c) * y); [ring|].
        rewrite H3, H4, <- Es, S2. ring.
Qed.

(** ** the linear solver *)
Notation vec3K := (vec3 (K := K)).
Definition add3 (u v : vec3K) : vec3K := let '(u1, u2, u3) := u in let '(v1, v2, v3) := v in (u1 + v1, u2 + v2, u3 + v3).
Definition scale3 (r : K) (v : vec3K) : vec3K := let '(v1, v2, v3) := v in (r * v1, r * v2, r * v3).
Ltac v3eq := repeat match goal with v : vec3K |- _ => destruct v as [[? ?] ?] end; cbn; f_equal; [f_equal|]; ring.
Lemma comb_cons r rs v vs : combination (r :: rs) (v :: vs) = add3 (scale3 r v) (combination rs vs).
Proof. destruct v as [[a c] b]. cbn. destruct (combination rs vs) as [[a' c'] b']. reflexivity. Qed.
Lemma comb_app rs ss vs ws : length rs = length vs -> combination (rs ++ ss) (vs ++ ws) = add3 (combination rs vs) (combination ss ws).
Proof.
  revert vs. induction rs as [|r rs IH]; intros [|v vs] E; try discriminate.
  - cbn. destruct (combination ss ws) as [[a c] b]. cbn. f_equal; [f_equal|]; ring.
  - cbn [app]. rewrite !comb_cons, IH by auto. generalize (combination rs vs) as x, (combination ss ws) as y. intros. v3eq.
Qed.
Lemma comb_add rs ss vs : length rs = length vs -> length ss = length vs -> exists ts, length ts = length vs /\ combination ts vs = add3 (combination rs vs) (combination ss vs).
Proof.
  revert ss vs. induction rs as [|r rs IH]; intros [|s ss] [|v vs] E F; try discriminate.
  - exists nil. split; auto. cbn. f_equal; [f_equal|]; ring.
  - destruct (IH ss vs) as (ts & L & Ts); auto. exists (r + s :: ts). split; [cbn; auto|]. rewrite !comb_cons, Ts.
    generalize (combination rs vs) as x, (combination ss vs) as y. intros. v3eq.
Qed.
Lemma comb_scale t rs vs : length rs = length vs -> exists ts, length ts = length vs /\ combination ts vs = scale3 t (combination rs vs).
Proof.
  revert vs. induction rs as [|r rs IH]; intros [|v vs] E; try discriminate.
  - exists nil. split; auto. cbn. f_equal; [f_equal|]; ring.
  - destruct (IH vs) as (ts & L & Ts); auto. exists (t * r :: ts). split; [cbn; auto|]. rewrite !comb_cons, Ts.
    generalize (combination rs vs) as x. intros. v3eq.
Qed.
Record subspace (P : vec3K -> Prop) : Prop := { ss_zero : P (0, 0, 0); ss_add : forall u v, P u -> P v -> P (add3 u v); ss_scale : forall r v, P v -> P (scale3 r v) }.
Lemma spanned_subspace vs : subspace (spanned vs).
Proof.
  constructor.
  - induction vs as [|v vs IH]; [exists nil; auto|]. destruct IH as (rs & L & E). exists (0 :: rs). split; [cbn; auto|]. rewrite comb_cons, <- E. v3eq.
  - intros u v (rs & L & ->) (ss & M & ->). destruct (comb_add rs ss vs L M) as (ts & T & E). exists ts. auto.
  - intros r v (rs & L & ->). destruct (comb_scale r rs vs L) as (ts & T & E). exists ts. auto.
Qed.
Lemma spanned_in vs v : In v vs -> spanned vs v.
Proof.
  induction vs as [|w vs IH]; intros [].
  - subst w. destruct (ss_zero _ (spanned_subspace vs)) as (rs & L & E). exists (1 :: rs). split; [cbn; auto|]. rewrite comb_cons, <- E. v3eq.
  - destruct (IH H) as (rs & L & ->). exists (0 :: rs). split; [cbn; auto|]. rewrite comb_cons. generalize (combination rs vs) as x. intros. v3eq.
Qed.
Lemma spanned_min vs P : subspace P -> (forall v, In v vs -> P v) -> forall v, spanned vs v -> P v.
Proof.
  intros S. induction vs as [|w vs IH]; intros A v (rs & L & ->).
  - destruct rs; [|discriminate]. apply S.
  - destruct rs as [|r rs]; [discriminate|]. rewrite comb_cons. apply S; [apply S, A; now left|]. apply IH; [intros; apply A; now right|]. exists rs. auto.
Qed.
Lemma dot_subspace row : subspace (fun v => dot3 row v = 0).
Proof.
  destruct row as [[a c] b]. constructor.
  - cbn. ring.
  - intros [[u1 u2] u3] [[v1 v2] v3] U V. cbn in *. transitivity (a * u1 + c * u2 + b * u3 + (a * v1 + c * v2 + b * v3)); [ring|rewrite U, V; ring].
  - intros r [[v1 v2] v3] V. cbn in *. transitivity (r * (a * v1 + c * v2 + b * v3)); [ring|rewrite V; ring].
Qed.
Lemma and_subspace P Q : subspace P -> subspace Q -> subspace (fun v => P v /\ Q v).
Proof. intros A B. constructor; [split; [apply A|apply B]|intros u v [] []; split; [now apply A|now apply B]|intros r v []; split; [now apply A|now apply B]]. Qed.
Definition proj row (v u : vec3K) : vec3K := sub3 u v (dot3 row u / dot3 row v).
Lemma proj_dot row v u : dot3 row v <> 0 -> dot3 row (proj row v u) = 0.
Proof.
  intros N. unfold proj. set (t := dot3 row u / dot3 row v). assert (T : t * dot3 row v = dot3 row u) by (unfold t; field; auto).
  clearbody t. destruct row as [[a c] b], v as [[v1 v2] v3], u as [[u1 u2] u3]. cbn in *.
  transitivity (a * u1 + c * u2 + b * u3 - t * (a * v1 + c * v2 + b * v3)); [ring|rewrite T; ring].
Qed.
Lemma proj_zero row v u : dot3 row u = 0 -> dot3 row v <> 0 -> proj row v u = u.
Proof. intros Z N. unfold proj. rewrite Z. replace (0 / dot3 row v) with (0 : K) by (field; auto). v3eq. Qed.
Lemma proj_self row v : dot3 row v <> 0 -> proj row v v = (0, 0, 0).
Proof. intros N. unfold proj. replace (dot3 row v / dot3 row v) with (1 : K) by (field; auto). v3eq. Qed.
Lemma proj_linear row v P : dot3 row v <> 0 -> subspace P -> subspace (fun u => P (proj row v u)).
Proof.
  intros N S. constructor.
  - rewrite proj_zero; auto; [apply S|]. destruct row as [[a c] b]. cbn. ring.
  - intros x y X Y. replace (proj row v (add3 x y)) with (add3 (proj row v x) (proj row v y)); [now apply S|].
    unfold proj. replace (dot3 row (add3 x y) / dot3 row v) with (dot3 row x / dot3 row v + dot3 row y / dot3 row v).
    + generalize (dot3 row x / dot3 row v) as s, (dot3 row y / dot3 row v) as t. intros. v3eq.
    + replace (dot3 row (add3 x y)) with (dot3 row x + dot3 row y); [field; auto|]. destruct row as [[a c] b], x as [[? ?] ?], y as [[? ?] ?]. cbn. ring.
  - intros r x X. replace (proj row v (scale3 r x)) with (scale3 r (proj row v x)); [now apply S|].
    unfold proj. replace (dot3 row (scale3 r x) / dot3 row v) with (r * (dot3 row x / dot3 row v)).
    + generalize (dot3 row x / dot3 row v) as s. intros. v3eq.
    + replace (dot3 row (scale3 r x)) with (r * dot3 row x); [field; auto|]. destruct row as [[a c] b], x as [[? ?] ?]. cbn. ring.
Qed.
Lemma comb_proj row v V rs : length rs = length V -> exists t, combination rs (map (proj row v) V) = add3 (scale3 t v) (combination rs V).
Proof.
  revert rs. induction V as [|u V IH]; intros [|r rs] E; try discriminate.
  - exists 0. cbn. v3eq.
  - destruct (IH rs) as [t T]; auto. exists (t - r * (dot3 row u / dot3 row v)). cbn [map]. rewrite !comb_cons, T. unfold proj.
    generalize (dot3 row u / dot3 row v) as s, (combination rs V) as x. intros. v3eq.
Qed.
Lemma add3_swap x y z : add3 x (add3 y z) = add3 y (add3 x z).
Proof. v3eq. Qed.
Lemma cut_spec row : forall V pre, (forall v, In v pre -> dot3 row v = 0) -> independent (pre ++ V) ->
  independent (cut row pre V) /\ (length (cut row pre V) <= length (pre ++ V))%nat /\
  forall x, spanned (cut row pre V) x <-> spanned (pre ++ V) x /\ dot3 row x = 0.
Proof.
  induction V as [|v V IH]; intros pre Z I; cbn [cut].
  - rewrite app_nil_r in *. split; auto. split; auto. intros x. split; [|tauto]. intros S. split; auto.
    apply (spanned_min pre _ (dot_subspace row)); auto.
  - destruct (dot3 row v =? 0) eqn:E.
    + apply feqb_eq in E. assert (X : (pre ++ [v]) ++ V = pre ++ v :: V) by (rewrite <- app_assoc; reflexivity). rewrite <- X in *. apply IH; auto.
      intros w J. rewrite in_app_iff in J. destruct J as [J|[<-|[]]]; auto.
    + apply feqb_false in E. change (map (fun u => sub3 u v (dot3 row u / dot3 row v)) V) with (map (proj row v) V). split; [|split].
      * intros rs L C r J. rewrite app_length, map_length in L.
        assert (L1 : length (firstn (length pre) rs) = length pre) by (rewrite firstn_length; lia).
        assert (L2 : length (skipn (length pre) rs) = length V) by (rewrite skipn_length; lia).
        rewrite <- (firstn_skipn (length pre) rs) in C, J. revert L1 L2 C J. generalize (firstn (length pre) rs) as r1, (skipn (length pre) rs) as r2. intros r1 r2 L1 L2 C J.
        rewrite comb_app in C by auto. destruct (comb_proj row v V r2 L2) as [t T]. rewrite T in C.
        apply (I (r1 ++ t :: r2)).
        -- rewrite !app_length. cbn. lia.
        -- rewrite comb_app by auto. rewrite comb_cons. exact C.
        -- rewrite in_app_iff in *. destruct J; auto. right. now right.
      * rewrite !app_length, map_length. cbn. lia.
      * intros x. split.
        -- apply (spanned_min _ (fun x => spanned (pre ++ v :: V) x /\ dot3 row x = 0)).
           ++ apply and_subspace; [apply spanned_subspace|apply dot_subspace].
           ++ intros w J. rewrite in_app_iff in J. destruct J as [J|J].
              ** split; auto. apply spanned_in. rewrite in_app_iff. auto.
              ** apply in_map_iff in J. destruct J as (u & <- & J). split; [|now apply proj_dot].
                 replace (proj row v u) with (add3 u (scale3 (- (dot3 row u / dot3 row v)) v)).
                 { apply spanned_subspace; [|apply spanned_subspace]; apply spanned_in; rewrite in_app_iff; cbn; auto. }
                 unfold proj. generalize (dot3 row u / dot3 row v) as s. intros. v3eq.
        -- intros [Sx Zx]. rewrite <- (proj_zero row v x Zx E). revert Sx. clear Zx. revert x. 
           apply (spanned_min _ (fun x => spanned (pre ++ map (proj row v) V) (proj row v x))); [apply proj_linear; auto; apply spanned_subspace|].
           intros w J. rewrite in_app_iff in J. destruct J as [J|[<-|J]].
           ++ rewrite proj_zero by auto. apply spanned_in. rewrite in_app_iff. auto.
           ++ rewrite proj_self by auto. apply spanned_subspace.
           ++ apply spanned_in. rewrite in_app_iff. right. now apply in_map.
Qed.
Lemma kernel_solver : linear_solver (kernel (K := K)).
Proof.
  intros rows. unfold kernel. 
  assert (X : forall (rows V : list vec3K), independent V -> (length V <= 3)%nat -> let W := fold_left (fun V row => cut row nil V) rows V in
    independent W /\ (length W <= 3)%nat /\ forall x, spanned W x <-> spanned V x /\ forall row, In row rows -> dot3 row x = 0).
  { clear rows. induction rows as [|row rows IH]; intros V I L; cbn.
    - split; auto. split; auto. intros x. split; [|tauto]. intros S. split; auto. intros ? [].
    - destruct (cut_spec row V nil) as (A & B & C); auto; [intros ? []|]. cbn in B. destruct (IH _ A) as (A' & B' & C'); [lia|].
      split; auto. split; auto. intros x. rewrite C', C. cbn. split.
      + intros [[S Z] Zs]. split; auto. intros r [<-|J]; auto.
      + intros [S Zs]. split; auto. }
  destruct (X rows [(1, 0, 0); (0, 1, 0); (0, 0, 1)]) as (A & B & C).
  - intros [|r1 [|r2 [|r3 [|]]]] L E; try discriminate. cbn in E. injection E as E1 E2 E3. intros r J. cbn in J.
    destruct J as [<-|[<-|[<-|[]]]]; [etransitivity; [|exact E1]|etransitivity; [|exact E2]|etransitivity; [|exact E3]]; ring.
  - cbn. lia.
  - split; auto. split; auto. intros v. rewrite C. split; [tauto|]. intros Z. split; auto. destruct v as [[x y] z].
    exists [x; y; z]. split; auto. cbn. f_equal; [f_equal|]; ring.
Qed.

(** ** finite groups preserve a definite form *)
Section F.
Variable gens : list (mat K).
Hypothesis GI : forall g, In g gens -> inv g.
Hypothesis Fin : finite_group gens.
Lemma group_list : exists ys, NoDup ys /\ forall m, generated gens m <-> In m ys.
Proof.
  destruct (iter_stops gens GI Fin) as (n & ys & E). destruct (iter_spec gens GI n) as ([[ys' s] w] & E' & _ & [A B O C D] & _).
  cbn in *. rewrite E in E'. injection E' as <- <-. exists ys. split; auto. intros m. split; auto. now apply (iter_complete gens GI n).
Qed.
Lemma invariant_form : exists x y z, 0 < x /\ z * z < x * y /\ forall g, In g gens -> preserves_form g (x, y, z).
Proof.
  destruct group_list as (ys & N & E).
  set (x := fsum (fun h => m00 h * m00 h + m10 h * m10 h) ys). set (y := fsum (fun h => m01 h * m01 h + m11 h * m11 h) ys).
  set (z := fsum (fun h => m00 h * m01 h + m10 h * m11 h) ys). exists x, y, z.
  assert (Q : forall s t, value (x, y, z) s t = fsum (fun h => (m00 h * s + m01 h * t) * (m00 h * s + m01 h * t) + (m10 h * s + m11 h * t) * (m10 h * s + m11 h * t)) ys).
  { intros s t. cbn. unfold x, y, z. clear. induction ys as [|h ys IH]; cbn [rsum]; [ring|]. rewrite <- IH. ring. }
  assert (P : 0 < x /\ z * z < x * y).
  { apply pos_form. intros s t Nz. rewrite Q. assert (O : In mone ys) by (apply E, (gen_group gens)).
    apply in_split in O. destruct O as (l1 & l2 & ->). rewrite (rsum_app _ _ _ _ _ Kth). cbn [rsum m00 m01 m10 m11 mone].
    assert (Nn : forall l : list (mat K), 0 <= fsum (fun h => (m00 h * s + m01 h * t) * (m00 h * s + m01 h * t) + (m10 h * s + m11 h * t) * (m10 h * s + m11 h * t)) l).
    { induction l as [|h l IH]; cbn [rsum]; [apply fle_refl|]. pose proof (fsq_nonneg (m00 h * s + m01 h * t)). pose proof (fsq_nonneg (m10 h * s + m11 h * t)). flra. }
    pose proof (Nn l1). pose proof (Nn l2). replace ((1 * s + 0 * t) * (1 * s + 0 * t) + (0 * s + 1 * t) * (0 * s + 1 * t)) with (s * s + t * t) by ring.
    assert (0 < s * s + t * t). { apply fsum_sq_pos. destruct (feq_dec s 0); auto. } flra. }
  split; [apply P|]. split; [apply P|]. intros g Ig s t. rewrite !Q.
  assert (C : forall h, In h ys -> In (mmul h g) ys) by (intros h J; apply E; apply (gen_group gens); [now apply E|now apply gen_in]).
  pose proof (closed_finite ys g N (GI g Ig) C) as Pm.
  symmetry. etransitivity; [apply (rsum_perm _ _ _ _ _ Kth _ _ _ (Permutation_sym Pm))|]. rewrite (rsum_map 0 fadd). apply (rsum_ext 0 fadd). intros [a b c d] _. destruct g as [a' b' c' d'].
  cbn. ring.
Qed.
Lemma good_generator g : In g gens -> bad_generator g = false /\ (mdet g = 1 \/ mdet g = - (1)).
Proof.
  intros Ig. destruct invariant_form as (x & y & z & X & D & P). specialize (P g Ig).
  assert (Y : 0 < y). { apply (pos_cancel x); auto. pose proof (fsq_nonneg z). flra. }
  pose proof (P 1 0) as P1. pose proof (P 0 1) as P2. pose proof (P 1 1) as P3.
  destruct g as [a b c d]. cbn in P1, P2, P3.
  assert (E1 : a * a * x + (1 + 1) * (a * c) * z + c * c * y = x) by (match type of P1 with ?l = ?r => transitivity l; [ring|rewrite P1; ring] end).
  assert (E2 : b * b * x + (1 + 1) * (b * d) * z + d * d * y = y) by (match type of P2 with ?l = ?r => transitivity l; [ring|rewrite P2; ring] end).
  assert (E3 : a * b * x + (a * d + b * c) * z + c * d * y = z).
  { apply (fcancel _ _ (1 + 1)); [pose proof (@flt_0_1 K); apply fpos_neq0; flra|].
    match type of P3 with ?l = ?r => transitivity (l - (a * a * x + (1 + 1) * (a * c) * z + c * c * y) - (b * b * x + (1 + 1) * (b * d) * z + d * d * y)); [ring|rewrite P3, E1, E2; ring] end. }
  set (s := mdet (Mat a b c d)). assert (Es : s = a * d - b * c) by reflexivity.
  assert (S2 : s * s = 1).
  { apply (fcancel _ _ (x * y - z * z)); [apply fpos_neq0; flra|]. rewrite Es.
    transitivity ((a * a * x + (1 + 1) * (a * c) * z + c * c * y) * (b * b * x + (1 + 1) * (b * d) * z + d * d * y) - (a * b * x + (a * d + b * c) * z + c * d * y) * (a * b * x + (a * d + b * c) * z + c * d * y)); [ring|].
    rewrite E1, E2, E3. ring. }
  assert (Sx : s = 1 \/ s = - (1)).
  { assert (Z : (s - 1) * (s + 1) = 0) by (transitivity (s * s - 1); [ring|rewrite S2; ring]). apply fmul_eq0 in Z.
    destruct Z as [Z|Z]; [left; transitivity (s - 1 + 1); [ring|rewrite Z; ring]|right; transitivity (s + 1 - 1); [ring|rewrite Z; ring]]. }
  split; [|exact Sx]. set (f := a * a * x + (1 + 1) * (a * c) * z + c * c * y - x). set (g := a * b * x + (a * d + b * c) * z + c * d * y - z). set (h := b * b * x + (1 + 1) * (b * d) * z + d * d * y - y).
  assert (F0 : f = 0) by (unfold f; rewrite E1; ring). assert (G0 : g = 0) by (unfold g; rewrite E3; ring). assert (H0 : h = 0) by (unfold h; rewrite E2; ring).
  assert (R1 : (a - s * d) * x + (1 + s) * c * z = 0).
  { transitivity (s * (a * d - b * c) * (x * a + z * c) - s * (d * x - c * z)); [rewrite <- Es, S2; ring|transitivity (s * (d * f - c * g)); [unfold f, g; ring|rewrite F0, G0; ring]]. }
  assert (R2 : b * x + s * c * y + (1 - s) * d * z = 0).
  { transitivity (s * (a * d - b * c) * (x * b + z * d) - s * (d * z - c * y)); [rewrite <- Es, S2; ring|transitivity (s * (d * g - c * h)); [unfold g, h; ring|rewrite H0, G0; ring]]. }
  unfold bad_generator. fold s. cbn [m01 m10 mtrace].
  assert (D1 : negb (s =? 1) && negb (s =? - (1)) = false).
  { destruct Sx as [->| ->]; [rewrite (proj2 (feqb_eq _ _ _) eq_refl); reflexivity|]. rewrite andb_comm, (proj2 (feqb_eq _ _ _) eq_refl). reflexivity. }
  rewrite D1. cbn [orb]. unfold mtrace. cbn [m00 m11].
  assert (Tr : mabs (a + d) < 1 + 1 \/ b = 0 /\ c = 0 /\ mabs (a + d) <= 1 + 1).
  { clearbody s. clear D1. pose proof (@flt_0_1 K) as One. destruct Sx as [-> | ->].
    - assert (Tq : (a + d) * (a + d) * (x * x) = (1 + 1) * (1 + 1) * (x * x) - (1 + 1) * (1 + 1) * (c * c) * (x * y - z * z)).
      { assert (Q1 : (a - d) * x = - ((1 + 1) * c * z)). { transitivity ((a - 1 * d) * x + (1 + 1) * c * z - (1 + 1) * c * z); [ring|rewrite R1; ring]. }
        assert (Q2 : b * x = - (c * y)). { transitivity (b * x + 1 * c * y + (1 - 1) * d * z - c * y); [ring|rewrite R2; ring]. }
        transitivity (((a - d) * x) * ((a - d) * x) + (1 + 1) * (1 + 1) * (a * d - b * c) * (x * x) + (1 + 1) * (1 + 1) * c * x * (b * x)); [ring|].
        rewrite Q1, Q2, <- Es. ring. }
      destruct (feq_dec c 0) as [Zc|Nc].
      + right. assert (Zb : b = 0). { apply (fcancel _ _ x); [now apply fpos_neq0|]. transitivity (b * x + 1 * c * y + (1 - 1) * d * z - c * y); [ring|rewrite R2, Zc; ring]. }
        do 2 (split; auto). unfold mabs. rewrite Zc in Tq. assert (T4 : (a + d) * (a + d) = (1 + 1) * (1 + 1)).
        { apply (fcancel _ _ (x * x)); [apply fmul_neq0; now apply fpos_neq0|]. rewrite Tq. ring. }
        destruct (a + d <? 0) eqn:Q; fnra.
      + left. assert (L : (a + d) * (a + d) < (1 + 1) * (1 + 1)).
        { assert (0 < c * c * (x * y - z * z)) by (apply fmul_pos; [now apply fsq_pos|flra]).
          assert (0 < ((1 + 1) * (1 + 1) - (a + d) * (a + d))). { apply (pos_cancel (x * x)); [now apply fmul_pos|].
            replace (x * x * ((1 + 1) * (1 + 1) - (a + d) * (a + d))) with ((1 + 1) * (1 + 1) * (x * x) - (a + d) * (a + d) * (x * x)) by ring. rewrite Tq. flra. }
          flra. }
        unfold mabs. destruct (a + d <? 0) eqn:Q; fnra.
    - left. assert (Z : a + d = 0). { apply (fcancel _ _ x); [now apply fpos_neq0|]. transitivity ((a - - (1) * d) * x + (1 + - (1)) * c * z); [ring|rewrite R1; ring]. }
      rewrite Z. unfold mabs. destruct (0 <? 0); flra. }
  destruct Tr as [Tr|(-> & -> & Tr)].
  - assert (X1 : (1 + 1 <? mabs (a + d)) = false) by flra. rewrite X1. cbn [orb]. assert (X2 : (mabs (a + d) =? 1 + 1) = false) by (apply feqb_false; intros Z; rewrite Z in Tr; now apply flt_irrefl in Tr).
    now rewrite X2.
  - assert (X1 : (1 + 1 <? mabs (a + d)) = false) by flra. rewrite X1. rewrite (proj2 (feqb_eq K 0 0) eq_refl). now rewrite andb_false_r.
Qed.
Lemma form_loop_true gens_of : linear_solver gens_of -> forall hs rows, incl hs gens -> (forall g, In g hs -> is_scalar g = false) ->
  (exists x y z, z * z < x * y /\ (forall row, In row rows -> dot3 row (x, y, z) = 0) /\ forall g, In g hs -> preserves_form g (x, y, z)) ->
  form_loop gens_of rows hs = Ok true.
Proof.
  intros S. induction hs as [|g hs IH]; intros rows I Ns (x & y & z & D & Rw & P); cbn [form_loop]; auto.
  destruct (good_generator g (I g (or_introl eq_refl))) as [_ Dt].
  destruct (form_rows_spec g (x, y, z) (Ns g (or_introl eq_refl)) Dt) as (r & E & Eq). rewrite E. cbn [bind].
  destruct (S (rows ++ r)) as (S1 & S2 & S3). destruct (definite_spec _ S1 S2) as (b & E2 & B). rewrite E2. cbn [bind].
  assert (Z : forall row, In row (rows ++ r) -> dot3 row (x, y, z) = 0).
  { intros row J. rewrite in_app_iff in J. destruct J as [J|J]; auto. apply Eq; auto. apply P. now left. }
  assert (Tb : b = true). { apply B. exists (x, y, z). split; [now apply S3|]. now apply definite_iff. }
  rewrite Tb. apply IH; [intros w J; apply I; now right|intros w J; apply Ns; now right|]. exists x, y, z. split; auto. split; auto.
  intros w J. apply P. now right.
Qed.
Lemma finite_is_finite gens_of : linear_solver gens_of -> is_finite gens_of gens = Ok true.
Proof.
  intros S. unfold is_finite. assert (E : existsb bad_generator gens = false).
  { destruct (existsb bad_generator gens) eqn:E; auto. apply existsb_exists in E. destruct E as (g & Ig & B). destruct (good_generator g Ig). congruence. }
  rewrite E. destruct (length (filter (fun g => negb (is_scalar g)) gens) <=? 1)%nat; auto.
  destruct invariant_form as (x & y & z & X & D & P). apply form_loop_true; auto.
  - intros g J. now apply filter_In in J.
  - intros g J. apply filter_In in J. destruct J as [_ J]. now destruct (is_scalar g).
  - exists x, y, z. split; auto. split; [intros ? []|]. intros g J. apply P. now apply filter_In in J.
Qed.
End F.

(** ** what the answer [True] means *)
Lemma good_det g : bad_generator g = false -> mdet g = 1 \/ mdet g = - (1).
Proof.
  unfold bad_generator. intros E. apply orb_false_iff in E. destruct E as [E _]. apply orb_false_iff in E. destruct E as [E _].
  apply andb_false_iff in E. destruct E as [E|E]; apply negb_false_iff, feqb_eq in E; auto.
Qed.
Lemma scalar_preserves g v : bad_generator g = false -> is_scalar g = true -> preserves_form g v.
Proof.
  intros B E. apply good_det in B. destruct g as [a b c d]. unfold is_scalar in E. cbn in E. apply andb_true_iff in E. destruct E as [E Ed]. apply andb_true_iff in E.
  destruct E as [Eb Ec]. apply feqb_eq in Eb, Ec, Ed. subst. unfold mdet in B. cbn in B. destruct v as [[x y] z]. intros s t. cbn.
  assert (D : d * d = 1).
  { destruct B as [B|B]; [transitivity (d * d - 0 * 0); [ring|exact B]|]. exfalso. pose proof (fsq_nonneg d). pose proof (@flt_0_1 K).
    assert (X : d * d = - (1)) by (transitivity (d * d - 0 * 0); [ring|exact B]). rewrite X in H. flra. }
  transitivity (d * d * (x * s * s + (z + z) * s * t + y * t * t)); [ring|rewrite D; ring].
Qed.
Lemma form_loop_sound gens_of : linear_solver gens_of -> forall hs rows, (forall g, In g hs -> is_scalar g = false /\ bad_generator g = false) ->
  hs <> nil -> form_loop gens_of rows hs = Ok true ->
  exists v, definite v /\ (forall row, In row rows -> dot3 row v = 0) /\ forall g, In g hs -> preserves_form g v.
Proof.
  intros S. induction hs as [|g hs IH]; intros rows A N E; [congruence|]. cbn [form_loop] in E.
  destruct (A g (or_introl eq_refl)) as [Sc Bd]. apply good_det in Bd.
  destruct (form_rows_spec g (0, 0, 0) Sc Bd) as (r & Er & _). rewrite Er in E. cbn [bind] in E.
  assert (Pr : forall v, preserves_form g v <-> forall row, In row r -> dot3 row v = 0).
  { intros v. destruct (form_rows_spec g v Sc Bd) as (r' & Er' & Q). rewrite Er in Er'. injection Er' as <-. exact Q. }
  destruct (S (rows ++ r)) as (S1 & S2 & S3). destruct (definite_spec _ S1 S2) as (b & E2 & B). rewrite E2 in E. cbn [bind] in E.
  destruct b; [|discriminate]. destruct hs as [|h hs].
  - destruct (proj1 B eq_refl) as (v & Sv & Dv). exists v. split; auto. apply S3 in Sv || rewrite S3 in Sv. split; [intros row J; apply Sv; rewrite in_app_iff; auto|].
    intros w [<-|[]]. apply Pr. intros row J. apply Sv. rewrite in_app_iff. auto.
  - destruct (IH (rows ++ r)) as (v & Dv & Rv & Pv); auto; [intros w J; apply A; now right|discriminate|]. exists v. split; auto.
    split; [intros row J; apply Rv; rewrite in_app_iff; auto|]. intros w [<-|J]; [|now apply Pv]. apply Pr. intros row J. apply Rv. rewrite in_app_iff. auto.
Qed.
Lemma is_finite_form gens_of gens : linear_solver gens_of -> is_finite gens_of gens = Ok true ->
  (2 <= length (filter (fun g => negb (is_scalar g)) gens))%nat -> exists v, definite v /\ forall m, generated gens m -> preserves_form m v.
Proof.
  intros S E L. unfold is_finite in E. destruct (existsb bad_generator gens) eqn:Bd; [discriminate|].
  assert (Gd : forall g, In g gens -> bad_generator g = false).
  { intros g I. destruct (bad_generator g) eqn:B; auto. rewrite <- Bd. symmetry. apply existsb_exists. eauto. }
  destruct (length (filter (fun g => negb (is_scalar g)) gens) <=? 1)%nat eqn:Q; [apply Nat.leb_le in Q; lia|].
  destruct (form_loop_sound gens_of S (filter (fun g => negb (is_scalar g)) gens) nil) as (v & Dv & _ & Pv); auto.
  - intros g J. apply filter_In in J. destruct J as [J1 J2]. split; auto. now destruct (is_scalar g).
  - intros Z. rewrite Z in L. cbn in L. lia.
  - exists v. split; auto. intros m Gm. apply (Gm (fun m => preserves_form m v)).
    + destruct v as [[x y] z]. constructor.
      * intros s t. cbn. ring.
      * intros [a b c d] [a' b' c' d'] X Y s t. specialize (X (a' * s + b' * t) (c' * s + d' * t)). specialize (Y s t). cbn in *. rewrite <- Y, <- X. ring.
      * intros [a b c d] [a' b' c' d'] X Y s t. unfold mmul, mone in Y. cbn in Y. injection Y as Y1 Y2 Y3 Y4.
        specialize (X (a' * s + b' * t) (c' * s + d' * t)). cbn in *.
        replace (a * (a' * s + b' * t) + b * (c' * s + d' * t)) with ((a * a' + b * c') * s + (a * b' + b * d') * t) in X by ring.
        replace (c * (a' * s + b' * t) + d * (c' * s + d' * t)) with ((c * a' + d * c') * s + (c * b' + d * d') * t) in X by ring.
        rewrite Y1, Y2, Y3, Y4 in X. rewrite <- X. ring.
    + intros g Ig. destruct (is_scalar g) eqn:Sc; [apply scalar_preserves; auto|]. apply Pv. apply filter_In. now rewrite Sc.
Qed.

(** ** a generator of infinite order *)
Lemma infinite_orbit (l : list (mat K)) (f : nat -> mat K) : (forall i j, (i < j)%nat -> f i <> f j) -> ~ (forall i, In (f i) l).
Proof.
  intros D I. assert (Inj : forall i j, f i = f j -> i = j).
  { intros i j E. destruct (Nat.lt_trichotomy i j) as [H|[H|H]]; auto; exfalso; [now apply (D i j)|]. apply (D j i); auto. }
  assert (N : NoDup (map f (seq 0 (Datatypes.S (length l))))) by (apply FinFun.Injective_map_NoDup; [exact Inj|apply seq_NoDup]).
  apply NoDup_incl_length with (l' := l) in N; [rewrite map_length, seq_length in N; lia|]. intros x J. apply in_map_iff in J. destruct J as (i & <- & _). auto.
Qed.
Fixpoint mpow (m : mat K) (n : nat) : mat K := match n with 0%nat => mone | Datatypes.S n => mmul (mpow m n) m end.
Lemma mpow_in m gens n : In m gens -> generated gens (mpow m n).
Proof. intros I. induction n; cbn; apply (gen_group gens); auto. now apply gen_in. Qed.
Definition fib : mat K := Mat 1 1 1 0.
Lemma fib_infinite : ~ finite_group [fib].
Proof.
  intros [l F]. apply (infinite_orbit l (fun n => mpow fib (Datatypes.S n))); [|intros i; apply F, mpow_in; now left].
  assert (P : forall n, 0 < m00 (mpow fib (Datatypes.S n)) /\ 0 < m01 (mpow fib (Datatypes.S n)) ).
  { induction n as [|n IH]; [cbn; pose proof (@flt_0_1 K); split; flra|]. remember (mpow fib (Datatypes.S n)) as q. 
    change (mpow fib (Datatypes.S (Datatypes.S n))) with (mmul (mpow fib (Datatypes.S n)) fib). rewrite <- Heqq. destruct q as [a b c d]. cbn in *. destruct IH. split; flra. }
  assert (S : forall n, m00 (mpow fib (Datatypes.S n)) < m00 (mpow fib (Datatypes.S (Datatypes.S n)))).
  { intros n. destruct (P n) as [P1 P2]. change (mpow fib (Datatypes.S (Datatypes.S n))) with (mmul (mpow fib (Datatypes.S n)) fib).
    destruct (mpow fib (Datatypes.S n)) as [a b c d]. cbn in *. flra. }
  assert (M : forall i k, m00 (mpow fib (Datatypes.S i)) < m00 (mpow fib (Datatypes.S (i + Datatypes.S k)))).
  { intros i. induction k as [|k IH].
    - rewrite Nat.add_1_r. apply S.
    - specialize (S (i + Datatypes.S k)%nat). rewrite (Nat.add_succ_r i (Datatypes.S k)). flra. }
  intros i j L E. specialize (M i (j - i - 1)%nat). replace (i + Datatypes.S (j - i - 1))%nat with j in M by lia. rewrite E in M. now apply flt_irrefl in M.
Qed.
(** ** elements that are never reached *)
Fixpoint ofn (k : nat) : K := match k with 0%nat => 0 | Datatypes.S k => ofn k + 1 end.
Definition shear1 : mat K := Mat 1 1 0 1.
Lemma shear_iter n ys w : iter n [shear1] = Ok (ys, w) -> ~ In (minv shear1) ys.
Proof.
  assert (GI : forall g, In g [shear1] -> inv g). { intros g [<-|[]]. unfold shear1, mdet. cbn. replace (1 * 1 - 1 * 0) with (1 : K) by ring. apply f1_neq_0. }
  assert (Di : inv shear1) by (apply GI; now left).
  assert (One : 0 < (1 : K)) by apply flt_0_1.
  assert (Mi : minv shear1 = Mat 1 (- (1)) 0 1).
  { assert (Dd : mdet shear1 = 1) by (unfold mdet; cbn; ring). unfold minv. rewrite Dd. apply mat_eq; cbn; field; apply f1_neq_0. }
  set (shp := fun k : nat => Mat 1 (ofn k) 0 1).
  set (ok := fun st : list (mat K) * list (mat K) * list (mat K) => (forall m, In m (fst (fst st)) \/ In m (snd (fst st)) -> exists k, m = shp k) /\ In mone (snd (fst st)) /\ forall m, In m (snd st) -> exists k, m = shp (Datatypes.S k)).
  assert (V : forall st k, ok st -> ok (visit st (shp k))).
  { intros [[y s] v] k (A & O & B). unfold visit. destruct (mem (shp k) s) eqn:E; [split; auto|].
    assert (Nt : exists k', k = Datatypes.S k'). { destruct k; [|eauto]. exfalso. apply mem_not_In in E. apply E. exact O. } destruct Nt as [k' ->].
    split; [|split]; cbn [fst snd] in *.
    - intros m J. rewrite !in_app_iff in J. cbn [In] in J. destruct J as [[J|[<-|[]]]|[J|[<-|[]]]]; eauto.
    - rewrite in_app_iff. auto.
    - intros m J. rewrite in_app_iff in J. cbn [In] in J. destruct J as [J|[<-|[]]]; eauto. }
  assert (X : forall n st, ok st -> exists st', loop n [shear1] st = Ok st' /\ ok st').
  { intros n0. induction n0 as [|j IH]; intros [[y s] v] Ok'; cbn [loop]; [eauto|]. destruct v as [|p v]; [eauto|]. cbn [expand]. rewrite (inverse_ok _ Di). cbn [bind].
    apply IH. destruct Ok' as (A & O & B). destruct (B p (or_introl eq_refl)) as (k & ->).
    rewrite Mi. assert (E1 : mmul (shp (Datatypes.S k)) shear1 = shp (Datatypes.S (Datatypes.S k))) by (apply mat_eq; cbn; ring).
    assert (E2 : mmul (shp (Datatypes.S k)) (Mat 1 (- (1)) 0 1) = shp k) by (apply mat_eq; cbn; ring).
    assert (E3 : mmul shear1 (shp (Datatypes.S k)) = shp (Datatypes.S (Datatypes.S k))) by (apply mat_eq; cbn; ring).
    assert (E4 : mmul (Mat 1 (- (1)) 0 1) (shp (Datatypes.S k)) = shp k) by (apply mat_eq; cbn; ring). rewrite E1, E2, E3, E4.
    cbn [fold_left]. do 4 apply V. cbn [fst snd] in *. destruct (mem (shp (Datatypes.S k)) s).
    - split; auto. split; auto. intros m J. apply B. now right.
    - split; [|split]; cbn [fst snd].
      + intros m J. rewrite !in_app_iff in J. cbn [In] in J. destruct J as [[J|[<-|[]]]|[J|[<-|[]]]]; eauto.
      + rewrite in_app_iff. auto.
      + intros m J. apply B. now right. }
  intros E I. destruct (X n ([mone], [mone], [shear1])) as ([[y s] v] & E' & (A & _)).
  - split; [|split]; cbn [fst snd].
    + intros m J. exists 0%nat. cbn [In] in J. destruct J as [[<-|[]]|[<-|[]]]; reflexivity.
    + now left.
    + intros m [<-|[]]. exists 0%nat. apply mat_eq; cbn; ring.
  - unfold iter in E. rewrite E' in E. cbn in E. injection E as -> _. destruct (A _ (or_introl I)) as [k Ek]. rewrite Mi in Ek. injection Ek as Ek.
    assert (Pk : 0 <= ofn k) by (clear Ek; induction k; cbn; flra). rewrite <- Ek in Pk. flra.
Qed.
Lemma shear_det : inv shear1.
Proof. unfold shear1, mdet. cbn. replace (1 * 1 - 1 * 0) with (1 : K) by ring. apply f1_neq_0. Qed.
Lemma fib_det : inv fib.
Proof. unfold fib, mdet. cbn. replace (1 * 0 - 1 * 1) with (- (1) : K) by ring. apply fm1_neq0. Qed.
Lemma fib_is_finite gens_of : is_finite gens_of [fib] = Ok true.
Proof.
  unfold is_finite. assert (E : existsb bad_generator [fib] = false).
  { cbn [existsb]. unfold bad_generator. assert (D : mdet fib = - (1)) by (unfold mdet; cbn; ring). rewrite D, (proj2 (feqb_eq K _ _) eq_refl).
    rewrite andb_false_r. unfold mtrace, fib. cbn [m00 m01 m10 m11]. pose proof (@flt_0_1 K). assert (T : mabs (1 + 0 : K) = 1). { unfold mabs. replace (1 + 0) with (1 : K) by ring. destruct (1 <? 0) eqn:Q; auto. flra. }
    rewrite T. assert (X1 : (1 + 1 <? (1 : K)) = false) by flra. rewrite X1. assert (X2 : ((1 : K) =? 1 + 1) = false) by (apply feqb_false; intros Z; flra). rewrite X2. reflexivity. }
  rewrite E. destruct (filter (fun g => negb (is_scalar g)) [fib]) as [|? [|? ?]] eqn:F; auto.
  exfalso. cbn in F. destruct (negb (is_scalar fib)); discriminate.
Qed.
End P.
