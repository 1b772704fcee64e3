(** Proofs about the cells of the L-infinity Delaunay triangulation: the edges without conditions. *)
From Coq Require Import List Bool ZArith Arith Lia Ring Field.
From Verif Require Import OField FMicromega MBase MDict PDict MEuclid MTV PTV MLInf SLInf PLInf PLInf2.
Import ListNotations.

Section G.
Context {K : OField}.
Add Field KF : (of_ft K).
Local Open Scope F_scope.
(** position of the end points of the opposite edge relative to a vertex *)
Definition vok (m : marking) (a b : vec K) : Prop :=
  match m with
  | MBottom => 0 <= snd a /\ 0 <= snd b
  | MTop => snd a <= 0 /\ snd b <= 0
  | MLeft => 0 <= fst a /\ 0 <= fst b
  | MRight => fst a <= 0 /\ fst b <= 0
  | MNone => ((0 <= fst a /\ 0 <= fst b) \/ (fst a <= 0 /\ fst b <= 0)) /\ ((0 <= snd a /\ 0 <= snd b) \/ (snd a <= 0 /\ snd b <= 0))
  end.
Definition facing (m m' : marking) : Prop :=
  match m, m' with MBottom, MTop | MTop, MBottom | MLeft, MRight | MRight, MLeft => True | _, _ => False end.
Definition vminus (v w : vec K) : vec K := (fst v - fst w, snd v - snd w).
Lemma vok_sym m a b : vok m a b -> vok m b a.
Proof. destruct m; cbn; tauto. Qed.
Lemma range2 (a b : K) : exists l h, l <= a /\ l <= b /\ a <= h /\ b <= h /\ ((l = a /\ h = b) \/ (l = b /\ h = a)).
Proof. destruct (a <? b) eqn:Q; [exists a, b|exists b, a]; repeat split; auto; flra. Qed.
Lemma auto_delaunay m m' (A B v w : vec K) : vok m (vminus A v) (vminus B v) -> vok m' (vminus A w) (vminus B w) -> ~ facing m m' -> delaunay_edge A B v w.
Proof.
  destruct A as [ax ay], B as [bx b'], v as [vx vy], w as [wx wy]. unfold vminus. cbn [fst snd]. intros Hv Hw F.
  destruct (range2 ax bx) as (x0 & x1 & X1 & X2 & X3 & X4 & X5). destruct (range2 ay b') as (y0 & y1 & Y1 & Y2 & Y3 & Y4 & Y5).
  unfold delaunay_edge, closed_square, open_square.
  assert (VX : forall p q m, vok m (ax - p, ay - q) (bx - p, b' - q) -> match m with MBottom => q <= y0 | MTop => y1 <= q | MLeft => p <= x0 | MRight => x1 <= p | MNone => (p <= x0 \/ x1 <= p) /\ (q <= y0 \/ y1 <= q) end).
  { intros p q m0 H. destruct m0; cbn [vok fst snd] in H.
    - destruct H as [H1 H2]. split; [destruct H1 as [[]|[]]; [left|right]|destruct H2 as [[]|[]]; [left|right]]; destruct X5 as [[-> ->]|[-> ->]]; destruct Y5 as [[-> ->]|[-> ->]]; flra.
    - destruct H; destruct X5 as [[-> ->]|[-> ->]]; flra.
    - destruct H; destruct X5 as [[-> ->]|[-> ->]]; flra.
    - destruct H; destruct Y5 as [[-> ->]|[-> ->]]; flra.
    - destruct H; destruct Y5 as [[-> ->]|[-> ->]]; flra. }
  apply VX in Hv. apply VX in Hw. clear VX X5 Y5.
  assert (NS : forall c c' s p q : K, (p <= c \/ c + s <= p \/ q <= c' \/ c' + s <= q) -> ~ (c < p /\ p < c + s /\ c' < q /\ q < c' + s)).
  { intros c c' s p q D (D1 & D2 & D3 & D4). destruct D as [D|[D|[D|D]]]; unfold fle, flt in *; congruence. }
  destruct (x1 - x0 <? y1 - y0) eqn:D.
  - assert (L : {m = MLeft \/ m' = MLeft} + {~ (m = MLeft \/ m' = MLeft)}) by (destruct m; destruct m'; (left; now auto) || (right; intros [Q|Q]; discriminate)).
    exists (if L then (x0, y0) else (x1 - (y1 - y0), y0)), (y1 - y0). destruct L as [L|L]; cbn [fst snd]; (split; [repeat split; flra|]); (split; [repeat split; flra|]); split; apply NS; cbn [fst snd].
    + destruct m; [destruct Hv as [_ [|]]| | | |]; cbn in *; auto; [right; right; right; flra| |right; right; right; flra]. destruct L as [L|L]; [discriminate|subst m'; cbn in F; tauto].
    + destruct m'; [destruct Hw as [_ [|]]| | | |]; cbn in *; auto; [right; right; right; flra| |right; right; right; flra]. destruct L as [L|L]; [subst m; cbn in F; tauto|discriminate].
    + destruct m; [destruct Hv as [_ [|]]| | | |]; cbn in *; auto; [right; right; right; flra|tauto|right; left; flra|right; right; right; flra].
    + destruct m'; [destruct Hw as [_ [|]]| | | |]; cbn in *; auto; [right; right; right; flra|tauto|right; left; flra|right; right; right; flra].
  - assert (L : {m = MBottom \/ m' = MBottom} + {~ (m = MBottom \/ m' = MBottom)}) by (destruct m; destruct m'; (left; now auto) || (right; intros [Q|Q]; discriminate)).
    exists (if L then (x0, y0) else (x0, y1 - (x1 - x0))), (x1 - x0). destruct L as [L|L]; cbn [fst snd]; (split; [repeat split; flra|]); (split; [repeat split; flra|]); split; apply NS; cbn [fst snd].
    + destruct m; [destruct Hv as [[|] _]| | | |]; cbn in *; auto; [right; left; flra|right; left; flra|]. destruct L as [L|L]; [discriminate|subst m'; cbn in F; tauto].
    + destruct m'; [destruct Hw as [[|] _]| | | |]; cbn in *; auto; [right; left; flra|right; left; flra|]. destruct L as [L|L]; [subst m; cbn in F; tauto|discriminate].
    + destruct m; [destruct Hv as [[|] _]| | | |]; cbn in *; auto; [right; left; flra|right; left; flra|tauto|right; right; right; flra].
    + destruct m'; [destruct Hw as [[|] _]| | | |]; cbn in *; auto; [right; left; flra|right; left; flra|tauto|right; right; right; flra].
Qed.
Lemma delaunay_shift (t A B C D : vec K) : delaunay_edge A B C D -> delaunay_edge (vplus A t) (vplus B t) (vplus C t) (vplus D t).
Proof.
  intros (c & s & Q1 & Q2 & Q3 & Q4). exists (vplus c t), s. unfold closed_square, open_square, vplus in *. cbn [fst snd].
  split; [repeat split; flra|]. split; [repeat split; flra|]. split; intros H; [apply Q3|apply Q4]; repeat split; flra.
Qed.
End G.

Section P.
Context {K : OField}.
Add Field KF2 : (of_ft K).
Local Open Scope res_scope.
Local Open Scope F_scope.
Variables (n : nat) (ids : dict (nat * nat) (nat * nat)) (types : list (list Z)) (t : linf).
Hypothesis MK : make_linf n ids types = Ok t.
Variable x : nat -> K.
Notation opp := (opp_of ids).
Notation mark := (mark_of types).
Notation ty := (ty types).
Notation E := (E x).
Notation dim := (6 * n)%nat.
Hypothesis PR : paired n opp.
Hypothesis CP : forall p e, (p < n)%nat -> (e < 3)%nat -> compatible (mark p e) (mark p ((e + 1) mod 3)%nat).
Hypothesis MS : marked_surface n opp mark E.
Definition vneg (v : vec K) : vec K := (- fst v, - snd v).
Lemma veq (a b : vec K) : fst a = fst b -> snd a = snd b -> a = b.
Proof. destruct a, b. cbn. now intros -> ->. Qed.
Lemma vok_vertex q g : (q < n)%nat -> (g < 3)%nat -> vok (mark q g) (E q g) (vneg (E q ((g + 2) mod 3)%nat)).
Proof.
  intros Hq Hg. assert (G1 : ((g + 1) mod 3 < 3)%nat) by (apply Nat.mod_upper_bound; lia). assert (G2 : ((g + 2) mod 3 < 3)%nat) by (apply Nat.mod_upper_bound; lia). destruct (mod3 g Hg) as (M1 & M2 & M3).
  assert (M4 : (((g + 1) mod 3 + 2) mod 3 = g)%nat) by (destruct g as [|[|[|]]]; cbn; lia).
  pose proof (ms_marked _ _ _ _ MS q g Hq Hg) as H. pose proof (ms_marked _ _ _ _ MS q _ Hq G1) as H1. pose proof (ms_marked _ _ _ _ MS q _ Hq G2) as H2. rewrite M3 in H2. rewrite M4 in H1.
  pose proof (typed_end n ids types t MK q g Hq Hg) as T1. pose proof (typed_end n ids types t MK q _ Hq G2) as T2. rewrite M2 in T2. pose proof (CP q _ Hq G1) as C. rewrite M1 in C.
  destruct (tri_sum n ids types x MS q g Hq Hg) as [S1 S2].
  destruct (mark q g); cbn [vok has_marking vneg fst snd] in *; try (destruct H as (? & ? & ? & ?); split; flra).
  destruct T1 as [T1|T1]; [congruence|]. destruct T2 as [T2|T2]; [|congruence].
  destruct (mark q ((g + 1) mod 3)%nat); destruct (mark q ((g + 2) mod 3)%nat); cbn [has_marking compatible] in *; try contradiction; try congruence;
    destruct H1 as (? & ? & ? & ?); destruct H2 as (? & ? & ? & ?); (split; [first [left; split; flra|right; split; flra]|first [left; split; flra|right; split; flra]]).
Qed.
Lemma edge_parts p e : (p < n)%nat -> (e < 3)%nat ->
  let q := fst (across opp p e) in let g := snd (across opp p e) in
  edge_is_delaunay opp E p e <-> delaunay_edge (E p e) (vneg (E p ((e + 2) mod 3)%nat)) (0, 0) (vplus (E p e) (E q ((g + 2) mod 3)%nat)).
Proof.
  intros Hp He. assert (M : ((e + 1) mod 3 < 3)%nat) by (apply Nat.mod_upper_bound; lia). destruct (PR p _ Hp M) as (Q1 & Q2 & _). destruct (tri_sum n ids types x MS p e Hp He) as [S1 S2].
  unfold edge_is_delaunay, across. destruct (opp p ((e + 1) mod 3)%nat) as [q f]. cbn [fst snd] in *. destruct (mod3 f Q2) as (_ & _ & ->).
  replace (vplus (E p e) (E p ((e + 1) mod 3)%nat)) with (vneg (E p ((e + 2) mod 3)%nat)); [reflexivity|]. unfold vneg, vplus. f_equal; flra.
Qed.
Lemma edge_opp p e : (p < n)%nat -> (e < 3)%nat -> let q := fst (across opp p e) in let g := snd (across opp p e) in
  E q g = vminus (vneg (E p ((e + 2) mod 3)%nat)) (vplus (E p e) (E q ((g + 2) mod 3)%nat)) /\ vneg (E q ((g + 2) mod 3)%nat) = vminus (E p e) (vplus (E p e) (E q ((g + 2) mod 3)%nat)) /\ across opp q g = (p, e).
Proof.
  intros Hp He. assert (M : ((e + 1) mod 3 < 3)%nat) by (apply Nat.mod_upper_bound; lia). destruct (PR p _ Hp M) as (Q1 & Q2 & Q3 & _). pose proof (ms_opposite _ _ _ _ MS p _ Hp M) as O. destruct (tri_sum n ids types x MS p e Hp He) as [S1 S2].
  unfold across. destruct (opp p ((e + 1) mod 3)%nat) as [q f]. cbn [fst snd] in *. destruct (tri_sum n ids types x MS q f Q1 Q2) as [S3 S4]. destruct (mod3 f Q2) as (_ & M2 & ->). rewrite M2, Q3.
  unfold vplus in O. apply pair_equal_spec in O. destruct O as [O1 O2]. split; [rewrite (surjective_pairing (E q ((f + 2) mod 3)%nat)); unfold vminus, vneg, vplus; cbn [fst snd]; f_equal; flra|].
  split; [unfold vminus, vneg, vplus; cbn [fst snd]; f_equal; flra|]. f_equal. destruct e as [|[|[|]]]; cbn; lia.
Qed.
Lemma auto_edge p e : (p < n)%nat -> (e < 3)%nat -> ~ facing (mark p e) (mark (fst (across opp p e)) (snd (across opp p e))) -> edge_is_delaunay opp E p e.
Proof.
  intros Hp He F. apply edge_parts; auto. destruct (edge_opp p e Hp He) as (E1 & E2 & _). destruct (across_bounds n ids PR p e Hp He) as (B1 & B2 & _).
  eapply auto_delaunay; [| |exact F].
  - pose proof (vok_vertex p e Hp He) as V. replace (vminus (E p e) (0, 0)) with (E p e); [replace (vminus (vneg (E p ((e + 2) mod 3)%nat)) (0, 0)) with (vneg (E p ((e + 2) mod 3)%nat)); auto|]; unfold vminus; [|rewrite (surjective_pairing (E p e)) at 1]; unfold vneg; cbn [fst snd]; f_equal; ring.
  - apply vok_sym. rewrite <- E1, <- E2. apply vok_vertex; auto.
Qed.
Lemma edge_other p e : (p < n)%nat -> (e < 3)%nat -> edge_is_delaunay opp E (fst (across opp p e)) (snd (across opp p e)) -> edge_is_delaunay opp E p e.
Proof.
  intros Hp He. destruct (across_bounds n ids PR p e Hp He) as (B1 & B2 & _). rewrite !edge_parts by auto. destruct (edge_opp p e Hp He) as (E1 & E2 & E3). rewrite E3. cbn [fst snd]. intros H.
  rewrite E1, E2 in H. apply delaunay_sym, delaunay_sym'. apply (delaunay_shift (vplus (E p e) (E (fst (across opp p e)) ((snd (across opp p e) + 2) mod 3)%nat))) in H. revert H.
  set (A := E p e). set (B := vneg (E p ((e + 2) mod 3)%nat)). set (W := vplus A (E (fst (across opp p e)) ((snd (across opp p e) + 2) mod 3)%nat)).
  assert (Q1 : vplus (vminus B W) W = B) by (apply veq; unfold vplus, vminus; cbn [fst snd]; ring).
  assert (Q2 : vplus (vminus A W) W = A) by (apply veq; unfold vplus, vminus; cbn [fst snd]; ring).
  assert (Q3 : vplus (0, 0) W = W) by (apply veq; unfold vplus, vminus; cbn [fst snd]; ring).
  assert (Q4 : vplus (vplus (vminus B W) (E p ((e + 2) mod 3)%nat)) W = (0, 0)) by (unfold vplus, vminus, B, vneg; cbn [fst snd]; f_equal; ring).
  now rewrite Q1, Q2, Q3, Q4.
Qed.
End P.
