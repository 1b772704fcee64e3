(** The polygons of the generators. *)
From Coq Require Import List Bool ZArith Arith Lia Ring Field QArith.
From Verif Require Import OField FMicromega PField MBase MDict MEuclid SEuclid PEuclid MSim SSim PSim MPoly PPoly MMut SMut MSurf SSurf SPoint PPoint MComb PFam PGen PGen2.
Import ListNotations.

Section P.
Context {K : OField}.
Add Field KF : (of_ft K).
Local Open Scope F_scope.
Ltac red_v := lazy [consecutive apart fst_below snd_below orient ccw vsub vertex length Nat.modulo Nat.divmod Nat.sub Nat.add nth fst snd].
Ltac conj := repeat split; flra.
Ltac nz := first [left; flra|right; left; flra|right; right; left; flra|right; right; right; flra].
Ltac consec := first [left; flra|right; left; conj|right; right; left; conj|right; right; right; left; conj|right; right; right; right; conj].
Ltac sep := first [left; conj|right; left; conj|right; right; left; conj|right; right; right; left; conj|right; right; right; right; left; conj|right; right; right; right; right; conj].
Ltac split_lt i H n := match n with O => exfalso; cbn in H; lia | S ?m => destruct i as [|i]; [|split_lt i H m] end.
Ltac finish_area := unfold area; lazy [edge vsub vertex length Nat.modulo Nat.divmod Nat.sub Nat.add nth fst snd seq fold_left]; apply fdiv_pos; [apply f2_pos|].
Ltac fine_tac :=
  apply fine_intro; cbn [length];
  [lia
  |let i := fresh "i" in let H := fresh "H" in intros i H; match type of H with (i < ?n)%nat => split_lt i H n end; red_v; nz
  |let i := fresh "i" in let H := fresh "H" in intros i H; match type of H with (i < ?n)%nat => split_lt i H n end; red_v; consec
  |let i := fresh "i" in let j := fresh "j" in let H := fresh "H" in let H1 := fresh "H" in let H2 := fresh "H" in let H3 := fresh "H" in intros i j H H1 H2 H3; match type of H with (i < ?n)%nat => split_lt i H n; split_lt j H1 n end;
    try (exfalso; clear - H2 H3; cbn in H2, H3; lia); clear H H1 H2 H3; red_v; sep
  |finish_area].
Lemma fine_rect (x y : K) : 0 < x -> 0 < y -> fine [(0, 0); (x, 0); (x, y); (0, y)].
Proof. intros X Y. pose proof (fmul_pos _ _ X Y). fine_tac. flra. Qed.
Lemma fine_rect_neg (x y : K) : x < 0 -> y < 0 -> fine [(0, 0); (x, 0); (x, y); (0, y)].
Proof. intros X Y. assert (0 < (- x) * (- y)) by (apply fmul_pos; flra). fine_tac. flra. Qed.
Lemma fine_standing (a : K) : 0 < a -> fine [(0, 0); (0, 1); (- a, 1); (- a, 0)].
Proof. intros A. pose proof (@flt_0_1 K). fine_tac. flra. Qed.
Lemma fine_box (x0 x1 y0 y1 : K) : x0 < x1 -> y0 < y1 -> fine [(x0, y0); (x1, y0); (x1, y1); (x0, y1)].
Proof. intros X Y. assert (0 < (x1 - x0) * (y1 - y0)) by (apply fmul_pos; flra). fine_tac. flra. Qed.
Lemma fine_para (u v : vec K) : 0 < ccw u v -> fine [(0, 0); u; vadd u v; v].
Proof.
  intros H. destruct (quad_ok (0, 0) u (vadd u v) v) as ((L & N) & S1 & S2); try (unfold orient, ccw in *; cbn [fst snd vsub vadd] in *; cbn in *; flra).
  split; auto.
Qed.
Lemma fine_hexagon (a b c d : K) : 0 < a -> a < 1 -> 0 < b -> b < 1 -> 0 < c -> c < 1 -> 0 < d -> d < 1 ->
  fine [(0, 0); (a, 0); (1, b); (1, 1); (1 - c, 1); (0, 1 - d)].
Proof.
  intros A A1 B B1 C C1 D D1.
  assert (X1 : 0 < a * b) by (apply fmul_pos; flra). assert (X2 : 0 < (1 - a) * (1 - b)) by (apply fmul_pos; flra). assert (X3 : 0 < (1 - a) * b) by (apply fmul_pos; flra).
  assert (X4 : 0 < c * d) by (apply fmul_pos; flra). assert (X5 : 0 < (1 - c) * (1 - d)) by (apply fmul_pos; flra). assert (X6 : 0 < (1 - c) * d) by (apply fmul_pos; flra).
  assert (X7 : 0 < b * c) by (apply fmul_pos; flra). assert (X8 : 0 < (1 - a) * (1 - d)) by (apply fmul_pos; flra).
  fine_tac. flra.
Qed.
Lemma fine_triangle1 (x b : K) : 0 < x -> 0 < b -> fine [(0, 0); (x, 0); (x, b)].
Proof. intros A B. pose proof (fmul_pos _ _ A B). fine_tac. flra. Qed.
Lemma fine_triangle2 (x d : K) : 0 < x -> 0 < d -> fine [(0, 0); (x, d); (0, d)].
Proof. intros A B. pose proof (fmul_pos _ _ A B). fine_tac. flra. Qed.
Lemma fine_cut6 (x w t h : K) : 0 < x -> x < w -> 0 < h -> fine [(0, 0); (x, 0); (w, 0); (w + t, h); (x + t, h); (t, h)].
Proof.
  intros X W H. assert (A1 : 0 < h * x) by (apply fmul_pos; flra). assert (A2 : 0 < h * (w - x)) by (apply fmul_pos; flra).
  fine_tac. flra.
Qed.
Lemma fine_cut8 (rel lam w t h : K) : 0 < rel -> 0 < lam -> rel + lam < w -> 0 < h ->
  fine [(0, 0); (rel, 0); (rel + lam, 0); (w, 0); (w + t, h); (lam + rel + t, h); (t + lam, h); (t, h)].
Proof.
  intros R L W H. assert (A1 : 0 < h * rel) by (apply fmul_pos; flra). assert (A2 : 0 < h * lam) by (apply fmul_pos; flra). assert (A3 : 0 < h * (w - (rel + lam))) by (apply fmul_pos; flra).
  fine_tac. flra.
Qed.
Lemma fine_cut7a (x y z t h : K) : 0 < x -> x < y -> y < z -> 0 < h -> fine [(0, 0); (x, 0); (y, 0); (z, 0); (z + t, h); (x + t, h); (t, h)].
Proof.
  intros X Y Z H. assert (A1 : 0 < h * x) by (apply fmul_pos; flra). assert (A2 : 0 < h * (y - x)) by (apply fmul_pos; flra). assert (A3 : 0 < h * (z - y)) by (apply fmul_pos; flra).
  fine_tac. flra.
Qed.
Lemma fine_cut7b (x y z t h : K) : 0 < x -> x < y -> y < z -> 0 < h -> fine [(0, 0); (y, 0); (z, 0); (z + t, h); (y + t, h); (x + t, h); (t, h)].
Proof.
  intros X Y Z H. assert (A1 : 0 < h * x) by (apply fmul_pos; flra). assert (A2 : 0 < h * (y - x)) by (apply fmul_pos; flra). assert (A3 : 0 < h * (z - y)) by (apply fmul_pos; flra).
  fine_tac. flra.
Qed.
Lemma fine_tower (a b s : K) : 0 < b -> 0 < s ->
  fine [(a, 0); (a, - b); (a + s, - b - s); (a + (s + s), - b); (a + (s + s), 0); (a + (s + s), 1); (a + (s + s), b + 1); (a + s, b + 1 + s); (a, b + 1); (a, 1)].
Proof.
  intros B S. pose proof (@flt_0_1 K) as O. pose proof (fmul_pos _ _ B S). pose proof (fmul_pos _ _ S S). pose proof (fmul_pos _ _ B B).
  fine_tac. flra.
Qed.
Lemma fine_hall (x y s : K) : x + s < y -> 0 < s ->
  fine [(x, 0); (x + s, - s); (y, - s); (y + s, 0); (y + s, 1); (y, 1 + s); (x + s, 1 + s); (x, 1)].
Proof.
  intros B S. pose proof (@flt_0_1 K) as O. assert (0 < s * (y - (x + s))) by (apply fmul_pos; flra). pose proof (fmul_pos _ _ S S). assert (0 < (y - (x + s)) * (y - (x + s))) by (apply fmul_pos; flra).
  fine_tac. flra.
Qed.
End P.
