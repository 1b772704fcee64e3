(** The polygons of step billiards. *)
From Coq Require Import List Bool ZArith Arith Lia Ring Field.
From Verif Require Import OField FMicromega PField MBase MDict PDict MEuclid SEuclid PEuclid MSim SSim PSim MPoly PPoly MMut SMut PBuild PFlip4
  MSurf SSurf SPoint PPoint PTurn PFam PFam2 TPoly2 MGen SGen PGen PGen2 PGen4 MStep SStep.
Import ListNotations.

Section P.
Context {K : OField}.
Add Field KF : (of_ft K).
Local Open Scope F_scope.
Ltac red_v := lazy [consecutive apart fst_below snd_below orient ccw vsub vertex length Nat.modulo Nat.divmod Nat.sub Nat.add nth fst snd].
Ltac conj := repeat split; flra.
Ltac nz := first [left; flra|right; left; flra|right; right; left; flra|right; right; right; flra].
Ltac consec := first [left; flra|right; left; conj|right; right; left; conj|right; right; right; left; conj|right; right; right; right; conj].
Ltac sep := first [left; conj|right; left; conj|right; right; left; conj|right; right; right; left; conj|right; right; right; right; left; conj|right; right; right; right; right; conj].
Ltac split_lt i H n := match n with O => exfalso; cbn in H; lia | S ?m => destruct i as [|i]; [|split_lt i H m] end.
Ltac finish_area := unfold area; lazy [edge vsub vertex length Nat.modulo Nat.divmod Nat.sub Nat.add nth fst snd seq fold_left]; apply fdiv_pos; [apply f2_pos|].
Ltac fine_tac :=
  apply fine_intro; cbn [length];
  [lia
  |let i := fresh "i" in let H := fresh "H" in intros i H; match type of H with (i < ?n)%nat => split_lt i H n end; red_v; nz
  |let i := fresh "i" in let H := fresh "H" in intros i H; match type of H with (i < ?n)%nat => split_lt i H n end; red_v; consec
  |let i := fresh "i" in let j := fresh "j" in let H := fresh "H" in let H1 := fresh "H" in let H2 := fresh "H" in let H3 := fresh "H" in intros i j H H1 H2 H3; match type of H with (i < ?n)%nat => split_lt i H n; split_lt j H1 n end;
    try (exfalso; clear - H2 H3; cbn in H2, H3; lia); clear H H1 H2 H3; red_v; sep
  |finish_area].
Lemma fine5 (x x' y y' : K) : x < x' -> 0 < y' -> y' < y -> fine [(x, 0); (x', 0); (x', y'); (x', y); (x, y)].
Proof. intros X Y Y'. assert (0 < (x' - x) * y) by (apply fmul_pos; flra). fine_tac. flra. Qed.
Lemma fine5_neg (x x' y y' : K) : x' < x -> y' < 0 -> y < y' -> fine [(x, 0); (x', 0); (x', y'); (x', y); (x, y)].
Proof. intros X Y Y'. assert (0 < (x - x') * (- y)) by (apply fmul_pos; flra). fine_tac. flra. Qed.
Lemma fine5r (x x' y y' : K) : x < x' -> 0 < y' -> y' < y -> fine [(x, - y); (x', - y); (x', - y'); (x', - (0)); (x, - (0))].
Proof. intros X Y Y'. assert (0 < (x' - x) * y) by (apply fmul_pos; flra). fine_tac. flra. Qed.
Lemma fine5r_neg (x x' y y' : K) : x' < x -> y' < 0 -> y < y' -> fine [(x, - y); (x', - y); (x', - y'); (x', - (0)); (x, - (0))].
Proof. intros X Y Y'. assert (0 < (x - x') * (- y)) by (apply fmul_pos; flra). fine_tac. flra. Qed.
Lemma fine4 (x x' y : K) : x < x' -> 0 < y -> fine [(x, 0); (x', 0); (x', y); (x, y)].
Proof. intros X Y. assert (0 < (x' - x) * y) by (apply fmul_pos; flra). fine_tac. flra. Qed.
Lemma fine4_neg (x x' y : K) : x' < x -> y < 0 -> fine [(x, 0); (x', 0); (x', y); (x, y)].
Proof. intros X Y. assert (0 < (x - x') * (- y)) by (apply fmul_pos; flra). fine_tac. flra. Qed.
Lemma fine4r (x x' y : K) : x < x' -> 0 < y -> fine [(x, - y); (x', - y); (x', - (0)); (x, - (0))].
Proof. intros X Y. assert (0 < (x' - x) * y) by (apply fmul_pos; flra). fine_tac. flra. Qed.
Lemma fine4r_neg (x x' y : K) : x' < x -> y < 0 -> fine [(x, - y); (x', - y); (x', - (0)); (x, - (0))].
Proof. intros X Y. assert (0 < (x - x') * (- y)) by (apply fmul_pos; flra). fine_tac. flra. Qed.

(** ** areas *)
Ltac area_tac := lazy [area fold_left edge vsub vertex length Nat.modulo Nat.divmod Nat.sub Nat.add nth fst snd seq vadd]; field; apply f2_neq0.
Lemma area5 (x x' y y' : K) : area [(x, 0); (x', 0); (x', y'); (x', y); (x, y)] = (x' - x) * y.
Proof. area_tac. Qed.
Lemma area5r (x x' y y' : K) : area [(x, - y); (x', - y); (x', - y'); (x', - (0)); (x, - (0))] = (x' - x) * y.
Proof. area_tac. Qed.
Lemma area4 (x x' y : K) : area [(x, 0); (x', 0); (x', y); (x, y)] = (x' - x) * y.
Proof. area_tac. Qed.
Lemma area4r (x x' y : K) : area [(x, - y); (x', - y); (x', - (0)); (x, - (0))] = (x' - x) * y.
Proof. area_tac. Qed.

(** ** which polygons are accepted *)
Lemma pos_prod (x y : K) : 0 < x * y -> (0 < x /\ 0 < y) \/ (x < 0 /\ y < 0).
Proof.
  intros H. destruct (flt_total x) as [X|[X|X]], (flt_total y) as [Y|[Y|Y]]; subst; auto; exfalso; try flra.
  - assert (0 < (- x) * y) by (apply fmul_pos; flra). flra.
  - assert (0 < x * (- y)) by (apply fmul_pos; flra). flra.
Qed.
Lemma ratio (p q : K) : 0 < p -> p < q -> exists t, 0 <= t /\ t <= 1 /\ t * q = p.
Proof.
  intros P Q. assert (N : q <> 0) by (intros Z; flra). exists (p / q). assert (E : p / q * q = p) by (field; auto). assert (T : 0 < p / q) by (apply fdiv_pos; flra).
  split; [flra|]. split; auto. set (t := p / q) in *. clearbody t. destruct (flt_total (1 - t)) as [Z|[Z|Z]]; try flra. assert (0 < (- (1 - t)) * q) by (apply fmul_pos; flra). exfalso. flra.
Qed.
Lemma ratio' (p q : K) : (0 < p /\ p < q) \/ (p < 0 /\ q < p) -> exists t, 0 <= t /\ t <= 1 /\ t * q = p.
Proof.
  intros [[A B]|[A B]]; [now apply ratio|]. destruct (ratio (- p) (- q)) as (t & T0 & T1 & T2); try flra. exists t. split; auto. split; auto. flra.
Qed.
Lemma accepted5 (x a y b : K) P : Polygon_vertices [(x, 0); (x + a, 0); (x + a, y - b); (x + a, y); (x, y)] = Ok P -> (0 < a /\ 0 < b /\ b < y) \/ (a < 0 /\ b < 0 /\ y < b).
Proof.
  intros H. apply C51_vertices in H. destruct H as (_ & _ & N & S1 & A). rewrite area5 in A.
  assert (A' : 0 < a * y) by flra. clear A. apply pos_prod in A'.
  assert (B0 : b <> 0). { intros Z. apply (N 2%nat). lazy [edge vertex length Nat.modulo Nat.divmod Nat.sub nth vsub fst snd vzero]. apply vec_eq; lazy [fst snd vzero]; flra. }
  assert (B1 : y - b <> 0). { intros Z. apply (N 1%nat). lazy [edge vertex length Nat.modulo Nat.divmod Nat.sub nth vsub fst snd vzero]. apply vec_eq; lazy [fst snd vzero]; flra. }
  assert (C1 : ~ ((0 < y /\ y < y - b) \/ (y < 0 /\ y - b < y))).
  { intros C. apply ratio' in C. destruct C as (t & T0 & T1 & T2). destruct (S1 1%nat 3%nat (x + a, y)) as [[X _]|[X _]]; try (cbn; lia); try discriminate X.
    - exists t. lazy [side vertex length Nat.modulo Nat.divmod Nat.sub nth fst snd]. split; auto. split; auto. apply vec_eq; lazy [vadd vscale vsub fst snd]; [ring|transitivity (t * (y - b)); [symmetry; exact T2|ring]].
    - exists 0. lazy [side vertex length Nat.modulo Nat.divmod Nat.sub nth fst snd]. split; [flra|]. split; [pose proof (@flt_0_1 K); flra|]. apply vec_eq; lazy [vadd vscale vsub fst snd]; ring. }
  assert (C2 : ~ ((0 < b - y /\ b - y < b) \/ (b - y < 0 /\ b < b - y))).
  { intros C. apply ratio' in C. destruct C as (t & T0 & T1 & T2). destruct (S1 0%nat 2%nat (x + a, 0)) as [[X _]|[X _]]; try (cbn; lia); try discriminate X.
    - exists 1. lazy [side vertex length Nat.modulo Nat.divmod Nat.sub nth fst snd]. split; [pose proof (@flt_0_1 K); flra|]. split; [flra|]. apply vec_eq; lazy [vadd vscale vsub fst snd]; ring.
    - exists t. lazy [side vertex length Nat.modulo Nat.divmod Nat.sub nth fst snd]. split; auto. split; auto. apply vec_eq; lazy [vadd vscale vsub fst snd]; [ring|]. replace (y - (y - b)) with b by ring. rewrite T2. ring. }
  destruct A' as [[A Y]|[A Y]]; [left|right]; (split; [auto|]).
  - assert (0 < b) by (destruct (flt_total b) as [Z|[Z|Z]]; [exfalso; apply C1; left; split; flra|contradiction|auto]). split; auto.
    destruct (flt_total (y - b)) as [Z|[Z|Z]]; [exfalso; apply C2; left; split; flra|contradiction|flra].
  - assert (b < 0) by (destruct (flt_total b) as [Z|[Z|Z]]; [auto|contradiction|exfalso; apply C1; right; split; flra]). split; auto.
    destruct (flt_total (y - b)) as [Z|[Z|Z]]; [flra|contradiction|exfalso; apply C2; right; split; flra].
Qed.

(** ** the loop *)
Definition X0 (x : K) (ws : list K) i := x + total (firstn i ws).
Definition Y0 (y : K) (hs : list K) i := y - total (firstn i hs).
Definition good_signs (ws hs : list K) (y : K) := (all_positive ws /\ all_positive hs /\ total hs < y) \/ (all_negative ws /\ all_negative hs /\ y < total hs).
Lemma total_app (l l' : list K) : total (l ++ l') = total l + total l'.
Proof. unfold total. induction l as [|a l IH]; cbn [app fold_right]; [ring|]. rewrite IH. ring. Qed.
Lemma total_pos (l : list K) : all_positive l -> 0 <= total l.
Proof. induction l as [|a l IH]; intros H; cbn [total fold_right]; [flra|]. assert (0 < a) by (apply H; cbn; auto). assert (0 <= total l) by (apply IH; intros z Z; apply H; cbn; auto). unfold total in *. flra. Qed.
Lemma total_neg (l : list K) : all_negative l -> total l <= 0.
Proof. induction l as [|a l IH]; intros H; cbn [total fold_right]; [flra|]. assert (a < 0) by (apply H; cbn; auto). assert (total l <= 0) by (apply IH; intros z Z; apply H; cbn; auto). unfold total in *. flra. Qed.
Lemma loop_ok ws : forall hs x y, length ws = length hs -> good_signs ws hs y ->
  exists ps, step_loop (combine ws hs) x y = Ok (ps, (x + total ws, y - total hs)) /\ length ps = length ws /\
  forall i, (i < length ws)%nat -> nth_error ps i = Some [(X0 x ws i, 0); (X0 x ws (S i), 0); (X0 x ws (S i), Y0 y hs (S i)); (X0 x ws (S i), Y0 y hs i); (X0 x ws i, Y0 y hs i)].
Proof.
  induction ws as [|a ws IH]; intros [|b hs] x y L G; try discriminate L.
  - exists nil. cbn [combine step_loop]. split; [do 2 f_equal; f_equal; unfold total; cbn; ring|]. split; auto. intros i H. cbn in H. lia.
  - cbn [combine step_loop]. assert (L' : length ws = length hs) by (cbn in L; lia).
    assert (F : fine [(x, 0); (x + a, 0); (x + a, y - b); (x + a, y); (x, y)] /\ good_signs ws hs (y - b)).
    { cbn [total fold_right] in G. destruct G as [(G1 & G2 & G3)|(G1 & G2 & G3)]; change (total (b :: hs)) with (b + total hs) in G3.
      - assert (0 < a) by (apply G1; cbn; auto). assert (0 < b) by (apply G2; cbn; auto). assert (T1 : all_positive ws) by (intros z Z; apply G1; cbn; auto).
        assert (T2 : all_positive hs) by (intros z Z; apply G2; cbn; auto). pose proof (total_pos hs T2). split; [apply fine5; flra|]. left. split; auto. split; auto. flra.
      - assert (a < 0) by (apply G1; cbn; auto). assert (b < 0) by (apply G2; cbn; auto). assert (T1 : all_negative ws) by (intros z Z; apply G1; cbn; auto).
        assert (T2 : all_negative hs) by (intros z Z; apply G2; cbn; auto). pose proof (total_neg hs T2). split; [apply fine5_neg; flra|]. right. split; auto. split; auto. flra. }
    destruct F as [F G']. rewrite (fine_vertices _ F). destruct (IH hs (x + a) (y - b) L' G') as (ps & E & Lp & N). rewrite E. eexists. split; [do 2 f_equal; f_equal; change (total (a :: ws)) with (a + total ws); change (total (b :: hs)) with (b + total hs); ring|].
    split; [cbn; lia|]. intros i Hi. destruct i as [|i].
    + cbn [nth_error]. unfold X0, Y0. cbn [firstn]. change (total (@nil K)) with (0 : K). change (total [a]) with (a + 0). change (total [b]) with (b + 0).
      replace (x + 0) with x by ring. replace (x + (a + 0)) with (x + a) by ring. replace (y - (b + 0)) with (y - b) by ring. replace (y - 0) with y by ring. reflexivity.
    + cbn [nth_error]. rewrite N by (cbn in Hi; lia). unfold X0, Y0. rewrite !firstn_cons.
      assert (TA : forall l (c : K), total (c :: l) = c + total l) by reflexivity.
      rewrite !TA. set (t1 := total (firstn i ws)). set (t2 := total (firstn (S i) ws)). set (t3 := total (firstn i hs)). set (t4 := total (firstn (S i) hs)).
      replace (x + a + t1) with (x + (a + t1)) by ring. replace (x + a + t2) with (x + (a + t2)) by ring. replace (y - b - t3) with (y - (b + t3)) by ring. replace (y - b - t4) with (y - (b + t4)) by ring. reflexivity.
Qed.
Lemma loop_inv (ws : list K) : forall hs x y ps xf (yf : K), length ws = length hs -> step_loop (combine ws hs) x y = Ok (ps, (xf, yf)) ->
  ws = nil \/ (all_positive ws /\ all_positive hs /\ 0 < yf) \/ (all_negative ws /\ all_negative hs /\ yf < 0).
Proof.
  induction ws as [|a ws IH]; intros [|b hs] x y ps xf yf L E; try discriminate L; auto. right. cbn [combine step_loop] in E.
  destruct (Polygon_vertices _) as [P|] eqn:EP; [|discriminate]. apply accepted5 in EP.
  destruct (step_loop (combine ws hs) (x + a) (y - b)) as [[ps' xy]|] eqn:E'; [|discriminate]. injection E as <- ->.
  assert (L' : length ws = length hs) by (cbn in L; lia).
  assert (ST : (all_positive ws /\ all_positive hs /\ 0 < yf) \/ (all_negative ws /\ all_negative hs /\ yf < 0) \/ (ws = nil /\ hs = nil /\ yf = y - b)).
  { destruct (IH hs _ _ _ _ _ L' E') as [->|[H|H]]; auto. destruct hs; [|discriminate]. cbn in E'. injection E' as _ _ <-. auto. }
  destruct ST as [(S1 & S2 & S3)|[(S1 & S2 & S3)|(-> & -> & ->)]].
  - left. assert (0 < a /\ 0 < b).
    { destruct EP as [(A & B & _)|(A & B & C)]; auto. exfalso. destruct ws as [|a1 ws]; [destruct hs; [|discriminate]; cbn in E'; injection E' as _ _ <-; flra|].
      destruct hs as [|b1 hs]; [discriminate|]. cbn [combine step_loop] in E'. destruct (Polygon_vertices _) as [P1|] eqn:EP1 in E'; [|discriminate]. apply accepted5 in EP1.
      assert (0 < a1) by (apply S1; cbn; auto). destruct EP1 as [(D1 & D2 & D3)|(D1 & _)]; flra. }
    destruct H as [HA HB]. split; [intros z [<-|Z]; auto|]. split; auto. intros z [<-|Z]; auto.
  - right. assert (a < 0 /\ b < 0).
    { destruct EP as [(A & B & C)|(A & B & C)]; auto. exfalso. destruct ws as [|a1 ws]; [destruct hs; [|discriminate]; cbn in E'; injection E' as _ _ <-; flra|].
      destruct hs as [|b1 hs]; [discriminate|]. cbn [combine step_loop] in E'. destruct (Polygon_vertices _) as [P1|] eqn:EP1 in E'; [|discriminate]. apply accepted5 in EP1.
      assert (a1 < 0) by (apply S1; cbn; auto). destruct EP1 as [(D1 & _)|(D1 & D2 & D3)]; flra. }
    destruct H as [HA HB]. split; [intros z [<-|Z]; auto|]. split; auto. intros z [<-|Z]; auto.
  - destruct EP as [(A & B & C)|(A & B & C)]; [left|right]; (split; [intros z [<-|[]]; auto|]); (split; [intros z [<-|[]]; auto|flra]).
Qed.
End P.
