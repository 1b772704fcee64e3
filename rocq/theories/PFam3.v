(** The infinite families: E-infinity, T-fractal, mega Wollmilchsau. *)
From Coq Require Import List Bool ZArith Arith Lia Ring Field.
From Verif Require Import OField FMicromega PField MBase MEuclid SEuclid PEuclid MSim SSim PSim MPoly PPoly MSurf SSurf PSurf PSurf2 PSurf3 MPoint SPoint PPoint PTurn PSimple MFam PFam PFam2.
Import ListNotations.

Section P.
Context {K : OField}.
Add Field KF : (of_ft K).
Local Open Scope F_scope.

Lemma fmul_nonneg (a b : K) : 0 <= a -> 0 <= b -> 0 <= a * b.
Proof. intros A B. fnra. Qed.
Definition cubic (x : K) : K := x * x * x - (1 + 1 + 1 + 1 + 1) * (x * x) + (1 + 1 + 1 + 1) * x - 1.
Lemma cubic_large x : 1 < x -> 0 <= cubic x -> 1 + 1 + 1 + 1 < x.
Proof.
  intros X C. destruct (fltb (1 + 1 + 1 + 1) x) eqn:E; [exact E|]. change (x <= 1 + 1 + 1 + 1) in E. exfalso. unfold cubic in C.
  assert (A : 0 <= x * ((x - 1) * (1 + 1 + 1 + 1 - x))) by (apply fmul_nonneg; [flra|apply fmul_nonneg; flra]).
  assert (B : x * x * x - (1 + 1 + 1 + 1 + 1) * (x * x) + (1 + 1 + 1 + 1) * x = - (x * ((x - 1) * (1 + 1 + 1 + 1 - x)))) by ring.
  pose proof (@flt_0_1 K). flra.
Qed.
Lemma black_white_pos (x : K) n : 1 < x -> 0 <= cubic x -> 0 < fst (black_white x n) /\ 0 < snd (black_white x n) /\
  snd (black_white x n) * snd (black_white x n) + x * (fst (black_white x n) * (fst (black_white x n) - snd (black_white x n))) <= 0.
Proof.
  intros X C. pose proof (cubic_large x X C) as X4. pose proof (@flt_0_1 K) as H1. induction n as [|n (B & W & Q)]; cbn [black_white].
  - cbn [fst snd]. split; [flra|]. split; [fnra|]. unfold cubic in C.
    match goal with |- ?a <= 0 => replace a with (- (x * x * x - (1 + 1 + 1 + 1 + 1) * (x * x) + (1 + 1 + 1 + 1) * x - 1)) by ring end. flra.
  - destruct (black_white x n) as [b w]. cbn [fst snd] in *.
    assert (BW : b < w).
    { destruct (fltb b w) eqn:E; [exact E|]. change (w <= b) in E. exfalso. assert (0 < w * w) by (apply fmul_pos; auto).
      assert (0 <= x * (b * (b - w))) by (apply fmul_nonneg; [flra|apply fmul_nonneg; flra]). flra. }
    split; [flra|].
    assert (W' : 0 < x * (w - b) - w).
    { destruct (fltb 0 (x * (w - b) - w)) eqn:E; [exact E|]. change (x * (w - b) - w <= 0) in E. exfalso.
      assert (A : 0 <= b * - (x * (w - b) - w)) by (apply fmul_nonneg; flra).
      assert (E2 : b * - (x * (w - b) - w) = x * (b * (b - w)) + b * w) by ring. assert (E3 : 0 < w * (w - b)) by (apply fmul_pos; flra).
      assert (E4 : w * (w - b) = w * w - b * w) by ring. flra. }
    split; auto. match goal with |- ?a <= 0 => replace a with (w * w + x * (b * (b - w))) by ring end. exact Q.
Qed.
Lemma white_pos (x : K) n : 1 < x -> 0 <= cubic x -> 0 < get_white x n.
Proof.
  intros X C. pose proof (@flt_0_1 K). unfold get_white. destruct (_ || _); [flra|]. destruct (_ =? _)%Z; [flra|]. destruct (_ <=? _)%Z; apply black_white_pos; auto.
Qed.
Lemma black_pos (x : K) n : 1 < x -> 0 <= cubic x -> 0 < get_black x n.
Proof.
  intros X C. pose proof (@flt_0_1 K). unfold get_black. destruct (_ =? _)%Z; [flra|]. destruct (_ || _); [flra|]. destruct (_ <=? _)%Z; apply black_white_pos; auto.
Qed.
Ltac zdec := repeat match goal with
  | |- context [(?a =? ?b)%Z] => destruct (Z.eqb_spec a b); try lia
  | |- context [(?a <=? ?b)%Z] => destruct (Z.leb_spec a b); try lia end.
Lemma white_opp (x : K) p : (p < -1 \/ 2 <= p)%Z -> get_white x (- p) = get_white x p.
Proof. intros H. unfold get_white. zdec; cbn [orb]; zdec; f_equal; f_equal; lia. Qed.
Lemma black_opp (x : K) p : (p < -1 \/ 2 < p)%Z -> get_black x (1 - p) = get_black x p.
Proof. intros H. unfold get_black. zdec; cbn [orb]; zdec; f_equal; f_equal; lia. Qed.
Lemma e_infinity_inv p e : (e < 4)%nat -> let q := e_infinity_opposite p e in snd q = ((e + 2) mod 4)%nat /\ e_infinity_opposite (fst q) (snd q) = (p, e).
Proof.
  intros He. cbn zeta. unfold e_infinity_opposite at 1 3 4.
  destruct (Z.eqb_spec p 0) as [->|N0]; [destruct e as [|[|[|[|e]]]]; try lia; split; reflexivity|].
  destruct (Z.eqb_spec p 1) as [->|N1]; [destruct e as [|[|[|[|e]]]]; try lia; split; reflexivity|].
  destruct (Z.eqb_spec p (-1)) as [->|N2]; [destruct e as [|[|[|[|e]]]]; try lia; split; reflexivity|].
  destruct (Z.eqb_spec p 2) as [->|N3]; [destruct e as [|[|[|[|e]]]]; try lia; split; reflexivity|].
  destruct (Z.eq_dec p (-2)) as [->|N4]; [destruct e as [|[|[|[|e]]]]; try lia; split; reflexivity|].
  assert (X : forall q f, (q = 1 - p \/ q = - p)%Z -> e_infinity_opposite q f = if (f mod 2 =? 1)%nat then ((- q)%Z, ((f + 2) mod 4)%nat) else ((1 - q)%Z, ((f + 2) mod 4)%nat)).
  { intros q f Hq. unfold e_infinity_opposite. rewrite !(proj2 (Z.eqb_neq _ _)) by lia. reflexivity. }
  destruct e as [|[|[|[|e]]]]; try lia; cbn [Nat.modulo Nat.divmod Nat.eqb Nat.add Nat.sub fst snd]; (split; [reflexivity|]); rewrite X by auto; match goal with |- (if ?b then _ else _) = _ => let b' := eval vm_compute in b in change b with b' end; cbv iota; f_equal; lia || reflexivity.
Qed.
Lemma e_infinity_ok (x : K) : 1 < x -> 0 <= cubic x -> good_surface (fun _ => True) (e_infinity x) map_translation.
Proof.
  intros X C. set (w := fun l => (1 + 1) * get_black x l). set (h := fun l => get_white x l).
  assert (Wp : forall l, 0 < w l) by (intros l; apply fmul_pos; [apply f2_pos|now apply black_pos]). assert (Hp : forall l, 0 < h l) by (intros l; now apply white_pos).
  set (ev := fun l e => nth e (rect (w l) (h l)) vzero).
  assert (HP : forall l, True -> exists P, s_poly (e_infinity x) l = Ok P /\ length P = 4%nat /\ (forall e, (e < 4)%nat -> edge P e = ev l e) /\ simple_polygon P /\ 0 < area P).
  { intros l _. destruct (rect_ok (w l) (h l) (Wp l) (Hp l)) as (P & _ & E & Ed & Ln & Sm & Ar). exists P. do 2 (split; auto). split; auto. intros e He. now apply edges_nth. }
  assert (Hnz : forall l e, True -> (e < 4)%nat -> ev l e <> vzero) by (intros l e _ He; apply rect_nz; auto).
  assert (Hop : forall l e, True -> (e < 4)%nat -> s_opp (e_infinity x) l e = Ok (Some (e_infinity_opposite l e)) /\ True /\ (snd (e_infinity_opposite l e) < 4)%nat /\
    e_infinity_opposite (fst (e_infinity_opposite l e)) (snd (e_infinity_opposite l e)) = (l, e)).
  { intros l e _ He. destruct (e_infinity_inv l e He) as [A B]. do 2 (split; auto). split; auto. rewrite A. apply Nat.mod_upper_bound. lia. }
  destruct (quads_valid _ _ ev e_infinity_opposite HP Hnz Hop) as (V & Cl & Si & Aa). constructor; auto.
  apply (quads_translation _ _ ev e_infinity_opposite HP Hnz Hop). intros l e _ He. destruct (e_infinity_inv l e He) as [A _]. rewrite A. unfold ev. rewrite rect_edge by auto.
  assert (Wl : forall a b : K, vopp (vopp (a, b)) = (a, b)) by (intros a b; unfold vopp; cbn; f_equal; ring).
  assert (G : (e mod 2 = 0)%nat -> w (fst (e_infinity_opposite l e)) = w l).
  { intros Ev. unfold w, e_infinity_opposite. f_equal. destruct (Z.eqb_spec l 0) as [->|N0]; [destruct e as [|[|[|[|e]]]]; try lia; try discriminate; reflexivity|].
    destruct (Z.eqb_spec l 1) as [->|N1]; [destruct e as [|[|[|[|e]]]]; try lia; try discriminate; reflexivity|].
    destruct (Z.eqb_spec l (-1)) as [->|N2]; [destruct e as [|[|[|[|e]]]]; try lia; try discriminate; reflexivity|].
    destruct (Z.eqb_spec l 2) as [->|N3]; [destruct e as [|[|[|[|e]]]]; try lia; try discriminate; reflexivity|].
    rewrite Ev. cbn [Nat.eqb fst]. apply black_opp. lia. }
  assert (G' : (e mod 2 = 1)%nat -> h (fst (e_infinity_opposite l e)) = h l).
  { intros Ev. unfold h, e_infinity_opposite. destruct (Z.eqb_spec l 0) as [->|N0]; [destruct e as [|[|[|[|e]]]]; try lia; try discriminate; reflexivity|].
    destruct (Z.eqb_spec l 1) as [->|N1]; [destruct e as [|[|[|[|e]]]]; try lia; try discriminate; reflexivity|].
    destruct (Z.eqb_spec l (-1)) as [->|N2]; [destruct e as [|[|[|[|e]]]]; try lia; try discriminate; reflexivity|].
    destruct (Z.eqb_spec l 2) as [->|N3]; [destruct e as [|[|[|[|e]]]]; try lia; try discriminate; reflexivity|].
    rewrite Ev. cbn [Nat.eqb fst]. apply white_opp. lia. }
  destruct e as [|[|[|[|e]]]]; try lia; cbn [nth rect]; rewrite Wl; f_equal.
  - now rewrite G.
  - now rewrite G'.
  - now rewrite G.
  - now rewrite G'.
Qed.
(** ** the T-fractal *)
Lemma fpow_pos (r : K) n : 0 < r -> 0 < fpow r n.
Proof. intros R. induction n; cbn; [apply flt_0_1|now apply fmul_pos]. Qed.
Definition tdom (l : word * nat) := (snd l < 4)%nat.
Definition topp (l : word * nat) (e : nat) : (word * nat) * nat := match tfractal_opposite l e with Ok (Some x) => x | _ => (l, e) end.
Lemma tfractal_inv l e : tdom l -> (e < 4)%nat -> tfractal_opposite l e = Ok (Some (topp l e)) /\ tdom (fst (topp l e)) /\ snd (topp l e) = ((e + 2) mod 4)%nat /\
  topp (fst (topp l e)) (snd (topp l e)) = (l, e).
Proof.
  destruct l as [w i]. unfold tdom. cbn [fst snd]. intros Hi He. unfold topp.
  assert (W : w = nil \/ exists w' x, w = w' ++ [x]). { destruct (rev w) as [|x v] eqn:E; [left; rewrite <- (rev_involutive w), E; reflexivity|right; exists (rev v), x; rewrite <- (rev_involutive w), E; reflexivity]. }
  destruct W as [->|(w' & x & ->)].
  - destruct i as [|[|[|[|i]]]], e as [|[|[|[|e]]]]; try lia; cbn; repeat split; lia.
  - destruct i as [|[|[|[|i]]]], e as [|[|[|[|e]]]]; try lia; unfold tfractal_opposite; rewrite ?rev_app_distr; cbn [rev app bind fst snd];
    rewrite ?removelast_last; destruct x; cbn [fst snd bind]; rewrite ?rev_app_distr; cbn [rev app]; rewrite ?removelast_last, <- ?app_assoc; cbn; repeat split; try lia.
    all: rewrite ?app_assoc, ?removelast_last; reflexivity.
Qed.
Definition twidth (w r : K) (i : nat) := match i with 1%nat | 3%nat => w / r | _ => w end.
Definition theight (h1 h2 : K) (i : nat) := match i with 0%nat => h1 | _ => h2 end.
Lemma tfractal_ok (w r h1 h2 : K) : 0 < w -> 0 < r -> 0 < h1 -> 0 < h2 -> good_surface tdom (tfractal w r h1 h2) map_translation.
Proof.
  intros W R H1 H2. set (d := fun v : word => 1 / fpow r (length v)). set (c := fun l : word * nat => d (fst l)).
  assert (Cp : forall l, 0 < c l) by (intros l; apply fdiv_pos; [now apply fpow_pos|apply flt_0_1]).
  set (ev := fun l e => vscale (c l) (nth e (rect (twidth w r (snd l)) (theight h1 h2 (snd l))) vzero)).
  assert (Tw : forall i, 0 < twidth w r i) by (intros [|[|[|[|i]]]]; cbn; auto; apply fdiv_pos; auto).
  assert (Th : forall i, 0 < theight h1 h2 i) by (intros [|i]; cbn; auto).
  assert (HP : forall l, tdom l -> exists P, s_poly (tfractal w r h1 h2) l = Ok P /\ length P = 4%nat /\ (forall e, (e < 4)%nat -> edge P e = ev l e) /\ simple_polygon P /\ 0 < area P).
  { intros [v i] Hi. unfold tdom in Hi. cbn [fst snd] in Hi. destruct (rect_ok (twidth w r i) (theight h1 h2 i) (Tw i) (Th i)) as (P & E & _ & Ed & Ln & _).
    assert (Eb : tfractal_base w r h1 h2 i = Ok P). { unfold tfractal_base. rewrite (proj2 (feqb_false r 0)) by (now apply fpos_neq0). destruct i as [|[|[|[|i]]]]; try lia; cbn [bind]; exact E. }
    cbn [tfractal s_poly fst snd]. rewrite Eb. cbn [bind]. rewrite (proj2 (feqb_false (fpow r (length v)) 0)) by (apply fpos_neq0; now apply fpow_pos).
    set (k := 1 / fpow r (length v)). assert (Kp : 0 < k) by exact (Cp (v, i)).
    assert (Dt : mdet (Mat k 0 0 k) = k * k) by (unfold mdet; cbn; ring). assert (Dp : 0 < k * k) by (now apply fmul_pos).
    unfold poly_mul. rewrite Dt. rewrite (proj2 (feqb_false (k * k) 0)) by (now apply fpos_neq0). assert (Df : (k * k <? 0) = false) by (change (0 <= k * k); flra). rewrite Df.
    eexists. split; [reflexivity|]. split; [now rewrite map_length|].
    assert (Vm : forall e, vertex (map (mapply (Mat k 0 0 k)) P) e = vscale k (vertex P e)).
    { intros e. unfold vertex. rewrite map_length. rewrite (nth_indep _ vzero (mapply (Mat k 0 0 k) vzero)) by (rewrite map_length, Ln; apply Nat.mod_upper_bound; lia). rewrite map_nth. apply vec_eq; cbn; ring. }
    assert (Em : forall e, (e < 4)%nat -> edge (map (mapply (Mat k 0 0 k)) P) e = ev (v, i) e).
    { intros e He. unfold ev. cbn [snd]. rewrite <- (edges_nth P _ e Ed Ln He). unfold edge. rewrite !Vm. apply vec_eq; cbn; unfold c, d, k; cbn; ring. }
    split; auto. destruct P as [|a [|b [|d' [|f [|P]]]]]; try discriminate.
    assert (Ev : forall e, (e < 4)%nat -> vsub (vertex (map (mapply (Mat k 0 0 k)) [a; b; d'; f]) (S e)) (vertex (map (mapply (Mat k 0 0 k)) [a; b; d'; f]) e) = vscale k (nth e (rect (twidth w r i) (theight h1 h2 i)) vzero)) by (intros e He; exact (Em e He)).
    assert (WH : 0 < k * k * (twidth w r i * theight h1 h2 i)) by (apply fmul_pos; auto; now apply fmul_pos).
    set (W' := twidth w r i) in *. set (H' := theight h1 h2 i) in *. clearbody W' H'.
    assert (O : forall p q s : vec K, orient p q s = ccw (vsub q p) (vsub s q)) by (intros; unfold orient, ccw; cbn; ring).
    cbn [map]. apply quad_ok; rewrite O.
    - pose proof (Ev 0%nat ltac:(lia)) as E0. pose proof (Ev 1%nat ltac:(lia)) as E1. cbn [nth rect] in E0, E1. unfold vertex in E0, E1. cbn [length map Nat.modulo Nat.divmod nth Nat.sub snd] in E0, E1. rewrite E0, E1.
      replace (ccw (vscale k (W', 0)) (vscale k (0, H'))) with (k * k * (W' * H')) by (unfold ccw; cbn; ring). exact WH.
    - pose proof (Ev 1%nat ltac:(lia)) as E0. pose proof (Ev 2%nat ltac:(lia)) as E1. cbn [nth rect] in E0, E1. unfold vertex in E0, E1. cbn [length map Nat.modulo Nat.divmod nth Nat.sub snd] in E0, E1. rewrite E0, E1.
      replace (ccw (vscale k (0, H')) (vscale k (- W', 0))) with (k * k * (W' * H')) by (unfold ccw; cbn; ring). exact WH.
    - pose proof (Ev 2%nat ltac:(lia)) as E0. pose proof (Ev 3%nat ltac:(lia)) as E1. cbn [nth rect] in E0, E1. unfold vertex in E0, E1. cbn [length map Nat.modulo Nat.divmod nth Nat.sub snd] in E0, E1. rewrite E0, E1.
      replace (ccw (vscale k (- W', 0)) (vscale k (0, - H'))) with (k * k * (W' * H')) by (unfold ccw; cbn; ring). exact WH.
    - pose proof (Ev 3%nat ltac:(lia)) as E0. pose proof (Ev 0%nat ltac:(lia)) as E1. cbn [nth rect] in E0, E1. unfold vertex in E0, E1. cbn [length map Nat.modulo Nat.divmod nth Nat.sub snd] in E0, E1. rewrite E0, E1.
      replace (ccw (vscale k (0, - H')) (vscale k (W', 0))) with (k * k * (W' * H')) by (unfold ccw; cbn; ring). exact WH. }
  assert (Hnz : forall l e, tdom l -> (e < 4)%nat -> ev l e <> vzero).
  { intros l e _ He E. apply (rect_nz (twidth w r (snd l)) (theight h1 h2 (snd l)) e (Tw _) (Th _) He). unfold ev in E.
    destruct (nth e _ vzero) as [a b]. pose proof (f_equal fst E) as E1. pose proof (f_equal snd E) as E2. cbn in E1, E2. apply fmul_eq0 in E1. apply fmul_eq0 in E2.
    assert (N : c l <> 0) by (apply fpos_neq0; apply Cp). destruct E1 as [E1|E1]; [congruence|]. destruct E2 as [E2|E2]; [congruence|]. now subst. }
  assert (Hop : forall l e, tdom l -> (e < 4)%nat -> s_opp (tfractal w r h1 h2) l e = Ok (Some (topp l e)) /\ tdom (fst (topp l e)) /\ (snd (topp l e) < 4)%nat /\
    topp (fst (topp l e)) (snd (topp l e)) = (l, e)).
  { intros l e Dl He. destruct (tfractal_inv l e Dl He) as (A & B & C & E). do 2 (split; auto). split; auto. rewrite C. apply Nat.mod_upper_bound. lia. }
  destruct (quads_valid _ _ ev topp HP Hnz Hop) as (V & Cl & Si & Aa). constructor; auto.
  apply (quads_translation _ _ ev topp HP Hnz Hop). intros l e Dl He. destruct (tfractal_inv l e Dl He) as (_ & _ & A & _). rewrite A.
  assert (N : r <> 0) by (now apply fpos_neq0). assert (Np : forall n, fpow r n <> 0) by (intros n; apply fpos_neq0; now apply fpow_pos).
  assert (Cs : forall v x, d (v ++ [x]) = d v / r). { intros v x. unfold d. rewrite app_length. cbn [length]. replace (length v + 1)%nat with (Datatypes.S (length v)) by lia. cbn [fpow]. field. auto. }
  assert (C1 : d [LL] = d nil / r) by exact (Cs nil LL). assert (C2 : d [LR] = d nil / r) by exact (Cs nil LR).
  unfold ev. destruct l as [v i]. unfold tdom in Dl. cbn [fst snd] in Dl.
  assert (Wc : v = nil \/ exists v' x, v = v' ++ [x]). { destruct (rev v) as [|x u] eqn:E; [left; rewrite <- (rev_involutive v), E; reflexivity|right; exists (rev u), x; rewrite <- (rev_involutive v), E; reflexivity]. }
  unfold c. clear A HP Hnz Hop V Cl Si Aa Tw Th Cp. clearbody d.
  destruct Wc as [->|(v' & x & ->)].
  - destruct i as [|[|[|[|i]]]], e as [|[|[|[|e]]]]; try lia; cbn; rewrite ?C1, ?C2; unfold vscale, vopp; cbn; f_equal; field; auto.
  - unfold topp, tfractal_opposite; destruct i as [|[|[|[|i]]]], e as [|[|[|[|e]]]]; try lia; rewrite ?rev_app_distr; cbn [rev app bind fst snd]; rewrite ?removelast_last; destruct x;
    cbn [fst snd rect nth twidth theight Nat.add Nat.modulo Nat.divmod Nat.sub]; rewrite ?Cs; unfold vscale, vopp; cbn [fst snd]; f_equal; field; auto.
Qed.
End P.

(** ** the group of the mega Wollmilchsau *)
Section G.
Local Open Scope Z_scope.
Definition unit_quat (x : quat) := q0 x * q0 x + q1 x * q1 x + q2 x * q2 x + q3 x * q3 x = 1.
Lemma quat_eq x y : q0 x = q0 y -> q1 x = q1 y -> q2 x = q2 y -> q3 x = q3 y -> x = y.
Proof. destruct x, y. cbn. congruence. Qed.
Lemma mega_eq x y : g_i x = g_i y -> g_r x = g_r y -> g_q x = g_q y -> x = y.
Proof. destruct x, y. cbn. congruence. Qed.
Lemma wedge_mul q x y : unit_quat q -> wedge (qmul q x) (qmul q y) = wedge x y.
Proof.
  intros U. unfold unit_quat in U. destruct q as [a b c d], x as [x0 x1 x2 x3], y as [y0 y1 y2 y3]. unfold wedge, qmul. cbn in *.
  transitivity ((a * a + b * b + c * c + d * d) * (- x0 * y3 + x1 * y2 - x2 * y1 + x3 * y0)); [ring|rewrite U; ring].
Qed.
Lemma qmul_assoc x y z : qmul x (qmul y z) = qmul (qmul x y) z.
Proof. apply quat_eq; cbn; ring. Qed.
Lemma qmul_unit x y : unit_quat x -> unit_quat y -> unit_quat (qmul x y).
Proof.
  intros X Y. unfold unit_quat in *. destruct x as [a b c d], y as [x0 x1 x2 x3]. cbn in *.
  transitivity ((a * a + b * b + c * c + d * d) * (x0 * x0 + x1 * x1 + x2 * x2 + x3 * x3)); [ring|rewrite X, Y; ring].
Qed.
Lemma mega_assoc x y z : unit_quat (g_q x) -> mega_mul x (mega_mul y z) = mega_mul (mega_mul x y) z.
Proof.
  intros U. apply mega_eq; cbn.
  - assert (E : wedge (qmul (g_q x) (g_r y)) (qmul (g_q x) (qmul (g_q y) (g_r z))) = wedge (g_r y) (qmul (g_q y) (g_r z))) by (now apply wedge_mul).
    rewrite <- E. rewrite (qmul_assoc (g_q x) (g_q y)). clear. unfold wedge, qadd. destruct x as [i r q], y as [j s t], z as [k u v]. cbn -[qmul].
    assert (D : qmul q (qadd s (qmul t u)) = qadd (qmul q s) (qmul (qmul q t) u)) by (apply quat_eq; cbn; ring). unfold qadd in D at 1. rewrite D. unfold qadd. cbn -[qmul]. ring.
  - apply quat_eq; cbn; ring.
  - apply qmul_assoc.
Qed.
Lemma mega_one_l x : mega_mul mega_one x = x.
Proof. destruct x as [i [a b c d] [a' b' c' d']]. unfold mega_mul, mega_one, wedge, qadd, qmul. cbn [g_i g_r g_q q0 q1 q2 q3]. f_equal; [ring| |]; f_equal; ring. Qed.
Lemma mega_one_r x : mega_mul x mega_one = x.
Proof. destruct x as [i [a b c d] [a' b' c' d']]. unfold mega_mul, mega_one, wedge, qadd, qmul. cbn [g_i g_r g_q q0 q1 q2 q3]. f_equal; [ring| |]; f_equal; ring. Qed.
Lemma mega_inv_l x : unit_quat (g_q x) -> mega_mul (mega_inv x) x = mega_one.
Proof.
  intros U. apply mega_eq.
  - cbn. ring.
  - apply quat_eq; cbn; ring.
  - unfold unit_quat in U. apply quat_eq; cbn; lia.
Qed.
Lemma mega_inv_unit x : unit_quat (g_q x) -> unit_quat (g_q (mega_inv x)).
Proof. unfold unit_quat. cbn. lia. Qed.
Lemma mega_inv_r x : unit_quat (g_q x) -> mega_mul x (mega_inv x) = mega_one.
Proof.
  intros U. apply mega_eq.
  - destruct x as [i r q]. unfold unit_quat in U. destruct r, q. cbn in *. unfold wedge. cbn.
    match goal with |- ?a = 0 => ring_simplify a end. nia.
  - destruct x as [i r q]. unfold unit_quat in U. destruct r as [r0 r1 r2 r3], q as [a b c d]. cbn in *. apply quat_eq; cbn.
    + transitivity (r0 * (1 - (a * a + b * b + c * c + d * d))); [ring|rewrite U; ring].
    + transitivity (r1 * (1 - (a * a + b * b + c * c + d * d))); [ring|rewrite U; ring].
    + transitivity (r2 * (1 - (a * a + b * b + c * c + d * d))); [ring|rewrite U; ring].
    + transitivity (r3 * (1 - (a * a + b * b + c * c + d * d))); [ring|rewrite U; ring].
  - unfold unit_quat in U. apply quat_eq; cbn; lia.
Qed.
End G.
