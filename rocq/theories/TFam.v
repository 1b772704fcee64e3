(** Theorems C32: infinite families of surfaces. *)
From Coq Require Import List Bool ZArith Arith QArith Lia.
From Verif Require Import OField FMicromega PField MBase MEuclid TEuclid MSim SSim MPoly MSurf SSurf MPoint SPoint MFam PFam PFam2 PFam3 PCmp TIET.
Import ListNotations.
Local Open Scope nat_scope.
Definition is_ok {A} (r : res A) : bool := match r with Ok _ => true | Err _ => false end.

(** An origami (on a finite or infinite domain) is a translation surface without boundary, made of simple polygons, exactly
    when [r], [rr] and [u], [uu] are inverse permutations of the domain. *)
Theorem C32_origami (K : OField) L (dom : L -> bool) (r u rr uu : L -> L) :
  (forall l, dom l = true -> (dom (r l) = true /\ rr (r l) = l) /\ (dom (rr l) = true /\ r (rr l) = l) /\ (dom (u l) = true /\ uu (u l) = l) /\ (dom (uu l) = true /\ u (uu l) = l)) <->
  valid (fun l => dom l = true) (@origami K L dom r u rr uu) /\ closed (fun l => dom l = true) (@origami K L dom r u rr uu) /\
  simple_polygons (fun l => dom l = true) (@origami K L dom r u rr uu) /\ all_gluings (fun l => dom l = true) (@origami K L dom r u rr uu) map_translation.
Proof.
  split.
  - intros H. destruct (@origami_ok K L dom r u rr uu) as [A B C D E]; [intros l Dl; apply (H l Dl)..|]. auto.
  - intros (V & _) l Dl. destruct (origami_needs dom r u rr uu V) as (A & B & C & D). auto.
Qed.
Print Assumptions C32_origami.
Example C32_origami_ex : let r l := (l + 1) mod 3 in let u l := match l with 0 => 1 | 1 => 0 | _ => l end in
  (fun S => s_opp S 0 1 = Ok (Some (1, 3)) /\ s_opp S 1 3 = Ok (Some (0, 1)) /\ s_opp S 0 2 = Ok (Some (1, 0)) /\ s_opp S 5 0 = Err ValueError)
  (@origami cqF nat (fun l => l <? 3) r u (fun l => (l + 2) mod 3) u).
Proof. vm_compute. repeat split. Qed.
Theorem C32_staircase (K : OField) : let S := @infinite_staircase K in
  valid (fun _ => True) S /\ closed (fun _ => True) S /\ simple_polygons (fun _ => True) S /\ all_gluings (fun _ => True) S map_translation.
Proof. destruct (@staircase_ok K) as [A B C D E]. cbn zeta. auto. Qed.
Print Assumptions C32_staircase.
Example C32_staircase_ex : (s_opp (@infinite_staircase cqF) (-3)%Z 1 = Ok (Some ((-2)%Z, 3)) /\ s_opp (@infinite_staircase cqF) (-2)%Z 3 = Ok (Some ((-3)%Z, 1)) /\
  s_opp (@infinite_staircase cqF) (-3)%Z 2 = Ok (Some ((-4)%Z, 0))).
Proof. vm_compute. repeat split. Qed.
(** The Chamanara surface, for all parameters between 0 and 1. *)
Theorem C32_chamanara (K : OField) (alpha : K) : (0 < alpha)%F -> (alpha < 1)%F -> exists S, chamanara alpha = Ok S /\
  valid (fun _ => True) S /\ closed (fun _ => True) S /\ simple_polygons (fun _ => True) S /\ all_gluings (fun _ => True) S map_dilation.
Proof. intros A0 A1. destruct (chamanara_ok alpha A0 A1) as (S & E & [A B C D F]). exists S. auto. Qed.
Print Assumptions C32_chamanara.
Example C32_chamanara_ex : is_ok (chamanara (qn (1 # 2))) = true /\ chamanara_opposite 5 1 = (4%Z, 3) /\ chamanara_opposite 0 1 = (1%Z, 1) /\ chamanara_opposite 4 3 = (5%Z, 1).
Proof. vm_compute. repeat split. Qed.
(** The surface of the E-infinity graph for all parameters [lambda_squared] that are at least the largest root of the
    polynomial [x^3 - 5 x^2 + 4 x - 1] of the default parameter. *)
Theorem C32_e_infinity (K : OField) (x : K) : (1 < x)%F -> (0 <= x * x * x - (1 + 1 + 1 + 1 + 1) * (x * x) + (1 + 1 + 1 + 1) * x - 1)%F ->
  valid (fun _ => True) (e_infinity x) /\ closed (fun _ => True) (e_infinity x) /\ simple_polygons (fun _ => True) (e_infinity x) /\ all_gluings (fun _ => True) (e_infinity x) map_translation.
Proof. intros X C. destruct (e_infinity_ok x X C) as [A B D E F]. auto. Qed.
Print Assumptions C32_e_infinity.
Example C32_e_infinity_ex : fltb (qn 1) (qn 5) = true /\ fleb (qn 0) (fadd (fadd (fadd (fmul (fmul (qn 5) (qn 5)) (qn 5)) (qn (-125))) (qn 20)) (qn (-1))) = true /\
  is_ok (s_poly (e_infinity (qn 5)) (-7)%Z) = true /\ s_opp (e_infinity (qn 5)) (-7)%Z 2 = Ok (Some (8%Z, 0)).
Proof. vm_compute. repeat split. Qed.
(** other parameters give no surface: for the parameter 4 there is no polygon with the label 5, though the labels are all integers *)
Theorem C32_e_infinity_refuted : exists x : cqF, (1 < x)%F /\ is_ok (s_poly (e_infinity x) 4%Z) = true /\ s_poly (e_infinity x) 5%Z = Err ValueError.
Proof. exists (qn 4). split; [vm_compute; reflexivity|]. split; vm_compute; reflexivity. Qed.
Print Assumptions C32_e_infinity_refuted.
(** The T-fractal, for all positive parameters; the labels are a word and a number 0, 1, 2, 3. *)
Theorem C32_tfractal (K : OField) (w r h1 h2 : K) : (0 < w)%F -> (0 < r)%F -> (0 < h1)%F -> (0 < h2)%F ->
  let D (l : word * nat) := snd l < 4 in
  valid D (tfractal w r h1 h2) /\ closed D (tfractal w r h1 h2) /\ simple_polygons D (tfractal w r h1 h2) /\ all_gluings D (tfractal w r h1 h2) map_translation.
Proof. intros W R H1 H2. destruct (tfractal_ok w r h1 h2 W R H1 H2) as [A B D E F]. cbn zeta. auto. Qed.
Print Assumptions C32_tfractal.
Example C32_tfractal_ex : s_opp (tfractal (qn 1) (qn 2) (qn 1) (qn 1)) ([LL; LL; LR; LL; LR; LL], 0) 0 = Ok (Some (([LL; LL; LR; LL; LR], 1), 2)) /\
  s_opp (tfractal (qn 1) (qn 2) (qn 1) (qn 1)) ([LR], 3) 2 = Ok (Some (([LR; LR], 0), 0)) /\ is_ok (s_poly (tfractal (qn 1) (qn 2) (qn 1) (qn 1)) ([LR; LL], 3)) = true.
Proof. vm_compute. repeat split. Qed.
(** The group of the mega Wollmilchsau is a group: [x] has a quaternion of norm 1 as its last component. *)
Theorem C32_mega_group : let G x := unit_quat (g_q x) in
  G mega_one /\ G mega_a /\ G mega_b /\ (forall x y, G x -> G y -> G (mega_mul x y)) /\ (forall x, G x -> G (mega_inv x)) /\
  (forall x y z, G x -> mega_mul x (mega_mul y z) = mega_mul (mega_mul x y) z) /\
  (forall x, mega_mul mega_one x = x /\ mega_mul x mega_one = x) /\
  (forall x, G x -> mega_mul (mega_inv x) x = mega_one /\ mega_mul x (mega_inv x) = mega_one).
Proof.
  cbn zeta. do 3 (split; [reflexivity|]). split; [intros x y X Y; now apply qmul_unit|]. split; [apply mega_inv_unit|]. split; [intros x y z; apply mega_assoc|].
  split; [intros x; split; [apply mega_one_l|apply mega_one_r]|]. intros x X. split; [now apply mega_inv_l|now apply mega_inv_r].
Qed.
Print Assumptions C32_mega_group.
(** the relations that the code tests *)
Example C32_mega_ex : let pow x n := Nat.iter n (mega_mul x) mega_one in let a := mega_a in let b := mega_b in
  pow a 4 = mega_one /\ pow b 4 = mega_one /\ pow (mega_mul a b) 4 = mega_one /\ pow (mega_mul a (mega_inv b)) 4 = mega_one /\ pow (mega_mul a (mega_mul a b)) 4 = mega_one /\
  pow (mega_mul (mega_mul (mega_mul a b) (mega_inv a)) (mega_inv b)) 2 <> mega_one.
Proof. vm_compute. repeat split. discriminate. Qed.
(** Gluing is an involution without fixed edges, by opposite sides of squares. Missing: the polygons, see [C32_mega_refuted]. *)
Theorem C32_mega_partial (K : OField) l e : e < 4 -> exists l', s_opp (@mega_wollmilchsau K) l e = Ok (Some (l', (e + 2) mod 4)) /\
  s_opp (@mega_wollmilchsau K) l' ((e + 2) mod 4) = Ok (Some (l, e)).
Proof.
  intros He. assert (I : forall x, unit_quat (g_q x) -> mega_mul (mega_inv x) (mega_mul x l) = l /\ mega_mul x (mega_mul (mega_inv x) l) = l).
  { intros x X. rewrite !mega_assoc by (auto using mega_inv_unit). rewrite mega_inv_l, mega_inv_r by auto. rewrite mega_one_l. auto. }
  destruct (I mega_a eq_refl) as [A1 A2]. destruct (I mega_b eq_refl) as [B1 B2].
  destruct e as [|[|[|[|e]]]]; try lia; eexists; (split; [reflexivity|]); cbn [mega_wollmilchsau s_opp abstract_origami negb Nat.add]; cbn [Nat.modulo Nat.divmod Nat.sub snd]; do 2 f_equal; f_equal; assumption.
Qed.
Print Assumptions C32_mega_partial.
(** there are no polygons: the method raises an exception for every label *)
Theorem C32_mega_refuted (K : OField) : ~ exists l P, s_poly (@mega_wollmilchsau K) l = Ok P.
Proof. intros (l & P & E). discriminate E. Qed.
Print Assumptions C32_mega_refuted.
(** with the constructor of the base class the surface would be a translation surface *)
Theorem C32_mega_with_polygons (K : OField) P : @square K = Ok P ->
  let S := abstract_origami (Some P) (fun _ => true) (mega_mul mega_b) (mega_mul (mega_inv mega_b)) (mega_mul mega_a) (mega_mul (mega_inv mega_a)) in
  valid (fun _ => True) S /\ closed (fun _ => True) S /\ all_gluings (fun _ => True) S map_translation.
Proof.
  intros E. cbn zeta. set (S := abstract_origami _ _ _ _ _ _). destruct (@square_ok K) as (P' & E' & Ln & Ed & Sm & Ar). rewrite E in E'. injection E' as <-.
  set (g := fun l e => match s_opp S l e with Ok (Some x) => x | _ => (l, e) end). set (ev := fun (_ : mega) e => nth e (rect (f1 : K) f1) vzero).
  assert (HP : forall l, True -> exists P, s_poly S l = Ok P /\ length P = 4 /\ (forall e, e < 4 -> edge P e = ev l e) /\ simple_polygon P /\ (0 < area P)%F) by (intros l _; exists P; auto).
  assert (Hnz : forall l e, True -> e < 4 -> ev l e <> vzero) by (intros l e _ He; apply rect_nz; auto; apply flt_0_1).
  assert (Hop : forall l e, True -> e < 4 -> s_opp S l e = Ok (Some (g l e)) /\ True /\ snd (g l e) < 4 /\ g (fst (g l e)) (snd (g l e)) = (l, e)).
  { intros l e _ He. destruct (C32_mega_partial K l e He) as (l' & A & B). change (s_opp (@mega_wollmilchsau K)) with (s_opp S) in A, B.
    assert (G : g l e = (l', (e + 2) mod 4)) by (unfold g; rewrite A; reflexivity). rewrite G. cbn [fst snd]. do 2 (split; auto). split; [apply Nat.mod_upper_bound; lia|].
    unfold g. rewrite B. reflexivity. }
  destruct (quads_valid _ _ ev g HP Hnz Hop) as (V & C & Si & A). do 2 (split; auto). apply (quads_translation _ _ ev g HP Hnz Hop). intros l e _ He.
  destruct (C32_mega_partial K l e He) as (l' & A' & _). change (s_opp (@mega_wollmilchsau K)) with (s_opp S) in A'.
  assert (G : g l e = (l', (e + 2) mod 4)) by (unfold g; rewrite A'; reflexivity). rewrite G. cbn [fst snd]. unfold ev. rewrite rect_edge by auto. symmetry. apply PCmp.vopp_vopp.
Qed.
Print Assumptions C32_mega_with_polygons.
