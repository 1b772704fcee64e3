(** The prototypes of genus two, three and four. *)
From Coq Require Import List Bool ZArith Arith Lia Ring Field QArith.
From Verif Require Import OField FMicromega PField MBase MDict PDict MEuclid SEuclid PEuclid MSim SSim PSim MPoly PPoly MMut SMut PBuild PFlip4
  MSurf SSurf SPoint PPoint PTurn MComb PFam2 PFam3 TPoly2 MGen SGen PGen PGen2 PGen3 PGen4 PGen5.
Import ListNotations.

Lemma prototype_gcd w h t e : prototype w h t e <-> (0 < w /\ 0 < h /\ 0 <= t /\ t < Z.gcd w h /\ Z.gcd (Z.gcd (Z.gcd w h) t) e = 1)%Z.
Proof.
  unfold prototype. split.
  - intros [(A & B & C) D]. repeat split; try tauto; try lia. set (k := Z.gcd (Z.gcd (Z.gcd w h) t) e).
    assert (G1 : (k | Z.gcd (Z.gcd w h) t)%Z) by apply Z.gcd_divide_l. assert (G2 : (k | e)%Z) by apply Z.gcd_divide_r.
    assert (G3 : (k | Z.gcd w h)%Z) by (etransitivity; [exact G1|apply Z.gcd_divide_l]). assert (G4 : (k | t)%Z) by (etransitivity; [exact G1|apply Z.gcd_divide_r]).
    assert (G5 : (k | w)%Z) by (etransitivity; [exact G3|apply Z.gcd_divide_l]). assert (G6 : (k | h)%Z) by (etransitivity; [exact G3|apply Z.gcd_divide_r]).
    apply D; auto. assert (0 <= k)%Z by apply Z.gcd_nonneg. assert (k <> 0)%Z; [|lia]. intros Z. rewrite Z in G5. destruct G5 as [q G5]. lia.
  - intros (A & B & C & D & E). split; [lia|]. intros k K0 K1 K2 K3 K4.
    assert (X : (k | 1)%Z) by (rewrite <- E; repeat apply Z.gcd_greatest; auto). apply Z.divide_1_r_nonneg in X; lia.
Qed.
Section P.
Context {K : OField}.
Add Field KF : (of_ft K).
Local Open Scope F_scope.
Notation nv := (@length (vec K) : polygon K -> nat).
Notation "% n" := (Z2K K n) (at level 2, n at level 2).
Ltac red_l := lazy [opposite antiparallel edge_at hg edge edges vertex length Nat.modulo Nat.divmod Nat.sub Nat.add nth fst snd vsub vadd vopp vscale map seq Z.to_nat Pos.to_nat Pos.iter_op].
Ltac kfield := first [ring|field; apply f2_neq0|field; repeat split; apply f2_neq0].
Ltac glue_tac gl := unfold gl; repeat (apply Forall_cons; [red_l; apply vec_eq; lazy [fst snd]; kfield|]); apply Forall_nil.
Ltac area_tac := lazy [fold_right area fold_left edge vsub vertex length Nat.modulo Nat.divmod Nat.sub Nat.add nth fst snd seq vadd]; kfield.
Ltac all_fine := repeat (apply Forall_cons; [|]); try apply Forall_nil.

Lemma Z2K_lt a b : (a < b)%Z -> Z2K K a < Z2K K b.
Proof. intros H. assert (0 < Z2K K (b - a)). { destruct (b - a)%Z eqn:E; try lia. apply Z2K_pos. } rewrite Z2K_sub in H0. flra. Qed.
Lemma Z2K_0 : Z2K K 0 = 0.
Proof. reflexivity. Qed.
Lemma Z2K_pos' a : (0 < a)%Z -> 0 < Z2K K a.
Proof. intros H. rewrite <- Z2K_0. now apply Z2K_lt. Qed.
Lemma root_lt (lam w h e : K) : 0 < w -> 0 < h -> 0 < lam -> e + h < w -> lam * lam = e * lam + w * h -> lam < w.
Proof.
  intros W H L E Q. destruct (flt_total (w - lam)) as [X|[X|X]]; [| |flra]; exfalso.
  - assert (0 < (lam - w) * (lam + w - e)) by (apply fmul_pos; flra). assert (0 < w * (w - e - h)) by (apply fmul_pos; flra). flra.
  - assert (lam = w) by flra. subst lam. assert (0 < w * (w - e - h)) by (apply fmul_pos; flra). flra.
Qed.

(** ** genus two *)
Lemma genus2_checks w h t e : ((w <=? 0) || (h <=? 0) || (t <? 0) || (Z.gcd w h <=? t) || negb (Z.gcd (Z.gcd (Z.gcd w h) t) e =? 1) || (w <=? e + h))%Z = false <->
  prototype w h t e /\ (e + h < w)%Z.
Proof.
  rewrite prototype_gcd, !orb_false_iff, negb_false_iff, Z.eqb_eq, !Z.leb_gt, Z.ltb_ge. tauto.
Qed.
Lemma genus2_norel (lam w h t : K) : 0 < lam -> lam < w -> 0 < h ->
  exists c, assemble [Polygon_vertices [(0, 0); (lam, 0); (lam, lam); (0, lam)]; Polygon_vertices [(0, 0); (lam, 0); (w, 0); (w + t, h); (lam + t, h); (t, h)]] genus2_gluings empty = (c, Ok tt) /\
    finite_surface map_translation 2 1 2 (lam * lam + w * h) c.
Proof.
  intros L W H. pose proof (fine_rect lam lam L L) as F0. pose proof (fine_cut6 lam w t h L W H) as F1. rewrite (fine_vertices _ F0), (fine_vertices _ F1).
  match type of F0 with fine ?P => set (P0 := P) in * end. match type of F1 with fine ?P => set (P1 := P) in * end.
  apply (run_translation _ _ _ _ 2%nat shape_genus2 eq_refl eq_refl ltac:(cbn; lia) [P0; P1]);
    [reflexivity|all_fine; assumption|unfold P0, P1; glue_tac @genus2_gluings|unfold P0, P1; area_tac].
Qed.
Lemma genus2_rel (lam w h t rel : K) : 0 < lam -> 0 < rel -> rel + lam < w -> 0 < h ->
  exists c, assemble [Polygon_vertices [(0, 0); (lam, 0); (lam + rel, lam); (rel, lam)];
      Polygon_vertices [(0, 0); (rel, 0); (rel + lam, 0); (w, 0); (w + t, h); (lam + rel + t, h); (t + lam, h); (t, h)]] genus2_gluings_rel empty = (c, Ok tt) /\
    finite_surface map_translation 2 2 2 (lam * lam + w * h) c.
Proof.
  intros L R W H. pose proof (fmul_pos _ _ L L) as LL. assert (F0 : fine [(0, 0); (lam, 0); (lam + rel, lam); (rel, lam)]).
  { pose proof (fine_para (lam, 0) (rel, lam)) as F. unfold vadd, ccw in F. cbn [fst snd] in F. replace (0 + lam) with lam in F by ring. apply F. flra. }
  pose proof (fine_cut8 rel lam w t h R L W H) as F1. rewrite (fine_vertices _ F0), (fine_vertices _ F1).
  match type of F0 with fine ?P => set (P0 := P) in * end. match type of F1 with fine ?P => set (P1 := P) in * end.
  apply (run_translation _ _ _ _ 2%nat shape_genus2_rel eq_refl eq_refl ltac:(cbn; lia) [P0; P1]);
    [reflexivity|all_fine; assumption|unfold P0, P1; glue_tac @genus2_gluings_rel|unfold P0, P1; area_tac].
Qed.
Definition root2 (lam : K) (w h e : Z) := 0 < lam /\ lam * lam = %e * lam + %w * %h.
Lemma genus2_ok given lam w h t e rel : (given = true -> is_square (e * e + 4 * w * h) = true) -> root2 lam w h e -> prototype w h t e -> (e + h < w)%Z -> rel = 0 \/ (0 < rel /\ rel < %w - lam) ->
  exists c, genus2_prototype given lam w h t e rel empty = (c, Ok tt) /\ finite_surface map_translation 2 (if feqb rel 0 then 1%nat else 2%nat) 2 (lam * lam + %w * %h) c.
Proof.
  intros GV [L Q] PT EH RL. unfold genus2_prototype. cbv zeta. rewrite (proj2 (genus2_checks w h t e)) by auto.
  destruct PT as [(W & H & T) _]. pose proof (Z2K_pos' w W) as KW. pose proof (Z2K_pos' h H) as KH. pose proof (Z2K_lt _ _ EH) as KE. rewrite Z2K_add in KE.
  assert (LW : lam < %w) by (apply (root_lt lam (%w) (%h) (%e)); auto).
  rewrite (mbind_ok _ _ empty empty tt) by reflexivity.
  rewrite (mbind_ok _ _ empty empty tt).
  2:{ destruct (is_square (e * e + 4 * w * h)); cbn [negb]; [reflexivity|]. destruct given; [discriminate (GV eq_refl)|reflexivity]. }
  destruct RL as [->|[R0 R1]].
  - rewrite (proj2 (feqb_eq K 0 0) eq_refl). cbn [negb]. now apply genus2_norel.
  - rewrite (proj2 (feqb_false rel 0)) by (now apply fpos_neq0). cbn [negb].
    rewrite (mbind_ok _ _ empty empty tt).
    + apply genus2_rel; auto. flra.
    + assert (X : (rel <? 0) || (%w - lam <? rel) = false) by (apply orb_false_iff; split; flra). now rewrite X.
Qed.
Lemma genus2_inv given lam w h t e rel c : root2 lam w h e -> genus2_prototype given lam w h t e rel empty = (c, Ok tt) ->
  (given = true -> is_square (e * e + 4 * w * h) = true) /\ prototype w h t e /\ (e + h < w)%Z /\ (rel = 0 \/ (0 < rel /\ rel < %w - lam)).
Proof.
  intros [L Q] E. unfold genus2_prototype in E. cbv zeta in E. apply mbind_inv in E. destruct E as (s1 & u1 & E1 & E).
  destruct ((w <=? 0)%Z || (h <=? 0)%Z || (t <? 0)%Z || (Z.gcd w h <=? t)%Z || negb (Z.gcd (Z.gcd (Z.gcd w h) t) e =? 1)%Z || (w <=? e + h)%Z) eqn:B; [discriminate|].
  apply genus2_checks in B. destruct B as [PT EH]. split; [|split; [auto|split; [auto|]]].
  - intros ->. apply mbind_inv in E. destruct E as (s2 & u2 & E2 & _). destruct (is_square (e * e + 4 * w * h)); auto. cbn [negb] in E2.
    destruct (%e - lam <? 0) eqn:X; [|discriminate]. destruct (0 <? %e - lam) eqn:Y; [|discriminate]. exfalso. flra.
  - apply mbind_inv in E. destruct E as (s2 & u2 & _ & E). destruct (feqb rel 0) eqn:X; [left; now apply feqb_eq|]. right. cbn [negb] in E.
    apply mbind_inv in E. destruct E as (s3 & u3 & E3 & E). destruct ((rel <? 0) || (%w - lam <? rel)) eqn:B; [discriminate|]. apply orb_false_iff in B. destruct B as [B1 B2].
    apply feqb_false in X. assert (0 < rel) by (destruct (flt_total rel) as [Z|[Z|Z]]; auto; [exfalso; flra|contradiction]). split; auto.
    apply assemble_inv in E. rewrite Forall_forall in E. destruct (E _ (or_intror (or_introl eq_refl))) as [P EP]. apply C51_vertices in EP. destruct EP as (_ & _ & N & _).
    specialize (N 2%nat). destruct (flt_total (%w - lam - rel)) as [Z|[Z|Z]]; [exfalso; flra| |flra]. exfalso. apply N.
    red_l. apply vec_eq; cbn [fst snd vzero]; [|ring]. flra.
Qed.

(** ** genus three *)
Definition disc (d : K) (D : Z) := 0 < d /\ d * d = %D.
Lemma root_of_disc (d e m : K) : 0 < d -> d * d = e * e + (2 + 2) * m -> 0 < m -> 0 < (e + d) / 2 /\ ((e + d) / 2) * ((e + d) / 2) = e * ((e + d) / 2) + m.
Proof.
  intros D Q M. split.
  - apply fdiv_pos; [apply f2_pos|]. destruct (flt_total (e + d)) as [X|[X|X]]; auto; exfalso.
    + assert (0 < (- (e + d)) * (d - e)) by (apply fmul_pos; flra). flra.
    + assert (e = - d) by flra. subst e. flra.
  - set (x := (e + d) / 2). assert (X : x + x = e + d) by (unfold x; field; apply f2_neq0). clearbody x.
    assert (E : d = x + x - e) by flra. subst d. assert ((2 + 2) * (x * x - e * x - m) = 0) by flra.
    apply fmul_eq0 in H. destruct H as [H|H]; [pose proof (@f2_pos K); exfalso|]; flra.
Qed.
Lemma genus3_polys (lam w h t : K) : 0 < lam -> lam < w -> 0 < h ->
  exists c, assemble [Polygon_vertices [(0, 0); (lam, 0); (w, 0); (w + t, h); (lam + t, h); (t, h)];
    Polygon_vertices [(0, 0); (lam, 0); (lam, lam); (0, lam)];
    Polygon_vertices [(0, 0); (w - lam, 0); (w, 0); (w + t, h); (w - lam + t, h); (t, h)]] genus3_gluings empty = (c, Ok tt) /\
    finite_surface map_translation 3 1 3 (lam * lam + 2 * (w * h)) c.
Proof.
  intros L W H. pose proof (fine_cut6 lam w t h L W H) as F0. pose proof (fine_rect lam lam L L) as F1. pose proof (fine_cut6 (w - lam) w t h ltac:(flra) ltac:(flra) H) as F2.
  rewrite (fine_vertices _ F0), (fine_vertices _ F1), (fine_vertices _ F2).
  match type of F0 with fine ?P => set (P0 := P) in * end. match type of F1 with fine ?P => set (P1 := P) in * end. match type of F2 with fine ?P => set (P2 := P) in * end.
  apply (run_translation _ _ _ _ 3%nat shape_genus3 eq_refl eq_refl ltac:(cbn; lia) [P0; P1; P2]);
    [reflexivity|all_fine; assumption|unfold P0, P1, P2; glue_tac @genus3_gluings|unfold P0, P1, P2; area_tac].
Qed.
Ltac ifs E := let s := fresh "s" in let u := fresh "u" in let X := fresh "X" in apply mbind_inv in E; destruct E as (s & u & X & E);
  match type of X with (if ?b then _ else _) _ = _ => let B := fresh "B" in destruct b eqn:B; [|discriminate X] end; injection X as <- <-.
Lemma genus3_ok d w h t e : disc d (e * e + 8 * w * h) -> prototype w h t e -> (e + 2 * h < w)%Z ->
  exists c, genus3_prototype d w h t e empty = (c, Ok tt) /\ finite_surface map_translation 3 1 3 (((%e + d) / 2) * ((%e + d) / 2) + 2 * (%w * %h)) c.
Proof.
  intros [D Q] PT EH. unfold genus3_prototype. pose proof (proj1 (prototype_gcd w h t e) PT) as (A & B & C & G & G1).
  rewrite (proj2 (Z.ltb_lt _ _) A), (proj2 (Z.ltb_lt _ _) B), (proj2 (Z.ltb_lt _ _) EH), (proj2 (Z.leb_le _ _) C), (proj2 (Z.ltb_lt _ _) G), (proj2 (Z.eqb_eq _ _) G1).
  repeat rewrite (mbind_ok _ _ empty empty tt) by reflexivity. cbv zeta.
  pose proof (Z2K_pos' w A) as KW. pose proof (Z2K_pos' h B) as KH. pose proof (Z2K_lt _ _ EH) as KE. rewrite Z2K_add, Z2K_mul in KE. change (%2) with (2 : K) in KE.
  rewrite Z2K_add, !Z2K_mul in Q. assert (E8 : %8 = (2 + 2) * 2 :> K) by (cbn; ring). rewrite E8 in Q. pose proof (fmul_pos _ _ KW KH) as KWH.
  destruct (root_of_disc d (%e) (2 * (%w * %h))) as [L R]; auto; [rewrite Q; ring|flra|].
  apply genus3_polys; auto. apply (root_lt _ (%w) (2 * %h) (%e)); auto; [flra|]. rewrite R. ring.
Qed.
Lemma genus3_inv (d : K) w h t e c : genus3_prototype d w h t e empty = (c, Ok tt) -> prototype w h t e /\ (e + 2 * h < w)%Z.
Proof.
  intros E. unfold genus3_prototype in E. do 6 ifs E. rewrite prototype_gcd.
  repeat match goal with H : (_ <? _)%Z = true |- _ => apply Z.ltb_lt in H | H : (_ <=? _)%Z = true |- _ => apply Z.leb_le in H | H : (_ =? _)%Z = true |- _ => apply Z.eqb_eq in H end. tauto.
Qed.

(** ** genus four *)
Lemma genus4_polys (lam w h t : K) : 0 < lam -> lam < w / 2 -> 0 < h ->
  exists c, assemble [Polygon_vertices [(0, 0); (lam / 2, 0); (lam / 2, lam / 2); (0, lam / 2)];
    Polygon_vertices [(0, 0); (w / 2 - lam, 0); (w / 2 - lam / 2, 0); (w / 2, 0); (w / 2 + t / 2, h / 2); (w / 2 - lam + t / 2, h / 2); (t / 2, h / 2)];
    Polygon_vertices [(0, 0); (lam, 0); (w / 2, 0); (w / 2 + t / 2, h / 2); (lam + t / 2, h / 2); (lam / 2 + t / 2, h / 2); (t / 2, h / 2)];
    Polygon_vertices [(0, 0); (lam / 2, 0); (lam / 2, lam / 2); (0, lam / 2)]] genus4_gluings empty = (c, Ok tt) /\
    finite_surface map_translation 4 1 4 ((lam * lam + w * h) / 2) c.
Proof.
  intros L W H. assert (T := @f2_pos K). assert (L2 : 0 < lam / 2) by (now apply fdiv_pos). assert (H2 : 0 < h / 2) by (now apply fdiv_pos).
  assert (LL : lam / 2 + lam / 2 = lam) by (field; apply f2_neq0).
  pose proof (fine_rect (lam / 2) (lam / 2) L2 L2) as F0. pose proof (fine_cut7a (w / 2 - lam) (w / 2 - lam / 2) (w / 2) (t / 2) (h / 2) ltac:(flra) ltac:(flra) ltac:(flra) H2) as F1.
  pose proof (fine_cut7b (lam / 2) lam (w / 2) (t / 2) (h / 2) L2 ltac:(flra) W H2) as F2.
  rewrite !(fine_vertices _ F0), (fine_vertices _ F1), (fine_vertices _ F2).
  match type of F0 with fine ?P => set (P0 := P) in * end. match type of F1 with fine ?P => set (P1 := P) in * end. match type of F2 with fine ?P => set (P2 := P) in * end.
  apply (run_translation _ _ _ _ 4%nat shape_genus4 eq_refl eq_refl ltac:(cbn; lia) [P0; P1; P2; P0]);
    [reflexivity|all_fine; assumption|unfold P0, P1, P2; glue_tac @genus4_gluings|unfold P0, P1, P2; area_tac].
Qed.
Lemma genus4_ok d w h t e : disc d (e * e + 4 * w * h) -> prototype w h t e -> (%e + d) / 2 < %w / 2 ->
  exists c, genus4_prototype d w h t e empty = (c, Ok tt) /\ finite_surface map_translation 4 1 4 ((((%e + d) / 2) * ((%e + d) / 2) + %w * %h) / 2) c.
Proof.
  intros [D Q] PT LW. unfold genus4_prototype. pose proof (proj1 (prototype_gcd w h t e) PT) as (A & B & C & G & G1).
  rewrite (proj2 (Z.ltb_lt _ _) A), (proj2 (Z.ltb_lt _ _) B), (proj2 (Z.leb_le _ _) C), (proj2 (Z.ltb_lt _ _) G), (proj2 (Z.eqb_eq _ _) G1).
  repeat rewrite (mbind_ok _ _ empty empty tt) by reflexivity. cbv zeta.
  pose proof (Z2K_pos' w A) as KW. pose proof (Z2K_pos' h B) as KH.
  rewrite Z2K_add, !Z2K_mul in Q. assert (E4 : %4 = (2 + 2) :> K) by (cbn; ring). rewrite E4 in Q. pose proof (fmul_pos _ _ KW KH) as KWH.
  destruct (root_of_disc d (%e) (%w * %h)) as [L R]; auto; [rewrite Q; ring|].
  set (lam := (%e + d) / 2) in *. assert (W2 : 0 < %w / 2) by (apply fdiv_pos; [apply f2_pos|auto]). assert (WW : %w / 2 + %w / 2 = %w) by (field; apply f2_neq0).
  assert (X1 : (lam <? %w) = true) by flra. rewrite X1. rewrite (mbind_ok _ _ empty empty tt) by reflexivity.
  rewrite (proj2 (feqb_false lam (%w / 2))) by (intros Z; flra). rewrite (mbind_ok _ _ empty empty tt) by reflexivity.
  now apply genus4_polys.
Qed.
(** a polygon that turns back on its first edge *)
Lemma turn_back (x y : K) (l : list (vec K)) P : x < 0 -> 0 < y -> (2 <= length l)%nat -> Polygon_vertices ((0, 0) :: (x, 0) :: (y, 0) :: l) = Ok P -> False.
Proof.
  intros X Y L H. apply C51_vertices in H. destruct H as (_ & _ & _ & S1 & _). cbn [length] in S1.
  destruct (S1 0%nat 1%nat (0, 0)) as [[_ H]|[H _]]; cbn [length]; try lia.
  - exists 0. unfold side, vertex. cbn [length]. rewrite !Nat.mod_small by lia. cbn. split; [flra|]. split; [pose proof (@flt_0_1 K); flra|]. apply vec_eq; cbn; ring.
  - exists ((- x) / (y - x)). assert (N : y - x <> 0) by (intros Z; flra). assert (P0 : 0 < y - x) by flra.
    unfold side, vertex. cbn [length]. rewrite !Nat.mod_small by lia. cbn [nth fst snd].
    assert (Q : (- x) / (y - x) * (y - x) = - x) by (field; auto). assert (Q0 : 0 < (- x) / (y - x)) by (apply fdiv_pos; flra). set (q := (- x) / (y - x)) in *. clearbody q.
    split; [flra|]. split.
    + destruct (flt_total (1 - q)) as [Z|[Z|Z]]; [|flra|flra]. assert (0 < (- (1 - q)) * (y - x)) by (apply fmul_pos; flra). exfalso. flra.
    + apply vec_eq; cbn; [flra|ring].
  - unfold vertex in H. cbn [length] in H. rewrite Nat.mod_small in H by lia. cbn in H. injection H as H. flra.
  - rewrite Nat.mod_small in H by (cbn [length]; lia). discriminate.
Qed.
Lemma genus4_inv d w h t e c : disc d (e * e + 4 * w * h) -> genus4_prototype d w h t e empty = (c, Ok tt) -> prototype w h t e /\ (%e + d) / 2 < %w / 2.
Proof.
  intros [D Q] E. unfold genus4_prototype in E. do 5 ifs E. cbv zeta in E. assert (PT : prototype w h t e).
  { rewrite prototype_gcd.
    repeat match goal with H : (_ <? _)%Z = true |- _ => apply Z.ltb_lt in H | H : (_ <=? _)%Z = true |- _ => apply Z.leb_le in H | H : (_ =? _)%Z = true |- _ => apply Z.eqb_eq in H end. tauto. }
  split; auto. ifs E. apply mbind_inv in E. destruct E as (s1 & u1 & X & E). set (lam := (%e + d) / 2) in *. destruct (lam =? %w / 2) eqn:N; [discriminate|]. apply feqb_false in N.
  apply assemble_inv in E. rewrite Forall_forall in E. destruct (E _ (or_intror (or_introl eq_refl))) as [P EP].
  destruct (flt_total (%w / 2 - lam)) as [Z|[Z|Z]]; [|exfalso; apply N; flra|flra]. exfalso. destruct PT as [(W & _) _]. pose proof (Z2K_pos' w W) as KW.
  assert (LW : lam < %w) by flra. assert (Y : 0 < %w / 2 - lam / 2). { replace (%w / 2 - lam / 2) with ((%w - lam) / 2) by (field; apply f2_neq0). apply fdiv_pos; [apply f2_pos|flra]. }
  eapply turn_back; [exact Z|exact Y| |exact EP]. cbn. lia.
Qed.
End P.
