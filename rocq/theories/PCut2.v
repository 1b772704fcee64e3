(** Proofs about cutting and joining polygons: geometry of the pieces. *)
From Coq Require Import List Bool ZArith Arith Lia Relations.
From Coq Require Import Ring Field.
From Verif Require Import OField FMicromega PField MBase MDict PDict MEuclid SEuclid PEuclid MSim SSim PSim MPoly PPoly MMut SMut PMut PMut2 PMut3 PBuild TMut
  MSurf SSurf PSurf PSurf3 SPoint MPoint PPoint PSubdiv PSubdiv2 SCut PCut.
Import ListNotations.

Section K.
Context {K : OField}.
Add Field KF : (of_ft K).
Local Open Scope F_scope.
Notation nv := (@length (vec K) : polygon K -> nat).
Notation surf := (@surf (polygon K)).

(** a similarity that preserves the orientation is determined by the images of two points *)
Lemma sq_eq (x y : K) : x * x = y * y -> 0 < x -> 0 < y -> x = y.
Proof.
  intros E X Y. assert (Z : (x - y) * (x + y) = 0) by (transitivity (x * x - y * y); [ring|rewrite E; ring]).
  apply fmul_eq0 in Z. destruct Z; flra.
Qed.
Lemma maps_agree F G c d (a b : vec K) : map_similarity F c -> map_similarity G d -> map_orientation_preserving F -> map_orientation_preserving G ->
  a <> b -> F a = G a -> F b = G b -> forall p, F p = G p.
Proof.
  intros [C HF] [D HG] OF OG N Ea Eb p.
  assert (P0 : 0 < dist2 a b) by now apply dist2_nz.
  assert (cd : c = d).
  { apply (fcancel _ _ (dist2 a b)); [fside|]. rewrite <- HF, <- HG. now rewrite Ea, Eb. }
  subst d.
  assert (NN : F a <> F b).
  { intros E. assert (Z : dist2 (F a) (F b) = 0) by (rewrite E; unfold dist2, dot; destruct (F b); cbn; ring).
    rewrite HF in Z. apply fmul_eq0 in Z. destruct Z; flra. }
  assert (D1 : dist2 (F a) (F p) = dist2 (F a) (G p)) by (rewrite HF, Ea, HG; reflexivity).
  assert (D2 : dist2 (F b) (F p) = dist2 (F b) (G p)) by (rewrite HF, Eb, HG; reflexivity).
  assert (DT : dot (vsub (F b) (F a)) (vsub (F p) (F a)) = dot (vsub (F b) (F a)) (vsub (G p) (F a))).
  { apply half_inj. rewrite !polar, D1, D2. reflexivity. }
  assert (SQ : orient (F a) (F b) (F p) * orient (F a) (F b) (F p) = orient (F a) (F b) (G p) * orient (F a) (F b) (G p)).
  { rewrite !lagrange, DT, D1. reflexivity. }
  assert (SW : forall x y z : vec K, orient y x z = - orient x y z) by (intros [x0 x1] [y0 y1] [z0 z1]; unfold orient, ccw; cbn; ring).
  apply (coords_unique (F a) (F b)); auto.
  destruct (fltb_total K (orient a b p) 0) as [Z|[Z|Z]].
  - assert (A1 : 0 < orient (F b) (F a) (F p)) by (apply OF; rewrite SW; flra).
    assert (A2 : 0 < orient (G b) (G a) (G p)) by (apply OG; rewrite SW; flra).
    rewrite <- Ea, <- Eb in A2. rewrite SW in A1, A2.
    assert (X : - orient (F a) (F b) (F p) = - orient (F a) (F b) (G p)) by (apply sq_eq; auto; transitivity (orient (F a) (F b) (F p) * orient (F a) (F b) (F p)); [ring|rewrite SQ; ring]).
    flra.
  - assert (Q : orient (F a) (F b) (F p) * orient (F a) (F b) (F p) = c * c * (orient a b p * orient a b p)).
    { rewrite !lagrange. assert (DD : dot (vsub (F b) (F a)) (vsub (F p) (F a)) = c * dot (vsub b a) (vsub p a)).
      { apply half_inj. rewrite polar, !HF. transitivity (c * (dist2 a b + dist2 a p - dist2 b p)); [ring|]. rewrite <- polar. ring. }
      rewrite DD, !HF. ring. }
    rewrite Z in Q. assert (Q0 : orient (F a) (F b) (F p) * orient (F a) (F b) (F p) = 0) by (rewrite Q; ring).
    rewrite SQ in Q0 at 1. assert (Q1 := Q0). rewrite <- SQ in Q0. apply fmul_eq0 in Q0. apply fmul_eq0 in Q1.
    transitivity (0 : K); [tauto|symmetry; tauto].
  - assert (A1 : 0 < orient (F a) (F b) (F p)) by (apply OF; auto).
    assert (A2 : 0 < orient (G a) (G b) (G p)) by (apply OG; auto).
    rewrite <- Ea, <- Eb in A2. apply sq_eq; auto.
Qed.
Lemma similarity_comp F G c d : @map_similarity K F c -> map_similarity G d -> map_similarity (fun p => G (F p)) (d * c).
Proof.
  intros [C HF] [D HG]. split; [apply fmul_pos; auto|]. intros p q. rewrite HG, HF. ring.
Qed.
Lemma similarity_shift F c (u : vec K) : map_similarity F c -> map_similarity (fun p => vsub (F p) u) c.
Proof.
  intros [C HF]. split; auto. intros p q. rewrite <- HF. unfold dist2, dot. cbn. ring.
Qed.
Lemma orientation_shift F (u : vec K) : map_orientation_preserving F -> map_orientation_preserving (fun p => vsub (F p) u).
Proof.
  intros OF x y z H. apply OF in H. replace (orient _ _ _) with (orient (F x) (F y) (F z)); auto. unfold orient, ccw. cbn. ring.
Qed.
Lemma similarity_id : @map_similarity K (fun p => p) 1.
Proof. split; [apply flt_0_1|]. intros. ring. Qed.

(** the conditions for [recut] *)
Lemma recut_intro (s t : surf) extra (kept : hedge -> Prop) psi A : good nv s -> good nv t ->
  (forall l P, get_polygon s l = Ok P -> nondeg P) ->
  (forall x y, gz (gluings s) x = Some y -> kept x -> kept y) ->
  (forall u v, gz (gluings t) u = Some v <-> surg s extra kept psi u v) ->
  (forall x, is_edge nv s x -> kept x -> is_edge nv t (psi x)) ->
  (forall x y, is_edge nv s x -> is_edge nv s y -> kept x -> kept y -> psi x = psi y -> x = y) ->
  (forall a b x, pair_in extra a b -> is_edge nv s x -> kept x -> psi x <> a) ->
  (forall x P Q, is_edge nv s x -> kept x -> get_polygon s (fst x) = Ok P -> get_polygon t (fst (psi x)) = Ok Q ->
    vertex Q (Z.to_nat (snd (psi x))) = A x (vertex P (Z.to_nat (snd x))) /\ vertex Q (S (Z.to_nat (snd (psi x)))) = A x (vertex P (S (Z.to_nat (snd x))))) ->
  (forall x, (exists c, map_similarity (A x) c) /\ map_orientation_preserving (A x)) ->
  recut s t kept psi A.
Proof.
  intros GS GT ND K2 SU KE KI KX EN MV.
  assert (GL : forall x v, is_edge nv s x -> kept x -> (gz (gluings t) (psi x) = Some v <-> exists y, gz (gluings s) x = Some y /\ v = psi y)).
  { intros x v Hx Kx. rewrite SU. split.
    - intros [H|(x' & y & G & Kx' & E & ->)]; [exfalso; now apply (KX _ _ x H)|]. apply KI in E; auto.
      + subst x'. eauto.
      + apply (proj2 (glued_gz nv s x' y (g_inv nv s GS)) G).
    - intros (y & G & ->). right. exists x, y. auto. }
  constructor; auto.
  - intros x y Hx Kx Hy Ky. rewrite (glued_gz nv t _ _ (g_inv nv t GT)), (glued_gz nv s _ _ (g_inv nv s GS)). rewrite GL by auto. split; [intros (y' & G & E)|eauto].
    apply KI in E; auto.
    + now subst y'.
    + apply (i_inv nv s (g_inv nv s GS)) in G. apply (proj2 (glued_gz nv s _ _ (g_inv nv s GS)) G).
    + eapply K2; eauto.
  - intros x Hx Kx. rewrite (free_gz nv t _ (g_inv nv t GT) (g_tot nv t GT)), (free_gz nv s _ (g_inv nv s GS) (g_tot nv s GS)).
    specialize (GL x). split; intros [_ Z]; (split; [auto|]).
    + destruct (gz (gluings s) x) as [y|] eqn:G; auto. exfalso. rewrite (proj2 (GL (psi y) Hx Kx)) in Z; [discriminate|eauto].
    + destruct (gz (gluings t) (psi x)) as [v|] eqn:G; auto. exfalso. destruct (proj1 (GL v Hx Kx) eq_refl) as (y & G' & _). congruence.
  - intros x y P P' Q Q' F G H Kx Ky EP EP' EQ EQ' [[c SF] OF F1 F2] [[d SG] OG G1 G2] q.
    assert (Hx : is_edge nv s x) by apply H.
    assert (Hy : is_edge nv s y).
    { apply (glued_gz nv s _ _ (g_inv nv s GS)) in H. apply (i_inv nv s (g_inv nv s GS)) in H. apply (proj2 (glued_gz nv s _ _ (g_inv nv s GS)) H). }
    destruct (EN x P Q Hx Kx EP EQ) as [X1 X2]. destruct (EN y P' Q' Hy Ky EP' EQ') as [Y1 Y2].
    destruct (MV x) as [[cx Sx] Ox]. destruct (MV y) as [[cy Sy] Oy].
    apply (maps_agree (fun q => G (A x q)) (fun q => A y (F q)) (d * cx) (cy * c) (vertex P (Z.to_nat (snd x))) (vertex P (S (Z.to_nat (snd x))))).
    + now apply similarity_comp.
    + now apply similarity_comp.
    + intros u v w O. now apply OG, Ox.
    + intros u v w O. now apply Oy, OF.
    + apply edge_neq. apply (ND _ _ EP).
    + rewrite <- X1, G1, F1. exact Y2.
    + rewrite <- X2, G2, F2. exact Y1.
Qed.

(** vertices from edges *)
Lemma vertex_steps (Q : polygon K) (f : nat -> vec K) m : vertex Q 0 = f 0%nat -> (forall j, (j < m)%nat -> edge Q j = vsub (f (S j)) (f j)) ->
  forall j, (j <= m)%nat -> vertex Q j = f j.
Proof.
  intros H0 HE. induction j as [|j IH]; intros Hj; auto. specialize (HE j ltac:(lia)). unfold edge in HE. rewrite IH in HE by lia.
  apply (f_equal (fun v => vadd v (f j))) in HE. destruct (vertex Q (S j)), (f (S j)), (f j). cbn in HE. injection HE as E1 E2. apply vec_eq; cbn; flra.
Qed.
Lemma list_vertices (P : polygon K) : P = map (vertex P) (seq 0 (length P)).
Proof.
  apply (nth_ext _ _ vzero vzero); [now rewrite map_length, seq_length|]. intros i Hi.
  symmetry. etransitivity; [apply (nth_indep _ vzero (vertex P 0)); rewrite map_length, seq_length; auto|]. rewrite (map_nth (vertex P)), seq_nth by auto. cbn.
  unfold vertex. rewrite Nat.mod_small by auto. reflexivity.
Qed.
Lemma vertex_plus (P : polygon K) i : vertex P (i + length P) = vertex P i.
Proof.
  apply vertex_add_n.
Qed.
Lemma window (P : polygon K) v : (v <= length P)%nat -> area (map (vertex P) (seq v (length P))) = area P.
Proof.
  intros Hv. replace (length P) with (length P - v + v)%nat at 1 by lia. rewrite seq_app, map_app, area_rot.
  replace (map (vertex P) (seq (v + (length P - v)) v)) with (map (vertex P) (seq 0 v)).
  - transitivity (area (map (vertex P) (seq 0 (v + (length P - v))))); [now rewrite seq_app, map_app|].
    replace (v + (length P - v))%nat with (length P) by lia. now rewrite <- list_vertices.
  - replace (v + (length P - v))%nat with (0 + length P)%nat by lia. generalize 0%nat. induction v as [|v IH]; intros a; cbn; auto.
    rewrite vertex_plus. f_equal. apply (IH ltac:(lia) (S a)).
Qed.
Lemma window_any (P : polygon K) v : area (map (vertex P) (seq v (length P))) = area P.
Proof.
  destruct (Nat.eq_dec (length P) 0) as [Z|Z]; [destruct P; [reflexivity|discriminate]|].
  rewrite <- (window P (v mod length P)) by (pose proof (Nat.mod_upper_bound v _ Z); lia). f_equal.
  assert (E : forall n a b, (a mod length P = b mod length P)%nat -> map (vertex P) (seq a n) = map (vertex P) (seq b n)).
  { induction n as [|n IH]; intros a b E; cbn; auto. f_equal; [now rewrite <- vertex_mod, E, vertex_mod|]. apply IH.
    rewrite <- (Nat.add_1_r a), <- (Nat.add_1_r b), <- Nat.add_mod_idemp_l, E, Nat.add_mod_idemp_l by auto. reflexivity. }
  apply E. now rewrite Nat.mod_mod.
Qed.
(** a polygon that is given by its vertices *)
Lemma area_list (Q : polygon K) (f : nat -> vec K) : (forall j, (j < length Q)%nat -> vertex Q j = f j) -> area Q = area (map f (seq 0 (length Q))).
Proof.
  intros H. rewrite (list_vertices Q) at 1. f_equal. apply map_ext_in. intros j Hj. apply in_seq in Hj. apply H. lia.
Qed.
Lemma area_shift (l : list nat) (f : nat -> vec K) u : area (map (fun j => vsub (f j) u) l) = area (map f l).
Proof.
  rewrite <- (area_translate (map f l) (vopp u)). unfold translate. rewrite map_map. f_equal. apply map_ext. intros j. destruct (f j), u. apply vec_eq; cbn; ring.
Qed.

Lemma area_cut_window (P : polygon K) v w : (0 < w < length P)%nat ->
  area P = area (map (vertex P) (seq v (S w))) + area (map (vertex P) (seq (v + w) (S (length P - w)))).
Proof.
  intros Hw. rewrite <- (window_any P v).
  assert (E : map (vertex P) (seq v (length P)) = vertex P v :: map (vertex P) (seq (S v) (w - 1)) ++ vertex P (v + w) :: map (vertex P) (seq (S (v + w)) (length P - w - 1))).
  { replace (length P) with (1 + ((w - 1) + (1 + (length P - w - 1))))%nat at 1 by lia.
    rewrite !seq_app, !map_app. cbn [seq map app]. rewrite Nat.add_1_r. f_equal. f_equal. replace (S v + (w - 1))%nat with (v + w)%nat by lia. f_equal. f_equal. f_equal. lia. }
  rewrite E. etransitivity; [apply (area_cut nil (vertex P v) (map (vertex P) (seq (S v) (w - 1))) (vertex P (v + w)))|]. f_equal.
  - f_equal. replace (S w) with (1 + (w - 1 + 1))%nat by lia. rewrite !seq_app, !map_app. cbn [seq map app]. rewrite Nat.add_1_r. do 4 f_equal. lia.
  - f_equal. replace (S (length P - w)) with (1 + (length P - w - 1 + 1))%nat by lia. rewrite !seq_app, !map_app. cbn [seq map app]. rewrite Nat.add_1_r. do 2 f_equal.
    replace (S (v + w) + (length P - w - 1))%nat with (v + length P)%nat by lia. now rewrite vertex_plus.
Qed.
End K.
