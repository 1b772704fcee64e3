(** Proofs about points of surfaces. *)
From Coq Require Import List Bool ZArith Arith Lia Relations Ring Field.
From Verif Require Import OField FMicromega PField MBase MDict PDict MEuclid SEuclid PEuclid MSim SSim PSim MPoly PPoly
  MSurf SSurf PSurf PSurf2 PSurf3 MPoint SPoint.
Import ListNotations.

(** ** walking along a partial bijection *)
Section Walk.
Context {L : Type} `{EqB L}.
Notation A := (L * nat)%type.
Lemma set_add_In {B} `{EqB B} (x : B) s y : In y (set_add x s) <-> y = x \/ In y s.
Proof.
  unfold set_add. destruct (mem x s) eqn:E.
  - split; auto. intros [->|I]; auto. now apply mem_In.
  - rewrite in_app_iff. cbn. intuition.
Qed.
Lemma set_add_NoDup {B} `{EqB B} (x : B) s : NoDup s -> NoDup (set_add x s).
Proof.
  unfold set_add. destruct (mem x s) eqn:E; auto. intros N. apply NoDup_snoc; auto. now apply mem_not_In.
Qed.
Lemma set_eqb_iff {B} `{EqB B} (s t : list B) : set_eqb s t = true <-> forall x, In x s <-> In x t.
Proof.
  unfold set_eqb. rewrite andb_true_iff, !forallb_forall. split.
  - intros [E F] x. split; intros I; apply mem_In; auto.
  - intros E. split; intros x I; apply mem_In, E, I.
Qed.

Variable rot : A -> res (option A).
Lemma collect_spec fuel : forall reps x limit R, collect fuel rot reps x limit = Ok R ->
  (forall y, In y reps -> In y R) /\ In x R /\
  (forall y, In y R -> In y reps \/ y = x \/ exists z, In z R /\ rot z = Ok (Some y)) /\
  (forall y, In y R -> (In y reps /\ y <> x) \/ rot y = Ok None \/ exists z, In z R /\ rot y = Ok (Some z)) /\
  (forall y, In y R -> In y reps \/ clos_refl_trans A (fun u v => rot u = Ok (Some v)) x y) /\
  (NoDup reps -> NoDup R).
Proof.
  induction fuel as [|fuel IH]; intros reps x limit R E; [discriminate|]. cbn [collect] in E.
  destruct (rot x) as [[y|]|] eqn:Rx; cbn [bind] in E; [| |discriminate].
  - destruct (match limit with None => Ok None | Some O => Err ValueError | Some (S k) => Ok (Some k) end) as [lim|]; cbn [bind] in E; [|discriminate].
    destruct (mem y (set_add x reps)) eqn:M.
    + injection E as <-. apply mem_In in M. rewrite set_add_In. split; [intros; apply set_add_In; auto|]. split; auto.
      split; [intros z Iz; apply set_add_In in Iz; destruct Iz; auto|]. split; [|split].
      * intros z Iz. destruct (eq_dec_of z x) as [->|N]; [right; right; eauto|]. left. apply set_add_In in Iz. destruct Iz; [contradiction|auto].
      * intros z Iz. apply set_add_In in Iz. destruct Iz as [->|]; auto. right. apply rt_refl.
      * intros N. now apply set_add_NoDup.
    + apply IH in E. destruct E as [E1 [E2 [E3 [E4 [E5 E6]]]]].
      assert (Ix : In x R) by (apply E1, set_add_In; auto).
      split; [intros z Iz; apply E1, set_add_In; auto|]. split; auto. split; [|split; [|split]].
      * intros z Iz. destruct (E3 z Iz) as [I|[->|I]]; auto; [apply set_add_In in I; tauto|]. right. right. eauto.
      * intros z Iz. destruct (eq_dec_of z x) as [->|N]; [right; right; eauto|].
        destruct (E4 z Iz) as [[I _]|I]; auto. apply set_add_In in I. destruct I; [contradiction|auto].
      * intros z Iz. destruct (E5 z Iz) as [I|I]; [apply set_add_In in I; destruct I as [->|]; auto; right; apply rt_refl|].
        right. eapply rt_trans; [apply rt_step; exact Rx|auto].
      * intros N. apply E6. now apply set_add_NoDup.
  - injection E as <-. split; [intros; apply set_add_In; auto|]. split; [apply set_add_In; auto|].
    split; [intros z Iz; apply set_add_In in Iz; destruct Iz; auto|]. split; [|split].
    + intros z Iz. destruct (eq_dec_of z x) as [->|N]; [auto|]. left. apply set_add_In in Iz. destruct Iz; [contradiction|auto].
    + intros z Iz. apply set_add_In in Iz. destruct Iz as [->|]; auto. right. apply rt_refl.
    + intros N. now apply set_add_NoDup.
Qed.
(** the walk ends when there are finitely many places to visit *)
Lemma collect_new (es : list A) : NoDup es ->
  (forall x, In x es -> rot x = Ok None \/ exists y, rot x = Ok (Some y) /\ In y es) ->
  forall fuel reps x, In x es -> incl reps es -> NoDup reps -> ~ In x reps -> length es - length reps <= fuel ->
  exists R, collect fuel rot reps x None = Ok R /\ incl R es /\ NoDup R.
Proof.
  intros ND T. induction fuel as [|fuel IH]; intros reps x Ix IR NR Nx F.
  - exfalso. apply Nx. refine (@NoDup_length_incl _ reps es NR _ IR x Ix). lia.
  - assert (IA : incl (set_add x reps) es) by (intros z Iz; apply set_add_In in Iz; destruct Iz as [->|]; auto).
    pose proof (set_add_NoDup x reps NR) as NA.
    cbn [collect]. destruct (T x Ix) as [->|[y [-> Iy]]]; cbn [bind]; [exists (set_add x reps); auto|].
    destruct (mem y (set_add x reps)) eqn:M; [exists (set_add x reps); auto|].
    apply IH; auto; [now apply mem_not_In|]. unfold set_add. apply mem_not_In in Nx. rewrite Nx. rewrite app_length. cbn. lia.
Qed.
Lemma collect_total (es : list A) : NoDup es ->
  (forall x, In x es -> rot x = Ok None \/ exists y, rot x = Ok (Some y) /\ In y es) ->
  forall fuel reps x, In x es -> incl reps es -> NoDup reps -> length es < fuel ->
  exists R, collect fuel rot reps x None = Ok R /\ incl R es /\ NoDup R.
Proof.
  intros ND T fuel reps x Ix IR NR F. destruct fuel as [|fuel]; [lia|].
  assert (IA : incl (set_add x reps) es) by (intros z Iz; apply set_add_In in Iz; destruct Iz as [->|]; auto).
  pose proof (set_add_NoDup x reps NR) as NA.
  cbn [collect]. destruct (T x Ix) as [->|[y [-> Iy]]]; cbn [bind]; [exists (set_add x reps); auto|].
  destruct (mem y (set_add x reps)) eqn:M; [exists (set_add x reps); auto|].
  apply (collect_new es); auto; [now apply mem_not_In|]. lia.
Qed.
End Walk.

(** ** both walks together *)
Section Both.
Context {L : Type} `{EqB L}.
Notation A := (L * nat)%type.
Variables (f g : A -> res (option A)) (D : A -> Prop).
Hypothesis fD : forall x y, D x -> f x = Ok (Some y) -> D y /\ g y = Ok (Some x).
Hypothesis gD : forall x y, D x -> g x = Ok (Some y) -> D y /\ f y = Ok (Some x).
Lemma both_walks fuel x limit R1 R2 : D x -> collect fuel f nil x limit = Ok R1 -> collect fuel g R1 x limit = Ok R2 ->
  In x R2 /\ NoDup R2 /\ (forall y, In y R2 -> D y) /\
  (forall y, In y R2 -> clos_refl_sym_trans A (fun u v => D u /\ f u = Ok (Some v)) x y) /\
  (forall y z, In y R2 -> f y = Ok (Some z) -> In z R2) /\ (forall y z, In y R2 -> g y = Ok (Some z) -> In z R2).
Proof.
  intros Dx E1 E2.
  destruct (collect_spec f fuel nil x limit R1 E1) as [_ [A2 [A3 [A4 [A5 A6]]]]].
  destruct (collect_spec g fuel R1 x limit R2 E2) as [B1 [B2 [B3 [B4 [B5 B6]]]]].
  assert (G1 : forall y, clos_refl_trans A (fun u v => f u = Ok (Some v)) x y -> D y /\ clos_refl_sym_trans A (fun u v => D u /\ f u = Ok (Some v)) x y).
  { intros y C. apply clos_rt_rtn1 in C. induction C as [|y z Q C [D1 IH]]; [split; auto; apply rst_refl|].
    destruct (fD _ _ D1 Q). split; auto. eapply rst_trans; [exact IH|]. apply rst_step. auto. }
  assert (G2 : forall y, clos_refl_trans A (fun u v => g u = Ok (Some v)) x y -> D y /\ clos_refl_sym_trans A (fun u v => D u /\ f u = Ok (Some v)) x y).
  { intros y C. apply clos_rt_rtn1 in C. induction C as [|y z Q C [D1 IH]]; [split; auto; apply rst_refl|].
    destruct (gD _ _ D1 Q). split; auto. eapply rst_trans; [exact IH|]. apply rst_sym, rst_step. auto. }
  assert (DR1 : forall y, In y R1 -> D y /\ clos_refl_sym_trans A (fun u v => D u /\ f u = Ok (Some v)) x y).
  { intros y I. apply A5 in I. destruct I as [[]|I]. auto. }
  assert (DR2 : forall y, In y R2 -> D y /\ clos_refl_sym_trans A (fun u v => D u /\ f u = Ok (Some v)) x y).
  { intros y I. apply B5 in I. destruct I as [I|I]; auto. }
  split; auto. split; [apply B6, A6; constructor|]. split; [apply DR2|]. split; [apply DR2|]. split.
  - intros y z Iy Q. destruct (In_dec_of y R1) as [I|N].
    + destruct (A4 y I) as [[[] _]|[Z|[w [W1 W2]]]]; [congruence|]. apply B1. congruence.
    + destruct (B3 y Iy) as [I|[->|[w [W1 W2]]]]; [contradiction|contradiction|].
      destruct (gD _ _ (proj1 (DR2 w W1)) W2) as [_ Z]. congruence.
  - intros y z Iy Q. destruct (B4 y Iy) as [[I N]|[Z|[w [W1 W2]]]]; [|congruence|congruence].
    destruct (A3 y I) as [[]|[->|[w [W1 W2]]]]; [contradiction|].
    destruct (fD _ _ (proj1 (DR1 w W1)) W2) as [_ Z]. apply B1. congruence.
Qed.
End Both.

(** ** positions *)
Section Pos.
Context {K : OField}.
Add Field KF : (of_ft K).
Local Open Scope F_scope.
Implicit Types (P : polygon K) (p q v : vec K).

Lemma find_vertex_spec P p i : forall k, find_vertex P p i = Some k -> (i <= k < i + length P)%nat /\ nth (k - i) P vzero = p.
Proof.
  revert i. induction P as [|v P IH]; intros i k; cbn [find_vertex]; [discriminate|].
  destruct (veqb p v) eqn:E.
  - intros [= <-]. change (eqb p v = true) in E. apply (eqb_ok p v) in E. subst. cbn. split; [lia|]. now rewrite Nat.sub_diag.
  - intros F. apply IH in F. destruct F as [F1 F2]. cbn [length]. split; [lia|].
    replace (k - i)%nat with (S (k - S i))%nat by lia. exact F2.
Qed.
Lemma find_vertex_none P p i : find_vertex P p i = None -> forall k, (k < length P)%nat -> nth k P vzero <> p.
Proof.
  revert i. induction P as [|v P IH]; intros i; cbn [find_vertex length]; [lia|].
  destruct (veqb p v) eqn:E; [discriminate|]. intros F [|k] Hk; cbn.
  - intros ->. pose proof (proj2 (eqb_ok p p) eq_refl) as X. change (veqb p p = true) in X. congruence.
  - eapply IH; eauto. lia.
Qed.
Lemma find_edge_spec ves p i : forall k, find_edge ves p i = Some k ->
  (i <= k < i + length ves)%nat /\ on_edge_interior (fst (nth (k - i) ves (vzero, vzero))) (snd (nth (k - i) ves (vzero, vzero))) p = true.
Proof.
  revert i. induction ves as [|[v e] ves IH]; intros i k; cbn [find_edge]; [discriminate|].
  destruct (on_edge_interior v e p) eqn:E.
  - intros [= <-]. cbn [length]. split; [lia|]. now rewrite Nat.sub_diag.
  - intros F. apply IH in F. destruct F as [F1 F2]. cbn [length]. split; [lia|].
    replace (k - i)%nat with (S (k - S i))%nat by lia. exact F2.
Qed.
Lemma find_edge_none ves p i : find_edge ves p i = None -> forall k, (k < length ves)%nat ->
  on_edge_interior (fst (nth k ves (vzero, vzero))) (snd (nth k ves (vzero, vzero))) p = false.
Proof.
  revert i. induction ves as [|[v e] ves IH]; intros i; cbn [find_edge length]; [lia|].
  destruct (on_edge_interior v e p) eqn:E; [discriminate|]. intros F [|k] Hk; cbn [nth fst snd]; auto.
  eapply IH; eauto. lia.
Qed.
Lemma length_edges P : length (edges P) = length P.
Proof. unfold edges. now rewrite map_length, seq_length. Qed.
Lemma nth_edges P k : (k < length P)%nat -> nth k (edges P) vzero = edge P k.
Proof.
  intros Hk. unfold edges. rewrite (nth_indep _ vzero (edge P 0)) by (rewrite map_length, seq_length; lia).
  rewrite (map_nth (edge P)). now rewrite seq_nth by lia.
Qed.
Lemma nth_combine_edges P k : (k < length P)%nat -> nth k (combine P (edges P)) (vzero, vzero) = (vertex P k, edge P k).
Proof. intros Hk. rewrite combine_nth by (symmetry; apply length_edges). now rewrite nth_edges, vertex_lt by auto. Qed.

Lemma on_edge_interior_spec v (e : vec K) p : e <> vzero -> (on_edge_interior v e p = true <->
  exists t, 0 < t /\ t < 1 /\ p = vadd v (vscale t e)).
Proof.
  intros N. unfold on_edge_interior. rewrite !andb_true_iff. split.
  - intros [E [F G]]. apply feqb_eq in E. pose proof (vnz e N) as De.
    change (0 < dot e (vsub p v)) in F. change (dot e (vsub p v) < dot e e) in G.
    exists (dot e (vsub p v) / dot e e). split; [|split].
    + now apply fdiv_pos.
    + assert (X : dot e e * (1 - dot e (vsub p v) / dot e e) = dot e e - dot e (vsub p v)) by (field; now apply fpos_neq0).
      assert (Y : 0 < dot e e * (1 - dot e (vsub p v) / dot e e)) by (rewrite X; flra).
      destruct (fltb_total K (dot e (vsub p v) / dot e e) 1) as [Z|[Z|Z]]; [exact Z| |]; exfalso.
      * rewrite Z in Y. assert (W : dot e e * (1 - 1) = 0) by ring. rewrite W in Y. flra.
      * change (1 < dot e (vsub p v) / dot e e) in Z. revert Y. set (q := dot e (vsub p v) / dot e e) in *.
        assert (0 < dot e e * (q - 1)) by (apply fmul_pos; flra). intros Y. fnra.
    + apply fpos_neq0 in De. destruct v as [v1 v2], e as [e1 e2], p as [p1 p2]. unfold ccw, dot in *. cbn in *.
      assert (A1 : (p1 - v1) * (e1 * e1 + e2 * e2) = (e1 * (p1 - v1) + e2 * (p2 - v2)) * e1).
      { transitivity ((e1 * (p1 - v1) + e2 * (p2 - v2)) * e1 - e2 * (e1 * (p2 - v2) - e2 * (p1 - v1))); [ring|]. rewrite E. ring. }
      assert (A2 : (p2 - v2) * (e1 * e1 + e2 * e2) = (e1 * (p1 - v1) + e2 * (p2 - v2)) * e2).
      { transitivity ((e1 * (p1 - v1) + e2 * (p2 - v2)) * e2 + e1 * (e1 * (p2 - v2) - e2 * (p1 - v1))); [ring|]. rewrite E. ring. }
      apply vec_eq; cbn.
      * transitivity (v1 + ((p1 - v1) * (e1 * e1 + e2 * e2)) / (e1 * e1 + e2 * e2)); [field; auto|]. rewrite A1. field; auto.
      * transitivity (v2 + ((p2 - v2) * (e1 * e1 + e2 * e2)) / (e1 * e1 + e2 * e2)); [field; auto|]. rewrite A2. field; auto.
  - intros [t [T0 [T1 ->]]]. pose proof (vnz e N) as De. destruct v as [v1 v2], e as [e1 e2]. unfold ccw, dot in *. cbn in *. split; [|split].
    + apply feqb_eq. ring.
    + change (0 < e1 * (v1 + t * e1 - v1) + e2 * (v2 + t * e2 - v2)).
      assert (X : 0 < t * (e1 * e1 + e2 * e2)) by now apply fmul_pos.
      replace (e1 * (v1 + t * e1 - v1) + e2 * (v2 + t * e2 - v2)) with (t * (e1 * e1 + e2 * e2)) by ring. exact X.
    + change (e1 * (v1 + t * e1 - v1) + e2 * (v2 + t * e2 - v2) < e1 * e1 + e2 * e2).
      assert (X : 0 < (1 - t) * (e1 * e1 + e2 * e2)) by (apply fmul_pos; flra).
      replace (e1 * (v1 + t * e1 - v1) + e2 * (v2 + t * e2 - v2)) with ((e1 * e1 + e2 * e2) - (1 - t) * (e1 * e1 + e2 * e2)) by ring. flra.
Qed.

Lemma side_segment P e p : on_segment (side P e) p <-> exists t, 0 <= t /\ t <= 1 /\ p = vadd (vertex P e) (vscale t (edge P e)).
Proof. unfold on_segment, side, edge. cbn [fst snd]. reflexivity. Qed.
Lemma side_cases P e p : on_segment (side P e) p -> p = vertex P e \/ p = vertex P (S e) \/
  exists t, 0 < t /\ t < 1 /\ p = vadd (vertex P e) (vscale t (edge P e)).
Proof.
  rewrite side_segment. intros [t [T0 [T1 E]]].
  destruct (feq_dec t 0) as [->|N0]; [left; rewrite E; destruct (vertex P e); apply vec_eq; cbn; ring|].
  destruct (feq_dec t 1) as [->|N1].
  - right; left. rewrite E. unfold edge. destruct (vertex P e), (vertex P (S e)). apply vec_eq; cbn; ring.
  - right; right. exists t. split; [|split; auto].
    + destruct (fltb_total K t 0) as [Z|[Z|Z]]; [change (t < 0) in Z; flra|contradiction|exact Z].
    + destruct (fltb_total K t 1) as [Z|[Z|Z]]; [exact Z|contradiction|change (1 < t) in Z; flra].
Qed.
Lemma open_side P e t : 0 < t -> t < 1 -> on_segment (side P e) (vadd (vertex P e) (vscale t (edge P e))).
Proof. intros T0 T1. apply side_segment. exists t. split; [flra|]. split; [flra|auto]. Qed.

(** what the position of a point says *)
Definition nondeg P := (3 <= length P)%nat /\ forall e, edge P e <> vzero.
Lemma position_spec P p : nondeg P ->
  match get_point_position P p with
  | AtVertex k => (k < length P)%nat /\ p = vertex P k
  | EdgeInterior e => (e < length P)%nat /\ (exists t, 0 < t /\ t < 1 /\ p = vadd (vertex P e) (vscale t (edge P e))) /\
      forall k, p <> vertex P k
  | _ => forall e, ~ on_segment (side P e) p
  end.
Proof.
  intros [LP NE]. unfold get_point_position.
  destruct (find_vertex P p 0) as [k|] eqn:FV.
  - apply find_vertex_spec in FV. destruct FV as [F1 F2]. rewrite Nat.sub_0_r in F2. rewrite vertex_lt by lia. split; [lia|auto].
  - assert (NV : forall k, p <> vertex P k).
    { intros k E. apply (find_vertex_none P p 0 FV (k mod length P)); [apply Nat.mod_upper_bound; lia|].
      rewrite <- vertex_lt by (apply Nat.mod_upper_bound; lia). now rewrite vertex_mod. }
    destruct (find_edge (combine P (edges P)) p 0) as [e|] eqn:FE.
    + apply find_edge_spec in FE. rewrite combine_length, length_edges, Nat.min_id in FE. destruct FE as [F1 F2].
      rewrite Nat.sub_0_r, nth_combine_edges in F2 by lia. cbn [fst snd] in F2.
      split; [lia|]. split; auto. apply on_edge_interior_spec in F2; auto.
    + assert (NS : forall e, ~ on_segment (side P e) p).
      { intros e I. apply side_cases in I. destruct I as [->|[->|[t [T0 [T1 E]]]]]; [now apply (NV e)|now apply (NV (S e))|].
        assert (X : (e mod length P < length P)%nat) by (apply Nat.mod_upper_bound; lia).
        pose proof (find_edge_none _ _ _ FE (e mod length P)) as Y. rewrite combine_length, length_edges, Nat.min_id in Y. specialize (Y X).
        rewrite nth_combine_edges in Y by auto. cbn [fst snd] in Y. rewrite vertex_mod, edge_mod in Y.
        rewrite <- not_true_iff_false in Y. apply Y. apply on_edge_interior_spec; eauto. }
      destruct (winding_number P p mod 2 =? 0)%Z; auto.
Qed.

Lemma vertex_on_side P e : nondeg P -> on_segment (side P e) (vertex P e) /\ on_segment (side P e) (vertex P (S e)).
Proof.
  intros N. pose proof (@flt_0_1 K). split; apply side_segment.
  - exists 0. split; [flra|]. split; [flra|]. destruct (vertex P e), (edge P e). apply vec_eq; cbn; ring.
  - exists 1. split; [flra|]. split; [flra|]. unfold edge. destruct (vertex P e), (vertex P (S e)). apply vec_eq; cbn; ring.
Qed.
Lemma vertex_inj P i j : nondeg P -> simple_polygon P -> (i < length P)%nat -> (j < length P)%nat ->
  vertex P i = vertex P j -> i = j.
Proof.
  intros N SP Li Lj E. destruct (Nat.eq_dec i j) as [|Nij]; auto. exfalso.
  destruct (vertex_on_side P i N) as [A _], (vertex_on_side P j N) as [B _]. rewrite E in A.
  destruct (SP i j _ Li Lj Nij A B) as [[_ X]|[_ X]]; rewrite Nat.add_1_r in X.
  - apply (edge_neq P i); [apply N|]. congruence.
  - apply (edge_neq P j); [apply N|]. auto.
Qed.
(** a vertex only lies on the two edges at it *)
Lemma vertex_sides P k e : nondeg P -> simple_polygon P -> (k < length P)%nat -> (e < length P)%nat ->
  on_segment (side P e) (vertex P k) -> e = k \/ k = ((e + 1) mod length P)%nat.
Proof.
  intros N SP Lk Le A. destruct (Nat.eq_dec e k) as [|Nek]; [auto|]. right.
  destruct (vertex_on_side P k N) as [B _].
  destruct (SP e k _ Le Lk Nek A B) as [[X _]|[X Y]]; auto.
  exfalso. rewrite Nat.add_1_r in Y. apply (edge_neq P k); [apply N|auto].
Qed.
(** a point inside an edge lies on no other edge *)
Lemma interior_sides P e e' t : nondeg P -> simple_polygon P -> (e < length P)%nat -> (e' < length P)%nat -> 0 < t -> t < 1 ->
  on_segment (side P e') (vadd (vertex P e) (vscale t (edge P e))) -> e' = e.
Proof.
  intros N SP Le Le' T0 T1 A. destruct (Nat.eq_dec e' e) as [|Nee]; [auto|]. exfalso.
  assert (V0 : vadd (vertex P e) (vscale t (edge P e)) <> vertex P e).
  { intros E. apply (proj2 N e). destruct (vertex P e) as [a b], (edge P e) as [c d]. unfold vadd, vscale in E. cbn in E. injection E as E1 E2.
    assert (t * c = 0) by flra. assert (t * d = 0) by flra. apply fmul_eq0 in H, H0.
    destruct H as [-> | ->]; [exfalso; flra|]. destruct H0 as [-> | ->]; [exfalso; flra|]. reflexivity. }
  assert (V1 : vadd (vertex P e) (vscale t (edge P e)) <> vertex P (S e)).
  { intros E. apply (proj2 N e). unfold edge in *. destruct (vertex P e) as [a b], (vertex P (S e)) as [c d]. unfold vadd, vscale, vsub in *. cbn in *. injection E as E1 E2.
    assert ((1 - t) * (c - a) = 0) by (transitivity (c - (a + t * (c - a))); [ring|rewrite E1; ring]).
    assert ((1 - t) * (d - b) = 0) by (transitivity (d - (b + t * (d - b))); [ring|rewrite E2; ring]).
    apply fmul_eq0 in H, H0. destruct H as [H| ->]; [exfalso; flra|]. destruct H0 as [H0| ->]; [exfalso; flra|]. reflexivity. }
  pose proof (open_side P e t T0 T1) as B.
  destruct (SP e' e _ Le' Le Nee A B) as [[X Y]|[X Y]].
  - rewrite Y in V0. apply V0. rewrite <- vertex_mod. now rewrite <- X.
  - rewrite Nat.add_1_r in Y. auto.
Qed.
End Pos.
