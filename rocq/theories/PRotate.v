(** Rotating tangent vectors at vertices. *)
From Coq Require Import List Bool ZArith Arith Lia Ring Field.
From Verif Require Import OField FMicromega MBase MDict MEuclid PField PEuclid SEuclid MSim SSim MPoly SCut MSurf SSurf PSurf SPoint PTurn PTurn2 MTangent STangent PLocal PLocal2 PExit PInward PTangent PTangent2 PTangent3 PTangent4 SRotate.
Import ListNotations.

Section R.
Context {K : OField} {L : Type} {EL : EqB L}.
Add Field KF : (of_ft K).
Local Open Scope F_scope.
Variables (D : L -> Prop) (S : surface K L).
Hypothesis V : valid D S.
Hypothesis C : closed D S.
Hypothesis PRS : forall l P, D l -> s_poly S l = Ok P -> proper P.
Hypothesis TR : translations D S.
Implicit Types (u v w : vec K) (c : L * nat).

Lemma fmul_nonneg (x y : K) : 0 <= x -> 0 <= y -> 0 <= x * y.
Proof.
  intros A B. destruct (feq_dec x 0) as [-> |X]; [flra|]. destruct (feq_dec y 0) as [-> |Y]; [flra|].
  assert (0 < x * y); [|flra]. apply fmul_pos; [apply fneq_lt in X; destruct X; flra|apply fneq_lt in Y; destruct Y; flra].
Qed.
Lemma mone_apply v : mapply mone v = v. Proof. destruct v; apply vec_eq; cbn; ring. Qed.
Lemma mone_mul : mmul mone mone = @mone K. Proof. unfold mmul, mone; cbn. f_equal; ring. Qed.
(** the test of the code *)
Lemma ray_iff u v w : 0 < ccw u v -> (0 <= ccw u w /\ 0 < ccw w v <-> sector u v w \/ pos_multiple u w).
Proof.
  intros A. rewrite (small_sector u v w A), pos_multiple_iff. pose proof (lagr u w v) as G.
  assert (N : u <> vzero). { intros ->. destruct v. unfold ccw in A. cbn in A. replace (0 * c0 - 0 * c) with (0 : K) in A by ring. flra. }
  pose proof (vnz u N) as NN. split.
  - intros [X Y]. destruct (feq_dec (ccw u w) 0) as [Z|Z].
    + right. split; auto. split; auto. rewrite Z in G. assert (0 < ccw w v * dot u u) by now apply fmul_pos. rewrite G in H.
      destruct (flt_total (dot u w)) as [W|[W|W]]; auto; exfalso; [|rewrite W in H; flra]. assert (0 < (- dot u w) * ccw u v) by (apply fmul_pos; auto; flra). flra.
    + left. split; auto. apply fneq_lt in Z. destruct Z; flra.
  - intros [[X Y]|[_ [X Y]]]; [split; auto; flra|]. split; [flra|]. rewrite X in G. assert (0 < dot u w * ccw u v) by now apply fmul_pos.
    assert (H2 : 0 < ccw w v * dot u u) by (rewrite G; flra). destruct (flt_total (ccw w v)) as [W|[W|W]]; auto; exfalso; [|rewrite W in H2; flra]. assert (0 < (- ccw w v) * dot u u) by (apply fmul_pos; auto; flra). flra.
Qed.
Lemma test_iff u v w : 0 < ccw u v -> ((0 <=? ccw u w) && (0 <? ccw w v) = true <-> sector u v w \/ pos_multiple u w).
Proof. intros A. rewrite <- (ray_iff u v w A), andb_true_iff. unfold fleb. rewrite negb_true_iff. reflexivity. Qed.

Lemma corner_poly c u v P : corner D S c u v -> s_poly S (fst c) = Ok P -> D (fst c) /\ (snd c < length P)%nat /\ u = edge P (snd c) /\ v = prev_edge P (snd c).
Proof. intros [Q [A [B [E [X Y]]]]] F. assert (Q = P) by congruence. subst Q. unfold prev_edge. auto. Qed.
Lemma corner_fun c u v u' v' : corner D S c u v -> corner D S c u' v' -> u = u' /\ v = v'.
Proof. intros A [P [_ [GP [_ [X Y]]]]]. destruct (corner_poly c u v P A GP) as [_ [_ [X' Y']]]. unfold prev_edge in Y'. now rewrite X, Y. Qed.
Lemma corner_nz c u v : corner D S c u v -> u <> vzero /\ v <> vzero.
Proof.
  intros A. pose proof A as [P [Dl [GP _]]]. destruct (corner_poly c u v P A GP) as [_ [_ [-> ->]]]. pose proof (PRS _ P Dl GP) as PR. split; [now apply edge_nz|now apply prev_nz].
Qed.
(** crossing an edge clockwise *)
Lemma cw_step c c' P e' P' : glued_at D S (fst c) (snd c) P (fst c') e' P' -> snd c' = (Datatypes.S e' mod length P')%nat ->
  corner D S c' (edge P' (snd c')) (vopp (edge P' e')) /\ vopp (edge P' e') = edge P (snd c).
Proof.
  intros G E. destruct (crossing D S V _ _ _ _ _ _ G) as [f [Dl' [Le' _]]]. destruct (glued_proper D S V PRS _ _ _ _ _ _ G) as [_ PR']. split.
  - exists P'. split; auto. split; [exact (ga_poly' _ _ _ _ _ _ _ _ G)|]. assert (Lk : (snd c' < length P')%nat) by (rewrite E; apply Nat.mod_upper_bound; lia). split; auto. split; auto.
    change (vopp (edge P' (snd c' + length P' - 1))) with (prev_edge P' (snd c')). rewrite <- (prev_test P' (snd c') Lk). rewrite (succ_pred P' e' (snd c')); auto.
  - rewrite (TR _ _ _ _ _ _ G). apply opp_opp.
Qed.
Lemma cw_loop_next f w v1 v2 c c' P e' P' codes : glued_at D S (fst c) (snd c) P (fst c') e' P' -> snd c' = (Datatypes.S e' mod length P')%nat ->
  (0 <=? ccw v2 w) && (0 <? ccw w v1) = false ->
  clockwise_loop S (Datatypes.S f) w v1 v2 (fst c) (snd c) mone codes =
  clockwise_loop S f w (vopp (edge P' e')) (edge P' (snd c')) (fst c') (snd c') mone (codes ++ [snd c]).
Proof.
  intros G E T. cbn [clockwise_loop]. rewrite T. unfold opp_pair at 1. rewrite (ga_opp _ _ _ _ _ _ _ _ G). cbn [bind fst snd].
  unfold edge_matrix. pose proof (glued_sym _ _ _ _ _ _ _ _ V G) as G'. rewrite (ga_poly _ _ _ _ _ _ _ _ G'). cbn [bind]. unfold opp_pair. rewrite (ga_opp _ _ _ _ _ _ _ _ G'). cbn [bind fst snd].
  rewrite (ga_poly _ _ _ _ _ _ _ _ G). cbn [bind]. rewrite (TR _ _ _ _ _ _ G). assert (EQ : similarity_from_vectors (vopp (edge P (snd c))) (vopp (edge P (snd c))) = mone).
  { unfold similarity_from_vectors. replace (veqb (vopp (edge P (snd c))) (vopp (edge P (snd c)))) with true; [reflexivity|]. symmetry. now apply veqb_eq. }
  rewrite EQ, mone_mul, !mone_apply. rewrite Nat.add_1_r, <- E. reflexivity.
Qed.
(** the corners from number [i] on, none of which contains [w] before number [m] *)
Lemma cw_loop w (c : nat -> L * nat) m : forall d i f codes, (i + d = m)%nat -> (d < f)%nat -> (0 < i)%nat ->
  (forall i, (i < m)%nat -> clockwise_corner D S (c i) (c (Datatypes.S i))) ->
  (forall i, (0 < i <= m)%nat -> sharp D S (c i)) -> (forall i, (0 < i < m)%nat -> ~ in_corner D S (c i) w) -> in_corner D S (c m) w ->
  forall u v, corner D S (c i) u v -> clockwise_loop S f w v u (fst (c i)) (snd (c i)) mone codes = Ok (fst (c m), snd (c m), codes ++ map (fun i => snd (c i)) (seq i d)).
Proof.
  induction d as [|d IH]; intros i f codes Em Lf I0 CC SH NI IM u v CO; (destruct f as [|f]; [lia|]).
  - assert (i = m) by lia. subst i. assert (SM : 0 < ccw u v) by (apply (SH m); [lia|exact CO]). destruct IM as [u' [v' [CO' X]]]. destruct (corner_fun _ _ _ _ _ CO CO') as [-> ->].
    cbn [clockwise_loop]. apply (test_iff u' v' w SM) in X. rewrite X. cbn [seq map]. now rewrite app_nil_r.
  - assert (SM : 0 < ccw u v) by (apply (SH i); [lia|exact CO]). assert (N : (0 <=? ccw u w) && (0 <? ccw w v) = false).
    { apply not_true_is_false. intros X. apply (test_iff u v w SM) in X. apply (NI i); [lia|]. now exists u, v. }
    destruct (CC i) as [P [e' [P' [G E]]]]; [lia|]. rewrite (cw_loop_next f w v u (c i) (c (Datatypes.S i)) P e' P' codes G E N).
    destruct (cw_step _ _ _ _ _ G E) as [CO' _]. rewrite (IH (Datatypes.S i) f _ ltac:(lia) ltac:(lia) ltac:(lia) CC SH NI IM _ _ CO'). cbn [seq map]. now rewrite <- app_assoc.
Qed.
(** the tangent vector in a corner *)
Lemma corner_vector c w u v : corner D S c u v -> 0 < ccw u v -> sector u v w \/ pos_multiple u w -> exists P t, s_poly S (fst c) = Ok P /\
  tangent_vector S (fst c) (vertex P (snd c)) w = Ok t /\ vector_at S c w t.
Proof.
  intros CO SM X. pose proof CO as [P [Dl [GP [Lk _]]]]. destruct (corner_poly _ _ _ P CO GP) as [_ [_ [Eu Ev]]]. pose proof (PRS _ P Dl GP) as PR.
  destruct (corner_nz _ _ _ CO) as [Nu Nv]. apply (ray_iff u v w SM) in X as [X1 X2]. assert (Nw : w <> vzero) by (intros ->; rewrite ccw_zero_l in X2; flra).
  exists P. rewrite (tangent_stay D S PRS (fst c) P (vertex P (snd c)) w Dl GP).
  - eexists. split; [exact GP|]. split; [reflexivity|]. exists P. split; auto. now rewrite (at_vertex P PR (snd c) Lk).
  - split; auto.
    + apply (into_vertex P PR (snd c) w Lk Nw). rewrite <- Eu, <- Ev. apply not_true_is_false. intros B. apply (is_between_spec v u w Nv Nu) in B.
      pose proof (ccw_swap u v) as SW. destruct B as [B _|B _|B H|B _]; [flra| | |].
      * destruct B as [_ [a [A0 Ea]]]. rewrite Ea in SM. destruct v; unfold ccw, vscale in SM; cbn in SM. flra.
      * apply H. exists (ccw u w / ccw u v), (ccw w v / ccw u v). split; [apply fdiv_nonneg; auto; flra|]. split; [apply fdiv_nonneg; auto; flra|].
        clear - SM. destruct u as [a b], v as [a' b'], w as [x y]. apply vec_eq; unfold ccw, vadd, vscale in *; cbn in *; field; apply neq_pos; exact SM.
      * destruct B as [_ [a [A0 Ea]]]. rewrite Ea in SM. destruct v; unfold ccw, vscale in SM; cbn in SM. flra.
    + intros Q. apply (clock_vertex P PR (snd c) w Lk) in Q. rewrite <- Ev in Q. apply ray_ccw in Q. pose proof (ccw_swap v w). flra.
Qed.
(** the vector of [t] is in the first corner *)
Lemma start_corner t k u v : tv_ok D S t -> tv_position t = AtVertex k -> corner D S (tv_label t, k) u v -> 0 < ccw u v ->
  tv_point t = vertex (match s_poly S (tv_label t) with Ok P => P | Err _ => nil end) k /\ 0 <= ccw u (tv_vector t) /\ 0 < ccw (tv_vector t) v.
Proof.
  intros [Dl [P [GP [EP NM]]]] K0 CO SM. rewrite GP. pose proof (PRS _ P Dl GP) as PR. rewrite K0 in EP. destruct (vertex_lt P PR k _ (eq_sym EP)) as [Lk Ept]. split; auto.
  destruct NM as [N I CL]. rewrite Ept in I, CL. destruct (corner_poly _ _ _ P CO GP) as [_ [_ [Eu Ev]]]. cbn [snd] in *. destruct (corner_nz _ _ _ CO) as [Nu Nv].
  apply (into_vertex P PR k _ Lk N) in I. rewrite <- Eu, <- Ev in I. set (w := tv_vector t) in *.
  assert (CN : exists a b, 0 <= a /\ 0 <= b /\ w = vadd (vscale a u) (vscale b v)).
  { set (a := ccw w v / ccw u v). set (b := ccw u w / ccw u v). assert (EW : w = vadd (vscale a u) (vscale b v)).
    { unfold a, b. clearbody w. clear - SM. destruct u as [a b], v as [a' b'], w as [x y]. apply vec_eq; unfold ccw, vadd, vscale in *; cbn in *; field; apply neq_pos; exact SM. }
    exists a, b. destruct (fltb a 0) eqn:A0; [|destruct (fltb b 0) eqn:B0; [|split; [exact A0|split; [exact B0|exact EW]]]]; exfalso;
      (assert (X : is_between v u w = true); [|congruence]); apply (is_between_spec v u w Nv Nu); apply sector_large;
      try (pose proof (ccw_swap u v); flra); intros [x [y [X0 [Y0 EX]]]].
    - assert (Q : a = y); [|clearbody a; change (a < 0) in A0; subst y; flra]. unfold a. rewrite EX. clear - SM. destruct u, v; unfold ccw, vadd, vscale in *; cbn in *; field; apply neq_pos; exact SM.
    - assert (Q : b = x); [|clearbody b; change (b < 0) in B0; subst x; flra]. unfold b. rewrite EX. clear - SM. destruct u, v; unfold ccw, vadd, vscale in *; cbn in *; field; apply neq_pos; exact SM. }
  destruct CN as [a [b [A0 [B0 EW]]]]. assert (E1 : ccw u w = b * ccw u v) by (rewrite EW; destruct u, v; unfold ccw, vadd, vscale; cbn; ring).
  assert (E2 : ccw w v = a * ccw u v) by (rewrite EW; destruct u, v; unfold ccw, vadd, vscale; cbn; ring). rewrite E1, E2.
  split; [destruct (feq_dec b 0) as [-> |Z]; [flra|apply fneq_lt in Z; destruct Z; [flra|]; assert (0 < b * ccw u v) by (apply fmul_pos; auto; flra); flra]|].
  apply fmul_pos; auto. destruct (feq_dec a 0) as [Z|Z]; [exfalso|apply fneq_lt in Z; destruct Z; flra].
  apply CL. apply (clock_vertex P PR k w Lk). rewrite <- Ev. exists b. rewrite EW, Z. assert (B1 : 0 < b).
  { apply fneq_lt in N as [N|N] || destruct (feq_dec b 0) as [B|B]. - exfalso. apply N. rewrite EW, Z, B. destruct u, v; apply vec_eq; cbn; ring. - apply fneq_lt in B. destruct B; flra. }
  split; auto. destruct u, v; apply vec_eq; cbn; ring.
Qed.

Definition codes_clockwise (c : nat -> L * nat) m := map (fun i => snd (c i)) (seq 0 m).
Lemma start_test t k u v w : tv_ok D S t -> tv_position t = AtVertex k -> corner D S (tv_label t, k) u v -> 0 < ccw u v ->
  ((0 <=? ccw u w) && (0 <? ccw w (tv_vector t)) = true <-> met_clockwise u (tv_vector t) w).
Proof.
  intros O K0 CO SM. destruct (start_corner t k u v O K0 CO SM) as [_ [A B]]. destruct (corner_nz _ _ _ CO) as [Nu Nv]. unfold met_clockwise. set (x := tv_vector t) in *.
  destruct (feq_dec (ccw u x) 0) as [Z|Z].
  - assert (PM : pos_multiple u x).
    { apply pos_multiple_iff. split; auto. split; auto. pose proof (lagr u x v) as G. rewrite Z in G. pose proof (vnz u Nu). assert (0 < ccw x v * dot u u) by now apply fmul_pos.
      destruct (flt_total (dot u x)) as [W|[W|W]]; auto; exfalso; [|rewrite W in G; flra]. assert (0 < (- dot u x) * ccw u v) by (apply fmul_pos; auto; flra). flra. }
    split; [|tauto]. intros X. exfalso. apply andb_true_iff in X as [X Y]. unfold fleb in X. rewrite negb_true_iff in X. destruct PM as [_ [a [A0 Ea]]]. rewrite Ea in Y.
    assert (Q : ccw w (vscale a u) = - (a * ccw u w)) by (destruct u, w; unfold ccw, vscale; cbn; ring). rewrite Q in Y. change (0 <= ccw u w) in X. change (0 < - (a * ccw u w)) in Y.
    destruct (feq_dec (ccw u w) 0) as [E|E]; [rewrite E in Y; flra|]. assert (0 < a * ccw u w); [|flra]. apply fmul_pos; auto. apply fneq_lt in E. destruct E; flra.
  - assert (P : 0 < ccw u x) by (apply fneq_lt in Z; destruct Z; flra). rewrite (test_iff u x w P). split; [|tauto]. intros X. split; auto. intros [_ [a [A0 Ea]]]. apply Z. rewrite Ea. destruct u; unfold ccw, vscale; cbn; ring.
Qed.
Lemma clockwise_ok t w (c : nat -> L * nat) m : tv_ok D S t -> w <> vzero -> (m < rotate_limit)%nat -> first_clockwise D S t w c m ->
  (forall i, (i <= m)%nat -> sharp D S (c i)) -> exists t', vector_at S (c m) w t' /\ clockwise_to S t w = Ok (t', codes_clockwise c m).
Proof.
  intros O Nw Lm [L0 [P0 [CC [F0 [FN FM]]]]] SH. pose proof O as [Dl [P [GP [EP _]]]]. pose proof (PRS _ P Dl GP) as PR. rewrite P0 in EP. destruct (vertex_lt P PR _ _ (eq_sym EP)) as [Lk _].
  assert (E0 : c 0%nat = (tv_label t, snd (c 0%nat))) by (rewrite <- L0; now destruct (c 0%nat)).
  assert (CO : corner D S (c 0%nat) (edge P (snd (c 0%nat))) (prev_edge P (snd (c 0%nat)))) by (exists P; rewrite L0; repeat split; auto).
  assert (SM := SH 0%nat ltac:(lia) _ _ CO). pose proof CO as CO'. rewrite E0 in CO'. cbn [snd] in CO'. pose proof (start_test t _ _ _ w O P0 CO' SM) as ST. rewrite <- (F0 _ _ CO) in ST.
  unfold clockwise_to. replace (veqb w vzero) with false by (symmetry; now apply veqb_neq). rewrite P0, GP. cbn [bind].
  assert (LP : clockwise_loop S rotate_limit w (tv_vector t) (edge P (snd (c 0%nat))) (tv_label t) (snd (c 0%nat)) mone [] = Ok (fst (c m), snd (c m), codes_clockwise c m)).
  { unfold rotate_limit in *. destruct (Nat.eq_dec m 0) as [-> |M].
    - cbn [clockwise_loop]. rewrite (proj2 ST eq_refl), L0. reflexivity.
    - destruct (CC 0%nat) as [P1 [e' [P' [G E]]]]; [lia|]. assert (TF : (0 <=? ccw (edge P (snd (c 0%nat))) w) && (0 <? ccw w (tv_vector t)) = false) by (apply not_true_is_false; intros X; apply M, ST, X).
      rewrite <- L0. rewrite (cw_loop_next 99 w (tv_vector t) (edge P (snd (c 0%nat))) (c 0%nat) (c 1%nat) P1 e' P' [] G E TF). destruct (cw_step _ _ _ _ _ G E) as [CO1 _].
      rewrite (cw_loop w c m (m - 1) 1 99 _ ltac:(lia) ltac:(lia) ltac:(lia) CC (fun i I => SH i (proj2 I)) FN (FM ltac:(lia)) _ _ CO1). unfold codes_clockwise. f_equal. f_equal. replace m with (Datatypes.S (m - 1)) at 2 by lia. reflexivity. }
  rewrite LP. cbn [bind]. assert (IC : exists u v, corner D S (c m) u v /\ 0 < ccw u v /\ (sector u v w \/ pos_multiple u w)).
  { destruct (Nat.eq_dec m 0) as [-> |M].
    - exists (edge P (snd (c 0%nat))), (prev_edge P (snd (c 0%nat))). split; auto. split; auto. apply (ray_iff _ _ _ SM). destruct ST as [_ ST]. specialize (ST eq_refl). apply andb_true_iff in ST as [X Y].
      unfold fleb in X. rewrite negb_true_iff in X. split; [exact X|]. change (0 < ccw w (tv_vector t)) in Y. change (0 <= ccw (edge P (snd (c 0%nat))) w) in X.
      destruct (start_corner t _ _ _ O P0 CO' SM) as [_ [A B]].
      set (u := edge P (snd (c 0%nat))) in *. set (v := prev_edge P (snd (c 0%nat))) in *. set (x := tv_vector t) in *. clearbody u v x.
      assert (I : ccw w v * ccw u x = ccw x v * ccw u w + ccw w x * ccw u v) by (destruct u, v, w, x; unfold ccw; cbn; ring).
      assert (0 < ccw w x * ccw u v) by now apply fmul_pos. assert (0 <= ccw x v * ccw u w) by (apply fmul_nonneg; auto; flra).
      destruct (flt_total (ccw w v)) as [W|[W|W]]; auto; exfalso; [|rewrite W in I; flra]. assert (0 <= (- ccw w v) * ccw u x) by (apply fmul_nonneg; auto; flra). flra.
    - destruct (FM ltac:(lia)) as [u [v [CM X]]]. exists u, v. split; auto. split; auto. exact (SH m (le_n m) _ _ CM). }
  destruct IC as [u [v [CM [SMm X]]]]. destruct (corner_vector _ _ _ _ CM SMm X) as [Q [t' [GQ [ET VA]]]]. exists t'. split; auto. rewrite GQ. cbn [bind]. rewrite ET. reflexivity.
Qed.

(** Turning clockwise around a vertex meets every direction. *)
Definition U w x := 0 < ccw w x \/ (ccw w x = 0 /\ dot w x < 0).
Lemma U_dec w x : U w x \/ ~ U w x.
Proof. unfold U. destruct (flt_total (ccw w x)) as [A|[A|A]], (flt_total (dot w x)) as [B|[B|B]]; auto; right; intros [X|[X Y]]; flra. Qed.
Lemma U_opp w x : w <> vzero -> x <> vzero -> ~ U w x -> U w (vopp x).
Proof.
  intros Nw Nx H. assert (E1 : ccw w (vopp x) = - ccw w x) by (destruct w, x; unfold ccw; cbn; ring). assert (E2 : dot w (vopp x) = - dot w x) by (destruct w, x; unfold dot; cbn; ring).
  unfold U in *. rewrite E1, E2. destruct (flt_total (ccw w x)) as [A|[A|A]]; [left; flra| |exfalso; auto]. right. split; [flra|].
  destruct (flt_total (dot w x)) as [B|[B|B]]; [exfalso; auto| |flra]. exfalso. apply Nx. now apply (dir_zero w x).
Qed.
Lemma U_trans w a b d : w <> vzero -> U w a -> U w b -> U w d -> 0 < ccw a b -> 0 < ccw b d -> 0 < ccw a d.
Proof.
  intros Nw Ua Ub Ud P Q. pose proof (vnz w Nw) as N. pose proof (lagr w a b) as G1. pose proof (lagr w b d) as G2. pose proof (lagr w a d) as G3.
  assert (P' : 0 < ccw a b * dot w w) by now apply fmul_pos. assert (Q' : 0 < ccw b d * dot w w) by now apply fmul_pos. rewrite G1 in P'. rewrite G2 in Q'.
  assert (R : 0 < ccw a d * dot w w); [|destruct (flt_total (ccw a d)) as [W|[W|W]]; auto; exfalso; [assert (0 < (- ccw a d) * dot w w) by (apply fmul_pos; auto; flra)|rewrite W in R]; flra]. rewrite G3. clear G1 G2 G3 P Q.
  unfold U in *. set (A := ccw w a) in *. set (B := ccw w b) in *. set (E := ccw w d) in *. set (A' := dot w a) in *. set (B' := dot w b) in *. set (E' := dot w d) in *. clearbody A B E A' B' E'.
  assert (B0 : 0 < B).
  { destruct Ub as [X|[X Y]]; auto. exfalso. subst B. assert (0 <= E) by (destruct Ud as [X|[X _]]; flra). assert (0 <= (- B') * E) by (apply fmul_nonneg; auto; flra). flra. }
  assert (I : (A' * E - A * E') * B = (A' * B - A * B') * E + (B' * E - B * E') * A) by ring.
  assert (R : 0 < (A' * E - A * E') * B).
  { rewrite I. destruct Ua as [X|[X X']], Ud as [Y|[Y Y']].
    - assert (0 < (A' * B - A * B') * E) by now apply fmul_pos. assert (0 < (B' * E - B * E') * A) by now apply fmul_pos. flra.
    - assert (0 < (B' * E - B * E') * A) by now apply fmul_pos. rewrite Y in *. flra.
    - assert (0 < (A' * B - A * B') * E) by now apply fmul_pos. rewrite X in *. flra.
    - exfalso. subst A. assert (0 < (- A') * B) by (apply fmul_pos; auto; flra). flra. }
  set (z := A' * E - A * E') in *. clearbody z. destruct (flt_total z) as [W|[W|W]]; auto; exfalso; [assert (0 < (- z) * B) by (apply fmul_pos; auto; flra)|rewrite W in R]; flra.
Qed.
Lemma U_step w u v : w <> vzero -> 0 < ccw u v -> ~ (0 <= ccw u w /\ 0 < ccw w v) -> U w v -> U w u.
Proof.
  intros Nw P H X. pose proof (lagr w u v) as G. pose proof (vnz w Nw) as N. assert (P' : 0 < ccw u v * dot w w) by now apply fmul_pos. rewrite G in P'. clear G.
  unfold U in *. rewrite (ccw_swap w u) in H. set (A := ccw w u) in *. set (B := ccw w v) in *. set (A' := dot w u) in *. set (B' := dot w v) in *. clearbody A B A' B'.
  destruct X as [X|[X Y]].
  - left. destruct (flt_total A) as [Z|[Z|Z]]; auto; exfalso; apply H; split; auto; flra.
  - left. subst B. destruct (flt_total A) as [Z|[Z|Z]]; auto; exfalso; [|rewrite Z in P'; flra]. assert (0 < (- A) * (- B')) by (apply fmul_pos; flra). flra.
Qed.
Lemma ccw_opp2 (a b : vec K) : ccw (vopp a) (vopp b) = ccw a b.
Proof. destruct a, b; unfold ccw; cbn; ring. Qed.
Lemma half_chain w (q : nat -> vec K) N : w <> vzero -> (forall i, (i <= N)%nat -> U w (q i)) -> (forall i, (i < N)%nat -> 0 < ccw (q (Datatypes.S i)) (q i)) ->
  forall i, (0 < i <= N)%nat -> 0 < ccw (q i) (q 0%nat).
Proof.
  intros Nw HU HC. induction i as [|i IH]; intros I; [lia|]. destruct (Nat.eq_dec i 0) as [-> |Z]; [apply HC; lia|].
  apply (U_trans w (q (Datatypes.S i)) (q i) (q 0%nat) Nw); [apply HU; lia|apply HU; lia|apply HU; lia|apply HC; lia|apply IH; lia].
Qed.
Lemma turn_meets w (q : nat -> vec K) N : w <> vzero -> (0 < N)%nat -> q N = q 0%nat -> (forall i, (i <= N)%nat -> q i <> vzero) -> (forall i, (i < N)%nat -> 0 < ccw (q (Datatypes.S i)) (q i)) ->
  exists i, (i < N)%nat /\ 0 <= ccw (q (Datatypes.S i)) w /\ 0 < ccw w (q i).
Proof.
  intros Nw N0 CY NZ HC. assert (DEC : (exists i, (i < N)%nat /\ 0 <= ccw (q (Datatypes.S i)) w /\ 0 < ccw w (q i)) \/ forall i, (i < N)%nat -> ~ (0 <= ccw (q (Datatypes.S i)) w /\ 0 < ccw w (q i))).
  { clear. induction N as [|N [[i [I X]]|IH]]; [right; intros; lia|left; exists i; split; auto|].
    destruct (fltb (ccw (q (Datatypes.S N)) w) 0) eqn:A; [|destruct (fltb 0 (ccw w (q N))) eqn:B; [left; exists N; split; [lia|split; [exact A|exact B]]|]];
      (right; intros i I; destruct (Nat.eq_dec i N) as [-> |Z]; [|apply IH; lia]); intros [X Y]; unfold fle, flt in *; congruence. }
  destruct DEC as [X|X]; [exact X|exfalso]. assert (ST : forall i, (i < N)%nat -> U w (q i) -> U w (q (Datatypes.S i))) by (intros i I Y; exact (U_step w _ _ Nw (HC i I) (X i I) Y)).
  assert (SELF : ccw (q 0%nat) (q 0%nat) = 0) by (destruct (q 0%nat); unfold ccw; cbn; ring).
  destruct (U_dec w (q 0%nat)) as [Y|Y].
  - assert (ALL : forall i, (i <= N)%nat -> U w (q i)) by (induction i as [|i IH]; intros I; [exact Y|apply ST; [lia|apply IH; lia]]).
    assert (Q : 0 < ccw (q N) (q 0%nat)) by (apply (half_chain w q N Nw ALL HC N); lia). rewrite CY in Q. flra.
  - assert (ALL' : forall d i, (i + d = N)%nat -> ~ U w (q i)) by (induction d as [|d IH]; intros i I; [assert (i = N) by lia; subst i; now rewrite CY|intros Z; apply (IH (Datatypes.S i)); [lia|apply ST; [lia|exact Z]]]).
    set (q' := fun i => vopp (q i)). assert (ALL : forall i, (i <= N)%nat -> U w (q' i)) by (intros i I; apply U_opp; auto; apply (ALL' (N - i)%nat); lia).
    assert (OP : forall a b : vec K, ccw (vopp a) (vopp b) = ccw a b) by exact ccw_opp2.
    assert (HC' : forall i, (i < N)%nat -> 0 < ccw (q' (Datatypes.S i)) (q' i)) by (intros i I; unfold q'; rewrite OP; auto).
    assert (Q : 0 < ccw (q' N) (q' 0%nat)) by (apply (half_chain w q' N Nw ALL HC' N); lia). unfold q' in Q. rewrite OP, CY in Q. flra.
Qed.

(** the two directions of a corner *)
Definition cfirst (c : L * nat) : vec K := match s_poly S (fst c) with Ok P => edge P (snd c) | Err _ => vzero end.
Definition csecond (c : L * nat) : vec K := match s_poly S (fst c) with Ok P => prev_edge P (snd c) | Err _ => vzero end.
Lemma corner_canon c u v : corner D S c u v -> u = cfirst c /\ v = csecond c.
Proof. intros [P [_ [GP [_ [A B]]]]]. unfold cfirst, csecond. rewrite GP. auto. Qed.
Lemma in_corner_dec c u v w : corner D S c u v -> 0 < ccw u v -> in_corner D S c w \/ ~ in_corner D S c w.
Proof.
  intros CO SM. destruct ((0 <=? ccw u w) && (0 <? ccw w v)) eqn:T; [left; exists u, v; split; auto; now apply test_iff|].
  right. intros [u' [v' [CO' X]]]. destruct (corner_fun _ _ _ _ _ CO CO') as [<- <-]. apply (test_iff u v w SM) in X. congruence.
Qed.
Lemma least_corner (Q : nat -> Prop) : (forall i, Q i \/ ~ Q i) -> forall n, (exists i, (i <= n)%nat /\ Q i) -> exists i, (i <= n)%nat /\ Q i /\ forall j, (j < i)%nat -> ~ Q j.
Proof.
  intros DEC. induction n as [|n IH]; intros [i [I X]].
  - exists i. split; auto. split; auto. intros j J. lia.
  - assert (EX : (exists i, (i <= n)%nat /\ Q i) \/ ~ exists i, (i <= n)%nat /\ Q i).
    { clear - DEC. induction n as [|n [[i [I X]]|IH]].
      - destruct (DEC 0%nat) as [A|A]; [left; now exists 0%nat|right; intros [i [I X]]; assert (i = 0)%nat by lia; now subst i].
      - left. exists i. split; auto.
      - destruct (DEC (Datatypes.S n)) as [A|A]; [left; now exists (Datatypes.S n)|]. right. intros [i [I X]]. destruct (Nat.eq_dec i (Datatypes.S n)) as [-> |Z]; [auto|]. apply IH. exists i. split; [lia|auto]. }
    destruct EX as [EX|EX]; [destruct (IH EX) as [j [J Y]]; exists j; split; [lia|exact Y]|].
    exists i. split; auto. split; auto. intros j J Y. apply EX. exists j. split; [lia|auto].
Qed.
Lemma first_least N (Q : nat -> Prop) (c : nat -> L * nat) w : (forall i, (0 < i <= N)%nat -> exists u v, corner D S (c i) u v /\ 0 < ccw u v) -> (Q 0%nat \/ ~ Q 0%nat) ->
  (exists i, (0 < i <= N)%nat /\ in_corner D S (c i) w) -> exists m, (m <= N)%nat /\ (m = 0%nat <-> Q 0%nat) /\ (forall i, (0 < i < m)%nat -> ~ in_corner D S (c i) w) /\ ((0 < m)%nat -> in_corner D S (c m) w).
Proof.
  intros CO D0 EX. destruct D0 as [D0|D0]; [exists 0%nat; split; [lia|]; split; [tauto|]; split; intros; lia|].
  destruct (least_corner (fun i => (0 < i <= N)%nat /\ in_corner D S (c i) w)) with (n := N) as [m [M1 [[M2 M3] M4]]].
  - intros i. destruct (Nat.eq_dec i 0) as [-> |Z]; [right; lia|]. destruct (le_dec i N); [|right; lia]. destruct (CO i) as [u [v [A B]]]; [lia|].
    destruct (in_corner_dec (c i) u v w A B) as [X|X]; [left; split; [lia|auto]|right; tauto].
  - destruct EX as [i [I X]]. exists i. split; [lia|auto].
  - exists m. split; auto. split; [split; [lia|tauto]|]. split; auto. intros i I X. apply (M4 i); [lia|]. split; [lia|auto].
Qed.

Lemma clockwise_found t w (c : nat -> L * nat) N : tv_ok D S t -> w <> vzero -> fst (c 0%nat) = tv_label t -> tv_position t = AtVertex (snd (c 0%nat)) ->
  (0 < N)%nat -> c N = c 0%nat -> (forall i, (i < N)%nat -> clockwise_corner D S (c i) (c (Datatypes.S i))) -> (forall i, (i <= N)%nat -> sharp D S (c i)) ->
  exists m, (m <= N)%nat /\ first_clockwise D S t w c m.
Proof.
  intros O Nw L0 P0 N0 CY CC SH. pose proof O as [Dl [P [GP [EP _]]]]. pose proof (PRS _ P Dl GP) as PR. rewrite P0 in EP. destruct (vertex_lt P PR _ _ (eq_sym EP)) as [Lk _].
  assert (CO0 : corner D S (c 0%nat) (edge P (snd (c 0%nat))) (prev_edge P (snd (c 0%nat)))) by (exists P; rewrite L0; repeat split; auto).
  assert (CO : forall i, (i < N)%nat -> corner D S (c (Datatypes.S i)) (cfirst (c (Datatypes.S i))) (cfirst (c i))).
  { intros i I. destruct (CC i I) as [P1 [e' [P' [G E]]]]. destruct (cw_step _ _ _ _ _ G E) as [A B]. rewrite B in A. destruct (corner_canon _ _ _ A) as [EA _]. rewrite <- EA.
    unfold cfirst at 1. rewrite (ga_poly _ _ _ _ _ _ _ _ G). exact A. }
  assert (SM : forall i, (i < N)%nat -> 0 < ccw (cfirst (c (Datatypes.S i))) (cfirst (c i))) by (intros i I; apply (SH (Datatypes.S i) ltac:(lia)); now apply CO).
  assert (NZ : forall i, (i <= N)%nat -> cfirst (c i) <> vzero).
  { intros [|i] I; [destruct (corner_canon _ _ _ CO0) as [<- _]; now apply (corner_nz _ _ _ CO0)|]. exact (proj1 (corner_nz _ _ _ (CO i ltac:(lia)))). }
  destruct (turn_meets w (fun i => cfirst (c i)) N Nw N0 (f_equal cfirst CY) NZ SM) as [i [I X]].
  assert (IC : in_corner D S (c (Datatypes.S i)) w) by (exists (cfirst (c (Datatypes.S i))), (cfirst (c i)); split; [now apply CO|]; apply ray_iff; auto).
  destruct (first_least N (fun _ => met_clockwise (edge P (snd (c 0%nat))) (tv_vector t) w) c w) as [m [M1 [M2 [M3 M4]]]].
  - intros j J. destruct j as [|j]; [lia|]. exists (cfirst (c (Datatypes.S j))), (cfirst (c j)). split; [apply CO; lia|apply SM; lia].
  - assert (E0 : c 0%nat = (tv_label t, snd (c 0%nat))) by (rewrite <- L0; now destruct (c 0%nat)). assert (S0 := SH 0%nat ltac:(lia) _ _ CO0). pose proof CO0 as CO'. rewrite E0 in CO'. cbn [snd] in CO'.
    rewrite <- (start_test t _ _ _ w O P0 CO' S0). destruct ((_ <=? _) && _); auto.
  - exists (Datatypes.S i). split; [lia|auto].
  - exists m. split; auto. split; auto. split; auto. split; [intros j J; apply CC; lia|]. split; [|split; auto]. intros u v CU. destruct (corner_fun _ _ _ _ _ CU CO0) as [-> _]. exact M2.
Qed.

(** *** counterclockwise *)
Lemma ccw_step c c' e P P' : glued_at D S (fst c) e P (fst c') (snd c') P' -> (snd c < length P)%nat -> snd c = (Datatypes.S e mod length P)%nat ->
  corner D S c' (edge P' (snd c')) (prev_edge P' (snd c')) /\ edge P' (snd c') = prev_edge P (snd c) /\ e = ((snd c + length P - 1) mod length P)%nat.
Proof.
  intros G Lk E. destruct (crossing D S V _ _ _ _ _ _ G) as [f [Dl' [Le' _]]]. destruct (glued_proper D S V PRS _ _ _ _ _ _ G) as [PR PR']. pose proof (ga_edge _ _ _ _ _ _ _ _ G) as Le.
  assert (EE : ((snd c + length P - 1) mod length P)%nat = e) by (apply succ_pred; auto).
  split; [|split]; auto.
  - exists P'. split; auto. split; [exact (ga_poly' _ _ _ _ _ _ _ _ G)|]. auto.
  - rewrite (TR _ _ _ _ _ _ G), <- (prev_test P (snd c) Lk), EE. reflexivity.
Qed.
Definition ccw_code (c : L * nat) : nat := match s_poly S (fst c) with Ok P => ((snd c + length P - 1) mod length P)%nat | Err _ => 0%nat end.
Lemma ccw_loop_next f w c c' codes : counterclockwise_corner D S c c' -> counterclockwise_loop S (Datatypes.S f) w (fst c) (snd c) (ccw_code c) mone codes =
  if (0 <=? ccw (cfirst c') w) && (0 <? ccw w (csecond c')) then Ok (fst c', snd c', codes ++ [ccw_code c])
  else counterclockwise_loop S f w (fst c') (snd c') (ccw_code c') mone (codes ++ [ccw_code c]).
Proof.
  intros [e [P [P' [G [Lk E]]]]]. destruct (ccw_step _ _ _ _ _ G Lk E) as [CO [_ EE]]. assert (EC : ccw_code c = e) by (unfold ccw_code; now rewrite (ga_poly _ _ _ _ _ _ _ _ G)).
  destruct (corner_canon _ _ _ CO) as [E1 E2]. rewrite EC. cbn [counterclockwise_loop]. unfold opp_pair at 1. rewrite (ga_opp _ _ _ _ _ _ _ _ G). cbn [bind fst snd].
  unfold edge_matrix. pose proof (glued_sym _ _ _ _ _ _ _ _ V G) as G'. rewrite (ga_poly _ _ _ _ _ _ _ _ G'). cbn [bind]. unfold opp_pair at 1. rewrite (ga_opp _ _ _ _ _ _ _ _ G'). cbn [bind fst snd].
  rewrite (ga_poly _ _ _ _ _ _ _ _ G). cbn [bind]. assert (EQ : similarity_from_vectors (edge P' (snd c')) (vopp (edge P e)) = mone).
  { rewrite (TR _ _ _ _ _ _ G). unfold similarity_from_vectors. replace (veqb (vopp (edge P e)) (vopp (edge P e))) with true; [reflexivity|]. symmetry. now apply veqb_eq. }
  rewrite EQ, mone_mul, !mone_apply. destruct (crossing D S V _ _ _ _ _ _ G) as [_ [_ [Le' _]]]. rewrite (prev_test P' (snd c') Le'), E1, E2.
  unfold ccw_code. rewrite (ga_poly' _ _ _ _ _ _ _ _ G). reflexivity.
Qed.
Definition codes_counterclockwise (c : nat -> L * nat) m := map (fun i => ccw_code (c i)) (seq 0 m).
Lemma ccw_corner_of c c' : counterclockwise_corner D S c c' -> corner D S c' (cfirst c') (csecond c') /\ cfirst c' = csecond c.
Proof.
  intros [e [P [P' [G [Lk E]]]]]. destruct (ccw_step _ _ _ _ _ G Lk E) as [CO [EQ _]]. destruct (corner_canon _ _ _ CO) as [E1 E2]. rewrite <- E1, <- E2. split; auto. rewrite EQ. unfold csecond. now rewrite (ga_poly _ _ _ _ _ _ _ _ G).
Qed.
Lemma ccw_loop w (c : nat -> L * nat) m : forall d i f codes, (i + Datatypes.S d = m)%nat -> (d < f)%nat ->
  (forall i, (i < m)%nat -> counterclockwise_corner D S (c i) (c (Datatypes.S i))) ->
  (forall i, (0 < i <= m)%nat -> sharp D S (c i)) -> (forall i, (0 < i < m)%nat -> ~ in_corner D S (c i) w) -> in_corner D S (c m) w ->
  counterclockwise_loop S f w (fst (c i)) (snd (c i)) (ccw_code (c i)) mone codes = Ok (fst (c m), snd (c m), codes ++ map (fun i => ccw_code (c i)) (seq i (Datatypes.S d))).
Proof.
  induction d as [|d IH]; intros i f codes Em Lf CC SH NI IM; (destruct f as [|f]; [lia|]); rewrite (ccw_loop_next f w (c i) (c (Datatypes.S i)) codes (CC i ltac:(lia)));
    destruct (ccw_corner_of _ _ (CC i ltac:(lia))) as [CO _]; assert (SM : 0 < ccw (cfirst (c (Datatypes.S i))) (csecond (c (Datatypes.S i)))) by (apply (SH (Datatypes.S i)); [lia|exact CO]).
  - assert (Q : Datatypes.S i = m) by lia. rewrite Q in *. destruct IM as [u [v [CO' X]]]. destruct (corner_fun _ _ _ _ _ CO CO') as [<- <-]. apply (test_iff _ _ w SM) in X. rewrite X. reflexivity.
  - assert (T : (0 <=? ccw (cfirst (c (Datatypes.S i))) w) && (0 <? ccw w (csecond (c (Datatypes.S i)))) = false).
    { apply not_true_is_false. intros X. apply (test_iff _ _ w SM) in X. apply (NI (Datatypes.S i)); [lia|]. eexists _, _. split; [exact CO|exact X]. }
    rewrite T, (IH (Datatypes.S i) f _ ltac:(lia) ltac:(lia) CC SH NI IM). cbn [seq map]. now rewrite <- app_assoc.
Qed.
Lemma ccw_start_test t k u v w : tv_ok D S t -> tv_position t = AtVertex k -> corner D S (tv_label t, k) u v -> 0 < ccw u v ->
  ((0 <? ccw (tv_vector t) w) && (0 <? ccw w v) = true <-> sector (tv_vector t) v w).
Proof. intros O K0 CO SM. destruct (start_corner t k u v O K0 CO SM) as [_ [_ B]]. rewrite andb_true_iff, (small_sector _ _ w B). reflexivity. Qed.
Lemma counterclockwise_ok t w (c : nat -> L * nat) m : tv_ok D S t -> w <> vzero -> (m <= rotate_limit)%nat -> first_counterclockwise D S t w c m ->
  (forall i, (i <= m)%nat -> sharp D S (c i)) -> exists t', vector_at S (c m) w t' /\ counterclockwise_to S t w = Ok (t', codes_counterclockwise c m).
Proof.
  intros O Nw Lm [L0 [P0 [CC [F0 [FN FM]]]]] SH. pose proof O as [Dl [P [GP [EP _]]]]. pose proof (PRS _ P Dl GP) as PR. rewrite P0 in EP. destruct (vertex_lt P PR _ _ (eq_sym EP)) as [Lk _].
  assert (E0 : c 0%nat = (tv_label t, snd (c 0%nat))) by (rewrite <- L0; now destruct (c 0%nat)).
  assert (CO : corner D S (c 0%nat) (edge P (snd (c 0%nat))) (prev_edge P (snd (c 0%nat)))) by (exists P; rewrite L0; repeat split; auto).
  assert (SM := SH 0%nat ltac:(lia) _ _ CO). pose proof CO as CO'. rewrite E0 in CO'. cbn [snd] in CO'. pose proof (ccw_start_test t _ _ _ w O P0 CO' SM) as ST. rewrite <- (F0 _ _ CO) in ST.
  unfold counterclockwise_to. replace (veqb w vzero) with false by (symmetry; now apply veqb_neq). rewrite P0, GP. cbn [bind]. rewrite (prev_test P (snd (c 0%nat)) Lk).
  assert (CD : ccw_code (c 0%nat) = ((snd (c 0%nat) + length P - 1) mod length P)%nat) by (unfold ccw_code; now rewrite L0, GP). rewrite <- CD.
  assert (LP : (if (0 <? ccw (tv_vector t) w) && (0 <? ccw w (prev_edge P (snd (c 0%nat)))) then Ok (tv_label t, snd (c 0%nat), nil)
    else counterclockwise_loop S rotate_limit w (tv_label t) (snd (c 0%nat)) (ccw_code (c 0%nat)) mone []) = Ok (fst (c m), snd (c m), codes_counterclockwise c m)).
  { unfold rotate_limit in *. destruct (Nat.eq_dec m 0) as [-> |M].
    - rewrite (proj2 ST eq_refl), L0. reflexivity.
    - assert (TF : (0 <? ccw (tv_vector t) w) && (0 <? ccw w (prev_edge P (snd (c 0%nat)))) = false) by (apply not_true_is_false; intros X; apply M, ST, X).
      rewrite TF, <- L0. rewrite (ccw_loop w c m (m - 1) 0 100 [] ltac:(lia) ltac:(lia) CC (fun i I => SH i (proj2 I)) FN (FM ltac:(lia))). unfold codes_counterclockwise. f_equal. f_equal. replace m with (Datatypes.S (m - 1)) at 2 by lia. reflexivity. }
  rewrite LP. cbn [bind]. assert (IC : exists u v, corner D S (c m) u v /\ 0 < ccw u v /\ (sector u v w \/ pos_multiple u w)).
  { destruct (Nat.eq_dec m 0) as [-> |M].
    - exists (edge P (snd (c 0%nat))), (prev_edge P (snd (c 0%nat))). split; auto. split; auto. apply (ray_iff _ _ _ SM). destruct ST as [_ ST]. specialize (ST eq_refl). apply andb_true_iff in ST as [X Y].
      split; [|exact Y]. change (0 < ccw (tv_vector t) w) in X. change (0 < ccw w (prev_edge P (snd (c 0%nat)))) in Y.
      destruct (start_corner t _ _ _ O P0 CO' SM) as [_ [A B]].
      set (u := edge P (snd (c 0%nat))) in *. set (v := prev_edge P (snd (c 0%nat))) in *. set (x := tv_vector t) in *. clearbody u v x.
      assert (I : ccw u w * ccw x v = ccw u x * ccw w v + ccw u v * ccw x w) by (destruct u, v, w, x; unfold ccw; cbn; ring).
      assert (0 < ccw u v * ccw x w) by now apply fmul_pos. assert (0 <= ccw u x * ccw w v) by (apply fmul_nonneg; auto; flra).
      destruct (flt_total (ccw u w)) as [W|[W|W]]; [exfalso|rewrite W; flra|flra]. assert (0 <= (- ccw u w) * ccw x v) by (apply fmul_nonneg; auto; flra). flra.
    - destruct (FM ltac:(lia)) as [u [v [CM X]]]. exists u, v. split; auto. split; auto. exact (SH m (le_n m) _ _ CM). }
  destruct IC as [u [v [CM [SMm X]]]]. destruct (corner_vector _ _ _ _ CM SMm X) as [Q [t' [GQ [ET VA]]]]. exists t'. split; auto. rewrite GQ. cbn [bind]. rewrite ET. reflexivity.
Qed.
Lemma counterclockwise_found t w (c : nat -> L * nat) N : tv_ok D S t -> w <> vzero -> fst (c 0%nat) = tv_label t -> tv_position t = AtVertex (snd (c 0%nat)) ->
  (0 < N)%nat -> c N = c 0%nat -> (forall i, (i < N)%nat -> counterclockwise_corner D S (c i) (c (Datatypes.S i))) -> (forall i, (i <= N)%nat -> sharp D S (c i)) ->
  exists m, (m <= N)%nat /\ first_counterclockwise D S t w c m.
Proof.
  intros O Nw L0 P0 N0 CY CC SH. pose proof O as [Dl [P [GP [EP _]]]]. pose proof (PRS _ P Dl GP) as PR. rewrite P0 in EP. destruct (vertex_lt P PR _ _ (eq_sym EP)) as [Lk _].
  assert (CO0 : corner D S (c 0%nat) (edge P (snd (c 0%nat))) (prev_edge P (snd (c 0%nat)))) by (exists P; rewrite L0; repeat split; auto).
  assert (CO : forall i, (i < N)%nat -> corner D S (c (Datatypes.S i)) (csecond (c i)) (csecond (c (Datatypes.S i)))).
  { intros i I. destruct (ccw_corner_of _ _ (CC i I)) as [A B]. now rewrite B in A. }
  assert (SM : forall i, (i < N)%nat -> 0 < ccw (csecond (c i)) (csecond (c (Datatypes.S i)))) by (intros i I; apply (SH (Datatypes.S i) ltac:(lia)); now apply CO).
  assert (NZ : forall i, (i <= N)%nat -> csecond (c i) <> vzero).
  { intros [|i] I; [destruct (corner_canon _ _ _ CO0) as [_ <-]; now apply (corner_nz _ _ _ CO0)|]. exact (proj2 (corner_nz _ _ _ (CO i ltac:(lia)))). }
  destruct (turn_meets w (fun i => csecond (c (N - i)%nat)) N Nw N0) as [i [I X]].
  - rewrite Nat.sub_diag, Nat.sub_0_r. now rewrite CY.
  - intros i I. apply NZ. lia.
  - intros i I. replace (N - i)%nat with (Datatypes.S (N - Datatypes.S i)) by lia. apply SM. lia.
  - set (j := (N - Datatypes.S i)%nat) in *. replace (N - i)%nat with (Datatypes.S j) in X by lia. assert (J : (j < N)%nat) by lia.
    assert (IC : in_corner D S (c (Datatypes.S j)) w) by (exists (csecond (c j)), (csecond (c (Datatypes.S j))); split; [now apply CO|]; apply ray_iff; auto).
    destruct (first_least N (fun _ => sector (tv_vector t) (prev_edge P (snd (c 0%nat))) w) c w) as [m [M1 [M2 [M3 M4]]]].
    + intros k Hk. destruct k as [|k]; [lia|]. exists (csecond (c k)), (csecond (c (Datatypes.S k))). split; [apply CO; lia|apply SM; lia].
    + assert (E0 : c 0%nat = (tv_label t, snd (c 0%nat))) by (rewrite <- L0; now destruct (c 0%nat)). assert (S0 := SH 0%nat ltac:(lia) _ _ CO0). pose proof CO0 as CO'. rewrite E0 in CO'. cbn [snd] in CO'.
      rewrite <- (ccw_start_test t _ _ _ w O P0 CO' S0). destruct ((_ <? _) && _); auto.
    + exists (Datatypes.S j). split; [lia|auto].
    + exists m. split; auto. split; auto. split; auto. split; [intros k Hk; apply CC; lia|]. split; [|split; auto]. intros u v CU. destruct (corner_fun _ _ _ _ _ CU CO0) as [_ ->]. exact M2.
Qed.
End R.
