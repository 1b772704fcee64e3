(** [triangulate] triangulates. *)
From Coq Require Import List Bool ZArith Arith Lia Ring Field Permutation.
From Verif Require Import OField FMicromega PField MBase MDict PDict MEuclid SEuclid PEuclid MSim SSim MPoly SPoint PPoly PPoint PSurf3 MMut SMut PMut PMut2 PMut3
  PBuild PCover SCut PSimple PFlip PJordan PJordan2 PJordan3 PJordan4 PJordan5 MEar SEar PEar PEar2 PEar3 PEar4.
Import ListNotations.

Lemma seq_cyc n u w : (3 <= n)%nat -> In (u, w) (cyc (seq 0 n)) <-> (u < n /\ w = (u + 1) mod n)%nat.
Proof.
  intros N. assert (E : cyc (seq 0 n) = map (fun i => (i, (i + 1) mod n)) (seq 0 n)).
  { destruct n as [|m]; [lia|]. change (cyc (seq 0 (S m))) with (segs (seq 0 (S m) ++ [0])). rewrite (segs_nth _ 0%nat).
    rewrite app_length, seq_length. cbn [length]. rewrite Nat.add_sub. apply map_ext_in. intros i Hi. apply in_seq in Hi.
    rewrite app_nth1 by (rewrite seq_length; lia). rewrite seq_nth by lia. f_equal. destruct (Nat.eq_dec i m) as [->|NE].
    - rewrite app_nth2 by (rewrite seq_length; lia). rewrite seq_length, Nat.sub_diag, Nat.add_1_r, Nat.mod_same by lia. reflexivity.
    - rewrite app_nth1 by (rewrite seq_length; lia). rewrite seq_nth, Nat.mod_small by lia. lia. }
  rewrite E, in_map_iff. split.
  - intros [i [[= <- <-] I]]. apply in_seq in I. split; [lia|auto].
  - intros [L ->]. exists u. split; auto. apply in_seq. lia.
Qed.

Section G.
Context {K : OField}.
Add Field KFear5 : (of_ft K).
Local Open Scope F_scope.
Notation nv := (@length (vec K) : polygon K -> nat).
Notation surf := (@surf (polygon K)).
Notation gl := (fun xy : hedge * hedge => glue nv (fst xy) (snd xy)).
Context (P : polygon K).
Notation n := (length P).
Notation v := (pt P).
Hypothesis PR : proper P.

Lemma n3 : (3 <= n)%nat. Proof. apply PR. Qed.
Lemma map_pt : map v (seq 0 n) = P.
Proof.
  apply nth_ext with (d := vzero) (d' := vzero); rewrite map_length, seq_length; auto. intros i L.
  rewrite (nth_indep _ vzero (v 0)) by (rewrite map_length, seq_length; auto). rewrite map_nth, seq_nth by auto. reflexivity.
Qed.
Lemma pt_vertex i : (i < n)%nat -> v i = vertex P i.
Proof. intros L. symmetry. now apply vertex_lt. Qed.
Lemma pt_next i : (i < n)%nat -> v ((i + 1) mod n) = vertex P (S i).
Proof.
  intros L. pose proof n3. rewrite pt_vertex by (apply Nat.mod_upper_bound; lia). rewrite Nat.add_1_r. apply vertex_mod.
Qed.
Lemma P_simple : simpleL (map v (seq 0 n)) /\ index (map v (seq 0 n)) = true.
Proof. rewrite map_pt. now apply proper_simpleL. Qed.
Lemma P_nodup : NoDup (seq 0 n). Proof. apply seq_NoDup. Qed.
Lemma pt_inj i j : (i < n)%nat -> (j < n)%nat -> v i = v j -> i = j.
Proof. intros Li Lj E. destruct P_simple as [[ND _] _]. apply (inj_on v (seq 0 n)); auto; apply in_seq; lia. Qed.

Section T.
Context (T : list triple).
Hypothesis CL : clips v (seq 0 n) T.
Notation E := (tedges_of (numbered 0 T)).
Definition tpoly (t : triple) : polygon K := match t with (a, b, c) => [v a; v b; v c] end.

Lemma T_len : (length T + 2 = n)%nat.
Proof. apply clips_length in CL. rewrite seq_length in CL. auto. Qed.
Lemma E_nodup : NoDup (keys E).
Proof.
  apply (Permutation_NoDup (Permutation_sym (tedges_keys _))). rewrite numbered_keys. apply (clips_edges v _ _ P_nodup CL).
Qed.
Lemma E_get g x : dget g E = Some x <-> exists i e t, nth_error T i = Some t /\ (e < 3)%nat /\ g = tedge t e /\ x = (Z.of_nat i, Z.of_nat e).
Proof. rewrite (dget_nodup E g x E_nodup). apply tedges_In. Qed.
Lemma E_keys g : In g (keys E) <-> In g (dedges T).
Proof.
  pose proof (tedges_keys (numbered 0 T)) as H. rewrite numbered_keys in H. split; apply Permutation_in; auto. now symmetry.
Qed.
Lemma E_some g : In g (dedges T) <-> exists x, dget g E = Some x.
Proof. rewrite <- E_keys. apply dget_keys. Qed.
Lemma E_inj g h x : dget g E = Some x -> dget h E = Some x -> g = h.
Proof.
  rewrite !E_get. intros [i [e [t [A [B [-> ->]]]]]] [i' [e' [t' [A' [B' [-> Q]]]]]]. injection Q as Q1 Q2.
  apply Nat2Z.inj in Q1, Q2. subst. congruence.
Qed.
(** the edges between two triangles and the outer edges *)
Lemma E_outer a b : In (a, b) (dedges T) -> (dget (b, a) E = None <-> b = ((a + 1) mod n)%nat).
Proof.
  intros I. destruct (clips_edges v _ _ P_nodup CL) as [_ [H1 H2]]. pose proof n3.
  destruct (clips_vertices v _ _ _ _ CL I) as [La Lb]. apply in_seq in La, Lb. split.
  - intros N. destruct (prod_eq_dec_nat (a, b) (a, ((a + 1) mod n)%nat)) as [X|X]; [congruence|]. exfalso.
    destruct (H2 a b I) as [J _]; [rewrite seq_cyc by auto; intros [_ Y]; congruence|]. apply E_some in J. destruct J. congruence.
  - intros ->. destruct (H1 a ((a + 1) mod n)%nat) as [_ J]; [apply seq_cyc; auto; split; [lia|auto]|].
    destruct (dget _ E) eqn:D; auto. exfalso. apply J, E_some. eauto.
Qed.
Lemma E_assert a b : In (a, b) (dedges T) -> (dmem (b, a) E = true <-> ~ (b = (a + 1) mod n \/ a = (b + 1) mod n)%nat).
Proof.
  intros I. pose proof (E_outer a b I) as H. unfold dmem. destruct (dget (b, a) E) as [y|] eqn:D.
  - split; [intros _|auto]. intros [X|X]; [apply H in X; discriminate|].
    assert (J : In (b, a) (dedges T)) by (apply E_some; eauto). apply (E_outer b a J) in X. apply E_some in I. destruct I. congruence.
  - split; [discriminate|]. intros X. exfalso. apply X. left. now apply H.
Qed.
Definition outer : dict nat hedge := flat_map (outer_of E) (keys E).
Lemma outer_In i x : In (i, x) outer <-> (i < n)%nat /\ dget (i, ((i + 1) mod n)%nat) E = Some x.
Proof.
  unfold outer. rewrite in_flat_map. pose proof n3. split.
  - intros [[a b] [I J]]. unfold outer_of, swap2 in J. cbn [fst snd] in J. destruct (dget (a, b) E) as [z|] eqn:D; [|destruct J].
    destruct (dget (b, a) E) eqn:D'; [destruct J|]. destruct J as [[= <- <-]|[]].
    apply E_keys in I. apply (E_outer a b I) in D'. subst b. split; auto. apply (clips_vertices v _ _ _ _ CL), proj1, in_seq in I. lia.
  - intros [L D]. exists (i, ((i + 1) mod n)%nat). assert (I : In (i, ((i + 1) mod n)%nat) (dedges T)) by (apply E_some; eauto).
    split; [now apply E_keys|]. unfold outer_of, swap2. cbn [fst snd]. rewrite D, (proj2 (E_outer _ _ I)) by auto. now left.
Qed.
Lemma outer_all i : (i < n)%nat -> exists x, dget (i, ((i + 1) mod n)%nat) E = Some x.
Proof.
  intros L. apply E_some. destruct (clips_edges v _ _ P_nodup CL) as [_ [H _]]. apply H. apply seq_cyc; [apply n3|]. auto.
Qed.
Lemma outer_nodup : NoDup (keys outer).
Proof.
  assert (X : keys outer = map fst (filter (fun g => negb (dmem (swap2 g) E)) (keys E))).
  { unfold outer. assert (H : forall g, In g (keys E) -> exists x, dget g E = Some x) by (intros g; rewrite E_keys; apply E_some).
    revert H. generalize (keys E) as ks. intros ks H. induction ks as [|g ks IH]; [reflexivity|]. cbn [flat_map filter]. unfold keys. rewrite map_app.
    fold (keys (flat_map (outer_of E) ks)). rewrite IH by (intros; apply H; now right). unfold outer_of, dmem.
    destruct (H g (or_introl eq_refl)) as [x ->]. destruct (dget (swap2 g) E); reflexivity. }
  rewrite X. apply nodup_map_on; [apply NoDup_filter, E_nodup|]. intros [a b] [a' b'] I J. cbn [fst]. intros <-.
  apply filter_In in I, J. destruct I as [I I'], J as [J J']. apply E_keys in I, J. rewrite negb_true_iff in I', J'. unfold dmem, swap2 in I', J'. cbn [fst snd] in I', J'.
  destruct (dget (b, a) E) eqn:D1; [discriminate|]. destruct (dget (b', a) E) eqn:D2; [discriminate|].
  apply (E_outer a b I) in D1. apply (E_outer a b' J) in D2. congruence.
Qed.
Lemma outer_get i x : dget i outer = Some x <-> (i < n)%nat /\ dget (i, ((i + 1) mod n)%nat) E = Some x.
Proof. rewrite (dget_nodup outer i x outer_nodup). apply outer_In. Qed.
Lemma outer_bidict : bidict outer = Ok outer.
Proof.
  unfold bidict. rewrite distinct_spec; auto.
  apply nodup_map_on; [apply (NoDup_map_inv fst), outer_nodup|]. intros [i x] [j y] I J. cbn [snd]. intros <-.
  apply outer_In in I, J. destruct I as [_ I], J as [_ J]. f_equal. pose proof (E_inj _ _ _ I J) as Q. congruence.
Qed.
Lemma outer_keys : Permutation (keys outer) (seq 0 n).
Proof.
  apply NoDup_Permutation; [apply outer_nodup|apply seq_NoDup|]. intros i. rewrite in_seq. split.
  - intros I. apply dget_keys in I. destruct I as [x I]. apply outer_get in I. lia.
  - intros [_ L]. destruct (outer_all i L) as [x X]. apply dget_keys. exists x. apply outer_get. auto.
Qed.

(** ** the surface *)
Definition items : list (label * polygon K) := map (fun tl => (snd tl, tpoly (fst tl))) (numbered 0 T).
Lemma add_all (s : surf) : mfor (numbered 0 T) (add_triangle P) s = mfor items (add_item nv) s.
Proof.
  unfold items. rewrite mfor_map. apply mfor_ext. intros [[[a b] c] l] s' I. apply In_numbered in I. destruct I as [i [I _]]. apply nth_error_In in I.
  unfold add_triangle, add_item. cbn [fst snd tpoly]. rewrite (mbind_ok _ _ s' s' [v a; v b; v c]); auto.
  unfold mlift. f_equal. apply tri_ok. exact (clips_pos v _ _ CL a b c I).
Qed.
Lemma items_In l Q : In (l, Q) items <-> exists i t, nth_error T i = Some t /\ l = Z.of_nat i /\ Q = tpoly t.
Proof.
  unfold items. rewrite in_map_iff. split.
  - intros [[t l'] [[= <- <-] I]]. apply In_numbered in I. destruct I as [i [A ->]]. exists i, t. auto.
  - intros [i [t [A [-> ->]]]]. exists (t, Z.of_nat i). split; auto. apply In_numbered. exists i. auto.
Qed.
Lemma items_nodup : NoDup (map fst items).
Proof.
  apply nodup_map_on.
  - unfold items. apply (NoDup_map_inv fst). rewrite map_map. cbn [fst]. unfold numbered.
    assert (X : forall A (l : list A) m, map snd (combine l (map Z.of_nat (seq m (length l)))) = map Z.of_nat (seq m (length l))).
    { intros A l. induction l as [|x l IH]; intros m; cbn; [reflexivity|]. f_equal. apply IH. }
    rewrite X. apply nodup_map_on; [apply seq_NoDup|]. intros; now apply Nat2Z.inj.
  - intros [l Q] [l' Q'] I J. cbn [fst]. intros <-. apply items_In in I, J. destruct I as [i [t [A [-> ->]]]], J as [i' [t' [A' [Z ->]]]].
    apply Nat2Z.inj in Z. subst. f_equal. congruence.
Qed.
Definition prs : list (hedge * hedge) := flat_map (pairs_of E) (keys E).
Lemma prs_In x y : In (x, y) prs <-> exists g, dget g E = Some x /\ dget (swap2 g) E = Some y.
Proof.
  unfold prs. rewrite in_flat_map. split.
  - intros [g [_ I]]. exists g. unfold pairs_of in I. destruct (dget g E); [|destruct I]. destruct (dget (swap2 g) E); [|destruct I]. destruct I as [[= <- <-]|[]]. auto.
  - intros [g [A B]]. exists g. split; [apply dget_keys; eauto|]. unfold pairs_of. rewrite A, B. now left.
Qed.
Lemma prs_sym x y : In (x, y) prs \/ In (y, x) prs <-> exists g, dget g E = Some x /\ dget (swap2 g) E = Some y.
Proof.
  rewrite !prs_In. split; [|auto]. intros [H|[g [A B]]]; auto. exists (swap2 g). split; auto. now destruct g.
Qed.
Definition built (s : surf) := intact nv s /\ mutable s = true /\ polys s = items /\
  (forall x y, gz (gluings s) x = Some y <-> exists g, dget g E = Some x /\ dget (swap2 g) E = Some y).
Lemma built_ok : exists s, mfor items (add_item nv) empty = (fst (mfor items (add_item nv) empty), Ok tt) /\
  mfor prs gl (fst (mfor items (add_item nv) empty)) = (s, Ok tt) /\ built s.
Proof.
  assert (I0 : inv nv (@empty (polygon K))) by (constructor; cbn; try constructor; try easy).
  assert (S0 : sep (@empty (polygon K))) by (split; [constructor|intros r r' []]).
  destruct (add_list nv items empty I0 eq_refl S0 items_nodup ltac:(intros l _ [])) as [s1 [E1 [I1 [M1 [C1 [S1 [P1 [G1 R1]]]]]]]].
  assert (RE : reachable nv s1).
  { change s1 with (fst (s1, @Ok unit tt)). rewrite <- E1. apply pres_for; [|exists nil; split; [constructor|reflexivity]].
    intros [l Q] _. unfold add_item. apply pres_bind; [apply pres_add|intros; apply pres_ret]. }
  cbn in P1, G1, R1.
  assert (ER : forall g x, dget g E = Some x -> inrange (gluings s1) x).
  { intros g x D. apply (edge_inrange nv); auto; [exact (i_tot nv s1 I1 M1)|]. apply E_get in D. destruct D as [i [e [t [A [B [-> ->]]]]]].
    exists (tpoly t). cbn [fst snd]. split; [|destruct t as [[a b] c]; cbn; lia]. apply get_polygon_Ok. apply In_dget; [apply I1|].
    rewrite P1. apply items_In. eauto. }
  destruct (glue_pairs nv prs s1 I1 M1 S1) as [s2 [E2 [I2 [F2 [S2 [_ [R2 G2]]]]]]].
  - now left.
  - intros z. now rewrite G1.
  - intros x y y' H H'. apply prs_sym in H, H'. destruct H as [g [A B]], H' as [g' [A' B']]. rewrite (E_inj g g' x A A') in B. congruence.
  - intros x y H. apply prs_In in H. destruct H as [g [A B]]. eauto.
  - exists s2. rewrite E1. cbn [fst]. split; auto. split; auto.
    assert (M2 : mutable s2 = true) by (rewrite (f_mut _ _ F2); auto). split; [|split; [auto|split]].
    + apply reachable_intact; auto. change s2 with (fst (s2, @Ok unit tt)). rewrite <- E2. apply pres_for; auto. intros [x y] H. apply prs_In in H. destruct H as [g [A B]].
      apply E_get in A, B. destruct A as [i [e [t [_ [_ [_ ->]]]]]], B as [i' [e' [t' [_ [_ [_ ->]]]]]]. apply pres_glue; cbn; lia.
    + rewrite (f_polys _ _ F2). exact P1.
    + intros x y. rewrite G2. apply prs_sym.
Qed.
Lemma left_closed t q : left_or_on (tpoly t) q <-> closed_tri v t q.
Proof.
  destruct t as [[a b] c]. unfold left_or_on, closed_tri, in_tri, tpoly. split.
  - intros H. split; [apply (H 0%nat); cbn; lia|]. split; [apply (H 1%nat); cbn; lia|apply (H 2%nat); cbn; lia].
  - intros [A [B C]] [|[|[|e]]] L; try exact A; try exact B; try exact C. cbn in L. lia.
Qed.
Lemma left_open t q : strictly_left (tpoly t) q <-> open_trip v t q.
Proof.
  destruct t as [[a b] c]. unfold strictly_left, open_trip, in_open, tpoly. split.
  - intros H. split; [apply (H 0%nat); cbn; lia|]. split; [apply (H 1%nat); cbn; lia|apply (H 2%nat); cbn; lia].
  - intros [A [B C]] [|[|[|e]]] L; try exact A; try exact B; try exact C. cbn in L. lia.
Qed.
Lemma T_lt t : In t T -> match t with (a, b, c) => (a < n /\ b < n /\ c < n)%nat end.
Proof.
  destruct t as [[a b] c]. intros I.
  assert (J : forall g, In g (tri_edges (a, b, c)) -> In g (dedges T)) by (intros g G; unfold dedges; apply in_flat_map; eauto).
  assert (A : In (a, b) (dedges T)) by (apply J; cbn; auto). assert (B : In (b, c) (dedges T)) by (apply J; cbn; auto).
  apply (clips_vertices v _ _ _ _ CL) in A, B. rewrite !in_seq in A, B. lia.
Qed.
Lemma T_nodup : NoDup T.
Proof.
  destruct (clips_edges v _ _ P_nodup CL) as [H _]. revert H. clear CL. induction T as [|[[a b] c] T' IH]; intros H; constructor.
  - intros I. cbn in H. apply NoDup_cons_iff in H. apply (proj1 H). do 2 right. unfold dedges. apply in_flat_map. exists (a, b, c). split; [exact I|now left].
  - apply IH. cbn in H. do 3 apply NoDup_cons_iff, proj2 in H. exact H.
Qed.
Lemma position_par q : get_point_position P q <> Outside <-> par q (cyc P) = true \/ exists g, In g (cyc P) /\ on_segment g q.
Proof.
  assert (ND : nondeg P) by (destruct PR as [A [B _]]; split; auto). assert (SL : simpleL P) by now apply proper_simpleL.
  destruct (boundary_dec P q SL) as [B|B].
  - split; auto. intros _. destruct B as [g [G O]]. rewrite cyc_side in G. apply in_map_iff in G. destruct G as [e [<- G]].
    pose proof (position_spec P q ND) as X. intros Y. rewrite Y in X. now apply (X e).
  - assert (Z : get_point_position P q = if (winding_number P q mod 2 =? 0)%Z then Outside else Interior).
    { pose proof (position_spec P q ND) as X. unfold get_point_position in *. destruct (find_vertex P q 0) as [n0|].
      - destruct X as [L ->]. exfalso. apply (B (side P n0)); [rewrite cyc_side; apply in_map, in_seq; lia|]. now apply vertex_on_side.
      - destruct (find_edge _ q 0) as [n0|]; auto. destruct X as [L [[t [T0 [T1 ->]]] _]]. exfalso. apply (B (side P n0)); [rewrite cyc_side; apply in_map, in_seq; lia|]. now apply open_side. }
    rewrite Z, <- (winding_par P q B). rewrite Zmod_odd. destruct (Z.odd (winding_number P q)); cbn.
    + split; [auto|discriminate].
    + split; [congruence|]. intros [X|[g [G O]]]; [discriminate|]. now destruct (B g).
Qed.
Section B.
Context (s : surf).
Hypothesis BU : built s.
Lemma b_good : good nv s. Proof. apply intact_good, BU. Qed.
Lemma b_inv : inv nv s. Proof. apply g_inv, b_good. Qed.
Lemma b_tot : total s. Proof. apply g_tot with (nv := nv), b_good. Qed.
Lemma b_polygon l Q : get_polygon s l = Ok Q <-> exists i t, nth_error T i = Some t /\ l = Z.of_nat i /\ Q = tpoly t.
Proof.
  rewrite get_polygon_Ok. destruct BU as [_ [_ [PO _]]]. rewrite (dget_nodup _ _ _ (i_np nv s b_inv)), PO. apply items_In.
Qed.
Lemma b_edge x : is_edge nv s x <-> exists g, dget g E = Some x.
Proof.
  split.
  - intros [Q [GQ R]]. apply b_polygon in GQ. destruct GQ as [i [t [A [L ->]]]]. exists (tedge t (Z.to_nat (snd x))). apply E_get.
    exists i, (Z.to_nat (snd x)), t. split; auto. destruct t as [[a b] c]. cbn in R. split; [lia|]. split; auto. destruct x as [l e]. cbn in *. subst l. f_equal. lia.
  - intros [g D]. apply E_get in D. destruct D as [i [e [t [A [B [-> ->]]]]]]. exists (tpoly t). split; [apply b_polygon; eauto|].
    destruct t as [[a b] c]. cbn. lia.
Qed.
Lemma b_goes a b x : dget (a, b) E = Some x -> goes s x (v a) (v b).
Proof.
  intros D. pose proof (proj2 (b_edge x) (ex_intro _ _ D)) as ED. apply E_get in D. destruct D as [i [e [t [A [B [G ->]]]]]].
  exists (tpoly t). split; [apply b_polygon; eauto|]. split; auto. cbn [snd]. rewrite Nat2Z.id. destruct t as [[a' b'] c'].
  destruct e as [|[|[|e]]]; [| | |lia]; injection G as -> ->; auto.
Qed.
Lemma b_goes_inv x p p' : goes s x p p' -> exists a b, dget (a, b) E = Some x /\ p = v a /\ p' = v b.
Proof.
  intros [Q [GQ [ED [<- <-]]]]. apply b_edge in ED. destruct ED as [[a b] D]. exists a, b. split; auto.
  destruct (b_goes a b x D) as [Q' [GQ' [_ [<- <-]]]]. rewrite GQ in GQ'. injection GQ' as <-. auto.
Qed.
Lemma b_glued x y : glued nv s x y <-> exists g, dget g E = Some x /\ dget (swap2 g) E = Some y.
Proof. rewrite (glued_gz nv s x y b_inv). apply BU. Qed.
Lemma b_free x : free nv s x <-> exists g, dget g E = Some x /\ dget (swap2 g) E = None.
Proof.
  rewrite (free_gz nv s x b_inv b_tot). split.
  - intros [ED G]. apply b_edge in ED. destruct ED as [g D]. exists g. split; auto. destruct (dget (swap2 g) E) as [y|] eqn:D'; auto.
    assert (X : gz (gluings s) x = Some y) by (apply BU; eauto). congruence.
  - intros [g [D D']]. split; [apply b_edge; eauto|]. destruct (gz (gluings s) x) as [y|] eqn:G; auto. apply BU in G. destruct G as [h [H1 H2]].
    rewrite (E_inj g h x D H1) in D'. congruence.
Qed.
Theorem built_triangulation : triangulation_of P s outer.
Proof.
  destruct P_simple as [SI IX]. pose proof T_len as TL. pose proof n3 as N3. constructor.
  - intros l. split.
    + intros [Q GQ]. apply b_polygon in GQ. destruct GQ as [i [t [A [-> _]]]]. assert (i < length T)%nat by (apply nth_error_Some; congruence). lia.
    + intros L. destruct (nth_error T (Z.to_nat l)) as [t|] eqn:A; [|apply nth_error_None in A; lia]. exists (tpoly t). apply b_polygon.
      exists (Z.to_nat l), t. repeat split; auto. lia.
  - intros l Q GQ. apply b_polygon in GQ. destruct GQ as [i [[[a b] c] [A [-> ->]]]]. apply nth_error_In in A. pose proof (T_lt _ A) as [La [Lb Lc]].
    exists a, b, c. do 3 (split; [assumption|]). unfold tpoly. rewrite <- !pt_vertex by assumption. split; auto. exact (clips_pos v _ _ CL _ _ _ A).
  - exists (map tpoly T). rewrite map_length. split; [lia|]. split.
    + intros i Q H. rewrite nth_error_map in H. destruct (nth_error T i) as [t|] eqn:A; [|discriminate]. injection H as <-. apply b_polygon. eauto.
    + transitivity (area (map v (seq 0 n))); [|now rewrite map_pt]. rewrite (clips_area v _ _ CL SI IX). clear.
      induction T as [|[[a b] c] T' IH]; [reflexivity|]. cbn [map fold_right]. rewrite IH. f_equal. cbn [tri_area tpoly].
      transitivity (ccw (vsub (v b) (v a)) (vsub (v c) (v a)) / 2); [apply area_triangle|reflexivity].
  - apply outer_keys.
  - intros i x. rewrite outer_get. split.
    + intros [L D]. split; auto. assert (I : In (i, ((i + 1) mod n)%nat) (dedges T)) by (apply E_some; eauto). split.
      * apply b_free. exists (i, ((i + 1) mod n)%nat). split; auto. now apply (E_outer _ _ I).
      * apply b_goes in D. now rewrite pt_vertex, pt_next in D.
    + intros [L [F G]]. split; auto. apply b_goes_inv in G. destruct G as [a [b [D [Ea Eb]]]].
      assert (I : In (a, b) (dedges T)) by (apply E_some; eauto). destruct (clips_vertices v _ _ _ _ CL I) as [La Lb]. apply in_seq in La, Lb.
      assert (i = a) as ->. { apply pt_inj; [auto|lia|]. now rewrite pt_vertex. }
      rewrite <- pt_next in Eb by auto. apply pt_inj in Eb; [|apply Nat.mod_upper_bound; lia|lia]. now rewrite Eb.
  - intros x F. apply b_free in F. destruct F as [[a b] [D D']]. unfold swap2 in D'. cbn [fst snd] in D'.
    assert (I : In (a, b) (dedges T)) by (apply E_some; eauto). apply (E_outer _ _ I) in D'. subst b. exists a. apply outer_get. split; auto.
    apply (clips_vertices v _ _ _ _ CL), proj1, in_seq in I. lia.
  - intros i j x A B. apply outer_get in A, B. destruct A as [_ A], B as [_ B]. pose proof (E_inj _ _ _ A B). congruence.
  - intros x y H. apply b_glued in H. destruct H as [[a b] [A B]]. unfold swap2 in B. cbn [fst snd] in B. split.
    + apply b_glued. exists (b, a). auto.
    + exists (v a), (v b). split; [|split; now apply b_goes]. intros X. apply E_get in A. destruct A as [i [e [[[a' b'] c'] [A [L [G _]]]]]].
      apply nth_error_In in A. pose proof (clips_pos v _ _ CL _ _ _ A) as O.
      destruct e as [|[|[|e]]]; [| | |lia]; injection G as -> ->; unfold orient, ccw in O; rewrite X in O; destruct (v a'), (v b'), (v c'); cbn in *; flra.
  - intros q. rewrite position_par. assert (CE : cyc P = cyc (map v (seq 0 n))) by (f_equal; symmetry; apply map_pt). rewrite CE. split.
    + intros [l [Q [GQ LO]]]. apply b_polygon in GQ. destruct GQ as [i [t [A [-> ->]]]]. apply left_closed in LO. apply nth_error_In in A.
      apply (clips_inside v _ _ CL SI IX t q A LO).
    + intros H. assert (X : exists t, In t T /\ closed_tri v t q).
      { destruct H as [H|[g [G O]]]; [now apply (clips_cover v _ _ CL SI IX)|]. apply (clips_boundary v _ _ P_nodup CL g q G O). }
      destruct X as [t [I C]]. apply In_nth_error in I. destruct I as [i I]. exists (Z.of_nat i), (tpoly t). split; [apply b_polygon; eauto|now apply left_closed].
  - intros l l' Q Q' q A B C D. apply b_polygon in A, B. destruct A as [i [t [A [-> ->]]]], B as [i' [t' [B [-> ->]]]].
    apply left_open in C, D. f_equal. assert (t = t') by (eapply (clips_disjoint v _ _ CL SI IX); eauto using nth_error_In). subst t'.
    apply (proj1 (NoDup_nth_error T) T_nodup); [apply nth_error_Some; congruence|congruence].
Qed.
End B.
End T.

Theorem triangulate_ok : exists s outer, triangulate P = Ok (s, outer) /\ triangulation_of P s outer /\ intact nv s /\ mutable s = true.
Proof.
  pose proof n3 as N3. destruct P_simple as [SI IX]. unfold triangulate, triangulate_in.
  destruct (Nat.ltb_spec n 3) as [X|_]; [lia|]. destruct (Nat.eqb_spec n 3) as [N|N].
  - set (s := fst (add_polygon nv P None empty)).
    rewrite (mbind_ok _ _ empty s 0%Z) by reflexivity.
    assert (CL : clips v (seq 0 n) [(0, 1, 2)%nat]).
    { rewrite N in *. apply clips_three. apply index_three; auto. }
    change (bidict _) with (bidict (outer [(0, 1, 2)%nat])).
    rewrite (outer_bidict [(0, 1, 2)%nat] CL). unfold mlift. exists s, (outer [(0, 1, 2)%nat]). split; auto.
    assert (RE : intact nv s).
    { apply reachable_intact; [|reflexivity]. exists [OpAdd P None]. split; [repeat constructor|reflexivity]. }
    split; [|split; auto]. apply built_triangulation; auto. split; auto. split; [reflexivity|]. split.
    + unfold items. cbn. rewrite <- map_pt at 1. rewrite N. reflexivity.
    + intros x y. split.
      * intros G. exfalso. revert G. destruct x as [l e]. unfold gz. cbn [fst snd]. unfold s. cbn.
        destruct (Z.eqb_spec l 0) as [->|]; [|discriminate]. destruct (0 <=? e)%Z; [|discriminate].
        destruct (nth_error (repeat None _) _) as [z|] eqn:Q; [|discriminate]. apply nth_error_In, repeat_spec in Q. subst z. discriminate.
      * intros [g [A B]]. exfalso. apply (E_get _ CL) in A, B. destruct A as [i [e [t [A1 [A2 [A3 _]]]]]], B as [i' [e' [t' [B1 [B2 [B3 _]]]]]].
        destruct i as [|[|i]]; try discriminate A1. destruct i' as [|[|i']]; try discriminate B1. injection A1 as <-. injection B1 as <-. subst g.
        destruct e as [|[|[|e]]]; destruct e' as [|[|[|e']]]; try lia; discriminate B3.
  - destruct (clip_ears_ok P n (seq 0 n) [] SI IX) as [T [CL E]]; [rewrite seq_length; lia|intros t []|].
    rewrite (mbind_ok _ _ empty empty (numbered 0 T)) by (unfold mlift; apply (f_equal (fun r => (empty, r))); exact E).
    destruct (built_ok T CL) as [s [E1 [E2 BU]]].
    rewrite (mbind_ok _ _ empty (fst (mfor (items T) (add_item nv) empty)) tt) by (rewrite (add_all T CL); exact E1).
    destruct (clips_edges v _ _ P_nodup CL) as [ND _].
    rewrite triangle_edges_eq by now rewrite numbered_keys.
    rewrite (mbind_ok _ _ _ s (outer T)).
    + rewrite (outer_bidict T CL). unfold mlift. exists s, (outer T). split; auto. split; [apply built_triangulation; auto|]. split; apply BU.
    + rewrite glue_run.
      * rewrite (mbind_ok _ _ _ s tt); [reflexivity|exact E2].
      * intros a b I. apply (E_keys T) in I. split; [now apply (E_some T)|now apply E_assert].
      * cbn [keys map app]. exact (outer_nodup T CL).
Qed.
End G.
