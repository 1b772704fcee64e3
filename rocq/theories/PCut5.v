(** Proofs about joining polygons: the surface. *)
From Coq Require Import List Bool ZArith Arith Lia Relations.
From Coq Require Import Ring Field.
From Verif Require Import OField FMicromega PField MBase MDict PDict MEuclid SEuclid PEuclid MSim SSim PSim MPoly PPoly MMut SMut PMut PMut2 PMut3 PBuild TMut
  MSurf SSurf PSurf PSurf3 SPoint MPoint PPoint PSimple TPoly2 PSubdiv PSubdiv2 PSubdiv3 MCut SCut PCut PCut2 PCut3 PCut4.
Import ListNotations.

Section K.
Context {K : OField}.
Add Field KF : (of_ft K).
Local Open Scope F_scope.
Notation nv := (@length (vec K) : polygon K -> nat).
Notation surf := (@surf (polygon K)).

Section Join.
Variables (s : surf) (p1 p2 : label) (P1 P2 : polygon K) (e1 e2 : nat) (T : vec K -> vec K).
Notation n1 := (length P1).
Notation n2 := (length P2).
Hypothesis GD : good nv s.
Hypothesis Mu : mutable s = true.
Hypothesis ND : forall l P, get_polygon s l = Ok P -> nondeg P.
Hypotheses (EP1 : get_polygon s p1 = Ok P1) (EP2 : get_polygon s p2 = Ok P2) (NE : p1 <> p2).
Hypothesis G0 : gz (gluings s) (p1, Z.of_nat e1) = Some (p2, Z.of_nat e2).
Hypothesis GM : gluing_map P2 e2 P1 e1 T.
Notation kept := (fun x : hedge => x <> (p1, Z.of_nat e1) /\ x <> (p2, Z.of_nat e2)).
Notation psi := (join_name p1 e1 p2 e2 n2).
Notation N := (total_edges P1 P2).
Hypothesis GL : forall x, is_edge nv s x -> fst x = p1 \/ fst x = p2 -> exists y, gz (gluings s) x = Some y.

Lemma jgz_edge x y : gz (gluings s) x = Some y -> is_edge nv s x /\ is_edge nv s y.
Proof. intros G. split; [|apply (i_inv nv s (g_inv nv s GD)) in G]; apply (proj2 (glued_gz nv s _ _ (g_inv nv s GD)) G). Qed.
Lemma jedge1 i : is_edge nv s (p1, i) <-> (0 <= i < Z.of_nat n1)%Z.
Proof. split; [intros [P' [E H]]; cbn [fst snd] in *; rewrite EP1 in E; injection E as <-; auto|]. intros H. exists P1. auto. Qed.
Lemma jedge2 i : is_edge nv s (p2, i) <-> (0 <= i < Z.of_nat n2)%Z.
Proof. split; [intros [P' [E H]]; cbn [fst snd] in *; rewrite EP2 in E; injection E as <-; auto|]. intros H. exists P2. auto. Qed.
Lemma jbounds : (e1 < n1)%nat /\ (e2 < n2)%nat /\ (3 <= n1)%nat /\ (3 <= n2)%nat.
Proof.
  destruct (jgz_edge _ _ G0) as [A B]. apply jedge1 in A. apply jedge2 in B.
  destruct (ND _ _ EP1) as [A' _]. destruct (ND _ _ EP2) as [B' _]. lia.
Qed.
Lemma jkept x y : gz (gluings s) x = Some y -> kept x -> kept y.
Proof.
  intros G [A B]. assert (G' := i_inv nv s (g_inv nv s GD) _ _ G). assert (G0' := i_inv nv s (g_inv nv s GD) _ _ G0).
  split; intros ->; congruence.
Qed.
Lemma jpsi_cases x : is_edge nv s x -> kept x ->
  (exists i, x = (p1, Z.of_nat i) /\ (i < e1)%nat /\ psi x = (p1, Z.of_nat i)) \/
  (exists i, x = (p1, Z.of_nat i) /\ (e1 < i < n1)%nat /\ psi x = (p1, Z.of_nat (i + n2 - 2))) \/
  (exists i d, x = (p2, Z.of_nat i) /\ (i < n2)%nat /\ d = off e2 n2 i /\ (1 <= d < n2)%nat /\ psi x = (p1, Z.of_nat (e1 + d - 1))) \/
  (fst x <> p1 /\ fst x <> p2 /\ psi x = x).
Proof.
  destruct jbounds as (B1 & B2 & B3 & B4). intros H [X1 X2]. destruct x as [l i]. unfold join_name. cbn [fst snd].
  destruct (Z.eqb_spec l p1) as [->|N1]; [|destruct (Z.eqb_spec l p2) as [->|N2]].
  - apply jedge1 in H. destruct (Nat.ltb_spec (Z.to_nat i) e1) as [L|L]; [left|right; left]; exists (Z.to_nat i); rewrite Z2Nat.id by lia; (split; [auto|]); (split; [|auto]); auto.
    assert (Z.to_nat i <> e1) by (intros <-; apply X1; now rewrite Z2Nat.id by lia). lia.
  - apply jedge2 in H. right; right; left. exists (Z.to_nat i), (off e2 n2 (Z.to_nat i)). rewrite Z2Nat.id by lia. split; auto. split; [lia|]. split; auto. split; auto.
    pose proof (off_lt e2 n2 (Z.to_nat i) ltac:(lia)). split; auto.
    destruct (off e2 n2 (Z.to_nat i)) eqn:O; [|lia]. exfalso. apply X2. pose proof (off_add e2 n2 (Z.to_nat i) ltac:(lia) ltac:(lia)) as A. rewrite O, Nat.add_0_r, Nat.mod_small in A by auto.
    rewrite A. now rewrite Z2Nat.id by lia.
  - right; right; right. auto.
Qed.
Lemma jpsi_inj x y : is_edge nv s x -> is_edge nv s y -> kept x -> kept y -> psi x = psi y -> x = y.
Proof.
  destruct jbounds as (B1 & B2 & B3 & B4). intros Hx Hy Kx Ky E.
  destruct (jpsi_cases x Hx Kx) as [(i & -> & Hi & Ex)|[(i & -> & Hi & Ex)|[(i & d & -> & Hi & Ed & Hd & Ex)|(A & B & Ex)]]];
  destruct (jpsi_cases y Hy Ky) as [(i' & -> & Hi' & Ey)|[(i' & -> & Hi' & Ey)|[(i' & d' & -> & Hi' & Ed' & Hd' & Ey)|(A' & B' & Ey)]]];
  rewrite Ex, Ey in E; try (apply (f_equal fst) in E; cbn [fst] in E; congruence); auto;
  apply (f_equal snd) in E; cbn [snd] in E; apply Nat2Z.inj in E; try lia; do 2 f_equal; try lia.
  apply (off_inj e2 n2); lia.
Qed.
(** the edge of [s] at a position of the new polygon *)
Definition old_at (i : nat) : label * nat :=
  if (i <? e1)%nat then (p1, i) else if (i <? e1 + n2 - 1)%nat then (p2, (e2 + (i - e1 + 1)) mod n2)%nat else (p1, (i - (n2 - 2))%nat).
Lemma old_at_map : join_edge_map p1 e1 n1 p2 e2 n2 = map old_at (seq 0 N).
Proof.
  destruct jbounds as (B1 & B2 & B3 & B4).
  rewrite (joined_split P1 P2 e1 e2) by auto. unfold join_edge_map. f_equal; [|f_equal]; apply map_seq_shift; intros j Hj; unfold old_at.
  - destruct (Nat.ltb_spec (0 + j) e1); [reflexivity|lia].
  - destruct (Nat.ltb_spec (e1 + j) e1); [lia|]. destruct (Nat.ltb_spec (e1 + j) (e1 + n2 - 1)); [|lia]. do 3 f_equal. lia.
  - destruct (Nat.ltb_spec (e1 + n2 - 1 + j) e1); [lia|]. destruct (Nat.ltb_spec (e1 + n2 - 1 + j) (e1 + n2 - 1)); [lia|]. f_equal. lia.
Qed.
Lemma old_at_spec i : (i < N)%nat -> is_edge nv s (nat_edge (old_at i)) /\ kept (nat_edge (old_at i)) /\ psi (nat_edge (old_at i)) = (p1, Z.of_nat i) /\
  (fst (nat_edge (old_at i)) = p1 \/ fst (nat_edge (old_at i)) = p2).
Proof.
  destruct jbounds as (B1 & B2 & B3 & B4). intros Hi. unfold total_edges in Hi. unfold old_at, nat_edge, join_name.
  destruct (Nat.ltb_spec i e1); [|destruct (Nat.ltb_spec i (e1 + n2 - 1))]; cbn [fst snd]; rewrite ?Z.eqb_refl, ?Nat2Z.id.
  - split; [apply jedge1; lia|]. split; [split; intros E; [apply (f_equal snd) in E; cbn in E; lia|apply (f_equal fst) in E; cbn in E; congruence]|].
    destruct (Nat.ltb_spec i e1); [auto|lia].
  - destruct (Z.eqb_spec p2 p1) as [E|_]; [congruence|]. pose proof (Nat.mod_upper_bound (e2 + (i - e1 + 1)) n2 ltac:(lia)). rewrite off_mod by lia.
    split; [apply jedge2; lia|]. split.
    + split; intros E; [apply (f_equal fst) in E; cbn [fst] in E; congruence|]. apply (f_equal snd) in E; cbn [snd] in E. apply Nat2Z.inj in E.
      assert (O : off e2 n2 ((e2 + (i - e1 + 1)) mod n2) = off e2 n2 (e2 mod n2)) by (rewrite E; f_equal; symmetry; now apply Nat.mod_small).
      rewrite !off_mod in O by lia. lia.
    + split; auto. do 2 f_equal. lia.
  - split; [apply jedge1; lia|]. split; [split; intros E; [apply (f_equal snd) in E; cbn [snd] in E; lia|apply (f_equal fst) in E; cbn in E; congruence]|].
    destruct (Nat.ltb_spec (i - (n2 - 2)) e1); [lia|]. split; auto. do 2 f_equal. lia.
Qed.
Lemma old_at_complete x : is_edge nv s x -> kept x -> fst x = p1 \/ fst x = p2 -> exists i, (i < N)%nat /\ x = nat_edge (old_at i).
Proof.
  destruct jbounds as (B1 & B2 & B3 & B4). intros Hx Kx F. unfold total_edges.
  assert (X : exists i, (i < n1 + n2 - 2)%nat /\ psi x = (p1, Z.of_nat i)).
  { destruct (jpsi_cases x Hx Kx) as [(i & -> & Hi & Ex)|[(i & -> & Hi & Ex)|[(i & d & -> & Hi & Ed & Hd & Ex)|(A & B & Ex)]]].
    - exists i. split; [lia|auto]. - exists (i + n2 - 2)%nat. split; [lia|auto]. - exists (e1 + d - 1)%nat. split; [lia|auto]. - tauto. }
  destruct X as (i & Hi & E). exists i. split; auto. destruct (old_at_spec i) as (A & B & C & _); auto. apply jpsi_inj; auto. now rewrite C.
Qed.
Lemma inv_lookup y : is_edge nv s y -> kept y -> fst y = p1 \/ fst y = p2 -> dgetE y (join_inv_map p1 (map old_at (seq 0 N))) = Ok (psi y).
Proof.
  intros Hy Ky F. apply dgetE_Ok. unfold join_inv_map. rewrite !map_length, seq_length, map_map, combine_map2.
  destruct (old_at_complete y Hy Ky F) as (i & Hi & E).
  destruct (dget y (map (fun x => (nat_edge (old_at x), (p1, Z.of_nat x))) (seq 0 N))) as [v|] eqn:D.
  - refine (eq_trans D _). apply dget_In in D. apply in_map_iff in D. destruct D as (j & [= <- <-] & Hj). apply in_seq in Hj. symmetry. destruct (old_at_spec j) as (_ & _ & C & _); [lia|]. exact (f_equal Some C).
  - exfalso. apply (proj1 (dget_None _ _)) in D. apply D. unfold keys. rewrite map_map. cbn [fst]. apply in_map_iff. exists i. split; auto. apply in_seq. lia.
Qed.

Definition jpartner (i : nat) : hedge := match gz (gluings s) (nat_edge (old_at i)) with Some y => y | None => (0%Z, 0%Z) end.
Lemma jpartner_gz i : (i < N)%nat -> gz (gluings s) (nat_edge (old_at i)) = Some (jpartner i).
Proof. intros Hi. destruct (old_at_spec i Hi) as (A & B & C & D). unfold jpartner. destruct (GL _ A D) as [y E]. now rewrite E. Qed.
Definition jpairs : list (hedge * hedge) := map (fun i => ((p1, Z.of_nat i), psi (jpartner i))) (seq 0 N).
Definition jdead (x : hedge) : bool := ((fst x =? p1) || (fst x =? p2))%Z%bool.
Lemma jpairs_spec u v : In (u, v) jpairs -> In (u, v) [] \/ exists x y, gz (gluings s) x = Some y /\ kept x /\ u = psi x /\ v = psi y.
Proof.
  intros H. right. apply in_map_iff in H. destruct H as [i [[= <- <-] Hi]]. apply in_seq in Hi. destruct (old_at_spec i) as (A & B & C & _); [lia|].
  exists (nat_edge (old_at i)), (jpartner i). rewrite C. split; [apply jpartner_gz; lia|]. auto.
Qed.
Lemma jpairs_complete x y : gz (gluings s) x = Some y -> kept x -> jdead x = true -> pair_in jpairs (psi x) (psi y).
Proof.
  intros G Kx D. assert (F : fst x = p1 \/ fst x = p2) by (unfold jdead in D; apply orb_true_iff in D; rewrite !Z.eqb_eq in D; auto).
  destruct (old_at_complete x (proj1 (jgz_edge _ _ G)) Kx F) as (i & Hi & E). left. unfold jpairs. apply in_map_iff. exists i. split; [|apply in_seq; lia].
  destruct (old_at_spec i Hi) as (_ & _ & C & _). rewrite E, C. do 2 f_equal. pose proof (jpartner_gz i Hi) as PG. rewrite <- E, G in PG. now injection PG as ->.
Qed.
Lemma partner_ok i : (i < N)%nat -> join_partner s p1 p2 (join_inv_map p1 (map old_at (seq 0 N))) (old_at i) = Ok (psi (jpartner i)).
Proof.
  intros Hi. pose proof (jpartner_gz i Hi) as G. unfold join_partner.
  destruct (old_at_spec i Hi) as (A & B & C & D).
  assert (O : opposite_edge s (fst (old_at i)) (Z.of_nat (snd (old_at i))) = Ok (Some (jpartner i))).
  { apply opposite_edge_Ok; [lia|]. split; [eapply gz_range; exact G|exact G]. }
  rewrite O. destruct ((fst (jpartner i) =? p1)%Z || (fst (jpartner i) =? p2)%Z) eqn:Q.
  - apply inv_lookup; [apply (jgz_edge _ _ G)|eapply jkept; eauto|]. apply orb_true_iff in Q. rewrite !Z.eqb_eq in Q. auto.
  - apply orb_false_iff in Q. unfold join_name. destruct Q as [-> ->]. reflexivity.
Qed.

Variables (t0 : sim K) (Q : polygon K).
Hypothesis Et0 : edge_transformation (mut_surface s) p2 e2 = Ok t0.
Hypothesis EQ : Polygon_edges (join_edges P1 P2 e1 e2 (sim_derivative t0)) = Ok Q.
Hypothesis RE : reachable nv s.

Lemma transformation : sim_ok t0 /\ sg_sign t0 = true /\ (forall p, T p = sim_apply t0 p).
Proof.
  assert (N2 : edge P2 e2 <> vzero) by apply (ND _ _ EP2). assert (N1 : edge P1 e1 <> vzero) by apply (ND _ _ EP1).
  destruct (edge_transformation_raw (mut_surface s) p2 e2 P2 p1 e1 P1) as [f [Ef [Kf [Sf [Fa Fb]]]]]; auto.
  { cbn [s_opp mut_surface]. assert (O : opposite_edge s p2 (Z.of_nat e2) = Ok (Some (p1, Z.of_nat e1))).
    { apply opposite_edge_Ok; [lia|]. apply (i_inv nv s (g_inv nv s GD)) in G0. split; auto. eapply gz_range; eauto. }
    rewrite O. now rewrite Nat2Z.id. }
  rewrite Et0 in Ef. injection Ef as <-. split; auto. split; auto. intros p. destruct GM as [[c Sc] O Ma Mb].
  apply (rigid T c t0 (vertex P2 e2) (vertex P2 (Datatypes.S e2))); auto; try congruence. now apply edge_neq.
Qed.

Lemma roots_step rs : get_roots nv s = Ok rs -> exists s0, (if mem p2 rs then set_roots nv (map (fun l => if (l =? p2)%Z then p1 else l) rs) else mret tt) s = (s0, Ok tt) /\
  reachable nv s0 /\ good nv s0 /\ mutable s0 = true /\ polys s0 = polys s /\ gluings s0 = gluings s /\
  (forall r, In r (roots_ s0) -> r = p1 \/ In r (if mem p2 rs then rs else roots_ s)).
Proof.
  intros ER. destruct (mem p2 rs) eqn:M.
  2:{ exists s. split; [reflexivity|]. auto 8. }
  apply mem_In in M. destruct (get_roots_spec nv s GD) as [d [ER' [TR _]]]. rewrite ER in ER'. injection ER' as ->.
  set (rs := roots_ s ++ d) in *.
  assert (C12 : conn (gluings s) p2 p1). { apply rt_step. exists (Z.of_nat e2), (Z.of_nat e1). now apply (i_inv nv s (g_inv nv s GD)). }
  assert (N1 : ~ In p1 rs). { intros H. apply NE. symmetry. apply (t_sep _ _ _ TR); auto. }
  assert (MI : forall l, In l (map (fun l => if (l =? p2)%Z then p1 else l) rs) -> l = p1 \/ (In l rs /\ l <> p2)).
  { intros l H. apply in_map_iff in H. destruct H as [x [E H]]. destruct (Z.eqb_spec x p2); [auto|subst; auto]. }
  assert (CS : forall a b, conn (gluings s) a b -> conn (gluings s) b a) by (intros a b; apply conn_sym; apply (i_inv nv s (g_inv nv s GD))).
  destruct (set_roots_spec nv s (map (fun l => if (l =? p2)%Z then p1 else l) rs) GD Mu) as (s0 & x & E & OKX & _).
  destruct OKX as [-> ->].
  { split; [|split].
    - intros r H. apply MI in H. destruct H as [->|[H _]]; [apply is_label_keys; now exists P1|]. now apply (t_in _ _ _ TR).
    - assert (NDr := t_nd _ _ _ TR). clear - N1 NDr. induction rs as [|a rs IH]; cbn; [constructor|]. inversion NDr as [|? ? A B]; subst. constructor; [|apply IH; auto; cbn in N1; tauto].
      intros H. apply in_map_iff in H. destruct H as [x [E H]]. cbn in N1. destruct (Z.eqb_spec x p2), (Z.eqb_spec a p2); subst; tauto.
    - intros r r' H H' C. apply MI in H, H'. destruct H as [->|[H A]], H' as [->|[H' A']]; auto.
      + exfalso. apply A'. symmetry. apply (t_sep _ _ _ TR p2 r'); auto. exact (rt_trans _ _ _ _ _ C12 C).
      + exfalso. apply A. apply (t_sep _ _ _ TR r p2); auto. exact (rt_trans _ _ _ _ _ C (CS _ _ C12)).
      + now apply (t_sep _ _ _ TR). }
  exists (set_roots_ (map (fun l => if (l =? p2)%Z then p1 else l) rs) s). split; auto.
  assert (R0 : reachable nv (set_roots_ (map (fun l => if (l =? p2)%Z then p1 else l) rs) s)).
  { change (set_roots_ (map (fun l => if (l =? p2)%Z then p1 else l) rs) s) with (fst (set_roots_ (map (fun l => if (l =? p2)%Z then p1 else l) rs) s, @Ok unit tt)). rewrite <- E. now apply pres_set_roots. }
  split; auto. split; [apply intact_good, reachable_intact; auto|]. split; auto. split; auto. split; auto. cbn. intros r H. apply MI in H. tauto.
Qed.

Theorem join_main : exists t r, join_polygons p1 e1 true s = (t, r) /\ (r = Ok tt \/ r = Err AssertionError) /\
  ((forall rs, get_roots nv s = Ok rs -> forall x, In x (if mem p2 rs then rs else roots_ s) -> x = p1 \/ x = p2) -> r = Ok tt /\ roots_ t = nil) /\
  (r = Ok tt -> reachable nv t /\ mutable t = true /\ polygons_joined s t p1 P1 e1 p2 P2 e2 T).
Proof.
  destruct jbounds as (B1 & B2 & B3 & B4). destruct transformation as (Kt & St & Tt).
  assert (Ta : T (vertex P2 e2) = vertex P1 (S e1)) by apply GM. assert (Tb : T (vertex P2 (S e2)) = vertex P1 e1) by apply GM.
  destruct (get_roots_spec nv s GD) as [d [ER _]]. destruct (roots_step _ ER) as (s0 & E0 & R0 & GD0 & M0 & P0 & Gl0 & Rt0).
  pose proof (g_inv nv s GD) as Iv. pose proof (g_inv nv s0 GD0) as I0. pose proof (g_tot nv s0 GD0) as T0.
  assert (Lp2 : In p2 (keys (polys s0))) by (rewrite P0; apply is_label_keys; now exists P2).
  destruct (remove_polygon_spec nv s0 p2 I0) as (sa & ra & Ea & Ia & Ma & Ca & Na & Sa & _ & _ & Ga).
  destruct (Ga (T0 p2 Lp2)) as (Gza & Ra & _). destruct (Ra M0) as (-> & Pa & Rta). clear Ga Ra. rewrite M0 in Ma. specialize (Sa (g_sep nv s0 GD0)).
  assert (DGa : forall l, dget l (polys sa) = if (l =? p2)%Z then None else dget l (polys s)).
  { intros l. rewrite Pa, P0, dget_ddel; [reflexivity|apply (i_np nv s Iv)]. }
  assert (Lp1 : In p1 (keys (polys sa))).
  { apply dget_keys. rewrite DGa. destruct (Z.eqb_spec p1 p2); [contradiction|]. exists P1. now apply get_polygon_Ok. }
  destruct (remove_polygon_spec nv sa p1 Ia) as (sb & rb & Eb & Ib & Mb & Cb & Nb & Sb & _ & _ & Gb).
  destruct (Gb (i_tot nv sa Ia Ma p1 Lp1)) as (Gzb & Rb & _). destruct (Rb Ma) as (-> & Pb & Rtb). clear Gb Rb. rewrite Ma in Mb. specialize (Sb Sa).
  assert (DGb : forall l, dget l (polys sb) = if (l =? p1)%Z then None else if (l =? p2)%Z then None else dget l (polys s)).
  { intros l. rewrite Pb, dget_ddel, DGa; [reflexivity|apply (i_np nv sa Ia)]. }
  destruct (add_polygon_spec nv sb Q (Some p1) Ib) as (sc & rc & Ec & Ic & Mc & Cc & Sc & Gc & _ & Xc).
  rewrite Mb in Mc. specialize (Sc Sb).
  destruct (Xc Mb) as [(l & -> & _ & Lc & _ & Pc & Rc)|(l & [= <-] & H & _)].
  2:{ exfalso. apply dget_keys in H. destruct H as [v H]. rewrite DGb, Z.eqb_refl in H. discriminate. }
  specialize (Lc p1 eq_refl). subst l. clear Xc.
  assert (POL : forall l, get_polygon sc l = if (l =? p1)%Z then Ok Q else if (l =? p2)%Z then Err KeyError else get_polygon s l).
  { intros l. unfold get_polygon, dgetE. rewrite Pc, dget_app, DGb. cbn [dget]. change (eqb l p1) with (Z.eqb l p1).
    destruct (Z.eqb_spec l p1) as [->|X1]; [reflexivity|]. destruct (Z.eqb_spec l p2); [reflexivity|]. destruct (dget l (polys s)); reflexivity. }
  assert (LQ : length Q = N) by (apply (joined_length P1 P2 e1 e2 t0); auto).
  assert (KE : forall x, is_edge nv s x -> kept x -> is_edge nv sc (psi x)).
  { intros x Hx Kx. unfold is_edge. change (nv) with (@length (vec K)). 
    destruct (jpsi_cases x Hx Kx) as [(i & -> & Hi & Ex)|[(i & -> & Hi & Ex)|[(i & d' & -> & Hi & Ed & Hd & Ex)|(A & B & Ex)]]]; rewrite Ex, POL; cbn [fst snd]; rewrite ?Z.eqb_refl.
    1-3: exists Q; split; auto; rewrite LQ; unfold total_edges; lia.
    destruct (Z.eqb_spec (fst x) p1); [contradiction|]. destruct (Z.eqb_spec (fst x) p2); [contradiction|]. exact Hx. }
  assert (GSc : forall u v, gz (gluings sc) u = Some v <-> gz (gluings s) u = Some v /\ jdead u = false /\ jdead v = false).
  { intros u v. rewrite Gc, Gzb. unfold rmz. rewrite Gza. unfold rmz. rewrite Gl0. unfold jdead.
    destruct (fst u =? p1)%Z; cbn [orb]; [split; [discriminate|intros (_ & [=] & _)]|]. destruct (fst u =? p2)%Z; [split; [discriminate|intros (_ & [=] & _)]|].
    destruct (gz (gluings s) u) as [c|]; [|split; [discriminate|intros ([=] & _)]]. destruct (fst c =? p2)%Z eqn:C2; [|destruct (fst c =? p1)%Z eqn:C1].
    - split; [discriminate|]. intros ([= ->] & _ & Z). rewrite C2, orb_true_r in Z. discriminate.
    - split; [discriminate|]. intros ([= ->] & _ & Z). rewrite C1 in Z. discriminate.
    - split; [intros [= <-]; rewrite C1, C2; auto|]. tauto. }
  assert (TOc : total sc) by exact (i_tot nv sc Ic Mc).
  assert (RC : forall x, is_edge nv sc x -> inrange (gluings sc) x) by (intros x Hx; now apply (edge_inrange nv sc)).
  assert (PX : forall x, jdead x = false -> psi x = x /\ kept x).
  { intros x D. unfold jdead in D. apply orb_false_iff in D. destruct D as [D1 D2]. unfold join_name. rewrite D1, D2. split; auto.
    split; intros ->; cbn [fst] in *; rewrite Z.eqb_refl in *; discriminate. }
  destruct (surgery nv s sc jpairs [] kept jdead psi Iv Ic Mc Sc GSc) as (t & r & Et & It & Ft & Stt & Ot & Gt & Nt); auto.
  { apply jkept. }
  { intros x D. now apply PX. }
  { apply jpsi_inj. }
  { intros a b x [[]|[]]. }
  { intros u v v' [[]|[]]. }
  { apply jpairs_spec. }
  { apply jpairs_complete. }
  { intros u v []. }
  { intros u v H. apply jpairs_spec in H. destruct H as [[]|(x & y & G & Kx & -> & ->)]. destruct (jgz_edge _ _ G). split; apply RC, KE; auto. eapply jkept; eauto. }
  { intros x D. now apply PX. }
  assert (RUN : join_polygons p1 e1 true s = (t, r)).
  { unfold join_polygons. cbn [negb]. rewrite (mbind_ok _ _ s s P1) by (unfold mread; now rewrite EP1).
    rewrite (mbind_ok _ _ s s (p2, e2)).
    2:{ unfold mread, opp_pair. cbn [s_opp mut_surface]. assert (O : opposite_edge s p1 (Z.of_nat e1) = Ok (Some (p2, Z.of_nat e2))) by (apply opposite_edge_Ok; [lia|]; split; auto; eapply gz_range; eauto).
        rewrite O. cbn [bind]. now rewrite Nat2Z.id. }
    cbn [fst snd]. rewrite (mbind_ok _ _ s s P2) by (unfold mread; now rewrite EP2).
    destruct (Z.eqb_spec p1 p2) as [|_]; [contradiction|]. rewrite (mbind_ok _ _ s s tt) by reflexivity.
    rewrite (mbind_ok _ _ s s t0) by (unfold mread; now rewrite Et0). rewrite (mbind_ok _ _ s s Q) by (unfold mlift; now rewrite EQ).
    change (nv P1) with n1. change (nv P2) with n2. cbv zeta. rewrite old_at_map.
    rewrite (mbind_ok _ _ s s (map (fun i => psi (jpartner i)) (seq 0 N))).
    2:{ unfold mread. assert (X : rmap (join_partner s p1 p2 (join_inv_map p1 (map old_at (seq 0 N)))) (map old_at (seq 0 N)) = Ok (map (fun i => psi (jpartner i)) (seq 0 N))); [|now rewrite X].
        assert (SB : forall i, In i (seq 0 N) -> (i < N)%nat) by (intros i Hi; apply in_seq in Hi; lia). revert SB. generalize (seq 0 N) at 1 3 4. intros l SB.
        induction l as [|i l IH]; cbn [map rmap]; auto. rewrite partner_ok by (apply SB; cbn; auto). rewrite IH by (intros; apply SB; cbn; auto). reflexivity. }
    rewrite (mbind_ok _ _ s s (roots_ s ++ d)) by (unfold mread; now rewrite ER).
    rewrite (mbind_ok _ _ _ _ _ E0), (mbind_ok _ _ _ _ _ Ea), (mbind_ok _ _ _ _ _ Eb), (mbind_ok _ _ _ _ _ Ec).
    rewrite map_length, seq_length, combine_map, mfor_map. cbn [fst snd]. rewrite <- Et. unfold jpairs. now rewrite mfor_map. }
  exists t, r. split; [exact RUN|]. split; [exact Ot|]. split.
  { intros H. specialize (H _ ER). apply Nt. assert (Qb : roots_ sb = nil).
    { destruct (roots_ sb) as [|x rs] eqn:E; auto. exfalso. destruct (proj1 (Rtb x)) as [X1 X2]; [cbn; auto|]. apply Rta in X1. destruct X1 as [X1 X3].
      destruct (Rt0 x X1) as [|X4]; auto. apply H in X4. tauto. }
    rewrite Qb in Rc. exact Rc. }
  intros Er. specialize (Gt Er).
  assert (Mt : mutable t = true) by (rewrite (f_mut _ _ Ft); auto).
  assert (REt : reachable nv t).
  { assert (A1 : reachable nv sa). { change sa with (fst (sa, @Ok unit tt)). rewrite <- Ea. apply pres_remove, R0. }
    assert (A2 : reachable nv sb). { change sb with (fst (sb, @Ok unit tt)). rewrite <- Eb. apply pres_remove, A1. }
    assert (A3 : reachable nv sc). { change sc with (fst (sc, Ok p1)). rewrite <- Ec. apply pres_add, A2. }
    change t with (fst (t, r)). rewrite <- Et. apply pres_for; auto. intros [u v] H. cbn [fst snd].
    apply jpairs_spec in H. assert (NN : forall x, is_edge nv s x -> kept x -> (0 <= snd (psi x))%Z) by (intros x Hx Kx; apply (KE x Hx) in Kx; destruct Kx as [? [_ ?]]; lia).
    destruct H as [[]|(x & y & G & Kx & -> & ->)]. destruct (jgz_edge _ _ G). apply pres_glue; apply NN; auto. eapply jkept; eauto. }
  assert (GT : good nv t) by (apply intact_good, reachable_intact; auto).
  assert (POLt : forall l, get_polygon t l = if (l =? p1)%Z then Ok Q else if (l =? p2)%Z then Err KeyError else get_polygon s l).
  { intros l. rewrite <- POL. unfold get_polygon. now rewrite (f_polys _ _ Ft). }
  assert (EDt : forall x, is_edge nv t x <-> is_edge nv sc x).
  { intros x. unfold is_edge. rewrite POLt, POL. tauto. }
  pose proof (sim_is_similarity t0 Kt) as SIM. assert (SIMT : map_similarity T (sg_a t0 * sg_a t0 + sg_b t0 * sg_b t0)).
  { destruct SIM as [X Y]. split; auto. intros a b. rewrite !Tt. apply Y. }
  split; auto. split; auto. constructor.
  - intros l. unfold is_label. rewrite POLt. destruct (Z.eqb_spec l p1) as [->|X1]; [split; [split; eauto|eauto]|]. destruct (Z.eqb_spec l p2) as [->|X2]; [split; [intros [? [=]]|tauto]|]. tauto.
  - intros l X1 X2. rewrite POLt. destruct (Z.eqb_spec l p1); [contradiction|]. destruct (Z.eqb_spec l p2); [contradiction|reflexivity].
  - pose proof (proj1 (C51_edges K _ _) EQ) as (EE & V0 & A3 & NZ & SI & AR).
    exists Q, (sg_a t0 * sg_a t0 + sg_b t0 * sg_b t0). rewrite POLt, Z.eqb_refl. split; auto. split; [exact LQ|]. split; auto. split; [unfold proper; rewrite LQ; unfold total_edges; repeat split; auto; lia|]. split; auto.
    rewrite (joined_area P1 P2 e1 e2 t0 T) by auto. unfold sim_det, sgn. rewrite St. ring.
  - intros [l i] Hy. apply EDt in Hy. destruct Hy as [Q' [EQ' Hi]]. cbn [fst snd] in *. rewrite POL in EQ'. destruct (Z.eqb_spec l p1) as [->|X1].
    + injection EQ' as <-. change (nv Q) with (length Q) in Hi. rewrite LQ in Hi. destruct (old_at_spec (Z.to_nat i)) as (A & [B B'] & C & _); [lia|].
      exists (nat_edge (old_at (Z.to_nat i))). split; auto. split; auto. split; auto. rewrite C. now rewrite Z2Nat.id by lia.
    + destruct (Z.eqb_spec l p2) as [->|X2]; [discriminate|]. exists (l, i). split; [exists Q'; auto|].
      destruct (PX (l, i)) as [A [B C]]; [unfold jdead; cbn [fst]; apply orb_false_iff; rewrite !Z.eqb_neq; auto|]. auto.
  - apply (recut_intro s t []); auto.
    + apply jkept.
    + intros x Hx Kx. now apply EDt, KE.
    + apply jpsi_inj.
    + intros a b x [[]|[]].
    + assert (JV : forall j, (j <= n1 + n2 - 2)%nat -> vertex Q j = joined_vertex P1 P2 e1 e2 T j) by (intros j Hj; apply (joined_vertices P1 P2 e1 e2 t0 T); auto).
      intros x P' Q' Hx Kx EP' EQ'. rewrite POLt in EQ'. unfold join_move.
      destruct (jpsi_cases x Hx Kx) as [(i & -> & Hi & Ex)|[(i & -> & Hi & Ex)|[(i & d' & -> & Hi & Ed & Hd & Ex)|(A & B & Ex)]]]; rewrite Ex in *; cbn [fst snd] in *; rewrite ?Nat2Z.id, ?Z.eqb_refl in *.
      * injection EQ' as <-. rewrite EP1 in EP'. injection EP' as <-. rewrite !JV by lia.
        rewrite !(joined_vertex_1 P1 P2 e1 e2 T) by lia. auto.
      * injection EQ' as <-. rewrite EP1 in EP'. injection EP' as <-. rewrite !JV by lia.
        rewrite !(joined_vertex_3 P1 P2 e1 e2 T) by (auto; lia). split; do 2 f_equal; lia.
      * injection EQ' as <-. rewrite EP2 in EP'. injection EP' as <-. destruct (Z.eqb_spec p2 p1); [congruence|].
        rewrite !JV by lia. rewrite !(joined_vertex_2 P1 P2 e1 e2 T) by (auto; lia).
        assert (VS : vertex P2 (e2 + d') = vertex P2 i /\ vertex P2 (S (e2 + d')) = vertex P2 (S i)).
        { assert (OA := off_add e2 n2 i ltac:(lia) Hi). rewrite <- Ed in OA. split; [now rewrite <- vertex_mod, OA|]. rewrite <- vertex_mod, <- (vertex_mod P2 (S i)). f_equal.
          rewrite <- (Nat.add_1_r (e2 + d')), <- Nat.add_mod_idemp_l, OA by lia. f_equal. lia. }
        destruct VS as [V V']. rewrite <- V, <- V'. split; do 3 f_equal; lia.
      * destruct (Z.eqb_spec (fst x) p1); [contradiction|]. destruct (Z.eqb_spec (fst x) p2); [contradiction|]. rewrite EP' in EQ'. injection EQ' as <-. auto.
    + intros x. unfold join_move. destruct (fst x =? p1)%Z; [|destruct (fst x =? p2)%Z]; (split; [eexists|]).
      * apply similarity_shift, similarity_id.
      * apply (orientation_shift (fun q => q)). intros a b c; auto.
      * apply similarity_shift. exact SIMT.
      * apply (orientation_shift T). apply GM.
      * apply similarity_id.
      * intros a b c; auto.
Qed.
End Join.
End K.
