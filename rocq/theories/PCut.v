(** Proofs about cutting and joining polygons: gluing again after polygons have been exchanged. *)
From Coq Require Import List Bool ZArith Arith Lia Relations.
From Verif Require Import MBase MDict PDict MMut SMut PMut PMut2 PMut3 PBuild TMut PSubdiv2 SCut.
Import ListNotations.

Section C.
Context {P : Type} (nv : P -> nat).
Notation surf := (@surf P).
Local Open Scope Z_scope.
Notation gl := (fun xy : hedge * hedge => glue nv (fst xy) (snd xy)).

Lemma glz_rel (s : surf) (R : hedge -> hedge -> Prop) x y : inv nv s -> (forall u v, gz (gluings s) u = Some v <-> R u v) ->
  (forall u v v', R u v \/ pair_in [(x, y)] u v -> R u v' \/ pair_in [(x, y)] u v' -> v = v') ->
  forall u v, glz (gluings s) x y u = Some v <-> R u v \/ pair_in [(x, y)] u v.
Proof.
  intros Iv G FU u v.
  assert (X : pair_in [(x, y)] x y) by (unfold pair_in; cbn; auto).
  assert (Y : pair_in [(x, y)] y x) by (unfold pair_in; cbn; auto).
  unfold glz.
  destruct (hedge_case u x) as [[-> E]|[-> E]].
  { subst u. split; [intros [= <-]|]; auto. intros H. f_equal. eapply FU; eauto. }
  destruct (hedge_case u y) as [[-> E']|[-> E']].
  { subst u. split; [intros [= <-]|]; auto. intros H. f_equal. eapply FU; eauto. }
  assert (N : forall c, gz (gluings s) x = Some c -> eqb u c = false).
  { intros c H. apply (eqb_neq u c). intros ->. apply G in H. apply E', (FU x); auto. }
  assert (N' : forall c, gz (gluings s) y = Some c -> eqb u c = false).
  { intros c H. apply (eqb_neq u c). intros ->. apply G in H. apply E, (FU y); auto. }
  transitivity (gz (gluings s) u = Some v).
  { destruct (gz (gluings s) x) as [c|] eqn:Gx; [rewrite (N c eq_refl)|]; destruct (gz (gluings s) y) as [c'|] eqn:Gy;
      try rewrite (N' _ eq_refl); tauto. }
  rewrite G. unfold pair_in. cbn. intuition congruence.
Qed.

Lemma glue_rel ps : forall (R : hedge -> hedge -> Prop) (s : surf), inv nv s -> mutable s = true -> sep s ->
  (forall u v, gz (gluings s) u = Some v <-> R u v) ->
  (forall u v v', R u v \/ pair_in ps u v -> R u v' \/ pair_in ps u v' -> v = v') -> ranged s ps ->
  exists s' r, mfor ps gl s = (s', r) /\ inv nv s' /\ frame s s' /\ sep s' /\ (r = Ok tt \/ r = Err AssertionError) /\
    (r = Ok tt -> forall u v, gz (gluings s') u = Some v <-> R u v \/ pair_in ps u v) /\ (roots_ s = nil -> r = Ok tt /\ roots_ s' = nil).
Proof.
  induction ps as [|[x y] ps IH]; intros R s Iv Mu SE PA FU RG.
  - exists s, (Ok tt). cbn. split; [reflexivity|]. split; [auto|]. split; [apply frame_refl|]. split; [auto|]. split; [auto|]. split; [|auto].
    intros _ u v. rewrite PA. unfold pair_in. cbn. tauto.
  - destruct (RG x y (or_introl eq_refl)) as [Rx Ry].
    destruct (glue_main nv s x y Iv Mu Rx Ry) as (s1 & r & E & I1 & F1 & G1 & B1 & S1 & _ & N1).
    specialize (S1 SE).
    assert (Mu1 : mutable s1 = true) by (rewrite (f_mut _ _ F1); auto).
    assert (PI : forall u v, (R u v \/ pair_in ((x, y) :: ps) u v) <-> ((R u v \/ pair_in [(x, y)] u v) \/ pair_in ps u v)).
    { intros u v. unfold pair_in. cbn. tauto. }
    destruct r as [[]|er].
    2:{ destruct B1 as [[= ->] _]; [discriminate|]. exists s1, (Err AssertionError). cbn [mfor fst snd]. rewrite (mbind_err _ _ _ _ _ E).
        split; [reflexivity|]. split; [auto|]. split; [auto|]. split; [auto|]. split; [auto|]. split; [discriminate|].
        intros Z. destruct (N1 Z) as [_ Z']. discriminate. }
    destruct (IH (fun u v => R u v \/ pair_in [(x, y)] u v) s1 I1 Mu1 S1) as (s' & r & E' & I' & F' & S' & O' & G' & N').
    { intros u v. rewrite (G1 eq_refl). apply glz_rel; auto.
      intros u0 v0 v1 H H'. apply (FU u0); apply PI; auto. }
    { intros u v v' H H'. apply (FU u); apply PI; auto. }
    { apply (ranged_frame s); auto. eapply ranged_tail; eauto. }
    exists s', r. cbn [mfor fst snd]. rewrite (mbind_ok _ _ _ _ _ E). split; [exact E'|]. split; [auto|].
    split; [eapply frame_trans; eauto|]. split; [auto|]. split; [auto|]. split.
    + intros Z u v. rewrite (G' Z), PI. tauto.
    + intros Z. apply N', N1, Z.
Qed.

(** the surface [s1] has the gluings of [s] that do not involve [dead] edges; the other ones are glued again *)
Section Surgery.
Variables (s s1 : surf) (ps extra : list (hedge * hedge)) (kept : hedge -> Prop) (dead : hedge -> bool) (psi : hedge -> hedge).
Hypotheses (I0 : inv nv s) (I1 : inv nv s1) (M1 : mutable s1 = true) (S1 : sep s1).
Hypothesis K1 : forall u v, gz (gluings s1) u = Some v <-> gz (gluings s) u = Some v /\ dead u = false /\ dead v = false.
Hypothesis K2 : forall x y, gz (gluings s) x = Some y -> kept x -> kept y.
Hypothesis K3 : forall x, dead x = false -> psi x = x.
Hypothesis K4 : forall x y, is_edge nv s x -> is_edge nv s y -> kept x -> kept y -> psi x = psi y -> x = y.
Hypothesis K5 : forall a b x, pair_in extra a b -> is_edge nv s x -> kept x -> psi x <> a.
Hypothesis K5f : functional_pairs extra.
Hypothesis K6 : forall u v, In (u, v) ps -> In (u, v) extra \/ exists x y, gz (gluings s) x = Some y /\ kept x /\ u = psi x /\ v = psi y.
Hypothesis K7 : forall x y, gz (gluings s) x = Some y -> kept x -> dead x = true -> pair_in ps (psi x) (psi y).
Hypothesis K7e : forall u v, In (u, v) extra -> pair_in ps u v.
Hypothesis K8 : ranged s1 ps.
Hypothesis K9 : forall x, dead x = false -> kept x.

Definition surg u v := pair_in extra u v \/ exists x y, gz (gluings s) x = Some y /\ kept x /\ u = psi x /\ v = psi y.
Lemma surg_sym u v : surg u v -> surg v u.
Proof.
  intros [[H|H]|(x & y & G & Kx & -> & ->)]; [left; right; auto|left; left; auto|]. right. exists y, x. split; [now apply (i_inv nv s I0)|]. split; [eapply K2; eauto|auto].
Qed.
Lemma surg_functional u v v' : surg u v -> surg u v' -> v = v'.
Proof.
  intros [H|(x & y & G & Kx & -> & ->)] [H'|(x' & y' & G' & Kx' & E & ->)].
  - eapply K5f; eauto.
  - subst u. exfalso. apply (K5 _ _ x' H); auto. apply (proj2 (glued_gz nv s x' y' I0) G').
  - exfalso. apply (K5 _ _ x H'); auto. apply (proj2 (glued_gz nv s x y I0) G).
  - apply K4 in E; auto.
    + subst x'. rewrite G in G'. now injection G' as ->.
    + apply (proj2 (glued_gz nv s x y I0) G).
    + apply (proj2 (glued_gz nv s x' y' I0) G').
Qed.
Lemma surg_iff u v : (gz (gluings s1) u = Some v \/ pair_in ps u v) <-> surg u v.
Proof.
  split.
  - intros [H|[H|H]].
    + apply K1 in H. destruct H as (G & Du & Dv). right. exists u, v. rewrite !K3 by auto. auto.
    + apply K6 in H. destruct H as [H|H]; [left; left; auto|right; auto].
    + apply surg_sym. apply K6 in H. destruct H as [H|H]; [left; left; auto|right; auto].
  - intros [[H|H]|(x & y & G & Kx & -> & ->)].
    + right. apply K7e, H.
    + right. apply K7e in H. destruct H; [right|left]; auto.
    + destruct (dead x) eqn:Dx; [right; now apply K7|]. destruct (dead y) eqn:Dy.
      * right. assert (G' := i_inv nv s I0 _ _ G). destruct (K7 y x G') as [H|H]; auto; [eapply K2; eauto|right; auto|left; auto].
      * left. rewrite !K3 by auto. apply K1. auto.
Qed.
Lemma surgery : exists t r, mfor ps gl s1 = (t, r) /\ inv nv t /\ frame s1 t /\ sep t /\ (r = Ok tt \/ r = Err AssertionError) /\
    (r = Ok tt -> forall u v, gz (gluings t) u = Some v <-> surg u v) /\ (roots_ s1 = nil -> r = Ok tt /\ roots_ t = nil).
Proof.
  destruct (glue_rel ps (fun u v => gz (gluings s1) u = Some v) s1 I1 M1 S1) as (t & r & E & It & F & St & O & G & N); auto.
  - intros u v; tauto.
  - intros u v v' H H'. apply surg_iff in H, H'. eapply surg_functional; eauto.
  - exists t, r. split; auto. split; auto. split; auto. split; auto. split; auto. split; auto.
    intros Z u v. rewrite (G Z). apply surg_iff.
Qed.
End Surgery.
End C.

(** numbering the edges of a polygon from another one *)
Section Index.

Lemma off_lt v n i : n <> 0%nat -> (off v n i < n)%nat.
Proof. intros. now apply Nat.mod_upper_bound. Qed.
Lemma off_mod v n i : (v <= n)%nat -> (v <= i < v + n)%nat -> off v n (i mod n) = (i - v)%nat.
Proof.
  intros Hv Hi. unfold off. assert (N : n <> 0%nat) by lia. destruct (Nat.lt_ge_cases i n) as [L|L].
  - rewrite (Nat.mod_small i) by lia. replace (i + n - v)%nat with ((i - v) + 1 * n)%nat by lia. rewrite Nat.mod_add by lia. apply Nat.mod_small. lia.
  - assert (E : (i mod n = i - n)%nat \/ (i = 2 * n /\ v = n)%nat).
    { destruct (Nat.lt_ge_cases i (2 * n)) as [L'|L']; [|right; lia]. left. symmetry. apply (Nat.mod_unique i n 1); lia. }
    destruct E as [E|[-> ->]]; [|lia]. rewrite E. rewrite Nat.mod_small by lia. lia.
Qed.
Lemma off_add v n i : (v <= n)%nat -> (i < n)%nat -> ((v + off v n i) mod n = i)%nat.
Proof.
  intros Hv Hi. unfold off. rewrite Nat.add_mod_idemp_r by lia. replace (v + (i + n - v))%nat with (i + 1 * n)%nat by lia. rewrite Nat.mod_add by lia. apply Nat.mod_small. lia.
Qed.
Lemma off_inj v n i j : (v <= n)%nat -> (i < n)%nat -> (j < n)%nat -> off v n i = off v n j -> i = j.
Proof. intros Hv Hi Hj E. rewrite <- (off_add v n i), <- (off_add v n j) by auto. now rewrite E. Qed.
End Index.
