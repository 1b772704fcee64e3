(** Ear clipping as a relation between lists of vertices and lists of triangles. *)
From Coq Require Import List Bool ZArith Arith Lia Ring Field Permutation.
From Verif Require Import OField FMicromega PField MBase MEuclid SEuclid PEuclid SSim MPoly SPoint PPoly SCut PJordan PJordan2 PJordan3 PJordan4 PJordan5 MEar.
Import ListNotations.

(** the directed edges of triangles *)
Definition tri_edges (t : triple) : list (nat * nat) := match t with (a, b, c) => [(a, b); (b, c); (c, a)] end.
Definition dedges (T : list triple) : list (nat * nat) := flat_map tri_edges T.

Lemma cyc_ends {A} (b : A) l : (2 <= length l)%nat -> cyc l = segs l ++ [(last l b, hd b l)].
Proof.
  intros N. destruct l as [|c m]; [cbn in N; lia|]. destruct (exists_last (l := c :: m)) as [r [z E]]; [discriminate|].
  rewrite E, last_last. destruct r as [|c' r]; [destruct m; cbn in N, E; [lia|destruct m; discriminate E]|]. cbn [app] in *.
  injection E as <- E. cbn [hd]. apply cyc_snoc.
Qed.
Lemma segs_last {A} (b : A) l u : NoDup l -> ~ In (last l b, u) (segs l).
Proof.
  intros ND I. apply in_segs in I. destruct I as [l1 [l2 E]]. assert (X : In (last l b) (u :: l2)).
  { rewrite E at 1. replace (l1 ++ last l b :: u :: l2) with ((l1 ++ [last l b]) ++ u :: l2) by now rewrite <- app_assoc.
    destruct (exists_last (l := u :: l2)) as [r [z E']]; [discriminate|]. rewrite E', app_assoc, last_last. apply in_or_app. right. now left. }
  rewrite E in ND. apply NoDup_remove_2 in ND. apply ND, in_or_app. now right.
Qed.
Lemma segs_hd_last {A} (b : A) l : NoDup l -> (3 <= length l)%nat -> ~ In (hd b l, last l b) (segs l).
Proof.
  intros ND N I. destruct l as [|c [|d l]]; cbn in N; try lia. cbn [hd] in I. rewrite segs_cons in I. destruct I as [I|I].
  - assert (X : d = last (c :: d :: l) b) by congruence. rewrite !last_cons in X. clear I. rename X into I. destruct (exists_last (l := l)) as [r [z E]]; [intros ->; cbn in N; lia|].
    rewrite E, last_last in I. subst. inversion ND as [|? ? _ ND']; subst. inversion ND' as [|? ? X _]; subst. apply X, in_or_app. right. now left.
  - apply in_segs_in in I. inversion ND; subst. tauto.
Qed.
Lemma prod_eq_dec_nat (g h : nat * nat) : {g = h} + {g <> h}.
Proof. decide equality; apply Nat.eq_dec. Qed.
Lemma classic_edge (g h : nat * nat) : g = h \/ g <> h.
Proof. destruct (prod_eq_dec_nat g h); auto. Qed.
Lemma hd_in {A} (b : A) l : l <> [] -> In (hd b l) l.
Proof. destruct l; [congruence|]. intros _. now left. Qed.
Lemma last_in {A} (b : A) l : l <> [] -> In (last l b) l.
Proof. intros N. destruct (exists_last N) as [r [z ->]]. rewrite last_last. apply in_or_app. right. now left. Qed.
Lemma hd_last {A} (b : A) l : NoDup l -> (2 <= length l)%nat -> hd b l <> last l b.
Proof.
  intros ND N E. destruct l as [|c l]; [cbn in N; lia|]. cbn [hd] in E. rewrite last_cons in E. inversion ND as [|? ? X _]; subst.
  apply X. pattern c at 1. rewrite E. apply last_in. destruct l; [cbn in N; lia|discriminate].
Qed.
Lemma map_last {A B} (f : A -> B) l d : last (map f l) (f d) = f (last l d).
Proof. induction l as [|a [|b l] IH]; auto. Qed.
Lemma map_hd {A B} (f : A -> B) l d : hd (f d) (map f l) = f (hd d l).
Proof. now destruct l. Qed.
Lemma rot_map {A B} (f : A -> B) l r : rot l r -> rot (map f l) (map f r).
Proof. intros [l1 [l2 [-> ->]]]. rewrite !map_app. now exists (map f l1), (map f l2). Qed.

Section E.
Context {K : OField}.
Add Field KFear : (of_ft K).
Local Open Scope F_scope.
Implicit Types (q : vec K).
Variable v : nat -> vec K.

Inductive clips : list nat -> list triple -> Prop :=
| clips_three a b c : 0 < orient (v a) (v b) (v c) -> clips [a; b; c] [(a, b, c)]
| clips_ear U U' b l T : rot U (b :: l) -> rot U' l -> (3 <= length l)%nat -> 0 < orient (v (last l b)) (v b) (v (hd b l)) ->
    empty_corner (v b) (map v l) (v (last l b)) (v (hd b l)) -> clips U' T -> clips U ((last l b, b, hd b l) :: T).

Lemma clips_length U T : clips U T -> length U = (length T + 2)%nat.
Proof.
  induction 1 as [a b c O|U U' b l T R R' N O E C IH]; [reflexivity|]. apply rot_length in R, R'. cbn [length] in *. lia.
Qed.

(** ** the edges of the triangles *)
Lemma clips_vertices U T u w : clips U T -> In (u, w) (dedges T) -> In u U /\ In w U.
Proof.
  intros C. revert u w. induction C as [a b c O|U U' b l T R R' N O E C IH]; intros u w I.
  - cbn in I. repeat (destruct I as [I|I]; [injection I as <- <-; cbn; auto|]). destruct I.
  - assert (NL : l <> []) by (intros ->; cbn in N; lia).
    assert (X : forall x, x = b \/ In x l -> In x U) by (intros x [->|Hx]; apply (rot_in _ _ _ R); cbn; auto).
    cbn [dedges flat_map] in I. apply in_app_or in I. destruct I as [I|I].
    + cbn in I. repeat (destruct I as [I|I]; [injection I as <- <-; split; apply X; auto using hd_in, last_in|]). destruct I.
    + apply IH in I. destruct I as [I1 I2]. split; apply X; right; apply (rot_in _ _ _ R'); auto.
Qed.
Lemma clips_edges U T : NoDup U -> clips U T -> NoDup (dedges T) /\
  (forall u w, In (u, w) (cyc U) -> In (u, w) (dedges T) /\ ~ In (w, u) (dedges T)) /\
  (forall u w, In (u, w) (dedges T) -> ~ In (u, w) (cyc U) -> In (w, u) (dedges T) /\ ~ In (w, u) (cyc U)).
Proof.
  intros ND C. revert ND. induction C as [a b c O|U U' b l T R R' N O E C IH]; intros ND.
  - assert (a <> b /\ b <> c /\ c <> a) as [Nab [Nbc Nca]].
    { apply NoDup_cons_iff in ND. destruct ND as [X ND]. apply NoDup_cons_iff in ND. destruct ND as [Y _]. cbn in X, Y. intuition congruence. }
    change (dedges [(a, b, c)]) with [(a, b); (b, c); (c, a)]. change (cyc [a; b; c]) with [(a, b); (b, c); (c, a)]. split; [|split].
    + repeat constructor; cbn; intuition congruence.
    + intros u w I. split; auto. cbn in *. intuition congruence.
    + intros u w I J. contradiction.
  - assert (ND1 : NoDup (b :: l)) by now apply (rot_nodup U). apply NoDup_cons_iff in ND1. destruct ND1 as [Nb NDl].
    assert (NL : l <> []) by (intros ->; cbn in N; lia).
    destruct IH as [I1 [I2 I3]]; [apply (rot_nodup l); auto using rot_sym|].
    pose proof (hd_last b l NDl ltac:(lia)) as Nca. pose proof (segs_hd_last b l NDl N) as Sca. pose proof (segs_last b l) as Sa.
    pose proof (hd_in b l NL) as Hc. pose proof (last_in b l NL) as Ha.
    set (a := last l b) in *. set (c := hd b l) in *.
    assert (CU : forall g, In g (cyc U) <-> g = (b, c) \/ In g (segs l) \/ g = (a, b)).
    { intros g. rewrite (rot_cyc_in _ _ g R), cyc_path by auto. cbn [In]. rewrite in_app_iff. cbn [In]. fold a c. intuition congruence. }
    assert (CU' : forall g, In g (cyc U') <-> In g (segs l) \/ g = (a, c)).
    { intros g. rewrite (rot_cyc_in _ _ g R'), (cyc_ends b) by lia. rewrite in_app_iff. cbn [In]. fold a c. intuition congruence. }
    assert (V : forall u w, In (u, w) (dedges T) -> In u l /\ In w l).
    { intros u w I. apply (clips_vertices U' T u w C) in I. now rewrite !(rot_in _ _ _ R') in I. }
    assert (Vs : forall u w, In (u, w) (segs l) -> In u l /\ In w l) by (intros; now apply in_segs_in).
    assert (DE : forall g, In g (dedges ((a, b, c) :: T)) <-> g = (a, b) \/ g = (b, c) \/ g = (c, a) \/ In g (dedges T)).
    { intros g. cbn. intuition congruence. }
    assert (AC : In (a, c) (dedges T) /\ ~ In (c, a) (dedges T)) by (apply I2, CU'; auto). destruct AC as [AC1 AC2].
    assert (Nba : b <> a) by (intros X; apply Nb; now rewrite X). assert (Nbc : b <> c) by (intros X; apply Nb; now rewrite X).
    split; [|split].
    + change (dedges ((a, b, c) :: T)) with ((a, b) :: (b, c) :: (c, a) :: dedges T). repeat constructor; cbn; auto.
      * intros [X|[X|X]]; [congruence|congruence|apply V in X; tauto].
      * intros [X|X]; [congruence|apply V in X; tauto].
    + intros u w I. rewrite !DE. apply CU in I. destruct I as [I|[I|I]].
      * injection I as -> ->. split; auto. intros [X|[X|[X|X]]]; try congruence. apply V in X. tauto.
      * destruct (I2 u w) as [J1 J2]; [apply CU'; auto|]. split; auto. destruct (Vs _ _ I). intros [X|[X|[X|X]]]; auto.
        -- injection X as -> ->. tauto.
        -- injection X as -> ->. tauto.
        -- injection X as -> ->. exact (Sa c NDl I).
      * injection I as -> ->. split; auto. intros [X|[X|[X|X]]]; try congruence. apply V in X. tauto.
    + intros u w I J. rewrite DE in I |- *. rewrite CU in J |- *.
      assert (Q : (u, w) = (c, a) \/ (u, w) = (a, c) \/ (u <> b /\ w <> b /\ In (u, w) (dedges T) /\ ~ In (u, w) (cyc U'))).
      { destruct I as [I|[I|[I|I]]]; auto; try (exfalso; apply J; auto; fail). destruct (V _ _ I).
        assert (u <> b) by (intros ->; tauto). assert (w <> b) by (intros ->; tauto).
        destruct (classic_edge (u, w) (a, c)) as [X|X]; auto. right; right. repeat split; auto. rewrite CU'. intuition congruence. }
      destruct Q as [Q|[Q|[Q1 [Q2 [Q3 Q4]]]]].
      * injection Q as -> ->. split; auto. intros [X|[X|X]]; try congruence. exact (Sa c NDl X).
      * injection Q as -> ->. split; auto. intros [X|[X|X]]; try congruence.
      * apply I3 in Q4; auto. destruct Q4 as [Q4 Q5]. split; auto. intros [X|[X|X]]; try congruence. apply Q5, CU'. auto.
Qed.
End E.
