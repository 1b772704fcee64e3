(** The edges around the vertices of a closed surface. *)
From Coq Require Import List Bool ZArith Arith Lia Relations Permutation.
From Verif Require Import MBase MDict PDict MComb SComb PClos PComb PParity MHom.
Import ListNotations.

Section O.
Context {L : Type} `{EL : EqB L}.
Notation dart := (L * nat)%type.
Variable S : csurf L.
Variable CV : cvalid S.
Variable CC : cclosed S.
Notation ds := (darts S).
Notation opp := (opp S).
Definition sig (d : dart) : dart := opp (dprev S d).

Lemma opp_some d : In d ds -> c_opp S d = Some (opp d).
Proof. intros D. apply In_darts in D. unfold MHom.opp. destruct (c_opp S d) eqn:E; auto. now apply CC in E. Qed.
Lemma opp_dart d : In d ds -> In (opp d) ds.
Proof.
  intros D. pose proof (opp_some d D) as E. apply In_darts in D. apply In_darts. now apply (cv_opp S CV d).
Qed.
Lemma opp_opp d : In d ds -> opp (opp d) = d.
Proof.
  intros D. pose proof (opp_some d D) as E. pose proof D as D'. apply In_darts in D. destruct (cv_opp S CV d _ D E) as [_ F].
  unfold MHom.opp at 1. now rewrite F.
Qed.
Lemma prev_in d : In d ds -> In (dprev S d) ds.
Proof. rewrite !In_darts. apply dprev_dart. Qed.
Lemma next_in d : In d ds -> In (dnext S d) ds.
Proof. rewrite !In_darts. apply dnext_dart. Qed.
Lemma sig_next d : In d ds -> sig (dnext S d) = opp d.
Proof. intros D. unfold sig. rewrite dprev_dnext; auto. now apply In_darts. Qed.
Lemma nodup : NoDup ds.
Proof. apply NoDup_darts, (cv_labels S CV). Qed.
Lemma sig_acts : acts ds sig.
Proof.
  split.
  - intros x I. apply opp_dart. now apply prev_in.
  - intros x y Ix Iy E. unfold sig in E. apply (f_equal opp) in E. rewrite !opp_opp in E by now apply prev_in.
    apply (f_equal (dnext S)) in E. rewrite !dnext_dprev in E; auto; now apply In_darts.
Qed.
Lemma opp_acts : acts ds opp.
Proof.
  split; [apply opp_dart|]. intros x y Ix Iy E. apply (f_equal opp) in E. now rewrite !opp_opp in E.
Qed.
Lemma next_acts : acts ds (dnext S).
Proof.
  split; [apply next_in|]. intros x y Ix Iy E. apply (f_equal (dprev S)) in E. rewrite !dprev_dnext in E; auto; now apply In_darts.
Qed.
Lemma acts_perm f : acts ds f -> Permutation (map f ds) ds.
Proof.
  intros [F I]. apply NoDup_Permutation_bis; [|rewrite map_length; lia|].
  - pose proof nodup as N.
    assert (X : forall l', NoDup l' -> incl l' ds -> NoDup (map f l')).
    { induction l' as [|x l' IH]; intros N' In'; cbn; constructor.
      - intros J. apply in_map_iff in J. destruct J as [y [E J]]. inversion N'; subst. apply I in E; [|apply In'; now right|apply In'; now left].
        now subst.
      - inversion N'; subst. apply IH; auto. intros z Z. apply In'. now right. }
    apply X; auto. apply incl_refl.
  - intros x J. apply in_map_iff in J. destruct J as [y [<- J]]. now apply F.
Qed.

(** the walk around a vertex is the orbit *)
Lemma it_S f (x : dart) n : it n f (f x) = f (it n f x).
Proof. induction n; cbn; congruence. Qed.
Lemma around_orbit fuel start d k : 0 < k <= fuel -> it k sig d = start -> (forall i, 0 < i < k -> it i sig d <> start) ->
  around S fuel start d = map (fun i => it i sig d) (seq 0 k).
Proof.
  revert d k. induction fuel as [|fuel IH]; intros d k K E N; [lia|].
  cbn [around]. change (opp (dprev S d)) with (sig d). destruct k as [|k]; [lia|]. destruct k as [|k].
  - cbn in E. rewrite E, eqb_refl. reflexivity.
  - destruct (eqb (sig d) start) eqn:Q.
    + apply (proj1 (eqb_ok _ _)) in Q. exfalso. apply (N 1); [lia|]. exact Q.
    + rewrite (IH (sig d) (Datatypes.S k)); [|lia|rewrite it_S; exact E|].
      * change (seq 0 (Datatypes.S (Datatypes.S k))) with (0 :: seq 1 (Datatypes.S k)). cbn [map]. f_equal.
        rewrite <- (seq_shift (Datatypes.S k) 0), map_map. apply map_ext. intros i. apply it_S.
      * intros i Hi. rewrite it_S. apply (N (Datatypes.S i)). lia.
Qed.
Lemma edges_ccw_spec d : In d ds -> exists k, 0 < k /\ it k sig d = d /\ (forall i, 0 < i < k -> it i sig d <> d) /\
  NoDup (map (fun i => it i sig d) (seq 0 k)) /\ edges_ccw S d = map (fun i => it i sig d) (seq 0 k).
Proof.
  intros D. destruct (iter_return ds sig d sig_acts D) as (m & Hm & Em).
  destruct (first_hit (fun i => eqb (it i sig d) d) m Hm) as (k & K & Ek & Nk).
  { apply eqb_ok. exact Em. }
  apply (proj1 (eqb_ok _ _)) in Ek.
  assert (N : forall i, 0 < i < k -> it i sig d <> d). { intros i Hi. apply eqb_neq. now apply Nk. }
  assert (ND : NoDup (map (fun i => it i sig d) (seq 0 k))).
  { assert (X : forall n a, a + n <= k -> NoDup (map (fun i => it i sig d) (seq a n))).
    { induction n as [|n IH]; intros a H; cbn; constructor.
      - intros J. apply in_map_iff in J. destruct J as [j [E J]]. apply in_seq in J.
        assert (Z : it (j - a) sig d = d).
        { apply (iter_cancel ds sig d a (j - a) sig_acts D). replace (a + (j - a)) with j by lia. now symmetry. }
        apply (N (j - a)); auto. lia.
      - apply IH. lia. }
    now apply X. }
  exists k. split; auto. split; auto. split; auto. split; auto.
  unfold edges_ccw. apply around_orbit; auto. split; auto.
  assert (IN : incl (map (fun i => it i sig d) (seq 0 k)) ds).
  { intros y J. apply in_map_iff in J. destruct J as [i [<- _]]. apply iter_in; auto. apply sig_acts. }
  pose proof (NoDup_incl_length ND IN) as Y. now rewrite map_length, seq_length in Y.
Qed.
Lemma ccw_nodup d : In d ds -> NoDup (edges_ccw S d).
Proof. intros D. destruct (edges_ccw_spec d D) as (k & _ & _ & _ & N & ->). exact N. Qed.
Lemma ccw_incl d : In d ds -> incl (edges_ccw S d) ds.
Proof.
  intros D. destruct (edges_ccw_spec d D) as (k & _ & _ & _ & N & ->). intros y J.
  apply in_map_iff in J. destruct J as [i [<- _]]. apply iter_in; auto. apply sig_acts.
Qed.
Lemma ccw_start d : In d ds -> In d (edges_ccw S d).
Proof. intros D. destruct (edges_ccw_spec d D) as (k & K & _ & _ & N & ->). apply in_map_iff. exists 0. split; auto. apply in_seq. lia. Qed.
Lemma ccw_sig d x : In d ds -> In x (edges_ccw S d) -> In (sig x) (edges_ccw S d).
Proof.
  intros D. destruct (edges_ccw_spec d D) as (k & K & E & _ & N & ->). intros J.
  apply in_map_iff in J. destruct J as [i [<- J]]. apply in_seq in J. apply in_map_iff.
  destruct (Nat.eq_dec (i + 1) k) as [Q|Q].
  - exists 0. split; [|apply in_seq; lia]. rewrite <- Q, Nat.add_1_r in E. cbn in *. now rewrite E.
  - exists (i + 1). split; [|apply in_seq; lia]. rewrite Nat.add_1_r. reflexivity.
Qed.
Lemma it_it f (x : dart) i j : it i f (it j f x) = it (i + j) f x.
Proof. induction i; cbn; congruence. Qed.
Lemma ccw_sym d x : In d ds -> In x (edges_ccw S d) -> In d (edges_ccw S x).
Proof.
  intros D J. pose proof (ccw_incl d D x J) as X. pose proof (ccw_start x X) as Y.
  destruct (edges_ccw_spec d D) as (k & K & E & _ & _ & F). rewrite F in J.
  apply in_map_iff in J. destruct J as [i [<- J]]. apply in_seq in J.
  assert (Z : forall n y, In y (edges_ccw S (it i sig d)) -> In (it n sig y) (edges_ccw S (it i sig d))).
  { induction n; cbn; intros y Hy; auto. apply ccw_sig; auto. }
  specialize (Z (k - i) _ Y). rewrite it_it in Z. now replace (k - i + i) with k in Z by lia; rewrite E in Z.
Qed.
Lemma ccw_trans d x y : In d ds -> In x (edges_ccw S d) -> In y (edges_ccw S x) -> In y (edges_ccw S d).
Proof.
  intros D J J'. destruct (edges_ccw_spec x (ccw_incl d D x J)) as (k & _ & _ & _ & _ & F). rewrite F in J'.
  apply in_map_iff in J'. destruct J' as [i [<- _]]. induction i; cbn; auto. now apply ccw_sig.
Qed.
Lemma ccw_vertex d x : In d ds -> In x ds -> (In x (edges_ccw S d) <-> same_vertex S d x).
Proof.
  intros D X. rewrite (same_vertex_merged S CV). split.
  - intros J. destruct (edges_ccw_spec d D) as (k & _ & _ & _ & _ & F). rewrite F in J.
    apply in_map_iff in J. destruct J as [i [<- _]]. eapply clos_mono; [|apply (iter_cyc ds sig d i sig_acts D)].
    intros u v [U ->]. split; auto. apply opp_some. now apply prev_in.
  - intros C. assert (Y : forall u v, clos_refl_sym_trans _ (merged S ds) u v ->
      In u ds -> (In u (edges_ccw S d) <-> In v (edges_ccw S d))).
    { clear x X C. intros u v C. induction C as [u v [U O]|u|u v C IH|u v w C1 IH1 C2 IH2]; intros I.
      - rewrite opp_some in O by now apply prev_in. inversion O; subst v. change (opp (dprev S u)) with (sig u).
        split; intros J; [now apply ccw_sig|].
        apply (ccw_trans d (sig u)); auto. apply ccw_sym; auto. apply ccw_sig; auto. now apply ccw_start.
      - tauto.
      - assert (In u ds).
        { pose proof (iter_in ds) as _. assert (Q : forall a b, clos_refl_sym_trans _ (merged S ds) a b -> (In a ds <-> In b ds)).
          { clear - CV CC. intros a b C. induction C as [u v [U O]| | |]; try tauto. rewrite opp_some in O by now apply prev_in. inversion O; subst.
            split; intros; auto. apply opp_dart. now apply prev_in. }
          now apply (Q u v). }
        specialize (IH H). tauto.
      - assert (In v ds).
        { assert (Q : forall a b, clos_refl_sym_trans _ (merged S ds) a b -> (In a ds <-> In b ds)).
          { clear - CV CC. intros a b C. induction C as [u v [U O]| | |]; try tauto. rewrite opp_some in O by now apply prev_in. inversion O; subst.
            split; intros; auto. apply opp_dart. now apply prev_in. }
          now apply (Q u v). }
        rewrite (IH1 I). now apply IH2. }
    apply (Y d x C D). now apply ccw_start.
Qed.

(** ** the vertices *)
Lemma vertices_spec : NoDup (vertices S) /\ incl (vertices S) ds /\
  (forall d, In d ds -> exists v, In v (vertices S) /\ In d (edges_ccw S v)) /\
  (forall v w d, In v (vertices S) -> In w (vertices S) -> In d (edges_ccw S v) -> In d (edges_ccw S w) -> v = w).
Proof.
  unfold vertices.
  assert (X : forall l vs, incl l ds -> NoDup vs -> incl vs ds ->
    (forall v w d, In v vs -> In w vs -> In d (edges_ccw S v) -> In d (edges_ccw S w) -> v = w) ->
    let r := fold_left (fun vs d => if existsb (fun v => mem d (edges_ccw S v)) vs then vs else vs ++ [d]) l vs in
    NoDup r /\ incl r ds /\ (forall d, In d l -> exists v, In v r /\ In d (edges_ccw S v)) /\ incl vs r /\
    (forall v w d, In v r -> In w r -> In d (edges_ccw S v) -> In d (edges_ccw S w) -> v = w)).
  { induction l as [|d l IH]; intros vs Il N Iv U; cbn [fold_left].
    - cbn. split; auto. split; auto. split; [intros d []|]. split; [apply incl_refl|auto].
    - assert (Il' : incl l ds) by (intros z Z; apply Il; now right).
      assert (Dd : In d ds) by (apply Il; now left).
      destruct (existsb (fun v => mem d (edges_ccw S v)) vs) eqn:E.
      + apply existsb_exists in E. destruct E as [v [V M]]. apply mem_In in M.
        destruct (IH vs Il' N Iv U) as (A1 & A2 & A3 & A4 & A5). split; auto. split; auto. split; [|split; auto].
        intros x [<-|I]; auto. exists v. split; auto.
      + assert (Nd : forall v, In v vs -> ~ In d (edges_ccw S v)).
        { intros v V J. assert (existsb (fun v => mem d (edges_ccw S v)) vs = true); [|congruence].
          apply existsb_exists. exists v. split; auto. now apply mem_In. }
        destruct (IH (vs ++ [d])) as (A1 & A2 & A3 & A4 & A5); auto.
        * apply NoDup_snoc; auto. intros J. apply (Nd d J). now apply ccw_start.
        * intros z Z. apply in_app_or in Z. destruct Z as [Z|[<-|[]]]; auto.
        * intros v w x V W Jv Jw. apply in_app_or in V. apply in_app_or in W.
          destruct V as [V|[<-|[]]], W as [W|[<-|[]]]; eauto.
          -- exfalso. apply (Nd v V). apply (ccw_trans v x); auto. now apply ccw_sym.
          -- exfalso. apply (Nd w W). apply (ccw_trans w x); auto. now apply ccw_sym.
        * split; auto. split; auto. split; [|split; auto].
          -- intros x [<-|I]; auto. exists d. split; [|now apply ccw_start]. apply A4. apply in_or_app. right. now left.
          -- intros z Z. apply A4. apply in_or_app. now left. }
  destruct (X ds nil) as (A1 & A2 & A3 & A4 & A5); auto.
  - apply incl_refl.
  - constructor.
  - intros z [].
  - intros v w d [].
Qed.
Lemma point_spec d : In d ds -> In (point S d) (vertices S) /\ In d (edges_ccw S (point S d)).
Proof.
  intros D. unfold point. destruct vertices_spec as (_ & _ & A & _). destruct (A d D) as (v & V & J).
  destruct (List.find _ _) as [w|] eqn:E.
  - apply find_some in E. destruct E as [W M]. split; auto. now apply mem_In.
  - exfalso. apply (find_none _ _ E) in V. apply mem_In in J. congruence.
Qed.
Lemma point_eq d v : In d ds -> In v (vertices S) -> (point S d = v <-> In d (edges_ccw S v)).
Proof.
  intros D V. destruct (point_spec d D) as [P J]. split; [intros <-; exact J|]. intros J'.
  destruct vertices_spec as (_ & _ & _ & U). now apply (U _ _ d).
Qed.
Lemma vertex_dart v : In v (vertices S) -> In v ds.
Proof. destruct vertices_spec as (_ & I & _). apply I. Qed.
Lemma point_vertex d d' : In d ds -> In d' ds -> (point S d = point S d' <-> same_vertex S d d').
Proof.
  intros D D'. destruct (point_spec d D) as [P J], (point_spec d' D') as [P' J'].
  rewrite <- (ccw_vertex d d' D D'). rewrite (point_eq d _ D P'). split; intros X.
  - apply (ccw_trans d (point S d')); auto. apply ccw_sym; auto. now apply vertex_dart.
  - apply (ccw_trans _ d'); auto; [now apply vertex_dart|]. now apply ccw_sym.
Qed.
Lemma point_sig d : In d ds -> point S (sig d) = point S d.
Proof.
  intros D. destruct (point_spec d D) as [P J]. apply point_eq; auto; [now apply sig_acts|]. apply ccw_sig; auto. now apply vertex_dart.
Qed.
Lemma NoDup_app_intro {A} (l l' : list A) : NoDup l -> NoDup l' -> (forall x, In x l -> In x l' -> False) -> NoDup (l ++ l').
Proof.
  induction l as [|x l IH]; cbn; auto. intros N N' X. inversion N; subst. constructor.
  - rewrite in_app_iff. intros [I|I]; eauto.
  - apply IH; eauto.
Qed.
Lemma orbits_perm : Permutation (concat (map (edges_ccw S) (vertices S))) ds.
Proof.
  destruct vertices_spec as (N & I & A & U). apply NoDup_Permutation; [|apply nodup|].
  - clear A. revert N I U. induction (vertices S) as [|v vs IH]; intros N I U; cbn; [constructor|].
    inversion N; subst. apply NoDup_app_intro.
    + apply ccw_nodup. apply I. now left.
    + apply IH; auto; [intros z Z; apply I; now right|]. intros v' w d V W. apply U; now right.
    + intros x J J'. apply in_concat in J'. destruct J' as [es [E J']]. apply in_map_iff in E. destruct E as [w [<- W]].
      assert (v = w) by (apply (U v w x); auto; [now left|now right]). now subst.
  - intros x. rewrite in_concat. split.
    + intros [es [E J]]. apply in_map_iff in E. destruct E as [v [<- V]]. apply (ccw_incl v); auto.
    + intros D. destruct (A x D) as (v & V & J). exists (edges_ccw S v). split; auto. now apply in_map.
Qed.

(** ** the simplices *)
Lemma simplices_spec : NoDup (simplices1 S) /\ incl (simplices1 S) ds /\
  (forall d, In d ds -> In d (simplices1 S) \/ In (opp d) (simplices1 S)) /\
  (forall d, In d ds -> opp d <> d -> In d (simplices1 S) -> ~ In (opp d) (simplices1 S)).
Proof.
  unfold simplices1.
  assert (X : forall l s, NoDup l -> incl l ds -> NoDup s -> incl s ds -> (forall x, In x l -> In x s -> False) ->
    (forall d, In d s -> opp d <> d -> ~ In (opp d) s) ->
    let r := fold_left (fun s d => if mem (opp d) s then s else s ++ [d]) l s in
    NoDup r /\ incl r ds /\ (forall d, In d l -> In d r \/ In (opp d) r) /\ incl s r /\
    (forall d, In d r -> opp d <> d -> ~ In (opp d) r)).
  { induction l as [|d l IH]; intros s Nl Il N Is Dj U; cbn [fold_left].
    - cbn. split; auto. split; auto. split; [intros d []|]. split; [apply incl_refl|auto].
    - inversion Nl; subst. assert (Il' : incl l ds) by (intros z Z; apply Il; now right).
      assert (Dd : In d ds) by (apply Il; now left).
      destruct (mem (opp d) s) eqn:E.
      + apply mem_In in E. destruct (IH s) as (A1 & A2 & A3 & A4 & A5); auto.
        { intros x Z. apply Dj. now right. }
        split; auto. split; auto. split; [|split; auto]. intros x [<-|I]; auto.
      + apply mem_not_In in E. destruct (IH (s ++ [d])) as (A1 & A2 & A3 & A4 & A5); auto.
        * apply NoDup_snoc; auto. intros J. apply (Dj d); auto. now left.
        * intros z Z. apply in_app_or in Z. destruct Z as [Z|[<-|[]]]; auto.
        * intros x Z Z'. apply in_app_or in Z'. destruct Z' as [Z'|[<-|[]]]; auto. apply (Dj x); auto. now right.
        * intros x Z O Z'. apply in_app_or in Z. apply in_app_or in Z'.
          destruct Z as [Z|[<-|[]]], Z' as [Z'|[Z'|[]]]; auto.
          -- now apply (U x).
          -- apply E. subst d. now rewrite opp_opp by auto.
        * split; auto. split; auto. split; [|split; auto].
          -- intros x [<-|I]; auto. left. apply A4. apply in_or_app. right. now left.
          -- intros z Z. apply A4. apply in_or_app. now left. }
  destruct (X ds nil nodup (incl_refl _)) as (A1 & A2 & A3 & A4 & A5); auto.
  - constructor.
  - intros z [].
Qed.
End O.
