(** The search for saddle connections: the beams. *)
From Coq Require Import List Bool ZArith Arith Lia Ring Field.
From Verif Require Import OField FMicromega PField MBase MDict MMut SMut MEuclid SEuclid PEuclid MSim SSim PSim MPoly PPoly PTurn SPoint PPoint MSurf SSurf PSurf PSurf3 PDelaunay PPoint2 PPoint3 SCut SEar PJordan PJordan2 PJordan3 PJordan4 PJordan5 PConvex PEar2 PEar5 PPos PPos2 TPos PLocal PLocal2 MTangent PExit STangent PInward PTangent PTangent2 PTangent3 MCircle SCircle PCircle MSaddle SSaddle PSaddle.
Import ListNotations.

Section C.
Context {K : OField} {L : Type} `{EL : EqB L} (D : L -> Prop) (S : surface K L).
Add Field KF : (of_ft K).
Local Open Scope F_scope.
Context (V : valid D S) (C : closed D S) (PRS : forall l P, D l -> s_poly S l = Ok P -> proper P)
  (CV : forall l P, D l -> s_poly S l = Ok P -> is_convex false P = true) (l0 : L) (k0 : nat).
Implicit Types (P Q : polygon K) (p q x h w d : vec K) (b : beam K L).

Notation image b P := (im P (bm_sim b)).
Notation w0 b := (fst (bm_wedge b)).
Notation w1 b := (snd (bm_wedge b)).
Definition inw b h := within (w0 b) (w1 b) h.

(** where the beam enters *)
Definition entry (via : option nat) b P h (s : K) := match via with
  | None => s = 0
  | Some e => (e < length P)%nat /\ ccw (image b P e) (image b P (Datatypes.S e)) < 0 /\ on_open (image b P e) (image b P (Datatypes.S e)) (vscale s h) end.
Definition sharp_wedge b P := 0 < ccw (w0 b) (w1 b) /\ exists d, 0 < ccw d (w0 b) /\ 0 < ccw d (w1 b) /\
  forall j, image b P j = vzero \/ 0 < ccw d (image b P j).
Definition flat_wedge b := exists c, 0 < c /\ w1 b = vscale (- c) (w0 b).
Record inv via b P : Prop := {
  iv_dom : D (bm_label b);
  iv_poly : s_poly S (bm_label b) = Ok P;
  iv_ok : sim_ok (bm_sim b);
  iv_sign : sg_sign (bm_sim b) = true;
  iv_wedge : sharp_wedge b P \/ flat_wedge b;
  iv_reach : forall h, inw b h -> exists s, 0 <= s /\ reaches D S l0 k0 h s (bm_label b) (sim_apply (bm_sim b)) /\
    (forall j, (j < length P)%nat -> 0 <= orient (image b P j) (image b P (Datatypes.S j)) (vscale s h)) /\
    (exists i j, 0 < ccw (image b P i) h /\ 0 < ccw h (image b P j)) /\ entry via b P h s }.
Record full b P : Prop := {
  fu_edges : forall j, (j < length P)%nat -> 0 < ccw (image b P j) (image b P (Datatypes.S j)) -> In j (bm_verts b);
  fu_verts : forall j, (j < length P)%nat -> inw b (image b P j) -> In j (bm_verts b) }.
Record verts_ok b P : Prop := { vo_lt : forall v, In v (bm_verts b) -> (v < length P)%nat; vo_nodup : NoDup (bm_verts b) }.

(** *** narrowing *)
Lemma narrow_spec b P v p q : sharp_wedge b P \/ flat_wedge b -> p = image b P v -> q = image b P (Datatypes.S v) ->
  0 < ccw p q -> 0 < ccw (w0 b) q -> 0 < ccw p (w1 b) ->
  let w := narrow (bm_wedge b) p q in
  0 < ccw (fst w) (snd w) /\ (forall h, within (fst w) (snd w) h -> inw b h /\ within p q h) /\
  (0 <= ccw p (fst w) /\ 0 < ccw (fst w) q) /\ (0 < ccw p (snd w) /\ 0 <= ccw (snd w) q) /\
  (forall h, inw b h -> within p q h -> within (fst w) (snd w) h).
Proof.
  intros W Ep Eq A B E. unfold inw. destruct (bm_wedge b) as [u u'] eqn:EW. cbn [fst snd] in *. cbn zeta.
  assert (NB : forall z, ccw p z = 0 -> 0 < ccw z q -> 0 <= ccw z q) by (intros; flra).
  destruct W as [[W0 [d [D0 [D1 DV]]]]|[c [C0 WC]]].
  - rewrite EW in *. cbn [fst snd] in *.
    assert (Dp : 0 < ccw d p). { subst p. destruct (DV v) as [Z|Z]; auto. exfalso. rewrite Z in A. unfold ccw in A. destruct q; cbn in A. flra. }
    assert (Dq : 0 < ccw d q). { subst q. destruct (DV (Datatypes.S v)) as [Z|Z]; auto. exfalso. rewrite Z in A. unfold ccw in A. destruct p; cbn in A. flra. }
    assert (S1 := ccw_self p). assert (S2 := ccw_self q). assert (X1 := ccw_anti p u). assert (X2 := ccw_anti u' q).
    unfold narrow. cbn [fst snd]. destruct (0 <? ccw u p) eqn:T1, (0 <? ccw q u') eqn:T2; cbn [fst snd]; unfold within.
    + split; [auto|]. split; [|split; [split; flra|]; split; [split; flra|intros h [a1 a2] [a3 a4]; auto]]. intros h [H1 H2]. pose proof (within_pos d p q h Dp Dq A (conj H1 H2)) as Dh.
      split; [split|split]; auto; [apply (trans_r d u p h); auto; flra|apply (trans_r d h q u'); auto; flra].
    + split; [auto|]. split; [|split; [split; flra|]; split; [split; [auto|]|intros h [a1 a2] [a3 a4]; auto]]; [|rewrite X2; change ((0 < ccw q u') -> False) in T2 || idtac; flra].
      intros h [H1 H2]. pose proof (within_pos d p u' h Dp D1 E (conj H1 H2)) as Dh. assert (Z : 0 <= ccw u' q) by (rewrite X2; flra).
      split; [split|split]; auto; [apply (trans_r d u p h); auto; flra|apply (trans_r d h u' q); auto].
    + assert (Z : 0 <= ccw p u) by (rewrite X1; flra). split; [auto|]. split; [|split; [split; auto|]; split; [split; flra|intros h [a1 a2] [a3 a4]; auto]].
      intros h [H1 H2]. pose proof (within_pos d u q h D0 Dq B (conj H1 H2)) as Dh. split; [split|split]; auto; [apply (trans_r d h q u'); auto; flra|apply (trans_l d p u h); auto].
    + assert (Z : 0 <= ccw p u) by (rewrite X1; flra). assert (Z' : 0 <= ccw u' q) by (rewrite X2; flra). split; [auto|]. split; [|split; [split; auto|]; split; [split; auto|intros h [a1 a2] [a3 a4]; auto]].
      intros h [H1 H2]. pose proof (within_pos d u u' h D0 D1 W0 (conj H1 H2)) as Dh. split; [split|split]; auto; [apply (trans_l d p u h); auto|apply (trans_r d h u' q); auto].
  - rewrite EW in *. cbn [fst snd] in *. subst u'. assert (Fl : forall z, ccw z (vscale (- c) u) = c * ccw u z) by (intros [z1 z2]; destruct u; unfold ccw; cbn; ring).
    rewrite Fl in E. apply (pos_of_mul c) in E; auto. assert (Qu : 0 < ccw q (vscale (- c) u)) by (rewrite Fl; now apply fmul_pos).
    unfold narrow. cbn [fst snd]. rewrite E, Qu. cbn [fst snd]. assert (S1 := ccw_self p). assert (S2 := ccw_self q). unfold within. split; [auto|]. split; [|split; [split; flra|]; split; [split; flra|intros h [a1 a2] [a3 a4]; auto]].
    intros h [H1 H2]. assert (X : 0 < ccw u h) by (apply (within_pos u p q h); auto; split; auto). split; [|auto]. split; auto. rewrite Fl. now apply fmul_pos.
Qed.

(** *** lists of vertices *)
Lemma others_in e (n i0 j : nat) : (e < n)%nat -> (1 <= i0)%nat -> In j (map (fun i => (e + n - i) mod n)%nat (rev (seq i0 (n - i0)))) <-> exists i, (i0 <= i < n)%nat /\ j = ((e + n - i) mod n)%nat.
Proof.
  intros Le Li. rewrite in_map_iff. split.
  - intros [i [<- I]]. apply in_rev, in_seq in I. exists i. split; [lia|auto].
  - intros [i [I ->]]. exists i. split; auto. apply -> in_rev. apply in_seq. lia.
Qed.
Lemma others_mod e (n i : nat) : (e < n)%nat -> (i < n)%nat -> ((e + n - i) mod n = if i <=? e then e - i else e + n - i)%nat.
Proof.
  intros Le Li. destruct (Nat.leb_spec i e).
  - replace (e + n - i)%nat with ((e - i) + 1 * n)%nat by lia. rewrite Nat.mod_add by lia. apply Nat.mod_small. lia.
  - apply Nat.mod_small. lia.
Qed.
Lemma others_nodup e (n i0 : nat) : (e < n)%nat -> (1 <= i0)%nat -> NoDup (map (fun i => (e + n - i) mod n)%nat (rev (seq i0 (n - i0)))).
Proof.
  intros Le Li. assert (I : forall l, NoDup l -> (forall i, In i l -> (i < n)%nat) -> NoDup (map (fun i => (e + n - i) mod n)%nat l)).
  { induction l as [|a l IH]; intros ND B; [constructor|]. inversion ND as [|a' l' NI ND' E]; subst. cbn. constructor; [|apply IH; auto; intros; apply B; now right].
    intros IN. apply in_map_iff in IN. destruct IN as [i [E IN]]. apply NI. replace a with i; auto. assert (A : (a < n)%nat) by (apply B; now left). assert (B' : (i < n)%nat) by (apply B; now right).
    rewrite (others_mod e n a Le A), (others_mod e n i Le B') in E. destruct (Nat.leb_spec i e), (Nat.leb_spec a e); lia. }
  apply I; [apply NoDup_rev, seq_NoDup|]. intros i Hi. apply in_rev, in_seq in Hi. lia.
Qed.
Lemma others_child e (n j : nat) : (e < n)%nat -> In j (map (fun i => (e + n - i) mod n)%nat (rev (seq 1 (n - 1)))) <-> (j < n)%nat /\ j <> e.
Proof.
  intros Le. rewrite others_in by lia. split.
  - intros [i [I ->]]. rewrite others_mod by lia. destruct (Nat.leb_spec i e); lia.
  - intros [J N]. destruct (Nat.lt_ge_cases j e).
    + exists (e - j)%nat. split; [lia|]. rewrite others_mod by lia. destruct (Nat.leb_spec (e - j) e); lia.
    + exists (e + n - j)%nat. split; [lia|]. rewrite others_mod by lia. destruct (Nat.leb_spec (e + n - j) e); lia.
Qed.
Lemma others_start e (n j : nat) : (e < n)%nat -> (2 <= n)%nat -> In j (map (fun i => (e + n - i) mod n)%nat (rev (seq 2 (n - 2)))) <-> (j < n)%nat /\ j <> e /\ j <> ((e + n - 1) mod n)%nat.
Proof.
  intros Le Ln. rewrite others_in by lia. rewrite others_mod by lia. split.
  - intros [i [I ->]]. rewrite others_mod by lia. destruct (Nat.leb_spec i e), (Nat.leb_spec 1 e); lia.
  - intros [J [N N']]. destruct (Nat.lt_ge_cases j e).
    + exists (e - j)%nat. destruct (Nat.leb_spec 1 e); [|lia]. split; [lia|]. rewrite others_mod by lia. destruct (Nat.leb_spec (e - j) e); lia.
    + exists (e + n - j)%nat. destruct (Nat.leb_spec 1 e); (split; [lia|]); rewrite others_mod by lia; destruct (Nat.leb_spec (e + n - j) e); lia.
Qed.

(** *** crossing an edge *)
Lemma next_vertex P v : vertex P ((v + 1) mod length P) = vertex P (Datatypes.S v).
Proof. rewrite vertex_mod. f_equal. lia. Qed.
Lemma beam_edge_some bound b P v b' : s_poly S (bm_label b) = Ok P -> (v < length P)%nat -> D (bm_label b) -> beam_edge S bound b P v = Ok (Some b') ->
  exists l' e' Q g, glued_at D S (bm_label b) v P l' e' Q /\ edge_transformation S (bm_label b) v = Ok g /\
    0 < ccw (image b P v) (image b P (Datatypes.S v)) /\ 0 < ccw (w0 b) (image b P (Datatypes.S v)) /\ 0 < ccw (image b P v) (w1 b) /\
    b' = Beam (sim_mul (bm_sim b) (sim_inv g)) l' (narrow (bm_wedge b) (image b P v) (image b P (Datatypes.S v))) (map (fun i => (e' + length Q - i) mod length Q)%nat (rev (seq 1 (length Q - 1)))).
Proof.
  intros GP Lv Dl E. unfold beam_edge in E. rewrite next_vertex in E. fold (image b P v) in E. fold (image b P (Datatypes.S v)) in E.
  destruct (0 <? ccw (image b P v) (image b P (Datatypes.S v))) eqn:T1; [|discriminate]. destruct (0 <? ccw (w0 b) (image b P (Datatypes.S v))) eqn:T2; [|discriminate].
  destruct (0 <? ccw (image b P v) (w1 b)) eqn:T3; [|discriminate]. cbn [andb] in E. destruct (line_segment_position _ _ _) as [z|]; [|discriminate]. cbn [bind] in E. destruct (z =? 1)%Z; [|discriminate].
  destruct (glue_ex D S V C (bm_label b) P v Dl GP Lv) as [l' [e' [Q G]]]. unfold opp_pair in E. rewrite (ga_opp _ _ _ _ _ _ _ _ G) in E. cbn [bind] in E.
  destruct (edge_transformation S (bm_label b) v) as [g|] eqn:Eg; [|discriminate]. cbn [bind fst snd] in E. rewrite (ga_poly' _ _ _ _ _ _ _ _ G) in E. cbn [bind] in E. injection E as <-.
  exists l', e', Q, g. auto 10.
Qed.

Section Child.
Context b P via v l' e' Q g (I : inv via b P) (G : glued_at D S (bm_label b) v P l' e' Q) (Eg : edge_transformation S (bm_label b) v = Ok g)
  (A : 0 < ccw (image b P v) (image b P (Datatypes.S v))) (B : 0 < ccw (w0 b) (image b P (Datatypes.S v))) (E : 0 < ccw (image b P v) (w1 b)).
Let b' := Beam (sim_mul (bm_sim b) (sim_inv g)) l' (narrow (bm_wedge b) (image b P v) (image b P (Datatypes.S v))) (map (fun i => (e' + length Q - i) mod length Q)%nat (rev (seq 1 (length Q - 1)))).
Lemma g_facts : sim_ok g /\ sg_sign g = true /\ gluing_map P v Q e' (sim_apply g) /\ D l' /\ (e' < length Q)%nat.
Proof.
  pose proof (glued_sym _ _ _ _ _ _ _ _ V G) as G'. destruct (gluing_exists D S _ _ _ _ _ _ V G) as [g' [Eg' [Kg [Sg M]]]]. rewrite Eg in Eg'. injection Eg' as <-. split; auto. split; auto. split; auto. split; [apply G'|apply G'].
Qed.
Lemma child_sim p : sim_apply (bm_sim b') (sim_apply g p) = sim_apply (bm_sim b) p.
Proof. unfold b'. cbn [bm_sim]. rewrite sim_mul_apply, sim_inv_apply; auto. apply g_facts. Qed.
Lemma child_l : image b' Q e' = image b P (Datatypes.S v).
Proof. destruct g_facts as [_ [_ [[_ _ _ Me] _]]]. unfold im. rewrite <- Me. apply child_sim. Qed.
Lemma child_r : image b' Q (Datatypes.S e') = image b P v.
Proof. destruct g_facts as [_ [_ [[_ _ Ms _] _]]]. unfold im. rewrite <- Ms. apply child_sim. Qed.
Lemma child_ok : sim_ok (bm_sim b') /\ sg_sign (bm_sim b') = true.
Proof.
  destruct g_facts as [Kg [Sg _]]. pose proof (iv_ok _ _ _ I). pose proof (iv_sign _ _ _ I) as SS. unfold b'. cbn [bm_sim]. split; [apply sim_ok_mul; auto; now apply sim_ok_inv|].
  unfold sim_mul, sim_inv. cbn. rewrite SS. cbn. now rewrite Sg.
Qed.
Lemma child_narrow h : inw b' h -> inw b h /\ within (image b P v) (image b P (Datatypes.S v)) h.
Proof. destruct (narrow_spec b P v _ _ (iv_wedge _ _ _ I) eq_refl eq_refl A B E) as [_ [X _]]. apply X. Qed.
Lemma child_widen h : inw b h -> within (image b P v) (image b P (Datatypes.S v)) h -> inw b' h.
Proof. destruct (narrow_spec b P v _ _ (iv_wedge _ _ _ I) eq_refl eq_refl A B E) as [_ [_ [_ [_ X]]]]. apply X. Qed.
Lemma child_open x : on_open (image b' Q e') (image b' Q (Datatypes.S e')) x <-> on_open (image b P v) (image b P (Datatypes.S v)) x.
Proof. rewrite child_l, child_r. apply open_flip. Qed.
Lemma child_sharp : sharp_wedge b' Q.
Proof.
  destruct (narrow_spec b P v _ _ (iv_wedge _ _ _ I) eq_refl eq_refl A B E) as [X [_ [[L1 L2] [[R1 R2] _]]]]. destruct g_facts as [_ [_ [_ [Dl' Le']]]]. destruct child_ok as [OK SG]. split; [exact X|]. exists (vsub (image b P v) (image b P (Datatypes.S v))).
  assert (LA : forall x, ccw (vsub (image b P v) (image b P (Datatypes.S v))) x = ccw (image b P v) x + ccw x (image b P (Datatypes.S v))) by (intros x; unfold ccw; destruct (image b P v), (image b P (Datatypes.S v)), x; cbn; ring).
  rewrite !LA. split; [unfold b'; cbn; flra|]. split; [unfold b'; cbn; flra|]. intros j. right. rewrite LA.
  pose proof (ga_poly' _ _ _ _ _ _ _ _ G) as GQ. pose proof (left_all Q (PRS _ _ Dl' GQ) (CV _ _ Dl' GQ) (bm_sim b') OK SG e' j Le') as O. rewrite child_l, child_r in O.
  unfold orient in O. set (y := image b' Q j) in *. assert (Z : ccw (vsub (image b P v) (image b P (Datatypes.S v))) (vsub y (image b P (Datatypes.S v))) = ccw (image b P v) y + ccw y (image b P (Datatypes.S v)) - ccw (image b P v) (image b P (Datatypes.S v))) by (unfold ccw; destruct (image b P v), (image b P (Datatypes.S v)), y; cbn; ring).
  clearbody y. flra.
Qed.
(** the time at which the ray meets the edge *)
Lemma child_time h : inw b' h -> exists s t, 0 <= s /\ s < t /\ on_open (image b P v) (image b P (Datatypes.S v)) (vscale t h) /\
  reaches D S l0 k0 h s (bm_label b) (sim_apply (bm_sim b)) /\ inside_between P (sim_apply (bm_sim b)) h s t /\ entry via b P h s.
Proof.
  intros W. destruct (child_narrow h W) as [W' [H1 H2]]. destruct (iv_reach _ _ _ I h W') as [s [S0 [R [Ls [[i [j [Hi Hj]]] EN]]]]]. destruct (meet _ _ h A H1 H2) as [t [T0 O]]. exists s, t.
  pose proof (iv_dom _ _ _ I) as Dl. pose proof (iv_poly _ _ _ I) as GP. pose proof (iv_ok _ _ _ I) as OK. pose proof (iv_sign _ _ _ I) as SG. pose proof (PRS _ _ Dl GP) as PR. pose proof (CV _ _ Dl GP) as CP. pose proof (ga_edge _ _ _ _ _ _ _ _ G) as Lv.
  assert (Lt : forall j, (j < length P)%nat -> 0 <= orient (image b P j) (image b P (Datatypes.S j)) (vscale t h)) by (intros j' J; apply (orient_open _ _ _ _ _ O); now apply left_all).
  assert (LE : s <= t) by (apply (leave_before P (bm_sim b) v h t s); auto).
  assert (NE : s <> t).
  { intros X. subst t. destruct via as [e|]; cbn in EN; [|subst s; flra]. destruct EN as [Le [N O']]. assert (e = v) by (apply (im_unique P PR (bm_sim b) OK e v (vscale s h)); auto). subst e. flra. }
  assert (ST : s < t) by (destruct (tri s t) as [X|[X|X]]; auto; [contradiction|flra]).
  split; auto. split; auto. split; auto. split; auto. split; auto. intros u SU UT. apply (im_inside P PR CP (bm_sim b) OK SG). apply (ray_inside P PR CP (bm_sim b) OK SG h s t i j); auto.
Qed.
Lemma child_inv : inv (Some e') b' Q.
Proof.
  destruct g_facts as [Kg [Sg [M [Dl' Le']]]]. destruct child_ok as [OK SG]. pose proof (ga_poly' _ _ _ _ _ _ _ _ G) as GQ. split; auto; [left; apply child_sharp|].
  intros h W. destruct (child_time h W) as [s [t [S0 [ST [O [R [IB EN]]]]]]]. destruct (child_narrow h W) as [W' [H1 H2]]. exists t. split; [flra|]. pose proof (proj2 (child_open _) O) as O'.
  split; [|split; [|split]].
  - unfold b'. cbn [bm_label bm_sim]. apply (rs_cross D S l0 k0 h s (bm_label b) (sim_apply (bm_sim b)) v P l' e' Q (sim_apply g) t); auto; [|intros; apply child_sim].
    apply (im_edge P (PRS _ _ (iv_dom _ _ _ I) (iv_poly _ _ _ I)) (bm_sim b)). split; auto. apply G.
  - intros j J. apply (orient_open _ _ _ _ _ O'); apply (left_all Q (PRS _ _ Dl' GQ) (CV _ _ Dl' GQ) (bm_sim b') OK SG); auto.
  - exists (Datatypes.S e'), e'. rewrite child_l, child_r. auto.
  - cbn [entry]. split; auto. split; auto. rewrite child_l, child_r, ccw_anti. flra.
Qed.
Lemma child_full : full b' Q.
Proof.
  destruct g_facts as [Kg [Sg [M [Dl' Le']]]]. split; intros j J X; unfold b'; cbn [bm_verts]; apply others_child; auto; split; auto; intros ->.
  - rewrite child_l, child_r, ccw_anti in X. flra.
  - apply child_narrow in X. destruct X as [_ [_ X]]. rewrite child_l, ccw_self in X. flra.
Qed.
Lemma child_verts : verts_ok b' Q.
Proof. destruct g_facts as [Kg [Sg [M [Dl' Le']]]]. split; unfold b'; cbn [bm_verts]; [intros j J; apply others_child in J; tauto|apply others_nodup; lia]. Qed.
End Child.
End C.
