(** Theorems C44: ramified covers. *)
From Coq Require Import List Bool ZArith Arith Lia Permutation.
From Verif Require Import OField MBase MDict PDict MEuclid MPoly MMut SMut PMut PMut2 PMut3 PGlue PBuild MRelabel PRelabel MSurf SSurf TMut MCover SCover PCover.
Import ListNotations.
Local Open Scope Z_scope.

Section T.
Context {P : Type} (nv : P -> nat).
Implicit Types s c : @surf P.

(** Let [s] be a closed surface in which no edge is glued to itself and each edge is glued to an edge of the same polygon
    (for example any surface that consists of a single polygon). For all degrees, all consistent permutations of
    the sheets, and all orders in which the set of edges is iterated, [ramified_cover] returns the covering with these
    permutations. The restriction to gluings within a polygon cannot be removed, see [C44_refuted]; neither can
    the restriction on edges that are glued to themselves, see [C44_self_refuted]. *)
Theorem C44_cover_partial s d data order : intact nv s ->
  (forall x, is_edge nv s x -> exists y, glued nv s x y /\ x <> y /\ fst x = fst y) ->
  permutations d data -> consistent nv s data -> (forall es, Permutation (order es) es) ->
  exists c sheet, ramified_cover nv s d data order empty = (c, Ok tt) /\ intact nv c /\ mutable c = false /\
    covering nv s c d data sheet.
Proof.
  intros I HE PM CO OR. pose proof (intact_good nv s I) as G.
  destruct (iter_edges_spec nv s G) as (es & E1 & E2 & E3). destruct (iter_labels_spec nv s G) as (ls & L1 & L2 & L3).
  apply (proj1 (cover_main nv s d data order G PM OR HE es ls E1 E2 E3 L1 L2 (fun l => iff_trans (L3 l) (iff_sym (is_label_keys s l)))) CO).
Qed.
(** permutations that contradict each other are refused *)
Theorem C44_inconsistent_partial s d data order : intact nv s ->
  (forall x, is_edge nv s x -> exists y, glued nv s x y /\ x <> y /\ fst x = fst y) ->
  permutations d data -> ~ consistent nv s data -> (forall es, Permutation (order es) es) ->
  exists c, ramified_cover nv s d data order empty = (c, Err ValueError).
Proof.
  intros I HE PM CO OR. pose proof (intact_good nv s I) as G.
  destruct (iter_edges_spec nv s G) as (es & E1 & E2 & E3). destruct (iter_labels_spec nv s G) as (ls & L1 & L2 & L3).
  apply (proj2 (cover_main nv s d data order G PM OR HE es ls E1 E2 E3 L1 L2 (fun l => iff_trans (L3 l) (iff_sym (is_label_keys s l)))) CO).
Qed.

(** every covering of a closed surface is closed, and crossing its edges projects to crossing edges downstairs *)
Lemma covering_projects s c d data sheet : intact nv s -> intact nv c -> covering nv s c d data sheet ->
  (forall x, is_edge nv s x -> exists y, glued nv s x y) ->
  (forall u, is_edge nv c u -> exists v, glued nv c u v) /\
  forall u v, glued nv c u v -> exists l l' i j, is_label s l /\ is_label s l' /\ (i < d)%nat /\ (j < d)%nat /\
    fst u = sheet l i /\ fst v = sheet l' j /\ glued nv s (l, snd u) (l', snd v) /\ moves data (l, snd u) (l', snd v) i j.
Proof.
  intros Is Ic [CP CI CO CG] CL.
  assert (X : forall u, is_edge nv c u -> exists l i, is_label s l /\ (i < d)%nat /\ fst u = sheet l i /\ is_edge nv s (l, snd u)).
  { intros u [p [Hp Hu]]. destruct (CO (fst u)) as (l & i & A & B & C); [now exists p|]. exists l, i. split; auto. split; auto. split; auto.
    exists p. cbn [fst snd]. rewrite <- (CP l i A B), <- C. auto. }
  assert (Y : forall u, is_edge nv c u -> exists l l' i j e', is_label s l /\ is_label s l' /\ (i < d)%nat /\ (j < d)%nat /\ fst u = sheet l i /\
     glued nv s (l, snd u) (l', e') /\ moves data (l, snd u) (l', e') i j /\ glued nv c u (sheet l' j, e')).
  { intros u Hu. destruct (X u Hu) as (l & i & A & B & C & D). destruct (CL _ D) as [[l' e'] GL].
    destruct (CG _ _ i GL B) as (j & J1 & J2 & J3). cbn [fst snd] in *. exists l, l', i, j, e'. split; auto.
    split. { destruct (C01_involution nv s (intact_reachable nv s Is)) as [V _]. destruct (V _ _ GL) as [[q [Q _]] _]. now exists q. }
    do 5 (split; auto). rewrite <- C in J3. now destruct u. }
  split.
  - intros u Hu. destruct (Y u Hu) as (l & l' & i & j & e' & H). exists (sheet l' j, e'). tauto.
  - intros u v GL. destruct (Y u (proj1 GL)) as (l & l' & i & j & e' & A & B & C & D & E & F & G & H).
    assert (v = (sheet l' j, e')) by (destruct GL as [_ Q], H as [_ R]; congruence). subst v. cbn [fst snd].
    exists l, l', i, j. do 7 (split; auto).
Qed.
(** ... in particular for the covers that are computed *)
Theorem C44_projection_partial s d data order : intact nv s ->
  (forall x, is_edge nv s x -> exists y, glued nv s x y /\ x <> y /\ fst x = fst y) ->
  permutations d data -> consistent nv s data -> (forall es, Permutation (order es) es) ->
  exists c sheet, ramified_cover nv s d data order empty = (c, Ok tt) /\
    (forall u, is_edge nv c u -> exists v, glued nv c u v) /\
    forall u v, glued nv c u v -> exists l l' i j, is_label s l /\ is_label s l' /\ (i < d)%nat /\ (j < d)%nat /\
      fst u = sheet l i /\ fst v = sheet l' j /\ glued nv s (l, snd u) (l', snd v) /\ moves data (l, snd u) (l', snd v) i j.
Proof.
  intros I HE PM CO OR. destruct (C44_cover_partial s d data order I HE PM CO OR) as (c & sheet & E & Ic & _ & CV).
  exists c, sheet. split; auto. apply covering_projects; auto. intros x Hx. destruct (HE x Hx) as [y [Y _]]. eauto.
Qed.

(** an edge that is glued to itself: the set has already lost it when it is to be removed *)
Lemma self_glued s d data order : intact nv s -> (forall x, is_edge nv s x -> glued nv s x x) -> (exists x, is_edge nv s x) ->
  (forall es, Permutation (order es) es) -> exists c, ramified_cover nv s d data order empty = (c, Err KeyError).
Proof.
  intros I SG [x0 Hx0] OR. pose proof (intact_good nv s I) as G.
  destruct (iter_edges_spec nv s G) as (es & E1 & E2 & E3). destruct (iter_labels_spec nv s G) as (ls & L1 & L2 & L3).
  assert (LI : forall l, In l ls <-> is_label s l) by (intros l; rewrite L3; symmetry; apply is_label_keys).
  unfold ramified_cover.
  pose proof (mbind_ok (mlift (iter_edges nv s)) (fun es => (let! ls := mlift (iter_labels nv s) in
     let! cl := cover_add nv s (flat_map (fun i => map (fun l => (l, i)) ls) (seq 0 d)) nil in
     cover_loop nv s d data (length es) cl (order es) ;;; set_immutable nv)%M) empty empty es) as B1.
  rewrite B1 by (unfold mlift; now rewrite E1). clear B1.
  rewrite (mbind_ok _ _ empty empty ls) by (unfold mlift; now rewrite L1). fold (sheets d ls).
  assert (I0 : inv nv (@empty P)) by (constructor; cbn; try constructor; try easy).
  assert (S0 : sep (@empty P)) by (split; [constructor|intros r r' []]).
  destruct (cover_add_spec nv s (sheets d ls) nil empty I0 eq_refl S0 (NoDup_sheets d ls L2)) as (cl & items & s1 & F1 & _).
  { intros [l i] H. now apply (In_sheets s d ls LI) in H. }
  rewrite (mbind_ok _ _ _ _ _ F1). apply E3 in Hx0.
  pose proof (OR es) as PE. destruct (order es) as [|x xs] eqn:OE.
  { apply Permutation_nil in PE. subst. destruct Hx0. }
  assert (ND : NoDup (x :: xs)) by (apply (Permutation_NoDup (Permutation_sym PE)); auto). inversion ND as [|? ? Nx _]; subst.
  assert (Hx : is_edge nv s x) by (apply E3, (Permutation_in _ PE); cbn; auto).
  exists s1. apply mbind_err. destruct (length es) as [|n] eqn:LE.
  { apply Permutation_length in PE. cbn in PE. lia. }
  cbn [cover_loop]. rewrite (mbind_ok _ _ s1 s1 (Some x)) by (unfold mlift; now rewrite (proj2 (SG x Hx))).
  rewrite (proj2 (mem_not_In x xs) Nx). apply mbind_err. reflexivity.
Qed.
End T.
Print Assumptions C44_cover_partial.
Print Assumptions C44_inconsistent_partial.
Print Assumptions C44_projection_partial.

(** the gluings of the cover are of the same kind as the gluings of the surface *)
Section K.
Context {K : OField}.
Notation len := (@length (vec K) : polygon K -> nat).
Theorem C44_gluings (s c : @surf (polygon K)) d data sheet kind : intact len s -> intact len c -> covering len s c d data sheet ->
  (forall x, is_edge len s x -> exists y, glued len s x y) ->
  valid (is_label s) (mut_surface s) -> all_gluings (is_label s) (mut_surface s) kind ->
  valid (is_label c) (mut_surface c) /\ closed (is_label c) (mut_surface c) /\ all_gluings (is_label c) (mut_surface c) kind.
Proof.
  intros Is Ic CV CL [VP VO] AG. destruct (covering_projects len s c d data sheet Is Ic CV CL) as [CC PR]. destruct CV as [CP CI CO CG].
  assert (IN : involutive len c) by (apply C01_involution, intact_reachable; auto).
  assert (POL : forall k Q, get_polygon c k = Ok Q -> exists l i, is_label s l /\ (i < d)%nat /\ k = sheet l i /\ get_polygon s l = Ok Q).
  { intros k Q H. destruct (CO k) as (l & i & A & B & C); [now exists Q|]. exists l, i. split; auto. split; auto. split; auto. subst k. exact (eq_trans (eq_sym (CP l i A B)) H). }
  assert (GLU : forall k Q e, get_polygon c k = Ok Q -> (e < length Q)%nat ->
     exists k' e' Q', glued len c (k, Z.of_nat e) (k', Z.of_nat e') /\ get_polygon c k' = Ok Q' /\ (e' < length Q')%nat).
  { intros k Q e H He. destruct (CC (k, Z.of_nat e)) as [[k' e'] GL]. { exists Q. cbn. split; auto. lia. }
    destruct (IN _ _ GL) as [[Q' [HQ' R]] _]. cbn [fst snd] in *. exists k', (Z.to_nat e'), Q'. rewrite Z2Nat.id by lia. split; auto. split; auto. lia. }
  assert (OPP : forall k e k' e', glued len c (k, Z.of_nat e) (k', Z.of_nat e') -> s_opp (mut_surface c) k e = Ok (Some (k', e'))).
  { intros k e k' e' [_ H]. cbn [fst snd] in H. unfold mut_surface; cbn [s_opp]. destruct (opposite_edge c k (Z.of_nat e)); [|discriminate]. injection H as ->. now rewrite Nat2Z.id. }
  split; [constructor|split].
  - intros k [Q HQ]. destruct (POL k Q HQ) as (l & i & Hl & _ & _ & Hs). destruct (VP l Hl) as (Q' & E & X). cbn in E.
    assert (Q = Q') by (pose proof (eq_trans (eq_sym Hs) E) as X1; congruence). subst Q'. exists Q. auto.
  - intros k Q e _ HQ He. cbn in HQ. right. destruct (GLU k Q e HQ He) as (k' & e' & Q' & GL & HQ' & He'). exists k', e', Q'.
    split; [now apply OPP|]. split; [now exists Q'|]. split; auto.
  - intros k Q e _ HQ He. cbn in HQ. destruct (GLU k Q e HQ He) as (k' & e' & Q' & GL & _). intros X. pose proof (eq_trans (eq_sym (OPP _ _ _ _ GL)) X). discriminate.
  - intros k e Q k' e' Q' F [Hk HQ He HO HQ'] GM. cbn in HQ, HQ'.
    destruct (GLU k Q e HQ He) as (k1 & e1 & Q1 & GL & H1 & H1'). pose proof (eq_trans (eq_sym (OPP _ _ _ _ GL)) HO) as HO'. injection HO' as -> ->.
    destruct (PR _ _ GL) as (l & l' & i & j & A & B & C & D & E1 & E2 & GS & _). cbn [fst snd] in *.
    assert (Hs : get_polygon s l = Ok Q) by (subst k; exact (eq_trans (eq_sym (CP l i A C)) HQ)).
    assert (Hs' : get_polygon s l' = Ok Q') by (subst k'; exact (eq_trans (eq_sym (CP l' j B D)) HQ')).
    apply (AG l e Q l' e' Q' F); auto. constructor; auto. destruct GS as [_ GS]. cbn [fst snd] in GS. unfold mut_surface; cbn [s_opp].
    destruct (opposite_edge s l (Z.of_nat e)); [|discriminate]. injection GS as ->. now rewrite Nat2Z.id.
Qed.
End K.
Print Assumptions C44_gluings.

(** ** Examples *)
Definition csquare := run id [OpAdd 4%nat None; OpGlue (0, 0) (0, 2); OpGlue (0, 1) (0, 3)] empty.
Definition cpillow := run id [OpAdd 4%nat None; OpGlue (0, 0) (0, 0); OpGlue (0, 1) (0, 1); OpGlue (0, 2) (0, 2); OpGlue (0, 3) (0, 3)] empty.
Definition ctwo := run id [OpAdd 4%nat None; OpAdd 4%nat None; OpGlue (0, 1) (1, 3); OpGlue (1, 1) (0, 3); OpGlue (0, 0) (0, 2); OpGlue (1, 0) (1, 2)] empty.
Definition ldata : dict hedge (list nat) := [((0, 0), [1; 0; 2]%nat); ((0, 1), [2; 1; 0]%nat)].
Ltac hist := match goal with |- intact _ (run _ ?o _) => apply reachable_intact; [exists o; split; [repeat constructor; cbn; lia|reflexivity]|reflexivity] end.
Lemma csquare_intact : intact id csquare.
Proof. unfold csquare. hist. Qed.
Lemma cpillow_intact : intact id cpillow.
Proof. unfold cpillow. hist. Qed.
Lemma ctwo_intact : intact id ctwo.
Proof. unfold ctwo. hist. Qed.
Lemma csquare_polys : polys csquare = [(0, 4%nat)].
Proof. vm_compute. reflexivity. Qed.
Lemma cpillow_polys : polys cpillow = [(0, 4%nat)].
Proof. vm_compute. reflexivity. Qed.
Lemma ctwo_polys : polys ctwo = [(0, 4%nat); (1, 4%nat)].
Proof. vm_compute. reflexivity. Qed.
Lemma csquare_edges x : is_edge id csquare x -> exists y, glued id csquare x y /\ x <> y /\ fst x = fst y.
Proof.
  destruct x as [l e]. intros [p [Hp He]]. cbn [fst snd] in *. unfold id in He.
  assert (l = 0). { destruct (Z.eq_dec l 0); auto. unfold get_polygon, dgetE in Hp. rewrite csquare_polys in Hp. cbn in Hp. destruct (Z.eqb_spec l 0); [congruence|discriminate]. }
  subst l. assert (p = 4%nat) by (unfold get_polygon in Hp; rewrite csquare_polys in Hp; cbn in Hp; congruence). subst p.
  assert (X : e = 0 \/ e = 1 \/ e = 2 \/ e = 3) by lia.
  destruct X as [->|[->|[->| ->]]]; [exists (0, 2)|exists (0, 3)|exists (0, 0)|exists (0, 1)];
    (split; [split; [exists 4%nat; split; [vm_compute; reflexivity|cbn [snd]; unfold id; lia]|vm_compute; reflexivity]|split; [congruence|reflexivity]]).
Qed.
Lemma ldata_perm : permutations 3 ldata.
Proof.
  intros x p. unfold ldata. cbn [dget]. destruct (eqb x (0, 0)); [intros [= <-]; cbn; constructor|].
  destruct (eqb x (0, 1)); [|discriminate]. intros [= <-]. cbn. 
  apply (perm_trans (l' := [1; 2; 0]%nat)); [constructor|]. apply (perm_trans (l' := [1; 0; 2]%nat)); [constructor; constructor|constructor].
Qed.
Lemma ldata_consistent : consistent id csquare ldata.
Proof.
  intros x y p q i j [_ GL] Dx Dy. exfalso. unfold ldata in Dx, Dy. cbn [dget] in Dx, Dy.
  destruct (eqb_case x (0, 0)) as [[Q ->]|[Q N]]; rewrite Q in Dx; [|destruct (eqb_case x (0, 1)) as [[Q' ->]|[Q' N']]; rewrite Q' in Dx; [|discriminate]].
  - assert (y = (0, 2)) by (vm_compute in GL; congruence). subst y. cbn in Dy. discriminate.
  - assert (y = (0, 3)) by (vm_compute in GL; congruence). subst y. cbn in Dy. discriminate.
Qed.
(** the L-shaped surface as a cover of degree three of the square torus, the example of the documentation *)
Example C44_ex : exists c sheet, ramified_cover id csquare 3 ldata (@rev hedge) empty = (c, Ok tt) /\ covering id csquare c 3 ldata sheet.
Proof.
  destruct (C44_cover_partial id csquare 3 ldata (@rev hedge) csquare_intact csquare_edges ldata_perm ldata_consistent
    (fun es => Permutation_sym (Permutation_rev es))) as (c & sh & E & _ & _ & H). eauto.
Qed.
Example C44_ex_gluings : map (fun xy => opposite_edge (fst (ramified_cover id csquare 3 ldata (@rev hedge) empty)) (fst xy) (snd xy))
    [(0, 0); (1, 0); (2, 0); (0, 1); (1, 1); (2, 1)] =
  [Ok (Some (1, 2)); Ok (Some (0, 2)); Ok (Some (2, 2)); Ok (Some (2, 3)); Ok (Some (1, 3)); Ok (Some (0, 3))].
Proof. vm_compute. reflexivity. Qed.
Example C44_ex_inconsistent : snd (ramified_cover id csquare 3 [((0, 0), [1; 0; 2]%nat); ((0, 2), [2; 1; 0]%nat)] (fun es => es) empty) = Err ValueError.
Proof. vm_compute. reflexivity. Qed.

(** The torus that consists of two squares: the trivial cover of degree one is not a cover, whatever the order in which the
    edges are visited. Polygons are only ever glued to polygons that lie over the same square. *)
Theorem C44_refuted : exists s : @surf nat, intact id s /\ (forall x, is_edge id s x -> exists y, glued id s x y /\ x <> y) /\
  (exists c, ramified_cover id s 1 nil (fun es => es) empty = (c, Ok tt)) /\
  forall order c, (forall es, Permutation (order es) es) -> ramified_cover id s 1 nil order empty = (c, Ok tt) ->
    forall sheet, ~ covering id s c 1 nil sheet.
Proof.
  exists ctwo. split; [apply ctwo_intact|].
  split. { intros [l e] [p [Hp He]]. cbn [fst snd] in *. unfold id in He.
    assert (X : (l = 0 \/ l = 1) /\ p = 4%nat).
    { unfold get_polygon, dgetE in Hp. rewrite ctwo_polys in Hp. cbn in Hp. destruct (Z.eqb_spec l 0); [split; [auto|congruence]|].
      destruct (Z.eqb_spec l 1); [split; [auto|congruence]|discriminate]. }
    destruct X as [X ->]. assert (Y : e = 0 \/ e = 1 \/ e = 2 \/ e = 3) by lia.
    assert (Z : exists y, opposite_edge ctwo l e = Ok (Some y) /\ (l, e) <> y).
    { destruct X as [->| ->], Y as [->|[->|[->| ->]]]; eexists; (split; [vm_compute; reflexivity|congruence]). }
    destruct Z as [y [Z1 Z2]]. exists y. split; auto. split; auto. exists 4%nat. auto. }
  split. { eexists. assert (E : snd (ramified_cover id ctwo 1 nil (fun es => es) empty) = Ok tt) by (vm_compute; reflexivity).
    rewrite <- E. apply surjective_pairing. }
  intros order c OR E sheet [CP CI CO CG]. pose proof (intact_good id ctwo ctwo_intact) as G.
  destruct (iter_edges_spec id ctwo G) as (es & E1 & E2 & E3). destruct (iter_labels_spec id ctwo G) as (ls & L1 & L2 & L3).
  destruct (cover_vertical id ctwo 1 nil order es ls c G OR E1 (fun x => proj1 (E3 x)) L1 L2 (fun l => iff_trans (L3 l) (iff_sym (is_label_keys ctwo l))) E)
    as (over & O1 & O2).
  assert (GL : glued id ctwo (0, 1) (1, 3)).
  { split; [exists 4%nat; split; [vm_compute; reflexivity|cbn [snd]; unfold id; lia]|vm_compute; reflexivity]. }
  destruct (CG _ _ 0%nat GL) as (j & Hj & _ & GC); [lia|]. cbn [fst snd] in GC. destruct (O1 _ _ GC) as (l & A & B). cbn [fst] in *.
  pose proof (O2 eq_refl _ _ _ A B) as X.
  apply CI in X; [destruct X; discriminate|exists 4%nat; vm_compute; reflexivity|exists 4%nat; vm_compute; reflexivity|lia|lia].
Qed.
Print Assumptions C44_refuted.

(** covers of surfaces with edges that are glued to themselves cannot be built *)
Theorem C44_self_refuted : exists s : @surf nat, intact id s /\ (forall x, is_edge id s x -> exists y, glued id s x y /\ fst x = fst y) /\
  forall d data order, (forall es, Permutation (order es) es) -> exists c, ramified_cover id s d data order empty = (c, Err KeyError).
Proof.
  exists cpillow. split; [apply cpillow_intact|].
  assert (X : forall x, is_edge id cpillow x -> glued id cpillow x x).
  { intros [l e] [p [Hp He]]. cbn [fst snd] in *. unfold id in He.
    assert (l = 0). { destruct (Z.eq_dec l 0); auto. unfold get_polygon, dgetE in Hp. rewrite cpillow_polys in Hp. cbn in Hp. destruct (Z.eqb_spec l 0); [congruence|discriminate]. }
    subst l. assert (p = 4%nat) by (unfold get_polygon in Hp; rewrite cpillow_polys in Hp; cbn in Hp; congruence). subst p.
    assert (X : e = 0 \/ e = 1 \/ e = 2 \/ e = 3) by lia.
    destruct X as [->|[->|[->| ->]]]; (split; [exists 4%nat; split; [vm_compute; reflexivity|cbn [snd]; unfold id; lia]|vm_compute; reflexivity]). }
  split; [intros x Hx; exists x; auto|]. intros d data order. apply self_glued; auto; [apply cpillow_intact|].
  exists (0, 0). exists 4%nat. split; [vm_compute; reflexivity|cbn [snd]; unfold id; lia].
Qed.
Print Assumptions C44_self_refuted.
(** a surface with boundary *)
Example C44_ex_boundary : snd (ramified_cover id (run id [OpAdd 4%nat None] empty) 1 nil (fun es => es) empty) = Err TypeError.
Proof. vm_compute. reflexivity. Qed.
