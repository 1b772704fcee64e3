(** Parity of crossings for closed polygonal paths: the index of a simple polygon. *)
From Coq Require Import List Bool ZArith Arith Lia Ring Field Permutation.
From Verif Require Import OField FMicromega PField MBase MEuclid SEuclid PEuclid MSim SSim MPoly PTurn PJordan.
Import ListNotations.

Section L.
Context {A : Type}.
Implicit Types (l r : list A).
Fixpoint segs l : list (A * A) :=
  match l with
  | a :: l' => match l' with b :: _ => (a, b) :: segs l' | [] => [] end
  | [] => []
  end.
Definition cyc l : list (A * A) := match l with a :: _ => segs (l ++ [a]) | [] => [] end.
Definition rot l r := exists l1 l2, l = l1 ++ l2 /\ r = l2 ++ l1.

Lemma segs_cons a b l : segs (a :: b :: l) = (a, b) :: segs (b :: l).
Proof. reflexivity. Qed.
Lemma segs_app l a r : segs (l ++ a :: r) = segs (l ++ [a]) ++ segs (a :: r).
Proof.
  induction l as [|x [|y l] IH]; [reflexivity|reflexivity|]. cbn [app]. rewrite !segs_cons. cbn [app] in *. now rewrite IH.
Qed.
Lemma segs_snoc l a b : segs (l ++ [a; b]) = segs (l ++ [a]) ++ [(a, b)].
Proof. now rewrite segs_app. Qed.
Lemma in_segs l u v : In (u, v) (segs l) <-> exists l1 l2, l = l1 ++ u :: v :: l2.
Proof.
  split.
  - induction l as [|x [|y l] IH]; [contradiction|contradiction|]. rewrite segs_cons. intros [[= -> ->]|I].
    + now exists [], l.
    + destruct (IH I) as [l1 [l2 E]]. exists (x :: l1), l2. cbn. now rewrite E.
  - intros [l1 [l2 ->]]. rewrite segs_app, segs_cons. apply in_or_app. right. now left.
Qed.
Lemma cyc_cons p w l : cyc (p :: w :: l) = (p, w) :: segs (w :: l ++ [p]).
Proof. reflexivity. Qed.
Lemma cyc_snoc p w l : cyc (w :: l ++ [p]) = segs (w :: l ++ [p]) ++ [(p, w)].
Proof. cbn [cyc]. rewrite <- app_comm_cons, <- app_assoc. apply (segs_snoc (w :: l)). Qed.
Lemma cyc_rot1 p l : Permutation (cyc (p :: l)) (cyc (l ++ [p])).
Proof.
  destruct l as [|w l]; [reflexivity|]. rewrite cyc_cons. cbn [app]. rewrite cyc_snoc. apply Permutation_cons_append.
Qed.
Lemma cyc_rot l r : rot l r -> Permutation (cyc l) (cyc r).
Proof.
  intros [l1 [l2 [-> ->]]]. revert l2. induction l1 as [|a l1 IH]; intros l2; [now rewrite app_nil_r|].
  cbn [app]. rewrite cyc_rot1, <- app_assoc, IH. now rewrite <- app_assoc.
Qed.
Lemma rot_refl l : rot l l.
Proof. exists [], l. now rewrite app_nil_r. Qed.
Lemma rot_sym l r : rot l r -> rot r l.
Proof. intros [l1 [l2 [-> ->]]]. now exists l2, l1. Qed.
Lemma rot_perm l r : rot l r -> Permutation l r.
Proof. intros [l1 [l2 [-> ->]]]. apply Permutation_app_comm. Qed.
Lemma rot_length l r : rot l r -> length l = length r.
Proof. intros R. now apply Permutation_length, rot_perm. Qed.
Lemma rot_in l r x : rot l r -> In x l <-> In x r.
Proof. intros R. apply rot_perm in R. split; apply Permutation_in; [auto|now symmetry]. Qed.
Lemma rot_nodup l r : rot l r -> NoDup l -> NoDup r.
Proof. intros R. apply Permutation_NoDup, rot_perm, R. Qed.
Lemma rot_cyc_in l r g : rot l r -> In g (cyc l) <-> In g (cyc r).
Proof. intros R. apply cyc_rot in R. split; apply Permutation_in; [auto|now symmetry]. Qed.
(** invariance under rotation follows from invariance under one step *)
Lemma rot_ind_bool (f : list A -> bool) : forall (Q : list A -> Prop), (forall a l, Q (a :: l) -> Q (l ++ [a]) /\ f (a :: l) = f (l ++ [a])) ->
  forall l r, rot l r -> Q l -> f l = f r.
Proof.
  intros Q H l r [l1 [l2 [-> ->]]]. revert l2. induction l1 as [|a l1 IH]; intros l2 HQ; [now rewrite app_nil_r|].
  cbn [app] in *. destruct (H _ _ HQ) as [HQ' ->]. rewrite <- app_assoc in *. rewrite IH; auto. now rewrite <- app_assoc.
Qed.
Lemma rot_to l a : In a l -> exists r, rot l (a :: r).
Proof. intros I. apply in_split in I. destruct I as [l1 [l2 ->]]. exists (l2 ++ l1), l1, (a :: l2). auto. Qed.
Lemma in_cyc l u v : (2 <= length l)%nat -> In (u, v) (cyc l) <-> exists r, rot l (u :: v :: r).
Proof.
  intros N. split.
  - intros I. destruct l as [|p [|w l]]; cbn in N; try lia.
    rewrite cyc_cons in I. destruct I as [[= <- <-]|I]; [exists l; apply rot_refl|].
    apply in_segs in I. destruct I as [l1 [l2 E]]. destruct l2 as [|y l2] using rev_ind; [|clear IHl2].
    + assert (w :: l = l1 ++ [u] /\ p = v) as [E1 ->].
      { apply app_inj_tail. rewrite <- app_assoc. exact E. }
      exists l1. exists (v :: l1), [u]. rewrite E1. auto.
    + assert (w :: l = l1 ++ u :: v :: l2 /\ p = y) as [E1 ->].
      { apply app_inj_tail. rewrite <- app_assoc. exact E. }
      exists (l2 ++ y :: l1). exists (y :: l1), (u :: v :: l2). rewrite E1. auto.
  - intros [r R]. apply (rot_cyc_in _ _ _ R). now left.
Qed.
Lemma cyc_neq l u v : NoDup l -> (2 <= length l)%nat -> In (u, v) (cyc l) -> u <> v.
Proof.
  intros ND N I. apply in_cyc in I; auto. destruct I as [r R]. apply (rot_nodup _ _ R) in ND.
  apply NoDup_cons_iff in ND. intros ->. apply ND. now left.
Qed.
Lemma cyc_in_l l u v : In (u, v) (cyc l) -> In u l /\ In v l.
Proof.
  destruct l as [|p l]; [contradiction|]. destruct l as [|w l]; [cbn; intros [[= <- <-]|[]]; auto|].
  intros I. apply in_cyc in I; [|cbn; lia]. destruct I as [r R]. split; apply (rot_in _ _ _ R); cbn; auto.
Qed.
Lemma cyc_succ l u v v' : NoDup l -> (2 <= length l)%nat -> In (u, v) (cyc l) -> In (u, v') (cyc l) -> v = v'.
Proof.
  intros ND N I J. apply in_cyc in I; auto. destruct I as [r R]. apply (rot_cyc_in _ _ _ R) in J.
  apply (rot_nodup _ _ R) in ND. rewrite cyc_cons in J. destruct J as [[= ->]|J]; auto.
  exfalso. apply in_segs in J. destruct J as [l1 [l2 E]]. apply NoDup_cons_iff in ND. destruct ND as [ND _]. apply ND.
  destruct l2 as [|y l2] using rev_ind; [|clear IHl2].
  - assert (v :: r = l1 ++ [u] /\ u = v') as [-> _]; [|apply in_or_app; right; now left].
    apply app_inj_tail. rewrite <- app_assoc. exact E.
  - assert (v :: r = l1 ++ u :: v' :: l2 /\ u = y) as [-> _]; [|apply in_or_app; right; now left].
    apply app_inj_tail. rewrite <- app_assoc. exact E.
Qed.
Lemma in_segs_in l u v : In (u, v) (segs l) -> In u l /\ In v l.
Proof. intros I. apply in_segs in I. destruct I as [l1 [l2 ->]]. split; apply in_or_app; right; cbn; auto. Qed.
Lemma last_def l x y : l <> [] -> last l x = last l y.
Proof. intros N. destruct (exists_last N) as [m [z ->]]. now rewrite !last_last. Qed.
Lemma last_cons l x y : last (y :: l) x = last l y.
Proof. destruct l as [|z l]; [reflexivity|]. change (last (z :: l) x = last (z :: l) y). now apply last_def. Qed.
Lemma cyc_path p l : l <> [] -> cyc (p :: l) = (p, hd p l) :: segs l ++ [(last l p, p)].
Proof.
  intros N. destruct l as [|w l]; [contradiction|]. rewrite cyc_cons. cbn [hd]. f_equal.
  destruct (exists_last (l := w :: l)) as [m [z E]]; [discriminate|]. rewrite app_comm_cons, E, last_last, <- app_assoc. apply segs_snoc.
Qed.
End L.

Section J.
Context {K : OField}.
Add Field KFjp : (of_ft K).
Local Open Scope F_scope.
Implicit Types (a b c d p q u v w x y z : vec K) (l P : list (vec K)).

Fixpoint par q (es : list (vec K * vec K)) : bool :=
  match es with [] => false | g :: es' => xorb (crs g q) (par q es') end.
Lemma par_app q es fs : par q (es ++ fs) = xorb (par q es) (par q fs).
Proof. induction es as [|g es IH]; cbn; [now destruct (par q fs)|]. now rewrite IH, xorb_assoc. Qed.
Lemma par_perm q es fs : Permutation es fs -> par q es = par q fs.
Proof.
  induction 1; cbn; auto; [now rewrite IHPermutation| |congruence].
  destruct (crs x q), (crs y q), (par q l); reflexivity.
Qed.

Definition simpleL P := NoDup P /\ (3 <= length P)%nat /\ forall e f x, In e (cyc P) -> In f (cyc P) -> e <> f ->
  on_segment e x -> on_segment f x -> (x = fst e /\ x = snd f) \/ (x = snd e /\ x = fst f).
Lemma simpleL_rot P Q : rot P Q -> simpleL P -> simpleL Q.
Proof.
  intros R [ND [N S]]. split; [now apply (rot_nodup P)|]. split; [now rewrite <- (rot_length _ _ R)|].
  intros e f x E F. apply (S e f x); now apply (rot_cyc_in _ _ _ R).
Qed.

(** the parity of crossings along a segment that does not meet the path *)
Lemma tele p q x l : p <> q -> (forall u v, In (u, v) (segs (x :: l)) -> u <> v /\ disjoint (u, v) (p, q)) ->
  xorb (par p (segs (x :: l))) (par q (segs (x :: l))) = xorb (under p q x) (under p q (last l x)).
Proof.
  intros NP. revert x. induction l as [|y l IH]; intros x H; [cbn; now destruct (under p q x)|].
  rewrite segs_cons. cbn [par]. rewrite last_cons. destruct (H x y) as [N D]; [now left|]. pose proof (quad x y p q N NP D) as Q.
  assert (T : xorb (par p (segs (y :: l))) (par q (segs (y :: l))) = xorb (under p q y) (under p q (last l y))).
  { apply IH. intros u v I. apply H. now right. }
  destruct (crs (x, y) p), (crs (x, y) q), (par p (segs (y :: l))), (par q (segs (y :: l))), (under p q x), (under p q y), (under p q (last l y));
    cbn in *; congruence.
Qed.
Lemma par_segment P p q : NoDup P -> (2 <= length P)%nat -> p <> q -> (forall g, In g (cyc P) -> disjoint g (p, q)) -> par p (cyc P) = par q (cyc P).
Proof.
  intros ND N NP H. destruct P as [|a P]; [reflexivity|].
  assert (T := tele p q a (P ++ [a]) NP). rewrite last_last in T.
  change (segs (a :: P ++ [a])) with (cyc (a :: P)) in T.
  assert (X : xorb (par p (cyc (a :: P))) (par q (cyc (a :: P))) = xorb (under p q a) (under p q a)).
  { apply T. intros u v I. split; [now apply (cyc_neq (a :: P))|now apply H]. }
  destruct (par p (cyc (a :: P))), (par q (cyc (a :: P))), (under p q a); cbn in *; congruence.
Qed.
(** seen from a vertex *)
Lemma par_corner p l q : l <> [] -> NoDup (p :: l) -> p <> q ->
  (forall g, In g (segs l) -> disjoint g (p, q)) -> hd p l <> q -> last l p <> q ->
  ~ same_ray (vsub (hd p l) p) (vsub q p) -> ~ same_ray (vsub (last l p) p) (vsub q p) ->
  par q (cyc (p :: l)) = xorb (par p (segs l)) (xorb (above (vsub (hd p l) p) (vsub q p)) (above (vsub (last l p) p) (vsub q p))).
Proof.
  intros NL ND NP H N1 N2 R1 R2. rewrite cyc_path by auto. cbn [par]. rewrite par_app. cbn [par].
  destruct l as [|w l]; [contradiction|]. cbn [hd] in *. apply NoDup_cons_iff in ND. destruct ND as [NI ND].
  assert (Nw : w <> p) by (intros ->; apply NI; now left).
  assert (Nz : last (w :: l) p <> p).
  { intros E. apply NI. rewrite <- E. destruct (exists_last (l := w :: l)) as [m [z X]]; [discriminate|]. rewrite X, last_last. apply in_or_app. right. now left. }
  rewrite (above_crs p w q), (above_crs p (last (w :: l) p) q), (crs_sym (last (w :: l) p) p) by auto.
  assert (T : xorb (par p (segs (w :: l))) (par q (segs (w :: l))) = xorb (under p q w) (under p q (last (w :: l) p))).
  { rewrite last_cons. apply tele; auto. intros u v I. split; [|now apply H].
    apply in_segs in I. destruct I as [l1 [l2 E']]. rewrite E' in ND. apply NoDup_remove_2 in ND. intros ->. apply ND. apply in_or_app. right. now left. }
  destruct (crs (p, w) q), (par q (segs (w :: l))), (crs (p, last (w :: l) p) q), (par p (segs (w :: l))), (under p q w), (under p q (last (w :: l) p));
    cbn in *; congruence.
Qed.

(** the index: it is [true] if the polygon is on the left *)
Definition index P : bool :=
  match P with
  | p :: l => xorb (par p (segs l)) (xorb (above (vsub (last l p) p) (vsub (hd p l) p)) (posb (vsub (hd p l) p)))
  | [] => false
  end.

Lemma simple_corner p l : simpleL (p :: l) -> exists w z, hd p l = w /\ last l p = z /\ In (p, w) (cyc (p :: l)) /\ In (z, p) (cyc (p :: l)) /\
  w <> p /\ z <> p /\ w <> z /\ l <> [] /\ ~ In p l /\ In w l /\ In z l.
Proof.
  intros [ND [N _]]. destruct l as [|w [|y l]]; cbn in N; try lia.
  exists w, (last (w :: y :: l) p). apply NoDup_cons_iff in ND. destruct ND as [NI ND].
  assert (Iz : In (last (w :: y :: l) p) (y :: l)).
  { change (last (w :: y :: l) p) with (last (y :: l) p). destruct (exists_last (l := y :: l)) as [m [z X]]; [discriminate|]. rewrite X, last_last. apply in_or_app. right. now left. }
  rewrite cyc_path by discriminate. repeat split; try discriminate; auto; try (cbn; auto; fail).
  - right. apply in_or_app. right. now left.
  - intros ->. apply NI. now left.
  - intros E. apply NI. rewrite <- E. right. exact Iz.
  - apply NoDup_cons_iff in ND. intros E. apply (proj1 ND). rewrite E. exact Iz.
Qed.
Lemma segs_cyc p l g : l <> [] -> In g (segs l) -> In g (cyc (p :: l)).
Proof. intros N I. rewrite cyc_path by auto. right. apply in_or_app. now left. Qed.
Lemma simple_off p l g : simpleL (p :: l) -> In g (segs l) -> ~ on_segment g p.
Proof.
  intros S I O. destruct (simple_corner _ _ S) as [w [z [_ [_ [A [_ [Nw [_ [_ [NL [NI _]]]]]]]]]]].
  destruct g as [u v]. pose proof (in_segs_in _ _ _ I) as [Iu Iv].
  destruct S as [_ [_ S]]. destruct (S (p, w) (u, v) p) as [[_ E]|[_ E]]; cbn in *; auto; try congruence.
  - now apply segs_cyc.
  - apply on_seg_l.
Qed.
Lemma simple_off_edge p w l g : simpleL (p :: w :: l) -> In g (segs l) -> disjoint g (p, w).
Proof.
  intros S I x [O O']. destruct (simple_corner _ _ S) as [w' [z [<- [_ [A [_ [Nw [_ [_ [NL [NI _]]]]]]]]]]]. cbn [hd] in *.
  destruct g as [u v]. pose proof (in_segs_in _ _ _ I) as [Iu Iv].
  assert (NI' : ~ In w l) by (destruct S as [ND _]; apply NoDup_cons_iff in ND; destruct ND as [_ ND]; now apply NoDup_cons_iff in ND).
  assert (IC : In (u, v) (cyc (p :: w :: l))).
  { apply segs_cyc; [discriminate|]. destruct l; [contradiction|]. now right. }
  assert (NE : (p, w) <> (u, v)) by (intros [= -> ->]; apply NI; now right).
  destruct S as [_ [_ S]]. destruct (S (p, w) (u, v) x A IC NE O' O) as [[E E']|[E E']]; cbn [fst snd] in E, E'; subst.
  - apply NI. now right.
  - apply NI'. auto.
Qed.
Lemma simple_ray p l : simpleL (p :: l) -> ~ same_ray (vsub (last l p) p) (vsub (hd p l) p).
Proof.
  intros S [t [T E]]. destruct (simple_corner _ _ S) as [w [z [Ew [Ez [A [B [Nw [Nz [Nwz [NL [NI _]]]]]]]]]]]. rewrite Ew, Ez in E.
  destruct S as [_ [_ S]].
  assert (NE : (p, w) <> (z, p)) by (intros [= -> ->]; contradiction).
  assert (O1 : (1 : K) <> 0) by apply f1_neq_0. pose proof (@flt_0_1 K) as F1.
  destruct (flt_total (t - 1)) as [C|[C|C]].
  - destruct (S (p, w) (z, p) w) as [[X Y]|[X Y]]; auto; cbn in *; try congruence.
    + apply on_seg_r.
    + exists (1 - t). cbn. split; [flra|]. split; [flra|]. destruct p, w, z. injection E as E1 E2. apply vec_eq; cbn in *; flra.
  - apply Nwz. destruct p, w, z. injection E as E1 E2. assert (t = 1) by flra. subst t. apply vec_eq; cbn in *; flra.
  - destruct (S (p, w) (z, p) z) as [[X Y]|[X Y]]; auto; cbn in *; try congruence.
    + assert (Nt : t <> 0) by (intros ->; flra). exists (1 / t). cbn. split; [apply fdiv_nonneg; flra|]. split; [apply fdiv_le; flra|].
      destruct p, w, z. injection E as E1 E2. apply vec_eq; cbn in *; (apply (fcancel _ _ t); [auto|]);
      match goal with |- _ = (?a + _ * ?c) * _ => transitivity (a * t + c); [flra|field; auto] end.
    + apply on_seg_l.
Qed.

Lemma index_step p l : simpleL (p :: l) -> index (p :: l) = index (l ++ [p]).
Proof.
  intros S. pose proof (simple_corner _ _ S) as [w [z [Ew [Ez [A [B [Nw [Nz [Nwz [NL [NI _]]]]]]]]]]].
  destruct l as [|w' l]; [contradiction|]. cbn [hd] in Ew. subst w'.
  destruct l as [|y l]; [exfalso; destruct S as [_ [N _]]; cbn in N; lia|].
  assert (S' : simpleL (w :: (y :: l) ++ [p])).
  { eapply simpleL_rot; [|exact S]. exists [p], (w :: y :: l). auto. }
  assert (Ez' : z = last l y).
  { rewrite <- Ez, last_cons. apply last_cons. }
  pose proof (simple_corner _ _ S') as [w1 [z1 [Ew1 [Ez1 [A1 [B1 [Nw1 [Nz1 [Nwz1 [NL1 [NI1 _]]]]]]]]]]].
  cbn [app hd] in Ew1. subst w1. rewrite last_last in Ez1. subst z1.
  pose proof (simple_ray _ _ S) as R. pose proof (simple_ray _ _ S') as R'. rewrite Ez in R. rewrite last_last in R'. cbn [app hd] in R, R'.
  assert (D : forall u v, In (u, v) (segs (y :: l)) -> u <> v /\ disjoint (u, v) (p, w)).
  { intros u v I. split; [|now apply (simple_off_edge p w (y :: l))].
    apply (cyc_neq (p :: w :: y :: l)); [apply S|cbn; lia|]. apply segs_cyc; [discriminate|]. now right. }
  assert (T := tele p w y l (not_eq_sym Nw) D). rewrite <- Ez' in T.
  unfold index. cbn [app hd].
  change (y :: l ++ [p]) with ((y :: l) ++ [p]). rewrite last_last, Ez.
  assert (E1 : segs ((y :: l) ++ [p]) = segs (y :: l) ++ [(z, p)]).
  { destruct (exists_last (l := y :: l)) as [m [x X]]; [discriminate|]. rewrite X, <- app_assoc. cbn [app]. rewrite segs_snoc. do 3 f_equal.
    rewrite Ez'. assert (last (y :: l) y = x) by (now rewrite X, last_last). rewrite <- H. apply last_cons. }
  rewrite E1, par_app. rewrite segs_cons. cbn [par].
  (* forms of the index at w *)
  rewrite (corner_forms (vsub p w) (vsub y w)).
  2:{ apply vsub_nz; auto. } 2:{ apply vsub_nz; auto. } 2:{ exact R'. }
  replace (negb (posb (vsub p w))) with (posb (vsub w p)).
  2:{ change (ltb p w = negb (ltb w p)). apply ltb_swap. auto. }
  assert (Nzw : z <> w) by auto. assert (Nyp : y <> p) by auto.
  assert (R'' : ~ same_ray (vsub y w) (vsub p w)).
  { intros [t [Ht X]]. apply R'. exists (1 / t). assert (Nt : t <> 0) by (intros ->; flra).
    split; [apply fdiv_pos; [auto|apply flt_0_1]|]. rewrite X. destruct (vsub y w). apply vec_eq; cbn; field; auto. }
  rewrite (above_crs p z w), (above_crs w y p) by auto.
  rewrite (under_sym w p y), (crs_sym p z w).
  destruct (crs (w, y) p), (par p (segs (y :: l))), (par w (segs (y :: l))), (crs (z, p) w), (under p w z), (under p w y), (posb (vsub w p));
    cbn in *; congruence.
Qed.
Lemma index_rot P Q : rot P Q -> simpleL P -> index P = index Q.
Proof.
  intros R. apply (rot_ind_bool index simpleL); auto. intros a l S. split; [|now apply index_step].
  eapply simpleL_rot; [|exact S]. now exists [a], l.
Qed.

(** a point that is seen from a corner with a left turn *)
Lemma par_inside p l q : simpleL (p :: l) -> (forall g, In g (segs l) -> disjoint g (p, q)) ->
  0 < ccw (vsub (hd p l) p) (vsub (last l p) p) -> 0 < ccw (vsub (hd p l) p) (vsub q p) -> 0 < ccw (vsub q p) (vsub (last l p) p) ->
  par q (cyc (p :: l)) = index (p :: l).
Proof.
  intros S D H1 H2 H3. pose proof (simple_corner _ _ S) as [w [z [Ew [Ez [A [B [Nw [Nz [Nwz [NL [NI _]]]]]]]]]]].
  assert (C0 : forall u (t : K), ccw u (vscale t u) = 0) by (intros u t; destruct u; unfold ccw; cbn; ring).
  assert (C1 : forall u v, 0 < ccw u v -> ~ same_ray u v) by (intros u v H [t [_ ->]]; rewrite C0 in H; flra).
  assert (C2 : forall u v, 0 < ccw u v -> u <> vzero /\ v <> vzero).
  { intros u v H. split; intros ->; unfold ccw in H; cbn in H; flra. }
  assert (C3 : forall u v, 0 < ccw u v -> ~ same_ray v u).
  { intros u v H [t [_ X]]. rewrite ccw_anti, X, C0 in H. flra. }
  rewrite par_corner; auto.
  - unfold index. f_equal. rewrite Ew, Ez in *. destruct (C2 _ _ H2) as [X1 X2]. destruct (C2 _ _ H3) as [_ X3]. apply corner_inside; auto.
  - apply S.
  - intros ->. apply (proj2 (C2 _ _ H2)). destruct q; apply vec_eq; cbn; ring.
  - intros E. rewrite E in H2. unfold ccw in H2. flra.
  - intros E. rewrite E in H3. unfold ccw in H3. flra.
Qed.
(** the index of a polygon at its smallest vertex *)
Lemma crs_low g q : ltb (fst g) q = false -> ltb (snd g) q = false -> crs g q = false.
Proof. intros A B. unfold crs. now rewrite A, B. Qed.
Lemma par_low q es : (forall u v, In (u, v) es -> ltb u q = false /\ ltb v q = false) -> par q es = false.
Proof.
  induction es as [|[u v] es IH]; intros H; [reflexivity|]. cbn. destruct (H u v) as [A B]; [now left|]. rewrite crs_low by auto.
  rewrite xorb_false_l. apply IH. intros u' v' I. apply H. now right.
Qed.
Lemma index_low p l : simpleL (p :: l) -> (forall x, In x l -> ltb p x = true) -> index (p :: l) = (0 <? orient (last l p) p (hd p l)).
Proof.
  intros S M. pose proof (simple_corner _ _ S) as [w [z [Ew [Ez [A [B [Nw [Nz [Nwz [NL [NI [Iw Iz]]]]]]]]]]]].
  unfold index. rewrite par_low.
  2:{ intros u v I. apply in_segs_in in I. destruct I as [Iu Iv]. split; apply ltb_asym; auto. }
  pose proof (simple_ray _ _ S) as R. rewrite Ew, Ez in *. pose proof (M _ Iw) as Lw. pose proof (M _ Iz) as Lz. unfold above. unfold ltb in *. rewrite Lw, Lz. cbn [eqb andb xorb].
  assert (C : ccw (vsub z p) (vsub w p) <> 0).
  { intros X. apply R. apply same_half_ccw; [apply posb_nz; exact Lz|apply posb_nz; exact Lw|congruence|exact X]. }
  replace (orient z p w) with (- ccw (vsub z p) (vsub w p)) by (unfold orient, ccw; destruct z, p, w; cbn; ring).
  apply fneq_lt in C. destruct C as [C|C].
  - rewrite (fltb_neg _ C). cbn. symmetry. flra.
  - rewrite C. cbn. symmetry. apply fltb_ge. flra.
Qed.
End J.
