(** Holonomy of chains. *)
From Coq Require Import List Bool ZArith Arith Lia Ring Field Permutation.
From Verif Require Import OField FMicromega PField MBase MEuclid PEuclid MSim MPoly PPoly MSurf SSim SSurf PSurf PSurf2 PSurf3 MDict PDict MComb SComb PComb PParity
  MHom SHom PHom PHom2 MHomMor SHomMor TComb.
Import ListNotations.

(** ** pointwise equal surfaces *)
Section Ext.
Context {L : Type} `{EL : EqB L}.
Variables S T : csurf L.
Hypothesis El : c_labels T = c_labels S.
Hypothesis En : forall l, c_nv T l = c_nv S l.
Hypothesis Eo : forall d, c_opp T d = c_opp S d.
Lemma ext_darts : darts T = darts S.
Proof. unfold darts. rewrite El. f_equal. apply map_ext. intros l. now rewrite En. Qed.
Lemma ext_opp d : opp T d = opp S d.
Proof. unfold opp. now rewrite Eo. Qed.
Lemma ext_around n : forall s d, around T n s d = around S n s d.
Proof.
  induction n as [|n IH]; intros s d; cbn [around]; auto. assert (P : dprev T d = dprev S d) by (unfold dprev; now rewrite En).
  rewrite P, ext_opp. cbv zeta. rewrite IH. reflexivity.
Qed.
Lemma ext_ccw d : edges_ccw T d = edges_ccw S d.
Proof. unfold edges_ccw. now rewrite ext_darts, ext_around. Qed.
Lemma fold_left_ext {A B} (f g : A -> B -> A) l : (forall a b, f a b = g a b) -> forall a, fold_left f l a = fold_left g l a.
Proof. intros E. induction l; cbn; intros; auto. now rewrite E. Qed.
Lemma existsb_ext {A} (f g : A -> bool) l : (forall a, f a = g a) -> existsb f l = existsb g l.
Proof. intros E. induction l; cbn; auto. now rewrite E, IHl. Qed.
Lemma ext_vertices : vertices T = vertices S.
Proof.
  unfold vertices. rewrite ext_darts. apply fold_left_ext. intros vs d.
  rewrite (existsb_ext _ (fun v => mem d (edges_ccw S v))); auto. intros v. now rewrite ext_ccw.
Qed.
Lemma ext_point d : point T d = point S d.
Proof.
  unfold point. rewrite ext_vertices. assert (X : forall l, List.find (fun v => mem d (edges_ccw T v)) l = List.find (fun v => mem d (edges_ccw S v)) l).
  { induction l as [|x l IH]; cbn; auto. rewrite ext_ccw, IH. reflexivity. }
  now rewrite X.
Qed.
Lemma ext_simplices : simplices1 T = simplices1 S.
Proof. unfold simplices1. rewrite ext_darts. apply fold_left_ext. intros s d. now rewrite ext_opp. Qed.
Lemma ext_boundary1 {R} `{EqB R} rO radd ropp rel (c : dict (L * nat) R) : boundary1 rO radd ropp T rel c = boundary1 rO radd ropp S rel c.
Proof. unfold boundary1. apply fold_left_ext. intros b t. now rewrite !ext_point, ext_opp. Qed.
End Ext.

Section H.
Context {K : OField}.
Add Field KF : (of_ft K).
Local Open Scope F_scope.
Context {L : Type} `{EL : EqB L} {R : Type} `{ER : EqB R}.
Variables (rO rI : R) (radd rmul : R -> R -> R) (ropp : R -> R).
Hypothesis Rth : coeff_ring rO rI radd rmul ropp.
Variable inj : R -> K.
Hypothesis inj0 : inj rO = 0.
Hypothesis inj_add : forall x y, inj (radd x y) = inj x + inj y.
Lemma inj_opp x : inj (ropp x) = - inj x.
Proof.
  assert (E : inj (radd x (ropp x)) = 0). { rewrite (Ropp_def Rth). exact inj0. } rewrite inj_add in E.
  transitivity (inj x + inj (ropp x) - inj x); [ring|]. rewrite E. ring.
Qed.
Lemma Kth : coeff_ring (0 : K) 1 fadd fmul fopp.
Proof. unfold coeff_ring. constructor; intros; ring. Qed.
Notation fsum := (@rsum K 0 fadd _).
Notation coef := (coef rO).
Definition linK {X : Type} (f : X -> K) (c : dict X R) : K := fsum (fun t => inj (snd t) * f (fst t)) c.
Lemma linK_sum {X : Type} `{EX : EqB X} (f : X -> K) (c : dict X R) (l : list X) : NoDup (keys c) -> NoDup l -> incl (keys c) l ->
  linK f c = fsum (fun x => inj (coef c x) * f x) l.
Proof.
  intros N Nl. induction c as [|[k v] c IH]; intros I.
  - unfold linK. cbn. symmetry. apply (rsum_0 _ _ _ _ _ Kth). intros x _. unfold MHom.coef. cbn. rewrite inj0. ring.
  - inversion N as [|? ? N1 N2]; subst. unfold linK in *. cbn [rsum fst snd]. rewrite IH by (auto; intros x J; apply I; now right).
    assert (Ik : In k l) by (apply I; now left). apply in_split in Ik. destruct Ik as (l1 & l2 & ->).
    rewrite !(rsum_app _ _ _ _ _ Kth). cbn [rsum].
    assert (C : forall x, coef ((k, v) :: c) x = if eqb x k then v else coef c x). { intros x. unfold MHom.coef. cbn. now destruct (eqb x k). }
    assert (Ck : coef c k = rO). { unfold MHom.coef. destruct (dget k c) eqn:G; auto. exfalso. apply N1. apply dget_In in G. now apply (in_map fst) in G. }
    assert (Nk : ~ In k (l1 ++ l2)) by (apply NoDup_remove_2; auto).
    rewrite (C k), eqb_refl, Ck, inj0.
    rewrite (rsum_ext _ _ (fun x => inj (coef ((k, v) :: c) x) * f x) (fun x => inj (coef c x) * f x) l1).
    rewrite (rsum_ext _ _ (fun x => inj (coef ((k, v) :: c) x) * f x) (fun x => inj (coef c x) * f x) l2).
    + ring.
    + intros x J. rewrite C. assert (E : eqb x k = false). { apply eqb_neq. intros ->. apply Nk, in_app_iff. auto. } now rewrite E.
    + intros x J. rewrite C. assert (E : eqb x k = false). { apply eqb_neq. intros ->. apply Nk, in_app_iff. auto. } now rewrite E.
Qed.
Lemma holonomy_linK (S : surface K L) c :
  holonomy S inj c = (linK (fun d => fst (edge_vec S d)) c, linK (fun d => snd (edge_vec S d)) c).
Proof. induction c as [|[d r] c IH]; [reflexivity|]. cbn [holonomy]. rewrite IH. reflexivity. Qed.

(** ** a surface *)
Variables (D : L -> Prop) (S : surface K L) (labels : list L).
Hypothesis V : valid D S.
Hypothesis C : closed D S.
Hypothesis ND : NoDup labels.
Hypothesis DL : forall l, In l labels <-> D l.
Hypothesis Tr : all_gluings D S map_translation.
Notation cS := (csurf_of S labels).
Lemma cS_ok : cvalid cS /\ cclosed cS.
Proof. destruct (C09_combinatorial K L EL S D labels V ND DL) as (A & _ & B). auto. Qed.
Lemma dart_poly d : In d (darts cS) -> D (fst d) /\ exists P, s_poly S (fst d) = Ok P /\ (snd d < length P)%nat.
Proof.
  intros I. apply In_darts in I. destruct I as [I J]. cbn in I, J. apply DL in I. split; auto.
  destruct (v_poly D S V _ I) as [P [E1 _]]. rewrite E1 in J. eauto.
Qed.
Lemma edge_vec_opp d : In d (darts cS) -> edge_vec S (opp cS d) = vopp (edge_vec S d).
Proof.
  intros I. destruct (dart_poly d I) as [Dl [P [EP LP]]]. unfold opp. cbn [c_opp csurf_of].
  destruct (v_opp D S V _ P _ Dl EP LP) as [Z|[l' [e' [P' [Z [D' [EP' [LP' Z']]]]]]]]; [exfalso; exact (C _ P _ Dl EP LP Z)|].
  rewrite Z. unfold edge_vec. cbn [fst snd]. rewrite EP, EP'.
  assert (G : glued_at D S (fst d) (snd d) P l' e' P') by (constructor; auto).
  destruct (gm_exists D S _ _ _ _ _ _ V G) as [F GF]. rewrite (translation_edges D S _ _ _ _ _ _ F G GF (Tr _ _ _ _ _ _ F G GF)).
  destruct (edge P' e'). unfold vopp. cbn. f_equal; ring.
Qed.
Lemma fold_fsum (h : nat -> K) l : forall a, fold_left (fun t i => t + h i) l a = a + fsum h l.
Proof. induction l as [|x l IH]; cbn; intros a; [ring|]. rewrite IH. ring. Qed.
Lemma polygon_edges_zero (g : vec K -> K) P : fsum (fun e => g (vertex P (Datatypes.S e)) - g (vertex P e)) (seq 0 (length P)) = 0.
Proof.
  transitivity (csum (fun a b => g b - g a) P); [|apply csum_tele]. rewrite <- (fold_csum (fun a b => g b - g a)). rewrite fold_fsum. ring.
Qed.
(** a functional on edges that changes its sign under [opp] and vanishes on polygons vanishes on boundaries *)
Lemma functional_boundary (f : L * nat -> K) c : (forall d, In d (darts cS) -> f (opp cS d) = - f d) ->
  (forall l, In l labels -> fsum (fun e => f (l, e)) (seq 0 (c_nv cS l)) = 0) -> faces rO cS c ->
  fsum (fun d => inj (coef (boundary2 rO radd ropp cS c) d) * f d) (darts cS) = 0.
Proof.
  intros Fo Fp Fc. destruct cS_ok as [CV CC]. set (b := boundary2 rO radd ropp cS c).
  assert (X : fsum (fun d => inj (coef b d) * f d) (darts cS) + fsum (fun d => inj (coef b d) * f d) (darts cS) =
    fsum (fun d => inj (coef c (fst d)) * f d) (darts cS) + fsum (fun d => inj (coef c (fst d)) * f d) (darts cS)).
  { rewrite <- (rsum_acts _ _ _ _ _ Kth cS CV (fun d => inj (coef b d) * f d) _ (opp_acts cS CV CC)) at 2.
    rewrite <- (rsum_acts _ _ _ _ _ Kth cS CV (fun d => inj (coef c (fst d)) * f d) _ (opp_acts cS CV CC)) at 2.
    rewrite <- !(rsum_add _ _ _ _ _ Kth). apply (rsum_ext 0 fadd). intros d I. rewrite (Fo d I).
    pose proof (boundary2_along _ _ _ _ _ Rth cS CV CC c d Fc I) as A. unfold along in A. fold b in A.
    apply (f_equal inj) in A. rewrite !inj_add, !inj_opp in A.
    transitivity ((inj (coef b d) + - inj (coef b (opp cS d))) * f d); [ring|]. rewrite A. ring. }
  assert (Y : fsum (fun d => inj (coef c (fst d)) * f d) (darts cS) = 0).
  { unfold darts. rewrite (rsum_concat _ _ _ _ _ Kth), (rsum_map 0 fadd). apply (rsum_0 _ _ _ _ _ Kth). intros l I.
    rewrite (rsum_map 0 fadd). cbn [fst]. rewrite (rsum_scale _ _ _ _ _ Kth). rewrite (Fp l I). ring. }
  rewrite Y in X. assert (T2 : (1 + 1) * fsum (fun d => inj (coef b d) * f d) (darts cS) = 0) by (transitivity (0 + 0 : K); [rewrite <- X|]; ring).
  apply fmul_eq0 in T2. destruct T2 as [T2|T2]; auto. exfalso. pose proof (@flt_0_1 K). flra.
Qed.
Lemma keys_darts c : chain_ok rO (fun d => In d (simplices1 cS)) c -> NoDup (keys c) /\ incl (keys c) (darts cS).
Proof.
  intros [N A]. split; auto. destruct cS_ok as [CV CC]. destruct (simplices_spec cS CV CC) as (_ & S2 & _).
  intros x J. apply dget_keys in J. destruct J as [r J]. apply dget_In in J. apply S2. now apply (A x r).
Qed.
Lemma holonomy_sum c : chain_ok rO (fun d => In d (simplices1 cS)) c ->
  holonomy S inj c = (fsum (fun d => inj (coef c d) * fst (edge_vec S d)) (darts cS), fsum (fun d => inj (coef c d) * snd (edge_vec S d)) (darts cS)).
Proof.
  intros A. destruct (keys_darts c A). rewrite holonomy_linK. destruct cS_ok as [CV CC].
  f_equal; apply linK_sum; auto; now apply nodup.
Qed.
Lemma holonomy_boundary c : faces rO cS c -> holonomy S inj (boundary2 rO radd ropp cS c) = vzero.
Proof.
  intros F. destruct cS_ok as [CV CC]. rewrite holonomy_sum by (apply (boundary2_spec _ _ _ _ _ Rth cS CV CC); intros x r I; now apply (proj2 F x r)).
  unfold vzero. f_equal; apply functional_boundary; auto.
  - intros d I. rewrite (edge_vec_opp d I). destruct (edge_vec S d). reflexivity.
  - intros l I. cbn [c_nv csurf_of]. apply DL in I. destruct (v_poly D S V l I) as [P [E _]]. unfold edge_vec. cbn [fst snd]. rewrite E.
    apply (polygon_edges_zero (fun v => fst v)).
  - intros d I. rewrite (edge_vec_opp d I). destruct (edge_vec S d). reflexivity.
  - intros l I. cbn [c_nv csurf_of]. apply DL in I. destruct (v_poly D S V l I) as [P [E _]]. unfold edge_vec. cbn [fst snd]. rewrite E.
    apply (polygon_edges_zero (fun v => snd v)).
Qed.
Lemma holonomy_homologous a b : chain_ok rO (fun d => In d (simplices1 cS)) a -> chain_ok rO (fun d => In d (simplices1 cS)) b ->
  homologous rO radd ropp cS a b -> holonomy S inj a = holonomy S inj b.
Proof.
  intros A B [c [F E]]. destruct cS_ok as [CV CC]. pose proof (holonomy_boundary c F) as Z.
  rewrite holonomy_sum in Z by (apply (boundary2_spec _ _ _ _ _ Rth cS CV CC); intros x r I; now apply (proj2 F x r)).
  rewrite !holonomy_sum by auto. unfold vzero in Z. injection Z as Z1 Z2.
  assert (G : forall g : L * nat -> K, fsum (fun d => inj (coef (boundary2 rO radd ropp cS c) d) * g d) (darts cS) = 0 ->
    fsum (fun d => inj (coef a d) * g d) (darts cS) = fsum (fun d => inj (coef b d) * g d) (darts cS)).
  { intros g Z. transitivity (fsum (fun d => inj (coef b d) * g d) (darts cS) + fsum (fun d => inj (coef (boundary2 rO radd ropp cS c) d) * g d) (darts cS)).
    - rewrite <- (rsum_add _ _ _ _ _ Kth). apply (rsum_ext 0 fadd). intros d _. rewrite E, inj_add. ring.
    - rewrite Z. ring. }
  f_equal; apply G; assumption.
Qed.
(** ** linear images *)
Variable M : mat K.
Hypothesis Pos : 0 < mdet M.
Notation T := (gl2r S M).
Notation cT := (csurf_of T labels).
Lemma cT_labels : c_labels cT = c_labels cS. Proof. reflexivity. Qed.
Let det0 : (mdet M =? 0) = false. Proof. apply feqb_false. now apply fpos_neq0. Qed.
Let det1 : (mdet M <? 0) = false. Proof. flra. Qed.
Lemma cT_nv l : c_nv cT l = c_nv cS l.
Proof.
  cbn. destruct (s_poly S l) as [P|]; cbn [bind]; auto. unfold poly_mul. rewrite det0, det1. apply map_length.
Qed.
Lemma cT_opp d : c_opp cT d = c_opp cS d.
Proof.
  cbn. rewrite det1. cbn [bind]. unfold opp_pair. destruct (s_opp S (fst d) (snd d)) as [[y|]|]; reflexivity.
Qed.
Lemma edge_vec_image d : In d (darts cS) -> edge_vec T d = mapply M (edge_vec S d).
Proof.
  intros I. destruct (dart_poly d I) as [Dl [P [EP LP]]]. unfold edge_vec. cbn [s_poly gl2r]. rewrite EP. cbn [bind].
  unfold poly_mul. rewrite det0, det1. unfold edge. rewrite !(vertex_map (mapply M)) by (intros ->; cbn in LP; lia).
  destruct (vertex P (Datatypes.S (snd d))), (vertex P (snd d)). unfold mapply, vsub. cbn. f_equal; ring.
Qed.
Notation image := (gl2r_image rO rI radd rmul ropp S labels M).
Lemma image_spec c : chain_ok rO (fun d => In d (simplices1 cS)) c ->
  chain_ok rO (fun d => In d (simplices1 cT)) (image c) /\ forall x, coef (image c) x = coef c x.
Proof.
  intros A. destruct cS_ok as [CV CC]. destruct (gl2r_valid D S M V C (fpos_neq0 _ Pos)) as [VT CT].
  assert (Ok' : cvalid cT /\ cclosed cT). { destruct (C09_combinatorial K L EL T D labels VT ND DL) as (X & _ & Y). auto. }
  destruct Ok' as [CVT CCT]. pose proof (ext_simplices cS cT cT_labels cT_nv cT_opp) as Es.
  unfold gl2r_image, image_homology_gen.
  assert (X : forall c b, (forall x r, In (x, r) c -> In x (simplices1 cS)) -> chain_ok rO (fun d => In d (simplices1 cT)) b ->
    let r := fold_left (fun i t => cadd rO radd i (cscale rO radd rmul (snd t) (gl2r_edge rO rI radd rmul ropp cT (fst t)))) c b in
    chain_ok rO (fun d => In d (simplices1 cT)) r /\ forall x, coef r x = radd (coef b x) (lin rO radd rmul (fun y => delta rO rI y x) c)).
  { clear c A. induction c as [|[d r] c IH]; intros b I B; cbn [fold_left fst snd].
    - split; auto. intros x. unfold lin. cbn. now rewrite (add_0_r _ _ _ _ _ Rth).
    - assert (Sd : In d (simplices1 cS)) by (apply (I d r); now left).
      assert (Dd : In d (darts cT)). { destruct (simplices_spec cT CVT CCT) as (_ & S2 & _). apply S2. now rewrite Es. }
      destruct (of_edge_coef _ _ _ _ _ Rth cT CVT CCT d Dd) as [E1 E2].
      assert (Md : mem d (simplices1 cT) = true) by (apply mem_In; now rewrite Es). rewrite Md in E2.
      destruct (cscale_spec _ _ _ _ _ Rth _ r _ E1) as [F1 F2].
      destruct (cadd_spec _ _ _ _ _ Rth _ b _ B F1) as [G1 G2].
      destruct (IH _ (fun x s J => I x s (or_intror J)) G1) as [H1 H2]. split; [exact H1|].
      intros x. etransitivity; [apply H2|]. etransitivity; [apply f_equal2; [apply G2|reflexivity]|].
      etransitivity; [apply f_equal2; [apply f_equal, F2|reflexivity]|]. rewrite E2. unfold lin. cbn [rsum fst snd].
      now rewrite (Radd_assoc Rth). }
  destruct (X c nil) as [X1 X2].
  - intros x r I. now apply (proj2 A x r).
  - apply ok_nil.
  - split; auto. intros x. etransitivity; [apply X2|]. rewrite (lin_coef _ _ _ _ _ Rth) by apply A.
    unfold MHom.coef at 1. cbn. apply (Radd_0_l Rth).
Qed.
Lemma image_holonomy c : chain_ok rO (fun d => In d (simplices1 cS)) c -> holonomy T inj (image c) = mapply M (holonomy S inj c).
Proof.
  intros A. destruct cS_ok as [CV CC]. destruct (image_spec c A) as [B E].
  pose proof (ext_simplices cS cT cT_labels cT_nv cT_opp) as Es. rewrite Es in B. destruct (keys_darts _ B) as [N I].
  rewrite (holonomy_sum c A), holonomy_linK. 
  assert (Nd : NoDup (darts cS)) by now apply nodup.
  rewrite !(linK_sum _ _ (darts cS)) by auto. unfold mapply. cbn [fst snd].
  f_equal; rewrite <- !(rsum_scale _ _ _ _ _ Kth), <- (rsum_add _ _ _ _ _ Kth); apply (rsum_ext 0 fadd); intros d J; rewrite E, (edge_vec_image d J);
    unfold mapply; cbn [fst snd]; ring.
Qed.
Lemma lin_boundary1 (X : csurf L) a b : cvalid X -> cclosed X -> chain_ok rO (fun d => In d (simplices1 X)) a -> chain_ok rO (fun d => In d (simplices1 X)) b ->
  (forall d, coef a d = coef b d) -> boundary1 rO radd ropp X nil a = nil -> boundary1 rO radd ropp X nil b = nil.
Proof.
  intros CV CC A B E Z.
  apply (cycle_balanced_iff _ _ _ _ _ Rth X CV CC) in Z; auto. apply (cycle_balanced_iff _ _ _ _ _ Rth X CV CC); auto.
  intros v Iv. etransitivity; [|exact (Z v Iv)]. apply (rsum_ext rO radd). intros d _. unfold al. now rewrite !E.
Qed.
Lemma image_cycle c : cycle rO radd ropp cS c -> cycle rO radd ropp cT (image c).
Proof.
  intros [A Z]. destruct cS_ok as [CV CC]. destruct (image_spec c A) as [B E]. split; auto.
  pose proof (ext_simplices cS cT cT_labels cT_nv cT_opp) as Es. rewrite Es in B.
  rewrite (ext_boundary1 cS cT cT_labels cT_nv cT_opp). now apply (lin_boundary1 cS c).
Qed.
End H.
