(** Proofs about the Thurston-Veech construction: the whole program. *)
From Coq Require Import List Bool ZArith Arith Lia Ring Field.
From Verif Require Import OField FMicromega PField MBase MDict PDict MEuclid SEuclid PEuclid MPoly PPoly MMut SMut PMut PMut2 PMut3 PGlue PBuild PCover
  MSim SSim PSim MSurf SSurf PSurf PSurf3 SPoint PSimple PRotate PFam PFam2 MTV STV PTV PTV2 PTV3 PTV4.
Import ListNotations.

Section P.
Context {K : OField}.
Add Field KF : (of_ft K).
Local Open Scope F_scope.
Notation nv := (@length (vec K) : polygon K -> nat).
Notation surf := (@surf (polygon K)).
Variable largest_root : nat -> (nat -> nat -> K) -> res K.
Variable kernel : nat -> (nat -> nat -> K) -> list (list K).

(** the program after the computation of the eigenvector *)
Definition tv_finish (t : thurston_veech) (hmult vmult x : list K) (pf : K) : M surf unit :=
  (let! P := mlift (rectangles t (tv_heights t hmult vmult x pf) (tv_widths t hmult vmult x pf) (seq 0 (length (tv_r t)))) in
    add_polygons P ;;;
    mfor (seq 0 (length (tv_r t))) (fun i =>
      glue nv (Z.of_nat i, 1%Z) (Z.of_nat (nth i (tv_r t) 0%nat), 3%Z) ;;;
      glue nv (Z.of_nat i, 0%Z) (Z.of_nat (nth i (tv_u t) 0%nat), 2%Z)) ;;;
    set_immutable nv)%M.
Lemma call_finish t (hmult vmult x : list K) pf s : length hmult = tv_nh t -> length vmult = tv_nv t -> largest_root (tv_size t) (tv_F t hmult vmult) = Ok pf ->
  kernel (tv_size t) (mat_sub_scalar (tv_F t hmult vmult) pf) = [x] -> length x = tv_size t -> Forall (fun a => 0 < a) x -> pf <> 0 ->
  tv_call largest_root kernel t hmult vmult s = tv_finish t hmult vmult x pf s.
Proof.
  intros L1 L2 R Ke LX PX P0. unfold tv_call. rewrite L1, L2, !Nat.eqb_refl. cbn [negb orb]. rewrite (mbind_ok _ _ s s pf) by (unfold mlift; now rewrite R).
  rewrite Ke, LX, Nat.eqb_refl. cbn [negb]. replace (forallb (fun a => 0 <? a) x) with true by (symmetry; apply forallb_forall; now rewrite Forall_forall in PX). cbn [negb].
  assert (N1 : (1 =? 0)%F = false) by (destruct (1 =? 0)%F eqn:Z; auto; apply (feqb_eq K) in Z; exfalso; revert Z; apply fpos_neq0, flt_0_1).
  assert (N2 : (pf =? 0)%F = false) by (destruct (pf =? 0)%F eqn:Z; auto; apply (feqb_eq K) in Z; contradiction).
  unfold tv_finish, tv_heights, tv_widths. destruct (tv_nh t <? tv_nv t)%nat; rewrite N1, N2; reflexivity.
Qed.
Lemma call_inv t (hmult vmult : list K) s c : tv_call largest_root kernel t hmult vmult s = (c, Ok tt) -> exists x pf,
  length hmult = tv_nh t /\ length vmult = tv_nv t /\ largest_root (tv_size t) (tv_F t hmult vmult) = Ok pf /\
  kernel (tv_size t) (mat_sub_scalar (tv_F t hmult vmult) pf) = [x] /\ length x = tv_size t /\ Forall (fun a => 0 < a) x /\ pf <> 0.
Proof.
  unfold tv_call. destruct (Nat.eqb_spec (length hmult) (tv_nh t)) as [L1|]; [|discriminate]. destruct (Nat.eqb_spec (length vmult) (tv_nv t)) as [L2|]; [|discriminate]. cbn [negb orb].
  unfold mbind at 1. unfold mlift at 1. destruct (largest_root _ _) as [pf|e] eqn:R; [|discriminate]. destruct (kernel _ _) as [|x [|]] eqn:Ke; try discriminate.
  destruct (Nat.eqb_spec (length x) (tv_size t)) as [L3|]; [|discriminate]. cbn [negb]. destruct (forallb _ x) eqn:FB; [|discriminate]. cbn [negb].
  intros H. exists x, pf. do 4 (split; auto). split; auto. split; [now apply Forall_forall, forallb_forall|].
  intros ->. assert (Z : (0 =? 0)%F = true) by now apply (feqb_eq K). destruct (tv_nh t <? tv_nv t)%nat; rewrite Z in H; cbn [orb] in H; [rewrite orb_true_r in H|]; discriminate.
Qed.
Lemma Forall_row (l : list K) n : length l = n -> Forall (fun a => 0 < a) l -> positive n (row l).
Proof. intros L F k Hk. rewrite Forall_forall in F. apply F, nth_In. lia. Qed.
Lemma finish_ok n t (hmult vmult x : list K) pf : tv_ok n t -> positive (tv_nh t) (row hmult) -> positive (tv_nv t) (row vmult) ->
  positive (tv_size t) (row x) -> eigen (tv_size t) (tv_F t hmult vmult) pf (row x) ->
  exists c w h cc dd, tv_finish t hmult vmult x pf empty = (c, Ok tt) /\ mutable c = false /\
    multitwists n (tv_r t) (tv_u t) (tv_h t) (tv_v t) hmult vmult w h cc dd /\
    rectangles_glued n (at_ (tv_r t)) (inverse_ n (tv_u t)) w h (mut_surface c) /\ good_surface (is_label c) (mut_surface c) map_translation.
Proof.
  intros T HP VP XP EV. destruct (computed n t hmult vmult x pf T HP VP XP EV) as (P0 & QH & QV & cc & dd & C & D & SZ).
  set (hh := tv_heights t hmult vmult x pf) in *. set (vv := tv_widths t hmult vmult x pf) in *.
  pose proof (sizes_twists n t hmult vmult _ _ cc dd T C D QH QV SZ) as MT.
  pose proof (to_h n t T) as (_ & HB & _). pose proof (to_v n t T) as (_ & VB & _). pose proof (to_r n t T) as (LR & _).
  destruct (rectangles_ok t hh vv (seq 0 n)) as (Ps & E & LP & NP).
  { intros k Hk. apply in_seq in Hk. split; [apply QH, HB; lia|apply QV, VB; lia]. }
  rewrite seq_length in LP. destruct (stacked_all Ps [] empty stacked_empty) as (s1 & E1 & S1). cbn [app] in S1.
  destruct (glue_built n (tv_r t) (tv_u t) Ps s1) as (c & Ec & BU); auto; [apply (to_r n t T)|apply (to_u n t T)| |].
  { intros P HI. apply In_nth_error in HI. destruct HI as [i Hi]. assert (Li : (i < n)%nat) by (rewrite <- LP; exact (nth_error_lt _ _ _ Hi)).
    destruct (NP i i) as (P' & N' & _ & L4 & _); [|pose proof (eq_trans (eq_sym N') Hi) as Q; injection Q as ->; exact L4]. rewrite (nth_error_nth' _ 0%nat) by now rewrite seq_length. now rewrite seq_nth. }
  set (w := fun k => row vv (at_ (tv_v t) k)). set (h := fun k => row hh (at_ (tv_h t) k)).
  exists c, w, h, cc, dd. split.
  { unfold tv_finish. rewrite (mbind_ok _ _ empty empty Ps) by (unfold mlift; fold hh vv; rewrite LR, E; reflexivity). rewrite (mbind_ok _ _ _ _ _ E1). rewrite LR. exact Ec. }
  split; [apply BU|]. split; auto. apply (built_good n t Ps c w h T BU LP); try apply MT.
  - intros k Hk. split; [apply MT|apply MT]; auto.
  - intros k Hk. apply (NP k k). rewrite (nth_error_nth' _ 0%nat) by now rewrite seq_length. now rewrite seq_nth.
Qed.
Lemma eigenvector n t (hmult vmult : list K) w h c d basis : tv_ok n t -> transitive n (tv_r t) (tv_u t) -> positive (tv_nh t) (row hmult) -> positive (tv_nv t) (row vmult) ->
  multitwists n (tv_r t) (tv_u t) (tv_h t) (tv_v t) hmult vmult w h c d ->
  largest_eigenvalue (tv_size t) (tv_F t hmult vmult) (c * d) /\
  (line_kernel (tv_size t) (mat_sub_scalar (tv_F t hmult vmult) (c * d)) basis -> exists x, basis = [x] /\ length x = tv_size t /\ Forall (fun a => 0 < a) x).
Proof.
  intros T TR HP VP M. destruct (twists_eigen n t hmult vmult w h c d T HP VP M) as (x & X & E). pose proof (tv_F_nonneg t hmult vmult HP VP) as NN.
  assert (SP : (0 < tv_size t)%nat) by (destruct (nh_pos n t T); unfold tv_size; destruct (tv_nh t <? tv_nv t)%nat; auto).
  assert (NZ : nonzero (tv_size t) x) by (exists 0%nat; split; auto; apply fpos_neq0; auto).
  assert (UN : forall z, eigen (tv_size t) (tv_F t hmult vmult) (c * d) z -> exists s, forall i, (i < tv_size t)%nat -> z i = s * x i).
  { intros z Hz. apply (perron_unique (tv_size t) (tv_F t hmult vmult) NN (c * d) x z); auto. now apply (tv_F_irr n). }
  split.
  - split; [now exists x|]. intros e y Hy He. apply (perron_bound (tv_size t) (tv_F t hmult vmult) NN (c * d) x e y); auto.
  - intros [B1 B2]. destruct (B2 x NZ) as [y ->]; [exact (proj2 (eigen_sub _ _ _ _) E)|intros z Hz; apply UN; exact (proj1 (eigen_sub _ _ _ _) Hz)|]. exists y. split; auto.
    destruct (B1 y (or_introl eq_refl)) as (L & _ & EY & i & Hi & Y1 & _). split; auto. destruct (UN _ (proj1 (eigen_sub _ _ _ _) EY)) as [s Hs].
    assert (S0 : 0 < s). { pose proof (Hs i Hi) as Q. rewrite Y1 in Q. pose proof (X i Hi) as Xi. destruct (fltb 0 s) eqn:B; [exact B|]. exfalso. assert (O : 0 < (1 : K)) by apply flt_0_1. fnra. }
    apply Forall_forall. intros a Ha. apply (In_nth _ _ 0) in Ha. destruct Ha as (j & Hj & <-). rewrite L in Hj. fold (row y j). rewrite (Hs j Hj). apply fmul_pos; auto.
Qed.
End P.
Lemma make_ok n dense r u : (0 < n)%nat -> permutes n r -> permutes n u -> dense_ok n r (dense r) -> dense_ok n u (dense u) -> tv_ok n (make_tv dense r u).
Proof. intros N R U DR DU. unfold make_tv. unfold dense_ok in *. destruct (dense r) as [a b], (dense u) as [a' b']. now constructor. Qed.
Lemma make_fields dense r u : let t := make_tv dense r u in tv_r t = r /\ tv_u t = u /\ tv_h t = fst (dense r) /\ tv_v t = fst (dense u) /\ tv_nh t = length (snd (dense r)) /\ tv_nv t = length (snd (dense u)).
Proof. unfold make_tv. destruct (dense r), (dense u). cbn. auto 10. Qed.
Lemma size_min t : tv_size t = Nat.min (tv_nh t) (tv_nv t).
Proof. unfold tv_size. destruct (Nat.ltb_spec (tv_nh t) (tv_nv t)); lia. Qed.
