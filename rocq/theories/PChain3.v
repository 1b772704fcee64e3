(** Proofs about the action of flips on chains: sequences of flips. *)
From Coq Require Import List Bool ZArith Arith Lia Ring Field Relations.
From Verif Require Import OField FMicromega PField MBase MDict PDict MEuclid SEuclid PEuclid MSim SSim PSim MPoly PPoly
  MMut SMut PMut PMut2 PMut3 MSurf SSurf MFlip SFlip PFlip PFlip2 PFlip3 PFlip4 PFlip5 PBuild MChain SChain PChain PChain2.
Import ListNotations.

Section Chain.
Context {K : OField}.
Add Field KFchain3 : (of_ft K).
Local Open Scope F_scope.
Notation nv := (@length (vec K) : polygon K -> nat).
Implicit Types s t u : @surf (polygon K).

Definition psi l e l' e' (phi : hedge -> K) (x : hedge) : K := sumK phi (flip_chain l e l' e' x).

Lemma endpoint_tri l e k : endpoint (tri_edge l e k) = tri_edge l e (k + 1).
Proof.
  unfold endpoint. rewrite !tri_edge_Z. cbn [fst snd]. f_equal. rewrite Zplus_mod_idemp_l. f_equal. lia.
Qed.
Lemma tri_edge_3 l e : tri_edge l e 3 = tri_edge l e 0.
Proof. unfold tri_edge. f_equal. f_equal. rewrite Nat.add_0_r. now rewrite <- (Nat.mod_add e 1 3) by lia. Qed.
Lemma face_sum (phi : hedge -> K) l e : (e < 3)%nat ->
  phi (l, 0%Z) + phi (l, 1%Z) + phi (l, 2%Z) = phi (tri_edge l e 0) + phi (tri_edge l e 1) + phi (tri_edge l e 2).
Proof. intros He. apply lt3 in He. unfold tri_edge. destruct He as [->|[->| ->]]; cbn; ring. Qed.
Lemma sv_refl (s : @surf (polygon K)) c : same_vertex s c c. Proof. apply rst_refl. Qed.
Lemma sv_sym s c d : same_vertex s c d -> same_vertex s d c. Proof. apply rst_sym. Qed.
Lemma sv_trans s c d f : same_vertex s c d -> same_vertex s d f -> same_vertex s c f. Proof. apply rst_trans. Qed.
Lemma sv_glued s x y : glued nv s x y -> same_vertex s x (endpoint y).
Proof. intros H. apply rst_step. exists x, y. auto. Qed.
Lemma sv_map s t (f : hedge -> hedge) : (forall x y, glued nv s x y -> same_vertex t (f x) (f (endpoint y))) ->
  forall c d, same_vertex s c d -> same_vertex t (f c) (f d).
Proof.
  intros H c d S. induction S as [c d (x & y & G & -> & ->)| | |].
  - now apply H.
  - apply sv_refl.
  - now apply sv_sym.
  - eapply sv_trans; eauto.
Qed.
Lemma endpoint_edge s x : triangulated s -> is_edge nv s x -> is_edge nv s (endpoint x).
Proof.
  intros T H. apply (tri_edges_iff s _ T) in H. apply (tri_edges_iff s _ T). destruct H as [L R]. split; [exact L|]. unfold endpoint. cbn [snd].
  apply Z.mod_pos_bound. lia.
Qed.
Lemma sv_edge s c d : stable s -> same_vertex s c d -> c = d \/ (is_edge nv s c /\ is_edge nv s d).
Proof.
  intros St S. induction S as [c d (x & y & G & -> & ->)|c|c d S IH|c d f S IH S' IH'].
  - right. split; [apply G|]. apply endpoint_edge; [apply St|]. apply (glued_sym s x y (st_intact s St) G).
  - auto.
  - destruct IH as [->|[A B]]; auto.
  - destruct IH as [->|[A B]]; auto. destruct IH' as [<-|[A' B']]; auto.
Qed.
Lemma vb_comp s t u f g : vertex_bijection s t f -> vertex_bijection t u g -> vertex_bijection s u (fun c => g (f c)).
Proof.
  intros [A1 A2 A3] [B1 B2 B3]. constructor.
  - intros c H. auto.
  - intros c d Hc Hd. rewrite (A2 c d Hc Hd). apply B2; auto.
  - intros d Hd. destruct (B3 d Hd) as (c & Hc & S). destruct (A3 c Hc) as (b & Hb & S'). exists b. split; auto.
    eapply sv_trans; [|exact S]. apply B2; auto.
Qed.
Lemma vb_id s : vertex_bijection s s (fun c => c).
Proof. constructor; auto; [tauto|]. intros d Hd. exists d. split; auto. apply sv_refl. Qed.

Section Step.
Context (s s' : @surf (polygon K)) (l l' : label) (e e' : nat).
Context (St : stable s) (St' : stable s') (FS : flip_step s s' l e l' e').
Notation t := (tri_edge l e).
Notation t' := (tri_edge l' e').
Notation mv := (moved l e l' e').
Let D := fs_neq _ _ _ _ _ _ FS.
Let He := fs_e _ _ _ _ _ _ FS.
Let He' := fs_e' _ _ _ _ _ _ FS.

Lemma step_edges x : is_edge nv s x <-> is_edge nv s' x.
Proof. rewrite (tri_edges_iff s x (st_tri s St)), (tri_edges_iff s' x (st_tri s' St')). now rewrite (fs_label _ _ _ _ _ _ FS). Qed.
Lemma step_fine' x : is_edge nv s x -> fine l l' e e' x.
Proof. apply step_fine; auto. apply St. Qed.
Lemma step_tri k : is_edge nv s (t k) /\ is_edge nv s (t' k).
Proof.
  destruct (fs_l _ _ _ _ _ _ FS) as [P G]. destruct (fs_l' _ _ _ _ _ _ FS) as [P' G'].
  split; eapply tri_is_edge; eauto; eapply (tr_triangle s (st_tri s St)); eauto.
Qed.
Lemma flip_chain_0 : flip_chain l e l' e' (t 0) = [t' 1; t 2].
Proof. unfold flip_chain. now rewrite eqb_refl. Qed.
Lemma flip_chain_0' : flip_chain l e l' e' (t' 0) = [t 1; t' 2].
Proof. unfold flip_chain. rewrite (t't_neq l l' e e' D 0 0), eqb_refl. reflexivity. Qed.
Lemma flip_chain_other x : x <> t 0 -> x <> t' 0 -> flip_chain l e l' e' x = [mv x].
Proof. intros A B. unfold flip_chain. now rewrite (proj2 (eqb_neq _ _) A), (proj2 (eqb_neq _ _) B). Qed.
Lemma psi_0 phi : psi l e l' e' phi (t 0) = phi (t' 1) + phi (t 2).
Proof. unfold psi. rewrite flip_chain_0. unfold sumK. cbn. ring. Qed.
Lemma psi_0' phi : psi l e l' e' phi (t' 0) = phi (t 1) + phi (t' 2).
Proof. unfold psi. rewrite flip_chain_0'. unfold sumK. cbn. ring. Qed.
Lemma psi_other phi x : x <> t 0 -> x <> t' 0 -> psi l e l' e' phi x = phi (mv x).
Proof. intros A B. unfold psi. rewrite flip_chain_other by auto. unfold sumK. cbn. ring. Qed.
Lemma nt k k' : (k < 3)%nat -> (k' < 3)%nat -> k <> k' -> t k <> t k' /\ t' k <> t' k'.
Proof. intros A B C. split; intros E; apply C; eapply tri_edge_inj; eauto. Qed.
Lemma ntt k k' : t k <> t' k' /\ t' k <> t k'.
Proof. split; intros E; apply D; apply (f_equal fst) in E; cbn in E; auto. Qed.
Lemma not_diag k : (0 < k < 3)%nat -> t k <> t 0 /\ t k <> t' 0 /\ t' k <> t 0 /\ t' k <> t' 0.
Proof. intros H. destruct (nt k 0) as [A B]; try lia. destruct (ntt k 0) as [A' B']. auto. Qed.
Lemma psi_12 phi : psi l e l' e' phi (t 1) = phi (t' 2) /\ psi l e l' e' phi (t 2) = phi (t 1) /\
  psi l e l' e' phi (t' 1) = phi (t 2) /\ psi l e l' e' phi (t' 2) = phi (t' 1).
Proof.
  destruct (moved_all l e l' e' D He He') as (m0 & m1 & m2 & m0' & m1' & m2').
  destruct (not_diag 1 ltac:(lia)) as (A1 & A2 & A3 & A4). destruct (not_diag 2 ltac:(lia)) as (B1 & B2 & B3 & B4).
  rewrite !psi_other by auto. rewrite m1, m2, m1', m2'. auto.
Qed.
Lemma partner x y : glued nv s x y -> x <> t 0 -> x <> t' 0 -> y <> t 0 /\ y <> t' 0.
Proof.
  intros G A B. pose proof (glued_sym s x y (st_intact s St) G) as G'. pose proof (fs_old _ _ _ _ _ _ FS) as O.
  split; intros ->; [apply B|apply A]; [exact (glued_fun s _ _ _ G' O)|exact (glued_fun s _ _ _ G' (glued_sym s _ _ (st_intact s St) O))].
Qed.
Lemma diag_cases x y : glued nv s x y -> (x = t 0 /\ y = t' 0) \/ (x = t' 0 /\ y = t 0) \/ (x <> t 0 /\ x <> t' 0 /\ y <> t 0 /\ y <> t' 0).
Proof.
  intros G. pose proof (fs_old _ _ _ _ _ _ FS) as O.
  destruct (hedge_eq x (t 0)) as [->|N]; [left; split; auto; exact (glued_fun s _ _ _ G O)|].
  destruct (hedge_eq x (t' 0)) as [->|N']; [right; left; split; auto; exact (glued_fun s _ _ _ G (glued_sym s _ _ (st_intact s St) O))|].
  right; right. destruct (partner x y G N N'). auto.
Qed.

Lemma step_cocycle phi : cocycle s' phi -> cocycle s (psi l e l' e' phi).
Proof.
  intros [C1 C2]. destruct (psi_12 phi) as (p1 & p2 & p1' & p2').
  pose proof (C1 _ _ (fs_new _ _ _ _ _ _ FS)) as CN.
  pose proof (C2 l (proj2 (fs_label _ _ _ _ _ _ FS l) (fs_l _ _ _ _ _ _ FS))) as CL. rewrite (face_sum phi l e He) in CL.
  pose proof (C2 l' (proj2 (fs_label _ _ _ _ _ _ FS l') (fs_l' _ _ _ _ _ _ FS))) as CL'. rewrite (face_sum phi l' e' He') in CL'.
  split.
  - intros x y G. destruct (diag_cases x y G) as [[-> ->]|[[-> ->]|(A & B & A' & B')]].
    + rewrite psi_0, psi_0'. flra.
    + rewrite psi_0, psi_0'. flra.
    + rewrite !psi_other by auto. apply C1. now apply (fs_glue _ _ _ _ _ _ FS).
  - intros m Hm. destruct (Z.eq_dec m l) as [->|N1]; [|destruct (Z.eq_dec m l') as [->|N2]].
    + rewrite (face_sum _ l e He), psi_0, p1, p2. flra.
    + rewrite (face_sum _ l' e' He'), psi_0', p1', p2'. flra.
    + assert (Q : forall z, psi l e l' e' phi (m, z) = phi (m, z)).
      { intros z. rewrite psi_other; [now rewrite moved_other| |]; intros E; apply (f_equal fst) in E; cbn in E; auto. }
      rewrite !Q. apply C2. now apply (fs_label _ _ _ _ _ _ FS).
Qed.
Lemma step_vector (pr : vec K -> K) : (pr = fst \/ pr = snd) -> forall x, is_edge nv s x ->
  psi l e l' e' (fun y => match edge_vector s' y with Ok v => pr v | Err _ => 0 end) x = match edge_vector s x with Ok v => pr v | Err _ => 0 end.
Proof.
  intros PR x Hx. set (f := fun y => match edge_vector s' y with Ok v => pr v | Err _ => 0 end). set (g := fun y => match edge_vector s y with Ok v => pr v | Err _ => 0 end).
  change (psi l e l' e' f x = g x).
  assert (TR : forall m Q, get_polygon s m = Ok Q -> g (m, 0%Z) + g (m, 1%Z) + g (m, 2%Z) = 0).
  { intros m Q G. unfold g, edge_vector. cbn [fst snd]. rewrite G. destruct (tr_triangle s (st_tri s St) m Q G) as [L _].
    destruct Q as [|a [|b [|c [|? ?]]]]; try discriminate. change (Z.to_nat 0) with 0%nat. change (Z.to_nat 1) with 1%nat. change (Z.to_nat 2) with 2%nat. destruct PR as [-> | ->]; cbn; ring. }
  assert (OT : forall x, is_edge nv s x -> x <> t 0 -> x <> t' 0 -> f (mv x) = g x).
  { intros z Hz A B. unfold f, g. now rewrite (fs_vector _ _ _ _ _ _ FS z Hz A B). }
  assert (OP : forall x y, glued nv s x y -> g y = - g x).
  { intros z y G. unfold g. destruct (proj1 G) as (P & GP & _). assert (V : edge_vector s z = Ok (edge P (Z.to_nat (snd z)))) by (unfold edge_vector; now rewrite GP).
    rewrite (tr_translation s (st_tri s St) z y _ G V), V. destruct PR as [-> | ->]; reflexivity. }
  destruct (moved_all l e l' e' D He He') as (m0 & m1 & m2 & m0' & m1' & m2').
  destruct (not_diag 1 ltac:(lia)) as (A1 & A2 & A3 & A4). destruct (not_diag 2 ltac:(lia)) as (B1 & B2 & B3 & B4).
  pose proof (OT _ (proj1 (step_tri 1)) A1 A2) as F1. pose proof (OT _ (proj1 (step_tri 2)) B1 B2) as F2.
  pose proof (OT _ (proj2 (step_tri 1)) A3 A4) as F1'. pose proof (OT _ (proj2 (step_tri 2)) B3 B4) as F2'.
  rewrite m1 in F1. rewrite m2 in F2. rewrite m1' in F1'. rewrite m2' in F2'.
  pose proof (OP _ _ (fs_old _ _ _ _ _ _ FS)) as OO.
  destruct (fs_l _ _ _ _ _ _ FS) as [P G]. destruct (fs_l' _ _ _ _ _ _ FS) as [P' G'].
  pose proof (TR _ _ G) as T1. pose proof (TR _ _ G') as T2. rewrite (face_sum g l e He) in T1. rewrite (face_sum g l' e' He') in T2.
  destruct (hedge_eq x (t 0)) as [->|N]; [|destruct (hedge_eq x (t' 0)) as [->|N']].
  - rewrite psi_0. flra.
  - rewrite psi_0'. flra.
  - rewrite psi_other by auto. now apply OT.
Qed.

(** the corner of the new triangulation at the same vertex *)
Definition beta (c : hedge) : hedge :=
  if eqb c (t 0) then t 2 else if eqb c (t 1) then t' 2 else if eqb c (t 2) then t 1
  else if eqb c (t' 0) then t' 2 else if eqb c (t' 1) then t 2 else if eqb c (t' 2) then t 0 else c.
Definition gamma (c : hedge) : hedge :=
  if eqb c (t 0) then t' 2 else if eqb c (t 1) then t 2 else if eqb c (t 2) then t 0
  else if eqb c (t' 0) then t 2 else if eqb c (t' 1) then t' 2 else if eqb c (t' 2) then t 1 else c.
Lemma eval_beta : beta (t 0) = t 2 /\ beta (t 1) = t' 2 /\ beta (t 2) = t 1 /\ beta (t' 0) = t' 2 /\ beta (t' 1) = t 2 /\ beta (t' 2) = t 0.
Proof.
  pose proof (t_neq l e) as NT. pose proof (t_neq l' e') as NT'. pose proof (tt'_neq l l' e e' D) as NX. pose proof (t't_neq l l' e e' D) as NY.
  cbv beta in NT, NT', NX, NY.
  unfold beta. repeat split; rewrite ?eqb_refl, ?NX, ?NY, ?NT, ?NT' by lia; reflexivity.
Qed.
Lemma eval_gamma : gamma (t 0) = t' 2 /\ gamma (t 1) = t 2 /\ gamma (t 2) = t 0 /\ gamma (t' 0) = t 2 /\ gamma (t' 1) = t' 2 /\ gamma (t' 2) = t 1.
Proof.
  pose proof (t_neq l e) as NT. pose proof (t_neq l' e') as NT'. pose proof (tt'_neq l l' e e' D) as NX. pose proof (t't_neq l l' e e' D) as NY.
  cbv beta in NT, NT', NX, NY.
  unfold gamma. repeat split; rewrite ?eqb_refl, ?NX, ?NY, ?NT, ?NT' by lia; reflexivity.
Qed.
Lemma eval_other c : fst c <> l -> fst c <> l' -> beta c = c /\ gamma c = c.
Proof.
  intros A B. assert (E : forall k, eqb c (t k) = false) by (intros k; apply eqb_neq; intros ->; apply A; reflexivity).
  assert (E' : forall k, eqb c (t' k) = false) by (intros k; apply eqb_neq; intros ->; apply B; reflexivity).
  unfold beta, gamma. now rewrite !E, !E'.
Qed.
Lemma corners_new : same_vertex s' (t 0) (t' 1) /\ same_vertex s' (t' 0) (t 1).
Proof.
  pose proof (fs_new _ _ _ _ _ _ FS) as G. pose proof (glued_sym s' _ _ (st_intact s' St') G) as G'.
  apply sv_glued in G, G'. rewrite endpoint_tri in G, G'. auto.
Qed.
Lemma corners_old : same_vertex s (t 0) (t' 1) /\ same_vertex s (t' 0) (t 1).
Proof.
  pose proof (fs_old _ _ _ _ _ _ FS) as G. pose proof (glued_sym s _ _ (st_intact s St) G) as G'.
  apply sv_glued in G, G'. rewrite endpoint_tri in G, G'. auto.
Qed.
Lemma beta_moved x : is_edge nv s x -> x <> t 0 -> x <> t' 0 ->
  same_vertex s' (beta x) (mv x) /\ same_vertex s' (beta (endpoint x)) (endpoint (mv x)).
Proof.
  intros Hx N N'. destruct (moved_all l e l' e' D He He') as (m0 & m1 & m2 & m0' & m1' & m2').
  destruct eval_beta as (b0 & b1 & b2 & b0' & b1' & b2'). destruct corners_new as [C C'].
  destruct (fine_cases l l' e e' x (step_fine' x Hx)) as [[A B]|[->|[->|[->|[->|[->| ->]]]]]]; try congruence;
    rewrite ?m1, ?m2, ?m1', ?m2', ?endpoint_tri; cbn [Nat.add]; rewrite ?tri_edge_3, ?b0, ?b1, ?b2, ?b0', ?b1', ?b2'.
  - rewrite moved_other by auto. rewrite (proj1 (eval_other x A B)), (proj1 (eval_other (endpoint x) A B)). split; apply sv_refl.
  - split; [apply sv_refl|]. now apply sv_sym.
  - split; apply sv_refl.
  - split; apply sv_refl.
  - split; [|apply sv_refl]. exact C.
Qed.
Lemma gamma_moved x : is_edge nv s x -> x <> t 0 -> x <> t' 0 ->
  same_vertex s (gamma (mv x)) x /\ same_vertex s (gamma (endpoint (mv x))) (endpoint x).
Proof.
  intros Hx N N'. destruct (moved_all l e l' e' D He He') as (m0 & m1 & m2 & m0' & m1' & m2').
  destruct eval_gamma as (b0 & b1 & b2 & b0' & b1' & b2'). destruct corners_old as [C C'].
  destruct (fine_cases l l' e e' x (step_fine' x Hx)) as [[A B]|[->|[->|[->|[->|[->| ->]]]]]]; try congruence;
    rewrite ?m1, ?m2, ?m1', ?m2', ?endpoint_tri; cbn [Nat.add]; rewrite ?tri_edge_3, ?b0, ?b1, ?b2, ?b0', ?b1', ?b2'.
  - rewrite moved_other by auto. rewrite (proj2 (eval_other x A B)), (proj2 (eval_other (endpoint x) A B)). split; apply sv_refl.
  - split; apply sv_refl.
  - split; apply sv_refl.
  - split; [exact C|apply sv_refl].
  - split; [apply sv_refl|]. now apply sv_sym.
Qed.
Lemma moved_back (u : hedge) : is_edge nv s' u -> exists x, is_edge nv s x /\ u = mv x.
Proof.
  intros Hu. apply step_edges in Hu. pose proof (step_fine' u Hu) as FU.
  destruct (moved_all l e l' e' D He He') as (m0 & m1 & m2 & m0' & m1' & m2').
  destruct (fine_cases l l' e e' u FU) as [[A B]|[->|[->|[->|[->|[->| ->]]]]]].
  - exists u. split; auto. now rewrite moved_other.
  - exists (t 0). split; auto.
  - exists (t 2). split; auto. apply step_tri.
  - exists (t' 1). split; auto. apply step_tri.
  - exists (t' 0). split; auto.
  - exists (t' 2). split; auto. apply step_tri.
  - exists (t 1). split; auto. apply step_tri.
Qed.
Lemma beta_same c d : same_vertex s c d -> same_vertex s' (beta c) (beta d).
Proof.
  apply sv_map. intros x y G. destruct eval_beta as (b0 & b1 & b2 & b0' & b1' & b2').
  destruct (diag_cases x y G) as [[-> ->]|[[-> ->]|(A & B & A' & B')]].
  - rewrite endpoint_tri. cbn [Nat.add]. rewrite b0, b1'. apply sv_refl.
  - rewrite endpoint_tri. cbn [Nat.add]. rewrite b0', b1. apply sv_refl.
  - eapply sv_trans; [apply beta_moved; auto; apply G|]. eapply sv_trans; [apply sv_glued; apply (fs_glue _ _ _ _ _ _ FS); exact G|].
    apply sv_sym. apply beta_moved; auto. apply (glued_sym s x y (st_intact s St) G).
Qed.
Lemma gamma_same c d : same_vertex s' c d -> same_vertex s (gamma c) (gamma d).
Proof.
  apply sv_map. intros u v G. destruct eval_gamma as (b0 & b1 & b2 & b0' & b1' & b2').
  destruct (moved_back u (proj1 G)) as (x & Hx & ->). destruct (tr_closed s (st_tri s St) x Hx) as [y Hy].
  pose proof (glued_fun s' _ _ _ G (fs_glue _ _ _ _ _ _ FS _ _ Hy)) as ->.
  destruct (moved_all l e l' e' D He He') as (m0 & m1 & m2 & m0' & m1' & m2').
  destruct (diag_cases x y Hy) as [[-> ->]|[[-> ->]|(A & B & A' & B')]].
  - rewrite m0, m0', endpoint_tri. cbn [Nat.add]. rewrite b0, b1'. apply sv_refl.
  - rewrite m0, m0', endpoint_tri. cbn [Nat.add]. rewrite b0', b1. apply sv_refl.
  - eapply sv_trans; [apply gamma_moved; auto|]. eapply sv_trans; [apply sv_glued; exact Hy|].
    apply sv_sym. apply gamma_moved; auto. apply (glued_sym s x y (st_intact s St) Hy).
Qed.
Lemma step_vertices : vertex_bijection s s' beta.
Proof.
  destruct eval_beta as (b0 & b1 & b2 & b0' & b1' & b2'). destruct eval_gamma as (c0 & c1 & c2 & c0' & c1' & c2').
  destruct corners_new as [CN CN']. destruct corners_old as [CO CO'].
  assert (GB : forall c, is_edge nv s c -> same_vertex s (gamma (beta c)) c).
  { intros c Hc. destruct (fine_cases l l' e e' c (step_fine' c Hc)) as [[A B]|[->|[->|[->|[->|[->| ->]]]]]];
      rewrite ?b0, ?b1, ?b2, ?b0', ?b1', ?b2', ?c0, ?c1, ?c2, ?c0', ?c1', ?c2'; try apply sv_refl; auto; try (now apply sv_sym).
    rewrite (proj1 (eval_other c A B)), (proj2 (eval_other c A B)). apply sv_refl. }
  assert (BG : forall c, is_edge nv s c -> same_vertex s' (beta (gamma c)) c).
  { intros c Hc. destruct (fine_cases l l' e e' c (step_fine' c Hc)) as [[A B]|[->|[->|[->|[->|[->| ->]]]]]];
      rewrite ?c0, ?c1, ?c2, ?c0', ?c1', ?c2', ?b0, ?b1, ?b2, ?b0', ?b1', ?b2'; try apply sv_refl; auto; try (now apply sv_sym).
    rewrite (proj2 (eval_other c A B)), (proj1 (eval_other c A B)). apply sv_refl. }
  assert (ED : forall c, is_edge nv s c -> is_edge nv s (beta c) /\ is_edge nv s (gamma c)).
  { intros c Hc. destruct (fine_cases l l' e e' c (step_fine' c Hc)) as [[A B]|[->|[->|[->|[->|[->| ->]]]]]];
      rewrite ?c0, ?c1, ?c2, ?c0', ?c1', ?c2', ?b0, ?b1, ?b2, ?b0', ?b1', ?b2'; try (split; apply step_tri).
    rewrite (proj2 (eval_other c A B)), (proj1 (eval_other c A B)). auto. }
  constructor.
  - intros c Hc. apply step_edges. now apply ED.
  - intros c d Hc Hd. split; [apply beta_same|]. intros S. apply gamma_same in S.
    eapply sv_trans; [apply sv_sym, GB; auto|]. eapply sv_trans; [exact S|]. now apply GB.
  - intros d Hd. apply step_edges in Hd. exists (gamma d). split; [now apply ED|now apply BG].
Qed.
Lemma step_boundary w : (forall c d, same_vertex s' c d -> w c = w d) -> forall x, is_edge nv s x ->
  psi l e l' e' (fun y => w (endpoint y) - w y) x = w (beta (endpoint x)) - w (beta x).
Proof.
  intros W x Hx. destruct eval_beta as (b0 & b1 & b2 & b0' & b1' & b2'). destruct corners_new as [CN CN']. apply W in CN, CN'.
  destruct (hedge_eq x (t 0)) as [->|N]; [|destruct (hedge_eq x (t' 0)) as [->|N']].
  - rewrite psi_0, !endpoint_tri. cbn [Nat.add]. rewrite b0, b1, tri_edge_3, CN. ring.
  - rewrite psi_0', !endpoint_tri. cbn [Nat.add]. rewrite b0', b1', tri_edge_3, CN'. ring.
  - rewrite psi_other by auto. destruct (beta_moved x Hx N N') as [B1 B2]. apply W in B1, B2. now rewrite B1, B2.
Qed.
End Step.

(** *** sequences *)
Lemma chain_loop_app gens a b : forall m, chain_loop gens (a ++ b) m = match chain_loop gens a m with Ok m => chain_loop gens b m | Err x => Err x end.
Proof. induction a as [|f a IH]; intros m; auto. cbn [chain_loop app]. destruct (flip_matrix f gens); cbn [bind]; auto. Qed.

Lemma chain_main xs : forall s s' fs gens, stable s -> certify_flips xs s = (s', Ok fs) -> NoDup gens -> (forall x, In x gens <-> is_edge nv s x) ->
  stable s' /\ (forall x, is_edge nv s x <-> is_edge nv s' x) /\
  exists m (Phi : (hedge -> K) -> hedge -> K), chain_matrix gens fs = Ok m /\
    (forall phi j, (j < length gens)%nat -> val gens m phi j = Phi phi (nth j gens (0,0)%Z)) /\
    (forall phi, cocycle s' phi -> cocycle s (Phi phi)) /\
    (forall pr : vec K -> K, pr = fst \/ pr = snd -> forall x, is_edge nv s x ->
      Phi (fun y => match edge_vector s' y with Ok v => pr v | Err _ => 0 end) x = match edge_vector s x with Ok v => pr v | Err _ => 0 end) /\
    exists b, vertex_bijection s s' b /\ forall w, (forall c d, same_vertex s' c d -> w c = w d) -> forall x, is_edge nv s x ->
      Phi (fun y => w (endpoint y) - w y) x = w (b (endpoint x)) - w (b x).
Proof.
  induction xs as [|[l e] xs IH]; intros s s' fs gens St E ND IG.
  - injection E as <- <-. split; auto. split; [tauto|]. exists midentity, (fun phi => phi). split; auto.
    split; [intros phi j Hj; now apply val_identity|]. split; auto. split; auto. exists (fun c => c). split; [apply vb_id|auto].
  - cbn [certify_flips] in E. apply mbind_inv in E. destruct E as (s1 & f & E1 & E). apply mbind_inv in E. destruct E as (s2 & fs' & E2 & E). injection E as <- <-.
    destruct (certify_ok s l e f s1 St E1) as (St1 & l' & e' & -> & FS).
    assert (IG1 : forall x, In x gens <-> is_edge nv s1 x) by (intros x; rewrite IG; apply (step_edges s s1 l l' e e' St St1 FS)).
    destruct (IH s1 s2 fs' gens St1 E2 ND IG1) as (St2 & ED & m & Phi & M & V & CC & VV & b & B & BW).
    split; auto. split; [intros x; rewrite (step_edges s s1 l l' e e' St St1 FS x); apply ED|].
    destruct (flip_column (K := K) gens ND l l' e e' (fs_neq _ _ _ _ _ _ FS) (fs_e _ _ _ _ _ _ FS) (fs_e' _ _ _ _ _ _ FS)) as (a & A & CO).
    { intros k. split; apply IG; apply (step_tri s s1 l l' e e' St FS k). }
    { intros x Hx. apply IG in Hx. exact (step_fine' s s1 l l' e e' St FS x Hx). }
    exists (mmul (length gens) m a), (fun phi => psi l e l' e' (Phi phi)). split.
    { unfold chain_matrix in *. cbn [rev]. rewrite chain_loop_app, M. cbn [chain_loop]. rewrite A. reflexivity. }
    split.
    { intros phi j Hj. rewrite val_mul. unfold psi. rewrite <- CO by auto. apply sumK_ext. intros k Hk. apply in_seq in Hk. now rewrite V by lia. }
    split; [intros phi C; apply (step_cocycle s s1 l l' e e' St FS); auto|].
    assert (EXT : forall f g x, is_edge nv s x -> (forall y, is_edge nv s1 y -> f y = g y) -> psi l e l' e' f x = psi l e l' e' g x).
    { intros f g x Hx H. unfold psi. apply sumK_ext. intros y Hy. apply H. apply (step_edges s s1 l l' e e' St St1 FS).
      pose proof (step_tri s s1 l l' e e' St FS) as TT. destruct (moved_all l e l' e' (fs_neq _ _ _ _ _ _ FS) (fs_e _ _ _ _ _ _ FS) (fs_e' _ _ _ _ _ _ FS)) as (m0 & m1 & m2 & m0' & m1' & m2').
      unfold flip_chain in Hy. destruct (eqb x (tri_edge l e 0)); [destruct Hy as [<-|[<-|[]]]; apply TT|].
      destruct (eqb x (tri_edge l' e' 0)); [destruct Hy as [<-|[<-|[]]]; apply TT|]. destruct Hy as [<-|[]].
      destruct (fine_cases l l' e e' x (step_fine' s s1 l l' e e' St FS x Hx)) as [[A1 A2]|[->|[->|[->|[->|[->| ->]]]]]];
        rewrite ?m0, ?m1, ?m2, ?m0', ?m1', ?m2'; try apply TT. now rewrite moved_other. }
    split.
    { intros pr PR x Hx. rewrite <- (step_vector s s1 l l' e e' St FS pr PR x Hx). apply EXT; auto. }
    exists (fun c => b (beta l l' e e' c)). split; [eapply vb_comp; eauto; now apply step_vertices|].
    intros w W x Hx. rewrite <- (step_boundary s s1 l l' e e' St St1 FS (fun c => w (b c))); auto.
    intros c d S. apply W.
    destruct (sv_edge s1 c d St1 S) as [->|[Hc Hd]]; [apply sv_refl|]. now apply (vb_same s1 s2 b B).
Qed.
End Chain.
