(** Theorems C36: the action of a sequence of flips on chains. *)
From Coq Require Import List Bool ZArith Arith Lia QArith Ring Field.
From Verif Require Import OField FMicromega PField MBase MDict PDict MEuclid SEuclid PEuclid MSim SSim PSim MPoly PPoly
  MMut SMut PMut PMut2 PMut3 TMut MSurf SSurf MFlip SFlip PFlip PFlip2 PFlip3 PFlip4 PFlip5 TEuclid TFlip MChain SChain PChain PChain2 PChain3.
Import ListNotations.
Open Scope nat_scope.

Section Image.
Context {K : OField}.
Add Field KFtchain : (of_ft K).
Local Open Scope F_scope.
Lemma image_value gens flips x m j (phi : hedge -> K) : chain_matrix gens flips = Ok m -> index x gens = Ok j ->
  exists c, image_edge gens flips x = Ok c /\ (forall phi : hedge -> K, value phi c = val gens m phi j) /\ (forall t, In t c -> In (fst t) gens /\ snd t <> 0%Z).
Proof.
  intros M J. unfold image_edge. rewrite M, J. cbn [bind]. eexists. split; [reflexivity|]. split.
  - intros f. unfold value, val. fold (sumK (fun t : hedge * Z => Z2K K (snd t) * f (fst t))
      (map (fun i => (nth i gens (0%Z, 0%Z), m i j)) (filter (fun i => negb (m i j =? 0)%Z) (seq 0 (length gens))))).
    rewrite sumK_map. cbn [fst snd]. apply sumK_filter. intros i E. apply negb_false_iff, Z.eqb_eq in E. rewrite E. change (Z2K K 0) with (0 : K). ring.
  - intros t I. apply in_map_iff in I. destruct I as (i & <- & I). apply filter_In in I. destruct I as [I E]. apply in_seq in I. cbn [fst snd].
    split; [apply nth_In; lia|]. now apply negb_true_iff, Z.eqb_neq in E.
Qed.
End Image.

(** ** C36 *)
(** A closed triangulated translation surface [s] from which a sequence of flips [fs] leads to [s']; [gens] lists the edges. *)
Record flip_sequence (K : OField) (s s' : @surf (polygon K)) (xs : list (label * nat)) (fs : list (hedge * hedge)) (gens : list hedge) : Prop := {
  sq_intact : intact (pnv K) s;
  sq_mutable : mutable s = true;
  sq_rooted : rooted s;
  sq_triangulated : triangulated s;
  sq_flips : certify_flips xs s = (s', Ok fs);
  sq_nodup : NoDup gens;
  sq_edges : forall x, In x gens <-> is_edge (pnv K) s x }.

(** The flipped surface is again a closed translation surface made of triangles, with the same labels. *)
Theorem C36_surface (K : OField) s s' xs fs gens : flip_sequence K s s' xs fs gens ->
  intact (pnv K) s' /\ mutable s' = true /\ rooted s' /\ triangulated s' /\ (forall x, is_edge (pnv K) s' x <-> is_edge (pnv K) s x).
Proof.
  intros [A B C D E ND IG]. destruct (chain_main xs s s' fs gens (@Build_stable K s A B C D) E ND IG) as ([A' B' C' D'] & X & _).
  split; [exact A'|]. split; [exact B'|]. split; [exact C'|]. split; [exact D'|]. intros x. symmetry. apply X.
Qed.
Print Assumptions C36_surface.

(** Every edge is mapped to a chain of edges of the flipped surface with the same holonomy. *)
Theorem C36_holonomy (K : OField) s s' xs fs gens : flip_sequence K s s' xs fs gens -> forall x, is_edge (pnv K) s x ->
  exists c v, image_edge gens fs x = Ok c /\ (forall t, In t c -> is_edge (pnv K) s' (fst t) /\ snd t <> 0%Z) /\
    edge_vector s x = Ok v /\ total_vector s' c = v.
Proof.
  intros [A B C D E ND IG] x Hx. destruct (chain_main xs s s' fs gens (@Build_stable K s A B C D) E ND IG) as (_ & X & m & Phi & M & V & _ & VV & _).
  destruct (index_spec gens x (proj2 (IG x) Hx)) as (j & J & Hj & G). destruct (image_value (K := K) gens fs x m j (fun _ => f0) M J) as (c & I & VC & IN).
  exists c. destruct (proj1 (tri_edges_iff s x D) Hx) as [[P GP] _].
  exists (edge P (Z.to_nat (snd x))). split; auto. split; [intros t It; destruct (IN t It) as [I1 I2]; split; auto; apply X; now apply IG|].
  assert (EV : edge_vector s x = Ok (edge P (Z.to_nat (snd x)))) by (unfold edge_vector; now rewrite GP). split; auto.
  apply vec_eq; unfold total_vector; cbn [fst snd]; rewrite VC, V, G by auto.
  - rewrite (VV fst (or_introl eq_refl) x Hx), EV. reflexivity.
  - rewrite (VV snd (or_intror eq_refl) x Hx), EV. reflexivity.
Qed.
Print Assumptions C36_holonomy.

(** The vertices of the two triangulations correspond, and every edge is mapped to a chain whose boundary is the difference
    of the corresponding end points: this is tested with the functions [w] of the vertices of the flipped surface. *)
Theorem C36_boundary (K : OField) s s' xs fs gens : flip_sequence K s s' xs fs gens ->
  exists b, vertex_bijection s s' b /\
    forall x, is_edge (pnv K) s x -> exists c, image_edge gens fs x = Ok c /\
      forall w : hedge -> K, (forall p q, same_vertex s' p q -> w p = w q) -> boundary_value w c = fsub (w (b (endpoint x))) (w (b x)).
Proof.
  intros [A B C D E ND IG]. destruct (chain_main xs s s' fs gens (@Build_stable K s A B C D) E ND IG) as (_ & X & m & Phi & M & V & _ & _ & b & VB & BW).
  exists b. split; auto. intros x Hx.
  destruct (index_spec gens x (proj2 (IG x) Hx)) as (j & J & Hj & G). destruct (image_value (K := K) gens fs x m j (fun _ => f0) M J) as (c & I & VC & IN).
  exists c. split; auto. intros w W. unfold boundary_value. rewrite VC, V, G by auto. now apply BW.
Qed.
Print Assumptions C36_boundary.

(** The map is defined on homology: a function of the edges of the flipped surface that is zero at gluings and at triangles
    gives such a function of the edges of the original surface. *)
Theorem C36_homology (K : OField) s s' xs fs gens : flip_sequence K s s' xs fs gens ->
  exists img, (forall x, is_edge (pnv K) s x -> image_edge gens fs x = Ok (img x)) /\
    forall phi : hedge -> K, cocycle s' phi -> cocycle s (fun x => value phi (img x)).
Proof.
  intros [A B C D E ND IG]. destruct (chain_main xs s s' fs gens (@Build_stable K s A B C D) E ND IG) as (_ & X & m & Phi & M & V & CC & _).
  set (img := fun x => match image_edge gens fs x with Ok c => c | Err _ => nil end).
  assert (IM : forall x, is_edge (pnv K) s x -> image_edge gens fs x = Ok (img x) /\ forall phi : hedge -> K, value phi (img x) = Phi phi x).
  { intros x Hx. destruct (index_spec gens x (proj2 (IG x) Hx)) as (j & J & Hj & G). destruct (image_value (K := K) gens fs x m j (fun _ => f0) M J) as (c & I & VC & IN).
    unfold img. rewrite I. split; auto. intros phi. rewrite VC, V, G; auto. }
  exists img. split; [intros x Hx; now apply IM|]. intros phi C0. destruct (CC phi C0) as [C1 C2]. split.
  - intros x y Gl. rewrite (proj2 (IM x (proj1 Gl))), (proj2 (IM y (proj1 (glued_sym s x y A Gl)))). now apply C1.
  - intros l Hl. assert (H : forall z, (0 <= z < 3)%Z -> is_edge (pnv K) s (l, z)) by (intros z Hz; apply (tri_edges_iff s _ D); auto).
    rewrite (proj2 (IM _ (H 0%Z ltac:(lia)))), (proj2 (IM _ (H 1%Z ltac:(lia)))), (proj2 (IM _ (H 2%Z ltac:(lia)))). now apply C2.
Qed.
Print Assumptions C36_homology.

(** other edges are rejected *)
Theorem C36_rejects gens flips x m : chain_matrix gens flips = Ok m -> ~ In x gens -> image_edge gens flips x = Err ValueError.
Proof. intros M N. unfold image_edge. rewrite M. cbn [bind]. now rewrite (index_none gens x N). Qed.
Print Assumptions C36_rejects.

(** *** example: three flips of a torus made of two triangles *)
Definition ex_gens : list hedge := [(0, 0); (0, 1); (0, 2); (1, 0); (1, 1); (1, 2)]%Z.
Definition ex_xs : list (label * nat) := [(0%Z, 2); (0%Z, 1); (1%Z, 0)].
Definition ex_last := certify_flips ex_xs ex_torus2.
Definition ex_fs : list (hedge * hedge) := [((0, 2), (1, 0)); ((0, 1), (1, 2)); ((1, 0), (0, 2))]%Z.
Lemma ex_opposite : forallb (fun x => match opposite_edge ex_torus2 (fst x) (snd x), edge_vector ex_torus2 x with
  | Ok (Some y), Ok v => match edge_vector ex_torus2 y with Ok w => veqb w (vopp v) | Err _ => false end | _, _ => false end) ex_gens = true.
Proof. vm_compute. reflexivity. Qed.
Example ex_seq : flip_sequence cqF ex_torus2 (fst ex_last) ex_xs ex_fs ex_gens.
Proof.
  destruct ex_flip_hyps as (A & B & C & _).
  assert (ED : forall x, is_edge (pnv cqF) ex_torus2 x <-> (fst x = 0%Z \/ fst x = 1%Z) /\ (0 <= snd x < 3)%Z).
  { intros [l z]. cbn [fst snd]. split.
    - intros (P & G & R). cbn [fst snd] in *. destruct (Z.eq_dec l 0) as [->|N]; [|destruct (Z.eq_dec l 1) as [->|N']].
      + split; auto. assert (X : length P = 3) by (vm_compute in G; injection G as <-; reflexivity). rewrite X in R. lia.
      + split; auto. assert (X : length P = 3) by (vm_compute in G; injection G as <-; reflexivity). rewrite X in R. lia.
      + exfalso. assert (X : In l (keys (polys ex_torus2))) by (apply (is_label_keys ex_torus2 l); exists P; exact G). revert X. vm_compute. intuition congruence.
    - intros [[->| ->] R]; [exists tri1|exists tri2]; (split; [vm_compute; reflexivity|cbn; lia]). }
  assert (GN : forall x, In x ex_gens <-> is_edge (pnv cqF) ex_torus2 x).
  { intros [l z]. rewrite ED. cbn [fst snd]. unfold ex_gens. split.
    - intros H. repeat (destruct H as [H|H]; [injection H as <- <-; lia|]). destruct H.
    - intros [[->| ->] R]; assert (Z : (z = 0 \/ z = 1 \/ z = 2)%Z) by lia; destruct Z as [->|[->| ->]]; cbn; tauto. }
  constructor; [exact A|exact B|exact C| | | |exact GN].
  - constructor.
    + intros l P G. assert (X : In l (keys (polys ex_torus2))) by (apply (is_label_keys ex_torus2 l); exists P; exact G).
      assert (X' : l = 0%Z \/ l = 1%Z) by (revert X; vm_compute; intuition congruence). destruct X' as [->| ->]; vm_compute in G; injection G as <-; split; vm_compute; reflexivity.
    + intros x Hx. assert (H := Hx). apply GN in H. unfold glued. cbn in H.
      repeat (destruct H as [<-|H]; [eexists; split; [exact Hx|vm_compute; reflexivity]|]). destruct H.
    + intros x y v [Hx Gl] V. apply GN in Hx. pose proof (proj1 (forallb_forall _ _) ex_opposite x Hx) as H. cbv beta in H.
      rewrite Gl, V in H. destruct (edge_vector ex_torus2 y) as [w|]; [|discriminate]. apply veqb_eq in H. now rewrite H.
  - unfold ex_last. rewrite (surjective_pairing (certify_flips ex_xs ex_torus2)) at 1. apply (f_equal2 pair); [reflexivity|]. vm_compute. reflexivity.
  - repeat constructor; cbn; intuition congruence.
Qed.
(** the image of the diagonal [(0, 2)] has coefficients 2 and 3 *)
Example ex_image : image_edge ex_gens ex_fs (0, 2)%Z = Ok [((0, 0), 2); ((1, 2), 3)]%Z.
Proof. vm_compute. reflexivity. Qed.
