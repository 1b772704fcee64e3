(** Proofs about the subdivision of the edges of surfaces: the construction. *)
From Coq Require Import List Bool ZArith Arith Lia Relations.
From Coq Require Import Ring Field.
From Verif Require Import OField FMicromega PField MBase MDict PDict MEuclid SEuclid PEuclid MSim SSim MPoly PPoly MMut SMut PMut PMut2 PMut3 PBuild PGlue PRelabel TMut
  MSurf SSurf PSurf SPoint MPoint PPoint MSubdiv SSubdiv PSubdiv PSubdiv2.
Import ListNotations.

Section G.
Context {P : Type} (nv : P -> nat).
Notation surf := (@surf P).
Local Open Scope Z_scope.

Lemma bfs_prefix nb fuel : forall seen pending out, bfs nb fuel seen pending = Ok out -> exists t, out = seen ++ t.
Proof.
  induction fuel as [|fuel IH]; intros seen [|l pending] out; cbn; try discriminate.
  1,2: intros [= <-]; exists nil; now rewrite app_nil_r.
  destruct (mem l seen); [apply IH|]. destruct (nb l) as [ls|]; [|discriminate]. intros H. apply IH in H. destruct H as [t ->].
  exists (l :: t). now rewrite <- app_assoc.
Qed.
Lemma component_head (s : surf) r c : component nv s r = Ok c -> exists t, c = r :: t.
Proof.
  unfold component, bfs_fuel. cbn [bfs mem]. destruct (crosses nv s r) as [ls|]; cbn; [|discriminate]. intros H. apply bfs_prefix in H. destruct H as [t ->]. eexists. reflexivity.
Qed.
Lemma iter_labels_head (s : surf) r ls : get_roots nv s = Ok [r] -> iter_labels nv s = Ok ls -> exists t, ls = r :: t.
Proof.
  unfold iter_labels, get_components. intros ->. cbn [rmap]. destruct (component nv s r) as [c|] eqn:C; [|discriminate]. intros [= <-].
  apply component_head in C. destruct C as [t ->]. cbn. eexists. reflexivity.
Qed.
Lemma closed_conn (s : surf) r l : (forall x y, gz (gluings s) x = Some y -> fst x = r -> fst y = r) -> conn (gluings s) r l -> l = r.
Proof.
  intros A H. unfold conn in H. apply clos_rt_rt1n in H. remember r as r0 eqn:E in H.
  induction H as [a|a b c [e [e' H]] _ IH]; auto. subst a. apply IH. apply A in H; auto.
Qed.
Lemma combine_map {A B} (f : A -> B) l : combine l (map f l) = map (fun x => (x, f x)) l.
Proof. induction l; cbn; congruence. Qed.
Lemma combine_map2 {A B C} (f : A -> B) (g : A -> C) l : combine (map f l) (map g l) = map (fun x => (f x, g x)) l.
Proof. induction l; cbn; congruence. Qed.
End G.

Section K.
Context {K : OField}.
Add Field KF : (of_ft K).
Local Open Scope F_scope.
Notation nv := (@length (vec K) : polygon K -> nat).
Notation surf := (@surf (polygon K)).

(** a similarity maps points of a segment to the points of the image that divide it in the same way *)
Lemma similarity_segment F c (a b : vec K) t : map_similarity F c -> a <> b ->
  F (vadd a (vscale t (vsub b a))) = vadd (F a) (vscale t (vsub (F b) (F a))).
Proof.
  intros [C H] N. set (q := vadd a (vscale t (vsub b a))).
  assert (D : 0 < dist2 a b) by now apply dist2_nz.
  assert (NN : F a <> F b).
  { intros E. assert (Z : dist2 (F a) (F b) = 0) by (rewrite E; unfold dist2, dot; destruct (F b); cbn; ring).
    rewrite H in Z. apply fmul_eq0 in Z. destruct Z; flra. }
  assert (D1 : dist2 (F a) (F q) = t * t * dist2 (F a) (F b)).
  { rewrite !H. unfold q, dist2, dot. destruct a, b. cbn. ring. }
  assert (D2 : dist2 (F b) (F q) = (1 - t) * (1 - t) * dist2 (F a) (F b)).
  { rewrite !H. unfold q, dist2, dot. destruct a, b. cbn. ring. }
  assert (DT : dot (vsub (F b) (F a)) (vsub (F q) (F a)) = t * dist2 (F a) (F b)).
  { apply half_inj. rewrite polar, D1, D2. ring. }
  apply (coords_unique (F a) (F b)); auto.
  - rewrite DT. unfold dist2, dot. destruct (F a), (F b). cbn. ring.
  - assert (O : orient (F a) (F b) (F q) * orient (F a) (F b) (F q) = 0) by (rewrite lagrange, DT, D1; ring).
    apply fmul_eq0 in O. transitivity (0 : K); [tauto|]. unfold orient, ccw. destruct (F a), (F b). cbn. ring.
Qed.

Definition pol (s : surf) l : polygon K := match get_polygon s l with Ok P => P | Err _ => nil end.

Section M.
Variables (s : surf) (k : nat).
Hypothesis GD : good nv s.
Hypothesis PO : forall l P, get_polygon s l = Ok P -> nondeg P /\ simple_polygon P /\ 0 < area P.
Hypothesis Hk : (1 <= k)%nat.

Definition sd_pairs (x : label * nat) : list (hedge * hedge) :=
  match gz (gluings s) (fst x, Z.of_nat (snd x)) with
  | None => nil
  | Some y => map (fun p => ((fst x, Z.of_nat (snd x * k + p)), (fst y, (snd y * Z.of_nat k + (Z.of_nat k - Z.of_nat p - 1))%Z))) (seq 0 k)
  end.
Definition sd_label (l : label) : list (hedge * hedge) := flat_map (fun e => sd_pairs (l, e)) (seq 0 (nv (pol s l))).

Lemma pol_ok l : is_label s l -> get_polygon s l = Ok (pol s l).
Proof. intros [P E]. unfold pol. now rewrite E. Qed.
Lemma edge_nat x : is_edge nv s x -> exists e, x = (fst x, Z.of_nat e) /\ (e < nv (pol s (fst x)))%nat /\ is_label s (fst x).
Proof.
  intros [P [E H]]. exists (Z.to_nat (snd x)). destruct x as [l e]. cbn [fst snd] in *. unfold pol. rewrite E. split; [f_equal; lia|]. split; [lia|]. now exists P.
Qed.
Lemma gz_nat x y : gz (gluings s) x = Some y -> exists e e', x = (fst x, Z.of_nat e) /\ y = (fst y, Z.of_nat e') /\
  (e < nv (pol s (fst x)))%nat /\ (e' < nv (pol s (fst y)))%nat /\ is_label s (fst x) /\ is_label s (fst y).
Proof.
  intros H. assert (H' := i_inv nv s (g_inv nv s GD) _ _ H).
  apply (glued_gz nv s _ _ (g_inv nv s GD)) in H. apply (glued_gz nv s _ _ (g_inv nv s GD)) in H'.
  destruct H as [H _], H' as [H' _]. apply edge_nat in H, H'. destruct H as (e & A & B & C), H' as (e' & A' & B' & C'). exists e, e'. auto 8.
Qed.
Lemma In_sd ls u v : (forall l, In l ls <-> is_label s l) -> In (u, v) (flat_map sd_label ls) <->
  exists l e l' e' p, gz (gluings s) (l, Z.of_nat e) = Some (l', Z.of_nat e') /\ (p < k)%nat /\
    u = (l, Z.of_nat (e * k + p)) /\ v = (l', Z.of_nat (e' * k + (k - 1 - p))).
Proof.
  intros HL. unfold sd_label. rewrite in_flat_map. split.
  - intros [l [Hl H]]. apply in_flat_map in H. destruct H as [e [He H]]. unfold sd_pairs in H. cbn [fst snd] in H.
    destruct (gz (gluings s) (l, Z.of_nat e)) as [y|] eqn:G; [|destruct H]. apply in_map_iff in H. destruct H as [p [[= <- <-] Hp]]. apply in_seq in Hp.
    destruct (gz_nat _ _ G) as (e1 & e' & _ & Y & _). exists l, e, (fst y), e', p. rewrite <- Y. split; auto. split; [lia|]. split; auto.
    rewrite Y. cbn [fst snd]. f_equal. lia.
  - intros (l & e & l' & e' & p & G & Hp & -> & ->). destruct (gz_nat _ _ G) as (e1 & e2 & X & Y & H1 & H2 & L1 & L2). cbn [fst snd] in *.
    assert (e1 = e) by (injection X; lia). subst e1. exists l. split; [now apply HL|]. apply in_flat_map. exists e. split; [apply in_seq; lia|].
    unfold sd_pairs. cbn [fst snd]. rewrite G. apply in_map_iff. exists p. cbn [fst snd]. split; [|apply in_seq; lia]. apply (f_equal2 pair); [reflexivity|]. apply (f_equal2 pair); [reflexivity|]. lia.
Qed.
Lemma mul_add_inj e p e' p' : (p < k)%nat -> (p' < k)%nat -> (e * k + p = e' * k + p')%nat -> e = e' /\ p = p'.
Proof.
  intros A B E. assert (X : ((e * k + p) / k = (e' * k + p') / k)%nat) by now rewrite E.
  rewrite !Nat.div_add_l in X by lia. rewrite !Nat.div_small in X by lia. assert (e = e') by lia. subst. lia.
Qed.
Lemma sd_sym ls u v : (forall l, In l ls <-> is_label s l) -> In (u, v) (flat_map sd_label ls) -> In (v, u) (flat_map sd_label ls).
Proof.
  intros HL. rewrite !In_sd by auto. intros (l & e & l' & e' & p & G & Hp & -> & ->). exists l', e', l, e, (k - 1 - p)%nat.
  split; [now apply (i_inv nv s (g_inv nv s GD))|]. split; [lia|]. split; auto. do 3 f_equal. lia.
Qed.
Lemma sd_functional ls : (forall l, In l ls <-> is_label s l) -> functional_pairs (flat_map sd_label ls).
Proof.
  intros HL. assert (S : forall u v, pair_in (flat_map sd_label ls) u v -> In (u, v) (flat_map sd_label ls)).
  { intros u v [H|H]; auto. now apply sd_sym. }
  intros u v v' H H'. apply S in H, H'. apply In_sd in H; auto. apply In_sd in H'; auto.
  destruct H as (l & e & m & f & p & G & Hp & -> & ->), H' as (l' & e' & m' & f' & p' & G' & Hp' & E & ->).
  injection E as -> E. apply Nat2Z.inj in E. apply mul_add_inj in E; auto. destruct E as [-> ->]. rewrite G in G'. injection G' as -> E. apply Nat2Z.inj in E. now subst.
Qed.

Theorem subdivide_main :
  exists t r, subdivide_edges k s empty = (t, r) /\ (r = Ok tt \/ r = Err AssertionError) /\
   (forall x, get_roots nv s = Ok [x] -> r = Ok tt) /\ (get_roots nv s = Ok nil -> r = Ok tt) /\
   (r = Ok tt -> intact nv t /\ mutable t = false /\ edges_divided k s t).
Proof.
  destruct (iter_labels_spec nv s GD) as [ls [EL [NL HL0]]].
  assert (HL : forall l, In l ls <-> is_label s l) by (intros l; rewrite HL0, is_label_keys; tauto).
  destruct (get_roots_spec nv s GD) as [d [ER [TR _]]]. set (rs := roots_ s ++ d) in *.
  unfold subdivide_edges.
  rewrite (mbind_ok _ _ empty empty ls) by (unfold mlift; now rewrite EL).
  rewrite (mbind_ok _ _ empty empty (map (pol s) ls)).
  2:{ unfold mlift. rewrite (rmap_map _ (pol s)); auto. intros l Hl. apply pol_ok. now apply HL. }
  assert (SUB : forall l, is_label s l -> poly_subdivide_edges k (pol s l) = Ok (sub_result (pol s l) k)).
  { intros l Hl. destruct (PO l _ (pol_ok l Hl)) as [A [B C]]. now apply subdivide_edges_ok. }
  rewrite (mbind_ok _ _ empty empty (map (fun l => sub_result (pol s l) k) ls)).
  2:{ unfold mlift. rewrite (rmap_map _ (fun P => sub_result P k)); [now rewrite map_map|].
      intros P HP. apply in_map_iff in HP. destruct HP as [l [<- Hl]]. apply SUB. now apply HL. }
  rewrite !combine_map.
  set (items := map (fun l => (l, sub_result (pol s l) k)) ls).
  assert (MI : map fst items = ls) by (unfold items; rewrite map_map; apply map_id).
  destruct (add_list nv items (@empty (polygon K))) as (s1 & E1 & I1 & M1 & C1 & S1 & P1 & G1 & R1).
  { apply good_empty. } { reflexivity. } { apply (good_empty nv). } { now rewrite MI. } { intros l _ []. }
  cbn in P1, C1, R1.
  assert (RE1 : reachable nv s1).
  { change s1 with (fst (s1, @Ok unit tt)). rewrite <- E1. apply pres_for; [|exists nil; split; [constructor|reflexivity]].
    intros x _. unfold add_item. apply pres_bind; [apply pres_add|]. intros _. apply pres_ret. }
  assert (GD1 : good nv s1). { constructor; auto; [exact (i_tot nv s1 I1 M1)|congruence|congruence]. }
  change (mfor items (fun lp => (add_polygon nv (snd lp) (Some (fst lp)) ;;; mret tt)%M)) with (mfor items (add_item nv)).
  rewrite (mbind_ok _ _ _ _ _ E1).
  rewrite (mbind_ok _ _ s1 s1 rs) by (unfold mlift; now rewrite ER).
  assert (K1 : keys (polys s1) = ls) by (rewrite P1; exact MI).
  assert (NC : forall a b, conn (gluings s1) a b -> a = b).
  { intros a b H. unfold conn in H. apply clos_rt_rt1n in H. destruct H as [|b c [e [e' H]] _]; auto. rewrite G1 in H. discriminate H. }
  destruct (set_roots_spec nv s1 rs GD1 M1) as (s1' & x & ES & Y & _).
  destruct Y as [-> ->].
  { split; [|split]; [|apply (t_nd _ _ _ TR)|intros; now apply NC]. intros r Hr. rewrite K1. apply HL0. now apply (t_in _ _ _ TR). }
  rewrite (mbind_ok _ _ _ _ _ ES). set (s2 := set_roots_ rs s1) in *.
  assert (RE2 : reachable nv s2). { change s2 with (fst (s2, @Ok unit tt)). rewrite <- ES. apply pres_set_roots. auto. }
  assert (GD2 : good nv s2). { apply intact_good, reachable_intact; auto. }
  set (ps := flat_map sd_label ls).
  assert (LOOP : forall st, mfor (map (fun l => (l, pol s l)) ls) (fun lP => mfor (seq 0 (nv (snd lP))) (fun e =>
     (let! y := mlift (opposite_edge s (fst lP) (Z.of_nat e)) in
     match y with None => mret tt | Some y => subdivide_glue k (fst lP) e y end)%M)) st = mfor ps (fun xy => glue nv (fst xy) (snd xy)) st).
  { intros st. rewrite mfor_map. unfold ps. rewrite <- (mfor_flat sd_label). apply mfor_ext. intros l st1 Hl. cbn [fst snd]. apply HL in Hl.
    unfold sd_label. rewrite <- (mfor_flat (fun e => sd_pairs (l, e))). apply mfor_ext. intros e st2 He. apply in_seq in He.
    rewrite (mbind_ok _ _ st2 st2 (gz (gluings s) (l, Z.of_nat e))).
    - unfold sd_pairs. cbn [fst snd]. destruct (gz (gluings s) (l, Z.of_nat e)) as [y|]; [|reflexivity]. unfold subdivide_glue. now rewrite mfor_map.
    - unfold mlift. rewrite (proj2 (opposite_edge_Ok s l (Z.of_nat e) (gz (gluings s) (l, Z.of_nat e)) ltac:(lia))); auto.
      split; auto. apply (edge_inrange nv s _ (g_inv nv s GD) (g_tot nv s GD)). exists (pol s l). cbn [fst snd]. split; [now apply pol_ok|]. split; [lia|].
      apply Nat2Z.inj_lt. lia. }
  assert (HP1 : forall l, is_label s l -> get_polygon s1 l = Ok (sub_result (pol s l) k)).
  { intros l Hl. apply get_polygon_Ok. rewrite P1. apply In_dget; [change (NoDup (map fst items)); now rewrite MI|]. unfold items. apply in_map_iff. exists l. split; auto. now apply HL. }
  assert (LEN : forall l, is_label s l -> nv (sub_result (pol s l) k) = (nv (pol s l) * k)%nat).
  { intros l Hl. unfold sub_result. rewrite translate_length. apply sub_length. }
  assert (RG : forall e l p, is_label s l -> (e < nv (pol s l))%nat -> (p < k)%nat -> inrange (gluings s2) (l, Z.of_nat (e * k + p))).
  { intros e l p Hl He Hp. apply (edge_inrange nv s2 _ (g_inv nv s2 GD2) (g_tot nv s2 GD2)). exists (sub_result (pol s l) k). cbn [fst snd].
    split; [exact (HP1 l Hl)|]. split; [lia|]. rewrite LEN by auto. nia. }
  assert (RA : ranged s2 ps).
  { intros u v H. apply In_sd in H; auto. destruct H as (l & e & l' & e' & p & G & Hp & -> & ->). destruct (gz_nat _ _ G) as (f & f' & X & X' & A & A' & B & B').
    cbn [fst snd] in *. assert (f = e) by (injection X; lia). assert (f' = e') by (injection X'; lia). subst f f'. split; apply RG; auto. lia. }
  assert (PA : paired s2 nil).
  { intros u v. change (gluings s2) with (gluings s1). rewrite G1. unfold pair_in. cbn. split; [discriminate|tauto]. }
  destruct (glue_pairs_any nv ps nil s2 (g_inv nv s2 GD2) M1 (g_sep nv s2 GD2) PA (sd_functional ls HL) RA) as (s3 & r & E3 & I3 & F3 & S3 & O3 & PA3 & NI).
  assert (CON0 : get_roots nv s = Ok nil -> r = Ok tt). { intros EX. rewrite ER in EX. injection EX as EX. now apply NI. }
  assert (CON : forall x, get_roots nv s = Ok [x] -> r = Ok tt).
  { intros x EX. destruct (iter_labels_head nv s x ls EX EL) as [ls' Els]. unfold ps in *. rewrite Els in E3, RA. cbn [flat_map] in E3, RA.
    rewrite ER in EX. injection EX as EX.
    destruct (glue_pairs_root nv x (sd_label x) (flat_map sd_label ls') nil s2) as [s3' E3']; auto.
    - apply (g_inv nv s2 GD2).
    - apply (g_sep nv s2 GD2).
    - pose proof (sd_functional ls HL) as FF. rewrite Els in FF. exact FF.
    - intros u v H. change (gluings s2) with (gluings s1) in H. rewrite G1 in H. discriminate H.
    - intros u v H. unfold sd_label in H. apply in_flat_map in H. destruct H as [e [He H]]. unfold sd_pairs in H. cbn [fst snd] in H.
      destruct (gz (gluings s) (x, Z.of_nat e)); [|destruct H]. apply in_map_iff in H. destruct H as [p [[= <- <-] _]]. reflexivity.
    - destruct ls' as [|l ls']; [left; reflexivity|]. right.
      destruct (existsb (fun uv => negb (fst (snd uv) =? x)%Z) (sd_label x)) eqn:EB.
      + apply existsb_exists in EB. destruct EB as [[u v] [H N]]. exists u, v. split; auto. cbn in N. destruct (Z.eqb_spec (fst v) x); [discriminate|auto].
      + exfalso. assert (lx : l = x).
        { assert (Xin : In x ls) by (rewrite Els; cbn; auto). assert (Lin : In l ls) by (rewrite Els; cbn; auto).
          assert (CL : conn (gluings s) x l).
          { destruct (t_cov _ _ _ TR l) as [r' [Hr' Co]]; [now apply HL0|]. rewrite EX in Hr'. destruct Hr' as [<-|[]]. exact Co. }
          apply (closed_conn s x l); auto. intros u v G Eu.
          destruct (gz_nat _ _ G) as (e & e' & U & V & A & B & C & D). rewrite Eu in *.
          destruct (Z.eqb_spec (fst v) x) as [|N]; auto. exfalso.
          assert (H : existsb (fun uv => negb (fst (snd uv) =? x)%Z) (sd_label x) = true); [|congruence].
          apply existsb_exists. exists ((x, Z.of_nat (e * k + 0)), (fst v, (snd v * Z.of_nat k + (Z.of_nat k - Z.of_nat 0 - 1))%Z)).
          cbn [fst snd]. split; [|destruct (Z.eqb_spec (fst v) x); auto].
          unfold sd_label. apply in_flat_map. exists e. split; [apply in_seq; lia|]. unfold sd_pairs. cbn [fst snd]. rewrite <- U, G.
          apply in_map_iff. exists 0%nat. split; auto. apply in_seq. lia. }
        subst l. rewrite Els in NL. inversion NL as [|? ? N _]. apply N. cbn. auto.
    - rewrite E3' in E3. now injection E3. }
  unfold mbind at 1. rewrite LOOP, E3. destruct r as [[]|er].
  2:{ destruct O3 as [|[= ->]]; [discriminate|]. exists s3, (Err AssertionError). split; [reflexivity|]. split; auto. split; auto. split; auto. discriminate. }
  specialize (PA3 eq_refl). cbn [app] in PA3.
  assert (M3 : mutable s3 = true) by (rewrite (f_mut _ _ F3); auto).
  assert (GD3 : good nv s3).
  { constructor; auto; [exact (i_tot nv s3 I3 M3)|congruence|]. rewrite (f_conn _ _ F3). change (connected s2) with (connected s1). rewrite C1. discriminate. }
  destruct (set_immutable_spec nv s3 GD3) as (t & rs3 & b & E4 & _ & Et & GT).
  exists t, (Ok tt). split; [exact E4|]. split; auto. split; auto. split; auto. intros _.
  assert (RE3 : reachable nv s3).
  { change s3 with (fst (s3, @Ok unit tt)). rewrite <- E3. apply pres_for; auto.
    intros [u v] H. apply In_sd in H; auto. destruct H as (l & e & l' & e' & p & _ & _ & -> & ->). apply pres_glue; cbn; lia. }
  split. { change t with (fst (t, @Ok unit tt)). rewrite <- E4. apply (intact_op nv s3 OpSetImmutable); [now apply reachable_intact|exact I|intros []]. }
  split; [subst t; reflexivity|].
  assert (Pt : polys t = polys s1) by (subst t; cbn; rewrite (f_polys _ _ F3); reflexivity).
  assert (Gt : gluings t = gluings s3) by (subst t; reflexivity).
  assert (HPt : forall l, is_label s l -> get_polygon t l = Ok (sub_result (pol s l) k)).
  { intros l Hl. rewrite <- (HP1 l Hl). unfold get_polygon. now rewrite Pt. }
  assert (LBt : forall l, is_label t l <-> is_label s l).
  { intros l. rewrite is_label_keys, Pt, K1. apply HL. }
  assert (DV : forall l, is_label s l -> divided k (pol s l) (sub_result (pol s l) k)).
  { intros l Hl. destruct (PO l _ (pol_ok l Hl)) as [A [B C]]. constructor.
    - now apply LEN.
    - intros e p He Hp. unfold sub_result. rewrite vertex_translate by now apply sub_nonnil. rewrite sub_vertex by auto. unfold sub_pt.
      unfold fdiv. destruct (vertex (pol s l) e), (edge (pol s l) e), (vertex (pol s l) 0). apply vec_eq; cbn; ring.
    - unfold sub_result. apply simple_translate; [now apply sub_nonnil|now apply sub_simple].
    - unfold sub_result. rewrite area_translate. now apply sub_area. }
  assert (EDt : forall e l p, is_edge nv s (l, Z.of_nat e) -> (p < k)%nat -> is_edge nv t (l, Z.of_nat (e * k + p))).
  { intros e l p H Hp. apply edge_nat in H. destruct H as (f & X & Hf & Hl). cbn [fst snd] in *. assert (f = e) by (injection X; lia). subst f.
    exists (sub_result (pol s l) k). cbn [fst snd]. split; auto. rewrite LEN by auto. nia. }
  assert (GLt : forall e l p y, is_edge nv s (l, Z.of_nat e) -> (p < k)%nat ->
     (gz (gluings t) (l, Z.of_nat (e * k + p)) = Some y <-> exists l' e', gz (gluings s) (l, Z.of_nat e) = Some (l', Z.of_nat e') /\ y = (l', Z.of_nat (e' * k + (k - 1 - p))))).
  { intros e l p y H Hp. rewrite Gt. rewrite (PA3 (l, Z.of_nat (e * k + p)) y). split.
    - intros X. assert (X' : In ((l, Z.of_nat (e * k + p)), y) ps) by (destruct X; auto; now apply sd_sym).
      apply In_sd in X'; auto. destruct X' as (l1 & e1 & l' & e' & p' & G & Hp' & E & ->). injection E as <- E. apply Nat2Z.inj, mul_add_inj in E; auto.
      destruct E as [<- <-]. eauto.
    - intros (l' & e' & G & ->). left. apply In_sd; auto. exists l, e, l', e', p. auto. }
  constructor.
  - exact LBt.
  - intros l P E. assert (Hl : is_label s l) by (now exists P). exists (sub_result (pol s l) k). split; auto.
    pose proof (pol_ok l Hl) as X. rewrite E in X. injection X as ->. now apply DV.
  - intros l e p y H Hp. rewrite (glued_gz nv t _ _ (g_inv nv t GT)), (GLt e l p y H Hp).
    split; intros (l' & e' & A & B); exists l', e'; (split; [|exact B]); now apply (glued_gz nv s _ _ (g_inv nv s GD)).
  - intros l e p H Hp. pose proof (GLt e l p) as X. 
    assert (Q : forall u x, good nv u -> is_edge nv u x -> (free nv u x <-> gz (gluings u) x = None)).
    { intros u x Gu Hx. rewrite (free_gz nv u x (g_inv nv u Gu) (g_tot nv u Gu)). tauto. }
    rewrite (Q t) by auto. rewrite (Q s) by auto. split; intros Y.
    + destruct (gz (gluings s) (l, Z.of_nat e)) as [[l' e']|] eqn:G; auto. destruct (gz_nat _ _ G) as (f & f' & _ & V & _). cbn in V. injection V as ->.
      exfalso. enough (Z : gz (gluings t) (l, Z.of_nat (e * k + p)) = Some (l', Z.of_nat (f' * k + (k - 1 - p)))) by congruence.
      apply X; auto. exists l', f'. auto.
    + destruct (gz (gluings t) (l, Z.of_nat (e * k + p))) as [y|] eqn:G; auto. exfalso. destruct (proj1 (X y H Hp) eq_refl) as (l' & e' & A & _). congruence.
  - intros l e p P Q l' e' P' Q' F He Hp EP EP' EQ EQ' GL [[c SF] OF F1 F2].
    assert (Hl : is_label s l) by (now exists P). assert (Hl' : is_label s l') by (now exists P').
    pose proof (pol_ok l Hl) as X. rewrite EP in X. injection X as X. pose proof (pol_ok l' Hl') as X'. rewrite EP' in X'. injection X' as X'.
    rewrite (HPt l Hl), <- X in EQ. injection EQ as <-. rewrite (HPt l' Hl'), <- X' in EQ'. injection EQ' as <-.
    pose proof (DV l Hl) as [_ V _ _]. pose proof (DV l' Hl') as [_ V' _ _]. rewrite <- X in V. rewrite <- X' in V'.
    assert (He' : (e' < length P')%nat).
    { apply (glued_gz nv s _ _ (g_inv nv s GD)) in GL. destruct (gz_nat _ _ GL) as (f & f' & _ & W & _ & B & _). cbn [fst snd] in *. rewrite <- X' in B. injection W as W. apply Nat2Z.inj in W. lia. }
    destruct (PO l P EP) as [[L ND] _].
    assert (SEG : forall t, F (vadd (vertex P e) (vscale t (edge P e))) = vadd (vertex P' (S e')) (vscale t (vsub (vertex P' e') (vertex P' (S e'))))).
    { intros t0. unfold edge. rewrite (similarity_segment F c) by (auto; apply edge_neq, ND). now rewrite F1, F2. }
    assert (W : forall q, (q <= k)%nat -> vsub (F (vadd (vsub (vadd (vertex P e) (vscale (fnat q / fnat k) (edge P e))) (vertex P 0)) (vertex P 0))) (vertex P' 0) =
       vertex (sub_result P' k) (e' * k + (k - q))).
    { intros q Hq. rewrite V' by (auto; lia).
      assert (U : vadd (vsub (vadd (vertex P e) (vscale (fnat q / fnat k) (edge P e))) (vertex P 0)) (vertex P 0) = vadd (vertex P e) (vscale (fnat q / fnat k) (edge P e))).
      { destruct (vertex P e), (edge P e), (vertex P 0). apply vec_eq; cbn; ring. }
      rewrite U, SEG. unfold edge.
      assert (Z : fnat (k - q) / fnat k = 1 - fnat q / fnat k :> K).
      { assert (Y : (fnat k : K) = fnat (k - q) + fnat q) by (rewrite <- fnat_add; f_equal; lia).
        pose proof (fnat_neq0 k Hk : fnat k <> (0 : K)) as N. transitivity ((fnat k - fnat q) / fnat k : K); [f_equal; rewrite Y; ring|field; auto]. }
      rewrite Z. destruct (vertex P' e'), (vertex P' (S e')), (vertex P' 0). apply vec_eq; cbn; ring. }
    constructor.
    + exists c. destruct SF as [C SF]. split; auto. intros x y. 
      transitivity (dist2 (F (vadd x (vertex P 0))) (F (vadd y (vertex P 0)))); [unfold dist2, dot; cbn; ring|]. rewrite SF. unfold dist2, dot; cbn; ring.
    + intros x y z O.
      assert (A1 : orient (vsub (F (vadd x (vertex P 0))) (vertex P' 0)) (vsub (F (vadd y (vertex P 0))) (vertex P' 0)) (vsub (F (vadd z (vertex P 0))) (vertex P' 0)) =
         orient (F (vadd x (vertex P 0))) (F (vadd y (vertex P 0))) (F (vadd z (vertex P 0)))) by (unfold orient, ccw; cbn; ring).
      rewrite A1. apply OF. assert (A2 : orient (vadd x (vertex P 0)) (vadd y (vertex P 0)) (vadd z (vertex P 0)) = orient x y z) by (unfold orient, ccw; cbn; ring).
      now rewrite A2.
    + rewrite V by (auto; lia). rewrite W by lia. f_equal. lia.
    + replace (S (e * k + p)) with (e * k + S p)%nat by lia. rewrite V by (auto; lia). rewrite W by lia. f_equal. lia.
Qed.
End M.
End K.
