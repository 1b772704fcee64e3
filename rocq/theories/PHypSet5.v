(** Proofs about [MHypSet]: the edges of a polygon in the unit disk. *)
From Coq Require Import List Bool ZArith Lia Ring Field Sorted Permutation.
From Verif Require Import OField FMicromega PField MBase MEuclid PEuclid SEuclid PRotate MHyp SHyp PHyp PHyp2 PHyp3 PHyp4 PHyp7 MHypSet PHypSet PHypSet2 PHypSet3 PHypSet4.
Import ListNotations.

Section Edge.
Context {K : OField}.
Add Field KF : (of_ft K).
Local Open Scope res_scope. Local Open Scope F_scope.
Implicit Types p q x y z : vec K.
Implicit Types f g h i j s u v w A B C : geo K.
Implicit Types l m t : list (geo K).
Implicit Types r : segment_set K.

(** ** The disk *)
Definition nrm p : K := fst p * fst p + snd p * snd p.
Lemma nrm_mix (t : K) p q : nrm (mix t p q) = (1 - t) * nrm p + t * nrm q - t * (1 - t) * nrm (vsub p q).
Proof. unfold nrm, mix, vsub, vadd, vscale. cbn. ring. Qed.
Lemma nrm_nonneg p : 0 <= nrm p.
Proof. unfold nrm. pose proof (fsq_nonneg (fst p)). pose proof (fsq_nonneg (snd p)). flra. Qed.
Lemma mix_disk (t : K) p q : 0 <= t -> t <= 1 -> in_disk p -> in_disk q -> in_disk (mix t p q).
Proof.
  unfold in_disk. fold (nrm p) (nrm q) (nrm (mix t p q)). intros A B P Q. rewrite nrm_mix. pose proof (nrm_nonneg (vsub p q)) as N. assert (0 <= t * (1 - t)) by (apply fmul_nonneg; flra). assert (0 <= t * (1 - t) * nrm (vsub p q)) by (apply fmul_nonneg; auto). assert (0 <= (1 - t) * (1 - nrm p)) by (apply fmul_nonneg; flra). assert (0 <= t * (1 - nrm q)) by (apply fmul_nonneg; flra). flra.
Qed.
Lemma mix_finite (t : K) p q : 0 <= t -> t < 1 -> finite p -> in_disk q -> finite (mix t p q).
Proof.
  unfold finite, in_disk. fold (nrm p) (nrm q) (nrm (mix t p q)). intros A B P Q. rewrite nrm_mix. pose proof (nrm_nonneg (vsub p q)) as N. assert (0 <= t * (1 - t)) by (apply fmul_nonneg; flra). assert (0 <= t * (1 - t) * nrm (vsub p q)) by (apply fmul_nonneg; auto). assert (0 < (1 - t) * (1 - nrm p)) by (apply fmul_pos; flra). assert (0 <= t * (1 - nrm q)) by (apply fmul_nonneg; flra). flra.
Qed.
Lemma half_lt : (0 : K) < 1 / 2 /\ 1 / 2 < (1 : K).
Proof. pose proof (@flt_0_1 K) as O. pose proof (fdiv_pos 1 2 (f2_pos) O) as P. assert (E : 1 / 2 * 2 = (1:K)) by (apply fdiv_mul, f2_neq0). set (h := 1 / 2) in *. clearbody h. split; auto. flra. Qed.
Definition mid p q := mix (1 / 2) p q.
Lemma mid_finite p q : in_disk p -> in_disk q -> p <> q -> finite (mid p q).
Proof.
  intros P Q N. unfold finite, in_disk, mid in *. fold (nrm p) (nrm q) (nrm (mix (1/2) p q)) in *. rewrite nrm_mix. destruct half_lt as [H1 H2]. set (h := 1 / 2) in *. clearbody h.
  assert (V : 0 < nrm (vsub p q)). { apply fsum_sq_pos. cbn. destruct (feq_dec (fst p - fst q) 0) as [E|E]; [|now left]. right. intros E'. apply N. apply vec_eq; flra. }
  assert (0 < h * (1 - h)) by (apply fmul_pos; flra). assert (0 < h * (1 - h) * nrm (vsub p q)) by (apply fmul_pos; auto). assert (0 <= (1 - h) * (1 - nrm p)) by (apply fmul_nonneg; flra). assert (0 <= h * (1 - nrm q)) by (apply fmul_nonneg; flra). flra.
Qed.
Lemma ev_mid g p q : ev g (mid p q) * 2 = ev g p + ev g q.
Proof. unfold mid. rewrite ev_mix. assert (E : 1 / 2 * 2 = (1:K)) by (apply fdiv_mul, f2_neq0). set (h := 1 / 2) in *. clearbody h. transitivity ((2 - h * 2) * ev g p + h * 2 * ev g q); [ring|rewrite E; ring]. Qed.
(** a quadratic function that is negative at 0 is negative near by *)
Lemma small (a b c : K) : c < 0 -> exists e : K, 0 < e /\ forall s : K, - e <= s -> s <= e -> a * (s * s) + b * s + c < 0.
Proof.
  intros C. set (m := a * a + b * b + 1 + 1). assert (M : 0 < m) by (unfold m; pose proof (fsq_nonneg a); pose proof (fsq_nonneg b); pose proof (@flt_0_1 K); flra).
  assert (MA : a <= m - 1 /\ - a <= m - 1 /\ b <= m - 1 /\ - b <= m - 1). { pose proof (fsq_nonneg (a - 1)). pose proof (fsq_nonneg (a + 1)). pose proof (fsq_nonneg (b - 1)). pose proof (fsq_nonneg (b + 1)). pose proof (fsq_nonneg a). pose proof (fsq_nonneg b). unfold m. repeat split; flra. }
  (* a s^2 + b s <= (|a| + |b|) e <= 2 m e for e <= 1 *)
  set (e0 := (- c) / (m + m + m)). assert (M3 : 0 < m + m + m) by flra. assert (E0 : 0 < e0) by (apply fdiv_pos; flra). assert (EE : e0 * (m + m + m) = - c) by (apply fdiv_mul; now apply fpos_neq0). clearbody e0 m.
  assert (EX : exists e, 0 < e /\ e <= 1 /\ e <= e0). { destruct (e0 <? 1) eqn:L; bools; [exists e0|exists 1]; repeat split; auto; flra. } destruct EX as [e [E1 [E2 E3]]]. exists e. split; auto. intros s S1 S2.
  assert (SS : 0 <= s * s) by apply fsq_nonneg. assert (SS' : s * s <= e * e). { assert (0 <= (e - s) * (e + s)) by (apply fmul_nonneg; flra). flra. } assert (EE2 : e * e <= e). { assert (0 <= e * (1 - e)) by (apply fmul_nonneg; flra). flra. }
  assert (T1 : a * (s * s) <= m * e). { assert (0 <= (m - a) * (s * s)) by (apply fmul_nonneg; flra). assert (0 <= m * (e - s * s)) by (apply fmul_nonneg; flra). flra. }
  assert (T2 : b * s <= m * e). { destruct (0 <? s) eqn:P; bools; [assert (0 <= (m - b) * s) by (apply fmul_nonneg; flra); assert (0 <= m * (e - s)) by (apply fmul_nonneg; flra); flra|]. assert (0 <= (m + b) * - s) by (apply fmul_nonneg; flra). assert (0 <= m * (e + s)) by (apply fmul_nonneg; flra). flra. }
  assert (0 <= (e0 - e) * (m + m)) by (apply fmul_nonneg; flra). assert (0 < e0 * m) by (now apply fmul_pos). flra.
Qed.
Lemma near_finite p (d : vec K) : finite p -> exists e : K, 0 < e /\ forall s : K, - e <= s -> s <= e -> finite (vadd p (vscale s d)).
Proof.
  intros F. unfold finite in F. destruct (small (nrm d) (2 * (fst p * fst d + snd p * snd d)) (nrm p - 1)) as [e [E H]]; [unfold nrm; flra|]. exists e. split; auto. intros s S1 S2. specialize (H s S1 S2). unfold finite, nrm in *. cbn. flra.
Qed.
Lemma inter_dec l z : inter l z \/ exists h, In h l /\ ev h z < 0.
Proof.
  induction l as [|h l IH]; [left; intros h []|]. destruct (ev h z <? 0) eqn:E; bools; [right; exists h; split; [now left|auto]|]. destruct IH as [IH|[k [K1 K2]]]; [left; intros k [<-|Hk]; auto|right; exists k; split; [now right|auto]].
Qed.
(** where a segment leaves the intersection *)
Lemma exit l z c : inter l z -> ~ inter l c -> exists (t : K) B, 0 <= t /\ t < 1 /\ In B l /\ on B (mix t z c) /\ inter l (mix t z c) /\ ev B c < 0.
Proof.
  induction l as [|h l IH]; intros Z C; [elim C; intros h []|]. assert (Zh : 0 <= ev h z) by (apply Z; now left). assert (Zl : inter l z) by (intros k Hk; apply Z; now right).
  destruct (inter_dec l c) as [Cl|Cl].
  - assert (Ch : ev h c < 0). { apply fnle_lt. intros N. apply C. intros k [<-|Hk]; auto. } destruct (cross_mix h z c Zh Ch) as [t [T0 [T1 T2]]]. exists t, h. repeat split; auto; [now left|]. intros k [<-|Hk]; [rewrite (T2 : ev h _ = 0); flra|]. apply mix_left; auto; flra.
  - assert (Cl' : ~ inter l c). { intros N. destruct Cl as [k [K1 K2]]. pose proof (N k K1). flra. } destruct (IH Zl Cl') as [t [B [T0 [T1 [T2 [T3 [T4 T5]]]]]]]. destruct (ev h (mix t z c) <? 0) eqn:E; bools.
    + destruct (cross_mix h z (mix t z c) Zh E) as [s [S0 [S1 S2]]]. assert (EQ : mix s z (mix t z c) = mix (s * t) z c) by (unfold mix, vadd, vscale; apply vec_eq; cbn; ring). rewrite EQ in S2. exists (s * t), h. assert (ST : s * t < 1). { assert (0 <= s * (1 - t)) by (apply fmul_nonneg; flra). flra. } repeat split; auto; [now apply fmul_nonneg|now left| |].
      * intros k [<-|Hk]; [rewrite (S2 : ev h _ = 0); flra|]. rewrite <- EQ. apply mix_left; auto; flra.
      * rewrite ev_mix in E. apply fnle_lt. intros N. assert (0 <= (1 - t) * ev h z) by (apply fmul_nonneg; flra). assert (0 <= t * ev h c) by (apply fmul_nonneg; flra). flra.
    + exists t, B. repeat split; auto; [now right|]. intros k [<-|Hk]; auto.
Qed.

Lemma on_param_inj_move g p (t s : K) : line g -> vadd p (vscale t (tangent g)) = vadd p (vscale s (tangent g)) -> t = s.
Proof.
  intros L E. destruct (feq_dec (t - s) 0) as [Z|Z]; [flra|]. exfalso. apply (tangent_neq g p (t - s) L Z). injection E as E1 E2. apply vec_eq; cbn in *; [transitivity (fst p + t * g_c g - s * g_c g); [ring|rewrite E1; ring]|transitivity (snd p + t * - g_b g - s * - g_b g); [ring|rewrite E2; ring]].
Qed.
(** ** The edge of a triple *)
Definition nbr l A B C := exists u v : list (geo K), l = u ++ B :: v /\ A = last (v ++ u) B /\ C = hd B (v ++ u).
Definition edgeset l B x := in_disk x /\ on B x /\ inter l x.
Definition two_pts l B := exists a b, a <> b /\ edgeset l B a /\ edgeset l B b.
Definition proper (r : segment_set K) := match r with SegGeodesic _ | SegSegment _ _ _ => True | _ => False end.
Definition carrier B (r : segment_set K) := match r with SegGeodesic g | SegSegment g _ _ => g = B | _ => True end.
Definition tri A B C : res (segment_set K) :=
  AB <- configure A B ;;
  let AB := match AB with Concave => None | _ => intersection A B end in
  BC <- configure B C ;;
  let BC := match BC with Concave => None | _ => intersection B C end in
  segment_normalize B AB BC.
Lemma corner A B : line A -> line B -> exists c, configure A B = Ok c /\
  match (match c with Concave => None | _ => intersection A B end) with Some p => 0 < det A B /\ on A p /\ on B p | None => ~ 0 < det A B end.
Proof.
  intros LA LB. pose proof (configure_cases A B LA LB) as CC. destruct (configure A B) as [c|]; [|destruct CC]. exists c. split; auto. assert (Z : det A B = 0 -> match intersection A B with Some p => 0 < det A B /\ on A p /\ on B p | None => ~ 0 < det A B end) by (intros D; rewrite (cross_none A B D); intros Q; flra).
  destruct c; try (apply Z; apply CC).
  - destruct (crossing A B (fpos_neq0 _ CC)) as [p [-> [P1 P2]]]. auto.
  - intros Q. flra.
Qed.
Lemma seg_shape g (s e : option (vec K)) (r0 : segment_set K) : segment_normalize g s e = Ok r0 -> carrier g r0 /\ (forall p, r0 = SegPoint p -> finite p -> s = Some p /\ e = Some p).
Proof.
  unfold segment_normalize. destruct (geo_is_ultra_ideal g); [intros H; injection H as <-; split; [exact Logic.I|discriminate]|].
  match goal with |- bind ?W _ = _ -> _ => destruct W as [[]|]; [|discriminate] end. cbn [bind].
  assert (NF : forall (a : vec K) (b : bool) p, is_finite a = false -> (if b then SegEmpty else SegPoint a) = SegPoint p -> finite p -> False). { intros a b p A E F. destruct b; [discriminate|]. injection E as <-. apply is_finite_iff in F. congruence. }
  assert (CA : forall (a : vec K) (b : bool), carrier g (if b then SegEmpty else SegPoint a)) by (intros a []; exact Logic.I).
  assert (FIN : forall s' e' : option (vec K), (s' = None \/ s' = s) -> (e' = None \/ e' = e) -> match s', e' with
        | None, None => Ok (SegGeodesic g)
        | Some p, Some q => if veqb p q then Ok (SegPoint p) else Ok (SegSegment g s' e')
        | _, _ => Ok (SegSegment g s' e')
        end = Ok r0 -> carrier g r0 /\ (forall p, r0 = SegPoint p -> finite p -> s = Some p /\ e = Some p)).
  { intros s' e' S' E' H. destruct s' as [a|], e' as [b|]; try (injection H as <-; split; [reflexivity|discriminate]). destruct (veqb a b) eqn:V; injection H as <-; [|split; [reflexivity|discriminate]]. apply veqb_eq in V. subst b. split; [exact Logic.I|]. intros p E F. injection E as <-. destruct S' as [S'|S'], E' as [E'|E']; try discriminate. auto. }
  assert (END : forall s' : option (vec K), (s' = None \/ s' = s) -> bind (match e with
             | Some p => if negb (is_finite p) then l <- parametrize g p ;; if (sgn l <? 0)%Z then Ok (inl (if is_ultra_ideal p then SegEmpty else SegPoint p)) else Ok (inr None) else Ok (inr (Some p))
             | None => Ok (inr None) end) (fun e0 => match e0 with inl r => Ok r | inr fin => match s', fin with
        | None, None => Ok (SegGeodesic g)
        | Some p, Some q => if veqb p q then Ok (SegPoint p) else Ok (SegSegment g s' fin)
        | _, _ => Ok (SegSegment g s' fin)
        end end) = Ok r0 -> carrier g r0 /\ (forall p, r0 = SegPoint p -> finite p -> s = Some p /\ e = Some p)).
  { intros s' S' H. destruct e as [b|]; [|cbn [bind] in H; apply (FIN s' None); auto]. destruct (is_finite b) eqn:F; cbn [negb] in H; [cbn [bind] in H; apply (FIN s' (Some b)); auto|]. destruct (parametrize g b) as [q|]; [|discriminate]. cbn [bind] in H. destruct (sgn q <? 0)%Z; cbn [bind] in H; [|apply (FIN s' None); auto]. injection H as <-. split; [apply CA|]. intros p E Fp. exfalso. exact (NF _ _ _ F E Fp). }
  intros H. destruct s as [a|]; [|cbn [bind] in H; apply (END None); auto]. destruct (is_finite a) eqn:F; cbn [negb] in H; [cbn [bind] in H; apply (END (Some a)); auto|]. destruct (parametrize g a) as [q|]; [|discriminate]. cbn [bind] in H. destruct (0 <? sgn q)%Z; cbn [bind] in H; [|apply (END None); auto]. injection H as <-. split; [apply CA|]. intros p E Fp. exfalso. exact (NF _ _ _ F E Fp).
Qed.
Lemma before_iff A B p x : line B -> 0 < det A B -> on A p -> on B p -> on B x -> not_before B (Some p) x <-> 0 <= ev A x.
Proof.
  intros LB D PA PB X. destruct (on_from B p x LB PB X) as [t ->]. rewrite ev_move. apply (proj1 (ev_on _ _)) in PA. rewrite PA. cbn. fold (tangent B). split.
  - intros [E|[s [S E]]].
    + destruct (feq_dec t 0) as [->|N]; [flra|]. elim (tangent_neq B p t LB N E).
    + apply (on_param_inj_move B p t s LB) in E. subst. assert (0 < s * det A B) by (now apply fmul_pos). flra.
  - intros H. assert (0 <= t) by (apply (sign_mul t (det A B) D); flra). apply fle_lteq in H0. destruct H0 as [T| <-]; [right; now exists t|left]. apply vec_eq; cbn; ring.
Qed.
Lemma after_opt_iff B C q x : line B -> 0 < det B C -> on B q -> on C q -> on B x -> not_after B (Some q) x <-> 0 <= ev C x.
Proof.
  intros LB D QB QC X. destruct (on_from B q x LB QB X) as [t ->]. rewrite ev_move. apply (proj1 (ev_on _ _)) in QC. rewrite QC, (det_anti B C). cbn. fold (tangent B). split.
  - intros [E|[s [S E]]].
    + destruct (feq_dec t 0) as [->|N]; [flra|]. elim (tangent_neq B q t LB N E).
    + assert (E' : vadd q (vscale (t + s) (tangent B)) = q) by (rewrite E at 2; apply vec_eq; cbn; ring). destruct (feq_dec (t + s) 0) as [Z|N]; [|elim (tangent_neq B q _ LB N E')]. replace t with (- s) by flra. assert (0 < s * det B C) by (now apply fmul_pos). flra.
  - intros H. assert (H0 : 0 <= - t) by (apply (sign_mul (- t) (det B C) D); flra). apply fle_lteq in H0. destruct H0 as [T|T]; [right; exists (- t); split; auto; apply vec_eq; cbn; ring|left]. replace t with (0 : K) by flra. apply vec_eq; cbn; ring.
Qed.
Lemma nbr_rot l A B C : nbr l A B C -> exists t : list (geo K), A = last t B /\ C = hd B t /\ (good l -> good (B :: t)) /\ (CT l -> CT (B :: t)) /\ (forall z, inter (B :: t) z <-> inter l z) /\ (forall h, In h (B :: t) <-> In h l) /\ (t = [] -> l = [B]).
Proof.
  intros [u [v [-> [-> ->]]]]. exists (v ++ u). split; auto. split; auto. split; [|split; [|split; [|split]]].
  - intros G. now apply (good_rot u (B :: v)) in G.
  - intros G. now apply (CT_rot u (B :: v)) in G.
  - intros z. symmetry. apply (inter_rot u (B :: v)).
  - intros h. rewrite (app_comm_cons v u B), !in_app_iff. tauto.
  - intros E. apply app_eq_nil in E. destruct E as [-> ->]. reflexivity.
Qed.
Lemma last_in (t : list (geo K)) B : In (last t B) (B :: t).
Proof. destruct (snoc_cases t B) as [->|[t' E]]; [now left|]. right. rewrite E at 2. apply in_app_iff. right. now left. Qed.
Lemma hd_in (t : list (geo K)) B : In (hd B t) (B :: t).
Proof. destruct t; cbn; auto. Qed.
Lemma nbr_in l A B C : nbr l A B C -> In A l /\ In B l /\ In C l.
Proof. intros N. destruct (nbr_rot _ _ _ _ N) as [t [-> [-> [_ [_ [_ [I _]]]]]]]. repeat split; apply I; [apply last_in|now left|apply hd_in]. Qed.
Lemma tri_ok l A B C y : good l -> CT l -> Forall chord l -> inter l y -> nbr l A B C ->
  exists r, tri A B C = Ok r /\ normal_seg r /\ carrier B r /\ (forall x, set_of r x <-> edgeset l B x) /\
    (forall e : vec K, r = SegPoint e -> finite e -> opp A C /\ 0 < det A B /\ 0 < det B C /\ on A e /\ on B e).
Proof.
  intros G T CH Y N. destruct (nbr_rot _ _ _ _ N) as [t [EA [EC [G' [T' [IR [IN SI]]]]]]]. specialize (G' G). specialize (T' T). apply IR in Y. destruct (nbr_in _ _ _ _ N) as [NA [NB NC]].
  pose proof (proj1 (Forall_forall _ _) CH) as CH'. pose proof (chord_line _ (CH' _ NA)) as LA. pose proof (chord_line _ (CH' _ NB)) as LB. pose proof (chord_line _ (CH' _ NC)) as LC.
  destruct (corner A B LA LB) as [c1 [E1 H1]]. destruct (corner B C LB LC) as [c2 [E2 H2]]. unfold tri. rewrite E1, E2. cbn [bind].
  set (s := match c1 with Concave => None | _ => _ end) in *. set (e := match c2 with Concave => None | _ => _ end) in *. clearbody s e.
  assert (LO : t <> [] -> locok A B C) by (intros TN; subst A C; now apply CT_triple).
  assert (TN : forall p, s = Some p -> t <> []). { intros p -> ->. cbn in EA. subst A. rewrite det_self in H1. destruct H1 as [H1 _]. flra. }
  destruct (segment_normalize_ok B s e (CH' _ NB)) as [[r [E [NS [O H]]]]|[E [p [q [-> [-> AF]]]]]].
  - destruct s; cbn; tauto.
  - destruct e; cbn; tauto.
  - exists r. destruct (seg_shape _ _ _ _ E) as [CA FI]. split; auto. split; auto. split; auto. split.
    + intros x. rewrite H. unfold in_segment, edgeset. split; [intros [X1 [X2 [X3 X4]]]|intros [X1 [X2 X3]]]; (split; [auto|split; [auto|]]).
      * apply IR. apply (edge_in_all B t x y); auto; [rewrite <- EA|rewrite <- EC]; intros D; [destruct s as [p|]; [|tauto]; now apply (before_iff A B p x)|destruct e as [p|]; [|tauto]; now apply (after_opt_iff B C p x)].
      * split; [destruct s as [p|]; [|exact Logic.I]; apply (before_iff A B p x); try tauto; now apply X3|destruct e as [p|]; [|exact Logic.I]; apply (after_opt_iff B C p x); try tauto; now apply X3].
    + intros p RP F. destruct (FI p RP F) as [-> ->]. destruct H1 as [D1 [P1 P2]], H2 as [D2 [P3 P4]]. destruct (LO (TN p eq_refl) D1 D2 p P2 P4) as [L|[L1 L2]]; [|auto]. apply (proj1 (ev_on _ _)) in P1. exfalso. flra.
  - exfalso. destruct H1 as [D1 [P1 P2]], H2 as [D2 [P3 P4]]. destruct AF as [d [D E']]. fold (tangent B) in E'. assert (EV : ev A p = ev A q + d * det A B) by (rewrite E'; apply ev_move). assert (0 < d * det A B) by (now apply fmul_pos). apply (proj1 (ev_on _ _)) in P1. destruct (LO (TN p eq_refl) D1 D2 q P3 P4) as [L|[L1 L2]]; flra.
Qed.

(** ** Non-degenerate edges *)
Lemma proper_two r0 : normal_seg r0 -> proper r0 -> exists a b, a <> b /\ set_of r0 a /\ set_of r0 b.
Proof.
  assert (GEN : forall g p (d : K), chord g -> on g p -> finite p -> d * d = 1 -> exists t : K, 0 < t /\ finite (vadd p (vscale (t * d) (tangent g))) /\ on g (vadd p (vscale (t * d) (tangent g))) /\ vadd p (vscale (t * d) (tangent g)) <> p).
  { intros g p d CG Og Fp D. destruct (near_finite p (vscale d (tangent g)) Fp) as [e [E H]]. exists e. split; auto. split; [|split].
    - specialize (H e). assert (Q : finite (vadd p (vscale e (vscale d (tangent g))))) by (apply H; flra). replace (vadd p (vscale (e * d) (tangent g))) with (vadd p (vscale e (vscale d (tangent g)))); auto. apply vec_eq; cbn; ring.
    - apply ev_on. rewrite ev_move, det_self. apply (proj1 (ev_on _ _)) in Og. rewrite Og. ring.
    - apply tangent_neq; [now apply chord_line|]. apply fmul_neq0; [now apply fpos_neq0|]. intros Z. rewrite Z in D. pose proof (@flt_0_1 K). flra. }
  destruct r0 as [|p|g|g s e]; cbn; try tauto.
  - intros CG _. pose proof (chord_line _ CG) as LG. destruct (GEN g (at_param g 0) 1 CG (param_on g 0 LG) (center_finite g CG)) as [t [T [H1 [H2 H3]]]]; [ring|]. exists (vadd (at_param g 0) (vscale (t * 1) (tangent g))), (at_param g 0). split; auto. split; split; auto using finite_disk, center_finite, param_on.
  - intros [CG [NN [S [E SE]]]] _. unfold in_segment. destruct s as [p|].
    + destruct (S p eq_refl) as [Fp Op]. destruct e as [q|].
      * destruct (E q eq_refl) as [Fq Oq]. pose proof (SE p q eq_refl eq_refl) as AF. exists p, q. split; [intros X; subst q; destruct AF as [t [T X]]; symmetry in X; apply (tangent_neq g p t (chord_line _ CG) (fpos_neq0 _ T) X)|]. cbn. split; repeat split; auto using finite_disk.
      * destruct (GEN g p 1 CG Op Fp) as [t [T [H1 [H2 H3]]]]; [ring|]. exists (vadd p (vscale (t * 1) (tangent g))), p. cbn. split; auto. split; repeat split; auto using finite_disk. right. exists (t * 1). split; [flra|reflexivity].
    + destruct e as [q|]; [|destruct NN; congruence]. destruct (E q eq_refl) as [Fq Oq]. destruct (GEN g q (- (1)) CG Oq Fq) as [t [T [H1 [H2 H3]]]]; [ring|]. exists (vadd q (vscale (t * - (1)) (tangent g))), q. cbn. split; auto. split; repeat split; auto using finite_disk. right. exists t. split; auto. apply vec_eq; cbn; ring.
Qed.
Lemma two_proper r0 a b : a <> b -> set_of r0 a -> set_of r0 b -> proper r0.
Proof. destruct r0; cbn; try tauto. intros N -> ->. congruence. Qed.
Lemma proper_iff l B r0 : normal_seg r0 -> (forall x, set_of r0 x <-> edgeset l B x) -> proper r0 <-> two_pts l B.
Proof. intros N H. split; [intros P; destruct (proper_two r0 N P) as [a [b [NE [A1 A2]]]]; exists a, b; split; [auto|split; now apply H]|intros [a [b [NE [A1 A2]]]]; apply (two_proper r0 a b NE); now apply H]. Qed.
End Edge.
