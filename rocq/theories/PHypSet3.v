(** Proofs about [MHypSet]: cyclically ordered lists, a point of the intersection, and a half plane with an edge. *)
From Coq Require Import List Bool ZArith Lia Ring Field Sorted Permutation.
From Verif Require Import OField FMicromega PField MBase MEuclid PEuclid SEuclid PRotate MHyp SHyp PHyp PHyp2 PHyp3 PHyp4 PHyp7 MHypSet PHypSet PHypSet2.
Import ListNotations.

(** ** Sublists *)
Inductive sublist {A} : list A -> list A -> Prop :=
| sl_nil : sublist [] []
| sl_skip x l m : sublist l m -> sublist l (x :: m)
| sl_keep x l m : sublist l m -> sublist (x :: l) (x :: m).
Lemma sl_refl {A} (l : list A) : sublist l l.
Proof. induction l; [constructor|now apply sl_keep]. Qed.
Lemma sl_app {A} (l m u v : list A) : sublist l m -> sublist u v -> sublist (l ++ u) (m ++ v).
Proof. intros H X. induction H; cbn; auto; [now apply sl_skip|now apply sl_keep]. Qed.
Lemma sl_drop {A} (u v : list A) x : sublist (u ++ v) (u ++ x :: v).
Proof. apply sl_app; [apply sl_refl|]. apply sl_skip. apply sl_refl. Qed.
Lemma sl_filter {A} f (l : list A) : sublist (filter f l) l.
Proof. induction l; cbn; [constructor|]. destruct (f a); [now apply sl_keep|now apply sl_skip]. Qed.
Lemma sl_incl {A} (l m : list A) : sublist l m -> incl l m.
Proof. induction 1; intros z Z; [auto|right; auto|]. destruct Z as [<-|Z]; [now left|right; auto]. Qed.
Lemma sl_fop {A} (R : A -> A -> Prop) l m : sublist l m -> ForallOrdPairs R m -> ForallOrdPairs R l.
Proof.
  induction 1 as [|x l m H IH|x l m H IH]; intros F; auto; inversion F as [|? ? F1 F2]; subst; auto. constructor; auto. apply (incl_Forall (sl_incl _ _ H)); auto.
Qed.

Section Cyclic.
Context {K : OField}.
Add Field KF : (of_ft K).
Local Open Scope res_scope. Local Open Scope F_scope.
Implicit Types p q x y : vec K.
Implicit Types f g h u v w A B C : geo K.
Implicit Types l m : list (geo K).

Fixpoint cs l : Prop := match l with [] => True | x :: t => ForallOrdPairs (cyc x) t /\ cs t end.
Lemma cs_sub l m : sublist l m -> cs m -> cs l.
Proof. induction 1; cbn; auto; [tauto|]. intros [F C]. split; auto. apply (sl_fop _ l m); auto. Qed.
Lemma cs_snoc l (x : geo K) : cs (l ++ [x]) <-> cs l /\ ForallOrdPairs (fun y z : geo K => cyc y z x) l.
Proof.
  induction l as [|a l IH]; cbn.
  - split; intros; repeat split; auto; constructor.
  - rewrite IH. split.
    + intros [F [C G]]. apply fop_app in F. destruct F as [F [_ X]]. repeat split; auto. constructor; auto. rewrite Forall_forall. intros y Y. apply X; auto. now left.
    + intros [[F C] G]. inversion G as [|? ? G1 G2]; subst. rewrite Forall_forall in G1. repeat split; auto. apply fop_app. split; auto. split; [constructor; constructor|]. intros y z Y [<-|[]]. auto.
Qed.
Definition good l := Forall line l /\ distinct l /\ cs l.
Lemma good_sub l m : sublist l m -> good m -> good l.
Proof. intros S [A [B C]]. repeat split; [apply (incl_Forall (sl_incl _ _ S)); auto|apply (sl_fop _ l m); auto|apply (cs_sub l m); auto]. Qed.
Lemma good_rot1 (x : geo K) l : good (x :: l) -> good (l ++ [x]).
Proof.
  intros [A [B C]]. inversion A; subst. inversion B as [|? ? B1 B2]; subst. destruct C as [C1 C2]. rewrite Forall_forall in B1. split; [apply Forall_app; auto|]. split.
  - apply fop_app. split; auto. split; [constructor; constructor|]. intros y z Y [<-|[]] S. apply (B1 y Y). now apply same_dir_sym.
  - apply cs_snoc. split; auto. clear - C1. induction C1 as [|a l F H IH]; constructor; auto. rewrite Forall_forall in *. intros z Z. apply cyc_rot. auto.
Qed.
Lemma good_rot l m : good (l ++ m) -> good (m ++ l).
Proof.
  revert m. induction l as [|x l IH]; intros m G; [now rewrite app_nil_r|]. apply good_rot1 in G. rewrite <- app_assoc in G. apply IH in G. now rewrite <- app_assoc in G.
Qed.
Lemma ascending_good l : Forall line l -> ascending hs_lt l -> distinct l -> good l.
Proof.
  intros F S D. repeat split; auto. induction l as [|x l IH]; cbn; auto. inversion F as [|? ? Lx F']; subst. apply StronglySorted_inv in S. destruct S as [S Sx]. inversion D as [|? ? Dx D']; subst. split; auto.
  clear IH F D. induction l as [|y l IH]; [constructor|]. inversion F' as [|? ? Ly F'']; subst. apply StronglySorted_inv in S. destruct S as [S Sy]. inversion D' as [|? ? Dy D'']; subst. inversion Sx; subst. inversion Dx; subst. constructor; auto.
  rewrite Forall_forall in *. intros z Z. apply ascending_cyc; auto.
Qed.

(** ** A point of the intersection *)
Definition inside (lo hi : option K) (t : K) := before_opt lo t /\ after_opt hi t.
Lemma meet_above_iff (x : K) lo t : before_opt (meet_above x lo) t <-> x <= t /\ before_opt lo t.
Proof. destruct lo as [y|]; cbn; [|tauto]. destruct (x <? y) eqn:E; bools; split; intros; try split; try flra; tauto. Qed.
Lemma meet_below_iff (x : K) hi t : after_opt (meet_below x hi) t <-> t <= x /\ after_opt hi t.
Proof. destruct hi as [y|]; cbn; [|tauto]. destruct (x <? y) eqn:E; bools; split; intros; try split; try flra; tauto. Qed.
Definition nonempty (lo hi : option K) := match lo, hi with Some x, Some y => x <= y | _, _ => True end.
Lemma ev_param h g t s : ev h (at_param g t) = ev h (at_param g s) + (t - s) * det h g.
Proof. unfold at_param. rewrite !ev_move. ring. Qed.
Lemma param_on g t : line g -> on g (at_param g t).
Proof. intros L. rewrite ev_on. unfold at_param. rewrite ev_move, det_self. rewrite (foot_on g L : ev g (foot g) = 0). ring. Qed.
Lemma on_param g p : line g -> on g p -> exists t, p = at_param g t.
Proof. intros L O. destruct (on_point g p L O) as [t E]. now exists t. Qed.
Lemma sign_mul (x d : K) : 0 < d -> 0 <= x * d <-> 0 <= x.
Proof. intros D. split; intros H; [|apply fmul_nonneg; flra]. apply fnlt_le. intros C. assert (0 < (- x) * d) by (apply fmul_pos; flra). flra. Qed.
Lemma constrain_ok g : line g -> forall seen lo hi, Forall line seen -> nonempty lo hi -> exists o, constrain g seen lo hi = Ok o /\
  match o with
  | Some (lo', hi') => nonempty lo' hi' /\ forall t, inside lo' hi' t <-> inside lo hi t /\ inter seen (at_param g t)
  | None => forall t, ~ (inside lo hi t /\ inter seen (at_param g t))
  end.
Proof.
  intros L. induction seen as [|h seen IH]; intros lo hi F NE.
  { exists (Some (lo, hi)). split; auto. split; auto. intros t. split; [|tauto]. intros H. split; auto. intros h []. }
  inversion F as [|? ? Lh F']; subst. cbn [constrain]. assert (SPLIT : forall t, inter (h :: seen) (at_param g t) <-> 0 <= ev h (at_param g t) /\ inter seen (at_param g t)).
  { intros t. split; [intros H; split; [apply H; now left|intros k Hk; apply H; now right]|]. intros [A B] k [<-|Hk]; auto. }
  destruct (intersection g h) as [q|] eqn:E.
  - apply intersection_some in E. destruct E as [D [Og [Oh _]]]. destruct (parametrize_ok g q L Og) as [l [-> Q]]. cbn [bind]. rewrite (unparametrize_ok g _ L). cbn [bind].
    change (det g h <> 0) in D. fold (at_param g l) in Q. fold (at_param g (l + 1)). assert (EV : forall t, ev h (at_param g t) = (t - l) * det h g). { intros t. rewrite (ev_param h g t l), <- Q. rewrite (Oh : ev h q = 0). ring. }
    rewrite (det_anti h g) in D. assert (D' : det h g <> 0) by (intros Z; apply D; rewrite Z; ring).
    assert (CN : contains h (at_param g (l + 1)) = true <-> 0 < det h g). { rewrite contains_iff, EV. replace ((l + 1 - l) * det h g) with (det h g) by ring. split; intros H; [apply fneq_lt in D'; destruct D'; flra|flra]. }
    assert (STEP : forall lo1 hi1, (forall t, inside lo1 hi1 t <-> inside lo hi t /\ 0 <= ev h (at_param g t)) -> exists o, match lo1, hi1 with Some x, Some y => if y <? x then Ok None else constrain g seen lo1 hi1 | _, _ => constrain g seen lo1 hi1 end = Ok o /\
      match o with Some (lo', hi') => nonempty lo' hi' /\ forall t, inside lo' hi' t <-> inside lo hi t /\ inter (h :: seen) (at_param g t) | None => forall t, ~ (inside lo hi t /\ inter (h :: seen) (at_param g t)) end).
    { intros lo1 hi1 EQ. assert (GO : nonempty lo1 hi1 -> exists o, constrain g seen lo1 hi1 = Ok o /\
        match o with Some (lo', hi') => nonempty lo' hi' /\ forall t, inside lo' hi' t <-> inside lo hi t /\ inter (h :: seen) (at_param g t) | None => forall t, ~ (inside lo hi t /\ inter (h :: seen) (at_param g t)) end).
      { intros NE1. destruct (IH lo1 hi1 F' NE1) as [o [-> H]]. exists o. split; auto. destruct o as [[lo' hi']|].
        - destruct H as [H1 H2]. split; auto. intros t. rewrite H2, EQ, SPLIT. tauto.
        - intros t [A B]. apply SPLIT in B. apply (H t). rewrite EQ. tauto. }
      destruct lo1 as [x|], hi1 as [y|]; try (apply GO; exact I). destruct (y <? x) eqn:C; bools; [|apply GO; exact C]. exists None. split; auto. intros t [A B]. apply SPLIT in B. assert (X : inside (Some x) (Some y) t) by (apply EQ; tauto). destruct X as [X Y]. cbn in X, Y. flra. }
    destruct (contains h (at_param g (l + 1))) eqn:C.
    + apply STEP. intros t. unfold inside. rewrite meet_above_iff, EV. assert (DP : 0 < det h g) by tauto. rewrite (sign_mul _ _ DP). split; intros H; repeat split; try tauto; destruct H as [[H1 H2] H3]; flra.
    + apply STEP. intros t. unfold inside. rewrite meet_below_iff, EV. assert (DP : 0 < - det h g). { apply fneq_lt in D'. destruct D' as [D'|D']; [flra|]. apply CN in D'. discriminate. } replace ((t - l) * det h g) with ((l - t) * - det h g) by ring. rewrite (sign_mul _ _ DP). split; intros H; repeat split; try tauto; [destruct H as [H1 [H2 H3]]|destruct H as [[H1 H2] H3]]; flra.
  - apply intersection_none in E. change (det g h = 0) in E. rewrite (unparametrize_ok g _ L). cbn [bind]. fold (at_param g 0). assert (EV : forall t, ev h (at_param g t) = ev h (at_param g 0)). { intros t. rewrite (ev_param h g t 0), (det_anti g h), E. ring. }
    destruct (contains h (at_param g 0)) eqn:C.
    + apply contains_iff in C. destruct (IH lo hi F' NE) as [o [-> H]]. exists o. split; auto. destruct o as [[lo' hi']|].
      * destruct H as [H1 H2]. split; auto. intros t. rewrite H2, SPLIT, EV. tauto.
      * intros t [A B]. apply SPLIT in B. apply (H t). tauto.
    + exists None. split; auto. intros t [A B]. apply SPLIT in B. destruct B as [B _]. rewrite EV in B. apply contains_iff in B. congruence.
Qed.
(** the choice of an element of an interval *)
Definition picks (pick : option K -> option K -> K) := forall lo hi, nonempty lo hi -> inside lo hi (pick lo hi).
Lemma find_point_ok pick : picks pick -> forall rest seen p, Forall line seen -> Forall line rest -> inter seen p -> (exists h, In h (seen ++ rest) /\ on h p) -> exists o, find_point pick seen rest p = Ok o /\
  match o with Some q => inter (seen ++ rest) q /\ (exists h, In h (seen ++ rest) /\ on h q) | None => forall x, ~ inter (seen ++ rest) x end.
Proof.
  intros PK. induction rest as [|h rest IH]; intros seen p Fs Fr I O; cbn [find_point].
  { rewrite app_nil_r in *. exists (Some p). auto. }
  inversion Fr as [|? ? Lh Fr']; subst. assert (Fs' : Forall line (seen ++ [h])) by (apply Forall_app; auto). assert (EQ : (seen ++ [h]) ++ rest = seen ++ h :: rest) by (rewrite <- app_assoc; reflexivity).
  destruct (contains h p) eqn:C.
  - apply contains_iff in C. destruct (IH (seen ++ [h]) p) as [o [-> H]]; auto; [intros k Hk; apply in_app_or in Hk; destruct Hk as [Hk|[<-|[]]]; auto|rewrite EQ; auto|]. exists o. rewrite EQ in H. auto.
  - assert (N : ev h p < 0). { apply fnle_lt. intros N. apply contains_iff in N. congruence. }
    destruct (constrain_ok h Lh seen None None Fs Logic.I) as [o [-> H]]. cbn [bind]. destruct o as [[lo hi]|].
    + destruct H as [NE H]. pose proof (PK lo hi NE) as X. apply H in X. destruct X as [_ X]. rewrite (unparametrize_ok h _ Lh). cbn [bind]. fold (at_param h (pick lo hi)). destruct (IH (seen ++ [h]) (at_param h (pick lo hi))) as [o [-> H']]; auto.
      * intros k Hk. apply in_app_or in Hk. destruct Hk as [Hk|[<-|[]]]; auto. rewrite (param_on h (pick lo hi) Lh : ev h _ = 0). flra.
      * exists h. split; [rewrite EQ; memb|now apply param_on].
      * exists o. rewrite EQ in H'. auto.
    + exists None. split; auto. intros x X. assert (Hx : 0 <= ev h x) by (apply X; memb). destruct (cross_mix h x p Hx N) as [t [T0 [T1 T2]]]. destruct (on_param h _ Lh T2) as [s S]. apply (H s). split; [split; exact Logic.I|]. rewrite <- S. intros k Hk. apply mix_left; auto; [flra|apply X; memb].
Qed.

(** ** An edge through a point *)
(** at least two points of the line are in the intersection *)
Definition edge l h := exists x y, x <> y /\ inter l x /\ inter l y /\ on h x /\ on h y.
Lemma tangent_neq h p t : line h -> t <> 0 -> vadd p (vscale t (tangent h)) <> p.
Proof.
  intros L T E. assert (E1 : fst (vadd p (vscale t (tangent h))) = fst p) by (now rewrite E). assert (E2 : snd (vadd p (vscale t (tangent h))) = snd p) by (now rewrite E). cbn in E1, E2.
  assert (X : t * g_c h = 0) by flra. assert (Y : t * g_b h = 0) by flra. apply fmul_eq0 in X, Y. destruct X as [X|X]; [tauto|]. destruct Y as [Y|Y]; [tauto|]. destruct L; tauto.
Qed.
(** points near by are on the same side of the lines that do not contain the point *)
Lemma nearby l p (h : geo K) (s : K) : (forall g, In g l -> 0 < ev g p) -> exists e, 0 < e /\ forall g, In g l -> 0 <= ev g (vadd p (vscale (e * s) (tangent h))).
Proof.
  induction l as [|g l IH]; intros H; [exists 1; split; [apply flt_0_1|intros g []]|]. destruct IH as [e [E HE]]; [intros; apply H; now right|]. pose proof (H g (or_introl eq_refl)) as P.
  set (d := s * det g h). assert (EV : forall r, ev g (vadd p (vscale (r * s) (tangent h))) = ev g p + r * d) by (intros; rewrite ev_move; unfold d; ring). clearbody d.
  assert (EX : exists r, 0 < r /\ r <= e /\ 0 <= ev g p + r * d).
  { destruct (d <? 0) eqn:D; bools; cycle 1. { exists e. repeat split; auto; [flra|]. assert (0 <= e * d) by (apply fmul_nonneg; flra). flra. }
    rename D into D'. destruct (ev g p / - d <? e) eqn:C; bools.
    - exists (ev g p / - d). assert (ND : 0 < - d) by flra. repeat split; [now apply fdiv_pos|flra|]. assert (X : ev g p / - d * d = - ev g p) by (assert (X : ev g p / - d * - d = ev g p) by (apply fdiv_mul, fpos_neq0; flra); flra). rewrite X. flra.
    - exists e. repeat split; auto; [flra|]. assert (X : ev g p / - d * d = - ev g p) by (assert (X : ev g p / - d * - d = ev g p) by (apply fdiv_mul, fpos_neq0; flra); flra). assert (0 <= (ev g p / - d - e) * - d) by (apply fmul_nonneg; flra). flra. }
  destruct EX as [r [R0 [R1 R2]]]. exists r. split; auto. intros k [<-|Hk]; [rewrite EV; exact R2|]. specialize (HE k Hk). rewrite ev_move in *. assert (Pk : 0 < ev k p) by (apply H; now right).
  set (c := s * det k h) in *. replace (r * s * det k h) with (r * c) by (unfold c; ring). replace (e * s * det k h) with (e * c) in HE by (unfold c; ring). clearbody c. destruct (c <? 0) eqn:Q; bools; cycle 1.
  - assert (0 <= r * c) by (apply fmul_nonneg; flra). flra.
  - assert (0 <= (e - r) * - c) by (apply fmul_nonneg; flra). flra.
Qed.
Lemma edge_near l p h s : line h -> inter l p -> on h p -> s <> 0 -> (forall g, In g l -> on g p -> 0 <= s * det g h) -> edge l h.
Proof.
  intros L I O S H. destruct (nearby (filter (fun g => negb (ev g p =? 0)) l) p h s) as [e [E HE]].
  { intros g G. apply filter_In in G. destruct G as [G N]. apply negb_true_iff in N. bools. pose proof (I g G). apply fneq_lt in N. destruct N; flra. }
  exists p, (vadd p (vscale (e * s) (tangent h))). repeat split; auto.
  - intros Q. symmetry in Q. revert Q. apply tangent_neq; auto. apply fmul_neq0; auto. now apply fpos_neq0.
  - intros g G. destruct (ev g p =? 0) eqn:Z.
    + bools. rewrite ev_move, Z. assert (X : 0 <= e * (s * det g h)) by (apply fmul_nonneg; [flra|apply H; auto]). flra.
    + apply HE. apply filter_In. rewrite Z. auto.
  - rewrite ev_on, ev_move, det_self, (O : ev h p = 0). ring.
Qed.
(** convex corners all around a point *)
Lemma all_convex h l p x : line h -> Forall line l -> l <> [] -> (forall g, In g (h :: l) -> on g p /\ 0 <= ev g x) ->
  (forall u v, In (u, v) (combine (h :: l) (l ++ [h])) -> 0 < det u v) -> x = p.
Proof.
  intros L F NE ALL CV. assert (EV : forall g, In g (h :: l) -> ev g p = 0) by (intros g G; apply ALL; auto).
  (* a consecutive pair where the sign of det h _ changes *)
  assert (CH : forall m z, (forall u v, In (u, v) (combine (z :: m) (m ++ [h])) -> 0 < det u v) -> 0 < det h z -> exists g g', In g (z :: m) /\ In g' (m ++ [h]) /\ 0 < det h g /\ 0 < det g g' /\ det h g' <= 0 /\ (exists k, In k (z :: m) /\ 0 < det k h)).
  { induction m as [|y m IH]; intros z CV' Z.
    - exists z, h. assert (X : 0 < det z h) by (apply CV'; now left). rewrite (det_anti h z) in X. exfalso. flra.
    - assert (X : 0 < det z y) by (apply CV'; now left). assert (LAST : exists k, In k (y :: m) /\ 0 < det k h).
      { clear - CV'. revert z y CV'. induction m as [|w m IH]; intros z y CV'; [exists y; split; [now left|apply CV'; right; now left]|]. destruct (IH y w) as [k [K1 K2]]; [intros u v H; apply CV'; right; auto|]. exists k. split; [now right|auto]. }
      destruct (0 <? det h y) eqn:Y.
      + destruct (IH y) as [g [g' [G1 [G2 [G3 [G4 [G5 [k [G6 G7]]]]]]]]]; [intros u v H; apply CV'; right; auto|auto|]. exists g, g'. repeat split; auto; [now right|memb|]. exists k. split; [now right|auto].
      + bools. exists z, y. repeat split; auto; [now left|memb|]. destruct LAST as [k [K1 K2]]. exists k. split; [now right|auto]. }
  destruct l as [|z m]; [tauto|]. assert (Z : 0 < det h z) by (apply CV; now left). destruct (CH m z) as [g [g' [G1 [G2 [G3 [G4 [G5 [k [G6 G7]]]]]]]]]; [intros u v H; apply CV; right; auto|auto|].
  assert (Hh := ALL h (or_introl eq_refl)). assert (Hg := ALL g (or_intror G1)). assert (Hg' : on g' p /\ 0 <= ev g' x) by (apply ALL; memb). assert (Hk := ALL k (or_intror G6)).
  pose proof (comb h g g' x p (proj1 Hg) (proj1 Hg')) as E. rewrite (proj1 Hh : ev h p = 0) in E. destruct Hh as [Oh Ph], Hg as [Og Pg], Hg' as [Og' Pg'], Hk as [Ok Pk].
  assert (Q1 : 0 <= (- det h g') * ev g x) by (apply fmul_nonneg; flra). assert (Q2 : 0 <= det g g' * ev h x) by (apply fmul_nonneg; flra). assert (Q3 : 0 <= det h g * ev g' x) by (apply fmul_nonneg; flra).
  assert (Z1 : ev h x = 0). { assert (X : det g g' * ev h x = 0) by flra. apply fmul_eq0 in X. destruct X as [X|X]; auto. exfalso. flra. }
  assert (Z2 : ev g' x = 0). { assert (X : det h g * ev g' x = 0) by flra. apply fmul_eq0 in X. destruct X as [X|X]; auto. exfalso. flra. }
  destruct (feq_dec (det h g') 0) as [D|D]; [|apply (independent h g'); auto; [rewrite Z1; symmetry; exact Oh|rewrite Z2; symmetry; exact Og']].
  destruct (on_from h p x L Oh Z1) as [t ->]. rewrite ev_move in Pg, Pk. rewrite (Og : ev g p = 0) in Pg. rewrite (Ok : ev k p = 0) in Pk. rewrite (det_anti h g) in Pg.
  assert (T0 : t = 0). { apply fle_antisym; apply fnlt_le; intros T; [pose proof (fmul_pos _ _ T G3)|pose proof (neg_pos _ _ T G7)]; flra. } subst t. apply vec_eq; cbn; ring.
Qed.

Lemma combine_rot (h : geo K) l u v : In (u, v) (combine (h :: l) (l ++ [h])) -> exists a b, (h :: l = a ++ u :: b) /\ hd_error (b ++ a ++ [u]) = Some v.
Proof.
  assert (G : forall l z pre, In (u, v) (combine (z :: l) (l ++ [h])) -> hd_error (pre ++ [z]) = Some h -> exists a b, pre ++ z :: l = a ++ u :: b /\ hd_error (b ++ a ++ [u]) = Some v).
  { clear l. induction l as [|y l IH]; intros z pre H P.
    - cbn in H. destruct H as [H|[]]. injection H as <- <-. exists pre, []. split; auto.
    - cbn [app combine] in H. destruct H as [H|H].
      + injection H as <- <-. exists pre, (y :: l). split; auto.
      + destruct (IH y (pre ++ [z])) as [a [b [E1 E2]]]; auto; [destruct pre; cbn in *; auto|]. exists a, b. split; auto. rewrite <- E1, <- app_assoc. reflexivity. }
  intros H. apply (G l h []); auto.
Qed.
Lemma extend_loop_ok l p : (3 <= length l)%nat -> good l -> (forall g, In g l -> on g p) -> forall pairs, (forall u v, In (u, v) pairs -> exists a b, l = a ++ u :: b /\ hd_error (b ++ a ++ [u]) = Some v) ->
  (extend_loop pairs p = Ok (if is_ultra_ideal p then HEmpty else HPoint p) /\ (forall u v, In (u, v) pairs -> 0 < det u v)) \/ (exists h, extend_loop pairs p = Ok (HHalfSpace h) /\ In h l /\ forall g, In g l -> 0 <= det g h).
Proof.
  intros LEN G ON. induction pairs as [|[u v] pairs IH]; intros H; cbn [extend_loop].
  { left. split; [destruct (is_ultra_ideal p); auto|intros u v []]. }
  destruct (H u v (or_introl eq_refl)) as [a [b [E HV]]]. subst l. apply good_rot in G. cbn [app] in G. assert (R : exists w t, b ++ a = v :: w :: t). { rewrite app_assoc in HV. rewrite app_length in LEN. cbn in LEN. assert (X : (2 <= length (b ++ a))%nat) by (rewrite app_length; lia). destruct (b ++ a) as [|x [|w t]]; cbn in X; try lia. cbn in HV. injection HV as ->. eauto. }
  destruct R as [w [t R]]. rewrite R in G. destruct G as [GL [GD GC]]. inversion GL as [|? ? Lu GL']; subst. inversion GL' as [|? ? Lv GL'']; subst. inversion GD as [|? ? Du GD']; subst. inversion Du as [|? ? Duv Du']; subst.
  assert (SUB : forall g, In g (a ++ u :: b) <-> g = u \/ g = v \/ In g (w :: t)). { intros g. assert (X : In g (b ++ a) <-> In g (v :: w :: t)) by (rewrite R; tauto). rewrite in_app_iff in X |- *. cbn [In] in X |- *. assert (Eu : u = g <-> g = u) by (split; auto). assert (Ev : v = g <-> g = v) by (split; auto). tauto. }
  assert (HS : det u v <= 0 -> forall g, In g (a ++ u :: b) -> 0 <= det g u). { intros N g X. apply SUB in X. destruct X as [->|[->|X]]; [rewrite det_self; flra|rewrite (det_anti u v); flra|]. cbn [cs] in GC. destruct GC as [GC _]. inversion GC as [|? ? GC1 _]; subst. rewrite Forall_forall in GC1. destruct (GC1 g X) as [[C1 C2]|[[C1 C2]|[C1 C2]]]; flra. }
  assert (Inu : In u (a ++ u :: b)) by (apply SUB; auto). assert (Inv : In v (a ++ u :: b)) by (apply SUB; auto).
  pose proof (configure_cases u v Lu Lv) as CC. destruct (configure u v) as [[]|]; cbn [bind].
  - elim Duv. exact CC.
  - right. exists u. split; auto. split; auto. apply HS. destruct CC as [CC _]. flra.
  - elim Duv. exact CC.
  - destruct CC as [D [N NO]]. exfalso. apply NO. apply neg_opp; auto. destruct (scale_normal u (geo_neg v) Lu) as [s [S [B [C _]]]].
    { split; [unfold det in *; cbn; flra|]. unfold dotn in *. cbn. flra. }
    pose proof (ON u Inu) as Pu. pose proof (ON v Inv) as Pv. assert (X : geo_neg v = scale_geo s u). { apply geo_ext; auto. cbn. unfold on in *. cbn in B, C. assert (Bv : g_b v = - (s * g_b u)) by flra. assert (Cv : g_c v = - (s * g_c u)) by flra. rewrite Bv, Cv in Pv. assert (Q : g_a u = - (g_b u * fst p + g_c u * snd p)) by flra. rewrite Q. flra. }
    rewrite X. now apply scale_same.
  - destruct IH as [[E1 E2]|E1]; [intros; apply H; now right| |].
    + left. split; auto. intros u' v' [X|X]; [injection X as <- <-; exact CC|auto].
    + right. auto.
  - right. exists u. split; auto. split; auto. apply HS. flra.
  - destruct CC.
Qed.
(** the set of the result of [euclidean_boundary] *)
Definition boundary_spec l (r : hyp_set K) := match r with
  | HEmpty => forall x, inter l x -> ~ in_disk x
  | HPoint p => in_disk p /\ forall x, inter l x <-> x = p
  | HHalfSpace h => In h l /\ edge l h
  | _ => False end.
Lemma extend_to_boundary_ok l p : good l -> inter l p -> (exists h, In h l /\ on h p) -> exists r, extend_to_boundary l p = Ok r /\ boundary_spec l r.
Proof.
  intros G I [h [Hh O]]. unfold extend_to_boundary. set (f := filter (fun h => geo_eval h p =? 0) l).
  assert (IN : forall g, In g f <-> In g l /\ on g p). { intros g. unfold f. rewrite filter_In. rewrite feqb_eq. tauto. }
  assert (GF : good f) by (apply (good_sub f l); auto; apply sl_filter). assert (L : forall g, In g l -> line g) by (destruct G as [G _]; rewrite Forall_forall in G; auto).
  assert (EDGE : forall g s, In g f -> s <> 0 -> (forall k, In k f -> 0 <= s * det k g) -> exists r, Ok (HHalfSpace g) = Ok r /\ boundary_spec l r).
  { intros g s Hg S HS. exists (HHalfSpace g). split; auto. apply IN in Hg. destruct Hg as [Hg Og]. split; auto. apply (edge_near l p g s); auto. intros k K1 K2. apply HS. apply IN. auto. }
  assert (Hf : In h f) by (apply IN; auto). clearbody f. destruct f as [|a [|b [|c t]]]; [destruct Hf| | |].
  - apply (EDGE a 1); [now left|apply fpos_neq0, flt_0_1|]. intros k [<-|[]]. rewrite det_self. flra.
  - destruct (0 <? det b a) eqn:D; bools.
    + apply (EDGE a 1); [now left|apply fpos_neq0, flt_0_1|]. intros k [<-|[<-|[]]]; rewrite ?det_self; flra.
    + apply (EDGE a (- (1))); [now left|intros Z; apply (fpos_neq0 _ (@flt_0_1 K)); flra|]. intros k [<-|[<-|[]]]; rewrite ?det_self; flra.
  - set (f := b :: c :: t) in *. destruct (extend_loop_ok (a :: f) p) with (pairs := combine (a :: f) (f ++ [a])) as [[E CV]|[g [E [G1 G2]]]]; auto; [cbn; lia|intros g Hg; apply IN; auto|intros; now apply combine_rot| |].
    + rewrite E. assert (ONLY : forall x, inter l x -> x = p). { intros x X. destruct GF as [GF _]. inversion GF as [|? ? La Lf]; subst. apply (all_convex a f p x); auto; [discriminate|]. intros g Hg. apply IN in Hg. split; [tauto|]. apply X. tauto. }
      eexists. split; [reflexivity|]. destruct (is_ultra_ideal p) eqn:U.
      * intros x X D. rewrite (ONLY x X) in D. apply ultra_iff in D. congruence.
      * apply ultra_iff in U. split; auto. intros x. split; [apply ONLY|]. now intros ->.
    + rewrite E. apply (EDGE g 1); auto; [apply fpos_neq0, flt_0_1|]. intros k Hk. specialize (G2 k Hk). flra.
Qed.
Lemma euclidean_boundary_ok pick l shuffled : picks pick -> Permutation l shuffled -> l <> [] -> good l -> exists r, euclidean_boundary pick l shuffled = Ok r /\ boundary_spec l r.
Proof.
  intros PK PM NE G. unfold euclidean_boundary. destruct l as [|a [|b l]]; [tauto| |].
  - exists (HHalfSpace a). split; auto. destruct G as [G _]. inversion G as [|? ? La _]; subst. split; [now left|]. apply (edge_near [a] (foot a) a 1); auto; [|now apply foot_on|apply fpos_neq0, flt_0_1|].
    + intros h [<-|[]]. rewrite (foot_on a La : ev a (foot a) = 0). flra.
    + intros g [<-|[]] _. rewrite det_self. flra.
  - set (l0 := a :: b :: l) in *. destruct shuffled as [|h s]; [apply Permutation_sym, Permutation_nil in PM; discriminate|]. assert (IN : forall g, In g l0 <-> In g (h :: s)) by (intros g; split; [apply Permutation_in; auto|apply Permutation_in; now apply Permutation_sym]).
    assert (FL : Forall line (h :: s)) by (apply (Permutation_Forall PM); apply G). pose proof (Forall_inv FL) as Lh. rewrite (an_element_ok h Lh). cbn [bind].
    destruct (find_point_ok pick PK (h :: s) [] (foot h)) as [o [-> H]]; auto; [intros g []|exists h; split; [now left|now apply foot_on]|]. cbn [bind]. cbn [app] in H. assert (EI : forall x, inter (h :: s) x <-> inter l0 x) by (intros x; split; intros X g Hg; apply X, IN, Hg). destruct o as [p|].
    + destruct H as [H1 [g [H2 H3]]]. apply extend_to_boundary_ok; auto; [now apply EI|]. exists g. split; auto. now apply IN.
    + exists HEmpty. split; auto. intros x X _. apply (H x). now apply EI.
Qed.
End Cyclic.
