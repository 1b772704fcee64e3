(** Proofs about [MHypSet]: the half planes that are redundant in the Euclidean plane. *)
From Coq Require Import List Bool ZArith Lia Ring Field Sorted Permutation.
From Verif Require Import OField FMicromega PField MBase MEuclid PEuclid SEuclid PRotate MHyp SHyp PHyp PHyp2 PHyp3 PHyp4 PHyp7 MHypSet PHypSet PHypSet2 PHypSet3.
Import ListNotations.

Section Drop.
Context {K : OField}.
Add Field KF : (of_ft K).
Local Open Scope res_scope. Local Open Scope F_scope.
Implicit Types p q x y z : vec K.
Implicit Types f g h i j s u v w A B C : geo K.
Implicit Types l m t r : list (geo K).

(** the corners of [B] are in order *)
Definition locok A B C := 0 < det A B -> 0 < det B C -> forall x, on B x -> on C x -> 0 < ev A x \/ (ev A x = 0 /\ opp A C).
Lemma opp_zero A C x : opp A C -> ev A x = 0 <-> ev C x = 0.
Proof. intros [s [S ->]]. rewrite scale_ev. split; intros H; [rewrite H; ring|]. apply fmul_eq0 in H. destruct H as [H|H]; auto. exfalso. flra. Qed.
Lemma nonneg_sum2 (a b x y : K) : 0 < a -> 0 < b -> 0 <= x -> 0 <= y -> a * x + b * y <= 0 -> x = 0 /\ y = 0.
Proof.
  intros A B X Y S. assert (0 <= a * x) by (apply fmul_nonneg; flra). assert (0 <= b * y) by (apply fmul_nonneg; flra).
  assert (E1 : a * x = 0) by flra. assert (E2 : b * y = 0) by flra. apply fmul_eq0 in E1, E2. destruct E1 as [E1|E1]; [exfalso; flra|]. destruct E2 as [E2|E2]; [exfalso; flra|]. auto.
Qed.
Lemma configure_self A : line A -> configure A A = Ok Equal.
Proof.
  intros L. unfold configure. rewrite (cross_none A A (det_self A)). pose proof (line_pos A L) as P. rewrite sgn_zero, sgn_pos. assert (Q : geo_eqb true A A = true) by (apply (eqb_oriented A A L L); intros p; tauto). rewrite Q.
  destruct (g_b A * g_b A + g_c A * g_c A =? 0) eqn:Z; bools; [exfalso; flra|]. unfold flt in P. rewrite P. reflexivity.
Qed.
Lemma is_required_ok A B C x y : line A -> line B -> line C -> ~ same_dir A B -> ~ same_dir B C -> C = A \/ cyc A B C -> x <> y -> inter [A; B; C] x -> inter [A; B; C] y ->
  exists b, is_required A B C = Ok b /\ if b then locok A B C else forall z, 0 <= ev A z -> 0 <= ev C z -> 0 <= ev B z.
Proof.
  intros LA LB LC N1 N2 CY NE IX IY. unfold is_required. pose proof (configure_cases A B LA LB) as AB. pose proof (configure_cases B C LB LC) as BC. pose proof (configure_cases A C LA LC) as AC.
  assert (HC : forall P : Prop, C = A -> 0 < det A B -> 0 < det B C -> P). { intros P -> D1 D2. rewrite (det_anti A B) in D2. exfalso. flra. }
  assert (VAC : forall D : Prop, ~ 0 < det A B \/ ~ 0 < det B C -> locok A B C) by (unfold locok; tauto).
  destruct (configure A B) as [[]|]; try tauto; cbn [bind].
  3:{ destruct (configure B C) as [[]|]; try tauto; cbn [bind].
    - destruct (configure A C) as [c|]; [|tauto]. cbn [bind]. exists true. split; auto. intros _ D. destruct BC as [BC _]. exfalso. flra.
    - destruct (configure A C) as [c|]; [|tauto]. cbn [bind]. exists true. split; auto. intros _ D. destruct BC as [BC _]. exfalso. flra.
    - destruct CY as [->|CY]; [apply (HC _ eq_refl AB BC)|].
      destruct (crossing B C (fpos_neq0 _ BC)) as [p [EI [OB OC]]].
      assert (MAIN : (opp A C -> False) -> ev A p <= 0 -> forall z, 0 <= ev A z -> 0 <= ev C z -> 0 <= ev B z).
      { intros NO AP z ZA ZC. pose proof (comb A B C z p OB OC) as E. destruct (sgn_cases (det A C)) as [[D _]|[[D _]|[D _]]].
        - assert (0 <= det B C * (ev A z - ev A p)) by (apply fmul_nonneg; flra). assert (0 <= det A B * ev C z) by (apply fmul_nonneg; flra). apply (sign_mul _ _ D). replace (ev B z * det A C) with (det A C * ev B z) by ring. flra.
        - exfalso. apply NO. (* opposite *) rewrite D in E. assert (ND : dotn A C < 0). { pose proof (dot_det A C LA LC D) as N. apply fneq_lt in N. destruct N as [N|N]; auto. exfalso. destruct (scale_normal A C LA (Logic.conj D N)) as [r [R [Eb [Ec _]]]]. rewrite (det_scale_r A C B r Eb Ec), (det_anti A B) in BC. pose proof (fmul_pos _ _ R AB). flra. }
          destruct (scale_normal A (geo_neg C) LA) as [r [R [Eb [Ec _]]]]; [split; [unfold det in *; cbn; flra|unfold dotn in *; cbn; flra]|]. cbn in Eb, Ec.
          assert (EV : forall z, ev C z = - (r * ev A z) + r * ev A p). { intros z'. assert (OC' := OC). unfold on in OC'. unfold ev, geo_eval. assert (Eb' : g_b C = - (r * g_b A)) by flra. assert (Ec' : g_c C = - (r * g_c A)) by flra. rewrite Eb', Ec' in *. assert (Q : g_a C = r * g_b A * fst p + r * g_c A * snd p) by flra. rewrite Q. ring. }
          assert (XA : 0 <= ev A x) by (apply IX; now left). assert (XC : 0 <= ev C x) by (apply IX; right; right; now left). rewrite EV in XC.
          assert (P0 : ev A p = 0). { assert (0 <= r * ev A x) by (apply fmul_nonneg; flra). assert (0 <= r * - ev A p) by (apply fmul_nonneg; flra). assert (Q : r * ev A p = 0) by flra. apply fmul_eq0 in Q. destruct Q as [Q|Q]; auto. exfalso. flra. }
          exists r. split; auto. apply geo_ext; cbn; [|flra|flra]. pose proof (EV (0, 0)) as E0. rewrite P0 in E0. unfold ev, geo_eval in E0. cbn in E0. flra.
        - exfalso. assert (Z : forall w : vec K, inter [A; B; C] w -> ev B w = 0 /\ ev C w = 0). { intros w W. assert (WA : 0 <= ev A w) by (apply W; now left). assert (WB : 0 <= ev B w) by (apply W; right; now left). assert (WC : 0 <= ev C w) by (apply W; right; right; now left). pose proof (comb A B C w p OB OC) as E'. apply (nonneg_sum2 (- det A C) (det A B)); auto; [flra|]. assert (0 <= det B C * (ev A w - ev A p)) by (apply fmul_nonneg; flra). flra. }
          apply NE. destruct (Z x IX) as [X1 X2]. destruct (Z y IY) as [Y1 Y2]. apply (independent B C); [now apply fpos_neq0|congruence|congruence]. }
      assert (UN : forall z, on B z -> on C z -> z = p). { intros z Z1 Z2. apply (independent B C); [now apply fpos_neq0|rewrite (OB : ev B p = 0); exact Z1|rewrite (OC : ev C p = 0); exact Z2]. }
      assert (REST : (opp A C -> False) -> exists b, Ok (contains A p && negb (geo_eval A p =? 0)) = Ok b /\ if b then locok A B C else forall z, 0 <= ev A z -> 0 <= ev C z -> 0 <= ev B z).
      { intros NO. eexists. split; [reflexivity|]. destruct (contains A p) eqn:CP; cbn [andb].
        - apply contains_iff in CP. change (geo_eval A p) with (ev A p). destruct (ev A p =? 0) eqn:Z; cbn [negb]; bools.
          + apply MAIN; auto. flra.
          + intros _ _ z Z1 Z2. rewrite (UN z Z1 Z2). left. apply fneq_lt in Z. destruct Z; flra.
        - apply MAIN; auto. apply fnlt_le. intros N. assert (N' : 0 <= ev A p) by flra. apply contains_iff in N'. congruence. }
      assert (DAC : forall P : Prop, opp A C -> (det A C = 0 /\ dotn A C < 0)). { intros _ [r [R ->]]. split; [unfold det; cbn; ring|]. unfold dotn. cbn. pose proof (fmul_pos _ _ R (line_pos A LA)). flra. }
      destruct (configure A C) as [[]|]; try tauto; cbn [bind]; rewrite ?EI; try (apply REST; intros O; destruct (DAC True O); destruct AC; flra).
      + exists true. split; auto. intros _ _ z Z1 Z2. right. destruct AC as [_ [_ O]]. split; auto. apply (opp_zero A C z O). exact Z2.
      + apply REST. tauto.
      + apply REST. intros O. destruct (DAC True O). flra.
      + apply REST. intros O. destruct (DAC True O). flra.
    - destruct CY as [->|CY].
      + rewrite (configure_self A LA). cbn [bind]. exists true. split; [reflexivity|]. intros _ D. exfalso. flra.
      + assert (D : det A C < 0). { rewrite (det_anti C A) in *. destruct CY as [[C1 C2]|[[C1 C2]|[C1 C2]]]; rewrite ?(det_anti A C) in *; flra. }
        destruct (configure A C) as [[]|]; cbn [bind]; try (exfalso; destruct AC; flra); try (exfalso; flra); try tauto. exists true. split; auto. intros _ D'. exfalso. flra. }
  all: destruct (configure B C) as [bc|]; [|tauto]; cbn [bind]; destruct (configure A C) as [ac|]; [|tauto]; cbn [bind]; exists true; (split; [reflexivity|]); intros D; exfalso; match type of AB with _ /\ _ => destruct AB as [AB _] | _ => idtac end; flra.
Qed.

(** ** Lists of half planes with corners in order *)
Fixpoint lin l : Prop := match l with a :: ((b :: c :: _) as t) => locok a b c /\ lin t | _ => True end.
Lemma lin_tail a l : lin (a :: l) -> lin l.
Proof. destruct l as [|b [|c l]]; cbn; tauto. Qed.
Lemma lin_right l m : lin (l ++ m) -> lin m.
Proof. induction l as [|a l IH]; auto. intros H. apply IH. now apply (lin_tail a). Qed.
Lemma lin_left l m : lin (l ++ m) -> lin l.
Proof.
  induction l as [|a l IH]; [cbn; auto|]. intros H. pose proof (lin_tail _ _ H) as H'. apply IH in H'. destruct l as [|b [|c l]]; cbn; auto. cbn in H. split; [tauto|exact H'].
Qed.
Lemma lin_snoc l a b c : lin (l ++ [a; b]) -> locok a b c -> lin (l ++ [a; b; c]).
Proof.
  intros H L. induction l as [|x l IH]; [cbn; auto|]. pose proof (lin_tail _ _ H) as H'. apply IH in H'. destruct l as [|y [|z l]]; cbn in *; tauto.
Qed.
Definition CT l := lin (l ++ firstn 2 l).
Lemma CT_rot1 a l : CT (a :: l) -> CT (l ++ [a]).
Proof.
  unfold CT. destruct l as [|b [|c l]]; [cbn; auto|cbn; tauto|]. intros H. cbn [firstn app] in *.
  assert (H1 : lin ((b :: c :: l) ++ [a; b])) by (apply (lin_tail a); exact H). assert (H2 : locok a b c) by apply H.
  pose proof (lin_snoc _ _ _ _ H1 H2) as H3. cbn [app] in H3. rewrite <- app_assoc. exact H3.
Qed.
Lemma CT_rot l m : CT (l ++ m) -> CT (m ++ l).
Proof.
  revert m. induction l as [|a l IH]; intros m H; [now rewrite app_nil_r|]. apply CT_rot1 in H. rewrite <- app_assoc in H. apply IH in H. now rewrite <- app_assoc in H.
Qed.
Lemma CT_lin l : CT l -> lin l. Proof. apply lin_left. Qed.
Lemma snoc_cases {T} (l : list T) d : l = [] \/ exists l' : list T, l = l' ++ [last l d].
Proof. destruct l as [|a l]; [now left|]. right. exists (removelast (a :: l)). apply app_removelast_last. discriminate. Qed.
Lemma last_snoc {T} (l : list T) a d : last (l ++ [a]) d = a.
Proof. apply last_last. Qed.
Lemma CT_triple B t : CT (B :: t) -> t <> [] -> locok (last t B) B (hd B t).
Proof.
  intros H N. apply CT_rot1 in H. destruct (snoc_cases t B) as [->|[t' E]]; [tauto|]. set (A := last t B) in *. clearbody A. subst t. rewrite <- app_assoc in H. cbn [app] in H. unfold CT in H.
  destruct t' as [|c [|d t']]; cbn [app firstn hd] in *.
  - apply H.
  - apply H.
  - rewrite <- app_assoc in H. apply (lin_right (c :: d :: t') ([A; B] ++ [c; d])) in H. apply H.
Qed.

(** ** Corners in order are enough *)
Fixpoint conv l : Prop := match l with a :: ((b :: _) as t) => 0 < det a b /\ conv t | _ => True end.
Lemma conv_right l m : conv (l ++ m) -> conv m.
Proof. induction l as [|a l IH]; auto. intros H. apply IH. cbn [app] in H. destruct (l ++ m); cbn in *; tauto. Qed.
Lemma conv_left l m : conv (l ++ m) -> conv l.
Proof. induction l as [|a l IH]; [cbn; auto|]. intros H. destruct l as [|b l]; [cbn; auto|]. cbn [app] in H. destruct H as [H1 H2]. split; auto. Qed.
Lemma chain_forward j : forall m b x, Forall line (j :: m ++ [b]) -> lin (j :: m ++ [b]) -> conv (j :: m ++ [b]) -> (forall s, In s (m ++ [b]) -> 0 <= det j s) -> on b x -> 0 <= ev (last m j) x -> 0 <= ev j x.
Proof.
  induction m as [|s m IH] using rev_ind; intros b x F LN CV D O X; [exact X|]. rewrite last_snoc in X.
  assert (E0 : exists m'' , j :: m = m'' ++ [last m j]). { destruct (snoc_cases m j) as [->|[m' E]]; [exists []; auto|]. exists (j :: m'). cbn. now rewrite <- E. } destruct E0 as [m'' E0].
  rewrite <- app_assoc in *. cbn [app] in *. assert (EQ : j :: m ++ [s; b] = (j :: m) ++ [s; b]) by reflexivity. assert (EQ' : (j :: m) ++ [s; b] = m'' ++ [last m j; s; b]) by (rewrite E0, <- app_assoc; reflexivity).
  set (p := last m j) in *. clearbody p. assert (L3 : lin [p; s; b]) by (apply (lin_right m''); rewrite <- EQ', <- EQ; exact LN). assert (C3 : conv [p; s; b]) by (apply (conv_right m''); rewrite <- EQ', <- EQ; exact CV). cbn in L3, C3.
  assert (NSB : det s b <> 0) by (apply fpos_neq0; tauto). destruct (crossing s b NSB) as [v [_ [Os Ob]]].
  assert (LB : line b) by (rewrite Forall_forall in F; apply F; right; memb).
  assert (V : 0 <= ev j v). { apply (IH s v); auto.
    - rewrite Forall_forall in *. intros g G. apply F. cbn [In] in *. rewrite in_app_iff in *. cbn [In] in *. tauto.
    - apply (lin_left _ [b]). cbn [app]. rewrite <- app_assoc. exact LN.
    - apply (conv_left _ [b]). cbn [app]. rewrite <- app_assoc. exact CV.
    - intros g G. apply D. memb.
    - assert (Q : 0 < ev p v \/ ev p v = 0 /\ opp p b) by (apply L3; tauto). destruct Q as [Q|[Q _]]; flra. }
  destruct (on_from b v x LB Ob O) as [t ->]. rewrite ev_move in *. rewrite (Os : ev s v = 0) in X. assert (T : 0 <= t) by (apply (sign_mul t (det s b)); [tauto|flra]). assert (0 <= t * det j b) by (apply fmul_nonneg; auto; apply D; memb). flra.
Qed.
Lemma chain_backward j : forall m i x, Forall line (i :: m ++ [j]) -> lin (i :: m ++ [j]) -> conv (i :: m ++ [j]) -> (forall s, In s (i :: m) -> 0 <= det s j) -> on i x -> 0 <= ev (hd j m) x -> 0 <= ev j x.
Proof.
  induction m as [|s m IH]; intros i x F LN CV D O X; [exact X|]. cbn [hd app] in *. assert (E0 : exists m', m ++ [j] = hd j m :: m') by (destruct m; cbn; eauto). destruct E0 as [m' E0].
  set (n := hd j m) in *. rewrite E0 in LN, CV. cbn [lin conv] in LN, CV. destruct LN as [LK LN], CV as [C1 [C2 CV]]. destruct (crossing i s (fpos_neq0 _ C1)) as [v [_ [Oi Os]]]. destruct (crossing s n (fpos_neq0 _ C2)) as [w [_ [Os' On]]].
  assert (Li : line i) by (now inversion F). assert (Ls : line s) by (inversion F as [|? ? _ F']; now inversion F').
  assert (W : 0 <= ev i w) by (destruct (LK C1 C2 w Os' On) as [Q|[Q _]]; flra).
  assert (NV : 0 <= ev n v). { destruct (on_from s v w Ls Os Os') as [t ->]. rewrite ev_move in W. rewrite (Oi : ev i v = 0) in W. unfold on in On. change (ev n (vadd v (vscale t (tangent s))) = 0) in On. rewrite ev_move in On. rewrite (det_anti s n) in On. assert (T : 0 <= t) by (apply (sign_mul t (det i s)); [tauto|flra]). assert (0 <= t * det s n) by (apply fmul_nonneg; flra). flra. }
  assert (V : 0 <= ev j v). { apply (IH s v); auto; [now inversion F|rewrite E0; destruct m'; cbn in *; tauto|rewrite E0; cbn; auto|]. intros g G. apply D. now right. }
  destruct (on_from i v x Li Oi O) as [t ->]. rewrite ev_move in *. rewrite (Os : ev s v = 0), (det_anti i s) in X. assert (T : 0 <= - t) by (apply (sign_mul (- t) (det i s)); [tauto|flra]). rewrite (det_anti i j). assert (0 <= (- t) * det i j) by (apply fmul_nonneg; auto; apply D; now left). flra.
Qed.
Lemma conv_from j l : ForallOrdPairs (cyc j) l -> (forall s, In s l -> 0 <= det j s) -> (forall s, l = [s] -> 0 < det j s) -> conv (j :: l).
Proof.
  intros F D S. assert (H : forall s s' l', l = s :: s' :: l' -> 0 < det j s). { intros s s' l' ->. inversion F as [|? ? F1 _]; subst. inversion F1 as [|? ? C _]; subst. pose proof (D s' (or_intror (or_introl eq_refl))) as D'. unfold cyc in C. rewrite (det_anti j s') in C. destruct C as [[C1 C2]|[[C1 C2]|[C1 C2]]]; flra. }
  destruct l as [|s l]; [cbn; auto|]. split; [destruct l as [|s' l']; [apply S; auto|apply (H s s' l'); auto]|]. clear S H.
  revert s F D. induction l as [|s' l IH]; intros s F D; [cbn; auto|]. inversion F as [|? ? F1 F2]; subst. split; [|apply IH; auto; intros; apply D; now right].
  inversion F1 as [|? ? C _]; subst. pose proof (D s' (or_intror (or_introl eq_refl))) as D'. unfold cyc in C. rewrite (det_anti j s') in C. destruct C as [[C1 C2]|[[C1 C2]|[C1 C2]]]; flra.
Qed.
Lemma edge_in_all B t x y : good (B :: t) -> CT (B :: t) -> inter (B :: t) y -> on B x -> (0 < det (last t B) B -> 0 <= ev (last t B) x) -> (0 < det B (hd B t) -> 0 <= ev (hd B t) x) -> inter (B :: t) x.
Proof.
  intros G CK Y O HA HC j [<-|J]; [rewrite (O : ev B x = 0); flra|]. apply in_split in J. destruct J as [u [w E]].
  assert (GF : good (j :: w ++ B :: u)). { subst t. change (B :: u ++ j :: w) with ((B :: u) ++ j :: w) in G. apply good_rot in G. exact G. }
  assert (LF : lin (t ++ [B])) by (apply CT_lin, CT_rot1; exact CK). assert (LB : lin (B :: t)) by (now apply CT_lin).
  assert (FW : 0 < det j B \/ (det j B = 0 /\ w <> []) -> 0 <= ev j x).
  { intros D. assert (D0 : 0 <= det j B) by (destruct D as [D|[D _]]; flra). destruct GF as [G1 [G2 [G3 G4]]]. assert (E1 : j :: w ++ B :: u = (j :: w ++ [B]) ++ u) by (cbn; rewrite <- app_assoc; reflexivity). assert (E2 : w ++ B :: u = (w ++ [B]) ++ u) by (rewrite <- app_assoc; reflexivity).
    rewrite E2 in G3. apply fop_app in G3. destruct G3 as [G3 _].
    assert (POS : forall s, In s w -> 0 < det j s). { intros s S. apply fop_app in G3. destruct G3 as [_ [_ G3]]. pose proof (G3 s B S (or_introl eq_refl)) as C. unfold cyc in C. rewrite (det_anti j B) in C. destruct C as [[C1 C2]|[[C1 C2]|[C1 C2]]]; flra. }
    assert (NN : forall s, In s (w ++ [B]) -> 0 <= det j s). { intros s S. apply in_app_or in S. destruct S as [S|[<-|[]]]; [pose proof (POS s S); flra|]. destruct D as [D|[D _]]; flra. }
    assert (CV : conv (j :: w ++ [B])). { apply conv_from; auto. intros s S. destruct w as [|a w]; cbn in S; [injection S as <-; destruct D as [D|[_ D]]; tauto|]. destruct w; discriminate. }
    apply (chain_forward j w B x); auto.
    - rewrite E1 in G1. apply Forall_app in G1. tauto.
    - apply (lin_right u). rewrite E in LF. rewrite <- app_assoc in LF. exact LF.
    - assert (LA : last t B = last w j). { rewrite E. clear. destruct (snoc_cases w j) as [->|[w' W]]; [apply last_snoc|]. rewrite W at 1. replace (u ++ j :: w' ++ [last w j]) with ((u ++ j :: w') ++ [last w j]) by (rewrite <- app_assoc; reflexivity). apply last_snoc. }
      rewrite <- LA. apply HA. rewrite LA. destruct (snoc_cases w j) as [->|[w' W]]; [cbn; destruct D as [D|[_ D]]; tauto|]. rewrite W in CV. set (a := last w j) in *. clearbody a. replace (j :: (w' ++ [a]) ++ [B]) with ((j :: w') ++ [a; B]) in CV by (cbn; rewrite <- app_assoc; reflexivity). apply conv_right in CV. cbn in CV. tauto. }
  assert (BW : 0 < det B j \/ (det B j = 0 /\ u <> []) -> 0 <= ev j x).
  { intros D. assert (D0 : 0 <= det B j) by (destruct D as [D|[D _]]; flra). destruct G as [G1 [G2 [G3 G4]]]. rewrite E in G1, G3. assert (E1 : B :: u ++ j :: w = (B :: u ++ [j]) ++ w) by (cbn; rewrite <- app_assoc; reflexivity). assert (E2 : u ++ j :: w = (u ++ [j]) ++ w) by (rewrite <- app_assoc; reflexivity).
    rewrite E2 in G3. apply fop_app in G3. destruct G3 as [G3 _].
    assert (POS : forall s, In s u -> 0 < det B s /\ 0 < det s j). { intros s S. apply fop_app in G3. destruct G3 as [_ [_ G3]]. pose proof (G3 s j S (or_introl eq_refl)) as C. unfold cyc in C. rewrite (det_anti B j) in C. destruct C as [[C1 C2]|[[C1 C2]|[C1 C2]]]; split; flra. }
    assert (NN : forall s, In s (u ++ [j]) -> 0 <= det B s). { intros s S. apply in_app_or in S. destruct S as [S|[<-|[]]]; [pose proof (POS s S); flra|]. destruct D as [D|[D _]]; flra. }
    assert (CV : conv (B :: u ++ [j])). { apply conv_from; auto. intros s S. destruct u as [|a u]; cbn in S; [injection S as <-; destruct D as [D|[_ D]]; tauto|]. destruct u; discriminate. }
    apply (chain_backward j u B x); auto.
    - rewrite E1 in G1. apply Forall_app in G1. tauto.
    - rewrite E, E1 in LB. now apply lin_left in LB.
    - intros s [<-|S]; [destruct D as [D|[D _]]; flra|]. pose proof (POS s S). flra.
    - assert (LA : hd B t = hd j u) by (rewrite E; destruct u; reflexivity). rewrite <- LA. apply HC. rewrite LA. destruct u as [|a u]; cbn in *; [destruct D as [D|[_ D]]; tauto|tauto]. }
  destruct (sgn_cases (det j B)) as [[D _]|[[D _]|[D _]]].
  - apply FW. auto.
  - destruct w as [|a w]; [|apply FW; right; split; [auto|discriminate]]. destruct u as [|a u]; [|apply BW; right; split; [rewrite (det_anti j B), D; ring|discriminate]].
    cbn in E. subst t. assert (Yj : 0 <= ev j y) by (apply Y; right; now left). assert (Yb : 0 <= ev B y) by (apply Y; now left).
    destruct G as [G1 [G2 _]]. inversion G1 as [|? ? LB' G1']; subst. inversion G1' as [|? ? Lj _]; subst. inversion G2 as [|? ? N _]; subst. inversion N as [|? ? ND _]; subst.
    assert (DD : det B j = 0) by (rewrite (det_anti j B), D; ring). pose proof (par_eval B j x y DD) as P. rewrite (O : ev B x = 0) in P. pose proof (dot_det B j LB' Lj DD) as DN. assert (DN' : dotn B j < 0) by (apply fneq_lt in DN; destruct DN as [DN|DN]; auto; elim ND; split; auto).
    pose proof (line_pos B LB') as LP. change (g_b B * g_b B + g_c B * g_c B) with (dotn B B) in LP. assert (Q : 0 <= (- dotn B j) * ev B y) by (apply fmul_nonneg; flra). assert (Q' : 0 <= dotn B B * ev j y) by (apply fmul_nonneg; flra). apply (sign_mul _ _ LP). replace (ev j x * dotn B B) with (dotn B B * ev j x) by ring. flra.
  - apply BW. left. rewrite (det_anti j B). flra.
Qed.

(** ** The loop *)
Lemma drop_loop_ok first l0 x y : x <> y -> inter l0 x -> inter l0 y -> forall fuel req rest t0, (2 * length rest + length req <= fuel)%nat -> rev req = first :: t0 -> good (rev req ++ rest) ->
  (forall z, inter (rev req ++ rest) z <-> inter l0 z) -> lin (rev req ++ [hd first rest]) ->
  exists t, drop_loop fuel first req rest = Ok (first :: t) /\ good (first :: t) /\ (forall z, inter (first :: t) z <-> inter l0 z) /\ lin (first :: t ++ [first]) /\ incl (first :: t) (rev req ++ rest).
Proof.
  intros NE IX IY. induction fuel as [|fuel IH]; intros req rest t0 LE R G EI LN.
  { destruct req; [discriminate|]. cbn in LE. lia. }
  destruct rest as [|B rest].
  { cbn [drop_loop]. rewrite app_nil_r in *. exists t0. cbn [hd] in LN. rewrite R in *. destruct req; repeat split; auto; try apply G; try (apply EI); apply incl_refl. }
  destruct req as [|A req]; [discriminate|]. cbn [drop_loop].
  set (C := hd first rest). cbn [rev] in R, G, EI, LN. assert (G' : good (A :: B :: rest ++ rev req)). { apply good_rot in G. change (B :: rest) with ([B] ++ rest) in G. replace (([B] ++ rest) ++ rev req ++ [A]) with ((B :: rest ++ rev req) ++ [A]) in G by (cbn; rewrite <- app_assoc; reflexivity). apply good_rot in G. exact G. }
  assert (CE : C = hd A (rest ++ rev req)). { unfold C. destruct rest; [|reflexivity]. cbn [app hd]. clear - R. destruct (rev req) as [|a q]; cbn in *; injection R; congruence. }
  assert (INC : forall z, inter l0 z -> inter [A; B; C] z). { intros z Z h H. apply EI in Z. apply Z. rewrite !in_app_iff. cbn [In]. destruct H as [<-|[<-|[<-|[]]]]; [tauto|tauto|]. unfold C. destruct rest; cbn [hd]; [|cbn [In]; tauto]. assert (X : In first (rev req ++ [A])) by (rewrite R; now left). apply in_app_or in X. cbn [In] in X. tauto. }
  destruct G' as [GL [GD GC]]. inversion GL as [|? ? LA GL']; subst. inversion GL' as [|? ? LB GL'']; subst. inversion GD as [|? ? DA GD']; subst. inversion DA as [|? ? DAB DA']; subst. inversion GD' as [|? ? DB _]; subst.
  assert (LC : line C /\ ~ same_dir B C /\ (C = A \/ cyc A B C)). { rewrite CE. destruct (rest ++ rev req) as [|c q] eqn:Q; cbn [hd].
    - split; auto. split; auto. intros S. apply DAB. now apply same_dir_sym.
    - inversion GL'' as [|? ? Lc _]; subst. inversion DB as [|? ? DBc _]; subst. split; auto. split; auto. right. destruct GC as [GC _]. inversion GC as [|? ? GC1 _]; subst. now inversion GC1. }
  destruct LC as [LC [DBC CY]]. destruct (is_required_ok A B C x y LA LB LC DAB DBC CY NE (INC x IX) (INC y IY)) as [b [-> HB]]. cbn [bind]. destruct b.
  - assert (EQ : rev (B :: A :: req) ++ rest = (rev req ++ [A]) ++ B :: rest) by (cbn [rev]; rewrite <- !app_assoc; reflexivity).
    destruct (IH (B :: A :: req) rest (t0 ++ [B])) as [t [E1 [E2 [E3 [E4 E5]]]]].
    + cbn in *. lia.
    + cbn [rev]. rewrite R. reflexivity.
    + rewrite EQ. exact G.
    + rewrite EQ. exact EI.
    + cbn [rev]. fold C. cbn [hd] in LN. rewrite <- !app_assoc in *. cbn [app] in *. apply lin_snoc; auto.
    + rewrite EQ in E5. cbn [rev]. exists t. repeat split; auto; try apply E2; apply E3.
  - assert (DR : forall pre, (forall z, inter (pre ++ B :: rest) z <-> inter l0 z) -> In A pre -> (rest = [] -> In C pre) -> forall z, inter (pre ++ rest) z <-> inter l0 z).
    { intros pre EP IA IC z. rewrite <- EP. split; intros H h Hh; [|apply H; memb]. rewrite in_app_iff in Hh. cbn [In] in Hh. destruct Hh as [Hh|[<-|Hh]]; [apply H; memb| |apply H; memb]. apply HB; apply H; [memb|]. unfold C in *. destruct rest as [|c rest]; [apply in_or_app; left; apply IC; auto|cbn [hd]; memb]. }
    assert (SUB : sublist ((rev req ++ [A]) ++ rest) ((rev req ++ [A]) ++ B :: rest)) by apply sl_drop. assert (G2 := good_sub _ _ SUB G).
    assert (EI2 : forall z, inter ((rev req ++ [A]) ++ rest) z <-> inter l0 z). { apply DR; auto; [memb|]. intros ->. unfold C. cbn [hd]. rewrite R. now left. }
    destruct req as [|A' req].
    + destruct (IH [A] rest t0) as [t [E1 [E2 [E3 [E4 E5]]]]]; auto; [cbn in *; lia|]. exists t. repeat split; auto; try apply E2; try apply E3. intros h Hh. apply E5 in Hh. cbn [rev app In] in *. tauto.
    + assert (EQ : rev (A' :: req) ++ A :: rest = (rev (A' :: req) ++ [A]) ++ rest) by (rewrite <- app_assoc; reflexivity).
      assert (R' : exists t1, rev (A' :: req) = first :: t1). { destruct (rev (A' :: req)) as [|a q] eqn:Q; [cbn in Q; destruct (rev req); discriminate|]. cbn in R. injection R as -> _. eauto. } destruct R' as [t1 R'].
      destruct (IH (A' :: req) (A :: rest) t1) as [t [E1 [E2 [E3 [E4 E5]]]]].
      * cbn in *. lia.
      * exact R'.
      * rewrite EQ. exact G2.
      * rewrite EQ. exact EI2.
      * cbn [hd]. apply lin_left in LN. exact LN.
      * exists t. repeat split; auto; try apply E2; try apply E3. intros h Hh. apply E5 in Hh. rewrite EQ in Hh. cbn [rev] in *. memb.
Qed.
Lemma index_of_ok h : line h -> forall l k, Forall line l -> In h l -> exists (i : nat) (x : geo K), index_of h l k = Some (k + i)%nat /\ nth_error l i = Some x /\ (forall p, on x p <-> on h p).
Proof.
  intros L. induction l as [|a l IH]; intros k F I; [destruct I|]. cbn [index_of]. inversion F as [|? ? La F']; subst. destruct (geo_eqb true a h) eqn:E.
  - exists 0%nat, a. rewrite Nat.add_0_r. repeat split; auto; apply (eqb_oriented a h La L) in E; destruct (same_scale a h La L E) as [s [S ->]]; unfold on in *; cbn; intros Q.
    + transitivity (s * (g_a a + g_b a * fst p + g_c a * snd p)); [ring|rewrite Q; ring].
    + assert (X : s * (g_a a + g_b a * fst p + g_c a * snd p) = 0) by (rewrite <- Q; ring). apply fmul_eq0 in X. destruct X as [X|X]; auto. exfalso. flra.
  - destruct I as [->|I]; [assert (X : geo_eqb true h h = true) by (apply (eqb_oriented h h L L); intros p; tauto); congruence|]. destruct (IH (Datatypes.S k) F' I) as [i [x [E1 [E2 E3]]]]. exists (Datatypes.S i), x. split; [rewrite E1; f_equal; lia|auto].
Qed.
Lemma edge_corner A B C x y : line B -> on B x -> on B y -> x <> y -> inter [A; C] x -> inter [A; C] y -> locok A B C.
Proof.
  intros L OX OY NE IX IY D1 D2 v V1 V2. left. destruct (on_from B v x L V1 OX) as [t X]. destruct (on_from B v y L V1 OY) as [s Y]. subst x y.
  assert (TS : t <> s) by congruence. pose proof (IX C (or_intror (or_introl eq_refl))) as XC. pose proof (IY C (or_intror (or_introl eq_refl))) as YC. pose proof (IX A (or_introl eq_refl)) as XA. pose proof (IY A (or_introl eq_refl)) as YA. rewrite !ev_move in *. rewrite (V2 : ev C v = 0), (det_anti B C) in *.
  assert (T0 : 0 <= - t) by (apply (sign_mul (- t) (det B C)); auto; flra). assert (S0 : 0 <= - s) by (apply (sign_mul (- s) (det B C)); auto; flra).
  destruct (feq_dec t 0) as [Z|Z].
  - subst t. assert (SN : 0 < - s) by (apply fneq_lt in TS; destruct TS; flra). pose proof (fmul_pos _ _ SN D1). flra.
  - assert (SN : 0 < - t) by (apply fneq_lt in Z; destruct Z; flra). pose proof (fmul_pos _ _ SN D1). flra.
Qed.
Lemma rotated_set_rot l : exists u v : list (geo K), l = u ++ v /\ rotated_set hs_lt l = v ++ u.
Proof.
  unfold rotated_set. destruct l as [|a l]; [exists [], []; auto|]. set (k := min_index hs_lt a 0 0 (a :: l)). exists (firstn k (a :: l)), (skipn k (a :: l)). split; [symmetry; apply firstn_skipn|reflexivity].
Qed.
Lemma inter_rot l m z : inter (l ++ m) z <-> inter (m ++ l) z.
Proof. split; intros H h X; apply H; memb. Qed.
Lemma min_index_ok : forall l (full P : list (geo K)) (best : geo K) (k i : nat), Forall line full -> full = P ++ l -> i = length P -> nth_error full k = Some best -> (forall y : geo K, In y P -> hs_lt y best = false) ->
  exists m : geo K, nth_error full (min_index hs_lt best k i l) = Some m /\ forall y : geo K, In y full -> hs_lt y m = false.
Proof.
  induction l as [|x l IH]; intros full P best k i F E EI N H; cbn [min_index].
  - exists best. split; auto. rewrite app_nil_r in E. subst full. auto.
  - assert (E' : full = (P ++ [x]) ++ l) by (rewrite <- app_assoc; exact E). assert (EL : S i = length (P ++ [x])) by (rewrite app_length, EI; cbn; lia). rewrite Forall_forall in F. assert (Lx : line x) by (apply F; rewrite E; memb). assert (Lb : line best) by (apply F; now apply nth_error_In in N).
    destruct (hs_lt x best) eqn:L.
    + apply (IH full (P ++ [x])); auto; [now apply Forall_forall|rewrite E, nth_error_app2, EI, Nat.sub_diag by lia; reflexivity|]. intros y Hy. apply in_app_iff in Hy. destruct Hy as [Hy|[<-|[]]]; [|now apply hs_irrefl]. destruct (hs_lt y x) eqn:Q; auto. assert (Ly : line y) by (apply F; rewrite E; memb). specialize (H y Hy). rewrite (hs_trans y x best Ly Lx Lb Q L) in H. discriminate.
    + apply (IH full (P ++ [x])); auto; [now apply Forall_forall|]. intros y Hy. apply in_app_iff in Hy. destruct Hy as [Hy|[<-|[]]]; auto.
Qed.
Lemma lt_or_gt u v : line u -> line v -> ~ same_dir u v -> hs_lt u v = true \/ hs_lt v u = true.
Proof.
  intros Lu Lv N. destruct (hs_lt u v) eqn:A; auto. destruct (hs_lt v u) eqn:B; auto. exfalso. apply N. assert (E : eqv hs_lt u v) by (now split). apply hs_eqv in E; auto. destruct E as [k [Pk ->]]. unfold same_dir, det, dotn, scale_geo. cbn. split; [ring|]. assert (0 < g_b u * g_b u + g_c u * g_c u) by (apply fsum_sq_pos; unfold line in Lu; tauto). assert (0 < k * (g_b u * g_b u + g_c u * g_c u)) by (now apply fmul_pos). flra.
Qed.
Lemma cyc_anti u v w : cyc u v w -> cyc u w v -> False.
Proof. unfold cyc. rewrite (det_anti v w), (det_anti u v), (det_anti u w). intros [[A B]|[[A B]|[A B]]] [[C D]|[[C D]|[C D]]]; flra. Qed.
Lemma rotated_ascending l : good l -> ascending hs_lt (rotated_set hs_lt l).
Proof.
  intros G. destruct l as [|a l]; [constructor|]. unfold rotated_set. set (full := a :: l) in *. destruct (min_index_ok full full [] a 0 0) as [m [N M]]; auto; [apply G|intros y []|]. set (k := min_index hs_lt a 0 0 full) in *. clearbody k.
  apply nth_error_split in N. destruct N as [u [v [E EL]]]. rewrite E in *. subst k. rewrite skipn_app, skipn_all, Nat.sub_diag, firstn_app, firstn_all, Nat.sub_diag. cbn [skipn firstn app]. rewrite app_nil_r. apply good_rot in G. cbn [app] in G.
  assert (M' : forall y : geo K, In y (v ++ u) -> hs_lt y m = false) by (intros y Hy; apply M; memb). set (t := v ++ u) in *. clearbody t. clear - G M'. destruct G as [L [D C]]. inversion L as [|? ? Lm Lt]; subst. inversion D as [|? ? Dm Dt]; subst. rewrite Forall_forall in Dm, Lt.
  assert (MIN : forall y : geo K, In y t -> hs_lt m y = true) by (intros y Hy; destruct (lt_or_gt m y Lm (Lt y Hy) (Dm y Hy)) as [Q|Q]; auto; rewrite (M' y Hy) in Q; discriminate).
  constructor; [|apply Forall_forall; auto]. cbn in C. destruct C as [C _]. clear M' L D. revert Lt Dm MIN. induction t as [|x t IH]; intros Lt Dm MIN; [constructor|]. inversion Dt as [|? ? Dx Dt']; subst. inversion C as [|? ? Cx C']; subst. rewrite Forall_forall in Dx, Cx. constructor; [apply IH; auto; intros y Hy; [apply Lt|apply Dm|apply MIN]; now right|]. apply Forall_forall. intros y Hy.
  assert (Lx : line x) by (apply Lt; now left). assert (Ly : line y) by (apply Lt; now right). destruct (lt_or_gt x y Lx Ly (Dx y Hy)) as [Q|Q]; auto. exfalso. apply (cyc_anti m x y (Cx y Hy)).
  apply ascending_cyc; auto; [apply MIN; now right|apply Dm; now right|intros W; apply (Dx y Hy); now apply same_dir_sym|apply Dm; now left].
Qed.
Lemma drop_euclidean_redundant_ok l H : good l -> In H l -> edge l H -> exists r, drop_euclidean_redundant l H = Ok r /\ r <> [] /\ good r /\ CT r /\ ascending hs_lt r /\ incl r l /\ forall z, inter r z <-> inter l z.
Proof.
  intros G I [x [y [NE [IX [IY [OX OY]]]]]]. unfold drop_euclidean_redundant. assert (LH : line H) by (destruct G as [G _]; rewrite Forall_forall in G; auto). destruct (index_of_ok H LH l 0) as [i [h [-> [NTH ON]]]]; auto; [apply G|]. cbn [Nat.add].
  apply nth_error_split in NTH. destruct NTH as [u [w [E LEN]]]. subst l i. rewrite skipn_app, skipn_all, Nat.sub_diag, firstn_app, firstn_all, Nat.sub_diag. cbn [skipn firstn app]. rewrite app_nil_r. assert (G' := good_rot _ _ G). cbn [app] in G'.
  assert (EI : forall z, inter (h :: w ++ u) z <-> inter (u ++ h :: w) z) by (intros z; change (h :: w ++ u) with ((h :: w) ++ u); apply inter_rot).
  destruct (drop_loop_ok h (u ++ h :: w) x y NE IX IY (2 * length (w ++ u) + 2) [h] (w ++ u) []) as [t [E1 [E2 [E3 [E4 E5]]]]]; auto; [cbn; lia|cbn; auto|]. cbn [app rev] in *. rewrite E1. cbn [bind].
  assert (CTr : CT (h :: t)). { unfold CT. destruct t as [|c t]; [cbn; auto|]. cbn [firstn]. destruct (snoc_cases (c :: t) h) as [Q|[t' Q]]; [discriminate|]. set (a := last (c :: t) h) in *. assert (Ina : In a (h :: c :: t)) by (right; rewrite Q; memb). clearbody a.
    replace ((h :: c :: t) ++ [h; c]) with ((h :: t') ++ [a; h; c]) by (transitivity (h :: (t' ++ [a]) ++ [h; c]); [rewrite <- app_assoc; reflexivity|rewrite <- Q; reflexivity]). apply lin_snoc; [cbn [app]; replace (t' ++ [a; h]) with ((c :: t) ++ [h]) by (rewrite Q; rewrite <- app_assoc; reflexivity); exact E4|].
    apply (edge_corner a h c x y); auto; try (now apply ON); [destruct E2 as [E2 _]; now inversion E2| |]; intros g Hg; [apply E3 in IX; apply IX|apply E3 in IY; apply IY]; (destruct Hg as [<-|[<-|[]]]; [auto|right; now left]). }
  destruct (rotated_set_rot (h :: t)) as [v1 [v2 [Q1 Q2]]]. assert (AS := rotated_ascending _ E2). rewrite Q2 in AS. exists (v2 ++ v1). rewrite Q2. rewrite Q1 in *. split; auto. split; [intros Z; apply app_eq_nil in Z; destruct Z as [-> ->]; discriminate|]. split; [now apply good_rot|]. split; [now apply CT_rot|]. split; [exact AS|]. split.
  - intros g Hg. assert (X : In g (v1 ++ v2)) by memb. apply E5 in X. memb.
  - intros z. rewrite inter_rot. apply E3.
Qed.
End Drop.
