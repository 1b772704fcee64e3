(** Proofs about [MHypSet]: dropping the half spaces that do not contribute an edge in the unit disk; the normalization
    of polygons and intersections. *)
From Coq Require Import List Bool ZArith Lia Ring Field Sorted Permutation.
From Verif Require Import OField FMicromega PField MBase MEuclid PEuclid SEuclid PRotate MHyp SHyp PHyp PHyp2 PHyp3 PHyp4 PHyp7 MHypSet PHypSet PHypSet2 PHypSet3 PHypSet4 PHypSet5 PHypSet6.
Import ListNotations.

Section Ends.
Context {K : OField}.
Add Field KF : (of_ft K).
Local Open Scope res_scope. Local Open Scope F_scope.
Implicit Types p q x y z : vec K.
Implicit Types f g h i j u v w A B C : geo K.
Implicit Types l m t : list (geo K).
Implicit Types r : segment_set K.
Implicit Types s e : option (vec K).

Lemma after_trans g p q x : after g p q -> after g q x -> after g p x.
Proof. intros [a [A ->]] [b [B ->]]. exists (a + b). split; [flra|]. apply vec_eq; cbn; ring. Qed.
Lemma after_irrefl g p : line g -> ~ after g p p.
Proof. intros L [a [A E]]. symmetry in E. exact (tangent_neq g p a L (fpos_neq0 _ A) E). Qed.
Lemma after_neg g p q : after (geo_neg g) p q <-> after g q p.
Proof. split; intros [a [A ->]]; exists a; (split; [auto|]); unfold geo_neg; apply vec_eq; cbn; ring. Qed.
Lemma on_neg g p : on (geo_neg g) p <-> on g p.
Proof. unfold on, geo_neg, geo_eval. cbn. split; intros H; flra. Qed.
Lemma in_segment_neg g s e x : in_segment (geo_neg g) e s x <-> in_segment g s e x.
Proof.
  unfold in_segment. rewrite on_neg. assert (A : not_before (geo_neg g) e x <-> not_after g e x) by (destruct e; cbn; [rewrite after_neg|]; tauto). assert (B : not_after (geo_neg g) s x <-> not_before g s x) by (destruct s; cbn; [rewrite after_neg|]; tauto). tauto.
Qed.
Lemma after_scale g (k : K) p q : 0 < k -> after (scale_geo k g) p q <-> after g p q.
Proof.
  intros P. split; intros [a [A ->]]; [exists (a * k); split; [now apply fmul_pos|]; apply vec_eq; cbn; ring|]. exists (a / k). split; [now apply fdiv_pos|]. assert (E : a / k * k = a) by (apply fdiv_mul; now apply fpos_neq0). set (b := a / k) in *. clearbody b. subst a. apply vec_eq; cbn; ring.
Qed.
Lemma on_scale g (k : K) p : k <> 0 -> on (scale_geo k g) p <-> on g p.
Proof.
  intros P. rewrite !ev_on. assert (E : ev (scale_geo k g) p = k * ev g p) by (unfold ev, geo_eval, scale_geo; cbn; ring). rewrite E. split; [intros H; destruct (fmul_eq0 _ _ H); tauto|intros ->; ring].
Qed.
Lemma in_segment_scale g (k : K) s e x : 0 < k -> in_segment (scale_geo k g) s e x <-> in_segment g s e x.
Proof.
  intros P. unfold in_segment. rewrite (on_scale g k x (fpos_neq0 _ P)). assert (A : not_before (scale_geo k g) s x <-> not_before g s x) by (destruct s; cbn; [rewrite after_scale|]; tauto). assert (B : not_after (scale_geo k g) e x <-> not_after g e x) by (destruct e; cbn; [rewrite after_scale|]; tauto). tauto.
Qed.
(** end points that are finite and in the right order *)
Definition valid g s e := line g /\ (forall p, s = Some p -> finite p /\ on g p) /\ (forall p, e = Some p -> finite p /\ on g p) /\ (forall p q, s = Some p -> e = Some q -> after g p q).
Lemma valid_neg g s e : valid g s e -> valid (geo_neg g) e s.
Proof.
  intros [L [A [B C]]]. split; [unfold line, geo_neg in *; cbn; destruct L as [L|L]; [left|right]; intros Z; apply L; flra|]. split; [intros p E; rewrite on_neg; auto|]. split; [intros p E; rewrite on_neg; auto|]. intros p q E1 E2. apply after_neg. auto.
Qed.
Lemma start_char g s e p : valid g s e -> s = Some p <-> (finite p /\ in_segment g s e p /\ forall x, in_segment g s e x -> ~ after g x p).
Proof.
  intros [L [HS [HE SE]]].
  assert (IN : forall p0, s = Some p0 -> in_segment g s e p0). { intros p0 E. destruct (HS p0 E) as [F O]. split; [now apply finite_disk|]. split; auto. rewrite E. cbn. split; [now left|]. destruct e as [q|]; [|exact Logic.I]. right. now apply SE. }
  split.
  - intros E. split; [now apply (HS p)|]. split; [now apply IN|]. intros x [_ [_ [X _]]] AF. rewrite E in X. cbn in X. destruct X as [->|X]; [apply (after_irrefl g p L AF)|apply (after_irrefl g p L (after_trans g p x p X AF))].
  - intros [F [IP MIN]]. pose proof IP as [Dp [Op [NB NA]]]. destruct s as [p0|].
    + pose proof (IN p0 eq_refl) as I0. cbn in NB. destruct NB as [->|NB]; auto. elim (MIN p0 I0 NB).
    + exfalso. destruct (near_finite p (tangent g) F) as [d [D H]]. set (x := vadd p (vscale (- d) (tangent g))). assert (AX : after g x p) by (exists d; split; auto; unfold x, tangent; apply vec_eq; cbn; ring). apply (MIN x); auto. split; [apply finite_disk, H; flra|]. split; [apply ev_on; unfold x; rewrite ev_move, det_self; apply (proj1 (ev_on _ _)) in Op; rewrite Op; ring|]. split; [exact Logic.I|]. destruct e as [q|]; [|exact Logic.I]. right. cbn in NA. destruct NA as [<-|NA]; auto. now apply (after_trans g x p q).
Qed.
Lemma same_start g s e s' e' : valid g s e -> valid g s' e' -> (forall x, in_segment g s e x <-> in_segment g s' e' x) -> s = s'.
Proof.
  intros V V' H. assert (G : forall p, s = Some p <-> s' = Some p). { intros p. rewrite (start_char g s e p V), (start_char g s' e' p V'), H. split; intros [A [B C]]; (split; [auto|split; [auto|]]); intros x X; apply C; now apply H. }
  destruct s as [p|]; [symmetry; now apply G|]. destruct s' as [p|]; auto. now apply G.
Qed.
Lemma same_ends g (k : K) s e s' e' : 0 < k -> valid g s e -> valid (scale_geo k g) s' e' -> (forall x, in_segment g s e x <-> in_segment (scale_geo k g) s' e' x) -> s = s' /\ e = e'.
Proof.
  intros P V V' H. assert (V2 : valid g s' e'). { destruct V as [L _]. destruct V' as [_ [A [B C]]]. pose proof (fpos_neq0 _ P) as NZ. split; auto. split; [intros p E; rewrite <- (on_scale g k p NZ); auto|]. split; [intros p E; rewrite <- (on_scale g k p NZ); auto|]. intros p q E1 E2. apply (after_scale g k p q P). auto. }
  assert (H2 : forall x, in_segment g s e x <-> in_segment g s' e' x) by (intros x; rewrite H; now apply in_segment_scale). split; [now apply (same_start g s e s' e')|]. apply (same_start (geo_neg g) e s e' s'); try (now apply valid_neg). intros x. rewrite !in_segment_neg. apply H2.
Qed.
Lemma normal_valid g s e : normal_seg (SegSegment g s e) -> valid g s e.
Proof. intros [C [_ [A [B D]]]]. split; [now apply chord_line|]. auto. Qed.

(** ** Equality of segments *)
Section Base.
Context (B0 : K -> Prop) (sqrt : K -> option K) (SB : subfield B0) (SQ : sqrt_in B0 sqrt).
(** the set is a ray whose ideal end has no coordinates over the base ring *)
Definition bad_ray (X : vec K -> Prop) := exists g p, chord g /\ finite p /\ on g p /\ (forall x, X x <-> in_segment g None (Some p) x) /\ forall q, start_of g q -> B0 (fst q) -> B0 (snd q) -> False.
Lemma neg_neg g : geo_neg (geo_neg g) = g.
Proof. destruct g. unfold geo_neg. cbn. f_equal; ring. Qed.
Lemma over_neg g : geo_over B0 g -> geo_over B0 (geo_neg g).
Proof. destruct SB as [_ [_ [_ [N _]]]]. intros [A [B C]]. repeat split; cbn; auto. Qed.
Lemma opp_scale f g : opp f g -> exists k : K, 0 < k /\ geo_neg g = scale_geo k f.
Proof. intros [s [S ->]]. exists s. split; auto. unfold geo_neg, scale_geo. cbn. f_equal; ring. Qed.
Lemma opp_body l f g : opp f g -> In f l -> In g l -> forall x, (edgeset l f x <-> body l x) /\ (edgeset l g x <-> body l x).
Proof.
  intros O F G x. unfold edgeset, body. split; (split; [tauto|]); intros [D I]; split; auto; split; auto; [now apply (opp_flat l f g)|apply (opp_flat l g f); auto; now apply opp_sym].
Qed.
Definition ends r := match r with SegSegment g s e => (s, e) | _ => (None, None) end.
Lemma set_ends B r x : proper r -> carrier B r -> set_of r x <-> in_segment B (fst (ends r)) (snd (ends r)) x.
Proof. destruct r; cbn; try tauto; intros _ ->; unfold in_segment; cbn; tauto. Qed.
Lemma valid_ends B r : proper r -> carrier B r -> normal_seg r -> valid B (fst (ends r)) (snd (ends r)).
Proof. destruct r as [|p|g|g s e]; cbn [proper carrier]; try tauto; intros _ -> N; [|now apply normal_valid]. split; [now apply chord_line|]. cbn. split; [discriminate|split; discriminate]. Qed.
Lemma seg_eqb_ok l A B r1 r2 : In A l -> In B l -> chord A -> chord B -> geo_over B0 A -> geo_over B0 B -> proper r1 -> proper r2 -> carrier A r1 -> carrier B r2 -> normal_seg r1 -> normal_seg r2 ->
  (forall x, set_of r1 x <-> edgeset l A x) -> (forall x, set_of r2 x <-> edgeset l B x) ->
  match seg_eqb sqrt r1 (seg_neg r2) with
  | Ok true => opp A B
  | Ok false => ~ opp A B
  | Err e => e = ValueError /\ opp A B /\ bad_ray (body l)
  end.
Proof.
  intros NA NB CA CB OA OB P1 P2 C1 C2 N1 N2 H1 H2. pose proof (chord_line _ CA) as LA. pose proof (chord_line _ CB) as LB. assert (LB' : line (geo_neg B)) by (apply chord_line; now apply chord_neg).
  assert (EQ : geo_eqb true A (geo_neg B) = true <-> opp A B). { rewrite (eqb_oriented A (geo_neg B) LA LB'). split; [now apply neg_opp|now apply opp_neg]. }
  assert (SAME : opp A B -> fst (ends r1) = snd (ends r2) /\ snd (ends r1) = fst (ends r2)).
  { intros O. destruct (opp_scale A B O) as [k [Pk E]]. apply (same_ends A k); auto; [now apply valid_ends|rewrite <- E; apply valid_neg; now apply valid_ends|]. intros x. rewrite <- E, in_segment_neg, <- (set_ends A r1 x P1 C1), <- (set_ends B r2 x P2 C2), H1, H2. destruct (opp_body l A B O NA NB x). tauto. }
  destruct r1 as [|?|f|f s e]; cbn in P1; try tauto; destruct r2 as [|?|g|g s' e']; cbn in P2; try tauto; cbn in C1, C2; subst f g; cbn [seg_neg seg_eqb ends fst snd] in *.
  - destruct (geo_eqb true A (geo_neg B)) eqn:G; [now apply EQ|]. intros O. apply EQ in O. discriminate.
  - intros O. destruct (SAME O) as [E1 E2]. destruct N2 as [_ [[N|N] _]]; congruence.
  - intros O. destruct (SAME O) as [E1 E2]. destruct N1 as [_ [[N|N] _]]; congruence.
  - destruct (geo_eqb true A (geo_neg B)) eqn:G; [|intros O; apply EQ in O; discriminate]. assert (O : opp A B) by (now apply EQ). destruct (SAME O) as [E1 E2]. subst e' s'.
    assert (HB : forall x, body l x <-> in_segment A s e x) by (intros x; destruct (opp_body l A B O NA NB x) as [W _]; rewrite <- W, <- H1; reflexivity).
    assert (HB' : forall x, body l x <-> in_segment (geo_neg A) e s x) by (intros x; rewrite in_segment_neg; apply HB).
    assert (SO : same_oriented A (geo_neg B)) by (now apply eqb_oriented). assert (SO' : same_oriented (geo_neg A) B). { destruct (opp_scale A B O) as [k [Pk E]]. replace B with (scale_geo k (geo_neg A)); [now apply scale_same|]. rewrite <- (neg_neg B), E. unfold geo_neg, scale_geo. cbn. f_equal; ring. }
    pose proof (over_neg _ OA) as OA'. pose proof (over_neg _ OB) as OB'. pose proof (chord_neg _ CA) as CA'. pose proof (chord_neg _ CB) as CB'.
    pose proof (coordinates_start B0 sqrt SB SQ A CA OA) as S1. pose proof (coordinates_start B0 sqrt SB SQ (geo_neg A) CA' OA') as S2. pose proof (coordinates_start B0 sqrt SB SQ (geo_neg B) CB' OB') as S3. pose proof (coordinates_start B0 sqrt SB SQ (geo_neg (geo_neg B))) as S4. rewrite neg_neg in S4. specialize (S4 CB OB). unfold segment_vertices. rewrite (neg_neg B).
    destruct s as [p|], e as [q|]; cbn [bind].
    + rewrite !(proj2 (veqb_eq _ _) eq_refl). exact O.
    + destruct N1 as [_ [_ [FS _]]]. destruct (FS p eq_refl) as [Fp Op].
      assert (BAD : forall h, same_oriented (geo_neg A) h -> chord h -> (forall q, start_of h q -> B0 (fst q) -> B0 (snd q) -> False) -> bad_ray (body l)). { intros h SH Ch NQ. exists (geo_neg A), p. split; auto. split; auto. split; [now apply on_neg|]. split; [exact HB'|]. intros q Q. apply NQ. apply (start_same (geo_neg A) h); auto using chord_line. }
      destruct (coordinates_klein sqrt (Start (geo_neg A))) as [q|]; cbn [bind]; [|destruct S2 as [-> S2]; split; auto; split; auto; apply (BAD (geo_neg A)); auto; intros ?; tauto]. destruct (coordinates_klein sqrt (Start B)) as [q'|]; cbn [bind]; [|destruct S4 as [-> S4]; split; auto; split; auto; apply (BAD B); auto].
      assert (E : q = q') by (apply (start_unique B); auto; apply (start_same (geo_neg A) B); auto using chord_line). subst q'. rewrite !(proj2 (veqb_eq _ _) eq_refl). exact O.
    + destruct N1 as [_ [_ [_ [FS _]]]]. destruct (FS q eq_refl) as [Fp Op].
      assert (BAD : forall h, same_oriented A h -> chord h -> (forall q, start_of h q -> B0 (fst q) -> B0 (snd q) -> False) -> bad_ray (body l)). { intros h SH Ch NQ. exists A, q. split; auto. split; auto. split; auto. split; [exact HB|]. intros q' Q. apply NQ. apply (start_same A h); auto using chord_line. }
      destruct (coordinates_klein sqrt (Start A)) as [q0|]; cbn [bind]; [|destruct S1 as [-> S1]; split; auto; split; auto; apply (BAD A); auto; intros ?; tauto]. destruct (coordinates_klein sqrt (Start (geo_neg B))) as [q'|]; cbn [bind]; [|destruct S3 as [-> S3]; split; auto; split; auto; apply (BAD (geo_neg B)); auto].
      assert (E : q0 = q') by (apply (start_unique (geo_neg B)); auto; apply (start_same A (geo_neg B)); auto using chord_line). subst q'. rewrite !(proj2 (veqb_eq _ _) eq_refl). exact O.
    + destruct N1 as [_ [[N|N] _]]; congruence.
Qed.

(** ** The loop *)
Definition seg_of l B r := normal_seg r /\ carrier B r /\ (forall x, set_of r x <-> edgeset l B x).
Record inv l (z : geo K) (d rest rs : list (geo K)) (me : bool) (mp : maybe (vec K)) (ms : maybe (segment_set K)) : Prop := {
  i_sub : sublist rs d;
  i_two : forall B, In B d -> In B rs <-> two_pts l B;
  i_empty : me = true -> mp = Unset;
  i_point : match mp with
            | Unset => me = true /\ forall B x, In B d -> ~ edgeset l B x
            | Found q => me = false /\ (forall B, In B d -> ~ two_pts l B) /\ (forall B x, In B d -> edgeset l B x -> x = q) /\ (exists B, In B d /\ edgeset l B q) /\ (finite q -> exists C, two_pts l C /\ (In C d \/ C = hd z rest))
            | No => me = false /\ ((exists B, In B d /\ two_pts l B) \/ exists p q, p <> q /\ body l p /\ body l q)
            end;
  i_seg : match ms with
          | Unset => rs = []
          | Found r => exists B, rs = [B] /\ proper r /\ seg_of l B r
          | No => exists A B (rs' : list (geo K)), rs = A :: B :: rs' /\ ~ opp A B
          end }.
Definition loop_spec l (o : segment_set K + list (geo K) * bool * maybe (vec K)) := match o with
  | inl r => proper r /\ normal_seg r /\ forall x, set_of r x <-> body l x
  | inr (rs, me, mp) => exists (z : geo K) ms, inv l z l [] rs me mp ms
  end.
Lemma disk_step A B C (t : list (geo K * geo K * geo K)) (req : list (geo K)) me mp ms : disk_loop sqrt ((A, B, C) :: t) req me mp ms =
  bind (tri A B C) (fun segment => match segment with
    | SegEmpty => disk_loop sqrt t req me mp ms
    | SegPoint p =>
      match mp with
      | No => disk_loop sqrt t req false No ms
      | Unset => disk_loop sqrt t req false (Found p) ms
      | Found q =>
        if negb (veqb q p) then
          if is_finite q then Err AssertionError else if is_finite p then Err AssertionError
          else disk_loop sqrt t req false No ms
        else disk_loop sqrt t req false mp ms
      end
    | _ =>
      match ms with
      | Unset => disk_loop sqrt t (B :: req) false No (Found segment)
      | Found s =>
        b <- seg_eqb sqrt s (seg_neg segment) ;;
        if b then Ok (inl segment) else disk_loop sqrt t (B :: req) false No No
      | No => disk_loop sqrt t (B :: req) false No No
      end
    end).
Proof. cbn [disk_loop]. unfold tri. destruct (configure A B); [|reflexivity]. cbn [bind]. destruct (configure B C); reflexivity. Qed.
Lemma loop_ok l (x0 : geo K) p0 q0 : good l -> CT l -> Forall chord l -> Forall (geo_over B0) l -> p0 <> q0 -> inter l p0 -> inter l q0 ->
  forall (rest d req : list (geo K)) me mp ms, l = d ++ rest -> inv l (hd x0 l) d rest (rev req) me mp ms ->
  match disk_loop sqrt (trip (last d (last l x0)) rest (hd x0 l)) req me mp ms with
  | Ok o => loop_spec l o
  | Err e => e = ValueError /\ bad_ray (body l)
  end.
Proof.
  intros G T CH OV PQ IP IQ. set (z := hd x0 l). pose proof (proj1 (Forall_forall _ _) CH) as CH'. pose proof (proj1 (Forall_forall _ _) OV) as OV'.
  assert (DI : distinct l) by apply G. assert (LL : Forall line l) by apply G.
  induction rest as [|B rest IH]; intros d req me mp ms E I.
  - cbn [trip disk_loop]. rewrite app_nil_r in E. subst d. exists z, ms. exact I.
  - cbn [trip]. rewrite disk_step. pose proof (trip_nbr l d B rest x0 E) as N. fold z in N. destruct (nbr_in _ _ _ _ N) as [NA [NB NC]]. destruct (tri_ok l _ _ _ p0 G T CH IP N) as [r [ER [NS [CA [HS FP]]]]]. rewrite ER. cbn [bind]. clear ER.
    set (A := last d (last l x0)) in *. set (C := hd z rest) in *.
    assert (E' : l = (d ++ [B]) ++ rest) by (rewrite <- app_assoc; exact E). assert (LA : last (d ++ [B]) (last l x0) = B) by apply last_snoc.
    pose proof (proper_iff l B r NS HS) as PI.
    assert (BODY : forall y, set_of r y -> body l y) by (intros y Y; apply HS in Y; destruct Y as [Y1 [_ Y2]]; now split).
    assert (FRESH : ~ In B d). { intros Q. subst l. apply in_split in Q. destruct Q as [d1 [d2 ->]]. assert (W : ~ same_dir B B). { unfold distinct in DI. rewrite <- app_assoc in DI. clear - DI. induction d1 as [|a d1 IHd]; [|inversion DI; auto]. cbn in DI. inversion DI as [|? ? F _]; subst. rewrite Forall_forall in F. apply F. apply in_app_iff. right. now left. } apply W, same_dir_refl. apply (chord_line _ (CH' B NB)). }
    assert (TWO : forall y, finite y -> r = SegPoint y -> two_pts l A /\ two_pts l C).
    { intros y FY RY. destruct (FP y RY FY) as [O [_ [_ [OA OB]]]]. assert (IY : inter l y) by (apply BODY; rewrite RY; reflexivity). assert (EX : exists w : vec K, w <> y /\ inter l w). { destruct (veqb p0 y) eqn:V; [exists q0; apply veqb_eq in V; subst; auto|exists p0; split; auto; intros Q; subst; rewrite (proj2 (veqb_eq _ _) eq_refl) in V; discriminate]. } destruct EX as [w [W1 W2]].
      pose proof (opp_sym A C O) as O'. split; apply (flat_two l _ y w); auto; [now apply (opp_flat l A C)|apply (opp_flat l C A); auto|apply (opp_flat l C A); auto]. }
    (* a set without an edge *)
    assert (STEP0 : ~ proper r -> sublist (rev req) (d ++ [B]) /\ forall B', In B' (d ++ [B]) -> In B' (rev req) <-> two_pts l B').
    { intros NP. split; [rewrite <- (app_nil_r (rev req)); apply sl_app; [apply (i_sub _ _ _ _ _ _ _ _ I)|constructor; constructor]|]. intros B' HB'. apply in_app_iff in HB'. destruct HB' as [HB'|[<-|[]]]; [now apply (i_two _ _ _ _ _ _ _ _ I)|]. split; [intros Q; elim FRESH; exact (sl_incl _ _ (i_sub _ _ _ _ _ _ _ _ I) _ Q)|intros Q; apply PI in Q; tauto]. }
    assert (STEP1 : proper r -> sublist (rev (B :: req)) (d ++ [B]) /\ forall B', In B' (d ++ [B]) -> In B' (rev (B :: req)) <-> two_pts l B').
    { intros P. cbn [rev]. split; [apply sl_app; [apply (i_sub _ _ _ _ _ _ _ _ I)|apply sl_refl]|]. intros B' HB'. rewrite in_app_iff. cbn. apply in_app_iff in HB'. destruct HB' as [HB'|[<-|[]]].
      - rewrite (i_two _ _ _ _ _ _ _ _ I B' HB'). split; [intros [Q|[Q|[]]]; auto; subst B'; tauto|tauto].
      - split; [intros _; now apply PI|tauto]. }
    pose proof (i_point _ _ _ _ _ _ _ _ I) as IPt. pose proof (i_empty _ _ _ _ _ _ _ _ I) as IEm. pose proof (i_seg _ _ _ _ _ _ _ _ I) as ISg.
    assert (PROP : proper r -> match (match ms with
      | Unset => disk_loop sqrt (trip B rest z) (B :: req) false No (Found r)
      | Found s => b <- seg_eqb sqrt s (seg_neg r) ;; if b then Ok (inl r) else disk_loop sqrt (trip B rest z) (B :: req) false No No
      | No => disk_loop sqrt (trip B rest z) (B :: req) false No No
      end) with Ok o => loop_spec l o | Err e => e = ValueError /\ bad_ray (body l) end).
    { intros P. destruct (STEP1 P) as [SS ST].
      assert (GO : forall ms', match ms' with
          | Unset => rev (B :: req) = []
          | Found r' => exists B', rev (B :: req) = [B'] /\ proper r' /\ seg_of l B' r'
          | No => exists A' B' (rs' : list (geo K)), rev (B :: req) = A' :: B' :: rs' /\ ~ opp A' B'
          end -> match disk_loop sqrt (trip B rest z) (B :: req) false No ms' with Ok o => loop_spec l o | Err e => e = ValueError /\ bad_ray (body l) end).
      { intros ms' H. pose proof (IH (d ++ [B]) (B :: req) false No ms' E') as W. rewrite LA in W. apply W. constructor; auto; [discriminate|]. split; auto. left. exists B. split; [apply in_app_iff; right; now left|now apply PI]. }
      destruct ms as [|s|].
      - apply GO. exists B. cbn [rev]. rewrite ISg. repeat split; auto; now apply HS.
      - destruct ISg as [B1 [RE [P1 [S1 [S2 S3]]]]]. assert (N1 : In B1 l). { rewrite E. apply in_app_iff. left. apply (sl_incl _ _ (i_sub _ _ _ _ _ _ _ _ I)). rewrite RE. now left. }
        pose proof (seg_eqb_ok l B1 B s r N1 NB (CH' _ N1) (CH' _ NB) (OV' _ N1) (OV' _ NB) P1 P S2 CA S1 NS S3 HS) as SE. destruct (seg_eqb sqrt s (seg_neg r)) as [[|]|]; cbn [bind].
        + split; auto. split; auto. intros x. rewrite HS. now apply (opp_body l B1 B).
        + apply GO. exists B1, B, []. cbn [rev]. rewrite RE. auto.
        + destruct SE as [-> [_ W]]. auto.
      - apply GO. destruct ISg as [A' [B' [rs' [RE NO]]]]. exists A', B', (rs' ++ [B]). cbn [rev]. rewrite RE. auto. }
    assert (NEXT : forall me' mp', ~ proper r -> (me' = true -> mp' = Unset) -> match mp' with
            | Unset => me' = true /\ forall B' x, In B' (d ++ [B]) -> ~ edgeset l B' x
            | Found q => me' = false /\ (forall B', In B' (d ++ [B]) -> ~ two_pts l B') /\ (forall B' x, In B' (d ++ [B]) -> edgeset l B' x -> x = q) /\ (exists B', In B' (d ++ [B]) /\ edgeset l B' q) /\ (finite q -> exists C, two_pts l C /\ (In C (d ++ [B]) \/ C = hd z rest))
            | No => me' = false /\ ((exists B', In B' (d ++ [B]) /\ two_pts l B') \/ exists p q, p <> q /\ body l p /\ body l q)
            end -> match disk_loop sqrt (trip B rest z) req me' mp' ms with Ok o => loop_spec l o | Err e => e = ValueError /\ bad_ray (body l) end).
    { intros me' mp' NP H1 H2. destruct (STEP0 NP) as [SS ST]. specialize (IH (d ++ [B]) req me' mp' ms E'). rewrite LA in IH. apply IH. constructor; auto. }
    assert (INB : forall B', In B' (d ++ [B]) <-> In B' d \/ B' = B) by (intros B'; rewrite in_app_iff; cbn; intuition auto).
    destruct r as [|y|g|g s e]; try (apply PROP; exact Logic.I).
    + apply NEXT; auto. assert (EB : forall x, ~ edgeset l B x) by (intros x Q; apply HS in Q; exact Q). assert (NT : ~ two_pts l B) by (intros [a [_ [_ [Q _]]]]; exact (EB a Q)). destruct mp as [|q|].
      * destruct IPt as [-> H]. split; auto. intros B' x HB'. apply INB in HB'. destruct HB' as [HB'| ->]; auto.
      * destruct IPt as [M [H1 [H2 [[B' [H3 H3']] H4]]]]. split; auto. split; [intros B'' HB; apply INB in HB; destruct HB as [HB| ->]; auto|]. split; [intros B'' x HB; apply INB in HB; destruct HB as [HB| ->]; [eauto|intros Q; elim (EB x Q)]|]. split; [exists B'; rewrite INB; auto|]. intros Fq. exfalso. destruct (H4 Fq) as [C' [T1 [T2| ->]]]; [exact (H1 C' T2 T1)|exact (NT T1)].
      * destruct IPt as [M [[B' [H1 H2]]|H]]; split; auto. left. exists B'. rewrite INB. auto.
    + assert (EB : forall x, edgeset l B x <-> x = y) by (intros x; rewrite <- HS; reflexivity). assert (NT : ~ two_pts l B) by (intros Q; now apply PI in Q). destruct mp as [|q|].
      * destruct IPt as [-> H]. apply NEXT; auto; [discriminate|]. split; auto. split; [intros B' HB' [a [b [AB [Q1 Q2]]]]; apply INB in HB'; destruct HB' as [HB'| ->]; [exact (H B' a HB' Q1)|apply EB in Q1; apply EB in Q2; congruence]|]. split; [intros B' x HB'; apply INB in HB'; destruct HB' as [HB'| ->]; [intros Q; elim (H B' x HB' Q)|apply EB]|]. split; [exists B; split; [apply INB; auto|now apply EB]|]. intros Fy. exists C. split; [now apply (TWO y)|now right].
      * destruct IPt as [-> [H1 [H2 [[B' [H3 H3']] H4]]]]. destruct (veqb q y) eqn:V; cbn [negb].
        -- apply veqb_eq in V. subst y. apply NEXT; auto. split; auto. split; [intros B'' HB; apply INB in HB; destruct HB as [HB| ->]; auto|]. split; [intros B'' x HB; apply INB in HB; destruct HB as [HB| ->]; [eauto|apply EB]|]. split; [exists B'; rewrite INB; auto|]. intros Fq. exists C. split; [now apply (TWO q)|now right].
        -- destruct (is_finite q) eqn:Fq.
           { exfalso. apply is_finite_iff in Fq. destruct (H4 Fq) as [C' [T1 [T2| ->]]]; [exact (H1 C' T2 T1)|exact (NT T1)]. }
           destruct (is_finite y) eqn:Fy.
           { exfalso. apply is_finite_iff in Fy. destruct (TWO y Fy eq_refl) as [TA _]. apply (H1 A); auto. unfold A. destruct (snoc_cases d (last l x0)) as [W|[d' W]]; [subst d; destruct H3|]. rewrite W at 2. apply in_app_iff. right. now left. }
           apply NEXT; auto; [discriminate|]. split; auto. right. exists q, y. split; [intros Q; subst; rewrite (proj2 (veqb_eq _ _) eq_refl) in V; discriminate|]. split; [destruct H3' as [Q1 [_ Q2]]; now split|apply BODY; reflexivity].
      * apply NEXT; auto; [discriminate|]. destruct IPt as [M [[B' [H1 H2]]|H]]; split; auto. left. exists B'. rewrite INB. auto.
Qed.
Definition result_set (o : hyp_set K) x := match o with
  | HEmpty => False
  | HPoint p => x = p
  | HSegment r => set_of r x
  | HHalfSpace h => in_disk x /\ 0 <= ev h x
  | HPolygon m => body m x
  end.
(** the sets are not degenerate *)
Definition result_normal l (o : hyp_set K) := match o with
  | HEmpty => True
  | HPoint p => in_disk p
  | HSegment r => proper r /\ normal_seg r
  | HHalfSpace h => In h l /\ two_pts l h
  | HPolygon m => incl m l /\ (2 <= length m)%nat /\ ascending hs_lt m /\ distinct m /\ (forall B, In B m -> two_pts l B) /\ (forall A B, In A m -> In B m -> ~ opp A B)
  end.
Lemma ss_sub {T} (R : T -> T -> Prop) (l m : list T) : sublist m l -> StronglySorted R l -> StronglySorted R m.
Proof. induction 1; intros S; auto; apply StronglySorted_inv in S; destruct S as [S F]; auto. constructor; auto. rewrite Forall_forall in *. intros y Hy. apply F. now apply (sl_incl _ _ H). Qed.
Lemma isolated_ok l y : good l -> CT l -> Forall chord l -> inter l y -> isolated l.
Proof.
  intros G T CH Y B e NB ES F NT. apply in_split in NB. destruct NB as [u [v E]]. assert (N : nbr l (last (v ++ u) B) B (hd B (v ++ u))) by (exists u, v; auto). destruct (nbr_in _ _ _ _ N) as [NA [_ NC]]. destruct (tri_ok l _ _ _ y G T CH Y N) as [r [ER [NS [CA [HS FP]]]]].
  pose proof (proper_iff l B r NS HS) as PI. apply HS in ES. destruct r as [|y'|g|g s0 e0]; try (elim NT; apply PI; exact Logic.I); [destruct ES|]. cbn in ES. subst y'. exists (last (v ++ u) B), (hd B (v ++ u)). split; auto. split; auto. now apply (FP e).
Qed.
Lemma sub_two l m A C : good l -> sublist m l -> (forall B, In B m <-> In B l /\ two_pts l B) -> (forall A B m', m = A :: B :: m' -> ~ opp A B) -> In A m -> In C m -> ~ opp A C.
Proof.
  intros G SL HM FI NA NC O. assert (LL : Forall line l) by apply G. assert (DI : distinct l) by apply G. pose proof (sl_incl _ _ SL) as IM. pose proof (proj1 (Forall_forall _ _) LL) as LL'.
  (* every element of m is A or C *)
  assert (AL : forall B, In B m -> B = A \/ B = C). { intros B HB. destruct (proj1 (HM B) HB) as [_ [a [b [AB [[Da [Oa Ia]] [Db [Ob Ib]]]]]]]. pose proof (opp_flat l A C a O (IM _ NA) (IM _ NC) Ia) as A1. pose proof (opp_flat l A C b O (IM _ NA) (IM _ NC) Ib) as A2. pose proof (opp_flat l C A a (opp_sym _ _ O) (IM _ NC) (IM _ NA) Ia) as C1. pose proof (opp_flat l C A b (opp_sym _ _ O) (IM _ NC) (IM _ NA) Ib) as C2.
    destruct (collinear A B a b (LL' _ (IM _ NA)) (LL' _ (IM _ HB)) AB A1 A2 Oa Ob) as [S|S]; [left; symmetry; apply (distinct_in l); auto|]. destruct (collinear C B a b (LL' _ (IM _ NC)) (LL' _ (IM _ HB)) AB C1 C2 Oa Ob) as [S'|S']; [right; symmetry; apply (distinct_in l); auto|]. exfalso. destruct O as [k [Pk ->]]. destruct S as [k2 [Pk2 ->]]. destruct S' as [k3 [Pk3 E]]. unfold scale_geo in E. cbn in E. injection E as E1 E2 E3. pose proof (LL' _ (IM _ NA)) as LA. unfold line in LA. assert (W : forall t : K, - k2 * t = - k3 * (- k * t) -> t = 0). { intros t Q. assert (Z : (k2 + k3 * k) * t = 0) by (transitivity (- (- k2 * t) + k3 * k * t); [ring|rewrite Q; ring]). destruct (fmul_eq0 _ _ Z) as [Z'|Z']; auto. assert (0 < k3 * k) by (now apply fmul_pos). exfalso. flra. } apply W in E2. apply W in E3. tauto. }
  assert (DM : distinct m) by (unfold distinct in *; now apply (sl_fop _ _ _ SL)). assert (LM : Forall line m) by (apply Forall_forall; intros; auto).
  destruct m as [|a [|b m']]; [destruct NA| |].
  - destruct NA as [<-|[]], NC as [<-|[]]. destruct O as [k [Pk E]]. pose proof (LL' _ (IM _ (or_introl eq_refl))) as LA. unfold line in LA. destruct a as [x1 x2 x3]. unfold scale_geo in E. cbn in *. injection E as E1 E2 E3. assert (W : forall t : K, t = - k * t -> t = 0). { intros t Q. assert (Z : (1 + k) * t = 0) by (transitivity (t + k * t); [ring|rewrite Q at 1; ring]). destruct (fmul_eq0 _ _ Z) as [Z'|Z']; auto. pose proof (@flt_0_1 K). exfalso. flra. } apply W in E2. apply W in E3. tauto.
  - assert (AB : a <> b). { intros ->. unfold distinct in DM. inversion DM as [|? ? F _]; subst. inversion F; subst. inversion LM; subst. elim H1. now apply same_dir_refl. } apply (FI a b m' eq_refl). destruct (AL a (or_introl eq_refl)) as [->| ->], (AL b (or_intror (or_introl eq_refl))) as [->| ->]; auto; try congruence. now apply opp_sym.
Qed.
Lemma drop_unit_disk_redundant_ok l p0 q0 : l <> [] -> good l -> CT l -> ascending hs_lt l -> Forall chord l -> Forall (geo_over B0) l -> p0 <> q0 -> inter l p0 -> inter l q0 ->
  match drop_unit_disk_redundant sqrt l with
  | Ok o => result_normal l o /\ forall x, result_set o x <-> body l x
  | Err e => e = ValueError /\ bad_ray (body l)
  end.
Proof.
  intros NE G T AS CH OV PQ IP IQ. destruct l as [|x0 t0] eqn:EL; [congruence|]. unfold drop_unit_disk_redundant. rewrite triples_trip. rewrite <- EL in *.
  assert (I0 : inv l (hd x0 l) [] l (rev []) true Unset Unset). { constructor; cbn; [apply sl_refl|intros B []|auto|split; [auto|intros B x []]|reflexivity]. }
  pose proof (loop_ok l x0 p0 q0 G T CH OV PQ IP IQ l [] [] true Unset Unset eq_refl I0) as LO. assert (HZ : hd x0 l = x0) by (rewrite EL; reflexivity). rewrite HZ in LO. cbn [last] in LO. destruct (disk_loop sqrt _ [] true Unset Unset) as [o|]; [|exact LO]. cbn [bind]. destruct o as [r|[[m me] mp]]; [destruct LO as [L1 [L2 L3]]; split; [now split|exact L3]|].
  destruct LO as [z [ms I]]. pose proof (isolated_ok l p0 G T CH IP) as IS. pose proof (i_point _ _ _ _ _ _ _ _ I) as IPt. pose proof (i_two _ _ _ _ _ _ _ _ I) as ITw. pose proof (i_seg _ _ _ _ _ _ _ _ I) as ISg. pose proof (i_sub _ _ _ _ _ _ _ _ I) as ISb.
  assert (NL : l <> []) by (rewrite EL; discriminate). pose proof (sl_incl _ _ ISb) as IM. assert (HM : forall B, In B m <-> In B l /\ two_pts l B) by (intros B; split; [intros H; split; [auto|now apply ITw; auto]|intros [H1 H2]; now apply ITw]).
  destruct mp as [|q|].
  - destruct IPt as [-> H]. assert (Q : Ok (@HEmpty K) = Ok HEmpty) by reflexivity. destruct m as [|a [|b m]]; (split; [exact Logic.I|]); intros x; (split; [intros []|]); intros W; elim (no_point l NL CH H x W).
  - destruct IPt as [-> [H1 [H2 [[B [H3 H3']] _]]]]. assert (Bq : body l q) by (destruct H3' as [Q1 [_ Q2]]; now split). assert (W : forall x, x = q <-> body l x) by (intros x; split; [intros ->; auto|intros X; apply (one_point l NL CH IS H1 x q X Bq)]). destruct m as [|a [|b m]]; (split; [apply Bq|exact W]).
  - destruct IPt as [-> H]. assert (FI : forall A B m', m = A :: B :: m' -> ~ opp A B). { intros A B m' ->. destruct ms as [|s|]; [discriminate|destruct ISg as [B1 [Q _]]; discriminate|]. destruct ISg as [A' [B' [rs' [Q NO]]]]. injection Q as -> -> _. exact NO. }
    assert (NO : forall A C, In A m -> In C m -> ~ opp A C) by (intros A C; now apply (sub_two l m)). assert (DM : distinct m) by (unfold distinct; apply (sl_fop _ _ l ISb); apply G).
    assert (EN : m <> [] -> forall x, body m x <-> body l x). { intros MN. apply (enough l m); auto; [apply G|intros B HB HT; now apply HM|intros B HB; now apply HM]. }
    destruct m as [|a [|b m]].
    + exfalso. assert (NT : forall B, In B l -> ~ two_pts l B) by (intros B HB HT; apply (proj2 (HM B)); auto). destruct H as [[B [H1 H2]]|[p [q [N [Bp Bq]]]]]; [exact (NT B H1 H2)|]. apply N. now apply (one_point l NL CH IS NT).
    + split; [now apply HM, or_introl|]. intros x. rewrite <- (EN ltac:(discriminate) x). unfold body, inter. cbn. split; intros [X1 X2]; split; auto. intros h [<-|[]]. auto.
    + split; [|intros x; rewrite <- (EN ltac:(discriminate) x); reflexivity]. split; auto. split; [cbn; lia|]. split; [now apply (ss_sub _ l)|]. split; auto. split; auto. intros B HB. now apply HM.
Qed.
End Base.
End Ends.
