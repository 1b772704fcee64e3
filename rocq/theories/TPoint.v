(** Theorems C22, C49, C50: points of surfaces, the edges around a vertex and the turns around a vertex. *)
From Coq Require Import List Bool ZArith Arith Lia QArith Relations Ring Field.
From Verif Require Import OField FMicromega PField MBase MDict PDict MEuclid SEuclid PEuclid MSim SSim PSim MPoly PPoly
  MSurf SSurf PSurf PSurf2 PSurf3 MPoint SPoint PPoint PPoint2 PPoint3 PPoint4 PPoint5 PTurn PTurn2 TEuclid TSurf.
Import ListNotations.
Open Scope nat_scope.

(** ** C22 *)
(** the representatives of a point are exactly the positions that are identified with the given one *)
Theorem C22_representatives (K : OField) (L : Type) (EL : EqB L) (D : L -> Prop) (S : surface K L) fuel l p limit r :
  valid D S -> simple_polygons D S -> D l -> surface_point S fuel l p limit = Ok r ->
  forall y, In y r <-> identified D S (l, p) y.
Proof. intros V SP Dl E. exact (surface_point_class D S fuel l p limit r V SP Dl E). Qed.
Print Assumptions C22_representatives.
(** hence points compare equal iff they are identified, however they have been computed *)
Theorem C22_equality (K : OField) (L : Type) (EL : EqB L) (D : L -> Prop) (S : surface K L) fuel l p limit r fuel' l' p' limit' r' :
  valid D S -> simple_polygons D S -> D l -> D l' ->
  surface_point S fuel l p limit = Ok r -> surface_point S fuel' l' p' limit' = Ok r' ->
  (point_eqb r r' = true <-> identified D S (l, p) (l', p')).
Proof.
  intros V SP Dl Dl' E E'. pose proof (surface_point_class D S _ _ _ _ _ V SP Dl E) as R.
  pose proof (surface_point_class D S _ _ _ _ _ V SP Dl' E') as R'. unfold point_eqb. rewrite set_eqb_iff. split.
  - intros H. apply R, H, R', rst_refl.
  - intros I y. rewrite R, R'. split; intros Q; eapply rst_trans; eauto using rst_sym.
Qed.
Print Assumptions C22_equality.
(** on a finite surface every position that is not outside of its polygon defines a point *)
Theorem C22_total (K : OField) (L : Type) (EL : EqB L) (D : L -> Prop) (S : surface K L) (corners : list (L * nat)) fuel l p P :
  valid D S -> NoDup corners -> (forall x, In x corners <-> corner D S x) -> (length corners < fuel)%nat ->
  D l -> s_poly S l = Ok P -> get_point_position P p <> Outside -> exists r, surface_point S fuel l p None = Ok r.
Proof. intros. eapply surface_point_total; eauto. Qed.
Print Assumptions C22_total.

(** ** C50 *)
(** the edges listed around a vertex are the two edges of each corner of the vertex, each corner once, in
    counter-clockwise order, and placed in the plane such that neighbouring corners share an edge *)
Theorem C50_edges_ccw (K : OField) (L : Type) (EL : EqB L) (D : L -> Prop) (S : surface K L) fuel initial h r :
  valid D S -> corner D S initial -> (forall v, h = Some v -> v <> vzero) ->
  edges_ccw_vertex S fuel initial None h = Ok r ->
  exists start ss, star D S start ss /\ r = flat_map (fun s => [(pa_corner s, pa_first s); (pa_exit s, pa_second s)]) ss /\
    (forall s v, nth_error ss 0 = Some s -> h = Some v -> pa_first s = v) /\
    (forall y, In y (map pa_corner ss) <-> clos_refl_sym_trans (L * nat) (corner_next D S) initial y).
Proof. intros V C N E. exact (edges_ccw_default D S fuel initial h r V C N E). Qed.
Print Assumptions C50_edges_ccw.
Theorem C50_edges_ccw_from (K : OField) (L : Type) (EL : EqB L) (D : L -> Prop) (S : surface K L) fuel initial start P h r :
  valid D S -> corner D S start -> s_poly S (fst start) = Ok P -> (forall v, h = Some v -> v <> vzero) ->
  edges_ccw_vertex S fuel initial (Some start) h = Ok r ->
  exists ss, star D S start ss /\ r = flat_map (fun s => [(pa_corner s, pa_first s); (pa_exit s, pa_second s)]) ss /\
    forall s, nth_error ss 0 = Some s -> pa_first s = match h with Some v => v | None => edge P (snd start) end.
Proof. intros V C E N E'. exact (edges_ccw_star D S fuel start h r P V C E N initial E'). Qed.
Print Assumptions C50_edges_ccw_from.
(** the enumeration ends on finite surfaces; without boundary it may start at any edge of the vertex *)
Theorem C50_total (K : OField) (L : Type) (EL : EqB L) (D : L -> Prop) (S : surface K L) (corners : list (L * nat)) fuel initial h :
  valid D S -> NoDup corners -> (forall x, corner D S x -> In x corners) -> (length corners <= fuel)%nat -> corner D S initial ->
  (exists r, edges_ccw_vertex S fuel initial None h = Ok r) /\
  (closed D S -> forall start, corner D S start -> exists r, edges_ccw_vertex S fuel initial (Some start) h = Ok r).
Proof.
  intros V N I F C. split; [eapply edges_ccw_total; eauto|]. intros Cl start Cs. eapply edges_ccw_total_closed; eauto.
Qed.
Print Assumptions C50_total.

(** ** C49 *)
(** the number of turns is the number of times that the direction of the first vector is met again when
    turning counter-clockwise through all the vectors *)
Theorem C49_turns (K : OField) (start : vec K) (vs : list (vec K)) : start <> vzero -> proper_turns start vs ->
  (0 <= turns start vs)%Z /\ forall n, meets_count start start vs n <-> turns start vs = Z.of_nat n.
Proof.
  intros Ns PT. split; [|intros n; now apply turns_spec].
  destruct (meets_count_exists start vs start Ns Ns PT) as [m Hm]. apply (turns_spec start vs m Ns PT) in Hm. lia.
Qed.
Print Assumptions C49_turns.
(** cutting a corner into two does not change it *)
Theorem C49_subdivision (K : OField) (start : vec K) (vs1 vs2 : list (vec K)) v w : start <> vzero ->
  proper_turns start (vs1 ++ v :: vs2) -> sector (last vs1 start) v w ->
  turns start (vs1 ++ w :: v :: vs2) = turns start (vs1 ++ v :: vs2).
Proof.
  intros Ns PT Sec. destruct (meets_count_exists start _ start Ns Ns PT) as [m Hm].
  destruct (meets_count_split start vs1 start _ v w vs2 m Ns Ns PT eq_refl Sec) as [PT' I].
  pose proof (proj1 (turns_spec start _ m Ns PT) Hm) as E1.
  pose proof (proj1 (turns_spec start _ m Ns PT') (proj2 I Hm)) as E2. congruence.
Qed.
Print Assumptions C49_subdivision.
(** the turns around a vertex of a surface *)
Theorem C49_point_turns (K : OField) (L : Type) (EL : EqB L) (D : L -> Prop) (S : surface K L) fuel initial h n u v :
  valid D S -> simple_polygons D S -> corner D S initial -> (forall w, h = Some w -> w <> vzero) ->
  point_turns S fuel initial None h = Ok (n, u, v) ->
  exists start ss s0 s1, star D S start ss /\
    (forall y, In y (map pa_corner ss) <-> clos_refl_sym_trans (L * nat) (corner_next D S) initial y) /\
    nth_error ss 0 = Some s0 /\ u = pa_first s0 /\ nth_error ss (length ss - 1) = Some s1 /\ v = pa_second s1 /\
    proper_turns u (map pa_second ss) /\
    (0 <= n)%Z /\ meets_count u u (map pa_second ss) (Z.to_nat n).
Proof.
  intros V SP C Nh E. unfold point_turns in E.
  destruct (edges_ccw_vertex S fuel initial None h) as [r|] eqn:R; cbn [bind] in E; [|discriminate].
  destruct (edges_ccw_default D S fuel initial h r V C Nh R) as [start [ss [St [Er [_ Cl]]]]].
  destruct (st_start _ _ _ _ St) as [s0 [ss' [Es _]]].
  destruct r as [|[x0 w] r']; [discriminate|]. rewrite Er, odd_show in E. injection E as E1 E2 E3.
  assert (Ew : w = pa_first s0) by (rewrite Es in Er; cbn in Er; congruence).
  assert (PT : proper_turns (pa_first s0) (map pa_second ss)).
  { apply (star_turns D S ss V SP); [apply St|apply St|]. now rewrite Es. }
  destruct (place_turn D S s0 V SP) as [N0 _]; [apply St; rewrite Es; now left|].
  destruct (C49_turns K (pa_first s0) _ N0 PT) as [T0 T1].
  destruct (st_around _ _ _ _ St) as [_ [s1 [_ [_ [Hs1 _]]]]].
  exists start, ss, s0, s1. split; auto. split; auto. split; [now rewrite Es|]. split; [congruence|]. split; auto. split.
  - rewrite <- E3. assert (G : forall (l : list (@place_at K L)) d, nth_error l (length l - 1) = Some s1 -> last (map pa_second l) d = pa_second s1).
    { clear. induction l as [|a l IH]; intros d E; [discriminate|]. cbn [length] in E. rewrite Nat.sub_succ, Nat.sub_0_r in E.
      destruct l as [|b l]; [cbn in *; congruence|]. cbn [map last]. apply (IH d). cbn [length] in *. rewrite Nat.sub_succ, Nat.sub_0_r. exact E. }
    now apply G.
  - rewrite <- E2, Ew. split; auto. rewrite <- E1, Ew. split; auto. apply T1. lia.
Qed.
Print Assumptions C49_point_turns.

(** ** examples *)
(** the unit square is simple *)
Section Square.
Context {K : OField}.
Add Field KF : (of_ft K).
Local Open Scope F_scope.
Definition square : polygon K := [(0, 0); (1, 0); (1, 1); (0, 1)].
Lemma square_side i x y : on_segment (side square i) (x, y) ->
  match (i mod 4)%nat with
  | 0%nat => y = 0 /\ 0 <= x /\ x <= 1
  | 1%nat => x = 1 /\ 0 <= y /\ y <= 1
  | 2%nat => y = 1 /\ 0 <= x /\ x <= 1
  | _ => x = 0 /\ 0 <= y /\ y <= 1
  end.
Proof.
  intros O. destruct (proj1 (side_segment square i (x, y)) O) as [t [T0 [T1 E]]]. rewrite <- (vertex_mod square), <- (edge_mod square) in E.
  change (length square) with 4%nat in E. assert (Hi : (i mod 4 < 4)%nat) by (apply Nat.mod_upper_bound; lia).
  destruct (i mod 4)%nat as [|[|[|[|k]]]]; [| | | |lia]; unfold edge, vadd, vscale, vsub in E; cbn in E; injection E as E1 E2;
    (split; [|split]; [|flra|flra]); flra.
Qed.
Lemma square_simple : simple_polygon square.
Proof.
  intros i j [x y] Hi Hj Nij Oi Oj. cbn [length square] in *.
  apply square_side in Oi, Oj. rewrite !Nat.mod_small in Oi, Oj by lia.
  destruct i as [|[|[|[|i]]]]; [| | | |lia]; (destruct j as [|[|[|[|j]]]]; [| | | |lia]); try congruence;
    destruct Oi as [A [B C]], Oj as [A' [B' C']];
    first [exfalso; clear - A A'; rewrite A in A'; pose proof (@flt_0_1 K); flra
          |left; split; [reflexivity|apply vec_eq; cbn; assumption]
          |right; split; [reflexivity|apply vec_eq; cbn; assumption]].
Qed.
End Square.

Definition ex_corners := [(tt, 0); (tt, 1); (tt, 2); (tt, 3)].
Example C22_ex : valid (fun _ => True) ex_torus1 /\ simple_polygons (fun _ => True) ex_torus1 /\
  (forall x, In x ex_corners <-> corner (fun _ => True) ex_torus1 x) /\ NoDup ex_corners.
Proof.
  split; [apply C12_ex|]. split; [|split].
  - intros l P _ E. assert (P = @square cqF) as ->; [|apply square_simple]. cbn in E. injection E as <-. vm_compute. reflexivity.
  - intros [[] k]. unfold corner. cbn. split.
    + intros [E|[E|[E|[E|[]]]]]; injection E as <-; exists unit_square; repeat split; auto; cbn; lia.
    + intros [P [_ [E Lk]]]. injection E as <-. cbn in Lk. destruct k as [|[|[|[|k]]]]; auto. lia.
  - repeat constructor; cbn; intuition discriminate.
Qed.
(** on the torus the four corners are one point, and so are the two points on opposite edges; in the pillow case a
    point of an edge is identified with its mirror image on the same edge *)
Definition pt_count (r : res (list (unit * vec cqF))) := match r with Ok l => length l | Err _ => 99 end.
Definition pt_eqb (r r' : res (list (unit * vec cqF))) := match r, r' with Ok l, Ok l' => point_eqb l l' | _, _ => false end.
Example C22_ex2 :
  pt_count (surface_point ex_torus1 5 tt (qv 0 0) None) = 4 /\
  pt_eqb (surface_point ex_torus1 5 tt (qv 0 0) None) (surface_point ex_torus1 5 tt (qv 1 1) None) = true /\
  pt_eqb (surface_point ex_torus1 5 tt (qv (1#3) 0) None) (surface_point ex_torus1 5 tt (qv (1#3) 1) None) = true /\
  pt_eqb (surface_point ex_torus1 5 tt (qv (1#3) 0) None) (surface_point ex_torus1 5 tt (qv (2#3) 1) None) = false /\
  pt_eqb (surface_point ex_pillow 5 tt (qv (1#3) 0) None) (surface_point ex_pillow 5 tt (qv (2#3) 0) None) = true /\
  pt_count (surface_point ex_pillow 5 tt (qv (1#2) 0) None) = 1 /\
  pt_count (surface_point ex_boundary 5 tt (qv 0 0) None) = 2.
Proof. vm_compute. auto 10. Qed.
Definition ccw_names (r : res (list ((unit * nat) * vec cqF))) := match r with Ok l => map (fun x => snd (fst x)) l | Err _ => nil end.
Definition turn_count (r : res (Z * vec cqF * vec cqF)) := match r with Ok (n, _, _) => n | Err _ => (-1)%Z end.
Example C50_ex :
  ccw_names (edges_ccw_vertex ex_torus1 5 (tt, 0) None None) = [0; 3; 1; 0; 2; 1; 3; 2] /\
  ccw_names (edges_ccw_vertex ex_boundary 5 (tt, 0) None None) = [3; 2; 0; 3] /\
  ccw_names (edges_ccw_vertex ex_pillow 5 (tt, 0) None None) = [0; 3; 3; 2; 2; 1; 1; 0].
Proof. vm_compute. auto 10. Qed.
Example C49_ex : turn_count (point_turns ex_torus1 5 (tt, 0) None None) = 1%Z /\
  turn_count (point_turns ex_boundary 5 (tt, 0) None None) = 0%Z /\
  proper_turns (qv 1 0) [qv 0 1; qv (-1) 0; qv 1 (-1); qv 1 1] /\ turns (qv 1 0) [qv 0 1; qv (-1) 0; qv 1 (-1); qv 1 1] = 1%Z.
Proof.
  split; [vm_compute; reflexivity|]. split; [vm_compute; reflexivity|]. split; [|vm_compute; reflexivity].
  repeat constructor; try (intros E; apply (f_equal (fun x => veqb x vzero)) in E; vm_compute in E; discriminate);
    intros E; apply is_parallel_spec in E; vm_compute in E; discriminate.
Qed.
