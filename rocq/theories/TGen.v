(** Theorems C78: the generators of finite surfaces with parameters. *)
From Coq Require Import List Bool ZArith Arith Lia Ring Field QArith.
From Verif Require Import OField FMicromega PField MBase MDict MEuclid SEuclid MSim SSim MPoly MMut SMut MSurf SSurf MComb SPoint PFam2 TEuclid TIET TFam MGen SGen PGen6 PGen7.
Import ListNotations.
Open Scope nat_scope.
Local Notation "a <f b" := (flt a b) (at level 70).
Local Notation "a +f b" := (fadd a b) (at level 50, left associativity).
Local Notation "a *f b" := (fmul a b) (at level 40, left associativity).

(** A torus exists exactly if the basis is positively oriented; it has one vertex, genus one and the area of the basis. *)
Theorem C78_torus (K : OField) (u v : vec K) :
  ((exists c, torus u v empty = (c, Ok tt)) <-> f0 <f ccw u v) /\
  forall c, torus u v empty = (c, Ok tt) -> finite_surface map_translation 1 1 1 (ccw u v) c.
Proof.
  split; [apply torus_iff|]. intros c E. assert (H : f0 <f ccw u v) by (apply torus_iff; eauto).
  destruct (torus_ok u v H) as (c' & E' & F). rewrite E in E'. now injection E' as <-.
Qed.
Print Assumptions C78_torus.
(** An L exists exactly if all lengths have the same sign; its genus is two. *)
Theorem C78_mcmullen_L (K : OField) (l1 l2 l3 l4 : K) :
  ((exists c, mcmullen_L l1 l2 l3 l4 empty = (c, Ok tt)) <->
     (f0 <f l1 /\ f0 <f l2 /\ f0 <f l3 /\ f0 <f l4) \/ (l1 <f f0 /\ l2 <f f0 /\ l3 <f f0 /\ l4 <f f0)) /\
  forall c, mcmullen_L l1 l2 l3 l4 empty = (c, Ok tt) -> finite_surface map_translation 3 1 2 (l1 *f l3 +f l2 *f l3 +f l2 *f l4) c.
Proof.
  split; [apply L_iff|]. intros c E. destruct (L_ok l1 l2 l3 l4) as (c' & E' & F); [apply L_iff; eauto|]. rewrite E in E'. now injection E' as <-.
Qed.
Print Assumptions C78_mcmullen_L.
(** The basic dilation torus exists exactly for positive parameters. *)
Theorem C78_dilation_torus (K : OField) (a : K) :
  ((exists c, basic_dilation_torus a empty = (c, Ok tt)) <-> f0 <f a) /\
  forall c, basic_dilation_torus a empty = (c, Ok tt) -> finite_surface map_positive_dilation 2 2 1 (f1 +f a) c.
Proof.
  split; [apply dilation_iff|]. intros c E. destruct (dilation_ok a) as (c' & E' & F); [apply dilation_iff; eauto|]. rewrite E in E'. now injection E' as <-.
Qed.
Print Assumptions C78_dilation_torus.
(** The square with one marked point on each side always gives a dilation surface of genus two and area one. *)
Theorem C78_genus_two_square (K : OField) (a b c d : K) : (forall x, In x [a; b; c; d] -> f0 <f x /\ x <f f1) ->
  exists s, genus_two_square a b c d empty = (s, Ok tt) /\ finite_surface map_positive_dilation 3 1 2 f1 s.
Proof. intros H. apply square_ok; apply H; cbn; auto. Qed.
Print Assumptions C78_genus_two_square.
(** The cathedral has genus four for all positive parameters. *)
Theorem C78_cathedral (K : OField) (a b : K) : f0 <f a -> f0 <f b ->
  exists c, cathedral a b empty = (c, Ok tt) /\ finite_surface map_translation 4 3 4 (Z2K K 6 *f a +f Z2K K 2 *f b +f Z2K K 3) c.
Proof.
  intros A B. destruct (cathedral_ok a b A B) as (c & E & F). exists c. split; auto.
  rewrite <- cathedral_total. exact F.
Qed.
Print Assumptions C78_cathedral.
(** McMullen's prototypes: for the positive root λ of x^2 = e x + w h, the surface exists exactly if the integers form a prototype
    and 0 <= rel < w - λ; with a given base ring only if λ is an integer or half of one. It has genus two and one vertex, or two if rel is not zero. *)
Theorem C78_genus2 (K : OField) (given : bool) (lam : K) (w h t e : Z) (rel : K) :
  f0 <f lam -> lam *f lam = Z2K K e *f lam +f Z2K K w *f Z2K K h ->
  ((exists c, genus2_prototype given lam w h t e rel empty = (c, Ok tt)) <->
     (given = true -> is_square (e * e + 4 * w * h) = true) /\ prototype w h t e /\ (e + h < w)%Z /\ (rel = f0 \/ (f0 <f rel /\ rel <f fsub (Z2K K w) lam))) /\
  forall c, genus2_prototype given lam w h t e rel empty = (c, Ok tt) ->
    finite_surface map_translation 2 (if feqb rel f0 then 1 else 2) 2 (lam *f lam +f Z2K K w *f Z2K K h) c.
Proof.
  intros L Q. split; [split|].
  - intros (c & E). eapply genus2_inv; eauto. now split.
  - intros (A & B & C & D). destruct (genus2_ok given lam w h t e rel A (conj L Q) B C D) as (c & E & _). eauto.
  - intros c E. destruct (genus2_inv given lam w h t e rel c (conj L Q) E) as (A & B & C & D).
    destruct (genus2_ok given lam w h t e rel A (conj L Q) B C D) as (c' & E' & F). rewrite E in E'. now injection E' as <-.
Qed.
Print Assumptions C78_genus2.
(** The prototypes of genus three: d is the positive square root of the discriminant. *)
Theorem C78_genus3 (K : OField) (d : K) (w h t e : Z) : f0 <f d -> d *f d = Z2K K (e * e + 8 * w * h) ->
  ((exists c, genus3_prototype d w h t e empty = (c, Ok tt)) <-> prototype w h t e /\ (e + 2 * h < w)%Z) /\
  forall c, genus3_prototype d w h t e empty = (c, Ok tt) -> let lam := fdiv (Z2K K e +f d) (f1 +f f1) in
    finite_surface map_translation 3 1 3 (lam *f lam +f (f1 +f f1) *f (Z2K K w *f Z2K K h)) c.
Proof.
  intros D Q. split; [split|].
  - intros (c & E). eapply genus3_inv; eauto.
  - intros (A & B). destruct (genus3_ok d w h t e (conj D Q) A B) as (c & E & _). eauto.
  - intros c E. destruct (genus3_inv d w h t e c E) as (A & B). destruct (genus3_ok d w h t e (conj D Q) A B) as (c' & E' & F). rewrite E in E'. now injection E' as <-.
Qed.
Print Assumptions C78_genus3.
(** The prototypes of genus four: the surface exists exactly if moreover λ < w / 2. *)
Theorem C78_genus4 (K : OField) (d : K) (w h t e : Z) : f0 <f d -> d *f d = Z2K K (e * e + 4 * w * h) -> let lam := fdiv (Z2K K e +f d) (f1 +f f1) in
  ((exists c, genus4_prototype d w h t e empty = (c, Ok tt)) <-> prototype w h t e /\ lam <f fdiv (Z2K K w) (f1 +f f1)) /\
  forall c, genus4_prototype d w h t e empty = (c, Ok tt) -> finite_surface map_translation 4 1 4 (fdiv (lam *f lam +f Z2K K w *f Z2K K h) (f1 +f f1)) c.
Proof.
  intros D Q lam. split; [split|].
  - intros (c & E). eapply genus4_inv; eauto. now split.
  - intros (A & B). destruct (genus4_ok d w h t e (conj D Q) A B) as (c & E & _). eauto.
  - intros c E. destruct (genus4_inv d w h t e c (conj D Q) E) as (A & B). destruct (genus4_ok d w h t e (conj D Q) A B) as (c' & E' & F). rewrite E in E'. now injection E' as <-.
Qed.
Print Assumptions C78_genus4.

(** ** Findings *)
(** The documentation of the prototypes of genus four only asks for e < 2 w - sqrt(D), i.e., λ < w, and the code rejects λ >= w and
    λ = w / 2 explicitly; but for w / 2 < λ < w the second polygon turns back on itself and cannot be constructed. *)
Theorem C78_genus4_refuted : exists (d : cqF) (w h t e : Z), f0 <f d /\ d *f d = Z2K cqF (e * e + 4 * w * h) /\ prototype w h t e /\ (0 < e)%Z /\
  let lam := fdiv (Z2K cqF e +f d) (f1 +f f1) in lam <f Z2K cqF w /\ lam <> fdiv (Z2K cqF w) (f1 +f f1) /\ ~ exists c, genus4_prototype d w h t e empty = (c, Ok tt).
Proof.
  exists (qn 7), 6%Z, 2%Z, 0%Z, 1%Z. split; [reflexivity|]. split; [vm_compute; reflexivity|]. split; [apply prototype_gcd; vm_compute; repeat split; discriminate|]. split; [lia|].
  cbv zeta. split; [vm_compute; reflexivity|]. split; [intros X; vm_compute in X; discriminate X|].
  intros (c & E). apply (f_equal (fun x => is_ok (snd x))) in E. vm_compute in E. discriminate E.
Qed.
Print Assumptions C78_genus4_refuted.
(** mcmullen_genus2_prototype never succeeds over a given base ring if λ is irrational, because an assertion compares the smaller
    root twice; stated for every ordered field that contains the roots *)
Theorem C78_base_ring_refuted (K : OField) (lam : K) (w h t e : Z) (rel : K) : f0 <f lam -> lam *f lam = Z2K K e *f lam +f Z2K K w *f Z2K K h ->
  prototype w h t e -> (e + h < w)%Z -> is_square (e * e + 4 * w * h) = false -> ~ exists c, genus2_prototype true lam w h t e rel empty = (c, Ok tt).
Proof. intros L Q _ _ S (c & E). destruct (genus2_inv true lam w h t e rel c (conj L Q) E) as (A & _). rewrite (A eq_refl) in S. discriminate S. Qed.
Print Assumptions C78_base_ring_refuted.
(** The check of rel admits w - λ, for which two vertices of the second polygon coincide. *)
Theorem C78_rel_refuted : exists (lam rel : cqF) (w h t e : Z), f0 <f lam /\ lam *f lam = Z2K cqF e *f lam +f Z2K cqF w *f Z2K cqF h /\ prototype w h t e /\ (e + h < w)%Z /\
  f0 <f rel /\ ~ (fsub (Z2K cqF w) lam <f rel) /\ ~ exists c, genus2_prototype false lam w h t e rel empty = (c, Ok tt).
Proof.
  exists (qn 1), (qn 1), 2%Z, 1%Z, 0%Z, (-1)%Z. split; [reflexivity|]. split; [vm_compute; reflexivity|]. split; [apply prototype_gcd; vm_compute; repeat split; discriminate|]. split; [lia|].
  split; [reflexivity|]. split; [intros X; vm_compute in X; discriminate X|].
  intros (c & E). apply (f_equal (fun x => is_ok (snd x))) in E. vm_compute in E. discriminate E.
Qed.
Print Assumptions C78_rel_refuted.

(** ** Examples *)
Example C78_torus_ex : is_ok (snd (torus (qv 2 1) (qv (-1) 3) empty)) = true /\ is_ok (snd (torus (qv 2 1) (qv 1 (-3)) empty)) = false.
Proof. vm_compute. auto. Qed.
Example C78_L_ex : is_ok (snd (mcmullen_L (qn 1) (qn 2) (qn 3) (qn 4) empty)) = true /\ is_ok (snd (mcmullen_L (qn (-1)) (qn (-2)) (qn (-3)) (qn (-4)) empty)) = true /\
  is_ok (snd (mcmullen_L (qn (-1)) (qn 2) (qn 3) (qn 4) empty)) = false.
Proof. vm_compute. auto. Qed.
Example C78_dilation_torus_ex : is_ok (snd (basic_dilation_torus (qn 3) empty)) = true /\ is_ok (snd (basic_dilation_torus (qn (-3)) empty)) = false.
Proof. vm_compute. auto. Qed.
Definition half_q : cqF := fdiv f1 (qn 2).
Definition third_q : cqF := fdiv f1 (qn 3).
Example C78_square_ex : is_ok (snd (genus_two_square half_q third_q third_q half_q empty)) = true.
Proof. vm_compute. auto. Qed.
Example C78_cathedral_ex : is_ok (snd (cathedral (qn 3) half_q empty)) = true.
Proof. vm_compute. auto. Qed.
(** discriminant 9 *)
Example C78_genus2_ex : prototype 2 1 0 (-1) /\ is_ok (snd (genus2_prototype true (qn 1) 2 1 0 (-1) f0 empty)) = true /\
  is_ok (snd (genus2_prototype false (qn 1) 2 1 0 (-1) half_q empty)) = true /\ is_ok (snd (genus2_prototype false (qn 1) 2 1 1 (-1) f0 empty)) = false.
Proof. split; [apply prototype_gcd; vm_compute; repeat split; discriminate|]. vm_compute. auto. Qed.
(** discriminant 17 is not a square: over a field with its root, here the hypotheses on the integers *)
Example C78_base_ring_ex : prototype 4 1 0 1 /\ is_square (1 * 1 + 4 * 4 * 1) = false /\ (1 + 1 < 4)%Z.
Proof. split; [apply prototype_gcd; vm_compute; repeat split; discriminate|]. vm_compute. auto. Qed.
Example C78_genus3_ex : prototype 3 1 0 (-1) /\ is_ok (snd (genus3_prototype (qn 5) 3 1 0 (-1) empty)) = true.
Proof. split; [apply prototype_gcd; vm_compute; repeat split; discriminate|]. vm_compute. auto. Qed.
Example C78_genus4_ex : prototype 3 1 0 (-2) /\ is_ok (snd (genus4_prototype (qn 4) 3 1 0 (-2) empty)) = true.
Proof. split; [apply prototype_gcd; vm_compute; repeat split; discriminate|]. vm_compute. auto. Qed.
