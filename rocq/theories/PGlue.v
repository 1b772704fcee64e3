(** Gluing a list of pairs of edges one after the other. *)
From Coq Require Import List Bool ZArith Lia Relations.
From Verif Require Import MBase MDict PDict MMut SMut PMut PMut2 PMut3.
Import ListNotations.
Local Open Scope Z_scope.

Section Glue.
Context {P : Type} (nv : P -> nat).
Notation surf := (@surf P).

Definition touched (ps : list (hedge * hedge)) (z : hedge) : bool :=
  existsb (fun xy => eqb z (fst xy) || eqb z (snd xy)) ps.
Lemma touched_In ps z : touched ps z = true <-> exists x y, In (x, y) ps /\ (z = x \/ z = y).
Proof.
  unfold touched. rewrite existsb_exists. split.
  - intros [[x y] [I E]]. cbn [fst snd] in E. apply orb_true_iff in E. exists x, y. split; auto.
    destruct E as [E|E]; apply (eqb_ok z) in E; auto.
  - intros [x [y [I E]]]. exists (x, y). split; auto. cbn [fst snd]. apply orb_true_iff.
    destruct E as [-> | ->]; rewrite eqb_refl; auto.
Qed.

Lemma glue_list (h : hedge -> option hedge) ps : forall s : surf,
  inv nv s -> mutable s = true -> sep s -> cov s ->
  (forall x y, In (x, y) ps -> inrange (gluings s) x /\ inrange (gluings s) y /\ h x = Some y /\ h y = Some x) ->
  exists s', mfor ps (fun xy => glue nv (fst xy) (snd xy)) s = (s', Ok tt) /\ inv nv s' /\ frame s s' /\ sep s' /\ cov s' /\
    (roots_ s = nil -> roots_ s' = nil) /\
    forall z, gz (gluings s') z = if touched ps z then h z else
      match gz (gluings s) z with Some w => if touched ps w then None else Some w | None => None end.
Proof.
  induction ps as [|[x y] ps IH]; intros s I Mu SE CO H.
  - exists s. cbn. split; [reflexivity|]. split; [auto|]. split; [apply frame_refl|]. split; [auto|]. split; [auto|]. split; [auto|].
    intros z. now destruct (gz (gluings s) z).
  - destruct (H x y (or_introl eq_refl)) as [Rx [Ry [Hx Hy]]].
    destruct (glue_main nv s x y I Mu Rx Ry) as [s1 [r [E [I1 [F1 [G1 [_ [S1 [C1 N1]]]]]]]]].
    destruct (C1 SE CO) as [C1' ->]. specialize (G1 eq_refl). specialize (S1 SE).
    assert (Mu1 : mutable s1 = true) by (rewrite (f_mut _ _ F1); auto).
    destruct (IH s1 I1 Mu1 S1 C1') as [s' [E' [I' [F' [S' [C' [N' G']]]]]]].
    { intros x' y' I'. destruct (H x' y' (or_intror I')) as [A [B [C D]]]. rewrite <- !(frame_range s s1) by auto. auto. }
    exists s'. split; [cbn [mfor fst snd]; unfold mbind; rewrite E; exact E'|]. split; auto. split; [eapply frame_trans; eauto|].
    split; auto. split; auto. split; [intros RN; apply N', N1, RN|].
    intros z. rewrite G'.
    assert (TY : touched ps x = touched ps y).
    { apply eq_true_iff_eq. rewrite !touched_In. split; intros [a [b [Iab Ez]]]; exists a, b; (split; [auto|]);
        destruct (H a b (or_intror Iab)) as [_ [_ [Ha Hb]]]; destruct Ez as [<-|<-]; try rewrite Hx in *; try rewrite Hy in *;
        try rewrite Hx in *; intuition congruence. }
    cbn [touched existsb fst snd].
    change (existsb (fun xy => eqb z (fst xy) || eqb z (snd xy)) ps) with (touched ps z).
    destruct (touched ps z) eqn:Tz; [now rewrite orb_true_r|]. rewrite orb_false_r.
    rewrite G1. unfold glz.
    destruct (hedge_case z x) as [[E1 E2]|[E1 E2]]; rewrite E1; cbn [orb].
    { subst z. rewrite TY in Tz. rewrite Tz. now rewrite Hx. }
    destruct (hedge_case z y) as [[E3 E4]|[E3 E4]]; rewrite E3; cbn [orb].
    { subst z. rewrite <- TY in Tz. rewrite Tz. now rewrite Hy. }
    pose proof (i_inv nv s I) as INV.
    assert (PX : forall c, gz (gluings s) x = Some c -> eqb z c = true -> gz (gluings s) z = Some x).
    { intros c Gx Ec. apply (eqb_ok z c) in Ec. subst c. auto. }
    assert (PY : forall c, gz (gluings s) y = Some c -> eqb z c = true -> gz (gluings s) z = Some y).
    { intros c Gx Ec. apply (eqb_ok z c) in Ec. subst c. auto. }
    assert (NW : forall w, gz (gluings s) z = Some w -> eqb w x = true \/ eqb w y = true ->
       exists c, eqb z c = true /\ (gz (gluings s) x = Some c \/ gz (gluings s) y = Some c)).
    { intros w Gz [Q|Q]; [apply (eqb_ok w x) in Q|apply (eqb_ok w y) in Q]; subst w; exists z; rewrite eqb_refl; auto. }
    destruct (gz (gluings s) x) as [c|] eqn:Gx.
    + destruct (eqb z c) eqn:Ec.
      { rewrite (PX c) by auto. now rewrite eqb_refl. }
      destruct (gz (gluings s) y) as [c'|] eqn:Gy.
      * destruct (eqb z c') eqn:Ec'.
        { rewrite (PY c') by auto. rewrite eqb_refl. now rewrite orb_true_r. }
        destruct (gz (gluings s) z) as [w|]; auto. destruct (eqb w x || eqb w y) eqn:Q; auto.
        apply orb_true_iff in Q. destruct (NW w eq_refl Q) as [d [D1 [D2|D2]]]; injection D2 as <-; congruence.
      * destruct (gz (gluings s) z) as [w|]; auto. destruct (eqb w x || eqb w y) eqn:Q; auto.
        apply orb_true_iff in Q. destruct (NW w eq_refl Q) as [d [D1 [D2|D2]]]; [injection D2 as <-; congruence|discriminate].
    + destruct (gz (gluings s) y) as [c'|] eqn:Gy.
      * destruct (eqb z c') eqn:Ec'.
        { rewrite (PY c') by auto. rewrite eqb_refl. now rewrite orb_true_r. }
        destruct (gz (gluings s) z) as [w|]; auto. destruct (eqb w x || eqb w y) eqn:Q; auto.
        apply orb_true_iff in Q. destruct (NW w eq_refl Q) as [d [D1 [D2|D2]]]; [discriminate|injection D2 as <-; congruence].
      * destruct (gz (gluings s) z) as [w|]; auto. destruct (eqb w x || eqb w y) eqn:Q; auto.
        apply orb_true_iff in Q. destruct (NW w eq_refl Q) as [d [D1 [D2|D2]]]; discriminate.
Qed.
End Glue.
