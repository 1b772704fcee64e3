(** Specification for the fundamental group: closed paths on the surface as words in the crossed edges. *)
From Coq Require Import List Bool ZArith Arith.
From Verif Require Import MBase MDict MGroup.
Import ListNotations.

Section G.
Context {L : Type}.
Variable (opp : L -> nat -> res (option (L * nat))).

(** crossing an edge: the edge we leave by and the edge we enter by *)
Notation step := ((L * nat) * (L * nat))%type.
Definition back (l : step) : step := (snd l, fst l).
Definition glued (a b : L * nat) : Prop := opp (fst a) (snd a) = Ok (Some b).
(** the gluing is an involution *)
Definition symmetric : Prop := forall a b, glued a b -> glued b a.
(** the steps lead from the polygon [p] to the polygon [q] *)
Fixpoint walk (p : L) (w : list step) (q : L) : Prop :=
  match w with nil => p = q | (a, b) :: w => fst a = p /\ glued a b /\ walk (fst b) w q end.

(** the element of the group that is given by a word: the visited polygons and the crossed edges *)
Definition of_word (base : L) (w : list step) : path :=
  Path (base :: map (fun l => fst (snd l)) w) (map (fun l => snd (fst l)) w) (map (fun l => snd (snd l)) w).
(** [x] is the closed path [w] *)
Definition is_loop (base : L) (x : path) (w : list step) : Prop := walk base w base /\ x = of_word base w.

(** turning back right after a step makes no difference *)
Inductive homotopic : list step -> list step -> Prop :=
| ho_refl w : homotopic w w
| ho_sym w v : homotopic w v -> homotopic v w
| ho_trans u v w : homotopic u v -> homotopic v w -> homotopic u w
| ho_back u l v : homotopic (u ++ l :: back l :: v) (u ++ v).
Definition reduced (w : list step) : Prop := ~ exists u l v, w = u ++ l :: back l :: v.

(** different polygons next to a polygon touch it with edges of different numbers *)
Definition distinguishing : Prop :=
  forall a a' e b j j', glued (a, e) (b, j) -> glued (a', e) (b, j') -> a = a'.
End G.

Section F.
Context {L : Type}.
Variables (sides : L -> res nat) (opp : L -> nat -> res (option (L * nat))).
(** a finite surface without boundary with the given labels *)
Record closed_surface (ls : list L) : Prop := {
  cs_nodup : NoDup ls;
  cs_sides : forall p, In p ls -> exists n, sides p = Ok n;
  cs_glued : forall p n e, In p ls -> sides p = Ok n -> e < n -> exists b, glued opp (p, e) b /\ In (fst b) ls;
  cs_range : forall p e b, In p ls -> glued opp (p, e) b -> exists n, sides p = Ok n /\ e < n;
  cs_sym : symmetric opp }.
(** the number of edges of the polygons [ls] *)
Fixpoint edge_count (ls : list L) : nat :=
  match ls with nil => 0 | p :: ls => (match sides p with Ok n => n | Err _ => 0 end) + edge_count ls end.
(** [w] is the word of one of the elements [gs] or of the inverse of one *)
Definition letter_of (base : L) (gs : list path) (w : list ((L * nat) * (L * nat))) : Prop :=
  exists g, In g gs /\ (is_loop opp base g w \/ is_loop opp base g (map back (rev w))).
End F.
