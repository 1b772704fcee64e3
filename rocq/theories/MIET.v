(** Model of flatsurf/geometry/interval_exchange_transformation.py: the class FlowPolygonMap.

    Lengths are elements of an ordered field (the conversion to [ring] is left out), labels have a decidable equality. *)
From Coq Require Import List Bool ZArith Arith.
From Verif Require Import OField MBase MDict.
Import ListNotations.

Section IET.
Context {K : OField} {A B : Type} `{EqB A} `{EqB B}.
Local Open Scope F_scope.
Local Open Scope res_scope.

(** Python's [sum] *)
Fixpoint lsum (l : list K) : K := match l with nil => 0 | x :: l => x + lsum l end.

(** interval_exchange_transformation.py 80-86 (and 98-104): the inner loop. [it] is the index, [lt] the length of the
    current interval of [dst] and [x1] the part of it that is not used yet, [len] what is left of the current interval of
    the other side. Each round consumes one unit of fuel. *)
Fixpoint advance (fuel : nat) (dst : list K) (it : nat) (lt x1 len : K) : res (nat * K * K * K) :=
  match fuel with
  | O => Err Diverge
  | S fuel =>
    if negb (len =? 0) && (x1 <=? len) then
      match nth_error dst (S it) with
      | Some t => advance fuel dst (S it) t t (len - x1)
      | None => advance fuel dst (S it) 0 x1 (len - x1)
      end
    else Ok (it, lt, x1, len)
  end.
(** 76-88 (and 94-106) *)
Fixpoint images_loop (dst src : list K) (it : nat) (lt x1 : K) : res (list (nat * K)) :=
  match src with
  | nil => Ok nil
  | len :: src =>
    '(it', lt', x1', len') <- advance (S (length dst)) dst it lt x1 len ;;
    let x1' := if negb (len' =? 0) then x1' - len' else x1' in
    r <- images_loop dst src it' lt' x1' ;;
    Ok ((it, lt - x1) :: r)
  end.
(** 73-88 (and 91-106) *)
Definition images (dst src : list K) : res (list (nat * K)) :=
  match nth_error dst 0 with None => Err IndexError | Some t => images_loop dst src 0 t t end.

(** 62-63: [{j: i for i, j in enumerate(labels)}] *)
Definition index_dict {C} `{EqB C} (ls : list C) : dict C nat :=
  fold_left (fun d p => dset (fst p) (snd p) d) (combine ls (seq 0 (length ls))) nil.

Record flow_map := FlowMap {
  fm_bot_labels : list A; fm_top_labels : list B;
  fm_bot : list K; fm_top : list K;
  fm_forward : list (nat * K); fm_backward : list (nat * K) }.

(** 33-106 *)
Definition flow_polygon_map (bot_labels : list A) (bot_lengths : list K) (top_labels : list B) (top_lengths : list K) : res flow_map :=
  if negb (forallb (fun x => 0 <? x) bot_lengths) then Err ValueError
  else if negb (forallb (fun x => 0 <? x) top_lengths) then Err ValueError
  else if negb (length bot_labels =? length bot_lengths)%nat then Err ValueError
  else if negb (length top_labels =? length top_lengths)%nat then Err ValueError
  else if negb (lsum top_lengths =? lsum bot_lengths) then Err ValueError
  else if negb (length bot_labels =? length (index_dict bot_labels))%nat then Err ValueError
  else if negb (length top_labels =? length (index_dict top_labels))%nat then Err ValueError
  else
    f <- images top_lengths bot_lengths ;;
    b <- images bot_lengths top_lengths ;;
    Ok (FlowMap bot_labels top_labels bot_lengths top_lengths f b).

(** 108-114 *)
Definition length_bot (T : flow_map) (i : A) : res K :=
  k <- dgetE i (index_dict (fm_bot_labels T)) ;; match nth_error (fm_bot T) k with Some x => Ok x | None => Err IndexError end.
Definition length_top (T : flow_map) (j : B) : res K :=
  k <- dgetE j (index_dict (fm_top_labels T)) ;; match nth_error (fm_top T) k with Some x => Ok x | None => Err IndexError end.

(** 148-151 (and 202-205): the loop; [rest] are the lengths from the index [j] on *)
Fixpoint walk (rest : list K) (j : nat) (x : K) : res (nat * K) :=
  match rest with
  | nil => Err IndexError
  | t :: rest => if t <? x then walk rest (S j) (x - t) else Ok (j, x)
  end.
(** 141-151 (and 195-205) in terms of indices *)
Definition image (src dst : list K) (im : list (nat * K)) (i : nat) (x : K) : res (nat * K) :=
  match nth_error src i with
  | None => Err IndexError
  | Some b =>
    if (x <? 0) || (b <? x) then Err ValueError
    else match nth_error im i with
    | None => Err IndexError
    | Some (j, y) =>
      match nth_error dst j with
      | None => Err IndexError
      | Some t => if x + y <? t then Ok (j, x + y) else walk (skipn (S j) dst) (S j) (x - (t - y))
      end
    end
  end.
Definition label_of {C} (ls : list C) (j : nat) : res C := match nth_error ls j with Some c => Ok c | None => Err IndexError end.
(** 124-151 *)
Definition forward_image (T : flow_map) (i : A) (x : K) : res (B * K) :=
  k <- dgetE i (index_dict (fm_bot_labels T)) ;;
  p <- image (fm_bot T) (fm_top T) (fm_forward T) k x ;;
  c <- label_of (fm_top_labels T) (fst p) ;; Ok (c, snd p).
(** 153-205 *)
Definition backward_image (T : flow_map) (j : B) (x : K) : res (A * K) :=
  k <- dgetE j (index_dict (fm_top_labels T)) ;;
  p <- image (fm_top T) (fm_bot T) (fm_backward T) k x ;;
  c <- label_of (fm_bot_labels T) (fst p) ;; Ok (c, snd p).
End IET.
Arguments flow_map K A B : clear implicits.
