(** decoder/ffset.cc, ff.h: several feature functions applied together.
    A feature function is what it does to the bytes of its part of the state and to the
    features of an edge: it sees only its own part of the states of the tails, and starts
    from a part which is zero.  [None]: an access out of bounds.  Features are numbered.
    Left out: feature functions which write outside their part (ff.h 58-63 warns of them). *)
From Coq Require Import List Arith Bool Reals.
From Verif Require Import Opt.
Import ListNotations.
Open Scope opt_scope.
Local Open Scope nat_scope.

Notation fvec := (nat -> R) (only parsing).

Section Set_.
(** what is on an edge: the rule, the span, … *)
Variable E : Type.
(** ff.h 20-45, 50-56, 66-73 *)
Record ffun := {
  StateSize : nat;
  IgnoredStateSize : nat;
  Traversal : E -> list (list nat) -> fvec -> list nat * fvec;
  FinalTraversal : list nat -> fvec -> fvec }.

(** ffset.cc 14-24: the position of every model, the size of the whole, and the ranges to erase *)
Fixpoint layout (models : list ffun) (state_size : nat) : list nat * nat * list (nat * nat) :=
  match models with
  | [] => ([], state_size, [])
  | m :: r =>
      let size := state_size + StateSize m in
      let '(pos, total, ranges) := layout r size in
      (state_size :: pos, total,
       if 0 <? IgnoredStateSize m then (size - IgnoredStateSize m, size) :: ranges else ranges)
  end.
Definition model_state_pos (models : list ffun) : list nat := fst (fst (layout models 0)).
Definition state_size (models : list ffun) : nat := snd (fst (layout models 0)).
Definition ranges_to_erase (models : list ffun) : list (nat * nat) := snd (layout models 0).

(** the bytes from [pos]; the bytes [bs] written at [pos] *)
Definition read (state : list nat) (pos size : nat) : option (list nat) :=
  if pos + size <=? length state then Some (firstn size (skipn pos state)) else None.
Definition write (state : list nat) (pos : nat) (bs : list nat) : option (list nat) :=
  if pos + length bs <=? length state then Some (firstn pos state ++ bs ++ skipn (pos + length bs) state) else None.
Fixpoint read_all (states : list (list nat)) (pos size : nat) : option (list (list nat)) :=
  match states with
  | [] => Some []
  | s :: r => a <- read s pos size ;; l <- read_all r pos size ;; Some (a :: l)
  end.

(** 43-56 *)
Fixpoint traverse_models (models : list ffun) (pos : list nat) (e : E) (ants : list (list nat)) (context : list nat) (f : fvec)
  : option (list nat * fvec) :=
  match models, pos with
  | m :: r, p :: ps =>
      a <- (if 0 <? StateSize m then read_all ants p (StateSize m) else Some (map (fun _ => []) ants)) ;;
      let '(bs, f') := Traversal m e a f in
      c <- (if 0 <? StateSize m then write context p bs else Some context) ;;
      traverse_models r ps e ants c f'
  | _, _ => Some (context, f)
  end.
(** 31-60; [f]: the features of the edge before *)
Definition AddFeaturesToEdge (models : list ffun) (e : E) (ants : list (list nat)) (f : fvec) : option (list nat * fvec) :=
  traverse_models models (model_state_pos models) e ants (repeat 0 (state_size models)) f.
(** 62-76 *)
Fixpoint final_models (models : list ffun) (pos : list nat) (state : list nat) (f : fvec) : option fvec :=
  match models, pos with
  | m :: r, p :: ps =>
      a <- (if 0 <? StateSize m then read state p (StateSize m) else Some []) ;;
      final_models r ps state (FinalTraversal m a f)
  | _, _ => Some f
  end.
Definition AddFinalFeatures (models : list ffun) (state : list nat) (f : fvec) : option fvec :=
  final_models models (model_state_pos models) state f.

(** 80-87 *)
Definition erase1 (state : list nat) (r : nat * nat) : list nat :=
  map (fun ib => if (fst r <=? fst ib) && (fst ib <? snd r) then 0 else snd ib) (combine (seq 0 (length state)) state).
Definition EraseIgnoredBytes (models : list ffun) (state : list nat) : list nat :=
  fold_left erase1 (ranges_to_erase models) state.

(** ** Derivations: an edge with the features of its rule, and a derivation for every tail *)
Inductive dtree := DT (e : E) (f : fvec) (kids : list dtree).
Definition vplus (u v : fvec) : fvec := fun x => (u x + v x)%R.
(** the state and the sum of the features *)
Fixpoint score (models : list ffun) (d : dtree) : option (list nat * fvec) :=
  match d with
  | DT e f kids =>
      rs <- (fix go l := match l with [] => Some [] | k :: r => x <- score models k ;; xs <- go r ;; Some (x :: xs) end) kids ;;
      ' (s, f') <- AddFeaturesToEdge models e (map fst rs) f ;;
      Some (s, fold_left vplus (map snd rs) f')
  end.
(** a whole derivation, finished with a goal edge with the features [g] *)
Definition score_goal (models : list ffun) (g : fvec) (d : dtree) : option fvec :=
  ' (s, f) <- score models d ;; g' <- AddFinalFeatures models s g ;; Some (vplus f g').
End Set_.
