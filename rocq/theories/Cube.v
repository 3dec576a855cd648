(** Model of the candidate enumeration of cube pruning, decoder/apply_models.cc
    288-507, for one node.

    A candidate is an edge and a vector of indices into the hypothesis lists of
    its tails; [dims e] are the lengths of these lists (the sizes of D at the
    edge's tails, which are complete when the node is processed).  The heap is
    the list of its elements: which of them is largest depends on the models'
    estimates, so a pop takes any element.  [None] is a failed assertion. *)
From Coq Require Import List Arith Bool.
Import ListNotations.

Definition cand : Type := nat * list nat.
Definition cand_eqb (a b : cand) : bool :=
  (fst a =? fst b) && (if list_eq_dec Nat.eq_dec (snd a) (snd b) then true else false).
(** 168: UniqueCandidateSet *)
Definition mem (c : cand) (l : list cand) : bool := existsb (cand_eqb c) l.

(** 446-447: a copy of [j] with element [i] one larger *)
Fixpoint incr (i : nat) (j : list nat) : list nat :=
  match i, j with
  | O, x :: r => S x :: r
  | S k, x :: r => x :: incr k r
  | _, [] => []
  end.
(** 497-499: one smaller; [None] if it would be negative *)
Fixpoint decr (i : nat) (j : list nat) : option (list nat) :=
  match i, j with
  | O, S x :: r => Some (x :: r)
  | S k, x :: r => option_map (cons x) (decr k r)
  | _, _ => None
  end.
(** 448 *)
Definition in_range (dims j : list nat) (i : nat) : bool :=
  match nth_error j i, nth_error dims i with Some x, Some d => x <? d | _, _ => false end.

Record queue := { heap : list cand; seen : list cand; popped : list cand }.

Section K.
Variable dims : nat -> list nat.

(** 443-459 *)
Fixpoint push_succ (e : nat) (j : list nat) (is : list nat) (h cs : list cand) : option (list cand * list cand) :=
  match is with
  | [] => Some (h, cs)
  | i :: r =>
    let j' := incr i j in
    if in_range (dims e) j' i && negb (mem (e, j') cs) then
      if mem (e, j') cs then None
      else push_succ e j r (h ++ [(e, j')]) ((e, j') :: cs)
    else push_succ e j r h cs
  end.
(** 462-476 *)
Fixpoint push_fast (e : nat) (j : list nat) (is : list nat) (h : list cand) : list cand :=
  match is with
  | [] => h
  | i :: r =>
    let j' := incr i j in
    let h' := if in_range (dims e) j' i then h ++ [(e, j')] else h in
    if nth i j 0 =? 0 then push_fast e j r h' else h'
  end.
(** 495-507 *)
Definition has_all_ancestors (e : nat) (j : list nat) (cs : list cand) : bool :=
  forallb (fun i => match decr i j with Some j' => mem (e, j') cs | None => true end) (seq 0 (length j)).
(** 479-493 *)
Fixpoint push_fast2 (e : nat) (j : list nat) (is : list nat) (h cs : list cand) : list cand :=
  match is with
  | [] => h
  | i :: r =>
    let j' := incr i j in
    push_fast2 e j r (if in_range (dims e) j' i && has_all_ancestors e j' cs then h ++ [(e, j')] else h) cs
  end.

Inductive strategy := Normal | Fast | Fast2.

(** 310-318, 354-363, 408-419: one pass of the loop, popping [c]. *)
Definition after_pop (st : strategy) (c : cand) (rest : list cand) (q : queue) : option queue :=
  let (e, j) := c in
  let is := seq 0 (length j) in
  match st with
  | Normal => match push_succ e j is rest (seen q) with
              | Some (h, cs) => Some {| heap := h; seen := cs; popped := c :: popped q |}
              | None => None end
  | Fast => Some {| heap := push_fast e j is rest; seen := []; popped := c :: popped q |}
  | Fast2 => if mem c (popped q) then None
             else Some {| heap := push_fast2 e j is rest (c :: popped q); seen := []; popped := c :: popped q |}
  end.

(** 295-307: the initial heap; in the first strategy the elements must be new. *)
Fixpoint init_seen (es : list nat) (cs : list cand) : option (list cand) :=
  match es with
  | [] => Some cs
  | e :: r => let c := (e, map (fun _ => 0) (dims e)) in if mem c cs then None else init_seen r (c :: cs)
  end.
Definition init_heap (es : list nat) : list cand := map (fun e => (e, map (fun _ => 0) (dims e))) es.
Definition init (st : strategy) (es : list nat) : option queue :=
  match st with
  | Normal => match init_seen es [] with Some cs => Some {| heap := init_heap es; seen := cs; popped := [] |} | None => None end
  | _ => Some {| heap := init_heap es; seen := []; popped := [] |}
  end.

(** The loop with a pop limit, for every choice of the popped element;
    [None] when an assertion failed. *)
Inductive loop (st : strategy) : nat -> queue -> option queue -> Prop :=
| loop_empty : forall k q, heap q = [] -> loop st k q (Some q)
| loop_limit : forall q, loop st 0 q (Some q)
| loop_pop : forall k q l c r q' res, heap q = l ++ c :: r -> after_pop st c (l ++ r) q = Some q' -> loop st k q' res -> loop st (S k) q res
| loop_fail : forall k q l c r, heap q = l ++ c :: r -> after_pop st c (l ++ r) q = None -> loop st (S k) q None.
End K.
