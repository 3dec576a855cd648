(** Specification vocabulary for pruning. *)
From Coq Require Import List Arith ZArith QArith Qcanon.
From Verif Require Import HG Deriv TopoSpec.
Import ListNotations.
Local Open Scope nat_scope.

Section S.
Context {P : Type}.

(** The last node. *)
Definition goal (g : hg P) : nat := length (nodes g) - 1.

(** [g'] has exactly the derivations of [g] that are [ok]: [f] renames the
    edges, keeps what is on them, and is one-to-one on derivations. *)
Definition carries (ok : tree -> Prop) (g g' : hg P) : Prop := exists f : nat -> nat,
  (forall t', derives g' (goal g') t' <-> exists t, derives g (goal g) t /\ ok t /\ t' = rename f t) /\
  (forall t u, derives g (goal g) t -> ok t -> derives g (goal g) u -> ok u -> rename f t = rename f u -> t = u) /\
  (forall t e, derives g (goal g) t -> ok t -> In e (tree_edges t) ->
     exists ed ed', nth_error (edges g) e = Some ed /\ nth_error (edges g') (f e) = Some ed' /\ lab ed' = lab ed).

(** Every edge is used by a derivation of the goal, and every node is
    derivable. *)
Definition no_dead_parts (g : hg P) : Prop :=
  (forall e, e < length (edges g) -> exists t, derives g (goal g) t /\ In e (tree_edges t)) /\
  (forall n, n < length (nodes g) -> exists t, derives g n t).

(** [g'] has edges of [g] only, in their order, with what is on them, and all
    are [ok]. *)
Definition made_of (ok : nat -> Prop) (g g' : hg P) : Prop := exists es : list nat, length es = length (edges g') /\
  (forall i j a b, i < j -> nth_error es i = Some a -> nth_error es j = Some b -> a < b) /\
  forall j e, nth_error es j = Some e -> ok e /\
    exists ed ed', nth_error (edges g) e = Some ed /\ nth_error (edges g') j = Some ed' /\ lab ed' = lab ed.

(** No edge marked in the mask. *)
Definition avoids (mask : list bool) (t : tree) : Prop := Forall (fun e => nth_error mask e = Some false) (tree_edges t).

(** ** Probabilities: logarithms, [None] for probability zero *)
Variable prob : P -> option Qc.
Variable g : hg P.

Definition logprob_of (e : nat) : option Qc := match nth_error (edges g) e with Some ed => prob (lab ed) | None => None end.
Fixpoint logprob (t : tree) : option Qc :=
  match t with
  | Tree e ts => fold_left (fun a s => match a, logprob s with Some x, Some y => Some (x + y)%Qc | _, _ => None end) ts (logprob_of e)
  end.
(** [t] has at least the log-probability [c]. *)
Definition at_least (c : Qc) (t : tree) : Prop := exists x, logprob t = Some x /\ (c <= x)%Qc.
(** [b] is the log-probability of the best derivations of the goal. *)
Definition best (b : Qc) : Prop :=
  (exists t, derives g (goal g) t /\ logprob t = Some b) /\
  forall t x, derives g (goal g) t -> logprob t = Some x -> (x <= b)%Qc.
(** Edge [e] is used by a derivation of the goal with log-probability at least [c]. *)
Definition used_at (c : Qc) (e : nat) : Prop := exists t, derives g (goal g) t /\ In e (tree_edges t) /\ at_least c t.
Definition preserved (preserve : option (list bool)) (e : nat) : Prop :=
  exists p, preserve = Some p /\ nth_error p e = Some true.
(** The fraction (e + 1) / 1000000. *)
Definition millionths (k : nat) : Qc := Q2Qc (Z.of_nat k # 1000000).
(** What the beam [c <= 0] below the best, [b], keeps.  The beam narrows by a
    millionth from each edge to the next. *)
Definition kept (preserve : option (list bool)) (b c : Qc) (e : nat) : Prop :=
  preserved preserve e \/ used_at (b + c * (1 - millionths (S e)))%Qc e.
(** [c] is the [d]th best distance from the best at which edges are first used,
    counting from zero; [None] if fewer than [d + 1] edges are used at all. *)
Definition distance_rank (b : Qc) (d : nat) (c : option Qc) : Prop :=
  match c with
  | Some c =>
    (exists l, NoDup l /\ length l = S d /\ forall e, In e l -> used_at (b + c)%Qc e) /\
    (forall l, NoDup l -> (forall e, In e l -> exists x, (c < x)%Qc /\ used_at (b + x)%Qc e) -> length l <= d)
  | None => forall l, NoDup l -> (forall e, In e l -> exists x, used_at x e) -> length l <= d
  end.
(** Edges come after the edges their tails are built from. *)
Definition edges_in_order : Prop := forall e ed t nd d,
  nth_error (edges g) e = Some ed -> In t (tails ed) -> nth_error (nodes g) t = Some nd -> In d (in_edges nd) -> d < e.
End S.
