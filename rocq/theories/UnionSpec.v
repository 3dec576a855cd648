(** Specification vocabulary for unions of forests. *)
From Coq Require Import List Arith ZArith Relations.
From Verif Require Import HG Deriv TopoSpec Union.
Import ListNotations.
Local Open Scope nat_scope.

Section S.
Context {X F W : Type}.
Notation L := (ulab X F W).

(** A step: the node with hash [h] has an in-edge labelled [l] the tails of which have the hashes [hs]. *)
Definition step_of (f : hg L * list Z) (h : Z) (l : L) (hs : list Z) : Prop :=
  exists n nd e ed, nth_error (snd f) n = Some h /\ nth_error (nodes (fst f)) n = Some nd /\ In e (in_edges nd) /\ nth_error (edges (fst f)) e = Some ed /\
    lab ed = l /\ map (nth_error (snd f)) (tails ed) = map Some hs.
(** Derivations made of given steps. *)
Inductive ltree := LT (h : Z) (l : L) (sub : list ltree).
Inductive builds (S : Z -> L -> list Z -> Prop) : Z -> ltree -> Prop :=
| b_step : forall h l hs ts, S h l hs -> Forall2 (builds S) hs ts -> builds S h (LT h l ts).
(** Two derivations which are the same but for labels related by [R]. *)
Inductive alike (R : L -> L -> Prop) : ltree -> ltree -> Prop :=
| a_step : forall h l l' ts ts', R l l' -> Forall2 (alike R) ts ts' -> alike R (LT h l ts) (LT h l' ts').
(** Well-formed, in topological order, each node identified by its hash. *)
Definition good (f : hg L * list Z) : Prop := wf_hg (fst f) /\ topo (fst f) /\ nodes (fst f) <> [] /\ length (snd f) = length (nodes (fst f)) /\ NoDup (snd f).
Definition goal_hash (f : hg L * list Z) (h : Z) : Prop := nth_error (snd f) (length (snd f) - 1) = Some h.
(** Two labels match: both sides of the rule are equal and the features are close. *)
Definition match_ (close : F -> F -> bool) (l l' : L) : Prop := u_e l = u_e l' /\ u_f l = u_f l' /\ close (u_feats l) (u_feats l') = true.
(** No in-edge of a node matches one before it with the same tails. *)
Definition irredundant (close : F -> F -> bool) (f : hg L * list Z) : Prop :=
  forall n nd i j e e' ed ed', nth_error (nodes (fst f)) n = Some nd -> i < j -> nth_error (in_edges nd) i = Some e -> nth_error (in_edges nd) j = Some e' ->
    nth_error (edges (fst f)) e = Some ed -> nth_error (edges (fst f)) e' = Some ed' -> tails ed = tails ed' -> ~ match_ close (lab ed') (lab ed).
(** Some node reached from hash [h] depends on itself. *)
Definition cyclic (S : Z -> L -> list Z -> Prop) (h : Z) : Prop :=
  let below a b := exists l hs, S a l hs /\ In b hs in exists a, clos_refl_trans Z below h a /\ clos_trans Z below a a.
(** A step of either forest; those of the input come without their probability. *)
Definition either (no_prob : W) (input out : hg L * list Z) (h : Z) (l : L) (hs : list Z) : Prop :=
  step_of out h l hs \/ exists l', step_of input h l' hs /\ l = {| u_e := u_e l'; u_f := u_f l'; u_rest := u_rest l'; u_feats := u_feats l'; u_prob := no_prob |}.
End S.
