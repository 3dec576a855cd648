(** Specification vocabulary for model intersection. *)
From Coq Require Import List Arith.
From Verif Require Import HG Deriv TopoSpec.
Import ListNotations.

Section S.
Context {P Q St : Type}.
Variable empty : St.
Variable feat : edge P -> list St -> Q * St.
Variable final : edge P -> St -> Q.
Variable g : hg P.

(** The state of a derivation, bottom up. *)
Fixpoint tree_state (t : tree) : St :=
  match t with
  | Tree e ts => match nth_error (edges g) e with Some ed => snd (feat ed (map tree_state ts)) | None => empty end
  end.
(** The goal is the last node; its state is empty. *)
Definition node_state (n : nat) (t : tree) : St := if n =? length (nodes g) - 1 then empty else tree_state t.
(** What the models make of edge [ed] of node [n] above derivations with the
    states [sts]. *)
Definition edge_payload (n : nat) (ed : edge P) (sts : list St) : Q :=
  if n =? length (nodes g) - 1 then final ed (hd empty sts) else fst (feat ed sts).

(** [og] is the intersection: each of its edges and nodes stems from one of
    [g] ([oe], [on]), each of its nodes has a state [st]. *)
Record intersection (og : hg Q) (oe on : nat -> nat) (st : nat -> St) : Prop := {
  merged : forall a b, a < length (nodes og) -> b < length (nodes og) -> on a = on b -> st a = st b -> a = b;
  sound : forall n' t', derives og n' t' -> derives g (on n') (rename oe t') /\ st n' = node_state (on n') (rename oe t');
  complete : forall n t, derives g n t -> exists n' t', on n' = n /\ derives og n' t' /\ rename oe t' = t;
  unique : forall n' m' t' u', derives og n' t' -> derives og m' u' -> on n' = on m' -> rename oe t' = rename oe u' -> n' = m' /\ t' = u';
  payloads : forall n' k ts, derives og n' (Tree k ts) -> exists ed' ed, nth_error (edges og) k = Some ed' /\ nth_error (edges g) (oe k) = Some ed /\
    lab ed' = edge_payload (on n') ed (map tree_state (map (rename oe) ts));
  goal_last : forall n', n' < length (nodes og) -> (on n' = length (nodes g) - 1 -> n' = length (nodes og) - 1)
}.

(** What the input must satisfy: ordered; an edge is listed by its head only;
    every node which is a tail has an edge; the goal's edges have one tail; the
    node before the goal is a tail once. *)
Record rescorable : Prop := {
  r_topo : topo g;
  r_head : forall n nd e ed, nth_error (nodes g) n = Some nd -> In e (in_edges nd) -> nth_error (edges g) e = Some ed -> head ed = Some n;
  r_live : forall n nd e ed t td, nth_error (nodes g) n = Some nd -> In e (in_edges nd) -> nth_error (edges g) e = Some ed -> In t (tails ed) ->
    nth_error (nodes g) t = Some td -> in_edges td <> [];
  r_goal : forall nd e ed, nth_error (nodes g) (length (nodes g) - 1) = Some nd -> In e (in_edges nd) -> nth_error (edges g) e = Some ed -> length (tails ed) = 1;
  r_pregoal : 2 <= length (nodes g) /\ exists nd, nth_error (nodes g) (length (nodes g) - 2) = Some nd /\ length (out_edges nd) = 1
}.
End S.
