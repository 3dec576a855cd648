(** Specification vocabulary for the topological sort. *)
From Coq Require Import List Arith ZArith Relations.
From Verif Require Import HG Deriv.
Import ListNotations.

(** A hypergraph in which ids are positions, all indices are in range, and
    every edge is connected, at its head's end too. *)
Record wf_hg {P} (g : hg P) : Prop := {
  wf_nid : forall n nd, nth_error (nodes g) n = Some nd -> nid nd = n;
  wf_eid : forall e ed, nth_error (edges g) e = Some ed -> eid ed = e;
  wf_in : forall n nd e, nth_error (nodes g) n = Some nd -> In e (in_edges nd) -> exists ed, nth_error (edges g) e = Some ed /\ head ed = Some n;
  wf_nodup : forall n nd, nth_error (nodes g) n = Some nd -> NoDup (in_edges nd);
  wf_out : forall n nd e, nth_error (nodes g) n = Some nd -> In e (out_edges nd) -> e < length (edges g);
  wf_tails : forall e ed t, nth_error (edges g) e = Some ed -> In t (tails ed) -> t < length (nodes g);
  wf_head : forall e ed, nth_error (edges g) e = Some ed -> exists h, head ed = Some h /\ h < length (nodes g)
}.

(** The mask has an entry per edge; an edge is kept unless its entry is true. *)
Definition mask_ok {P} (prune : option (list bool)) (g : hg P) : Prop :=
  match prune with None => True | Some l => length l = length (edges g) end.
Definition keep (prune : option (list bool)) (e : nat) : Prop :=
  match prune with None => True | Some l => nth_error l e = Some false end.

Section S.
Context {P : Type}.
Variables (prune : option (list bool)) (g : hg P).

(** [m] is a tail of a kept edge of [n]. *)
Definition child (n m : nat) : Prop :=
  exists nd e ed, nth_error (nodes g) n = Some nd /\ In e (in_edges nd) /\ keep prune e /\ nth_error (edges g) e = Some ed /\ In m (tails ed).
Definition reach : nat -> nat -> Prop := clos_refl_trans nat child.
Definition cycle_below (goal : nat) : Prop := exists n, reach goal n /\ clos_trans nat child n n.
End S.

(** The values of [f] on a list, where defined. *)
Definition pick (f : nat -> option nat) (l : list nat) : list nat :=
  flat_map (fun e => match f e with Some k => [k] | None => [] end) l.

Fixpoint rename (f : nat -> nat) (t : tree) : tree :=
  match t with Tree e ts => Tree (f e) (map (rename f) ts) end.
Definition get (f : nat -> option nat) (x : nat) : nat := match f x with Some k => k | None => 0 end.

(** [g'] is the part of [g] below [goal], renumbered by [rn] and [re]. *)
Record renumbered {P} (prune : option (list bool)) (g : hg P) (goal : nat) (g' : hg P) (rn re : nat -> option nat) : Prop := {
  rn_dom : forall n, (exists k, rn n = Some k) <-> reach prune g goal n;
  rn_inj : forall n n' k, rn n = Some k -> rn n' = Some k -> n = n';
  rn_goal : rn goal = Some (length (nodes g') - 1);
  rn_order : forall n m k j, child prune g n m -> rn n = Some k -> rn m = Some j -> j < k;
  re_dom : forall e, (exists k, re e = Some k) <->
    keep prune e /\ exists n nd, reach prune g goal n /\ nth_error (nodes g) n = Some nd /\ In e (in_edges nd);
  re_order : forall e e' k k', re e = Some k -> re e' = Some k' -> e < e' -> k < k';
  nodes_are : forall k nd', nth_error (nodes g') k = Some nd' <-> exists n nd, rn n = Some k /\ nth_error (nodes g) n = Some nd /\
    nd' = {| nid := k; cat := cat nd; in_edges := pick re (in_edges nd); out_edges := pick re (out_edges nd) |};
  edges_are : forall j ed', nth_error (edges g') j = Some ed' <-> exists e ed h, re e = Some j /\ nth_error (edges g) e = Some ed /\
    head ed = Some h /\ ed' = {| head := rn h; tails := map (get rn) (tails ed); lab := lab ed; eid := j |};
  tails_kept : forall e k ed, re e = Some k -> nth_error (edges g) e = Some ed ->
    (exists h kh, head ed = Some h /\ rn h = Some kh) /\ forall t, In t (tails ed) -> exists kt, rn t = Some kt
}.
