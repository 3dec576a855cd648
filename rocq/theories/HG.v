(** Model of the hypergraph type and its construction API, decoder/hg.h.

    An edge's rule, feature vector, span and probability are one payload of
    abstract type [P] (48-72); an edge's head is [None] until it is connected
    (it is uninitialised memory in the program, 49-52).  Node hashes are left
    out.  Indices are naturals: 32-bit limits are not modelled.  An access out
    of the bounds of nodes_ or edges_ is [None]. *)
From Coq Require Import List Arith ZArith.
Import ListNotations.

Section HG.
Context {P : Type}.

(** hg.h 48-72 *)
Record edge := { head : option nat; tails : list nat; lab : P; eid : nat }.
(** hg.h 157-164 *)
Record node := { nid : nat; cat : Z; in_edges : list nat; out_edges : list nat }.
(** hg.h 495-499 *)
Record hg := { nodes : list node; edges : list edge }.

Definition empty_hg : hg := {| nodes := []; edges := [] |}.

Fixpoint upd {A} (l : list A) (i : nat) (f : A -> A) : option (list A) :=
  match l, i with
  | [], _ => None
  | x :: r, O => Some (f x :: r)
  | x :: r, S j => option_map (cons x) (upd r j f)
  end.

Definition push_out (e : nat) (n : node) : node :=
  {| nid := nid n; cat := cat n; in_edges := in_edges n; out_edges := out_edges n ++ [e] |}.
Definition push_in (e : nat) (n : node) : node :=
  {| nid := nid n; cat := cat n; in_edges := in_edges n ++ [e]; out_edges := out_edges n |}.
Definition set_head (h : nat) (e : edge) : edge :=
  {| head := Some h; tails := tails e; lab := lab e; eid := eid e |}.

(** hg.h 314-317 (and 349-350): index_tails *)
Fixpoint index_tails (e : nat) (ts : list nat) (ns : list node) : option (list node) :=
  match ts with
  | [] => Some ns
  | t :: r => match upd ns t (push_out e) with Some ns' => index_tails e r ns' | None => None end
  end.

(** hg.h 354-359 *)
Definition AddNode (c : Z) (g : hg) : option hg :=
  Some {| nodes := nodes g ++ [{| nid := length (nodes g); cat := c; in_edges := []; out_edges := [] |}];
          edges := edges g |}.

(** hg.h 332-352: the two forms which take the tails *)
Definition AddEdge (ts : list nat) (p : P) (g : hg) : option hg :=
  let e := {| head := None; tails := ts; lab := p; eid := length (edges g) |} in
  match index_tails (length (edges g)) ts (nodes g) with
  | Some ns => Some {| nodes := ns; edges := edges g ++ [e] |}
  | None => None
  end.

(** hg.h 322-329: a copy of a given edge, including whatever its head is *)
Definition AddEdgeCopy (ne : edge) (g : hg) : option hg :=
  let e := {| head := head ne; tails := tails ne; lab := lab ne; eid := length (edges g) |} in
  match index_tails (eid e) (tails ne) (nodes g) with
  | Some ns => Some {| nodes := ns; edges := edges g ++ [e] |}
  | None => None
  end.

(** hg.h 362-365 *)
Definition Connect (e h : nat) (g : hg) : option hg :=
  match upd (edges g) e (set_head h), upd (nodes g) h (push_in e) with
  | Some es, Some ns => Some {| nodes := ns; edges := es |}
  | _, _ => None
  end.

(** hg.h 367-370: with pointers to the edge at [e] and the node at [h]; the ids
    stored in them are used *)
Definition ConnectPtr (e h : nat) (g : hg) : option hg :=
  match nth_error (edges g) e, nth_error (nodes g) h with
  | Some ed, Some nd =>
    match upd (edges g) e (set_head (nid nd)), upd (nodes g) h (push_in (eid ed)) with
    | Some es, Some ns => Some {| nodes := ns; edges := es |}
    | _, _ => None
    end
  | _, _ => None
  end.

(** hg.h 372-375: pointer to the edge, index of the node *)
Definition ConnectEdgePtr (e h : nat) (g : hg) : option hg :=
  match nth_error (edges g) e with
  | Some ed =>
    match upd (edges g) e (set_head h), upd (nodes g) h (push_in (eid ed)) with
    | Some es, Some ns => Some {| nodes := ns; edges := es |}
    | _, _ => None
    end
  | None => None
  end.

(** A call of the construction API. *)
Inductive call :=
| CNode (c : Z)
| CEdge (ts : list nat) (p : P)
| CCopy (ne : edge)
| CConnect (e h : nat)
| CConnectPtr (e h : nat)
| CConnectEdgePtr (e h : nat).

Definition run1 (c : call) (g : hg) : option hg :=
  match c with
  | CNode c => AddNode c g
  | CEdge ts p => AddEdge ts p g
  | CCopy ne => AddEdgeCopy ne g
  | CConnect e h => Connect e h g
  | CConnectPtr e h => ConnectPtr e h g
  | CConnectEdgePtr e h => ConnectEdgePtr e h g
  end.

Fixpoint run (cs : list call) (g : hg) : option hg :=
  match cs with
  | [] => Some g
  | c :: r => match run1 c g with Some g' => run r g' | None => None end
  end.
End HG.
Arguments edge : clear implicits.
Arguments hg : clear implicits.
Arguments call : clear implicits.
