(** Model of Hypergraph::TopologicallySortNodesAndEdges, decoder/hg.cc 461-603
    (HG_EDGES_TOPO_SORTED is undefined, hg.h 36).

    The depth-first search is a step function on an explicit state; an access
    out of bounds and a detected cycle (abort) are distinct outcomes.  Indices
    and ids are naturals, with [None] for -1. *)
From Coq Require Import List Arith Bool.
From Verif Require Import HG.
Import ListNotations.

Inductive color := White | Gray | Black.

(** 461-466: node, edge_iter, tail_iter. *)
Definition ctx := (nat * nat * nat)%type.

(** The locals of 486-493; [cur] is cur_ni, edge_i, tail_i. *)
Record dfs := { cur : ctx; stack : list ctx; col : list color; rnode : list (option nat); redge : list (option nat); ncount : nat; ecount : nat }.

Inductive step_out := Next (s : dfs) | Done (rn re : list (option nat)) | Cycle | Oob.
Inductive dfs_out := DDone (rn re : list (option nat)) | DCycle | DOob | DFuel.

Section T.
Context {P : Type}.
(** prune_edges: null, or a vector. *)
Variable prune : option (list bool).
Variable g : hg P.

Definition pruned (e : nat) : option bool := match prune with None => Some false | Some l => nth_error l e end.

(** 537-546 *)
Fixpoint set_redges (es : list nat) (re : list (option nat)) (ec : nat) : option (list (option nat) * nat) :=
  match es with
  | [] => Some (re, ec)
  | e :: r =>
    match pruned e with
    | Some true => set_redges r re ec
    | Some false => match upd re e (fun _ => Some ec) with Some re' => set_redges r re' (S ec) | None => None end
    | None => None
    end
  end.

(** One iteration of the inner loop (502-534), or its end, 535-546, followed by
    the test and the pop of the outer loop, 494-501. *)
Definition step (s : dfs) : step_out :=
  let '(n, ei, ti) := cur s in
  match nth_error (nodes g) n with
  | None => Oob
  | Some nd =>
    if ei =? length (in_edges nd) then
      match upd (col s) n (fun _ => Black), upd (rnode s) n (fun _ => Some (ncount s)), set_redges (in_edges nd) (redge s) (ecount s) with
      | Some c, Some rn, Some (re, ec) =>
        match stack s with
        | [] => Done rn re
        | p :: r => Next {| cur := p; stack := r; col := c; rnode := rn; redge := re; ncount := S (ncount s); ecount := ec |}
        end
      | _, _, _ => Oob
      end
    else
      match nth_error (in_edges nd) ei with
      | None => Oob
      | Some e =>
        match nth_error (edges g) e with
        | None => Oob
        | Some ed =>
          match (if length (tails ed) =? ti then Some true else pruned (eid ed)) with
          | None => Oob
          | Some true => Next {| cur := (n, S ei, 0); stack := stack s; col := col s; rnode := rnode s; redge := redge s; ncount := ncount s; ecount := ecount s |}
          | Some false =>
            match nth_error (tails ed) ti with
            | None => Oob
            | Some t =>
              match nth_error (col s) t with
              | None => Oob
              | Some White =>
                match upd (col s) t (fun _ => Gray) with
                | Some c => Next {| cur := (t, 0, 0); stack := (n, ei, S ti) :: stack s; col := c; rnode := rnode s; redge := redge s; ncount := ncount s; ecount := ecount s |}
                | None => Oob
                end
              | Some Black => Next {| cur := (n, ei, S ti); stack := stack s; col := col s; rnode := rnode s; redge := redge s; ncount := ncount s; ecount := ecount s |}
              | Some Gray => Cycle
              end
            end
          end
        end
      end
  end.

Fixpoint steps (fuel : nat) (s : dfs) : dfs_out :=
  match fuel with
  | O => DFuel
  | S f => match step s with Next s' => steps f s' | Done rn re => DDone rn re | Cycle => DCycle | Oob => DOob end
  end.

(** 486-493 *)
Definition init (goal : nat) : dfs :=
  {| cur := (goal, 0, 0); stack := []; col := repeat White (length (nodes g)); rnode := repeat None (length (nodes g));
     redge := repeat None (length (edges g)); ncount := 0; ecount := 0 |}.

(** An upper bound of the number of steps: every node is scanned at most once,
    the goal at most twice. *)
Definition edge_cost (e : nat) : nat := match nth_error (edges g) e with Some ed => S (length (tails ed)) | None => 1 end.
Fixpoint edges_cost (es : list nat) : nat := match es with [] => 0 | e :: r => edge_cost e + edges_cost r end.
Definition node_cost (nd : node) : nat := S (edges_cost (in_edges nd)).
Fixpoint nodes_cost (ns : list node) : nat := match ns with [] => 0 | nd :: r => node_cost nd + nodes_cost r end.
Definition search (goal : nat) : dfs_out := steps (S (nodes_cost (nodes g) + nodes_cost (nodes g))) (init goal).

(** 549-553 *)
Fixpoint renumber (re : list (option nat)) (ec : nat) : list (option nat) :=
  match re with
  | [] => []
  | Some _ :: r => Some ec :: renumber r (S ec)
  | None :: r => None :: renumber r ec
  end.

(** 566-570 *)
Fixpoint is_identity (i : nat) (l : list (option nat)) : bool :=
  match l with
  | [] => true
  | Some k :: r => (k =? i) && is_identity (S i) r
  | None :: _ => false
  end.

(** 575-588 *)
Fixpoint relocate (re : list (option nat)) (es : list nat) : option (list nat) :=
  match es with
  | [] => Some []
  | e :: r =>
    match nth_error re e, relocate re r with
    | Some (Some k), Some l => Some (k :: l)
    | Some None, Some l => Some l
    | _, _ => None
    end
  end.
(** 594-595; a tail relocated to -1 (shown as 0) only occurs in an edge which is
    about to be removed. *)
Fixpoint relocate_tails (rn : list (option nat)) (ts : list nat) : option (list nat) :=
  match ts with
  | [] => Some []
  | t :: r =>
    match nth_error rn t, relocate_tails rn r with
    | Some k, Some l => Some (match k with Some x => x | None => 0 end :: l)
    | _, _ => None
    end
  end.

(** 572-589, 598: the nodes kept, with their new ids. *)
Fixpoint reloc_nodes (re : list (option nat)) (rn : list (option nat)) (ns : list node) : option (list node) :=
  match rn, ns with
  | [], _ => Some []
  | r :: rn', nd :: ns' =>
    match relocate re (in_edges nd), relocate re (out_edges nd), reloc_nodes re rn' ns' with
    | Some i, Some o, Some l =>
      Some (match r with Some k => {| nid := k; cat := cat nd; in_edges := i; out_edges := o |} :: l | None => l end)
    | _, _, _ => None
    end
  | _ :: _, [] => None
  end.
(** 590-597 *)
Fixpoint reloc_edges (rn re : list (option nat)) (es : list (edge P)) : option (list (edge P)) :=
  match re, es with
  | [], _ => Some []
  | r :: re', ed :: es' =>
    match head ed with
    | None => None
    | Some h =>
      match nth_error rn h, relocate_tails rn (tails ed), reloc_edges rn re' es' with
      | Some h', Some ts, Some l =>
        Some (match r with Some k => {| head := h'; tails := ts; lab := lab ed; eid := k |} :: l | None => l end)
      | _, _, _ => None
      end
    end
  | _ :: _, [] => None
  end.
End T.

(** 599-602: sort by id. *)
Fixpoint insert {A} (key : A -> nat) (x : A) (l : list A) : list A :=
  match l with
  | [] => [x]
  | y :: r => if key y <? key x then y :: insert key x r else x :: l
  end.
Fixpoint sort_by {A} (key : A -> nat) (l : list A) : list A :=
  match l with [] => [] | x :: r => insert key x (sort_by key r) end.

Inductive topo_out (G : Type) := Sorted (g : G) | CycleFound | OutOfBounds | NoFuel.
Arguments Sorted {G}. Arguments CycleFound {G}. Arguments OutOfBounds {G}. Arguments NoFuel {G}.

(** 482-603 *)
Definition TopoSort {P} (goal : nat) (prune : option (list bool)) (g : hg P) : topo_out (hg P) :=
  match search prune g goal with
  | DDone rn re0 =>
    let re := renumber re0 0 in
    if is_identity 0 rn && is_identity 0 re then Sorted g
    else
      match reloc_nodes re rn (nodes g), reloc_edges rn re (edges g) with
      | Some ns, Some es => Sorted {| nodes := sort_by nid ns; edges := sort_by eid es |}
      | _, _ => OutOfBounds
      end
  | DCycle => CycleFound
  | DOob => OutOfBounds
  | DFuel => NoFuel
  end.
