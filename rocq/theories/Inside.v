(** Model of decoder/inside_outside.h (Inside 30-55, Outside 57-95,
    compute_edge_marginals 151-167) and of Hypergraph::ComputeEdgePosteriors,
    decoder/hg.cc 160-172.

    The weight type is abstract: a carrier with the operations the templates
    use (zero: WeightType(), one: WeightType(1), +=, *=).  The score vectors are
    lists updated in place, in the order of the loops; an access out of bounds
    gives [None]. *)
From Coq Require Import List Arith.
From Verif Require Import HG.
Import ListNotations.

Section IO.
Context {P W : Type}.
Variables (zero one : W) (plus times : W -> W -> W).
Variable weight : edge P -> W.

(** 47-50: score *= inside_score[tail] for each tail, left to right. *)
Fixpoint mul_tails (sc : list W) (ts : list nat) (a : W) : option W :=
  match ts with
  | [] => Some a
  | t :: r => match nth_error sc t with Some x => mul_tails sc r (times a x) | None => None end
  end.

(** 44-52: the incoming edges of node [i]. *)
Fixpoint in_loop (g : hg P) (i : nat) (es : list nat) (sc : list W) : option (list W) :=
  match es with
  | [] => Some sc
  | e :: r =>
    match nth_error (edges g) e with
    | Some ed =>
      match mul_tails sc (tails ed) (weight ed) with
      | Some s => match upd sc i (fun x => plus x s) with Some sc' => in_loop g i r sc' | None => None end
      | None => None
      end
    | None => None
    end
  end.

(** 40-53: nodes [i], [i+1], ... *)
Fixpoint node_loop (g : hg P) (i : nat) (ns : list node) (sc : list W) : option (list W) :=
  match ns with
  | [] => Some sc
  | nd :: r => match in_loop g i (in_edges nd) sc with Some sc' => node_loop g (S i) r sc' | None => None end
  end.

(** 30-54; the score of the goal is the last entry (WeightType(0) if none). *)
Definition Inside (g : hg P) : option (list W) :=
  node_loop g 0 (nodes g) (repeat zero (length (nodes g))).

(** 84-89: the product of the inside scores of the tails whose node index
    differs from [u]. *)
Fixpoint others (sc : list W) (u : nat) (ts : list nat) (a : W) : option W :=
  match ts with
  | [] => Some a
  | t :: r =>
    if u =? t then others sc u r a
    else match nth_error sc t with Some x => others sc u r (times a x) | None => None end
  end.

(** 81-92: [todo] are the tails still to update, [ts] all of them. *)
Fixpoint tail_loop (sc : list W) (ts : list nat) (hw : W) (todo : list nat) (out : list W) : option (list W) :=
  match todo with
  | [] => Some out
  | u :: r =>
    match others sc u ts one with
    | Some c => match upd out u (fun x => plus x (times c hw)) with Some out' => tail_loop sc ts hw r out' | None => None end
    | None => None
    end
  end.

(** 76-93: head_node_outside_score is a reference into the vector (73), read
    again for each edge. *)
Fixpoint out_loop (g : hg P) (sc : list W) (i : nat) (es : list nat) (out : list W) : option (list W) :=
  match es with
  | [] => Some out
  | e :: r =>
    match nth_error (edges g) e, nth_error out i with
    | Some ed, Some h =>
      match tail_loop sc (tails ed) (times (weight ed) h) (tails ed) out with
      | Some out' => out_loop g sc i r out'
      | None => None
      end
    | _, _ => None
    end
  end.

(** 72-94: nodes [n-1] down to [0]. *)
Fixpoint out_nodes (g : hg P) (sc : list W) (n : nat) (out : list W) : option (list W) :=
  match n with
  | O => Some out
  | S i =>
    match nth_error (nodes g) i with
    | Some nd => match out_loop g sc i (in_edges nd) out with Some out' => out_nodes g sc i out' | None => None end
    | None => None
    end
  end.

(** 57-95.  The graph must not be empty (71 writes the last entry). *)
Definition Outside (g : hg P) (sc : list W) (scale : W) : option (list W) :=
  match upd (repeat zero (length (nodes g))) (length (nodes g) - 1) (fun _ => scale) with
  | Some out => out_nodes g sc (length (nodes g)) out
  | None => None
  end.

(** 135-150 with xwf(e) = the vector whose only entry is weight(e) at e.id_
    (hg.cc 108-117), and hg.cc 160-172: posts[id] += weight(e) * outside[head] * product of
    the inside scores of the tails. *)
Fixpoint post_edges (g : hg P) (sc : list W) (o : W) (es : list nat) (posts : list W) : option (list W) :=
  match es with
  | [] => Some posts
  | e :: r =>
    match nth_error (edges g) e with
    | Some ed =>
      match mul_tails sc (tails ed) o with
      | Some k =>
        match upd posts (eid ed) (fun x => plus x (times (weight ed) k)) with
        | Some posts' => post_edges g sc o r posts'
        | None => None
        end
      | None => None
      end
    | None => None
    end
  end.
Fixpoint post_nodes (g : hg P) (sc out : list W) (ns : list node) (posts : list W) : option (list W) :=
  match ns, out with
  | [], _ => Some posts
  | nd :: r, o :: os => match post_edges g sc o (in_edges nd) posts with Some p => post_nodes g sc os r p | None => None end
  | _, [] => None
  end.

(** hg.cc 160-172: the inside scores and the posterior of each edge. *)
Definition EdgePosteriors (g : hg P) : option (list W * list W) :=
  match Inside g with
  | Some sc =>
    match Outside g sc one with
    | Some out =>
      match post_nodes g sc out (nodes g) (repeat zero (length (edges g))) with
      | Some posts => Some (sc, posts)
      | None => None
      end
    | None => None
    end
  | None => None
  end.
End IO.
