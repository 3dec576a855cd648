(** Model of Hypergraph::PushWeightsToGoal (decoder/hg.cc 233-246) and
    PushWeightsToSource (187-199).  The payload of an edge is its edge_prob_;
    the weight type is abstract, with [scale] for pow(scale) (hg.h ScaledEdgeProb). *)
From Coq Require Import List Arith.
From Verif Require Import HG Inside.
Import ListNotations.

Section Push.
Context {W : Type}.
Variables (zero one : W) (plus times div : W -> W -> W) (scale : W -> W).

(** 238-240: z += posts[...] over a list of edges. *)
Fixpoint post_total (posts : list W) (es : list nat) (z : W) : option W :=
  match es with
  | [] => Some z
  | e :: r => match nth_error posts e with Some p => post_total posts r (plus z p) | None => None end
  end.
(** 241-243 *)
Fixpoint set_probs (posts : list W) (z : W) (es : list nat) (eds : list (edge W)) : option (list (edge W)) :=
  match es with
  | [] => Some eds
  | e :: r =>
    match nth_error posts e with
    | Some p =>
      match upd eds e (fun ed => {| head := head ed; tails := tails ed; lab := div p z; eid := eid ed |}) with
      | Some eds' => set_probs posts z r eds'
      | None => None
      end
    | None => None
    end
  end.
(** 236-244; [sel] selects the edges of a node. *)
Fixpoint push_nodes (sel : node -> list nat) (posts : list W) (ns : list node) (eds : list (edge W)) : option (list (edge W)) :=
  match ns with
  | [] => Some eds
  | nd :: r =>
    match post_total posts (sel nd) zero with
    | Some z => match set_probs posts z (sel nd) eds with Some eds' => push_nodes sel posts r eds' | None => None end
    | None => None
    end
  end.
Definition push_weights (sel : node -> list nat) (g : hg W) : option (W * hg W) :=
  match EdgePosteriors zero one plus times (fun ed => scale (lab ed)) g with
  | Some (sc, posts) =>
    match push_nodes sel posts (nodes g) (edges g) with
    | Some eds => Some (last sc zero, {| nodes := nodes g; edges := eds |})
    | None => None
    end
  | None => None
  end.
(** 233-246 *)
Definition PushWeightsToGoal := push_weights in_edges.
(** 187-199 *)
Definition PushWeightsToSource := push_weights out_edges.
End Push.
