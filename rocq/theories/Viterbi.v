(** Model of decoder/viterbi.h: Viterbi (21-64) and some of its traversals.

    The weight type is abstract: [zero] is WeightType(), [one] WeightType(1),
    [ltb] operator< and [times] operator*=.  A traversal receives the edge, the
    results of its tails and the default-constructed result, and returns the
    new result.  Out-of-bounds accesses give [None]. *)
From Coq Require Import List Arith.
From Verif Require Import HG Inside.
Import ListNotations.

Section V.
Context {P W T : Type}.
Variables (zero one : W) (times : W -> W -> W) (ltb : W -> W -> bool).
Variable weight : edge P -> W.
Variable dflt : T.
Variable traverse : edge P -> list T -> T -> T.

(** 43-52: [best] is edge_best (as an index), the weight of node [i] is
    updated in place. *)
Fixpoint vit_edges (g : hg P) (i : nat) (es : list nat) (best : option nat) (vw : list W) : option (option nat * list W) :=
  match es with
  | [] => Some (best, vw)
  | e :: r =>
    match nth_error (edges g) e, nth_error vw i with
    | Some ed, Some cur =>
      match mul_tails times vw (tails ed) (weight ed) with
      | Some score =>
        if match best with None => true | Some _ => ltb cur score end
        then match upd vw i (fun _ => score) with Some vw' => vit_edges g i r (Some e) vw' | None => None end
        else vit_edges g i r best vw
      | None => None
      end
    | _, _ => None
    end
  end.

(** 55-57 *)
Fixpoint ants (vr : list T) (ts : list nat) : option (list T) :=
  match ts with
  | [] => Some []
  | t :: r => match nth_error vr t, ants vr r with Some x, Some l => Some (x :: l) | _, _ => None end
  end.

(** 33-58: one node. *)
Definition vit_node (g : hg P) (i : nat) (nd : node) (vw : list W) (vr : list T) : option (list W * list T) :=
  match in_edges nd with
  | [] => match upd vw i (fun _ => one) with Some vw' => Some (vw', vr) | None => None end
  | es =>
    match vit_edges g i es None vw with
    | Some (Some e, vw') =>
      match nth_error (edges g) e with
      | Some ed =>
        match ants vr (tails ed) with
        | Some a => match upd vr i (traverse ed a) with Some vr' => Some (vw', vr') | None => None end
        | None => None
        end
      | None => None
      end
    | _ => None
    end
  end.

(** 32-59 *)
Fixpoint vit_nodes (g : hg P) (i : nat) (ns : list node) (vw : list W) (vr : list T) : option (list W * list T) :=
  match ns with
  | [] => Some (vw, vr)
  | nd :: r => match vit_node g i nd vw vr with Some (vw', vr') => vit_nodes g (S i) r vw' vr' | None => None end
  end.

(** 26-63: the weight and the result of the last node; [None] as result when
    there is no node (60-61: the caller's result is left alone). *)
Definition Viterbi (g : hg P) : option (W * option T) :=
  match vit_nodes g 0 (nodes g) (repeat zero (length (nodes g))) (repeat dflt (length (nodes g))) with
  | Some (vw, vr) =>
    match rev vr, rev vw with
    | r :: _, w :: _ => Some (w, Some r)
    | [], _ => Some (zero, None)
    | _, [] => None
    end
  | None => None
  end.
End V.

(** 179-189 (result starts empty) *)
Definition PathTraversal {P} (ed : edge P) (a : list (list (edge P))) (r : list (edge P)) : list (edge P) := r ++ concat a ++ [ed].
(** 99-108 *)
Definition PathLengthTraversal {P} (ed : edge P) (a : list nat) (_ : nat) : nat := fold_left Nat.add a 1.
(** 191-200, a feature vector as a function from features to values in some
    type with addition. *)
Definition FeatureTraversal {P F : Type} (add : F -> F -> F) (feats : edge P -> F) (ed : edge P) (a : list F) (r : F) : F :=
  add (fold_left add a r) (feats ed).
