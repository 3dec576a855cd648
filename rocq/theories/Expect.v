(** Model of expectations over forests: the expectation semiring
    (utils/exp_semiring.h 18-37, decoder/hg.h 596-608), InsideOutside
    (decoder/inside_outside.h 135-150, 178-187), and the observer which
    accumulates the likelihood and its gradient
    (training/crf/mpi_batch_optimize.cc 86-165).

    Numbers are exact reals.  The result of expect is a vector, modelled as a
    function of the feature number. *)
From Coq Require Import List Arith Reals.
From Verif Require Import HG Inside GradSpec Grad.
Import ListNotations.
Local Open Scope R_scope.

(** exp_semiring.h 18-37: zero is PRPair(), one is PRPair(1) *)
Definition pr_zero : R * R := (0, 0).
Definition pr_one : R * R := (1, 0).
Definition pr_plus (a b : R * R) : R * R := (fst a + fst b, snd a + snd b).
Definition pr_times (a o : R * R) : R * R := (fst a * fst o, snd o * fst a + fst o * snd a).
(** hg.h 596-608 *)
Definition pr_weight {P} (p r : edge P -> R) (e : edge P) : R * R := (p e, r e * p e).

Section X.
Context {P : Type}.
Variables (weight : edge P -> R) (xwf : edge P -> dense).

(** inside_outside.h 139-147: the incoming edges of a node with outside score [o] *)
Fixpoint expect_edges (g : hg P) (sc : list R) (o : R) (es : list nat) (x : dense) : option dense :=
  match es with
  | [] => Some x
  | e :: r =>
    match nth_error (edges g) e with
    | Some ed =>
      match mul_tails Rmult sc (tails ed) o with
      | Some kbar => expect_edges g sc o r (fun k => x k + xwf ed k * kbar)
      | None => None
      end
    | None => None
    end
  end.
(** inside_outside.h 137-148 *)
Fixpoint expect_nodes (g : hg P) (sc out : list R) (ns : list node) (x : dense) : option dense :=
  match ns, out with
  | [], _ => Some x
  | nd :: r, o :: os => match expect_edges g sc o (in_edges nd) x with Some x' => expect_nodes g sc os r x' | None => None end
  | _, [] => None
  end.
(** inside_outside.h 178-187: the inside score of the goal, and the vector *)
Definition InsideOutside (g : hg P) : option (R * dense) :=
  match Inside 0 Rplus Rmult weight g with
  | Some sc =>
    match Outside 0 1 Rplus Rmult weight g sc 1, nth_error sc (length (nodes g) - 1) with
    | Some out, Some root =>
      match expect_nodes g sc out (nodes g) dzero with Some x => Some (root, x) | None => None end
    | _, _ => None
    end
  | None => None
  end.
End X.

(** Edges carry their features; edge_prob_ is exp of the weighted sum
    (Hypergraph::Reweight, hg.h 386-393). *)
Definition EdgeProb (x : dense) (e : edge fvec) : R := exp (dot (lab e) x).
(** hg.h 580-590 *)
Definition FeaturesAndProb (x : dense) (e : edge fvec) : dense := fun k => value (lab e) k * EdgeProb x e.

(** What decoding a training sentence yields: no translation forest, a
    translation forest only, or a forest and its restriction to the reference
    (the three states of the observer, 100-104, 108, 122, 155-160). *)
Inductive decoded := NoForest | NoReference (m : hg fvec) | Both (m r : hg fvec).

(** 107-116, 119-153.  [None]: a failed access, or the exit of line 143. *)
Definition observe (x : dense) (s : decoded) (st : R * dense) : option (R * dense) :=
  let '(acc_obj, acc_grad) := st in
  match s with
  | NoForest => Some st
  | NoReference m => match InsideOutside (EdgeProb x) (FeaturesAndProb x) m with Some _ => Some st | None => None end
  | Both m r =>
    match InsideOutside (EdgeProb x) (FeaturesAndProb x) m, InsideOutside (EdgeProb x) (FeaturesAndProb x) r with
    | Some (z, mexp), Some (ref_z, rexp) =>
      let cur_obj := ln z in
      let log_ref_z := ln ref_z in
      if Rlt_dec (cur_obj - log_ref_z) (- / 1000000) then None
      else Some (acc_obj + (cur_obj - log_ref_z), fun k => acc_grad k - (rexp k / ref_z - mexp k / z))
    | _, _ => None
    end
  end.
(** 86-91, 281-286: the corpus, from a cleared state *)
Fixpoint observe_all (x : dense) (ss : list decoded) (st : R * dense) : option (R * dense) :=
  match ss with [] => Some st | s :: r => match observe x s st with Some st' => observe_all x r st' | None => None end end.
Definition crf_objective (x : dense) (ss : list decoded) : option (R * dense) := observe_all x ss (0, dzero).
