(** Specification vocabulary for the training objectives: sparse feature
    vectors, partial derivatives, distributions over scored alternatives. *)
From Coq Require Import List Arith Reals.
From Verif Require Import HG Deriv.
Import ListNotations.
Local Open Scope R_scope.

(** A sparse feature vector: (feature, value) pairs. *)
Definition fvec := list (nat * R).
(** Weights, gradients: one number per feature. *)
Definition dense := nat -> R.
Definition value (f : fvec) (k : nat) : R :=
  fold_right Rplus 0 (map (fun kv => if Nat.eqb (fst kv) k then snd kv else 0) f).
Definition dot (f : fvec) (x : dense) : R := fold_right Rplus 0 (map (fun kv => snd kv * x (fst kv)) f).

(** [l] is the partial derivative of [F] at [x] with respect to coordinate [k]. *)
Definition set_at (x : dense) (k : nat) (t : R) : dense := fun j => if Nat.eqb j k then t else x j.
Definition partial (F : dense -> R) (x : dense) (k : nat) (l : R) : Prop :=
  derivable_pt_lim (fun t => F (set_at x k t)) (x k) l.
Definition gradient (F : dense -> R) (x : dense) (g : dense) : Prop := forall k, partial F x k (g k).

Definition Rsum (l : list R) : R := fold_right Rplus 0 l.

(** ** Alternatives with scores: p(c) is proportional to exp(score(c)) *)
Section Alt.
Context {A : Type}.
Variables (score : A -> dense -> R) (cs : list A).
Definition Zsum (x : dense) : R := Rsum (map (fun c => exp (score c x)) cs).
Definition prob_of (x : dense) (c : A) : R := exp (score c x) / Zsum x.
Definition expected (h : A -> R) (x : dense) : R := Rsum (map (fun c => prob_of x c * h c) cs).
Definition entropy_of (x : dense) : R := Rsum (map (fun c => - (prob_of x c * ln (prob_of x c))) cs).
End Alt.

(** ** Derivations of a forest whose edges carry feature vectors *)
Definition feats_of (g : hg fvec) (e : nat) : fvec := match nth_error (edges g) e with Some ed => lab ed | None => [] end.
(** The weight vector applied to the features of all edges of a derivation. *)
Definition deriv_score (g : hg fvec) (t : tree) (x : dense) : R := Rsum (map (fun e => dot (feats_of g e) x) (tree_edges t)).
(** The value of feature [k] in a derivation. *)
Definition deriv_value (g : hg fvec) (t : tree) (k : nat) : R := Rsum (map (fun e => value (feats_of g e) k) (tree_edges t)).
Definition goal_of {P} (g : hg P) : nat := length (nodes g) - 1.
(** A usable forest: nodes in topological order, no edge with a node twice
    among its tails, edge ids are positions; [L] are the derivations of the
    goal, of which there is at least one. *)
Definition forest_with {P} (g : hg P) (L : list tree) : Prop :=
  topo g /\ distinct_tails g /\ ids_ok g /\ length (nodes g) <> 0%nat /\ all_derivations g (goal_of g) L /\ L <> [].
