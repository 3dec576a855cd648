(** Model of the online optimiser with cumulative L1 penalty
    (training/utils/online_optimizer.{h,cc}) and of the RProp optimiser
    (training/utils/optimize.{h,cc}).
    Simplified: doubles are real numbers (so no rounding, infinities, NaN or negative
    zero); a SparseVector is the function giving its values (erase stores 0; the
    container is the subject of C03-C05). *)
From Coq Require Import Reals List Arith.
Import ListNotations.
Local Open Scope R_scope.

(** online_optimizer.cc:5-7 *)
Definition StandardLearningRate (batch_size : nat) (eta_0 : R) (k : nat) : R := eta_0 / (1 + INR k / INR batch_size).

(** online_optimizer.cc:9-11 *)
Definition ExponentialDecayLearningRate (batch_size : nat) (eta_0 alpha : R) (k : nat) : R :=
  eta_0 * Rpower alpha (INR k / INR batch_size).

(** sparse_vector.h value / set_value / erase *)
Definition vec := nat -> R.
Definition set_value (v : vec) (i : nat) (x : R) : vec := fun j => if Nat.eqb j i then x else v j.

(** online_optimizer.h:56-82, 84-90, 123-126: iteration count, cumulated penalty, penalty received *)
Record onl := { k_ : nat; u_ : R; q_ : vec }.
Definition fresh : onl := {| k_ := 0; u_ := 0; q_ := fun _ => 0 |}.

Section Optimizer.
Variable eta : nat -> R.          (* the schedule *)
Variable N_ : nat.                (* training instances *)
Variable C_ : R.                  (* strength *)
Variable frozen_ : list nat.

Definition is_frozen (i : nat) : bool := existsb (Nat.eqb i) frozen_.

(** online_optimizer.h:66, 92: ResetEpoch and ResetEpochImpl *)
Definition ResetEpoch (o : onl) : onl := {| k_ := 0; u_ := 0; q_ := q_ o |}.

(** online_optimizer.h:105-121: ApplyPenalty *)
Definition ApplyPenalty (u : R) (i : nat) (qw : vec * vec) : vec * vec :=
  let (q, w) := qw in
  let z := w i in
  let q_i := q i in
  let w_i := if Rlt_dec 0 z then Rmax 0 (z - (u + q_i))
             else if Rlt_dec z 0 then Rmin 0 (z + (u - q_i)) else z in
  (set_value q i (q_i + (w_i - z)), set_value w i w_i).

(** online_optimizer.h:95-99: the gradient step *)
Definition add_gradient (e : R) (g : list (nat * R)) (w : vec) : vec :=
  fold_left (fun w p => if is_frozen (fst p) then w else set_value w (fst p) (w (fst p) + e * snd p)) g w.

(** online_optimizer.h:67-71, 93-102: UpdateWeights and UpdateWeightsImpl *)
Definition UpdateWeights (g : list (nat * R)) (max_feat : nat) (s : onl * vec) : onl * vec :=
  let (o, w) := s in
  let k := S (k_ o) in
  let u := u_ o + eta k * C_ / INR N_ in
  let w1 := add_gradient (eta k) g w in
  let (q2, w2) := fold_left (fun qw i => if is_frozen i then qw else ApplyPenalty u i qw)
                    (seq 1 (max_feat - 1)) (q_ o, w1) in
  ({| k_ := k; u_ := u; q_ := q2 |}, w2).

(** The updates of an epoch, one after the other. *)
Definition updates (l : list (list (nat * R) * nat)) (s : onl * vec) : onl * vec :=
  fold_left (fun s x => UpdateWeights (fst x) (snd x) s) l s.
End Optimizer.

(** optimize.h:45-79: RPropOptimizer *)
Record rprop := { prev_g_ : list R; delta_ij_ : list R }.
Definition new_rprop (num_vars : nat) (delta_0 : R) : rprop :=
  {| prev_g_ := repeat 0 num_vars; delta_ij_ := repeat delta_0 num_vars |}.

Section RProp.
Variables eta_plus_ eta_minus_ delta_max_ delta_min_ : R.

(** optimize.cc:45-60: one coordinate; the result is previous gradient, step size, variable *)
Definition coord (g_i prev delta x : R) : R * R * R :=
  let sign_i := if Rlt_dec g_i 0 then -1 else 1 in
  let prod := g_i * prev in
  if Rlt_dec 0 prod then
    let dij := Rmin (delta * eta_plus_) delta_max_ in (g_i, dij, x - dij * sign_i)
  else if Rlt_dec prod 0 then (0, Rmax (delta * eta_minus_) delta_min_, x)
  else (g_i, delta, x - delta * sign_i).

(** optimize.cc:42-62: OptimizeImpl; None: a vector is read past its end *)
Fixpoint optimize_loop (g prev delta x : list R) : option (list R * list R * list R) :=
  match g with
  | [] => Some (prev, delta, x)
  | g_i :: g' =>
    match prev, delta, x with
    | p :: prev', d :: delta', x_i :: x' =>
      match optimize_loop g' prev' delta' x' with
      | Some (ps, ds, xs) => let '(p2, d2, x2) := coord g_i p d x_i in Some (p2 :: ps, d2 :: ds, x2 :: xs)
      | None => None
      end
    | _, _, _ => None
    end
  end.

(** optimize.h:21-30: Optimize (the convergence test aside) *)
Definition Optimize (g : list R) (s : rprop * list R) : option (rprop * list R) :=
  match optimize_loop g (prev_g_ (fst s)) (delta_ij_ (fst s)) (snd s) with
  | Some (ps, ds, xs) => Some ({| prev_g_ := ps; delta_ij_ := ds |}, xs)
  | None => None
  end.

(** Successive evaluations, each with its gradient. *)
Fixpoint run (gs : list (list R)) (s : rprop * list R) : option (rprop * list R) :=
  match gs with
  | [] => Some s
  | g :: gs' => match Optimize g s with Some s' => run gs' s' | None => None end
  end.
End RProp.
