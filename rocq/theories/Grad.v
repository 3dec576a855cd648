(** Model of the training objectives and their gradients:
    training/utils/risk.cc, training/utils/entropy.cc,
    training/minrisk/minrisk_optimize.cc 57-85, training/pro/mr_pro_reduce.cc
    92-178 and the Gaussian prior of training/crf/mpi_batch_optimize.cc
    320-334.

    Numbers are exact reals (prob_t sums are sums in log space: C08).  Weight
    and gradient vectors are functions of the feature number; a feature number
    below the size of the program's arrays is assumed (they are sized by the
    feature dictionary).  A SparseVector's operators act per coordinate (C03,
    C04).  A NULL gradient pointer is not modelled: the gradient is always
    computed. *)
From Coq Require Import List Arith Reals.
From Verif Require Import GradSpec.
Import ListNotations.
Local Open Scope R_scope.

Definition dzero : dense := fun _ => 0.
(** g += f * s *)
Definition add_scaled (g : dense) (f : fvec) (s : R) : dense := fun k => g k + value f k * s.

(** A candidate: training/utils/candidate_set.h 14-38, its features and its
    metric score (ComputeScore of its statistics). *)
Record cand := { fmap : fvec; mscore : R }.

(** risk.cc 14-19, entropy.cc 16-23: z and its logarithm *)
Definition log_z (cs : list cand) (x : dense) : R :=
  ln (fold_left (fun z c => z + exp (dot (fmap c) x)) cs 0).
(** risk.cc 21-28 *)
Definition exp_feats (cs : list cand) (x : dense) : dense :=
  fold_left (fun a c => add_scaled a (fmap c) (exp (dot (fmap c) x - log_z cs x))) cs dzero.
(** risk.cc 34-35 *)
Definition cost (is_error : bool) (c : cand) : R := if is_error then mscore c else 1 - mscore c.
(** risk.cc 30-40; the gradient is added to [g0] *)
Definition CandidateSetRisk (is_error : bool) (cs : list cand) (x : dense) (g0 : dense) : R * dense :=
  fold_left (fun '(risk, g) c =>
    let r := exp (dot (fmap c) x - log_z cs x) * cost is_error c in
    (risk + r, fun k => g k + (value (fmap c) k - exp_feats cs x k) * r)) cs (0, g0).

(** entropy.cc 25-36 *)
Definition CandidateSetEntropy (cs : list cand) (x : dense) (g0 : dense) : R * dense :=
  let '(h, g, ef) := fold_left (fun '(h, g, ef) c =>
    let log_prob := dot (fmap c) x - log_z cs x in
    let e_logprob := exp log_prob * log_prob in
    (h - e_logprob, add_scaled g (fmap c) e_logprob, add_scaled ef (fmap c) (exp log_prob))) cs (0, g0, dzero) in
  (h, fun k => g k + ef k * h).

(** minrisk_optimize.cc 59-82 *)
Definition RiskObjective (is_error : bool) (T : R) (training : list (list cand)) (x : dense) : R * dense :=
  let '(obj, h, g) := fold_left (fun '(obj, h, g) cs =>
    let '(r, tg) := CandidateSetRisk is_error cs x dzero in
    let '(hh, hg) := CandidateSetEntropy cs x dzero in
    (obj + r, h + hh, fun k => g k + tg k + (if Req_EM_T T 0 then 0 else T * hg k))) training (0, 0, dzero) in
  (obj - T * h, g).

(** mr_pro_reduce.cc 92-97 *)
Definition GradAdd (v : fvec) (scale : R) (acc : dense) : dense :=
  fold_left (fun a kv => fun k => if Nat.eqb (fst kv) k then a k + snd kv * scale else a k) v acc.
(** mr_pro_reduce.cc 99-117; the sizes of the two vectors are [n] and [pn] *)
Definition ApplyRegularizationTerms (C T : R) (n : nat) (w : dense) (pn : nat) (pw : dense) (g0 : dense) : R * dense :=
  fold_left (fun '(reg, g) i =>
    let prev := if Nat.ltb i pn then pw i else 0 in
    let diff := w i - prev in
    (reg + C * w i * w i + T * diff * diff,
     fun k => if Nat.eqb i k then g k + 2 * C * w i + 2 * T * diff else g k)) (seq 0 n) (0, g0).

Definition log1p (a : R) : R := ln (1 + a).
(** mr_pro_reduce.cc 124-138: lp_true and lp_false *)
Definition pro_lps (dotprod : R) : R * R :=
  let lp_false := dotprod in
  let lp_true := - dotprod in
  let '(lp_true, lp_false) :=
    if Rlt_dec 0 lp_true then (lp_true + log1p (exp (- lp_true)), log1p (exp lp_false))
    else (log1p (exp lp_true), lp_false + log1p (exp (- lp_false))) in
  (lp_true * -1, lp_false * -1).
Definition add_bias (g : dense) (v : R) : dense := fun k => if Nat.eqb k 0 then g k + v else g k.
(** mr_pro_reduce.cc 119-152, x.size() > 0 *)
Definition TrainingInference (x : dense) (corpus : list (bool * fvec)) (g0 : dense) : R * dense :=
  fold_left (fun '(cll, g) ex =>
    let '(lp_true, lp_false) := pro_lps (dot (snd ex) x + x 0%nat) in
    if fst ex : bool then (cll - lp_true, add_bias (GradAdd (snd ex) (- exp lp_false) g) (- exp lp_false))
    else (cll - lp_false, add_bias (GradAdd (snd ex) (exp lp_true) g) (exp lp_true))) corpus (0, g0).

(** mr_pro_reduce.cc 160-172: the value and the gradient given to the optimiser *)
Definition ProLoss (training testing : list (bool * fvec)) (C T : R) (n : nat) (prev : dense) (x : dense) : R * dense :=
  let '(cll, g) := TrainingInference x training dzero in
  let g := match testing with [] => g | _ => snd (TrainingInference x testing g) end in
  let '(reg, g) := ApplyRegularizationTerms C T n x n prev g in
  (cll + reg, g).

(** mpi_batch_optimize.cc 320-334: the prior is added to the objective and the
    gradient *)
Definition GaussianPrior (sigsq : R) (n : nat) (lambdas means : dense) (obj : R) (g0 : dense) : R * dense :=
  let '(norm, g) := fold_left (fun '(norm, g) k =>
    if Req_EM_T (lambdas k) 0 then (norm, g)
    else let param := lambdas k - means k in
      (norm + param * param, fun j => if Nat.eqb k j then g j + param / sigsq else g j)) (seq 1 (n - 1)) (0, g0) in
  (obj + norm / (2 * sigsq), g).
