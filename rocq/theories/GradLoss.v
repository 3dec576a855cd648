(** Specification: the functions the trainers are meant to minimise. *)
From Coq Require Import List Arith Reals.
From Verif Require Import HG Deriv GradSpec Grad Expect.
Import ListNotations.
Local Open Scope R_scope.

(** The score of a candidate. *)
Definition cscore (c : cand) : dense -> R := dot (fmap c).

(** Expected cost minus temperature times entropy, over the candidate sets. *)
Definition minrisk_spec (cost : cand -> R) (T : R) (tr : list (list cand)) (x : dense) : R :=
  Rsum (map (fun cs => expected cscore cs cost x) tr) - T * Rsum (map (fun cs => entropy_of cscore cs x) tr).

(** Minus the log probability of the label: with s the score plus the bias x 0,
    p(true) = 1 / (1 + exp(-s)), p(false) = 1 / (1 + exp(s)). *)
Definition ex_loss (ex : bool * fvec) (x : dense) : R :=
  let s := dot (snd ex) x + x 0%nat in if fst ex then - ln (/ (1 + exp (- s))) else - ln (/ (1 + exp s)).
Definition cll_spec (corpus : list (bool * fvec)) (x : dense) : R := Rsum (map (fun ex => ex_loss ex x) corpus).
(** C |w|^2 + T |w - prev|^2 *)
Definition reg_spec (C T : R) (n : nat) (prev w : dense) : R :=
  Rsum (map (fun i => C * (w i)² + T * (w i - prev i)²) (seq 0 n)).

(** |l - means|^2 / (2 sigma^2); feature 0 does not exist. *)
Definition prior_spec (sigsq : R) (n : nat) (means l : dense) : R := Rsum (map (fun k => (l k - means k)²) (seq 1 (n - 1))) / (2 * sigsq).

(** A decoded sentence with the derivations of its forests. *)
Definition analysed (s : decoded) (Ls : list tree * list tree) : Prop :=
  match s with
  | NoForest => True
  | NoReference m => forest_with m (fst Ls)
  | Both m r => forest_with m (fst Ls) /\ forest_with r (snd Ls)
  end.
(** Minus the log probability of the reference. *)
Definition sent_loss (s : decoded) (Ls : list tree * list tree) (x : dense) : R :=
  match s with
  | Both m r => ln (Zsum (deriv_score m) (fst Ls) x) - ln (Zsum (deriv_score r) (snd Ls) x)
  | _ => 0
  end.
(** The reference has no more weight than all translations. *)
Definition ref_within (s : decoded) (Ls : list tree * list tree) (x : dense) : Prop :=
  match s with
  | Both m r => Zsum (deriv_score r) (snd Ls) x <= Zsum (deriv_score m) (fst Ls) x
  | _ => True
  end.
Definition corpus_loss (ss : list (decoded * (list tree * list tree))) (x : dense) : R := Rsum (map (fun s => sent_loss (fst s) (snd s) x) ss).
