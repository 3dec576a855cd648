(** Model of the alignment error rate (mteval/aer_scorer.cc), on top of the
    alignment reader of Align.v.  Counts are natural numbers (simplification: no
    overflow of int); float arithmetic is exact, with infinity and not-a-number. *)
From Coq Require Import List Arith ZArith QArith.
From Verif Require Import Array2D Align.
Import ListNotations.
Local Open Scope nat_scope.

Section AER.
Variables W IM : nat.
(** (num_matches, num_predicted, num_in_ref), aer_scorer.cc:75-78. *)
Definition stats := (nat * nat * nat)%type.
(** aer_scorer.cc:106-113: one cell of the reference. *)
Definition count_ref (hyp ref : arr bool) (s : stats) (c : nat * nat) : option stats :=
  do u <- get W ref (fst c) (snd c) ;
  if u : bool then
    do v <- safe_n W hyp c ;
    let '(m, p, r) := s in Some (if v : bool then (S m, p, S r) else (m, p, S r))
  else Some s.
(** aer_scorer.cc:115-117: one cell of the hypothesis. *)
Definition count_hyp (hyp : arr bool) (s : stats) (c : nat * nat) : option stats :=
  do u <- get W hyp (fst c) (snd c) ;
  let '(m, p, r) := s in Some (if u : bool then (m, S p, r) else (m, p, r)).
(** aer_scorer.cc:97-120 ScoreCandidate, for the grid of the reference. *)
Definition count (hyp ref : arr bool) : option stats :=
  do s <- foldM (count_ref hyp ref) (cells (width_ ref) (height_ ref)) (0, 0, 0) ;
  foldM (count_hyp hyp) (cells (width_ hyp) (height_ hyp)) s.
(** aer_scorer.cc:82-88 (one reference only, or abort) and 97-99. *)
Definition score_candidate (refs : list (list nat)) (hyp : list nat) : option stats :=
  match refs with
  | [ref] => do r <- read_grid W IM ref ; do h <- read_grid W IM hyp ; count h r
  | _ => None
  end.
End AER.

(** aer_scorer.cc:24-29 PlusEquals. *)
Definition plus_equals (a b : stats) : stats :=
  let '(m, p, r) := a in let '(m', p', r') := b in (m + m', p + p', r + r').
(** aer_scorer.cc:32-34 GetZero. *)
Definition zero : stats := (0, 0, 0).

(** The floats which occur. *)
Inductive fl := Num (q : Q) | Inf | NaN.
Definition inj (n : nat) : Q := inject_Z (Z.of_nat n).
Definition fdiv (x y : fl) : fl :=
  match x, y with
  | Num a, Num b => if Qeq_bool b 0 then (if Qeq_bool a 0 then NaN else Inf) else Num (a / b)
  | NaN, _ | _, NaN | Inf, Inf => NaN
  | Num _, Inf => Num 0
  | Inf, Num _ => Inf
  end.
Definition fmul (x y : fl) : fl :=
  match x, y with
  | Num a, Num b => Num (a * b)
  | NaN, _ | _, NaN => NaN
  | Inf, Inf => Inf
  | Inf, Num b => if Qeq_bool b 0 then NaN else Inf
  | Num a, Inf => if Qeq_bool a 0 then NaN else Inf
  end.
Definition fadd (x y : fl) : fl :=
  match x, y with Num a, Num b => Num (a + b) | NaN, _ | _, NaN => NaN | _, _ => Inf end.
(** aer_scorer.cc:46-51. *)
Definition precision (s : stats) : fl := let '(m, p, r) := s in fdiv (Num (inj m)) (Num (inj p)).
Definition recall (s : stats) : fl := let '(m, p, r) := s in fdiv (Num (inj m)) (Num (inj r)).
(** aer_scorer.cc:53-59; [None] would be minus infinity. *)
Definition compute_score (s : stats) : option Q :=
  let prec := precision s in let rec := recall s in
  match fdiv (fmul (fmul (Num 2) prec) rec) (fadd rec prec) with
  | NaN => Some 1%Q
  | Num f => Some (1 - f)%Q
  | Inf => None
  end.
