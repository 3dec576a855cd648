(** decoder/ff_basic.cc, ff_wordset.cc: feature functions which count words and rules, as feature functions of Ffset.v.
    An edge has a rule: the target side and the source side, with the convention of Rule.v.
    Left out: reading of the parameters and of the vocabulary. *)
From Coq Require Import List ZArith Bool Reals.
From Verif Require Import Opt Rule Ffset.
Import ListNotations.
Local Open Scope nat_scope.

Notation rule := (list Z * list Z)%type.
(** SparseVector::set_value *)
Definition set_value (x : nat) (v : R) (f : nat -> R) : nat -> R := fun y => if y =? x then v else f y.
(** no state, nothing at the goal (ff.h 66-73, ff.cc 17-26) *)
Definition stateless (T : rule -> nat -> (nat -> R) -> nat -> R) : ffun rule :=
  {| StateSize := 0; IgnoredStateSize := 0; Traversal := fun r ants f => ([], T r (length ants) f); FinalTraversal := fun _ f => f |}.
(** ff_basic.cc 9-28; [value]: value_ *)
Definition WordPenalty (fid : nat) (value : R) : ffun rule :=
  stateless (fun r _ f => set_value fid (IZR (EWords (fst r) (ComputeArity (fst r))) * value)%R f).
(** 31-50 *)
Definition SourceWordPenalty (fid : nat) (value : R) : ffun rule :=
  stateless (fun r _ f => set_value fid (IZR (FWords (snd r) (ComputeArity (fst r))) * value)%R f).
(** 52-78; [fids]: fids_; Edge::Arity is the number of tails (hg.h) *)
Definition ArityPenalty (fids : list nat) : ffun rule :=
  stateless (fun _ arity f => match nth_error fids arity with Some x => set_value x 1%R f | None => f end).
(** ff_wordset.cc 61-69 *)
Fixpoint addScore (oovMode : bool) (vocab : list Z) (e : list Z) : R :=
  match e with
  | [] => 0%R
  | w :: r =>
      let inVocab := existsb (Z.eqb w) vocab in
      ((if oovMode && negb inVocab then 1 else if negb oovMode && inVocab then 1 else 0) + addScore oovMode vocab r)%R
  end.
(** ff_wordset.cc 55-72 *)
Definition WordSet (fid : nat) (oovMode : bool) (vocab : list Z) : ffun rule :=
  stateless (fun r _ f => set_value fid (addScore oovMode vocab (fst r)) f).
(** the derivation without its features *)
Fixpoint rules (d : dtree rule) : deriv := match d with DT _ r _ kids => Node (fst r) (snd r) (map rules kids) end.
