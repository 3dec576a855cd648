(** What a training pair of PRO says. *)
From Coq Require Import Reals List Arith.
From Verif Require Import Mira MiraSpec ProMap.
Import ListNotations.
Local Open Scope R_scope.

(** Which of two scores is the better one, of a metric or an error metric. *)
Definition better (error : bool) (s t : R) : Prop := if error then s < t else t < s.

(** The features of a line are those of one hypothesis minus those of another, and the label
    is 1 exactly if the first one is better. *)
Definition says (features : nat -> option (list R)) (score : nat -> R) (error : bool) (a b : nat) (label : bool) (v : list R) : Prop :=
  exists fa fb, features a = Some fa /\ features b = Some fb /\ a <> b /\ score a <> score b /\
    (forall j, nth j v 0 = nth j fa 0 - nth j fb 0) /\ (label = true <-> better error (score a) (score b)).

Definition features_of (J : nat -> option cand) (a : nat) : option (list R) := option_map fmap (J a).
Definition score_of (J : nat -> option cand) (a : nat) : R := match J a with Some c => score c | None => 0 end.

(** What every instance of v1 is. *)
Definition inst_ok (J : nat -> option cand) (error : bool) (sd : R) (i : inst) : Prop :=
  exists a b ca cb, J a = Some ca /\ J b = Some cb /\ a <> b /\ Rabs ((len ca - len cb) / sd) <= 2 /\ score ca <> score cb /\
    x i = vsub (fmap ca) (fmap cb) /\ (y i = true <-> better error (score ca) (score cb)) /\ gdiff i = Rabs (score ca - score cb) /\
    (exists r, In r (x i) /\ r <> 0).

