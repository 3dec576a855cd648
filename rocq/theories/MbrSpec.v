(** What is to be shown of minimum Bayes risk reranking. *)
From Coq Require Import Reals List Arith Permutation.
From Verif Require Import CutmiraSpec.
Import ListNotations.
Local Open Scope R_scope.

(** The probability of candidate j under the log scores, and the expected loss of candidate i
    when all other candidates are compared with it. *)
Definition prob (s : nat -> R) (n j : nat) : R := exp (s j) / sum n (fun k => exp (s k)).
Definition risk (L : nat -> nat -> R) (s : nat -> R) (n i : nat) : R :=
  sum n (fun j => if (i =? j)%nat then 0 else prob s n j * L i j).

(** A file made of groups of lines with the same sentence id. *)
Definition file_of {E : Type} (gs : list (nat * list E)) : list (nat * E) := flat_map (fun g => map (pair (fst g)) (snd g)) gs.
(** The candidates of the k-th group of all files. *)
Definition group {E : Type} (fs : list (list (nat * list E))) (k : nat) : list E :=
  flat_map (fun gs => match nth_error gs k with Some g => snd g | None => [] end) fs.
(** The ids are not empty and no two groups in a row have the same. *)
Fixpoint distinct_ids (ids : list nat) : Prop :=
  match ids with [] => True | i :: r => i <> 0%nat /\ (match r with [] => True | j :: _ => i <> j end) /\ distinct_ids r end.
(** Every group has a candidate and no translation is empty. *)
Definition wf {T : Type} (gs : list (nat * list (list nat * T))) : Prop := Forall (fun g => snd g <> [] /\ Forall (fun e => fst e <> []) (snd g)) gs.
(** Some file has two candidates or more in its k-th group. *)
Definition two {T : Type} (fs : list (list (nat * list (list nat * T)))) (k : nat) : Prop := exists gs g, In gs fs /\ nth_error gs k = Some g /\ (2 <= length (snd g))%nat.
Definition dc : list nat * R := ([], 0).
