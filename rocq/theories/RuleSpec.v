(** Synchronous rules. *)
From Coq Require Import String List ZArith Permutation.
From Verif Require Import Dict Rule.
Import ListNotations.
Open Scope Z_scope.

Definition vars_of (l : list Z) : list Z := filter (fun c => c <? 1) l.
Definition words_of (l : list Z) : list Z := filter (fun c => 1 <=? c) l.
(** every variable 0, -1, … occurs once in the target side *)
Definition wf_rule (e f : list Z) : Prop :=
  Permutation (vars_of e) (map (fun k => - Z.of_nat k) (seq 0 (length (vars_of f)))).
(** the target side: the words in order, the variable -k replaced by the k-th yield *)
Definition target_of (e : list Z) (ys : list (list Z)) : list Z :=
  concat (map (fun c => if c <? 1 then nth (Z.to_nat (- c)) ys [] else [c]) e).
(** the source side: the words in order, the categories replaced by the yields in order *)
Inductive source_of : list Z -> list (list Z) -> list Z -> Prop :=
| so_nil : source_of [] [] []
| so_word c f ys r : 1 <= c -> source_of f ys r -> source_of (c :: f) ys (c :: r)
| so_cat c f y ys r : c < 1 -> source_of f ys r -> source_of (c :: f) (y :: ys) (y ++ r).

(** derivations of well-formed rules with at most 127 variables *)
Inductive wf_deriv : deriv -> Prop :=
| wf_node e f kids : wf_rule e f -> length kids = length (vars_of f) -> (length kids <= 127)%nat ->
    Forall wf_deriv kids -> wf_deriv (Node e f kids).
(** the pair of sentences of a derivation *)
Inductive pair_of : deriv -> list Z -> list Z -> Prop :=
| pair_node e f kids es fs t : Forall2 (fun k ef => pair_of k (fst ef) (snd ef)) kids (combine es fs) ->
    length es = length kids -> length fs = length kids -> source_of f fs t ->
    pair_of (Node e f kids) (target_of e es) t.

(** What a rule says, in words. *)
Inductive sym := Cat (s : string) | Var (k : Z) | Word (s : string).
Definition word_of (s : dict) (i : Z) (w : string) : Prop := i <> 0 /\ convert_id s i = Some w.
Inductive f_says (s : dict) : Z -> sym -> Prop :=
| f_cat x w : x < 0 -> word_of s (- x) w -> f_says s x (Cat w)
| f_word x w : 0 < x -> word_of s x w -> f_says s x (Word w).
Inductive e_says (s : dict) : Z -> sym -> Prop :=
| e_var x : x <= 0 -> e_says s x (Var x)
| e_word x w : 0 < x -> word_of s x w -> e_says s x (Word w).
Definition says {scores} (s : dict) (r : trule scores) (l : string) (fs es : list sym) : Prop :=
  lhs scores r < 0 /\ word_of s (- lhs scores r) l /\ Forall2 (f_says s) (f_ scores r) fs /\ Forall2 (e_says s) (e_ scores r) es.
