(** C99: features named after rules. *)
From Coq Require Import String Ascii List Arith Bool Lia.
From Verif Require Import RuleFf RuleFfSpec RuleFfProofs.
Import ListNotations.
Open Scope string_scope.
Local Open Scope nat_scope.

(** With a dictionary which takes new names, and plain symbols: after any sequence of rules, some of them used again and again, the source
    bigram features count the neighbouring symbols of the source sides of the rules, marks at both ends included, and nothing else. *)
Theorem C99_source : forall takes rule_at ptrs, (forall s, takes s = true) -> (forall p, Forall plain (source_texts (rule_at p))) ->
  exists f, apply_all (fun r p c f => Some (SourceBigrams takes r p c f)) rule_at ptrs [] (fun _ => 0) = Some f /\
    counts_pairs "RBS:" (List.concat (map (fun p => neighbours (source_texts (rule_at p))) ptrs)) f.
Proof. exact source_bigrams. Qed.
Print Assumptions C99_source.
(** So do the target bigram features, variables being named after their category and number. *)
Theorem C99_target : forall takes rule_at texts ptrs, (forall s, takes s = true) ->
  (forall p, Forall2 (target_text (rule_at p)) (e_ (rule_at p)) (texts p) /\ Forall plain (texts p)) ->
  exists f, apply_all (TargetBigrams takes) rule_at ptrs [] (fun _ => 0) = Some f /\
    counts_pairs "RBT:" (List.concat (map (fun p => neighbours (texts p)) ptrs)) f.
Proof. exact target_bigrams'. Qed.
Print Assumptions C99_target.
(** The identity features count the uses of every rule under a name of its own, which has no = and no ;, if the symbols can be told apart. *)
Theorem C99_identity : exists name, (forall a b, clear_rule a -> clear_rule b -> name a = name b -> a = b) /\ (forall r, ~ has "=" (name r) /\ ~ has ";" (name r)) /\
  forall takes rule_at ptrs, (forall s, takes s = true) -> exists f, apply_all (fun r p c f => Some (Identity takes r p c f)) rule_at ptrs [] (fun _ => 0) = Some f /\
    (forall k, f k <> 0 -> exists p, In p ptrs /\ k = Some (name (rule_at p))) /\
    ((forall p, clear_rule (rule_at p)) -> forall r, clear_rule r -> f (Some (name r)) = length (filter (fun p => if rule_dec (rule_at p) r then true else false) ptrs)).
Proof. exact identity_exact. Qed.
Print Assumptions C99_identity.

Definition r_ex : rule := {| lhs := Some "X"; f_ := [FWord "das"; Cat "X"; FWord "das"; Cat "X"]; e_ := [Var 1; EWord "the"; Var 0] |}.
(** Finding: with a frozen dictionary the features of a rule depend on how often it was used before: if a name is not known, the first use
    returns before anything is added, but leaves the part computed so far in the cache, and every later use adds that part. *)
Theorem C99_frozen_refuted : exists takes r f1 f2, apply_all (fun r p c f => Some (SourceBigrams takes r p c f)) (fun _ => r) [0] [] (fun _ => 0) = Some f1 /\
  apply_all (fun r p c f => Some (SourceBigrams takes r p c f)) (fun _ => r) [0; 0] [] (fun _ => 0) = Some f2 /\ (forall k, f1 k = 0) /\ f2 (Some "RBS:<r>_das") = 1.
Proof.
  exists (fun s => String.eqb s "RBS:<r>_das"), r_ex. do 2 eexists. split; [reflexivity|]. split; [reflexivity|]. split; reflexivity.
Qed.
Print Assumptions C99_frozen_refuted.
(** Finding: the identity feature does not tell a category of the source side from a word which starts with N, nor a variable of the target
    side from such a word: different rules share one feature. *)
Theorem C99_identity_refuted : exists r1 r2, f_ r1 <> f_ r2 /\ e_ r1 <> e_ r2 /\ rule_name r1 = rule_name r2.
Proof.
  exists {| lhs := Some "X"; f_ := [Cat "P"]; e_ := [Var 0] |}, {| lhs := Some "X"; f_ := [FWord "NP"]; e_ := [EWord "N1"] |}. cbn. repeat split; discriminate || reflexivity.
Qed.
Print Assumptions C99_identity_refuted.
(** Finding: a word which reads like the mark at the end makes the count of the last neighbours wrong: they are counted once, whatever was there. *)
Theorem C99_mark_refuted : exists r f, apply_all (fun r p c f => Some (SourceBigrams (fun _ => true) r p c f)) (fun _ => r) [0] [] (fun _ => 0) = Some f /\
  f (Some "RBS:a_</r>") = 1 /\ times ("a", "</r>") (neighbours (source_texts r)) = 2.
Proof. exists {| lhs := None; f_ := [FWord "a"; FWord "</r>"; FWord "a"]; e_ := [] |}. eexists. split; [reflexivity|]. split; reflexivity. Qed.
Print Assumptions C99_mark_refuted.

(** ** Examples *)
Example C99_plain_ex : Forall plain (source_texts r_ex) /\ target_texts (nt_types r_ex) (e_ r_ex) = Some ["X2"; "the"; "X1"] /\ Forall plain ["X2"; "the"; "X1"].
Proof. unfold plain. repeat split; repeat constructor; cbn; intuition discriminate. Qed.
Example C99_ex : exists f, apply_all (fun r p c f => Some (SourceBigrams (fun _ => true) r p c f)) (fun _ => r_ex) [0; 0] [] (fun _ => 0) = Some f /\
  f (Some "RBS:<r>_das") = 2 /\ f (Some "RBS:das_X") = 4 /\ f (Some "RBS:X_</r>") = 2 /\ f (Some "RBS:X_X") = 0 /\ rule_name r_ex = "R:X:das_NX_das_NX:N2_the_N1".
Proof. eexists. split; [reflexivity|]. repeat split; reflexivity. Qed.
Example C99_clear_ex : clear_rule r_ex.
Proof. unfold clear_rule, clear_word, clear. cbn. repeat (split || constructor); cbn; try (intuition discriminate); intros t E; discriminate E. Qed.
Example C99_text_ex : Forall2 (target_text r_ex) (e_ r_ex) ["X2"; "the"; "X1"].
Proof. repeat constructor; try (exists "X"; split; reflexivity); apply Nat.ltb_lt; reflexivity. Qed.
