(** C105: features made from a template. *)
From Coq Require Import String Ascii List Arith ZArith.
From Verif Require Import RuleFfSpec Ctx CtxSpec CtxProofs.
Import ListNotations.
Open Scope string_scope.

(** The feature of a label is the template with every macro replaced by the word at its place (a mark outside the sentence) or by the label. *)
Theorem C105_feature ps input y i s f : Forall fine ps -> words_of ps <> [] -> labels_of ps = [0%Z] -> (forall w, In w input -> ~ has "%" w) -> (i < length input)%nat ->
  filled input i y ps s -> escaped s f -> Context (template ps) input 0 [y] i (S i) = Some (Some f).
Proof. exact (feature_ok ps input y i s f). Qed.
Print Assumptions C105_feature.
(** There is always such a text. *)
Theorem C105_filled input i y ps : (i < length input)%nat -> exists s f, filled input i y ps s /\ escaped s f.
Proof. exact (filled_ex input i y ps). Qed.
Print Assumptions C105_filled.
(** A template without a word or without a label, or with a label of another place, is refused. *)
Theorem C105_refused ps input arity e i j : Forall fine ps -> words_of ps = [] \/ labels_of ps = [] \/ (exists k, In k (labels_of ps) /\ k <> 0%Z) -> Context (template ps) input arity e i j = None.
Proof. exact (refused_ok ps input arity e i j). Qed.
Print Assumptions C105_refused.
(** Rules with variables or with other than one word give no feature. *)
Theorem C105_none ps input arity e i j : Forall fine ps -> words_of ps <> [] -> labels_of ps <> [] -> (forall k, In k (labels_of ps) -> k = 0%Z) -> arity <> 0%nat \/ length e <> 1%nat ->
  Context (template ps) input arity e i j = Some None.
Proof. exact (none_ok ps input arity e i j). Qed.
Print Assumptions C105_none.
(** Labels of more than one word of the input stop the program. *)
Theorem C105_span t input y i j : j <> S i -> (i <= j)%nat -> Context t input 0 [y] i j = None.
Proof. exact (span_ok t input y i j). Qed.
Print Assumptions C105_span.

(** Finding: the macro of a place which is positive and has a digit 0 is not recognised: the 0 is missing in the expression of
    RuleContextFeatures (ff_context.cc 21), and %x[10] is in the name of the feature for every word there, while %x[-10] is replaced. *)
Theorem C105_ten_refuted : exists ps input y i s f, words_of ps <> [] /\ labels_of ps = [0%Z] /\ (i < length input)%nat /\ filled input i y ps s /\ escaped s f /\
  Context (template ps) input 0 [y] i (S i) <> Some (Some f) /\ Context (template ps) input 0 [y] i (S i) = Some (Some "a|%x[10]|N").
Proof.
  exists [X 0; Lit "|"; X 10; Lit "|"; Y 0], ["a"], "N", 0%nat, "a|</s>|N", "a|</s>|N".
  split; [discriminate|]. split; [reflexivity|]. split; [repeat constructor|].
  split; [exact (full_filled ["a"] 0 "N" [X 0; Lit "|"; X 10; Lit "|"; Y 0] (le_n 1))|].
  split; [exact (proj2 (escape_ok _ _) eq_refl)|]. split; [vm_compute; discriminate|reflexivity].
Qed.
Print Assumptions C105_ten_refuted.
(** Finding: of two labels in a template, which is accepted, only the first is replaced (ff_context.cc 221). *)
Theorem C105_twice_refuted : exists ps input y i s f, Forall fine ps /\ words_of ps <> [] /\ labels_of ps <> [] /\ (forall k, In k (labels_of ps) -> k = 0%Z) /\ (i < length input)%nat /\ filled input i y ps s /\ escaped s f /\
  Context (template ps) input 0 [y] i (S i) <> Some (Some f).
Proof.
  exists [X 0; Y 0; Y 0], ["a"], "N", 0%nat, "aNN", "aNN".
  split; [repeat constructor; discriminate|]. split; [discriminate|]. split; [discriminate|]. split; [cbn; intuition|]. split; [repeat constructor|].
  split; [exact (full_filled ["a"] 0 "N" [X 0; Y 0; Y 0] (le_n 1))|].
  split; [exact (proj2 (escape_ok _ _) eq_refl)|]. vm_compute. discriminate.
Qed.
Print Assumptions C105_twice_refuted.
(** Finding: a word of the input which is written like a macro is taken for one: the label goes to the place of the word
    (ff_context.cc 206-221). *)
Theorem C105_percent_refuted : exists ps input y i s f, Forall fine ps /\ words_of ps <> [] /\ labels_of ps = [0%Z] /\ (i < length input)%nat /\ filled input i y ps s /\ escaped s f /\
  Context (template ps) input 0 [y] i (S i) <> Some (Some f).
Proof.
  exists [X 0; Y 0], ["%y[0]"], "N", 0%nat, "%y[0]N", "%y[0]N".
  split; [repeat constructor; discriminate|]. split; [discriminate|]. split; [reflexivity|]. split; [repeat constructor|].
  split; [exact (full_filled ["%y[0]"] 0 "N" [X 0; Y 0] (le_n 1))|].
  split; [exact (proj2 (escape_ok _ _) eq_refl)|]. vm_compute. discriminate.
Qed.
Print Assumptions C105_percent_refuted.

(** The template of the usage message, at the first and at the last word. *)
Example C105_ex_template : template [Lit "U"; Lit "1"; Lit ":"; X (-1); Lit "_"; X 0; Lit "|"; Y 0] = "U1:%x[-1]_%x[0]|%y[0]".
Proof. reflexivity. Qed.
Example C105_ex_first : Context "U1:%x[-1]_%x[0]|%y[0]" ["the"; "a=b"] 0 ["N"] 0 1 = Some (Some "U1:<s>_the|N").
Proof. reflexivity. Qed.
Example C105_ex_last : Context "U1:%x[-1]_%x[0]_%x[1]|%y[0]" ["the"; "a=b"] 0 ["N"] 1 2 = Some (Some "U1:the_a_b_</s>|N").
Proof. reflexivity. Qed.
Example C105_ex_far : Context "%x[-10]%x[0]%x[2]|%y[0]" ["a"; "b"; "c"] 0 ["N"] 0 1 = Some (Some "<s>ac|N").
Proof. reflexivity. Qed.
Example C105_ex_refused : Context "%x[0]|%y[1]" ["a"] 0 ["N"] 0 1 = None /\ Context "%x[0]" ["a"] 0 ["N"] 0 1 = None.
Proof. split; reflexivity. Qed.
Example C105_ex_fine : Forall fine [Lit "U"; X (-10); X 0; X 2; Y 0] /\ words_of [Lit "U"; X (-10); X 0; X 2; Y 0] = [-10; 0; 2]%Z /\ labels_of [Lit "U"; X (-10); X 0; X 2; Y 0] = [0%Z].
Proof.
  split; [|split; reflexivity]. apply Forall_cons; [discriminate|]. apply Forall_cons; [left; discriminate|]. apply Forall_cons; [left; discriminate|].
  apply Forall_cons; [right; cbn; intuition discriminate|]. apply Forall_cons; [left; discriminate|]. apply Forall_nil.
Qed.
