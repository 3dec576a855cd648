(** C100: trees written as text. *)
From Coq Require Import String Ascii List Arith Bool.
From Verif Require Import Frag FragSpec FragProofs.
Import ListNotations.
Local Open Scope nat_scope.

(** Whatever the blanks, the text of a tree is read as that tree: the nodes are numbered with the children before the parent, and for an
    input tree every node gets as span the words of its subtree. *)
Theorem C100_read t w afs fs0 ts0 : writes t w -> (afs = true \/ sites t = []) ->
  exists f, TreeFragment fs0 ts0 w afs = Ok f /\ length (f_nodes f) = size t /\ shows (f_nodes f) 0 t
    /\ f_terminals f = ts0 + length (words t) /\ f_frontier f = fs0 + length (sites t)
    /\ (afs = false -> map fst (f_spans f) = seq 0 (size t) /\ forall n l s, below t n l s -> In (n + size s - 1, (l, l + width s)) (f_spans f)).
Proof. exact (fragment_of_text t w afs fs0 ts0). Qed.
Print Assumptions C100_read.

(** What is read is printed with single blanks, and this text writes the tree again. *)
Theorem C100_print t w afs fs0 ts0 : writes t w -> (afs = true \/ sites t = []) ->
  exists f, TreeFragment fs0 ts0 w afs = Ok f /\ show f = Some (print t) /\ (wf t -> writes t (print t)).
Proof. exact (fragment_shown t w afs fs0 ts0). Qed.
Print Assumptions C100_print.

(** The default iterator visits the tree depth first, an inner node as a child and again as a left side; the terminals are the words in order. *)
Theorem C100_walk t w afs fs0 ts0 : writes t w -> (afs = true \/ sites t = []) ->
  exists f, TreeFragment fs0 ts0 w afs = Ok f /\ forall fuel, length (walk t) < fuel ->
    dfs fuel (f_nodes f) = Some (walk t) /\ Terminals fuel (f_nodes f) = Some (words t).
Proof. exact (fragment_walked t w afs fs0 ts0). Qed.
Print Assumptions C100_walk.

Notation lit := list_ascii_of_string.
(** Finding: the check of the brackets finds a bracket closed too early, but not one which is never closed: for such a text the parser reads
    behind its end. *)
Theorem C100_unclosed_refuted : TreeFragment 0 0 (lit "(S (NP a)") false = Undef.
Proof. reflexivity. Qed.
Print Assumptions C100_unclosed_refuted.

(** Finding: the constructor which reads a text does not set the numbers of terminals and of frontier sites to 0 before counting: they are
    off by what was in memory. *)
Theorem C100_counts_refuted : exists f, TreeFragment 3 7 (lit "(S a)") false = Ok f /\ f_terminals f = 8 /\ f_frontier f = 3.
Proof. eexists. repeat split. Qed.
Print Assumptions C100_counts_refuted.

(** An example: (S (NP a) b [X]) with blanks. *)
Definition ex : tree := Tree (lit "S") [Sub (Tree (lit "NP") [Word (lit "a")]); Word (lit "b"); Site (lit "X")].
Example C100_ex_writes : writes ex (lit "( S(NP a )b  [X] )").
Proof.
  assert (G : forall s, s = "a"%string \/ s = "b"%string -> good_word (lit s)).
  { intros s H. repeat split.
    - destruct H; subst; discriminate.
    - destruct H; subst; repeat constructor; discriminate.
    - intros (x & _ & E). destruct H; subst; discriminate. }
  apply (w_tree (lit "S") _ 1 (lit "(NP a )b  [X] ")); [repeat constructor; discriminate|discriminate|].
  apply (w_sub true 0 _ (lit "(NP a )") _ (lit "b  [X] ")).
  { apply (w_tree (lit "NP") _ 0 (lit " a ")); [repeat constructor; discriminate|discriminate|].
    apply (w_token true 1 _ (lit "a") _ (lit " ")); [auto| |exact (w_nil true 1)]. split; [reflexivity|]. apply G. now left. }
  apply (w_token false 0 _ (lit "b") _ (lit "  [X] ")); [discriminate| |].
  { split; [reflexivity|]. apply G. now right. }
  apply (w_token true 2 _ (lit "[X]") _ (lit " ")); [auto| |exact (w_nil true 1)].
  repeat split; try discriminate. repeat constructor; discriminate.
Qed.
Example C100_ex : exists f, TreeFragment 0 0 (lit "( S(NP a )b  [X] )") true = Ok f /\ show f = Some (lit "(S (NP a) b [X])")
  /\ dfs 20 (f_nodes f) = Some [L (lit "S"); R (lit "NP"); L (lit "NP"); T (lit "a"); T (lit "b"); F (lit "X")]
  /\ Terminals 20 (f_nodes f) = Some [lit "a"; lit "b"].
Proof. eexists. repeat split. Qed.
Example C100_ex_spans : exists f, TreeFragment 0 0 (lit "(S a (NP (N b) c))") false = Ok f /\ f_spans f = [(0, (1, 2)); (1, (1, 3)); (2, (0, 3))].
Proof. eexists. repeat split. Qed.
