(** C107: reading of parallel text. *)
From Coq Require Import List Arith Permutation.
From Verif Require Import Ctools CtoolsSpec CtoolsProofs.
Import ListNotations.

(** One line is divided at the first divider; without one there is no target. *)
Theorem C107_line div a b : ~ In div a -> ReadLine div (a ++ div :: b) = (a, b).
Proof. exact (ReadLine_line div a b). Qed.
Print Assumptions C107_line.
Theorem C107_line_one div a : ~ In div a -> ReadLine div a = (a, []).
Proof. exact (ReadLine_one div a). Qed.
Print Assumptions C107_line_one.
(** Every process has the two sides of exactly the lines of its share, in order, side by side, and the words of all lines. *)
Theorem C107_both div rank size sv tv ps k : rank < size -> Forall (clean div) ps -> share rank size 0 ps k -> exists c, ReadFromFile div rank size sv true tv (map (line div) ps) = Some c /\
  src c = map fst k /\ trg c = Some (map snd k) /\
  match src_vocab c with Some v => sv = true /\ set_of v (map fst ps) | None => sv = false end /\ match trg_vocab c with Some v => tv = true /\ set_of v (map snd ps) | None => tv = false end.
Proof. exact (both_ok div rank size sv tv ps k). Qed.
Print Assumptions C107_both.
(** Likewise for text of one side. *)
Theorem C107_one div rank size sv tv ls k : rank < size -> Forall (fun l => ~ In div l) ls -> share rank size 0 ls k -> exists c, ReadFromFile div rank size sv false tv ls = Some c /\
  src c = k /\ trg c = None /\ match src_vocab c with Some v => sv = true /\ set_of v ls | None => sv = false end.
Proof. exact (one_ok div rank size sv tv ls k). Qed.
Print Assumptions C107_one.
(** Nothing else is read: lines without a divider or with two, or with one where one side is wanted, stop the program, on all processes. *)
Theorem C107_refused div rank size sv t tv ls c : ReadFromFile div rank size sv t tv ls = Some c ->
  rank < size /\ if t then exists ps, ls = map (line div) ps /\ Forall (clean div) ps else Forall (fun l => ~ In div l) ls.
Proof. exact (refused_ok div rank size sv t tv ls c). Qed.
Print Assumptions C107_refused.
(** The shares of all processes together are the text: every line goes to one process. *)
Theorem C107_shares {A} size (l : list A) ks : 0 < size -> (forall r, r < size -> share r size 0 l (ks r)) -> Permutation (concat (map ks (seq 0 size))) l.
Proof. exact (shares_ok size l ks). Qed.
Print Assumptions C107_shares.
Theorem C107_share {A} rank size n (l : list A) : exists k, share rank size n l k.
Proof. exact (share_ex rank size n l). Qed.
Print Assumptions C107_share.

(** Three lines and two processes; 0 is the divider. *)
Example C107_ex : ReadFromFile 0 0 2 true true false [[1; 2; 0; 5]; [0]; [3; 1; 0; 6; 6]] = Some {| src := [[1; 2]; [3; 1]]; src_vocab := Some [1; 2; 3]; trg := Some [[5]; [6; 6]]; trg_vocab := None |} /\
  ReadFromFile 0 1 2 true true true [[1; 2; 0; 5]; [0]; [3; 1; 0; 6; 6]] = Some {| src := [[]]; src_vocab := Some [1; 2; 3]; trg := Some [[]]; trg_vocab := Some [5; 6] |}.
Proof. split; reflexivity. Qed.
Example C107_ex_refused : ReadFromFile 0 0 2 true true true [[1; 0; 5]; [1; 2]] = None /\ ReadFromFile 0 0 1 true true true [[1; 0; 5; 0; 6]] = None /\ ReadFromFile 0 0 1 true false true [[1; 0; 5]] = None /\
  ReadFromFile 0 0 1 true false true [[1; 5]] = Some {| src := [[1; 5]]; src_vocab := Some [1; 5]; trg := None; trg_vocab := Some [] |}.
Proof. repeat split; reflexivity. Qed.
Example C107_ex_share : share 0 2 0 [([1; 2], [5]); ([], []); ([3; 1], [6; 6])] [([1; 2], [5]); ([3; 1], [6; 6])] /\ Forall (clean 0) [([1; 2], [5]); ([], []); ([3; 1], [6; 6])].
Proof.
  split; [apply share_take; [reflexivity|]; apply share_skip; [discriminate|]; apply share_take; [reflexivity|]; apply share_nil|].
  repeat constructor; cbn; intuition discriminate.
Qed.
