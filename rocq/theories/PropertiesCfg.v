(** C102: a forest written as a grammar. *)
From Coq Require Import String List ZArith Bool Lia.
From Verif Require Import Cfg CfgSpec CfgProofs.
Import ListNotations.
Local Open Scope Z_scope.

(** The grammar has a rule for every edge, with its features and the node as category.  Exchanging the subtrees makes every derivation of
    the forest a derivation of the grammar for the same node with source and target exchanged, and the other way round; doing it twice
    gives the derivation back, so that there are as many of them. *)
Theorem C102_grammar {X} (nodes : list (option string)) (es : list (edge X)) : Forall (good_edge (length nodes)) es ->
  exists gs, WriteAsCFG nodes es = Some gs /\ Forall2 (fun ed r => lhs r = label nodes (head ed) /\ scores r = feats ed) es gs
  /\ (forall t v s u, fderiv es t v s u -> gderiv gs (swap es t) (label nodes v) u s /\ swap es (swap es t) = t)
  /\ (forall t v s u, gderiv gs t (label nodes v) u s -> fderiv es (swap es t) v s u /\ swap es (swap es t) = t).
Proof. exact (as_cfg nodes es). Qed.
Print Assumptions C102_grammar.
(** Different nodes are different categories, whatever the names of the categories of the forest. *)
Theorem C102_categories nodes v w : label nodes v = label nodes w -> v = w.
Proof. exact (label_inj nodes v w). Qed.
Print Assumptions C102_categories.
(** Edges with at most two tails are always as needed if every variable is used once. *)
Theorem C102_binary {X} n (ed : edge X) : (length (tails ed) <= 2)%nat -> (head ed < n)%nat -> Forall (fun v => (v < n)%nat) (tails ed) ->
  length (filter (fun z => negb (0 <? z)) (src ed)) = length (tails ed) -> length (vars (tgt ed)) = length (tails ed) ->
  NoDup (vars (tgt ed)) -> (forall m, In m (vars (tgt ed)) -> (m < length (tails ed))%nat) -> good_edge n ed.
Proof. intros L H T S V ND B. repeat split; auto. exact (two_vars _ _ V L B ND). Qed.
Print Assumptions C102_binary.

(** Finding: the numbers of the variables are copied from the target side where they should be inverted.  For a rule which moves three
    variables around in a circle the grammar derives a pair of texts which the forest does not. *)
Theorem C102_three_refuted : exists gs t, WriteAsCFG nodes3 (forest3 [-1; -2; 0]) = Some gs
  /\ gderiv gs t (label nodes3 3) [12; 13; 11] [3; 1; 2]
  /\ (forall t' s u, fderiv (forest3 [-1; -2; 0]) t' 3 s u -> s = [1; 2; 3] /\ u = [12; 13; 11]).
Proof.
  exists [Build_grule (label nodes3 0) [Word 11] [1] 0%nat; Build_grule (label nodes3 1) [Word 12] [2] 1%nat; Build_grule (label nodes3 2) [Word 13] [3] 2%nat;
    Build_grule (label nodes3 3) [Nt (label nodes3 1); Nt (label nodes3 2); Nt (label nodes3 0)] [-1; -2; 0] 7%nat], (D 3 [D 1 []; D 2 []; D 0 []]). split; [reflexivity|]. split.
  - refine (gd _ 3 (Build_grule (label nodes3 3) [Nt (label nodes3 1); Nt (label nodes3 2); Nt (label nodes3 0)] [-1; -2; 0] 7%nat) [(D 1 [], label nodes3 1, ([12], [2])); (D 2 [], label nodes3 2, ([13], [3])); (D 0 [], label nodes3 0, ([11], [1]))] _ _ _ _ _ _ _); try reflexivity.
    repeat constructor; cbn [fst snd].
    + refine (gd _ 1 (Build_grule (label nodes3 1) [Word 12] [2] 1%nat) [] _ _ _ (Forall_nil _) _ _ _); reflexivity.
    + refine (gd _ 2 (Build_grule (label nodes3 2) [Word 13] [3] 2%nat) [] _ _ _ (Forall_nil _) _ _ _); reflexivity.
    + refine (gd _ 0 (Build_grule (label nodes3 0) [Word 11] [1] 0%nat) [] _ _ _ (Forall_nil _) _ _ _); reflexivity.
  - intros t' s u H. apply forest3_texts in H. destruct H as [H1 H2]. cbn in H2. injection H2 as <-. auto.
Qed.
Print Assumptions C102_three_refuted.

(** An example: the second and the third variable exchanged. *)
Example C102_good_ex : Forall (good_edge (length nodes3)) (forest3 [0; 20; -2; -1]).
Proof.
  repeat (apply Forall_cons || apply Forall_nil); repeat split; cbn; try lia; try (repeat constructor; lia); intros [|[|[|k]]] m E; try discriminate E; try (injection E as <-; reflexivity); destruct k; discriminate E.
Qed.
Example C102_ex : WriteAsCFG nodes3 (forest3 [0; 20; -2; -1]) = Some
  [Build_grule "X_0" [Word 11] [1] 0%nat; Build_grule "X_1" [Word 12] [2] 1%nat; Build_grule "X_1_2" [Word 13] [3] 2%nat;
   Build_grule "CAT_3" [Nt "X_0"; Word 20; Nt "X_1_2"; Nt "X_1"] [0; -2; -1] 7%nat]%string.
Proof. reflexivity. Qed.
Example C102_ex_deriv : fderiv (forest3 [0; 20; -2; -1]) (D 3 [D 0 []; D 1 []; D 2 []]) 3 [1; 2; 3] [11; 20; 13; 12].
Proof.
  refine (fd _ 3 {| head := 3; tails := [0; 1; 2]%nat; tgt := [0; 20; -2; -1]; src := [-5; -5; -5]; feats := 7%nat |} [(D 0 [], 0%nat, ([1], [11])); (D 1 [], 1%nat, ([2], [12])); (D 2 [], 2%nat, ([3], [13]))] _ _ _ _ _ _ _); try reflexivity.
  repeat constructor; cbn [fst snd].
  - refine (fd _ 0 (leaf 0 1 11) [] _ _ _ (Forall_nil _) _ _ _); reflexivity.
  - refine (fd _ 1 (leaf 1 2 12) [] _ _ _ (Forall_nil _) _ _ _); reflexivity.
  - refine (fd _ 2 (leaf 2 3 13) [] _ _ _ (Forall_nil _) _ _ _); reflexivity.
Qed.
