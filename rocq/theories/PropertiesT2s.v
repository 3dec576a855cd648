(** C101: tree-to-string translation. *)
From Coq Require Import String Ascii List Arith Bool.
From Verif Require Import Opt Frag FragSpec T2s T2sSpec T2sProofs.
Import ListNotations.
Local Open Scope nat_scope.

(** For an input text which writes a tree the forest has, for every node which has to be translated, every part of the tree from this node
    and every rule whose fragment has the same walk as the part, exactly one edge, whose tails are the nodes where the part stops; and
    no other edge.  [gs]: the grammars, every rule with its fragment. *)
Theorem C101_edges {A} t w (gs : list (list (tree * A))) : writes t w -> sites t = [] ->
  exists f, TreeFragment 0 0 w false = Ok f /\ exists N, forall fuel, N <= fuel -> exists ms es,
    compose fuel (f_nodes f) (map (map (fun fr => (walk (fst fr), snd fr))) gs) = Some es /\ NoDup ms
    /\ (forall g h p ts, In (g, h, p, ts) ms <-> needed t gs h /\ (exists c, part t h c ts /\ walk c = p) /\ fits (nth g gs []) p <> [])
    /\ es = concat (map (fun m => match m with (g, h, p, ts) => map (Build_edge h ts) (fits (nth g gs []) p) end) ms).
Proof. exact (edges_of_text t w gs). Qed.
Print Assumptions C101_edges.

(** If the label of a node fixes how many children it has, a rule is used only for parts which are its fragment. *)
Theorem C101_ranked {A} rank t h c ts (gr : list (tree * A)) f r : ranked rank t -> part t h c ts -> In (f, r) gr -> ranked rank f ->
  walk f = walk c -> f = c.
Proof. exact (ranked_fits rank t h c ts gr f r). Qed.
Print Assumptions C101_ranked.

(** With pass-through rules every input tree has a translation, whatever the grammars. *)
Theorem C101_pass_through {A} t w (gs : list (list (tree * A))) (mk : list tsym -> A) (is_copy : A -> nat -> bool) :
  writes t w -> sites t = [] -> wf t ->
  exists f, TreeFragment 0 0 w false = Ok f /\ exists N, forall fuel, N <= fuel -> exists es,
    compose_pass mk is_copy fuel (f_nodes f) (map (map (fun fr => (walk (fst fr), snd fr))) gs) = Some es
    /\ derivable (map (fun e => (head e, tails e)) es) (size t - 1).
Proof. exact (pass_of_text t w gs mk is_copy). Qed.
Print Assumptions C101_pass_through.

Notation lit := list_ascii_of_string.
Definition word (s : string) : item := Word (lit s).
(** (S (NP a b)) and (S (NP a) b) *)
Definition t1 : tree := Tree (lit "S") [Sub (Tree (lit "NP") [word "a"; word "b"])].
Definition f1 : tree := Tree (lit "S") [Sub (Tree (lit "NP") [word "a"]); word "b"].
(** Finding: the walk which indexes the rules does not say where the children of a node end.  The rule for (S (NP a) b) is used for the
    input (S (NP a b)), which has no such part. *)
Theorem C101_structure_refuted : exists f, TreeFragment 0 0 (lit "(S (NP a b))") false = Ok f
  /\ compose 20 (f_nodes f) [[(walk f1, tt)]] = Some [Build_edge 1 [] tt] /\ print t1 = lit "(S (NP a b))" /\ ~ (exists h ts, part t1 h f1 ts).
Proof.
  eexists. split; [reflexivity|]. split; [reflexivity|]. split.
  - reflexivity.
  - apply no_part. discriminate.
Qed.
Print Assumptions C101_structure_refuted.

(** Finding: a node without label, like the root of a tree in the style of the Penn treebank, gets a pass-through rule which does not
    match it: the text "( [S])" made for it is read as a node with the label [S].  There is no translation. *)
Theorem C101_no_label_refuted : exists f, TreeFragment 0 0 (lit "( (S a))") false = Ok f
  /\ pass_rules (fun p => p) (fun _ _ => false) (f_nodes f) [] (f_nodes f) [] =
       Some [([L (lit "S"); T (lit "a")], [L (lit "S"); T (lit "a")]); ([L (lit "[S]")], [L []; F (lit "S")])]
  /\ compose_pass (fun p => p) (fun _ _ => false) 20 (f_nodes f) [] = Some [].
Proof. eexists. repeat split. Qed.
Print Assumptions C101_no_label_refuted.

(** An example: (S (NP a) (VP b (NP c))) with the rules (S [NP] [VP]), (S [NP] (VP b [NP])), (NP a), (NP c), (VP b [NP]). *)
Definition np (s : string) : tree := Tree (lit "NP") [word s].
Definition t2 : tree := Tree (lit "S") [Sub (np "a"); Sub (Tree (lit "VP") [word "b"; Sub (np "c")])].
Definition site (s : string) : item := Site (lit s).
Definition g2 : list (tree * nat) :=
  [(Tree (lit "S") [site "NP"; site "VP"], 1); (Tree (lit "S") [site "NP"; Sub (Tree (lit "VP") [word "b"; site "NP"])], 2);
   (np "a", 3); (np "c", 4); (Tree (lit "VP") [word "b"; site "NP"], 5)].
Example C101_ex : exists f, TreeFragment 0 0 (lit "(S (NP a) (VP b (NP c)))") false = Ok f
  /\ compose 60 (f_nodes f) [map (fun fr => (walk (fst fr), snd fr)) g2] =
     Some [Build_edge 3 [0; 2] 1; Build_edge 0 [] 3; Build_edge 3 [0; 1] 2; Build_edge 2 [1] 5; Build_edge 1 [] 4].
Proof. eexists. split; reflexivity. Qed.
Example C101_ex_pass : exists f, TreeFragment 0 0 (lit "(S (NP a) (VP b (NP c)))") false = Ok f
  /\ compose_pass (fun _ => 9) (fun r n => (r =? 1) && (n =? 2)) 60 (f_nodes f) [map (fun fr => (walk (fst fr), snd fr)) [(Tree (lit "S") [site "NP"; site "VP"], 1)]] =
     Some [Build_edge 3 [0; 2] 1; Build_edge 0 [] 9; Build_edge 2 [1] 9; Build_edge 1 [] 9].
Proof. eexists. split; reflexivity. Qed.
Definition ex_rank (nt : list ascii) : nat := if list_eq_dec ascii_dec nt (lit "NP") then 1 else 2.
Example C101_ex_ranked : ranked ex_rank t2 /\ Forall (fun fr => ranked ex_rank (fst fr)) g2 /\ wf t2 /\ sites t2 = [].
Proof.
  assert (G : forall s, In s ["a"; "b"; "c"]%string -> good_word (lit s)).
  { intros s H. repeat split.
    - intros E. repeat (destruct H as [<- |H]; [discriminate|]). destruct H.
    - repeat (destruct H as [<- |H]; [repeat constructor; discriminate|]). destruct H.
    - intros (x & _ & E). repeat (destruct H as [<- |H]; [discriminate|]). destruct H. }
  repeat split; try (repeat constructor; discriminate); try (intros ?; discriminate); try reflexivity; try apply G; cbn; auto.
Qed.
