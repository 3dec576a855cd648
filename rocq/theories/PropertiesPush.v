(** C17: PushWeightsToGoal. *)
From Coq Require Import List Arith Lia Reals Lra QArith.
From Verif Require Import HG Deriv Inside InsideProofs OutsideProofs Push PushProofs LogVal LogValProofs ProbProofs PropertiesInside.
Import ListNotations.

(** Positive [prob_t] weights, raised to the power [p].  The value returned is
    the total weight of the derivations of the goal (the last node); nothing but
    the weights changes; at every node of a derivation of the goal the new
    weights of the incoming edges sum to one; and the new weight of (each part
    of) a derivation is its old weight divided by the total over the
    derivations of its root. *)
Theorem C17_push_to_goal : forall (p : R) (g : hg lv), topo g -> one_head g -> ids_ok g -> length (nodes g) <> 0%nat ->
  (forall e ed, nth_error (edges g) e = Some ed -> exists x, denotes (lab ed) x /\ (0 < x)%R) ->
  exists z g', PushWeightsToGoal lv_zero lv_one lv_add lv_mul lv_div (fun w => lv_pow w p) g = Some (z, g') /\
    nodes g' = nodes g /\ map (fun ed => (tails ed, head ed, eid ed)) (edges g') = map (fun ed => (tails ed, head ed, eid ed)) (edges g) /\
    let w := tree_weight Rmult (edge_weight 0%R (fun ed => Rpower (lv_val (lab ed)) p) g) in
    let w' := tree_weight lv_mul (edge_weight lv_zero lab g') in
    let goal := (length (nodes g) - 1)%nat in
    (forall L, all_derivations g goal L -> denotes z (sum 0%R Rplus (map w L))) /\
    forall t m s nd, derives g goal t -> part g goal t m s -> nth_error (nodes g) m = Some nd ->
      (exists xs, Forall2 (fun e x => exists ed, nth_error (edges g') e = Some ed /\ denotes (lab ed) x) (in_edges nd) xs /\ sum 0%R Rplus xs = 1%R) /\
      forall L, all_derivations g m L -> denotes (w' s) (w s / sum 0%R Rplus (map w L)).
Proof. exact push_goal_correct. Qed.
Print Assumptions C17_push_to_goal.

(** PushWeightsToSource, on the other hand, rewrites an edge once per tail.
    Here edge 2, from nodes 0 and 1, and edge 3, from node 0, lead to the goal
    with weights 1 and 2; afterwards the derivation through edge 2 is better. *)
Definition mkq (ts : list nat) (h : nat) (w : Q) (i : nat) : edge Q := {| head := Some h; tails := ts; lab := w; eid := i |}.
Definition ex_src : hg Q := {|
  nodes := [mk_node 0 [0%nat] [2%nat; 3%nat]; mk_node 1 [1%nat] [2%nat]; mk_node 2 [2%nat; 3%nat] []];
  edges := [mkq [] 0 1 0; mkq [] 1 1 1; mkq [0%nat; 1%nat] 2 1 2; mkq [0%nat] 2 2 3] |}.
Theorem C17_push_to_source_refuted : exists (g g' : hg Q) z t t',
  topo g /\ derives g (length (nodes g) - 1) t /\ derives g (length (nodes g) - 1) t' /\
  PushWeightsToSource 0 1 Qplus Qmult Qdiv (fun w => w) g = Some (z, g') /\
  tree_weight Qmult (edge_weight 0 lab g) t < tree_weight Qmult (edge_weight 0 lab g) t' /\
  tree_weight Qmult (edge_weight 0 lab g') t' < tree_weight Qmult (edge_weight 0 lab g') t.
Proof.
  exists ex_src. eexists. eexists. exists (Tree 2 [Tree 0 []; Tree 1 []]), (Tree 3 [Tree 0 []]). split; [|split; [|split; [|split; [|split]]]].
  - intros n nd H. do 3 (destruct n as [|n]; [injection H as <-; cbn; split;
      [repeat constructor; cbn; intuition discriminate|
       intros e E; repeat (destruct E as [<-|E]; [eexists; split; [reflexivity|cbn; intros; lia]|]); destruct E]|]).
    destruct n; discriminate.
  - eapply d_edge; [reflexivity|left; reflexivity|reflexivity|]. repeat constructor; (eapply d_edge; [reflexivity|left; reflexivity|reflexivity|constructor]).
  - eapply d_edge; [reflexivity|right; left; reflexivity|reflexivity|]. repeat constructor; (eapply d_edge; [reflexivity|left; reflexivity|reflexivity|constructor]).
  - reflexivity.
  - vm_compute. reflexivity.
  - vm_compute. reflexivity.
Qed.
Print Assumptions C17_push_to_source_refuted.

(** The forest of [C13_ex] without its isolated node, with [prob_t] weights. *)
Definition mkp (ts : list nat) (h : nat) (w : R) (i : nat) : edge lv := {| head := Some h; tails := ts; lab := lv_of false w; eid := i |}.
Definition ex_push : hg lv := {|
  nodes := [mk_node 0 [0%nat; 1%nat] [3%nat]; mk_node 1 [2%nat] [3%nat; 4%nat]; mk_node 2 [3%nat; 4%nat] []];
  edges := [mkp [] 0 2 0; mkp [] 0 3 1; mkp [] 1 5 2; mkp [0%nat; 1%nat] 2 7 3; mkp [1%nat] 2 11 4] |}.
Example C17_ex : topo ex_push /\ one_head ex_push /\ ids_ok ex_push /\
  forall e ed, nth_error (edges ex_push) e = Some ed -> exists x, denotes (lab ed) x /\ (0 < x)%R.
Proof.
  split; [|split; [|split]].
  - intros n nd H. do 3 (destruct n as [|n]; [injection H as <-; cbn; split;
      [repeat constructor; cbn; intuition discriminate|
       intros e E; repeat (destruct E as [<-|E]; [eexists; split; [reflexivity|cbn; intros; lia]|]); destruct E]|]).
    destruct n; discriminate.
  - intros n m nd md e Hn Hm. do 3 (destruct n as [|n]; [injection Hn as <-;
      do 3 (destruct m as [|m]; [injection Hm as <-; cbn; intros; try reflexivity; exfalso; lia|]); destruct m; discriminate|]).
    destruct n; discriminate.
  - intros e ed H. do 5 (destruct e as [|e]; [injection H as <-; reflexivity|]). destruct e; discriminate.
  - intros e ed H. do 5 (destruct e as [|e]; [injection H as <-; eexists; split; [apply of_denotes; unfold sign_ok; lra|lra]|]). destruct e; discriminate.
Qed.
(** In exact rationals: the new weights, and the weight of the best derivation,
    105/230. *)
Definition ex_pushq : hg Q := {|
  nodes := [mk_node 0 [0%nat; 1%nat] [3%nat]; mk_node 1 [2%nat] [3%nat; 4%nat]; mk_node 2 [3%nat; 4%nat] []];
  edges := [mkq [] 0 2 0; mkq [] 0 3 1; mkq [] 1 5 2; mkq [0%nat; 1%nat] 2 7 3; mkq [1%nat] 2 11 4] |}.
Example C17_ex_values : option_map (fun r => map (fun ed => Qred (lab ed)) (edges (snd r))) (PushWeightsToGoal 0 1 Qplus Qmult Qdiv (fun w => w) ex_pushq)
  = Some [2 # 5; 3 # 5; 1; 35 # 46; 11 # 46].
Proof. vm_compute. reflexivity. Qed.
