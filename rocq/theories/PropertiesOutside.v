(** C15: outside scores and edge posteriors. *)
From Coq Require Import List Arith Lia.
From Verif Require Import HG Deriv Inside InsideProofs OutsideProofs PropertiesInside.
Import ListNotations.

(** The posterior of an edge is the sum over the derivations of the goal (the
    last node) of their weight times the number of times they use the edge. *)
Theorem C15_edge_posteriors : forall (P W : Type) (zero one : W) (plus times : W -> W -> W),
  semiring zero one plus times -> (forall a b, times a b = times b a) ->
  forall (weight : edge P -> W) (g : hg P), topo g -> distinct_tails g -> ids_ok g -> length (nodes g) <> 0 ->
  exists sc posts, EdgePosteriors zero one plus times weight g = Some (sc, posts) /\
    length posts = length (edges g) /\
    (exists L, all_derivations g (length (nodes g) - 1) L) /\
    forall L, all_derivations g (length (nodes g) - 1) L ->
      nth_error sc (length (nodes g) - 1) = Some (sum zero plus (map (tree_weight times (edge_weight zero weight g)) L)) /\
      forall x, x < length (edges g) ->
        nth_error posts x = Some (sum zero plus (map (fun t =>
          nmul zero plus (uses (fun e => e =? x) t) (tree_weight times (edge_weight zero weight g) t)) L)).
Proof. exact (fun P W z o p t SR C => @posteriors_correct P W z o p t SR C). Qed.
Print Assumptions C15_edge_posteriors.

(** Outside times inside of a node: the weight of each derivation of the goal
    times the number of times it uses one of the node's edges, times the score
    given to the goal. *)
Theorem C15_outside : forall (P W : Type) (zero one : W) (plus times : W -> W -> W),
  semiring zero one plus times -> (forall a b, times a b = times b a) ->
  forall (weight : edge P -> W) (g : hg P), topo g -> distinct_tails g -> one_head g -> length (nodes g) <> 0 -> forall scale,
  exists sc out, Inside zero plus times weight g = Some sc /\ Outside zero one plus times weight g sc scale = Some out /\
    length out = length (nodes g) /\
    forall v nd, nth_error (nodes g) v = Some nd -> forall L, all_derivations g (length (nodes g) - 1) L ->
      exists a o, nth_error sc v = Some a /\ nth_error out v = Some o /\
        times o a = times scale (sum zero plus (map (fun t =>
          nmul zero plus (uses (fun e => existsb (Nat.eqb e) (in_edges nd)) t) (tree_weight times (edge_weight zero weight g) t)) L)).
Proof. exact (fun P W z o p t SR C => @node_correct P W z o p t SR C). Qed.
Print Assumptions C15_outside.

(** When addition selects one of its arguments (the maximum: ComputeBestPathThroughEdges,
    hg.cc 174-185), the posterior of an edge is the weight of a best derivation
    of the goal among those using it, or zero. *)
Theorem C15_best_path_through_edge : forall (P W : Type) (zero one : W) (plus times : W -> W -> W),
  semiring zero one plus times -> (forall a b, times a b = times b a) -> (forall a b, plus a b = a \/ plus a b = b) ->
  forall (weight : edge P -> W) (g : hg P), topo g -> distinct_tails g -> ids_ok g -> length (nodes g) <> 0 ->
  exists sc posts, EdgePosteriors zero one plus times weight g = Some (sc, posts) /\ length posts = length (edges g) /\
    forall x, x < length (edges g) -> exists m, nth_error posts x = Some m /\
      (forall t, derives g (length (nodes g) - 1) t -> In x (tree_edges t) -> plus (tree_weight times (edge_weight zero weight g) t) m = m) /\
      (m = zero \/ exists t, derives g (length (nodes g) - 1) t /\ In x (tree_edges t) /\ tree_weight times (edge_weight zero weight g) t = m).
Proof. exact (fun P W z o p t SR C S => @best_through P W z o p t SR C S). Qed.
Print Assumptions C15_best_path_through_edge.
Example C15_ex_max_hyps : semiring 0 1 Nat.max Nat.mul /\ forall a b, Nat.max a b = a \/ Nat.max a b = b.
Proof. split; [constructor; intros; try lia; symmetry; [apply Nat.mul_max_distr_l|apply Nat.mul_max_distr_r]|intros; lia]. Qed.

Lemma ex_forest_ok : distinct_tails ex_forest /\ ids_ok ex_forest /\ one_head ex_forest.
Proof.
  split; [|split].
  - intros e ed H. do 5 (destruct e as [|e]; [injection H as <-; cbn; repeat constructor; cbn; intuition discriminate|]). destruct e; discriminate.
  - intros e ed H. do 5 (destruct e as [|e]; [injection H as <-; reflexivity|]). destruct e; discriminate.
  - intros n m nd md e Hn Hm. do 4 (destruct n as [|n]; [injection Hn as <-;
      do 4 (destruct m as [|m]; [injection Hm as <-; cbn; intros; try reflexivity; exfalso; lia|]); destruct m; discriminate|]).
    destruct n; discriminate.
Qed.
Example C15_ex : EdgePosteriors 0 1 Nat.add Nat.mul (lab (P := nat)) ex_forest = Some ([5; 5; 0; 230], [70; 105; 230; 175; 55]).
Proof. reflexivity. Qed.
Example C15_ex_max : EdgePosteriors 0 1 Nat.max Nat.mul (lab (P := nat)) ex_forest = Some ([3; 5; 0; 105], [70; 105; 105; 105; 55]).
Proof. reflexivity. Qed.
Example C15_ex_out : Outside 0 1 Nat.add Nat.mul (lab (P := nat)) ex_forest [5; 5; 0; 230] 1 = Some [35; 46; 0; 1].
Proof. reflexivity. Qed.

(** An edge with a node twice among its tails: both positions are skipped, so
    the outside score misses a factor.  Node 1 has one edge, from (0, 0); node
    0 has edges of weight 2 and 3.  Of the four derivations (4 + 6 + 6 + 9 =
    25) those using edge 0 have weights 4 (used twice), 6 and 6: 20, but the
    computed posterior is 4. *)
Definition ex_twice : hg nat := {|
  nodes := [mk_node 0 [0; 1] [2; 2]; mk_node 1 [2] []];
  edges := [mk_edge [] 0 2 0; mk_edge [] 0 3 1; mk_edge [0; 0] 1 1 2] |}.
Theorem C15_duplicate_tail_refuted : exists (g : hg nat) sc posts L x,
  topo g /\ ids_ok g /\ one_head g /\ all_derivations g (length (nodes g) - 1) L /\
  EdgePosteriors 0 1 Nat.add Nat.mul (lab (P := nat)) g = Some (sc, posts) /\
  nth_error posts x <> Some (sum 0 Nat.add (map (fun t =>
    nmul 0 Nat.add (uses (fun e => e =? x) t) (tree_weight Nat.mul (edge_weight 0 (lab (P := nat)) g) t)) L)).
Proof.
  assert (T : topo ex_twice).
  { intros n nd H. do 2 (destruct n as [|n]; [injection H as <-; cbn; split;
      [repeat constructor; cbn; intuition discriminate|
       intros e E; repeat (destruct E as [<-|E]; [eexists; split; [reflexivity|cbn; intros; lia]|]); destruct E]|]).
    destruct n; discriminate. }
  exists ex_twice. eexists. eexists. exists (dvs ex_twice 1), 0. split; [exact T|]. split; [|split].
  - intros e ed H. do 3 (destruct e as [|e]; [injection H as <-; reflexivity|]). destruct e; discriminate.
  - intros n m nd md e Hn Hm. do 2 (destruct n as [|n]; [injection Hn as <-;
      do 2 (destruct m as [|m]; [injection Hm as <-; cbn; intros; try reflexivity; exfalso; lia|]); destruct m; discriminate|]).
    destruct n; discriminate.
  - split; [exact (dvs_all ex_twice T 1)|]. split; [reflexivity|]. vm_compute. discriminate.
Qed.
Print Assumptions C15_duplicate_tail_refuted.
