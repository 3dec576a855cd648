(** C13: the inside algorithm. *)
From Coq Require Import List Arith Bool Lia.
From Verif Require Import HG Deriv Inside InsideProofs.
Import ListNotations.

(** The score of each node is the sum over its derivations of the product of
    the weights of their edges.  The semiring need not be commutative. *)
Theorem C13_inside : forall (P W : Type) (zero one : W) (plus times : W -> W -> W), semiring zero one plus times ->
  forall (weight : edge P -> W) (g : hg P), topo g ->
  exists sc, Inside zero plus times weight g = Some sc /\ length sc = length (nodes g) /\
  forall n, n < length (nodes g) ->
    (exists L, all_derivations g n L) /\
    forall L, all_derivations g n L -> nth_error sc n = Some (sum zero plus (map (tree_weight times (edge_weight zero weight g)) L)).
Proof. exact (fun P W z o p t SR => @inside_correct W z o p t SR P). Qed.
Print Assumptions C13_inside.

(** Every edge counted as one, over the natural numbers: the number of
    derivations. *)
Theorem C13_number_of_derivations : forall (P : Type) (g : hg P), topo g ->
  exists sc, Inside 0 Nat.add Nat.mul (fun _ => 1) g = Some sc /\ length sc = length (nodes g) /\
  forall n, n < length (nodes g) ->
    (exists L, all_derivations g n L) /\ forall L, all_derivations g n L -> nth_error sc n = Some (length L).
Proof. exact @inside_count. Qed.
Print Assumptions C13_number_of_derivations.

(** Over the booleans: whether there is a derivation. *)
Theorem C13_derivable : forall (P : Type) (g : hg P), topo g ->
  exists sc, Inside false orb andb (fun _ => true) g = Some sc /\ length sc = length (nodes g) /\
  forall n, n < length (nodes g) -> exists b, nth_error sc n = Some b /\ (b = true <-> exists t, derives g n t).
Proof. exact @inside_derivable. Qed.
Print Assumptions C13_derivable.

(** Nodes without incoming edges have score zero, in any structure. *)
Theorem C13_no_edges_zero : forall (P W : Type) (zero : W) (plus times : W -> W -> W) (weight : edge P -> W) (g : hg P) sc n nd,
  topo g -> Inside zero plus times weight g = Some sc -> nth_error (nodes g) n = Some nd -> in_edges nd = [] ->
  nth_error sc n = Some zero.
Proof. exact @inside_leaf. Qed.
Print Assumptions C13_no_edges_zero.

(** A small forest: node 2 has edges from (0,1) and from (1); node 0 has two
    edges, node 1 one, node 3 none. *)
Definition mk_edge (ts : list nat) (h w i : nat) : edge nat := {| head := Some h; tails := ts; lab := w; eid := i |}.
Definition mk_node (i : nat) (es os : list nat) : node := {| nid := i; cat := BinInt.Z0; in_edges := es; out_edges := os |}.
Definition ex_forest : hg nat := {|
  nodes := [mk_node 0 [0; 1] [3]; mk_node 1 [2] [3; 4]; mk_node 2 [] []; mk_node 3 [3; 4] []];
  edges := [mk_edge [] 0 2 0; mk_edge [] 0 3 1; mk_edge [] 1 5 2; mk_edge [0; 1] 3 7 3; mk_edge [1] 3 11 4] |}.
Lemma ex_forest_topo : topo ex_forest.
Proof.
  intros n nd H. do 4 (destruct n as [|n]; [injection H as <-; cbn; split;
    [repeat constructor; cbn; intuition discriminate|
     intros e E; repeat (destruct E as [<-|E]; [eexists; split; [reflexivity|cbn; intros; lia]|]); destruct E]|]).
  destruct n; discriminate.
Qed.
Example C13_ex : topo ex_forest /\ Inside 0 Nat.add Nat.mul (lab (P := nat)) ex_forest = Some [5; 5; 0; 230].
Proof. split; [exact ex_forest_topo|reflexivity]. Qed.
Example C13_ex_count : Inside 0 Nat.add Nat.mul (fun _ => 1) ex_forest = Some [2; 1; 0; 3].
Proof. reflexivity. Qed.
