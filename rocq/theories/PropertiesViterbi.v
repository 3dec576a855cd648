(** C14: Viterbi. *)
From Coq Require Import List Arith Lia Reals.
From Verif Require Import HG Deriv Inside InsideProofs Viterbi ViterbiProofs LogVal LogValProofs ProbProofs PropertiesInside.
Import ListNotations.

(** The weight returned is that of a derivation of the goal (the last node),
    no derivation is better, and the result returned is the bottom-up
    evaluation of that derivation, whatever the traversal. *)
Theorem C14_viterbi : forall (P W T : Type) (zero one : W) (times : W -> W -> W) (ltb : W -> W -> bool) (ok : W -> Prop),
  ordered ok ltb times -> forall (weight : edge P -> W) (dflt : T) (traverse : edge P -> list T -> T -> T) (g : hg P),
  topo g -> (forall e ed, nth_error (edges g) e = Some ed -> ok (weight ed)) ->
  (forall n nd, nth_error (nodes g) n = Some nd -> in_edges nd <> []) -> length (nodes g) <> 0 ->
  exists w r t, Viterbi zero one times ltb weight dflt traverse g = Some (w, Some r) /\
    derives g (length (nodes g) - 1) t /\
    w = tree_weight times (edge_weight zero weight g) t /\ r = tree_eval g dflt traverse t /\
    forall t', derives g (length (nodes g) - 1) t' -> ltb w (tree_weight times (edge_weight zero weight g) t') = false.
Proof. exact (fun P W T z o ti lt ok O w d tr g => @viterbi_correct P W T z o ti lt ok O w d tr g). Qed.
Print Assumptions C14_viterbi.

(** With [prob_t] weights: no derivation has a larger product. *)
Theorem C14_viterbi_prob : forall (P T : Type) (weight : edge P -> lv) (w : edge P -> R) (dflt : T) (traverse : edge P -> list T -> T -> T) (g : hg P),
  topo g -> (forall e ed, nth_error (edges g) e = Some ed -> s_ (weight ed) = false /\ denotes (weight ed) (w ed)) ->
  (forall n nd, nth_error (nodes g) n = Some nd -> in_edges nd <> []) -> length (nodes g) <> 0 ->
  exists v r t, Viterbi lv_zero lv_one lv_mul lv_ltb weight dflt traverse g = Some (v, Some r) /\
    derives g (length (nodes g) - 1) t /\ r = tree_eval g dflt traverse t /\
    denotes v (tree_weight Rmult (edge_weight 0%R w g) t) /\
    forall t', derives g (length (nodes g) - 1) t' ->
      (tree_weight Rmult (edge_weight 0 w g) t' <= tree_weight Rmult (edge_weight 0 w g) t)%R.
Proof. exact viterbi_prob. Qed.
Print Assumptions C14_viterbi_prob.

(** The traversals: the edges of the derivation, tails first; their number; the
    sum of their features. *)
Theorem C14_traversals : forall (P : Type) (g : hg P) n t, derives g n t ->
  map Some (tree_eval g [] PathTraversal t) = map (nth_error (edges g)) (tree_edges t) /\
  tree_eval g 0 PathLengthTraversal t = length (tree_edges t) /\
  forall (F : Type) (nul : F) (add : F -> F -> F) (feats : edge P -> F),
    (forall a b, add a b = add b a) -> (forall a b c, add a (add b c) = add (add a b) c) -> (forall a, add nul a = a) ->
    tree_eval g nul (FeatureTraversal add feats) t = sum nul add (map (edge_weight nul feats g) (tree_edges t)).
Proof.
  exact (fun P g n t D => conj (path_eval P g t n D) (conj (pathlen_eval P g t n D)
    (fun F nul add feats C A Z => feature_eval P F g nul add feats C A Z t n D))).
Qed.
Print Assumptions C14_traversals.

(** A node without incoming edges gets weight one although it has no
    derivation, so its derivation-less ancestors can win: here the goal has a
    derivation of weight 5, and Viterbi returns 7, from an edge whose tail has
    no derivation. *)
Definition ex_leaf : hg nat := {|
  nodes := [mk_node 0 [] [1]; mk_node 1 [0; 1] []];
  edges := [mk_edge [] 1 5 0; mk_edge [0] 1 7 1] |}.
Theorem C14_node_without_edges_refuted : exists (g : hg nat) w r,
  topo g /\ (exists t, derives g (length (nodes g) - 1) t) /\
  Viterbi 0 1 Nat.mul Nat.ltb (lab (P := nat)) [] PathTraversal g = Some (w, r) /\
  forall t, derives g (length (nodes g) - 1) t -> w <> tree_weight Nat.mul (edge_weight 0 (lab (P := nat)) g) t.
Proof.
  exists ex_leaf. eexists. eexists. split; [|split; [|split]].
  - intros n nd H. do 2 (destruct n as [|n]; [injection H as <-; cbn; split;
      [repeat constructor; cbn; intuition discriminate|
       intros e E; repeat (destruct E as [<-|E]; [eexists; split; [reflexivity|cbn; intros; lia]|]); destruct E]|]).
    destruct n; discriminate.
  - exists (Tree 0 []). eapply d_edge; [reflexivity|left; reflexivity|reflexivity|constructor].
  - reflexivity.
  - intros t D. inversion D as [? nd e ed ts N E ED F]; subst. injection N as <-. cbn in E.
    destruct E as [<-|[<-|[]]]; injection ED as <-; cbn in F.
    + inversion F; subst. cbn. discriminate.
    + inversion F as [|? ? ? ? D0 F0]; subst. inversion D0 as [? nd0 ? ? ? N0 E0 ? ?]; subst. injection N0 as <-. destruct E0.
Qed.
Print Assumptions C14_node_without_edges_refuted.

Lemma nat_ordered : ordered (fun _ => True) Nat.ltb Nat.mul.
Proof.
  constructor; intros; rewrite ?Nat.ltb_ge, ?Nat.ltb_lt in *; try lia; trivial. apply Nat.mul_le_mono; assumption.
Qed.
Definition ex_vit : hg nat := {|
  nodes := [mk_node 0 [0; 1] [3]; mk_node 1 [2] [3; 4]; mk_node 2 [3; 4] []];
  edges := [mk_edge [] 0 2 0; mk_edge [] 0 3 1; mk_edge [] 1 5 2; mk_edge [0; 1] 2 7 3; mk_edge [1] 2 11 4] |}.
Example C14_ex : Viterbi 0 1 Nat.mul Nat.ltb (lab (P := nat)) [] PathTraversal ex_vit =
  Some (105, Some [mk_edge [] 0 3 1; mk_edge [] 1 5 2; mk_edge [0; 1] 2 7 3]).
Proof. reflexivity. Qed.
Example C14_ex_hyps : ordered (fun _ => True) Nat.ltb Nat.mul /\ topo ex_vit /\ forall n nd, nth_error (nodes ex_vit) n = Some nd -> in_edges nd <> [].
Proof.
  split; [exact nat_ordered|]. split.
  - intros n nd H. do 3 (destruct n as [|n]; [injection H as <-; cbn; split;
      [repeat constructor; cbn; intuition discriminate|
       intros e E; repeat (destruct E as [<-|E]; [eexists; split; [reflexivity|cbn; intros; lia]|]); destruct E]|]).
    destruct n; discriminate.
  - intros n nd H. do 3 (destruct n as [|n]; [injection H as <-; discriminate|]). destruct n; discriminate.
Qed.
