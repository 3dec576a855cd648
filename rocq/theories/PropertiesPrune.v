(** C53, C54: pruning a forest. *)
From Coq Require Import List Arith Bool Lia ZArith QArith Qcanon.
From Verif Require Import HG Deriv Inside TopoSpec Prune PruneSpec PruneProofs PruneMarginProofs PruneIOProofs PruneLargeProofs.
Import ListNotations.
Local Open Scope nat_scope.

(** The result has exactly the derivations which use no marked edge, with what
    is on the edges, and consists of unmarked edges only.  With the
    reachability check every edge and node left is part of one of them, and
    nothing is left if there are none. *)
Theorem C53_prune : forall (P : Type) (g : hg P), wf_hg g -> topo g -> nodes g <> [] -> forall mask run, length mask = length (edges g) ->
  exists g', PruneEdges mask run g = Pruned g' /\ wf_hg g' /\ topo g' /\ carries (avoids mask) g g' /\
    made_of (fun e => nth_error mask e = Some false) g g' /\
    (run = true -> (exists t, derives g (goal g) t /\ avoids mask t) -> no_dead_parts g') /\
    (run = true -> (forall t, derives g (goal g) t -> ~ avoids mask t) -> edges g' = []).
Proof. exact (@prune_all). Qed.
Print Assumptions C53_prune.

Ltac cases H :=
  match type of H with nth_error _ ?n = Some _ =>
    destruct n as [|n]; cbn in H; [first [discriminate H | injection H as <-] | first [discriminate H | cases H]]
  end.
Ltac tree_cases H := cbn in H; repeat (destruct H as [<-|H]); try destruct H.

(** Two words, each with two readings; the second reading of the goal uses
    neither. *)
Definition ex_forest : hg nat := {|
  nodes := [ex_node 0 [0; 1] [2]; ex_node 1 [2; 3] []];
  edges := [ex_edge [] 0 1 0; ex_edge [] 0 3 1; ex_edge [0] 1 0 2; ex_edge [] 1 5 3] |}.
Definition ex_down (w : nat) : option Qc := if w =? 9 then None else Some (Q2Qc (- inject_Z (Z.of_nat w))).
Lemma ex_forest_wf : wf_hg ex_forest.
Proof.
  constructor.
  - intros n nd H. cases H; reflexivity.
  - intros e ed H. cases H; reflexivity.
  - intros n nd e H I. cases H; tree_cases I; eexists; (split; [reflexivity|reflexivity]).
  - intros n nd H. cases H; repeat constructor; cbn; lia.
  - intros n nd e H I. cases H; tree_cases I; cbn; lia.
  - intros e ed t H I. cases H; tree_cases I; cbn; lia.
  - intros e ed H. cases H; eexists; (split; [reflexivity|cbn; lia]).
Qed.
Lemma ex_forest_topo : topo ex_forest.
Proof.
  intros n nd H. cases H; (split; [repeat constructor; cbn; lia|]); intros e I; tree_cases I; eexists; (split; [reflexivity|]); intros t T; tree_cases T; lia.
Qed.
Lemma ex_forest_distinct : distinct_tails ex_forest.
Proof. intros e ed H. cases H; repeat constructor; cbn; lia. Qed.

Example C53_prune_ex : wf_hg ex_forest /\ topo ex_forest /\ nodes ex_forest <> [] /\
  PruneEdges [false; true; false; true] true ex_forest = Pruned {|
    nodes := [ex_node 0 [0] [1]; ex_node 1 [1] []]; edges := [ex_edge [] 0 1 0; ex_edge [0] 1 0 1] |} /\
  PruneEdges [true; true; false; true] true ex_forest = Pruned {| nodes := [ex_node 0 [] []]; edges := [] |}.
Proof. split; [exact ex_forest_wf|]. split; [exact ex_forest_topo|]. split; [discriminate|]. split; vm_compute; reflexivity. Qed.

(** Finding: without the reachability check edges can be left which no
    derivation uses, because what they build on was removed. *)
Theorem C53_stranded_refuted : exists (g : hg nat) mask g', wf_hg g /\ topo g /\ nodes g <> [] /\ length mask = length (edges g) /\
  PruneEdges mask false g = Pruned g' /\ (exists t, derives g' (goal g') t) /\ ~ no_dead_parts g'.
Proof.
  exists ex_forest, [true; true; false; false], {| nodes := [ex_node 0 [] [0]; ex_node 1 [0; 1] []]; edges := [ex_edge [0] 1 0 0; ex_edge [] 1 5 1] |}.
  split; [exact ex_forest_wf|]. split; [exact ex_forest_topo|]. split; [discriminate|]. split; [reflexivity|]. split; [vm_compute; reflexivity|]. split.
  - exists (Tree 1 []). econstructor; [reflexivity|right; left; reflexivity|reflexivity|constructor].
  - intros (_ & N). destruct (N 0) as (t & D); [cbn; lia|]. inversion D as [? nd ? ed ? ND I ED F]; subst. injection ND as <-. destruct I.
Qed.
Print Assumptions C53_stranded_refuted.

(** ** Beam and density *)

(** With a beam the result has exactly the derivations whose every edge is
    preserved or lies on a derivation within the beam, which narrows slightly
    from edge to edge. *)
Theorem C54_beam : forall (P : Type) (prob : P -> option Qc) (g : hg P), wf_hg g -> topo g -> nodes g <> [] -> distinct_tails g ->
  forall b, best prob g b -> forall alpha preserve safe, (0 < alpha)%Qc -> (forall p, preserve = Some p -> length p = length (edges g)) ->
  exists g', PruneInsideOutside prob alpha 0 preserve safe g = Pruned (g', false) /\ wf_hg g' /\ topo g' /\
    carries (fun t => Forall (kept prob g preserve b (- alpha)%Qc) (tree_edges t)) g g' /\ made_of (kept prob g preserve b (- alpha)%Qc) g g'.
Proof. exact (@beam_all). Qed.
Print Assumptions C54_beam.

(** Every derivation within the beam survives, up to a millionth of the beam
    per edge, and with at most a million edges the best ones always do. *)
Theorem C54_within : forall (P : Type) (prob : P -> option Qc) (g : hg P), wf_hg g -> topo g -> nodes g <> [] -> distinct_tails g ->
  forall b, best prob g b -> forall alpha preserve safe g' won, (0 < alpha)%Qc -> (forall p, preserve = Some p -> length p = length (edges g)) ->
  PruneInsideOutside prob alpha 0 preserve safe g = Pruned (g', won) ->
  exists f, (forall t, derives g (goal g) t -> at_least prob g (b - alpha * (1 - millionths (length (edges g))))%Qc t ->
      derives g' (goal g') (rename f t) /\ logprob prob g' (rename f t) = logprob prob g t) /\
    ((millionths (length (edges g)) <= 1)%Qc -> best prob g' b).
Proof. exact (@beam_within). Qed.
Print Assumptions C54_within.

(** Every edge left is preserved or lies on a derivation within the beam, also
    if density pruning is on as well. *)
Theorem C54_not_worse : forall (P : Type) (prob : P -> option Qc) (g : hg P), wf_hg g -> topo g -> nodes g <> [] -> distinct_tails g ->
  forall b, best prob g b -> forall alpha density preserve safe g' won, (0 < alpha)%Qc -> (density == 0 \/ 1 <= density)%Q ->
  (forall p, preserve = Some p -> length p = length (edges g)) ->
  PruneInsideOutside prob alpha density preserve safe g = Pruned (g', won) ->
  made_of (fun e => preserved preserve e \/ used_at prob g (b - alpha)%Qc e) g g'.
Proof. exact (@not_worse). Qed.
Print Assumptions C54_not_worse.

(** The narrowing beam does what its comment says: if edges come after those
    they build on, nothing is stranded even without the reachability check. *)
Theorem C54_connected : forall (P : Type) (prob : P -> option Qc) (g : hg P), wf_hg g -> topo g -> nodes g <> [] -> distinct_tails g ->
  forall b, best prob g b -> forall alpha g', (0 < alpha)%Qc -> edges_in_order g ->
  (millionths (length (edges g)) <= 1)%Qc -> PruneInsideOutside prob alpha 0 None false g = Pruned (g', false) -> no_dead_parts g'.
Proof. exact (@beam_connected). Qed.
Print Assumptions C54_connected.

(** Density pruning.  With [d] the density times the number of edges of a best
    derivation, rounded down: nothing happens if there are no more than [d]
    edges.  Otherwise the beam is where the [d]th best edge, counting from
    zero, is; a best derivation survives; at most [d] edges do, if no more than
    [d] lie on best derivations and more than [d] on any at all. *)
Theorem C54_density : forall (P : Type) (prob : P -> option Qc) (g : hg P), wf_hg g -> topo g -> nodes g <> [] -> distinct_tails g ->
  (forall n nd, nth_error (nodes g) n = Some nd -> in_edges nd <> []) -> forall b, best prob g b -> forall density preserve safe, (1 <= density)%Q ->
  (forall p, preserve = Some p -> length p = length (edges g)) ->
  exists t d, derives g (goal g) t /\ logprob prob g t = Some b /\
    (inject_Z (Z.of_nat d) <= density * inject_Z (Z.of_nat (length (tree_edges t))))%Q /\ (density * inject_Z (Z.of_nat (length (tree_edges t))) < inject_Z (Z.of_nat (S d)))%Q /\
    (length (edges g) <= d -> PruneInsideOutside prob 0 density preserve safe g = Pruned (g, false)) /\
    (d < length (edges g) -> exists g', PruneInsideOutside prob 0 density preserve safe g = Pruned (g', true) /\ wf_hg g' /\ topo g' /\
       (exists c, distance_rank prob g b d c /\
          match c with
          | Some c => (c <= 0)%Qc /\ carries (fun t => Forall (kept prob g preserve b c) (tree_edges t)) g g' /\ made_of (kept prob g preserve b c) g g'
          | None => carries (fun _ => True) g g'
          end) /\
       ((millionths (length (edges g)) <= 1)%Qc -> best prob g' b) /\
       (preserve = None -> (forall l, NoDup l -> (forall e, In e l -> used_at prob g b e) -> length l <= d) ->
          (exists l, NoDup l /\ length l = S d /\ forall e, In e l -> exists x, used_at prob g x e) -> length (edges g') <= d)).
Proof. exact (@density_all). Qed.
Print Assumptions C54_density.

(** With both, the result is that of the one which the value returned names. *)
Theorem C54_both : forall (P : Type) (prob : P -> option Qc) (g : hg P) alpha density preserve safe g' won, (0 < alpha)%Qc -> (1 <= density)%Q ->
  PruneInsideOutside prob alpha density preserve safe g = Pruned (g', won) ->
  if won then PruneInsideOutside prob 0 density preserve safe g = Pruned (g', true)
  else PruneInsideOutside prob alpha 0 preserve safe g = Pruned (g', false).
Proof. exact (@both_ok). Qed.
Print Assumptions C54_both.

Definition q (z : Z) : Qc := Q2Qc (inject_Z z).
Lemma ex_forest_best : best ex_down ex_forest (q (-1)).
Proof.
  split.
  - exists (Tree 2 [Tree 0 []]). split; [|vm_compute; f_equal; apply Qc_is_canon; reflexivity].
    econstructor; [reflexivity|left; reflexivity|reflexivity|constructor; [|constructor]]. econstructor; [reflexivity|left; reflexivity|reflexivity|constructor].
  - intros t x D W. inversion D as [? nd ? ed ? ND I ED F]; subst. injection ND as <-. cbn in I.
    destruct I as [<-|[<-|[]]]; injection ED as <-; cbn in F.
    + inversion F as [|? s ? ? DS F']; subst. inversion F'; subst. inversion DS as [? nd ? ed ? ND I ED F2]; subst. injection ND as <-. cbn in I.
      destruct I as [<-|[<-|[]]]; injection ED as <-; inversion F2; subst; apply (f_equal (fun o => match o with Some y => this y | None => 0%Q end)) in W; unfold Qcle; cbn [this] in W |- *; rewrite <- W; vm_compute; discriminate.
    + inversion F; subst. apply (f_equal (fun o => match o with Some y => this y | None => 0%Q end)) in W; unfold Qcle; cbn [this] in W |- *; rewrite <- W; vm_compute; discriminate.
Qed.

Definition ex_pruned : hg nat := {| nodes := [ex_node 0 [0; 1] [2]; ex_node 1 [2] []]; edges := [ex_edge [] 0 1 0; ex_edge [] 0 3 1; ex_edge [0] 1 0 2] |}.
Definition ex_dense : hg nat := {| nodes := [ex_node 0 [0] [1]; ex_node 1 [1] []]; edges := [ex_edge [] 0 1 0; ex_edge [0] 1 0 1] |}.
Example C54_beam_ex : wf_hg ex_forest /\ topo ex_forest /\ distinct_tails ex_forest /\ best ex_down ex_forest (q (-1)) /\ edges_in_order ex_forest /\
  (millionths (length (edges ex_forest)) <= 1)%Qc /\
  PruneInsideOutside ex_down (q 3) 0 None false ex_forest = Pruned (ex_pruned, false) /\
  PruneInsideOutside ex_down (q 3) 0 (Some [false; false; false; true]) false ex_forest = Pruned (ex_forest, false).
Proof.
  split; [exact ex_forest_wf|]. split; [exact ex_forest_topo|]. split; [exact ex_forest_distinct|]. split; [exact ex_forest_best|]. split.
  - intros e ed t nd d E T N D. cases E; tree_cases T; injection N as <-; tree_cases D; lia.
  - split; [vm_compute; discriminate|]. split; vm_compute; reflexivity.
Qed.
Example C54_density_ex : (forall n nd, nth_error (nodes ex_forest) n = Some nd -> in_edges nd <> []) /\
  PruneInsideOutside ex_down 0 1 None false ex_forest = Pruned (ex_dense, true) /\
  PruneInsideOutside ex_down (q 3) 1 None false ex_forest = Pruned (ex_dense, true) /\
  PruneInsideOutside ex_down (q 1) 2 None false ex_forest = Pruned (ex_dense, false) /\
  PruneInsideOutside ex_down 0 2 None false ex_forest = Pruned (ex_forest, false).
Proof. split; [intros n nd H; cases H; discriminate|]. repeat split; vm_compute; reflexivity. Qed.

(** Finding: the beam narrows by a millionth of its width per edge, so in a
    forest with more than a million edges it ends up above the best score and
    the best derivation is removed. *)
Theorem C54_large_refuted : exists (g : hg nat) b alpha g', wf_hg g /\ topo g /\ distinct_tails g /\ best ex_up g b /\ (0 < alpha)%Qc /\
  PruneInsideOutside ex_up alpha 0 None false g = Pruned (g', false) /\ ~ best ex_up g' b.
Proof.
  assert (M : (1 < millionths (N.to_nat 1000001))%Qc). { unfold millionths, Qclt. rewrite q2qc, N_nat_Z. reflexivity. }
  destruct (big_lost _ M) as (g' & E & N). exists (ex_big (N.to_nat 1000001)), 1%Qc, (Q2Qc 2), g'.
  split; [apply big_wf|]. split; [apply big_topo|]. split; [apply big_distinct|]. split; [apply big_best; lia|]. split; [reflexivity|]. split; [exact E|exact N].
Qed.
Print Assumptions C54_large_refuted.

(** Finding: if an edge comes before one it builds on, the narrowing beam can
    remove the latter and leave the former stranded. *)
Definition ex_close (w : nat) : option Qc := if w =? 0 then Some 0%Qc else Some (Q2Qc (-1999997 # 1000000)).
Definition ex_unordered : hg nat := {|
  nodes := [ex_node 0 [1] [0]; ex_node 1 [0; 2] []];
  edges := [ex_edge [0] 1 1 0; ex_edge [] 0 0 1; ex_edge [] 1 0 2] |}.
Theorem C54_unordered_refuted : exists (g : hg nat) alpha g', wf_hg g /\ topo g /\ distinct_tails g /\ (0 < alpha)%Qc /\
  (exists b, best ex_close g b) /\ length (edges g) <= 3 /\
  PruneInsideOutside ex_close alpha 0 None false g = Pruned (g', false) /\ ~ no_dead_parts g'.
Proof.
  exists ex_unordered, (q 2), {| nodes := [ex_node 0 [] [0]; ex_node 1 [0; 1] []]; edges := [ex_edge [0] 1 1 0; ex_edge [] 1 0 1] |}.
  split; [|split; [|split; [|split; [|split; [|split; [|split]]]]]].
  - constructor.
    + intros n nd H. cases H; reflexivity.
    + intros e ed H. cases H; reflexivity.
    + intros n nd e H I. cases H; tree_cases I; eexists; (split; [reflexivity|reflexivity]).
    + intros n nd H. cases H; repeat constructor; cbn; lia.
    + intros n nd e H I. cases H; tree_cases I; cbn; lia.
    + intros e ed t H I. cases H; tree_cases I; cbn; lia.
    + intros e ed H. cases H; eexists; (split; [reflexivity|cbn; lia]).
  - intros n nd H. cases H; (split; [repeat constructor; cbn; lia|]); intros e I; tree_cases I; eexists; (split; [reflexivity|]); intros t T; tree_cases T; lia.
  - intros e ed H. cases H; repeat constructor; cbn; lia.
  - reflexivity.
  - exists 0%Qc. split.
    + exists (Tree 2 []). split; [econstructor; [reflexivity|right; left; reflexivity|reflexivity|constructor]|reflexivity].
    + intros t x D W. inversion D as [? nd ? ed ? ND I ED F]; subst. injection ND as <-. cbn in I.
      destruct I as [<-|[<-|[]]]; injection ED as <-; cbn in F.
      * inversion F as [|? s ? ? DS F']; subst. inversion F'; subst. inversion DS as [? nd ? ed ? ND I ED F2]; subst. injection ND as <-. cbn in I.
        destruct I as [<-|[]]; injection ED as <-; inversion F2; subst; apply (f_equal (fun o => match o with Some y => this y | None => 0%Q end)) in W; unfold Qcle; cbn [this] in W |- *; rewrite <- W; vm_compute; discriminate.
      * inversion F; subst. apply (f_equal (fun o => match o with Some y => this y | None => 0%Q end)) in W; unfold Qcle; cbn [this] in W |- *; rewrite <- W; vm_compute; discriminate.
  - cbn. lia.
  - vm_compute. reflexivity.
  - intros (_ & N). destruct (N 0) as (t & D); [cbn; lia|]. inversion D as [? nd ? ed ? ND I ED F]; subst. injection ND as <-. destruct I.
Qed.
Print Assumptions C54_unordered_refuted.

(** Finding: density pruning keeps all edges which tie for the best score, so
    more than density times the edges of the best derivation can be left. *)
Definition ex_ties : hg nat := {|
  nodes := [ex_node 0 [0; 1; 2] []]; edges := [ex_edge [] 0 0 0; ex_edge [] 0 0 1; ex_edge [] 0 1 2] |}.
Theorem C54_ties_refuted : exists (g g' : hg nat), (forall t, derives g (goal g) t -> length (tree_edges t) = 1) /\
  PruneInsideOutside ex_down 0 1 None true g = Pruned (g', true) /\ length (edges g') = 2.
Proof.
  exists ex_ties. exists {| nodes := [ex_node 0 [0; 1] []]; edges := [ex_edge [] 0 0 0; ex_edge [] 0 0 1] |}. split; [|split; vm_compute; reflexivity].
  intros t D. inversion D as [? nd ? ed ? ND I ED F]; subst. injection ND as <-. cbn in I.
  destruct I as [<-|[<-|[<-|[]]]]; injection ED as <-; inversion F; subst; reflexivity.
Qed.
Print Assumptions C54_ties_refuted.

(** Finding: if no more edges than wanted have positive probability, density
    pruning computes with minus infinity, gets not-a-number for the cutoff and
    removes nothing, not even the edges of probability zero, though it says
    that density pruning was done. *)
Definition ex_zeros : hg nat := {|
  nodes := [ex_node 0 [0; 1; 2] []]; edges := [ex_edge [] 0 0 0; ex_edge [] 0 9 1; ex_edge [] 0 9 2] |}.
Theorem C54_zero_refuted : exists g : hg nat, (forall t, derives g (goal g) t -> length (tree_edges t) = 1) /\ length (edges g) = 3 /\
  (forall x, ~ used_at ex_down g x 1) /\
  PruneInsideOutside ex_down 0 1 None true g = Pruned (g, true).
Proof.
  exists ex_zeros. split; [|split; [reflexivity|split; [|vm_compute; reflexivity]]].
  - intros t D. inversion D as [? nd ? ed ? ND I ED F]; subst. injection ND as <-. cbn in I.
    destruct I as [<-|[<-|[<-|[]]]]; injection ED as <-; inversion F; subst; reflexivity.
  - intros x (t & D & I & (y & W & _)). inversion D as [? nd ? ed ? ND J ED F]; subst. injection ND as <-. cbn in J.
    destruct J as [<-|[<-|[<-|[]]]]; injection ED as <-; inversion F; subst; cbn in I; destruct I as [I|[]]; discriminate.
Qed.
Print Assumptions C54_zero_refuted.
