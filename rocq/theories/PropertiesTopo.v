(** C16: topological sorting. *)
From Coq Require Import List Arith Lia Relations ZArith.
From Verif Require Import HG HGProofs Deriv Topo TopoSpec TopoProofs TopoDeriv PropertiesInside.
Import ListNotations.

(** The sort always ends, without an access out of bounds; it reports a cycle
    exactly when one is reachable from the goal through kept edges; otherwise
    its result is the reachable part, renumbered. *)
Theorem C16_toposort : forall (P : Type) (prune : option (list bool)) (g : hg P) (goal : nat),
  wf_hg g -> mask_ok prune g -> goal < length (nodes g) ->
  (exists g' rn re, TopoSort goal prune g = Sorted g' /\ ~ cycle_below prune g goal /\ renumbered prune g goal g' rn re) \/
  (TopoSort goal prune g = CycleFound /\ cycle_below prune g goal).
Proof. intros P prune g goal W M G. exact (toposort_ok prune g W M goal G). Qed.
Print Assumptions C16_toposort.

(** In the result every tail precedes its head, everything is well formed
    again, and the goal is the last node. *)
Theorem C16_result_sorted : forall (P : Type) (prune : option (list bool)) (g g' : hg P) (goal : nat),
  wf_hg g -> mask_ok prune g -> goal < length (nodes g) -> TopoSort goal prune g = Sorted g' ->
  topo g' /\ wf_hg g' /\ 0 < length (nodes g').
Proof.
  intros P prune g g' goal W M G E. destruct (toposort_ok prune g W M goal G) as [(h & rn & re & E' & _ & R)|(E' & _)]; [|congruence].
  rewrite E in E'. injection E' as <-. split; [exact (new_topo prune g g' W goal G rn re R)|]. split; [exact (new_wf prune g g' W goal G rn re R)|].
  pose proof (node_bound prune g g' W goal G rn re R goal _ (rn_goal _ _ _ _ _ _ R)). lia.
Qed.
Print Assumptions C16_result_sorted.

(** The derivations of the last node of the result are the derivations of the
    goal which use only kept edges, renamed; no two become equal. *)
Theorem C16_derivations : forall (P : Type) (prune : option (list bool)) (g g' : hg P) (goal : nat),
  wf_hg g -> mask_ok prune g -> goal < length (nodes g) -> TopoSort goal prune g = Sorted g' ->
  exists rn re, renumbered prune g goal g' rn re /\
  (forall t', derives g' (length (nodes g') - 1) t' <->
     exists t, derives g goal t /\ Forall (keep prune) (tree_edges t) /\ t' = rename (get re) t) /\
  (forall t u, derives g goal t -> derives g goal u -> Forall (keep prune) (tree_edges t) -> Forall (keep prune) (tree_edges u) ->
     rename (get re) t = rename (get re) u -> t = u).
Proof.
  intros P prune g g' goal W M G E. destruct (toposort_ok prune g W M goal G) as [(h & rn & re & E' & _ & R)|(E' & _)]; [|congruence].
  rewrite E in E'. injection E' as <-. exists rn, re. split; [exact R|]. exact (derivations_same prune g g' W goal G rn re R).
Qed.
Print Assumptions C16_derivations.

(** The hypothesis holds of every hypergraph built through the construction
    API in which each edge is connected once. *)
Theorem C16_built_graphs : forall (P : Type) (cs : list (call P)) (g : hg P), run cs empty_hg = Some g ->
  NoDup (map fst (h_conns cs)) -> (forall e, e < length (edges g) -> exists h, In (e, h) (h_conns cs)) -> wf_hg g.
Proof. exact built_wf. Qed.
Print Assumptions C16_built_graphs.

(** Goal 0 with tails after it, an edge pruned, and a node not reached. *)
Definition ex_calls16 : list (call nat) :=
  [CNode 1%Z; CNode 2%Z; CNode 3%Z; CNode 4%Z;
   CEdge [2; 1] 10; CConnect 0 0; CEdge [] 20; CConnect 1 2; CEdge [2] 30; CConnect 2 1;
   CEdge [0] 40; CConnect 3 2; CEdge [1] 50; CConnect 4 3].
Definition ex_graph16 : hg nat := match run ex_calls16 empty_hg with Some g => g | None => empty_hg end.
Lemma ex16_wf : wf_hg ex_graph16.
Proof.
  apply (built_wf nat ex_calls16); [reflexivity|cbn; repeat constructor; cbn; intuition discriminate|].
  cbn. intros e L. do 5 (destruct e as [|e]; [eexists; cbn; tauto|]). lia.
Qed.
Example C16_ex : wf_hg ex_graph16 /\ mask_ok (Some [false; false; false; true; false]) ex_graph16 /\ 0 < length (nodes ex_graph16) /\
  TopoSort 0 (Some [false; false; false; true; false]) ex_graph16 = Sorted
    {| nodes := [{| nid := 0; cat := 3; in_edges := [1]; out_edges := [0; 2] |};
                 {| nid := 1; cat := 2; in_edges := [2]; out_edges := [0] |};
                 {| nid := 2; cat := 1; in_edges := [0]; out_edges := [] |}];
       edges := [mk_edge [0; 1] 2 10 0; mk_edge [] 0 20 1; mk_edge [0] 1 30 2] |}.
Proof. split; [exact ex16_wf|]. split; [reflexivity|]. split; [cbn; lia|reflexivity]. Qed.
Example C16_ex_cycle : TopoSort 0 None ex_graph16 = CycleFound /\ mask_ok None ex_graph16.
Proof. split; [reflexivity|exact I]. Qed.
