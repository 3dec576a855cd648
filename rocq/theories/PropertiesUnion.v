(** C74: the union of two forests. *)
From Coq Require Import List Arith ZArith Bool.
From Verif Require Import Opt HG Deriv TopoSpec Union UnionSpec UnionSortProofs UnionRefProofs.
Import ListNotations.
Local Open Scope nat_scope.

(** The nodes of two forests with the same goal are identified by their hashes. Either the steps of the two, taken together, let a node below the goal depend on itself, and the process
    is aborted, or the result is a well-formed forest with the same goal the derivations of which are made of steps of either forest, which has every derivation of the forest
    added to, and has for every derivation that mixes steps of both one that is the same but for edges replaced by edges matching them. If no two edges of the forest added to
    match, no two of the result do. *)
Theorem C74_union : forall (X F W : Type) (close : F -> F -> bool) (no_prob : W) (input out : hg (ulab X F W) * list Z) h,
  good input -> good out -> goal_hash input h -> goal_hash out h ->
  (Union close no_prob input out = Some Aborted /\ cyclic (either no_prob input out) h) \/
  (exists r, Union close no_prob input out = Some (Joined r) /\ ~ cyclic (either no_prob input out) h /\ good r /\ goal_hash r h /\
    (forall lt, builds (step_of r) h lt -> builds (either no_prob input out) h lt) /\
    (forall lt, builds (step_of out) h lt -> builds (step_of r) h lt) /\
    (forall lt, builds (either no_prob input out) h lt -> exists lt', builds (step_of r) h lt' /\ alike (fun l l' => l = l' \/ match_ close l l') lt lt') /\
    (irredundant close out -> irredundant close r)).
Proof. exact @union_ok. Qed.
Print Assumptions C74_union.

Example C74_ex : (good right_ /\ good left_ /\ goal_hash right_ 75%Z /\ goal_hash left_ 75%Z /\ irredundant near left_) /\
  Union near 0 right_ left_ = Some (Joined
    ({| nodes := [nd_ 0 1 [0; 1] [2; 4]; nd_ 1 3 [3] [4]; nd_ 2 2 [2; 4] []];
        edges := [ed_ 0 0 [] (lb 1 5); ed_ 1 0 [] (lb 2 6); ed_ 2 2 [0] (lb 3 7); ed_ 3 1 [] (lb 4 0); ed_ 4 2 [1; 0] (lb 5 0)] |}, [71; 72; 75]%Z)).
Proof. split; [|vm_compute; reflexivity]. exact (conj right_good (conj left_good (conj eq_refl (conj eq_refl left_irr)))). Qed.

(** Joining a forest with a copy of itself changes none of its derivations. *)
Theorem C74_same : forall (X F W : Type) (close : F -> F -> bool) (no_prob : W) (f : hg (ulab X F W) * list Z) h, (forall x, close x x = true) -> good f -> goal_hash f h ->
  exists r, Union close no_prob f f = Some (Joined r) /\ good r /\ goal_hash r h /\ (forall lt, builds (step_of r) h lt <-> builds (step_of f) h lt).
Proof. exact @union_same. Qed.
Print Assumptions C74_same.

Example C74_same_ex : (forall x, near x x = true) /\ Union near 0 left_ left_ = Some (Joined left_).
Proof. split; [intros x; unfold near; rewrite Z.sub_diag; reflexivity|vm_compute; reflexivity]. Qed.

(** An empty forest becomes the input; forests the hashes of which do not identify the nodes, or with different goals, are refused. *)
Theorem C74_refused : forall (X F W : Type) (close : F -> F -> bool) (no_prob : W) (input out : hg (ulab X F W) * list Z),
  (nodes (fst out) = [] -> Union close no_prob input out = Some (Joined input)) /\
  (nodes (fst out) <> [] -> ~ NoDup (snd input) \/ ~ NoDup (snd out) -> Union close no_prob input out = Some Aborted) /\
  (nodes (fst out) <> [] -> forall h h', goal_hash input h -> goal_hash out h' -> h <> h' -> Union close no_prob input out = Some Aborted).
Proof. exact @union_refused. Qed.
Print Assumptions C74_refused.

Example C74_refused_ex : Union near 0 left_ (fst left_, [71; 76]%Z) = Some Aborted /\ Union near 0 left_ (fst left_, [75; 75]%Z) = Some Aborted.
Proof. split; reflexivity. Qed.

(** Finding: HG::Union aborts the process on two well-formed acyclic forests with the same goal when their nodes are derived from one another in opposite orders: the union has a cycle,
    which TopologicallySortNodesAndEdges takes for an error. With --forest_output, decoding again what was decoded before can so end the program. *)
Theorem C74_cycle_refuted : exists (input out : hg (ulab unit Z nat) * list Z) h,
  good input /\ good out /\ goal_hash input h /\ goal_hash out h /\ Union near 0 input out = Some Aborted.
Proof. exact cycle_refuted. Qed.
Print Assumptions C74_cycle_refuted.
