(** C18: exact model intersection. *)
From Coq Require Import List Arith ZArith Lia.
From Verif Require Import HG Deriv TopoSpec Rescore RescoreSpec RescoreProofs PropertiesInside.
Import ListNotations.

(** Full intersection succeeds and its result is the intersection: ordered,
    well formed, nodes merged exactly when they stem from the same node and have
    the same state, derivations in bijection, each edge of each derivation with
    the payload which its own antecedent states give. *)
Theorem C18_intersection : forall (P Q St : Type) (eqS : St -> St -> bool) (empty : St) (feat : edge P -> list St -> Q * St)
    (final : edge P -> St -> Q) (lhs : edge P -> Z) (g : hg P),
  (forall a b, eqS a b = true <-> a = b) -> rescorable g ->
  exists og oe on st, Rescore eqS empty feat final lhs g = Some og /\ topo og /\ wf_hg og /\ intersection empty feat final g og oe on st.
Proof. exact rescorable_ok. Qed.
Print Assumptions C18_intersection.

(** In particular for the goal, the last node of either. *)
Theorem C18_goal_derivations : forall (P Q St : Type) (eqS : St -> St -> bool) (empty : St) (feat : edge P -> list St -> Q * St)
    (final : edge P -> St -> Q) (lhs : edge P -> Z) (g : hg P),
  (forall a b, eqS a b = true <-> a = b) -> rescorable g -> (exists t, derives g (length (nodes g) - 1) t) ->
  exists og oe, Rescore eqS empty feat final lhs g = Some og /\
  (forall t, derives g (length (nodes g) - 1) t <-> exists t', derives og (length (nodes og) - 1) t' /\ rename oe t' = t) /\
  (forall t' u', derives og (length (nodes og) - 1) t' -> derives og (length (nodes og) - 1) u' -> rename oe t' = rename oe u' -> t' = u').
Proof.
  intros P Q St eqS empty feat final lhs g EQ R G. destruct (rescorable_ok P Q St eqS empty feat final lhs g EQ R) as (og & oe & on & st & E & _ & _ & I).
  exists og, oe. split; [exact E|]. exact (intersection_goal _ _ _ _ _ _ _ _ _ _ _ I G).
Qed.
Print Assumptions C18_goal_derivations.

(** A tail without incoming edges makes the program read outside of an array:
    "every node which is a tail has an edge" is needed. *)
Definition dead_tail : hg nat := {|
  nodes := [mk_node 0 [] [0]; mk_node 1 [0] [1]; mk_node 2 [1] []];
  edges := [mk_edge [0] 1 5 0; mk_edge [1] 2 7 1] |}.
Theorem C18_dead_tail_refuted : topo dead_tail /\ wf_hg dead_tail /\
  forall (Q St : Type) eqS empty (feat : edge nat -> list St -> Q * St) final lhs, Rescore eqS empty feat final lhs dead_tail = None.
Proof.
  split; [|split].
  - intros n nd H. do 3 (destruct n as [|n]; [injection H as <-; cbn; split;
      [repeat constructor; cbn; intuition discriminate|
       intros e E; repeat (destruct E as [<-|E]; [eexists; split; [reflexivity|cbn; intros; lia]|]); destruct E]|]).
    destruct n; discriminate.
  - constructor.
    + intros n nd H. do 3 (destruct n as [|n]; [injection H as <-; reflexivity|]). destruct n; discriminate.
    + intros n nd H. do 2 (destruct n as [|n]; [injection H as <-; reflexivity|]). destruct n; discriminate.
    + intros n nd e H I. do 3 (destruct n as [|n]; [injection H as <-; cbn in I; repeat (destruct I as [<-|I]; [eexists; split; reflexivity|]); destruct I|]). destruct n; discriminate.
    + intros n nd H. do 3 (destruct n as [|n]; [injection H as <-; repeat constructor; cbn; intuition discriminate|]). destruct n; discriminate.
    + intros n nd e H I. do 3 (destruct n as [|n]; [injection H as <-; cbn in *; intuition lia|]). destruct n; discriminate.
    + intros n nd e H I. do 2 (destruct n as [|n]; [injection H as <-; cbn in *; intuition lia|]). destruct n; discriminate.
    + intros n nd H. do 2 (destruct n as [|n]; [injection H as <-; eexists; cbn; split; [reflexivity|lia]|]). destruct n; discriminate.
  - intros. reflexivity.
Qed.
Print Assumptions C18_dead_tail_refuted.

(** Two leaves with two edges each, a node over both, and the goal.  The state
    is the parity of the weight, the payload the weight and the antecedents'
    states. *)
Definition ex18 : hg nat := {|
  nodes := [mk_node 0 [0; 1] [4]; mk_node 1 [2; 3] [4]; mk_node 2 [4] [5]; mk_node 3 [5] []];
  edges := [mk_edge [] 0 2 0; mk_edge [] 0 3 1; mk_edge [] 1 4 2; mk_edge [] 1 6 3; mk_edge [0; 1] 2 1 4; mk_edge [2] 3 0 5] |}.
Definition ex_feat (ed : edge nat) (l : list nat) : (nat * list nat) * nat := ((lab ed, l), Nat.modulo (lab ed + fold_right Nat.add 0 l) 2).
Definition ex_final (ed : edge nat) (s : nat) : nat * list nat := (lab ed, [s]).
Example C18_ex_ok : rescorable ex18 /\ exists t, derives ex18 (length (nodes ex18) - 1) t.
Proof.
  split.
  - constructor.
    + intros n nd H. do 4 (destruct n as [|n]; [injection H as <-; cbn; split;
        [repeat constructor; cbn; intuition discriminate|
         intros e E; repeat (destruct E as [<-|E]; [eexists; split; [reflexivity|cbn; intros; lia]|]); destruct E]|]).
      destruct n; discriminate.
    + intros n nd e ed H I E. do 4 (destruct n as [|n]; [injection H as <-; cbn in I; repeat (destruct I as [<-|I]; [cbn in E; injection E as <-; reflexivity|]); destruct I|]). destruct n; discriminate.
    + intros n nd e ed t td H I E T TD. do 4 (destruct t as [|t]; [injection TD as <-; discriminate|]). destruct t; discriminate.
    + intros nd e ed H I E. injection H as <-. destruct I as [<-|[]]. injection E as <-. reflexivity.
    + split; [cbn; lia|]. eexists. split; reflexivity.
  - exists (Tree 5 [Tree 4 [Tree 1 []; Tree 2 []]]).
    eapply (d_edge ex18 3); [reflexivity|left; reflexivity|reflexivity|]. constructor; [|constructor].
    eapply (d_edge ex18 2); [reflexivity|left; reflexivity|reflexivity|]. constructor; [|constructor; [|constructor]].
    + eapply (d_edge ex18 0); [reflexivity|right; left; reflexivity|reflexivity|constructor].
    + eapply (d_edge ex18 1); [reflexivity|left; reflexivity|reflexivity|constructor].
Qed.
Example C18_ex : Rescore Nat.eqb 9 ex_feat ex_final (fun _ => 0%Z) ex18 = Some {|
  nodes := [mk_node 0 [0] [4]; mk_node 1 [1] [5]; mk_node 2 [2; 3] [4; 5]; mk_node 3 [4] [6]; mk_node 4 [5] [7]; mk_node 5 [6; 7] []];
  edges := [{| head := Some 0; tails := []; lab := (2, []); eid := 0 |}; {| head := Some 1; tails := []; lab := (3, []); eid := 1 |};
            {| head := Some 2; tails := []; lab := (4, []); eid := 2 |}; {| head := Some 2; tails := []; lab := (6, []); eid := 3 |};
            {| head := Some 3; tails := [0; 2]; lab := (1, [0; 0]); eid := 4 |}; {| head := Some 4; tails := [1; 2]; lab := (1, [1; 0]); eid := 5 |};
            {| head := Some 5; tails := [3]; lab := (0, [1]); eid := 6 |}; {| head := Some 5; tails := [4]; lab := (0, [0]); eid := 7 |}] |}.
Proof. reflexivity. Qed.
