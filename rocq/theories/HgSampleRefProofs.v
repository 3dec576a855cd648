(** Witnesses for sampling derivations. *)
From Coq Require Import List Arith QArith Qcanon Permutation Lia.
From Verif Require Import Opt HG Deriv TopoSpec Inside Viterbi ViterbiProofs HgSample HgSampleSpec HgSampleProofs.
Import ListNotations.
Open Scope Qc_scope.

(** Words followed by the words of the tails, an edge being labelled with a word and its weight. *)
Definition said (ed : edge (nat * Qc)) (a : list (list nat)) (_ : list nat) : list nat := fst (lab ed) :: concat a.
Definition xe (h : nat) (ts : list nat) (w : nat) (q : Qc) (i : nat) : edge (nat * Qc) := {| head := Some h; tails := ts; lab := (w, q); eid := i |}.
Definition xn (i : nat) (ins outs : list nat) : node := {| nid := i; cat := 0%Z; in_edges := ins; out_edges := outs |}.
(** Node 0 in two ways (1:3), node 1 in one, the goal from node 0 and node 1 or as a whole. *)
Definition two_ways : hg (nat * Qc) := {| nodes := [xn 0 [0; 1] [3]; xn 1 [2] [3]; xn 2 [3; 4] []]%nat;
  edges := [xe 0 [] 10 1 0; xe 0 [] 11 (Q2Qc 3) 1; xe 1 [] 12 (Q2Qc (1 # 2)) 2; xe 2 [0; 1] 13 1 3; xe 2 [] 14 (Q2Qc 6) 4]%nat |}.
(** An edge with the same node twice among its tails. *)
Definition twice : hg (nat * Qc) := {| nodes := [xn 0 [0; 1] [2; 2]; xn 1 [2] []]%nat;
  edges := [xe 0 [] 10 1 0; xe 0 [] 11 1 1; xe 1 [0; 0] 12 1 2]%nat |}.
Ltac nodes_cases H := match type of H with nth_error _ ?n = Some _ => destruct n as [|[|[|[|[|n]]]]]; cbn in H; try discriminate; [injection H as <-..|destruct n; discriminate] end.
Ltac all_cases := intros; repeat match goal with H : nth_error _ ?n = Some _ |- _ => is_var n; destruct n as [|[|[|[|[|n]]]]]; cbn in H; try (destruct n; discriminate H); try discriminate H; injection H as <-; cbn in * end.
Lemma forest_ok : forall g, g = two_ways \/ g = twice -> topo g /\ wf_hg g /\ (forall n nd, nth_error (nodes g) n = Some nd -> in_edges nd <> []) /\ nodes g <> [] /\
  (forall e ed, nth_error (edges g) e = Some ed -> 0 < snd (lab ed)).
Proof.
  intros g [-> | ->].
  - split; [|split; [|split; [|split]]].
    + intros n nd H. all_cases; (split; [repeat constructor; cbn; intuition congruence|]; intros e I; repeat destruct I as [<-|I]; try contradiction; eexists; (split; [reflexivity|]); cbn; intros t T1; lia).
    + constructor; all_cases; cbn in *; try reflexivity; try (repeat match goal with H : _ \/ _ |- _ => destruct H as [<-|H] end; try contradiction; try (eexists; split; reflexivity); lia); try (repeat constructor; cbn; intuition congruence); try (eexists; split; [reflexivity|lia]).
    + all_cases; discriminate.
    + discriminate.
    + all_cases; reflexivity.
  - split; [|split; [|split; [|split]]].
    + intros n nd H. all_cases; (split; [repeat constructor; cbn; intuition congruence|]; intros e I; repeat destruct I as [<-|I]; try contradiction; eexists; (split; [reflexivity|]); cbn; intros t T1; lia).
    + constructor; all_cases; cbn in *; try reflexivity; try (repeat match goal with H : _ \/ _ |- _ => destruct H as [<-|H] end; try contradiction; try (eexists; split; reflexivity); lia); try (repeat constructor; cbn; intuition congruence); try (eexists; split; [reflexivity|lia]).
    + all_cases; discriminate.
    + discriminate.
    + all_cases; reflexivity.
Qed.
Lemma words_refuted : exists (g : hg (nat * Qc)) us h,
  topo g /\ wf_hg g /\ (forall n nd, nth_error (nodes g) n = Some nd -> in_edges nd <> []) /\ nodes g <> [] /\ (forall e ed, nth_error (edges g) e = Some ed -> 0 < snd (lab ed)) /\
  Forall (fun u => 0 <= u <= 1) us /\
  sample_hypotheses (fun ed => snd (lab ed)) (fun ed => fst (lab ed)) [] said g 9 1 us = Some ([h], []) /\
  forall t eds, derives g (length (nodes g) - 1) t -> map Some eds = map (nth_error (edges g)) (tree_edges t) ->
    Permutation (h_feats h) (map (fun ed => fst (lab ed)) eds) -> h_words h <> tree_eval g [] said t.
Proof.
  exists twice, [Q2Qc (1 # 4); Q2Qc (3 # 4)], {| h_feats := [12; 10; 11]%nat; h_score := 1; h_words := [12; 10; 10]%nat |}.
  destruct (forest_ok twice (or_intror eq_refl)) as (A & B & C & D & E). split; [exact A|]. split; [exact B|]. split; [exact C|]. split; [exact D|]. split; [exact E|].
  split; [repeat constructor; vm_compute; discriminate|]. split; [vm_compute; reflexivity|].
  intros t eds DT M PM W. destruct (dvs_all twice A (length (nodes twice) - 1)) as [_ AL]. apply AL in DT. vm_compute in DT.
  repeat match goal with H : _ \/ _ |- _ => destruct H as [<-|H] end; try contradiction; try discriminate W.
  cbn in M. destruct eds as [|e1 [|e2 [|e3 [|]]]]; try discriminate M. injection M as -> -> ->. cbn in PM. apply Permutation_in with (x := 11%nat) in PM; [|cbn; tauto]. cbn in PM. lia.
Qed.
