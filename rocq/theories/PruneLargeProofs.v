(** A forest with more than a million edges loses its best derivation. *)
From Coq Require Import List Arith Bool Lia ZArith QArith Qcanon Lqa.
From Verif Require Import HG Deriv Inside TopoSpec Prune PruneSpec PruneProofs PruneMarginProofs PruneIOProofs.
Import ListNotations.
Local Open Scope nat_scope.

Definition ex_edge (ts : list nat) (h w i : nat) : edge nat := {| head := Some h; tails := ts; lab := w; eid := i |}.
Definition ex_node (i : nat) (es os : list nat) : node := {| nid := i; cat := 0%Z; in_edges := es; out_edges := os |}.
Definition ex_up (w : nat) : option Qc := Some (Q2Qc (inject_Z (Z.of_nat w))).
(** One node with [n] edges without tails; the last one is better. *)
Definition ex_big (n : nat) : hg nat := {|
  nodes := [ex_node 0 (seq 0 n) []];
  edges := map (fun k => ex_edge [] 0 (if S k =? n then 1 else 0) k) (seq 0 n) |}.

Lemma big_edge : forall n e ed, nth_error (edges (ex_big n)) e = Some ed <-> e < n /\ ed = ex_edge [] 0 (if S e =? n then 1 else 0) e.
Proof.
  intros n e ed. cbn [edges ex_big]. rewrite nth_error_map. destruct (Nat.lt_ge_cases e n) as [L|L].
  - rewrite (nth_error_nth' (seq 0 n) 0) by (rewrite seq_length; exact L). rewrite seq_nth by exact L. cbn [option_map Nat.add].
    split; [intros [= <-]; auto|intros (_ & ->); reflexivity].
  - rewrite (proj2 (nth_error_None (seq 0 n) e)) by (rewrite seq_length; exact L). split; [discriminate|intros (H & _); lia].
Qed.
Lemma big_node : forall n m nd, nth_error (nodes (ex_big n)) m = Some nd -> m = 0 /\ nd = ex_node 0 (seq 0 n) [].
Proof. intros n m nd H. destruct m as [|m]; [injection H as <-; auto|destruct m; discriminate]. Qed.
Lemma big_length : forall n, length (edges (ex_big n)) = n.
Proof. intros n. cbn [edges ex_big]. rewrite map_length, seq_length. reflexivity. Qed.
Lemma big_wf : forall n, wf_hg (ex_big n).
Proof.
  intros n. constructor.
  - intros m nd H. apply big_node in H. destruct H as (-> & ->). reflexivity.
  - intros e ed H. apply big_edge in H. destruct H as (_ & ->). reflexivity.
  - intros m nd e H I. apply big_node in H. destruct H as (-> & ->). cbn in I. apply in_seq in I.
    exists (ex_edge [] 0 (if S e =? n then 1 else 0) e). split; [apply big_edge; split; [lia|reflexivity]|reflexivity].
  - intros m nd H. apply big_node in H. destruct H as (-> & ->). apply seq_NoDup.
  - intros m nd e H I. apply big_node in H. destruct H as (-> & ->). destruct I.
  - intros e ed t H I. apply big_edge in H. destruct H as (_ & ->). destruct I.
  - intros e ed H. apply big_edge in H. destruct H as (_ & ->). exists 0. split; [reflexivity|cbn; lia].
Qed.
Lemma big_topo : forall n, topo (ex_big n).
Proof.
  intros n m nd H. apply big_node in H. destruct H as (-> & ->). split; [apply seq_NoDup|]. intros e I. cbn in I. apply in_seq in I.
  exists (ex_edge [] 0 (if S e =? n then 1 else 0) e). split; [apply big_edge; split; [lia|reflexivity]|]. intros t [].
Qed.
Lemma big_distinct : forall n, distinct_tails (ex_big n).
Proof. intros n e ed H. apply big_edge in H. destruct H as (_ & ->). constructor. Qed.
Lemma big_derives : forall n t, derives (ex_big n) (goal (ex_big n)) t <-> exists e, e < n /\ t = Tree e [].
Proof.
  intros n t. split.
  - intros D. inversion D as [? nd e ed ts N I ED F]; subst. apply big_edge in ED. destruct ED as (L & ->). inversion F; subst. exists e. auto.
  - intros (e & L & ->). econstructor; [reflexivity|apply in_seq; lia|apply big_edge; split; [exact L|reflexivity]|constructor].
Qed.
Lemma big_logprob : forall n e, e < n -> logprob ex_up (ex_big n) (Tree e []) = Some (if S e =? n then 1 else 0)%Qc.
Proof.
  intros n e L. cbn [logprob fold_left]. unfold logprob_of. rewrite (proj2 (big_edge n e _) (conj L eq_refl)). cbn [lab ex_edge]. destruct (S e =? n); reflexivity.
Qed.
Lemma big_best : forall n, 0 < n -> best ex_up (ex_big n) 1%Qc.
Proof.
  intros n L. split.
  - exists (Tree (n - 1) []). split; [apply big_derives; exists (n - 1); split; [lia|reflexivity]|]. rewrite big_logprob by lia.
    replace (S (n - 1) =? n) with true by (symmetry; apply Nat.eqb_eq; lia). reflexivity.
  - intros t x D W. apply big_derives in D. destruct D as (e & E & ->). rewrite big_logprob in W by exact E. assert (x = (if S e =? n then 1 else 0)%Qc) as -> by congruence. destruct (S e =? n); [apply Qcle_refl|]. intros Q. discriminate Q.
Qed.

Lemma big_lost : forall n, (1 < millionths n)%Qc -> exists g', PruneInsideOutside ex_up (Q2Qc 2) 0 None false (ex_big n) = Pruned (g', false) /\ ~ best ex_up g' 1%Qc.
Proof.
  intros n M. assert (L : 0 < n). { destruct n; [exfalso; revert M; unfold millionths, Qclt; rewrite q2qc; unfold Qlt; cbn; lia|lia]. }
  destruct (beam_ok ex_up (ex_big n) (big_wf n) (big_topo n) ltac:(discriminate) (big_distinct n) 1%Qc (big_best n L) (Q2Qc 2) None false) as (g' & E & _ & _ & (f & C1 & _ & C3) & _);
    [vm_compute; reflexivity|discriminate|].
  exists g'. split; [exact E|]. intros ((t' & D' & W') & _). apply C1 in D'. destruct D' as (t & D & K & ->).
  rewrite (carries_logprob ex_up (ex_big n) _ g' f C3 t D K) in W'. apply big_derives in D. destruct D as (e & EL & ->).
  rewrite big_logprob in W' by exact EL. destruct (Nat.eqb_spec (S e) n) as [EQ|]; [|discriminate].
  cbn [tree_edges flat_map app] in K. inversion K as [|? ? [(p & Q & _)|(u & DU & _ & (x & X & LE))] _]; subst; [discriminate|].
  apply big_derives in DU. destruct DU as (e' & EL' & ->). rewrite big_logprob in X by exact EL'.
  assert (XL : (x <= 1)%Qc) .
  { assert (x = (if S e' =? S e then 1 else 0)%Qc) as -> by congruence. destruct (S e' =? S e); [apply Qcle_refl|]. intros Q. discriminate Q. }
  clear -LE XL M. repeat qpush. nra.
Qed.
