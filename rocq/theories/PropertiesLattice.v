(** C38: distances in a lattice. *)
From Coq Require Import List ZArith Bool Lia.
From Verif Require Import Lattice LatticeSpec LatticeProofs.
Import ListNotations.
Open Scope Z_scope.

(** On a fresh lattice with forward arcs the computation touches no cell out of bounds, and
    the distance from i to j is the least number of arcs of a walk from i to j; when there
    is none, that to the first reachable position after j (99999999 if none is). *)
Theorem C38_distance : forall lat, forward lat -> Z.of_nat (length lat) < 99999999 ->
  exists d, ComputeDistances [] lat = Some d /\
  forall i j, 0 <= i <= Z.of_nat (length lat) -> 0 <= j <= Z.of_nat (length lat) ->
    exists v, Distance lat d i j = Some v /\ distance_of lat i j v.
Proof. exact distances. Qed.
Print Assumptions C38_distance.
(** The same for a reachable j. *)
Theorem C38_reachable : forall lat, forward lat -> Z.of_nat (length lat) < 99999999 ->
  exists d, ComputeDistances [] lat = Some d /\
  forall i j, reachable lat i j -> exists m, shortest lat i j m /\ Distance lat d i j = Some m.
Proof. exact distances_reachable. Qed.
Print Assumptions C38_reachable.
(** A plain sentence. *)
Theorem C38_sentence : forall L, Z.of_nat L < 99999999 ->
  exists d, ComputeDistances [] (repeat [1] L) = Some d /\
  forall i j, 0 <= i -> i < j <= Z.of_nat L -> Distance (repeat [1] L) d i j = Some (j - i).
Proof. exact sentence_distance. Qed.
Print Assumptions C38_sentence.
(** The distance of a position to itself is not 0 (it is, without the table). *)
Theorem C38_self_refuted : exists lat d, forward lat /\ ComputeDistances [] lat = Some d /\
  Distance lat d 0 0 = Some 1 /\ Distance lat [] 0 0 = Some 0.
Proof. exact self_refuted. Qed.
Print Assumptions C38_self_refuted.
(** Computing the distances again after a change keeps old ones: the table is resized, not
    cleared.  The second lattice is the sentence "a b"; its length is given as 1. *)
Theorem C38_recompute_refuted : exists lat1 lat2 d1 d2, forward lat1 /\ forward lat2 /\
  ComputeDistances [] lat1 = Some d1 /\ ComputeDistances d1 lat2 = Some d2 /\
  Distance lat2 d2 0 2 = Some 1 /\ shortest lat2 0 2 2.
Proof. exact recompute_refuted. Qed.
Print Assumptions C38_recompute_refuted.
(** Arcs 0→1, 0→3, 1→2, 3→4 and a dead end at 2: position 4 is two arcs away from 0. *)
Example C38_ex : exists d, ComputeDistances [] [[1; 3]; [1]; []; [1]] = Some d /\
  map (fun j => Distance [[1; 3]; [1]; []; [1]] d 0 j) [1; 2; 3; 4] = map Some [1; 2; 1; 2] /\
  Distance [[1; 3]; [1]; []; [1]] d 2 3 = Some 99999999 /\ forward [[1; 3]; [1]; []; [1]].
Proof.
  eexists. split; [vm_compute; reflexivity|]. split; [vm_compute; reflexivity|]. split; [vm_compute; reflexivity|].
  intros i j (k & alts & d & H & A & -> & ->). cbn [length]. destruct k as [|[|[|[|k]]]]; cbn in H; try (injection H as <-); cbn in A; try lia. destruct k; discriminate.
Qed.
