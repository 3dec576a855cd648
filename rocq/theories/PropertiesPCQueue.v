(** C30: the bounded producer/consumer queue, under every schedule. *)
From Coq Require Import List Arith.
From Verif Require Import PCQueue PCQueueProofs.
Import ListNotations.

(** Values come out in the order they went in, none lost, duplicated or
    invented, and never more than [size] wait in the queue. *)
Theorem C30_queue_fifo : forall (T : Type) size (init : list T) progs s,
  length init = size -> reachable size (start size init progs) s ->
  map snd (taken (q s)) = firstn (length (taken (q s))) (map snd (deposited (q s))) /\
  length (taken (q s)) <= length (deposited (q s)) <= length (taken (q s)) + size.
Proof. exact @fifo. Qed.
Print Assumptions C30_queue_fifo.

(** The calls a thread completed: a value went in for each Produce that
    returned and for no Produce that threw; each Consume that returned gave the
    value it took out, and one that threw took nothing out. *)
Theorem C30_queue_results : forall (T : Type) size (init : list T) progs s i t,
  length init = size -> reachable size (start size init progs) s ->
  nth_error (threads s) i = Some t -> at_ t = Idle ->
  of_thread i (deposited (q s)) = produced_results (results t) /\
  of_thread i (taken (q s)) = consumed_results (results t) /\
  exists done, nth_error progs i = Some (done ++ todo t) /\ Forall2 answers done (results t).
Proof. exact @accounting. Qed.
Print Assumptions C30_queue_results.

(** No two threads are ever about to touch the same slot, or the same cursor. *)
Theorem C30_queue_race_free : forall (T : Type) size (init : list T) progs s i j t u,
  length init = size -> reachable size (start size init progs) s ->
  i <> j -> nth_error (threads s) i = Some t -> nth_error (threads s) j = Some u ->
  (forall a b wa wb, slot_access s t = Some (a, wa) -> slot_access s u = Some (b, wb) -> a <> b) /\
  ~ (moves_producer_cursor t /\ moves_producer_cursor u) /\
  ~ (moves_consumer_cursor t /\ moves_consumer_cursor u).
Proof. exact @no_races. Qed.
Print Assumptions C30_queue_race_free.

Theorem C30_queue_in_bounds : forall (T : Type) size (init : list T) progs s,
  length init = size -> reachable size (start size init progs) s -> ~ out_of_bounds s.
Proof. exact @in_bounds. Qed.
Print Assumptions C30_queue_in_bounds.

(** A queue can only stop because everybody is done, or everybody left waits to
    add to a full queue, or everybody left waits to take from an empty one. *)
Theorem C30_queue_progress : forall (T : Type) size (init : list T) progs s,
  length init = size -> 0 < size -> reachable size (start size init progs) s ->
  (forall s', ~ step size s s') ->
  (forall i t, nth_error (threads s) i = Some t -> finished t) \/
  ((forall i t, nth_error (threads s) i = Some t -> finished t \/ waits_to_produce t) /\
   length (deposited (q s)) = length (taken (q s)) + size) \/
  ((forall i t, nth_error (threads s) i = Some t -> finished t \/ waits_to_consume t) /\
   map snd (taken (q s)) = map snd (deposited (q s))).
Proof. exact @progress. Qed.
Print Assumptions C30_queue_progress.

(** ** Examples: two producers and a consumer on a queue of one slot *)
Ltac call_ i := eapply reachable_cons; [eapply (st_call _ _ _ i); reflexivity|cbn].
Ltac in_ i := eapply reachable_cons; [eapply (st_inner _ _ _ i); [reflexivity|cbn; econstructor; cbn; solve [reflexivity | auto]]|cbn].
Ltac fin_ i := eapply reachable_cons; [eapply (st_final _ _ _ i); [reflexivity|cbn; econstructor]|cbn].

Example C30_example_run :
  exists s, reachable 1 (start 1 [0] [[Produce 7]; [Produce 8]; [Consume; Consume]]) s /\
    taken (q s) = [(2, 8); (2, 7)] /\ deposited (q s) = [(1, 8); (0, 7)] /\
    map results (threads s) = [[Produced 7]; [Produced 8]; [Consumed 8; Consumed 7]].
Proof.
  eexists. split.
  - call_ 0. call_ 1.
    in_ 1. in_ 1. in_ 1. in_ 1. in_ 1. fin_ 1.
    call_ 2. in_ 2. in_ 2. in_ 2. in_ 2. in_ 2. fin_ 2.
    in_ 0. in_ 0. in_ 0. in_ 0. in_ 0. fin_ 0.
    call_ 2. in_ 2. in_ 2. in_ 2. in_ 2. in_ 2. fin_ 2.
    apply r_start.
  - repeat split.
Qed.

(** A lone producer of two values stops waiting, with the queue full. *)
Example C30_example_full :
  exists s, reachable 1 (start 1 [0] [[Produce 7; Produce 8]]) s /\
    (forall s', ~ step 1 s s') /\ waits_to_produce (nth 0 (threads s) {| at_ := Idle; todo := []; results := [] |}).
Proof.
  eexists. split.
  - call_ 0. in_ 0. in_ 0. in_ 0. in_ 0. in_ 0. fin_ 0. call_ 0. apply r_start.
  - split.
    + intros s' H. inversion H as [? ? [|[|]] ? ? ? N I|? ? [|[|]] ? ? ? N I|? ? [|[|]] ? ? ? N I]; subst; cbn in *; try discriminate;
        injection N as <-; cbn in I; try discriminate; inversion I; cbn in *; discriminate.
    + exists 8. reflexivity.
Qed.
