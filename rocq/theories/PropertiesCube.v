(** C19: cube pruning pops each combination of antecedents at most once, and
    all of them when the pop limit allows. *)
From Coq Require Import List Arith Lia.
From Verif Require Import Cube CubeProofs.
Import ListNotations.

(** [es] are the edges of a node and [dims e] the numbers of hypotheses of the
    tails of [e].  For each of the three strategies, whichever element each pop
    takes: no assertion fails, no combination is popped twice, each is in range,
    and as many are popped as the limit allows; so if the limit is at least the
    number of combinations, every one is popped. *)
Theorem C19_cube_enumerates : forall (dims : nat -> list nat) (es : list nat) (st : strategy) (limit : nat),
  NoDup es -> (forall e, In e es -> Forall (fun k => 0 < k) (dims e)) ->
  exists q0, init dims st es = Some q0 /\ (exists res, loop dims st limit q0 res) /\
  forall res, loop dims st limit q0 res -> exists q, res = Some q /\
    NoDup (popped q) /\
    (forall e j, In (e, j) (popped q) -> In e es /\ Forall2 lt j (dims e)) /\
    length (popped q) = Nat.min limit (list_sum (map (fun e => fold_right Nat.mul 1 (dims e)) es)) /\
    (list_sum (map (fun e => fold_right Nat.mul 1 (dims e)) es) <= limit -> forall e j, In e es -> Forall2 lt j (dims e) -> In (e, j) (popped q)).
Proof. exact cube_enumerates. Qed.
Print Assumptions C19_cube_enumerates.

(** Two edges: one with tails of two and three hypotheses, one with one tail. *)
Definition ex_dims (e : nat) : list nat := match e with 0 => [2; 3] | _ => [2] end.
Example C19_ex_hyp : NoDup [0; 1] /\ (forall e, In e [0; 1] -> Forall (fun k => 0 < k) (ex_dims e)).
Proof. split; [repeat constructor; cbn; intuition discriminate|]. intros e [<-|[<-|[]]]; repeat constructor. Qed.
(** A run in which always the last element is popped. *)
Fixpoint run_last (st : strategy) (k : nat) (q : queue) : option queue :=
  match k, rev (heap q) with
  | S k', c :: r => match after_pop ex_dims st c (rev r) q with Some q' => run_last st k' q' | None => None end
  | _, _ => Some q
  end.
Example C19_ex_fast : option_map popped (match init ex_dims Fast [0; 1] with Some q => run_last Fast 10 q | None => None end) =
  Some [(0, [1; 0]); (0, [1; 1]); (0, [1; 2]); (0, [0; 2]); (0, [0; 1]); (0, [0; 0]); (1, [1]); (1, [0])].
Proof. reflexivity. Qed.
Example C19_ex_fast2 : option_map popped (match init ex_dims Fast2 [0; 1] with Some q => run_last Fast2 10 q | None => None end) =
  Some [(0, [1; 2]); (0, [1; 1]); (0, [1; 0]); (0, [0; 2]); (0, [0; 1]); (0, [0; 0]); (1, [1]); (1, [0])].
Proof. reflexivity. Qed.
