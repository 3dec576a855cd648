(** C13, C15 with the weight type the decoder uses. *)
From Coq Require Import List Arith Lia Reals Lra.
From Verif Require Import HG Deriv Inside InsideProofs OutsideProofs LogVal LogValProofs ProbProofs PropertiesInside PropertiesPush.
Import ListNotations.

(** With [prob_t] weights standing for the reals [w], the inside score of a
    node stands for the sum over derivations of the product of the reals. *)
Theorem C13_inside_prob : forall (P : Type) (weight : edge P -> lv) (w : edge P -> R) (g : hg P), topo g ->
  (forall e ed, nth_error (edges g) e = Some ed -> denotes (weight ed) (w ed)) ->
  exists sc, Inside lv_zero lv_add lv_mul weight g = Some sc /\ length sc = length (nodes g) /\
  forall n, n < length (nodes g) ->
    (exists L, all_derivations g n L) /\
    forall L, all_derivations g n L -> exists a, nth_error sc n = Some a /\ denotes a (sum 0%R Rplus (map (tree_weight Rmult (edge_weight 0%R w g)) L)).
Proof. exact inside_prob. Qed.
Print Assumptions C13_inside_prob.

(** Likewise for edge posteriors. *)
Theorem C15_edge_posteriors_prob : forall (P : Type) (weight : edge P -> lv) (w : edge P -> R) (g : hg P), topo g -> distinct_tails g -> ids_ok g -> length (nodes g) <> 0 ->
  (forall e ed, nth_error (edges g) e = Some ed -> denotes (weight ed) (w ed)) ->
  exists sc posts, EdgePosteriors lv_zero lv_one lv_add lv_mul weight g = Some (sc, posts) /\
    (exists L, all_derivations g (length (nodes g) - 1) L) /\
    forall L, all_derivations g (length (nodes g) - 1) L -> forall x, x < length (edges g) ->
      exists a, nth_error posts x = Some a /\ denotes a (sum 0%R Rplus (map (fun t =>
        (INR (uses (fun e => Nat.eqb e x) t) * tree_weight Rmult (edge_weight 0%R w g) t)%R) L)).
Proof. exact posteriors_prob. Qed.
Print Assumptions C15_edge_posteriors_prob.

Definition lv_of_value (ed : edge lv) : R := nth (eid ed) [2%R; 3%R; 5%R; 7%R; 11%R] 0%R.
Example C13_C15_ex : topo ex_push /\ (forall e ed, nth_error (edges ex_push) e = Some ed -> denotes (lab ed) (lv_of_value ed)).
Proof.
  split; [exact (proj1 C17_ex)|].
  intros e ed H. do 5 (destruct e as [|e]; [injection H as <-; unfold lv_of_value, mkp; cbn [eid nth lab]; apply of_denotes; unfold sign_ok; lra|]). destruct e; discriminate.
Qed.
